(** Properties C49, C72, C73: coherent synchrotron radiation. *)
From Coq Require Import QArith Qround Qreals Reals List Arith Lqa Lra Lia.
From Coquelicot Require Import Coquelicot.
From Verif Require Import Model_Float32 Model_Push Model_Bunch Model_CSR Spec_CSR Proofs_CSR
  Proofs_CSR2 Proofs_CSR3 Proofs_CSR4 Proofs_CSR5 Proofs_CSR6 Proofs_CSR7 Proofs_CSR8
  Proofs_CSR9 Proofs_CSR10 Proofs_CSR11.
Import ListNotations.
Open Scope R_scope.

(** ** C49: the steps divide the element *)
(** After any history without [Clear], the step assigned to a new element is at most the one
    requested and fits an integer number of times between outputs and in the element; the
    spacing of the trajectory is at most the one requested and divides the step. *)
Theorem C49_steps l e : List.Forall ok_op l -> ~ In Clear l ->
  (forall a, In a (lattice l) -> e_id a <> e_id e) -> ok_op (Add e) ->
  let c := run noround (l ++ [Add e]) in
  let ds := get_csr_step c e in
  let dt := snd (steps_of c e) in
  (0 < ds /\ ds <= c_step c /\ 0 < dt /\ dt <= c_traj_step c /\
   (exists k, (0 < k)%nat /\ e_length e == qn k * ds /\
      match e_n_out e with Some n => exists j, k = (n * j)%nat | None => True end) /\
   (exists m, (0 < m)%nat /\ ds == qn m * dt))%Q.
Proof.
  intros Hl Hc Hid [HL Hn] c ds dt.
  assert (W : wf (run noround l)) by (apply wf_run; [intros x Hx; exact Hx|exact wf0|exact Hl]).
  destruct W as (W1 & W2 & _). pose proof (own_step l e Hc Hid) as E. fold c in E.
  assert (S1 : c_step c = c_step (run noround l)) by (unfold c; rewrite run_snoc; reflexivity).
  assert (S2 : c_traj_step c = c_traj_step (run noround l)) by (unfold c; rewrite run_snoc; reflexivity).
  unfold ds, dt, get_csr_step. rewrite E, S1, S2. exact (steps_exact _ _ _ _ W1 W2 HL Hn).
Qed.
(** With such a step, the tracking loop does all k steps and outputs exactly at the n equidistant
    positions requested. *)
Theorem C49_outputs L n_out ds k : (0 < ds)%Q -> (0 < k)%nat -> (L == qn k * ds)%Q ->
  n_out <> Some 0%nat ->
  match n_out with Some n => exists j, k = (n * j)%nat | None => True end ->
  exists outs, determine_steps noround L n_out (Some ds) = Some (ds, k, outs) /\
    forall i, In i outs <->
      match n_out with
      | None => False
      | Some n => (i < k)%nat /\
          exists p, (1 <= p <= n)%nat /\ (qn (i + 1) * ds == qn p * (L / qn n))%Q
      end.
Proof. exact (plan_csr L n_out ds k). Qed.
(** In floating point the last step is lost for some lengths: an element of 0.61 m with steps
    of at most 0.1 m is divided into 7 steps, of which 6 are done. *)
Theorem C49_rounding_refuted : exists L cs ts,
  L = f64 (61 # 100) /\ cs = f64 (1 # 10) /\ ts = f64 (5 # 10000) /\
  forall n_out, n_out = None \/ n_out = Some 1%nat ->
  let ds := fst (element_steps f64 cs ts L n_out) in
  exists outs, determine_steps f64 L n_out (Some ds) = Some (ds, 6%nat, outs) /\
    (qn 6 * ds < (9 # 10) * L)%Q.
Proof.
  exists (f64 (61 # 100)), (f64 (1 # 10)), (f64 (5 # 10000)).
  split; [reflexivity|]. split; [reflexivity|]. split; [reflexivity|].
  intros n_out [->| ->]; eexists; split; vm_compute; reflexivity.
Qed.
(** The trajectory table after any history: it starts at the origin, the path length increases
    up to the length of the lattice, neighbouring points are no further apart than the path
    between them, tangents have unit length. *)
Theorem C49_table rnd l : (forall x, (0 < x)%Q -> (0 < rnd x)%Q) -> List.Forall ok_op l -> lattice l <> [] ->
  exists t, c_traj (run rnd l) = Some t /\ hd_error t = Some origin /\ increasing t /\
    List.Forall unit_tangent t /\ t_s (last t origin) = total_length (lattice l).
Proof. intros Hr. exact (table rnd Hr l). Qed.
(** The points added for an element are equidistant points of the arc that starts at the last
    point. *)
Theorem C49_points rnd l e : (forall x, (0 < x)%Q -> (0 < rnd x)%Q) -> List.Forall ok_op l -> ok_op (Add e) ->
  let old := match c_traj (run rnd l) with None => [origin] | Some t => t end in
  exists n, (0 < n)%nat /\ c_traj (run rnd (l ++ [Add e])) =
    Some (old ++ map (fun k => arc_point (last old origin) (Q2R (e_length e)) (e_theta e)
                                 (INR (S k) * (Q2R (e_length e) / INR n))) (seq 0 n)).
Proof. exact (add_points rnd l e). Qed.
(** The arc: it starts at the point, its velocity is its tangent, and the tangent turns
    uniformly by the bending angle. *)
Theorem C49_arc p L th l phi : L <> 0 -> t_ex p = sin phi -> t_ey p = 0 -> t_ez p = cos phi ->
  arc_point p L th 0 = p /\ t_s (arc_point p L th l) = t_s p + l /\
  (is_derive (fun l => t_x (arc_point p L th l)) l (t_ex (arc_point p L th l)) /\
   is_derive (fun l => t_y (arc_point p L th l)) l (t_ey (arc_point p L th l)) /\
   is_derive (fun l => t_z (arc_point p L th l)) l (t_ez (arc_point p L th l))) /\
  t_ex (arc_point p L th l) = sin (phi + th * l / L) /\
  t_ez (arc_point p L th l) = cos (phi + th * l / L).
Proof.
  intros HL Hx Hy Hz. split; [apply arc_0|]. split; [apply arc_s|].
  split; [exact (arc_moves p L th l HL Hy)|exact (arc_turns p L th l phi HL Hx Hz)].
Qed.
(** The kicks of the k steps of an element together use every point of the element once: step
    i uses the m points between its start and its end. *)
Theorem C49_ranges l e : List.Forall ok_op l -> ~ In Clear l ->
  (forall a, In a (lattice l) -> e_id a <> e_id e) -> ok_op (Add e) ->
  let c := run noround (l ++ [Add e]) in
  let old := match c_traj (run noround l) with None => [origin] | Some t => t end in
  exists k m t, (0 < k)%nat /\ (0 < m)%nat /\
    (e_length e == qn k * get_csr_step c e)%Q /\ c_traj c = Some t /\
    length t = (length old + k * m)%nat /\
    forall i, (i < k)%nat -> it_range c e (INR (i + 1) * Q2R (get_csr_step c e)) =
      seq (length old + i * m) m.
Proof. exact (ranges_run l e). Qed.
(** Clearing forgets the trajectory and the elements, and keeps the settings ... *)
Theorem C49_clear_partial rnd l : let c := run rnd l in let c' := run rnd (l ++ [Clear]) in
  c_traj c' = None /\ c_elems c' = [] /\ c_steps c' = [] /\
  c_step c' = c_step c /\ c_traj_step c' = c_traj_step c /\ c_bins c' = c_bins c.
Proof. cbv zeta. rewrite run_snoc. repeat split; reflexivity. Qed.
(** ... but not the step sizes: a short element after a long one gets the step of the long one,
    and no tracking step is done in it. *)
Theorem C49_clear_refuted : exists e1 e2,
  let c := run noround [Add e1; Clear; Add e2] in
  let fresh := run noround [Add e2] in
  ok_op (Add e1) /\ ok_op (Add e2) /\
  get_csr_step fresh e2 = e_length e2 /\ (e_length e2 < get_csr_step c e2)%Q /\
  determine_steps noround (e_length e2) None (Some (get_csr_step c e2)) =
    Some (get_csr_step c e2, 0%nat, []) /\
  determine_steps noround (e_length e2) None (Some (get_csr_step fresh e2)) =
    Some (e_length e2, 1%nat, []).
Proof.
  exists (mkel 1 1 0 0 0 None true None 2), (mkel 2 (1 # 20) 0 0 0 None true None 2).
  cbv zeta. split; [split; [reflexivity|discriminate]|]. split; [split; [reflexivity|discriminate]|].
  split; [reflexivity|]. split; [vm_compute; reflexivity|]. split; vm_compute; reflexivity.
Qed.

(** ** C72: the kernel *)
(** The retarded distance to the observer grows strictly along the trajectory and is negative
    before the observer, so that the tables that are interpolated are increasing. *)
Theorem C72_distance t gamma i j k : increasing t -> 1 < gamma -> (j < k <= i)%nat -> (i < length t)%nat ->
  let w a := retard (beta_r gamma) (nth i t origin) (nth a t origin) in
  w j < w k /\ w j < 0 /\ w i = 0.
Proof.
  intros It Hg Hjk Hi w. destruct (beta_range gamma Hg) as (_ & B1 & B2). split; [|split].
  - apply retard_increasing; [exact It|lra|lia].
  - apply retard_neg; [exact It|exact Hg|lia].
  - apply retard_self.
Qed.
(** The search for the first point to be used does not change the result. *)
Theorem C72_start i t wmin gamma : (i < length t)%nat -> wmin < 0 ->
  long_range i t wmin gamma = long_range_from 0 i t wmin gamma.
Proof. exact (estimate_free i t wmin gamma). Qed.
(** The table: for every point from the last one outside the window up to the observer, the
    retarded distance and the integral of the field from there to the observer. *)
Theorem C72_long_range i t wmin gamma :
  increasing t -> (0 < i < length t)%nat -> 1 < gamma -> wmin < 0 ->
  exists j0, (j0 < i)%nat /\
    (j0 = 0%nat \/ retard (beta_r gamma) (nth i t origin) (nth j0 t origin) <= wmin) /\
    (forall j, (j0 < j < i)%nat -> wmin < retard (beta_r gamma) (nth i t origin) (nth j t origin)) /\
    let pts := firstn (i - j0) (skipn j0 t) in
    long_range i t wmin gamma =
      (map (retard (beta_r gamma) (nth i t origin)) pts,
       map (fun j => trapz (field_of gamma (nth i t origin)) (nth i t origin) (skipn j pts))
         (seq 0 (i - j0))).
Proof. exact (long_range_spec i t wmin gamma). Qed.
(** Before the start of the trajectory the charges move on a straight line: the closed formula
    is the integral of the field along it.  (Exact if the observer is on the line, or at least
    3e-4 of its distance away from it.) *)
Theorem C72_short_range t i gamma s0 s1 s :
  increasing t -> List.Forall unit_tangent t -> (0 < i < length t)%nat -> 1 < gamma ->
  let first := nth 0 t origin in
  let cur := nth i t origin in
  let w s := retard (beta_r gamma) cur (before first s) in
  s0 <= t_s first -> s <= t_s first ->
  (perp first cur = 0 /\ 0 < dot (vminus (pos cur) (pos first)) (tan first)) \/
  1 / 10 ^ 7 < perp first cur ^ 2 / dist cur (before first s1) ^ 2 ->
  is_derive (fun s => short_at i t gamma (w s0) (w s1) (w s)) s
    (field_of gamma cur (before first s)) /\
  short_at i t gamma (w s0) (w s1) (w s0) = 0.
Proof. exact (short_exact t i gamma s0 s1 s). Qed.
(** The kernel: second differences of the integral of the field, over the width of a bin and
    4 pi eps0. *)
Theorem C72_kernel i t n bs gamma : (0 < i < length t)%nat -> increasing t -> 1 < gamma ->
  (0 < n)%nat -> 0 < bs ->
  let w0 := - INR n * bs in
  let '(w, ks) := long_range i t w0 gamma in
  let f k := if Nat.ltb k n
    then from_distance i t gamma w0 (Rmin ((1 - INR n) * bs) (list_min w)) w ks ((INR k - INR n) * bs)
    else 0 in
  kernel i t n bs gamma =
  map (fun k => (f (k + 2)%nat - 2 * f (k + 1)%nat + f k) / bs / (1 / (1 / 10 ^ 7 * 299792458 ^ 2)))
    (seq 0 n).
Proof. exact (kernel_spec i t n bs gamma). Qed.

(** Between the points of the table the integral is taken from the straight line through the two
    neighbours, beyond them from the nearest point. *)
Theorem C72_interpolation xs fs x : length xs = length fs -> (0 < length xs)%nat ->
  (forall i, (S i < length xs)%nat -> nth i xs 0 < nth (S i) xs 0) ->
  (x <= nth 0 xs 0 -> interp xs fs x = nth 0 fs 0) /\
  (nth (length xs - 1) xs 0 <= x -> interp xs fs x = nth (length xs - 1) fs 0) /\
  (forall i, (S i < length xs)%nat -> nth i xs 0 <= x <= nth (S i) xs 0 ->
     interp xs fs x = ((nth (S i) xs 0 - x) * nth i fs 0 + (x - nth i xs 0) * nth (S i) fs 0)
                      / (nth (S i) xs 0 - nth i xs 0)).
Proof. exact (interp_spec xs fs x). Qed.

(** ** C73: the kick *)
(** In a lattice without bends there is no kick. *)
Theorem C73_straight rnd l e po gamma q cols cols' :
  (forall x, (0 < x)%Q -> (0 < rnd x)%Q) -> List.Forall ok_op l -> lattice l <> [] ->
  (forall a, In a (lattice l) -> e_theta a = 0) -> 1 < gamma -> (0 < c_bins (run rnd l))%nat ->
  cols_ok cols -> apply_csr (run rnd l) e po gamma q cols = Some cols' -> cols' = cols.
Proof. exact (straight_apply rnd l e po gamma q cols cols'). Qed.
(** At every step of an element the kick is defined. *)
Theorem C73_defined l e gamma q cols i : List.Forall ok_op l -> ~ In Clear l ->
  (forall a, In a (lattice l) -> e_id a <> e_id e) -> ok_op (Add e) ->
  let c := run noround (l ++ [Add e]) in
  (qn (i + 1) * get_csr_step c e <= e_length e)%Q ->
  exists cols', apply_csr c e (INR (i + 1) * Q2R (get_csr_step c e)) gamma q cols = Some cols'.
Proof. exact (apply_some l e gamma q cols i). Qed.
(** Only the energy of a particle changes, by an amount that depends only on its longitudinal
    coordinate. *)
Theorem C73_energy_only c e po gamma q cols cols' : apply_csr c e po gamma q cols = Some cols' ->
  length cols' = length cols /\
  exists kick : R -> R, forall p, (p < length cols)%nat ->
    nth p cols' [] = let v := nth p cols [] in
      [nth 0 v 0; nth 1 v 0; nth 2 v 0; nth 3 v 0; nth 4 v 0; nth 5 v 0 + kick (nth 4 v 0)].
Proof. exact (apply_spec c e po gamma q cols cols'). Qed.
(** The kick is proportional to the charge. *)
Theorem C73_charge a c e po gamma z q : a <> 0 -> sum q <> 0 -> length z = length q -> (0 < c_bins c)%nat ->
  csr_kick c e po gamma z (map (Rmult a) q) =
  option_map (map (Rmult a)) (csr_kick c e po gamma z q).
Proof. exact (kick_scale a c e po gamma z q). Qed.
(** The histogram contains the charge of the bunch, every particle in the bin that encloses it. *)
Theorem C73_histogram z q n : (0 < n)%nat -> length z = length q ->
  sum (histogram z q n) = sum q /\
  (forall k, (k < n)%nat -> nth k (histogram z q n) 0 =
     sum (map2 (fun v a => if Nat.eqb (bin_of z n v) k then a else 0) z q)) /\
  forall v, In v z -> (bin_of z n v < n)%nat /\
    bin_edge z n (bin_of z n v) <= v <= bin_edge z n (S (bin_of z n v)).
Proof.
  intros Hn Hl. split; [exact (hist_total z q n Hn Hl)|]. split.
  - intros k Hk. unfold histogram. rewrite nth_map_seq by exact Hk. reflexivity.
  - intros v Hv. split; [apply bin_of_lt; exact Hn|apply bin_encloses; assumption].
Qed.
(** The bins have equal widths and cover the particles, or the unit interval around them if all
    are at the same place. *)
Theorem C73_range z n : z <> [] -> (0 < n)%nat ->
  (forall k, bin_edge z n (S k) - bin_edge z n k = bin_width z n) /\
  ((exists v, (forall u, In u z -> u = v) /\
      bin_edge z n 0 = v - / 2 /\ bin_edge z n n = v + / 2) \/
   (In (bin_edge z n 0) z /\ In (bin_edge z n n) z /\ bin_edge z n 0 < bin_edge z n n /\
    forall u, In u z -> bin_edge z n 0 <= u <= bin_edge z n n)).
Proof.
  intros Hz Hn. assert (INR n <> 0) by (apply not_0_INR; lia). split.
  { intros k. unfold bin_edge, bin_width. rewrite S_INR. ring. }
  assert (E0 : bin_edge z n 0 = hist_lo z) by (unfold bin_edge; cbn [INR]; ring).
  assert (E1 : bin_edge z n n = hist_hi z) by (unfold bin_edge; field; assumption).
  assert (B : forall u, In u z -> list_min z <= u <= list_max z).
  { intros u Hu. split; [apply list_min_le|apply list_max_ge]; exact Hu. }
  pose proof (hist_range z) as HR. rewrite E0, E1. revert HR. unfold hist_lo, hist_hi.
  destruct (Req_EM_T (list_min z) (list_max z)) as [E|E]; intros HR.
  - left. exists (list_min z). split; [|split; [lra|rewrite <- E; lra]].
    intros u Hu. apply B in Hu. lra.
  - right. split; [|split; [|split; [exact HR|exact B]]].
    + apply list_min_in. exact Hz.
    + apply list_max_in. exact Hz.
Qed.
(** The smoothed profile is a sum of Gaussians around the centres of the bins. *)
Theorem C73_smoothing z q n j : (0 < n)%nat -> length z = length q -> sum q <> 0 -> (j < n)%nat ->
  profile z q n j =
  gaussian_density (map (bin_center z n) (seq 0 n)) (histogram z q n)
    (Rpower (INR (length q)) (- 1 / 5)) (bin_center z n j) * bin_width z n * sum q.
Proof.
  intros Hn Hl Hs Hj. unfold profile. rewrite kde_spec by (rewrite hist_total by assumption; exact Hs).
  rewrite map_map. rewrite nth_map_seq by exact Hj. reflexivity.
Qed.
(** The kick at the centre of bin m: the sum over the bins j up to m (charges behind the
    particle act on it, charges ahead of it do not) of the smoothed charge of bin j times the
    kernel m - j bins from its end, averaged over the points of the step. *)
Theorem C73_value c e po gamma z q t dp p m :
  c_traj c = Some t -> increasing t -> t <> [] -> 1 < gamma -> length z = length q -> (0 < c_bins c)%nat ->
  csr_kick c e po gamma z q = Some dp ->
  let n := c_bins c in
  let bs := bin_width z n in
  let its := it_range c e po in
  (p < length z)%nat -> (m < n)%nat -> nth p z 0 = bin_center z n m ->
  nth p dp 0 =
    sum (map (fun j => profile z q n j *
           (sum (map (fun it => nth (n - 1 - (m - j)) (kernel it t n bs gamma) 0) its)
            / INR (length its))) (seq 0 (S m)))
    * (Q2R (get_csr_step c e) / bs) / (10 ^ 9 * (sqrt (gamma ^ 2 - 1) * (511 / 10 ^ 6))).
Proof.
  intros A B C D E F G n bs its. exact (kick_value c e po gamma z q t A B C D E F dp p m G).
Qed.

(** Elsewhere it is interpolated between the centres of the two neighbouring bins; in the first
    half bin it is the one at the first centre, in the last half bin it is interpolated towards the
    value one bin further. *)
Theorem C73_between c e po gamma z q t dp p :
  c_traj c = Some t -> increasing t -> t <> [] -> 1 < gamma -> length z = length q -> (2 <= c_bins c)%nat ->
  csr_kick c e po gamma z q = Some dp -> (p < length z)%nat ->
  let n := c_bins c in
  let at_center := kick_at z q t n (it_range c e po) (Q2R (get_csr_step c e)) gamma in
  (nth p z 0 <= bin_center z n 0 -> nth p dp 0 = at_center 0%nat) /\
  (forall m, (m < n)%nat -> bin_center z n m <= nth p z 0 <= bin_center z n (S m) ->
     nth p dp 0 = ((bin_center z n (S m) - nth p z 0) * at_center m +
                   (nth p z 0 - bin_center z n m) * at_center (S m)) / bin_width z n).
Proof.
  intros A B C D E F G H n a. split.
  - intros Hz. exact (kick_below c e po gamma z q t A B C D E ltac:(lia) dp p G H Hz).
  - intros m Hm Hz. exact (kick_between c e po gamma z q t A B C D E ltac:(lia) dp p m G F H Hm Hz).
Qed.

(** ** Non-vacuity *)
Definition ex_bend : elem := mkel 1 (2 # 10) (1 / 10) 0 0 None true (Some 2%nat) 2.
Definition ex_drift : elem := mkel 2 (1 # 2) 0 0 0 None true None 2.
Example C49_example : List.Forall ok_op [Add ex_bend; Settings (3 # 10) (1 # 1000) 100] /\
  ~ In Clear [Add ex_bend; Settings (3 # 10) (1 # 1000) 100] /\
  (forall a, In a (lattice [Add ex_bend; Settings (3 # 10) (1 # 1000) 100]) -> e_id a <> e_id ex_drift) /\
  ok_op (Add ex_drift) /\
  lattice [Add ex_bend; Settings (3 # 10) (1 # 1000) 100] <> [] /\
  (get_csr_step (run noround ([Add ex_bend; Settings (3 # 10) (1 # 1000) 100] ++ [Add ex_drift])) ex_drift == 1 # 4)%Q.
Proof.
  split; [|split; [|split; [|split; [|split]]]].
  - constructor; [split; [reflexivity|discriminate]|]. constructor; [split; reflexivity|constructor].
  - intros [H|[H|[]]]; discriminate.
  - intros a [<-|[]]. discriminate.
  - split; [reflexivity|discriminate].
  - discriminate.
  - vm_compute. reflexivity.
Qed.
Example C72_example : let t := [origin; mktp 2 1 0 1 1 0 0] in
  increasing t /\ List.Forall unit_tangent t /\ (0 < 1 < length t)%nat /\
  1 / 10 ^ 7 < perp (nth 0 t origin) (nth 1 t origin) ^ 2 / dist (nth 1 t origin) (before (nth 0 t origin) 0) ^ 2.
Proof.
  cbv zeta. split; [|split; [|split]].
  - cbn. split; [lra|]. split; [|exact I].
    unfold dist. cbn. replace (2 - 0) with (sqrt (2 ^ 2)) by (rewrite sqrt_pow2; lra).
    apply sqrt_le_1_alt. lra.
  - repeat (apply List.Forall_cons || apply List.Forall_nil); unfold unit_tangent; cbn; ring.
  - cbn. lia.
  - unfold perp, dist, dot, vminus, pos, tan, before. cbn [nth origin t_s t_x t_y t_z t_ex t_ey t_ez fst snd].
    rewrite !pow2_sqrt by lra. lra.
Qed.
Example C73_example : nth 1 [0; 1; 2] 0 = bin_center [0; 1; 2] 1 0 /\
  sum [1; 1; 1] <> 0 /\ cols_ok [[0; 0; 0; 0; 1; 0]] /\ ok_op (Add ex_drift) /\ e_theta ex_drift = 0.
Proof.
  assert (M : list_min [0; 1; 2] = 0) by (cbn; unfold Rmin; repeat destruct (Rle_dec _ _); lra).
  assert (X : list_max [0; 1; 2] = 2) by (cbn; unfold Rmax; repeat destruct (Rle_dec _ _); lra).
  split; [|split; [|split; [|split]]].
  - unfold bin_center, bin_width, hist_lo, hist_hi. rewrite M, X. destruct (Req_EM_T 0 2); [lra|].
    cbn. lra.
  - unfold sum. cbn. lra.
  - constructor; [reflexivity|constructor].
  - split; [reflexivity|discriminate].
  - reflexivity.
Qed.

Print Assumptions C49_steps.
Print Assumptions C49_outputs.
Print Assumptions C49_rounding_refuted.
Print Assumptions C49_table.
Print Assumptions C49_points.
Print Assumptions C49_arc.
Print Assumptions C49_ranges.
Print Assumptions C49_clear_partial.
Print Assumptions C49_clear_refuted.
Print Assumptions C72_distance.
Print Assumptions C72_start.
Print Assumptions C72_long_range.
Print Assumptions C72_short_range.
Print Assumptions C72_kernel.
Print Assumptions C73_straight.
Print Assumptions C73_defined.
Print Assumptions C73_energy_only.
Print Assumptions C73_charge.
Print Assumptions C73_histogram. Print Assumptions C73_range.
Print Assumptions C73_smoothing.
Print Assumptions C73_value.
Print Assumptions C73_between.
Print Assumptions C72_interpolation.
