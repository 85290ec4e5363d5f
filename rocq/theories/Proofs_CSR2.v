(** Proofs about the trajectory table of the CSR calculator. *)
From Coq Require Import QArith Qround Qreals Reals List Arith Lqa Lra Lia ZArith.
From Verif Require Import Model_Float32 Model_Push Model_Bunch Model_CSR Spec_CSR Proofs_CSR.
Import ListNotations.
Open Scope R_scope.

Lemma sin_sq_le y : sin y ^ 2 <= y ^ 2.
Proof.
  assert (P : forall y, 0 < y -> sin y ^ 2 <= y ^ 2).
  { clear. intros y H. pose proof (sin_lt_x y H). pose proof (SIN_bound y).
    destruct (Rle_lt_dec y 1) as [G|G].
    - assert (0 < sin y) by (apply sin_gt_0; [exact H|]; pose proof PI2_1; lra). nra.
    - nra. }
  destruct (Rtotal_order y 0) as [H|[H|H]].
  - rewrite <- (Ropp_involutive y), sin_neg. specialize (P (- y) ltac:(lra)). nra.
  - subst. rewrite sin_0. lra.
  - apply P. exact H.
Qed.

Lemma arc_0 p L th : arc_point p L th 0 = p.
Proof.
  unfold arc_point. destruct p as [s x y z ex ey ez]. cbn [t_s t_x t_y t_z t_ex t_ey t_ez].
  destruct (Req_EM_T th 0); cbv zeta.
  - f_equal; ring.
  - unfold Rdiv. rewrite !Rmult_0_l, sin_0, cos_0. f_equal; ring.
Qed.
Lemma arc_s p L th l : t_s (arc_point p L th l) = t_s p + l.
Proof. unfold arc_point. destruct (Req_EM_T th 0); reflexivity. Qed.
Lemma arc_tangent p L th l : t_ey p = 0 ->
  t_ey (arc_point p L th l) = 0 /\ (unit_tangent p -> unit_tangent (arc_point p L th l)).
Proof.
  intros H. unfold arc_point, unit_tangent. destruct (Req_EM_T th 0); cbv zeta;
    cbn [t_s t_x t_y t_z t_ex t_ey t_ez].
  - tauto.
  - rewrite H. split; [ring|]. intros U.
    pose proof (sin2_cos2 (l / (L / th))) as T. unfold Rsqr in T.
    set (s := sin (l / (L / th))) in *. set (c := cos (l / (L / th))) in *.
    transitivity ((t_ex p ^ 2 + t_ez p ^ 2) * (s * s + c * c)); [ring|]. rewrite T.
    lra.
Qed.
Lemma omco u : 2 * sin (u / 2) ^ 2 = 1 - cos u.
Proof.
  replace (cos u) with (cos (2 * (u / 2))) by (f_equal; field). rewrite cos_2a_sin. ring.
Qed.
Lemma arc_dist p L th a b : 0 < L -> t_ey p = 0 -> unit_tangent p -> a <= b ->
  dist (arc_point p L th b) (arc_point p L th a) <= b - a.
Proof.
  intros HL Hy U H. unfold dist, arc_point, unit_tangent in *. rewrite Hy in U |- *.
  assert (K : forall d r, 0 <= r -> d <= r ^ 2 -> sqrt d <= r).
  { clear. intros d r Hr Hd. rewrite <- (sqrt_pow2 r Hr). apply sqrt_le_1_alt. exact Hd. }
  destruct (Req_EM_T th 0) as [E|E]; cbv zeta; cbn [t_s t_x t_y t_z t_ex t_ey t_ez].
  - apply K; [lra|]. right.
    transitivity ((t_ex p ^ 2 + 0 ^ 2 + t_ez p ^ 2) * (b - a) ^ 2); [ring|]. rewrite U. ring.
  - apply K; [lra|].
    set (rho := L / th). assert (Hr : rho <> 0) by (unfold rho; apply Rmult_integral_contrapositive;
      split; [lra|apply Rinv_neq_0_compat; exact E]).
    replace (a / (2 * rho)) with (a / rho / 2) by (field; exact Hr).
    replace (b / (2 * rho)) with (b / rho / 2) by (field; exact Hr).
    rewrite !omco. set (u := a / rho). set (v := b / rho).
    apply Rle_trans with (rho ^ 2 * ((sin v - sin u) ^ 2 + (cos v - cos u) ^ 2)).
    + right. transitivity ((t_ex p ^ 2 + 0 ^ 2 + t_ez p ^ 2)
        * (rho ^ 2 * ((sin v - sin u) ^ 2 + (cos v - cos u) ^ 2))); [ring|]. rewrite U. ring.
    + assert (A : (sin v - sin u) ^ 2 + (cos v - cos u) ^ 2 = 4 * sin ((v - u) / 2) ^ 2).
      { replace (4 * sin ((v - u) / 2) ^ 2) with (2 * (2 * sin ((v - u) / 2) ^ 2)) by ring.
        rewrite omco, cos_minus. pose proof (sin2_cos2 u). pose proof (sin2_cos2 v).
        unfold Rsqr in *. nra. }
      rewrite A. pose proof (sin_sq_le ((v - u) / 2)) as B.
      apply Rle_trans with (rho ^ 2 * (4 * ((v - u) / 2) ^ 2)).
      * apply Rmult_le_compat_l; [nra|]. lra.
      * right. unfold u, v. field. exact Hr.
Qed.

Lemma l_traj_eq L n k : (k < n)%nat -> l_traj L n k = INR (S k) * (L / INR n).
Proof.
  intros H. unfold l_traj. destruct (Nat.eqb_spec n 1) as [->|E].
  - assert (k = 0)%nat by lia. subst. cbn. field.
  - assert (0 < INR n) by (apply lt_0_INR; lia).
    assert (1 < INR n) by (apply (lt_INR 1 n); lia). rewrite S_INR. field. lra.
Qed.

Lemma increasing_cons a b r :
  increasing (a :: b :: r) <-> t_s a < t_s b /\ dist b a <= t_s b - t_s a /\ increasing (b :: r).
Proof. reflexivity. Qed.
Lemma increasing_app t r : t <> [] -> increasing t -> increasing (last t origin :: r) ->
  increasing (t ++ r).
Proof.
  intros Ht. induction t as [|a t IH]; [congruence|]. destruct t as [|b t].
  - intros _ H. exact H.
  - intros H1 H2. change (increasing (a :: b :: (t ++ r))). apply increasing_cons in H1.
    apply increasing_cons. destruct H1 as (A & B & C). repeat split; [exact A|exact B|].
    apply (IH ltac:(discriminate) C). exact H2.
Qed.
Lemma increasing_map (g : nat -> tp) a n :
  (forall k, t_s (g k) < t_s (g (S k)) /\ dist (g (S k)) (g k) <= t_s (g (S k)) - t_s (g k)) ->
  increasing (map g (seq a n)).
Proof.
  intros H. revert a. induction n as [|n IH]; intros a; [exact I|]. destruct n as [|n]; [exact I|].
  change (increasing (g a :: g (S a) :: map g (seq (S (S a)) n))). apply increasing_cons.
  destruct (H a). repeat split; try assumption. apply (IH (S a)).
Qed.

Lemma last_map {A} (f : nat -> A) n d : last (map f (seq 0 (S n))) d = f n.
Proof.
  rewrite seq_S, map_app. cbn [map Nat.add]. apply last_last.
Qed.
Lemma last_app_ne {A} (t r : list A) d : r <> [] -> last (t ++ r) d = last r d.
Proof.
  intros H. induction t as [|a t IH]; [reflexivity|]. cbn [app last]. rewrite IH.
  destruct (t ++ r) eqn:E; [|reflexivity]. apply app_eq_nil in E. tauto.
Qed.

(** The points of one element, appended to a table. *)
Definition points (start : tp) (L th : R) (n : nat) : list tp :=
  map (fun k => arc_point start L th (l_traj L n k)) (seq 0 n).
Lemma points_eq start L th n : points start L th n =
  map (fun k => arc_point start L th (INR k * (L / INR n))) (seq 1 n).
Proof.
  unfold points. rewrite <- seq_shift, map_map. apply map_ext_in. intros k Hk.
  apply in_seq in Hk. rewrite l_traj_eq by lia. reflexivity.
Qed.
Lemma points_increasing start L th n : (0 < n)%nat -> 0 < L -> t_ey start = 0 ->
  unit_tangent start -> increasing (start :: points start L th n).
Proof.
  intros Hn HL Hy U. rewrite points_eq.
  assert (E : start = arc_point start L th (INR 0 * (L / INR n)))
    by (cbn [INR]; rewrite Rmult_0_l, arc_0; reflexivity).
  rewrite E at 1.
  change (increasing (map (fun k => arc_point start L th (INR k * (L / INR n))) (seq 0 (S n)))).
  apply increasing_map. intros k. rewrite !arc_s, !S_INR.
  assert (0 < L / INR n) by (apply Rdiv_lt_0_compat; [exact HL|apply lt_0_INR; exact Hn]).
  split; [nra|]. replace (t_s start + (INR k + 1) * (L / INR n) - (t_s start + INR k * (L / INR n)))
    with ((INR k + 1) * (L / INR n) - INR k * (L / INR n)) by ring.
  apply arc_dist; try assumption. nra.
Qed.
Lemma points_last start L th n d : (0 < n)%nat -> t_s (last (points start L th n) d) = t_s start + L.
Proof.
  intros Hn. destruct n as [|n]; [lia|]. unfold points. rewrite last_map, arc_s.
  rewrite l_traj_eq by lia. field. apply not_0_INR. lia.
Qed.

Definition good_traj (t : list tp) (Ltot : R) : Prop :=
  hd_error t = Some origin /\ increasing t /\
  Forall (fun p => t_ey p = 0 /\ unit_tangent p) t /\ t_s (last t origin) = Ltot.
Lemma good_origin : good_traj [origin] 0.
Proof.
  repeat split. constructor; [|constructor]. split; [reflexivity|]. unfold unit_tangent.
  cbn. ring.
Qed.
Lemma last_in {A} (l : list A) d : l <> [] -> In (last l d) l.
Proof.
  induction l as [|a l IH]; [congruence|]. intros _. destruct l as [|b l]; [left; reflexivity|].
  right. apply IH. discriminate.
Qed.
Lemma good_extend t S L th n : good_traj t S -> (0 < n)%nat -> 0 < L ->
  good_traj (t ++ points (last t origin) L th n) (S + L).
Proof.
  intros (H1 & H2 & H3 & H4) Hn HL.
  assert (Ht : t <> []) by (destruct t; [discriminate|congruence]).
  destruct (proj1 (Forall_forall _ _) H3 _ (last_in t origin Ht)) as [Y U].
  assert (P : points (last t origin) L th n <> []).
  { intros E. apply (f_equal (@length tp)) in E. unfold points in E.
    rewrite map_length, seq_length in E. cbn in E. lia. }
  repeat split.
  - destruct t; [congruence|exact H1].
  - apply increasing_app; [exact Ht|exact H2|]. apply points_increasing; assumption.
  - apply Forall_app. split; [exact H3|]. unfold points. apply Forall_forall. intros p Hp.
    apply in_map_iff in Hp. destruct Hp as (k & <- & _).
    destruct (arc_tangent (last t origin) L th (l_traj L n k) Y) as [A B]. split; [exact A|].
    apply B. exact U.
  - rewrite last_app_ne by exact P. rewrite points_last by exact Hn. rewrite H4. reflexivity.
Qed.

(** ** The state of the calculator after any history *)
Section Hist.
Variable rnd : Q -> Q.
Hypothesis rnd_pos : forall x, (0 < x)%Q -> (0 < rnd x)%Q.

Lemma ceil_pos x : (0 < x)%Q -> (0 < Qceiling x)%Z.
Proof.
  intros H. rewrite Zlt_Qlt. apply Qlt_le_trans with x; [exact H|apply Qle_ceiling].
Qed.
Lemma inj_pos z : (0 < z)%Z -> (0 < inject_Z z)%Q.
Proof. intros H. change 0%Q with (inject_Z 0). rewrite <- Zlt_Qlt. exact H. Qed.
Lemma div_pos x y : (0 < x)%Q -> (0 < y)%Q -> (0 < x / y)%Q.
Proof. intros. apply Qlt_shift_div_l; [assumption|]. Lqa.lra. Qed.
Lemma steps_pos cs ts L n_out : (0 < cs)%Q -> (0 < ts)%Q -> (0 < L)%Q -> n_out <> Some 0%nat ->
  (0 < fst (element_steps rnd cs ts L n_out))%Q /\ (0 < snd (element_steps rnd cs ts L n_out))%Q.
Proof.
  intros Hc Ht HL Hn.
  assert (A : (0 < fst (element_steps rnd cs ts L n_out))%Q).
  { unfold element_steps. cbn [fst]. destruct n_out as [n|].
    - assert (0 < qn n)%Q by (apply qn_pos; destruct n; [congruence|lia]).
      apply rnd_pos, div_pos; [apply rnd_pos, div_pos; assumption|].
      apply inj_pos, ceil_pos, rnd_pos, div_pos; [|exact Hc]. apply rnd_pos, div_pos; assumption.
    - destruct (negb (Qle_bool cs L)); [exact HL|]. destruct (Qeq_bool _ 0); [exact Hc|].
      apply rnd_pos, div_pos; [exact HL|]. apply inj_pos, ceil_pos, rnd_pos, div_pos; assumption. }
  split; [exact A|]. unfold element_steps in *. cbn [snd fst] in *.
  apply rnd_pos, div_pos; [exact A|]. apply inj_pos, ceil_pos, rnd_pos, div_pos; [exact A|exact Ht].
Qed.

Lemma index_le l e : (index l e <= length l)%nat.
Proof. induction l as [|a l IH]; cbn; [lia|]. destruct (Nat.eqb _ _); lia. Qed.
Lemma index_in l e : (index (l ++ [e]) e <= length l)%nat.
Proof.
  induction l as [|a l IH]; cbn; [rewrite Nat.eqb_refl; lia|]. destruct (Nat.eqb _ _); lia.
Qed.

Definition wf (c : csr) : Prop :=
  (0 < c_step c)%Q /\ (0 < c_traj_step c)%Q /\
  Forall (fun p => 0 < fst p /\ 0 < snd p)%Q (c_traj_steps c) /\
  (length (c_elems c) <= length (c_traj_steps c))%nat /\
  match c_traj c with
  | None => c_elems c = []
  | Some t => good_traj t (total_length (c_elems c))
  end.

Lemma total_app l e : total_length (l ++ [e]) = total_length l + Q2R (e_length e).
Proof. unfold total_length. induction l as [|a l IH]; cbn; [ring|]. rewrite IH. ring. Qed.
Lemma Q2R_pos x : (0 < x)%Q -> 0 < Q2R x.
Proof. intros H. replace 0 with (Q2R 0) by (unfold Q2R; cbn; ring). apply Qlt_Rlt. exact H. Qed.

Lemma wf_op c o : wf c -> ok_op o -> wf (apply_op rnd c o).
Proof.
  intros (H1 & H2 & H3 & H4 & H5) Ho. destruct o as [e| |a b n].
  - destruct Ho as [HL Hn]. cbn [apply_op]. unfold add_lattice_element. cbv zeta.
    destruct (steps_pos _ _ _ _ H1 H2 HL Hn) as [S1 S2].
    set (st := element_steps rnd _ _ _ _) in *.
    assert (F : Forall (fun p => 0 < fst p /\ 0 < snd p)%Q (c_traj_steps c ++ [st])).
    { apply Forall_app. split; [exact H3|]. constructor; [split; assumption|constructor]. }
    unfold wf. cbn [c_traj c_elems c_steps c_traj_steps c_step c_traj_step c_bins].
    split; [exact H1|]. split; [exact H2|]. split; [exact F|].
    split; [rewrite !app_length; cbn; lia|].
    set (c1 := mkcsr _ _ _ _ _ _ _).
    assert (N : (0 < traj_points rnd (e_length e) (snd (steps_of c1 e)))%nat).
    { unfold traj_points. assert (0 < snd (steps_of c1 e))%Q.
      { unfold steps_of, c1. cbn [c_elems c_traj_steps].
        assert (I : (index (c_elems c ++ [e]) e < length (c_traj_steps c ++ [st]))%nat).
        { pose proof (index_in (c_elems c) e). rewrite app_length. cbn. lia. }
        apply (proj1 (Forall_forall _ _) F). apply nth_In. exact I. }
      pose proof (ceil_pos _ (rnd_pos _ (div_pos _ _ HL H))). lia. }
    rewrite total_app. change (map _ _) with (points (last (match c_traj c with None => [origin]
      | Some t => t end) origin) (Q2R (e_length e)) (e_theta e)
        (traj_points rnd (e_length e) (snd (steps_of c1 e)))).
    apply good_extend; [|exact N|apply Q2R_pos; exact HL].
    destruct (c_traj c) as [t|]; [exact H5|]. rewrite H5. exact good_origin.
  - unfold wf, apply_op, clear. cbn. repeat split; try assumption. lia.
  - destruct Ho. unfold wf, apply_op, set_settings. cbn. repeat split; assumption.
Qed.
Lemma wf_run l c : wf c -> Forall ok_op l -> wf (fold_left (apply_op rnd) l c).
Proof.
  intros H F. revert c H. induction F as [|o l Ho F IH]; intros c H; [exact H|].
  cbn [fold_left]. apply IH. apply wf_op; assumption.
Qed.
Lemma wf0 : wf csr0.
Proof. unfold wf, csr0. cbn. repeat split; try reflexivity; try Lqa.lra. all: try constructor; try lia. Qed.
Lemma elems_run l : c_elems (run rnd l) = lattice l.
Proof.
  unfold run, lattice.
  assert (G : forall c, c_elems (fold_left (apply_op rnd) l c) =
    fold_left (fun a o => match o with Add e => a ++ [e] | Clear => [] | Settings _ _ _ => a end)
      l (c_elems c)).
  { induction l as [|o l IH]; intros c; [reflexivity|]. cbn [fold_left]. rewrite IH. f_equal.
    destruct o; reflexivity. }
  apply G.
Qed.
Lemma table l : Forall ok_op l -> lattice l <> [] ->
  exists t, c_traj (run rnd l) = Some t /\ hd_error t = Some origin /\ increasing t /\
    Forall unit_tangent t /\ t_s (last t origin) = total_length (lattice l).
Proof.
  intros F N. pose proof (wf_run l csr0 wf0 F) as (_ & _ & _ & _ & H).
  fold (run rnd l) in H. rewrite elems_run in H. destruct (c_traj (run rnd l)) as [t|]; [|tauto].
  destruct H as (A & B & C & D). exists t. repeat split; try assumption.
  eapply Forall_impl; [|exact C]. cbn. tauto.
Qed.
End Hist.
