(** Reference trajectory, splitting, output positions. *)
From Coq Require Import QArith Qround Qreals Reals List Arith Lqa Lra Lia.
From Coquelicot Require Import Coquelicot.
From Verif Require Import Model_Push Model_Bunch Spec_Bunch Proofs_Bunch Model_Optics Spec_Optics
  Proofs_Optics Proofs_Optics3 Model_CSR Spec_CSR Proofs_CSR Proofs_CSR2 Proofs_CSR3 Proofs_CSR9
  Proofs_CSR10 Model_TM Spec_TM Proofs_TM Proofs_TM2.
Import ListNotations.
Open Scope R_scope.

(** ** Reference trajectory *)
Lemma new_theta_eq e b d : Q2R (e_length e) <> 0 ->
  new_theta e b d = ref_theta (theta_ref b) (e_theta e) (Q2R (e_length e)) d.
Proof.
  intros HL. unfold new_theta, ref_theta. destruct (Req_EM_T (e_theta e) 0) as [->|N]; [|reflexivity].
  field. exact HL.
Qed.
Lemma sign_eq t : t <> 0 -> - t / Rabs t = if Rlt_dec 0 t then -1 else 1.
Proof.
  intros H. destruct (Rlt_dec 0 t) as [P|P].
  - rewrite Rabs_right by lra. field. lra.
  - rewrite Rabs_left by lra. field. lra.
Qed.
Lemma new_x_general e b d : 0 < Q2R (e_length e) -> d <> 0 -> e_theta e <> 0 ->
  new_x e b d = x_ref b + (if Rlt_dec 0 d then 1 else -1) *
    (Q2R (e_length e) / e_theta e * (cos (theta_ref b) - cos (ref_theta (theta_ref b) (e_theta e) (Q2R (e_length e)) d))).
Proof.
  intros HL Hd N. unfold new_x. rewrite new_theta_eq by lra.
  destruct (Req_EM_T (e_theta e) 0) as [E|_]; [contradiction|]. cbv zeta.
  set (L := Q2R (e_length e)) in *. set (th := e_theta e) in *.
  assert (NZ : th * d / L <> 0).
  { unfold Rdiv. apply Rmult_integral_contrapositive_currified;
      [apply Rmult_integral_contrapositive_currified; assumption|apply Rinv_neq_0_compat; lra]. }
  rewrite sign_eq by exact NZ.
  assert (A : Rabs (L / th) = L / Rabs th).
  { unfold Rdiv. rewrite Rabs_mult, Rabs_inv, (Rabs_right L) by lra. reflexivity. }
  rewrite A.
  set (C := cos _ - cos _). replace (cos (theta_ref b) - cos (ref_theta (theta_ref b) th L d)) with (- C)
    by (unfold C; ring).
  assert (IL : 0 < / L) by (apply Rinv_0_lt_compat; exact HL).
  destruct (Rlt_dec 0 (th * d / L)) as [P|P]; destruct (Rlt_dec 0 d) as [D|D];
    destruct (Rlt_dec 0 th) as [T|T]; rewrite ?(Rabs_right th), ?(Rabs_left th) by lra;
    try (field; lra); exfalso; unfold Rdiv in P.
  - assert (th * d < 0) by nra. nra.
  - assert (th * d < 0) by nra. nra.
  - assert (0 < th * d) by nra. nra.
  - assert (0 < th * d) by nra. nra.
Qed.
Lemma new_x_eq e b d : 0 < Q2R (e_length e) -> 0 < d ->
  new_x e b d = ref_x (x_ref b) (theta_ref b) (e_theta e) (Q2R (e_length e)) d.
Proof.
  intros HL Hd. unfold ref_x. destruct (Req_EM_T (e_theta e) 0) as [E|N].
  - unfold new_x. destruct (Req_EM_T (e_theta e) 0); [reflexivity|contradiction].
  - rewrite new_x_general by (assumption || lra). destruct (Rlt_dec 0 d); [ring|lra].
Qed.
Lemma new_x_back e b d : 0 < Q2R (e_length e) -> 0 < d -> e_theta e <> 0 ->
  new_x e b (- d) = 2 * x_ref b - ref_x (x_ref b) (theta_ref b) (e_theta e) (Q2R (e_length e)) (- d).
Proof.
  intros HL Hd N. unfold ref_x. destruct (Req_EM_T (e_theta e) 0) as [E|_]; [contradiction|].
  rewrite new_x_general by (assumption || lra). destruct (Rlt_dec 0 (- d)); [lra|ring].
Qed.

Lemma ref_derive x0 th0 th L d : L <> 0 ->
  is_derive (fun d => ref_x x0 th0 th L d) d (sin (ref_theta th0 th L d)).
Proof.
  intros HL. unfold ref_x, ref_theta. destruct (Req_EM_T th 0) as [->|N].
  - replace (th0 + 0 * d / L) with th0 by (field; exact HL). auto_derive; [exact I|ring].
  - auto_derive; [exact I|]. unfold Rdiv. field. split; assumption.
Qed.
Lemma ref_add x0 th0 th L d1 d2 : L <> 0 ->
  ref_theta (ref_theta th0 th L d1) th L d2 = ref_theta th0 th L (d1 + d2) /\
  ref_x (ref_x x0 th0 th L d1) (ref_theta th0 th L d1) th L d2 = ref_x x0 th0 th L (d1 + d2).
Proof.
  intros HL. assert (E : ref_theta (ref_theta th0 th L d1) th L d2 = ref_theta th0 th L (d1 + d2)).
  { unfold ref_theta. field. exact HL. }
  split; [exact E|]. unfold ref_x. destruct (Req_EM_T th 0) as [->|N].
  - unfold ref_theta. replace (th0 + 0 * d1 / L) with th0 by (field; exact HL). ring.
  - rewrite E. ring.
Qed.
(** only the curvature matters *)
Lemma ref_scale x0 th0 th L th' L' d : L <> 0 -> L' <> 0 -> th' / L' = th / L ->
  ref_theta th0 th' L' d = ref_theta th0 th L d /\ ref_x x0 th0 th' L' d = ref_x x0 th0 th L d.
Proof.
  intros HL HL' E.
  assert (T : ref_theta th0 th' L' d = ref_theta th0 th L d).
  { unfold ref_theta. replace (th' * d / L') with (th' / L' * d) by (field; exact HL').
    rewrite E. field. exact HL. }
  split; [exact T|]. unfold ref_x. rewrite T.
  destruct (Req_EM_T th 0) as [Z|N]; destruct (Req_EM_T th' 0) as [Z'|N'].
  - reflexivity.
  - exfalso. apply N'. rewrite Z in E. replace th' with (th' / L' * L') by (field; exact HL'). rewrite E. field. exact HL.
  - exfalso. apply N. rewrite Z' in E. replace th with (th / L * L) by (field; exact HL). rewrite <- E. field. exact HL'.
  - replace (L' / th') with (/ (th' / L')) by (field; split; assumption). rewrite E.
    replace (/ (th / L)) with (L / th) by (field; split; assumption). reflexivity.
Qed.
Lemma ref_arc p x0 th0 th L d : L <> 0 -> t_x p = x0 -> t_ex p = sin th0 -> t_ez p = cos th0 ->
  t_x (arc_point p L th d) = ref_x x0 th0 th L d /\
  t_ex (arc_point p L th d) = sin (ref_theta th0 th L d) /\
  t_ez (arc_point p L th d) = cos (ref_theta th0 th L d).
Proof.
  intros HL Hx He Hz. destruct (arc_turns p L th d th0 HL He Hz) as [A B].
  split; [|split; [exact A|exact B]].
  unfold arc_point, ref_x, ref_theta. destruct (Req_EM_T th 0) as [E|E]; cbn [t_x].
  - rewrite Hx, He. ring.
  - rewrite Hx, He, Hz.
    assert (C : 2 * sin (d / (2 * (L / th))) ^ 2 = 1 - cos (th * d / L)).
    { replace (th * d / L) with (2 * (d / (2 * (L / th)))) by (field; split; assumption).
      rewrite cos_2a_sin. ring. }
    rewrite C. replace (d / (L / th)) with (th * d / L) by (field; split; assumption).
    rewrite cos_plus. ring.
Qed.

(** ** Frames *)
Lemma enter_reference xr th g : 1 < g -> enter xr th g (on_reference xr th g) = [0;0;0;0;0;0].
Proof.
  intros Hg. unfold enter, on_reference. cbn [x y xi px py pz].
  assert (P : 0 < sqrt (g ^ 2 - 1)) by (apply sqrt_lt_R0; nra).
  set (p0 := sqrt (g ^ 2 - 1)) in *.
  assert (P2 : p0 ^ 2 = g ^ 2 - 1) by (unfold p0; rewrite pow2_sqrt; nra).
  assert (B : 0 < rel_beta g) by (apply b_ref_pos; exact Hg).
  pose proof (sin2_cos2 th) as SC. unfold Rsqr in SC.
  replace (1 + (sin th * p0) ^ 2 + 0 ^ 2 + (cos th * p0) ^ 2) with (g ^ 2)
    by (transitivity (1 + (sin th * sin th + cos th * cos th) * p0 ^ 2); [rewrite SC, P2; ring|ring]).
  rewrite sqrt_pow2 by lra.
  f_equal; [ring|]. f_equal; [field; lra|]. f_equal. f_equal; [field; lra|]. f_equal; [ring|].
  f_equal. field. split; lra.
Qed.
Lemma leave_reference xr th g : 1 < g -> leave xr th g [0;0;0;0;0;0] = on_reference xr th g.
Proof.
  intros Hg. unfold leave, on_reference. cbn [nth].
  replace ((g + 0 * g * rel_beta g) ^ 2 - (0 * sqrt (g ^ 2 - 1)) ^ 2 - (0 * sqrt (g ^ 2 - 1)) ^ 2 - 1)
    with (g ^ 2 - 1) by ring.
  f_equal; ring.
Qed.
Lemma piece_zero e g l : piece e g l [0;0;0;0;0;0] = [0;0;0;0;0;0].
Proof.
  unfold piece, track_col.
  assert (Z : mat_vec (first_order_matrix l (Q2R (e_length e)) (- e_theta e) (e_k1 e) g) [0;0;0;0;0;0] = [0;0;0;0;0;0]).
  { rewrite first_nf. unfold mat_vec, sum6. cbn [map nth]. rewrite !Rmult_0_r, !Rplus_0_r. reflexivity. }
  rewrite Z. assert (Q : quad_form (second_order_matrix l (Q2R (e_length e)) (- e_theta e) (e_k1 e) (e_k2 e) g) [0;0;0;0;0;0] = [0;0;0;0;0;0]).
  { unfold quad_form. set (t := second_order_matrix _ _ _ _ _ _). clearbody t. unfold sum6. cbn [map seq nth].
    rewrite !Rmult_0_r, !Rplus_0_r. reflexivity. }
  rewrite Q. cbn [map2]. rewrite !Rplus_0_r. destruct (Nat.eqb (e_order e) 2); reflexivity.
Qed.

Lemma of6_part6 p : of6 (part6 p) = p. Proof. destruct p. reflexivity. Qed.
Lemma part6_of6 v : is_col v -> part6 (of6 v) = v.
Proof. intros Hv. apply col6 in Hv as (a & b & c & d & e & f & ->). reflexivity. Qed.
Lemma rot_eq th v : is_col v ->
  (if Req_EM_T th 0 then fun v => v else mat_vec (rotation_matrix_xz th)) v = mat_vec (rotation_matrix_xz th) v.
Proof. intros Hv. destruct (Req_EM_T th 0) as [->|N]; [|reflexivity]. symmetry. apply rotation_0. exact Hv. Qed.
Lemma rot_eq' th v : is_col v ->
  (if Req_EM_T th 0 then fun v => v else mat_vec (rotation_matrix_xz (- th))) v = mat_vec (rotation_matrix_xz (- th)) v.
Proof.
  intros Hv. destruct (Req_EM_T th 0) as [->|N]; [|reflexivity]. symmetry. rewrite Ropp_0. apply rotation_0. exact Hv.
Qed.
Lemma add_x_inv a v : is_col v -> add_x (- a) (add_x a v) = v /\ add_x a (add_x (- a) v) = v.
Proof.
  intros Hv. apply col6 in Hv as (u & b & c & d & e & f & ->). cbn. split; f_equal; ring.
Qed.

Lemma enter_leave xr th g v : 1 < g -> is_col v ->
  0 <= g + nth 5 v 0 * g * rel_beta g ->
  1 + (nth 1 v 0 * sqrt (g ^ 2 - 1)) ^ 2 + (nth 3 v 0 * sqrt (g ^ 2 - 1)) ^ 2 <= (g + nth 5 v 0 * g * rel_beta g) ^ 2 ->
  enter xr th g (leave xr th g v) = v.
Proof.
  intros Hg Hv H1 H2. rewrite <- leave_eq, <- enter_eq. rewrite rot_eq by reflexivity.
  rewrite part6_of6 by reflexivity.
  destruct (add_x_inv xr (mat_vec (rotation_matrix_xz th) (from_ocelot_col g v)) eq_refl) as [E _].
  rewrite E, rot_eq' by reflexivity. rewrite rotation_compose by reflexivity.
  rewrite Rplus_opp_l, rotation_0 by reflexivity.
  exact (ocelot_round_trip_back g v Hg Hv H1 H2).
Qed.
Lemma leave_enter xr th g p : 1 < g -> 0 <= cos th * pz p + sin th * px p ->
  leave xr th g (enter xr th g p) = p.
Proof.
  intros Hg Hp. rewrite <- enter_eq, <- leave_eq. rewrite rot_eq' by reflexivity.
  set (u := mat_vec (rotation_matrix_xz (- th)) (add_x (- xr) (part6 p))).
  assert (Hu : is_col u) by reflexivity.
  rewrite ocelot_round_trip by assumption.
  assert (P5 : 0 <= nth 5 u 0).
  { destruct (rotation_direction (- th) (add_x (- xr) (part6 p)) eq_refl) as (_ & _ & _ & H5).
    fold u in H5. rewrite H5, cos_neg, sin_neg. unfold add_x, part6. cbn [nth]. lra. }
  rewrite (Rabs_right (nth 5 u 0)) by lra. rewrite <- nth_col_eq by exact Hu. rewrite rot_eq by exact Hu.
  unfold u. rewrite rotation_compose by reflexivity. rewrite Rplus_opp_r, rotation_0 by reflexivity.
  destruct (add_x_inv xr (part6 p) eq_refl) as [_ ->]. apply of6_part6.
Qed.

(** ** Pieces *)
Lemma piece_add e g l1 l2 v : 1 < g -> is_col v -> e_order e <> 2%nat ->
  piece e g l2 (piece e g l1 v) = piece e g (l1 + l2) v.
Proof. intros. apply track_compose; assumption. Qed.
Lemma piece_iter e g l v k : 1 < g -> is_col v -> e_order e <> 2%nat ->
  iter (S k) (piece e g l) v = piece e g (INR (S k) * l) v.
Proof.
  intros Hg Hv Ho. induction k as [|k IH].
  - cbn [iter INR]. rewrite Rmult_1_l. reflexivity.
  - change (iter (S (S k)) (piece e g l) v) with (piece e g l (iter (S k) (piece e g l) v)).
    rewrite IH, piece_add by assumption. f_equal. rewrite (S_INR (S k)). ring.
Qed.
Lemma piece_same e e' g l v : e_order e = e_order e' -> e_order e <> 2%nat -> e_k1 e = e_k1 e' ->
  - e_theta e / Q2R (e_length e) = - e_theta e' / Q2R (e_length e') ->
  piece e g l v = piece e' g l v.
Proof.
  intros Ho H2 Hk Hh. unfold piece, track_col. rewrite <- Ho, (proj2 (Nat.eqb_neq _ _) H2).
  rewrite !first_nf, Hh, Hk. reflexivity.
Qed.

(** Without CSR. *)
Lemma evolves_off c e g l dir q n st : e_csr_on e = false -> evolves c e g l dir q n st ->
  forall i, (i <= n)%nat -> st i = map (iter i (piece e g l)) (st 0%nat).
Proof.
  intros Hc E. induction i as [|i IH]; intros Hi; [symmetry; apply map_id|].
  specialize (E i ltac:(lia)). cbv zeta in E. rewrite Hc in E. rewrite E, IH by lia. rewrite map_map. reflexivity.
Qed.

(** ** Output positions *)
Lemma existsb_In i l : existsb (Nat.eqb i) l = true <-> In i l.
Proof.
  rewrite existsb_exists. split.
  - intros (j & Hj & E). apply Nat.eqb_eq in E. subst. exact Hj.
  - intros H. exists i. split; [exact H|apply Nat.eqb_refl].
Qed.
Lemma filter_all {A} (f : A -> bool) l : (forall a, In a l -> f a = true) -> filter f l = l.
Proof.
  induction l as [|a l IH]; intros H; [reflexivity|]. cbn [filter]. rewrite H by (left; reflexivity).
  f_equal. apply IH. intros b Hb. apply H. right. exact Hb.
Qed.
Lemma filter_none {A} (f : A -> bool) l : (forall a, In a l -> f a = false) -> filter f l = [].
Proof.
  induction l as [|a l IH]; intros H; [reflexivity|]. cbn [filter]. rewrite H by (left; reflexivity).
  apply IH. intros b Hb. apply H. right. exact Hb.
Qed.
(** every j-th index *)
Lemma js_multiples outs n j : (0 < j)%nat ->
  (forall i, (i < n * j)%nat -> (In i outs <-> exists p, (i + 1 = p * j)%nat)) ->
  js_of outs (n * j) = map (fun p => ((p + 1) * j - 1)%nat) (seq 0 n).
Proof.
  intros Hj. unfold js_of. induction n as [|n IH]; intros H; [reflexivity|].
  replace (S n * j)%nat with (n * j + j)%nat by lia. rewrite seq_app, filter_app.
  rewrite IH by (intros i Hi; apply H; lia). rewrite seq_S, map_app. f_equal. cbn [map Nat.add].
  replace j with (j - 1 + 1)%nat at 2 by lia. rewrite seq_app, filter_app.
  rewrite filter_none.
  - cbn [app seq filter]. rewrite (proj2 (existsb_In _ _)); [f_equal; lia|].
    apply H; [lia|]. exists (n + 1)%nat. lia.
  - intros i Hi. apply in_seq in Hi. apply Bool.not_true_iff_false. rewrite existsb_In.
    intros F. apply H in F; [|lia]. destruct F as (p & F). 
    assert (n < p)%nat by (apply (Nat.mul_lt_mono_pos_r j); lia).
    assert (p < n + 1)%nat by (apply (Nat.mul_lt_mono_pos_r j); lia). lia.
Qed.

Lemma Q2R_qn n : Q2R (qn n) = INR n.
Proof. unfold qn, Q2R, inject_Z. cbn [Qnum Qden]. rewrite <- INR_IZR_INZ. field. Qed.
Lemma Q2R_div_qn L n : (0 < n)%nat -> Q2R (L / qn n) = Q2R L / INR n.
Proof.
  intros Hn. rewrite Q2R_div; [rewrite Q2R_qn; reflexivity|].
  intros F. pose proof (qn_pos n Hn) as P. rewrite F in P. apply (Qlt_irrefl 0 P).
Qed.

(** CSR off *)
Lemma plan_off L n : (0 < n)%nat ->
  exists outs, determine_steps noround L (Some n) None = Some ((L / qn n)%Q, n, outs) /\
    js_of outs n = seq 0 n.
Proof.
  intros Hn. exists (every n 1). unfold determine_steps. destruct n as [|n]; [lia|].
  cbn [Nat.eqb]. split; [reflexivity|]. unfold js_of. apply filter_all. intros i Hi. apply in_seq in Hi.
  apply existsb_In. apply every_in. split; [lia|]. apply Nat.mod_1_r.
Qed.
(** CSR on *)
Lemma plan_on L ds k n : (0 < ds)%Q -> (0 < k)%nat -> (L == qn k * ds)%Q -> (0 < n)%nat ->
  (exists j, k = (n * j)%nat) ->
  exists outs j, determine_steps noround L (Some n) (Some ds) = Some (ds, k, outs) /\
    k = (n * j)%nat /\ (0 < j)%nat /\ js_of outs k = map (fun p => ((p + 1) * j - 1)%nat) (seq 0 n).
Proof.
  intros Hd Hk HL Hn [j Hj].
  destruct (plan_csr L (Some n) ds k Hd Hk HL) as (outs & E & H); [intros F; injection F as F; lia|exists j; exact Hj|].
  exists outs, j. split; [exact E|]. split; [exact Hj|].
  assert (J : (0 < j)%nat) by (destruct j; lia). split; [exact J|].
  rewrite Hj. apply js_multiples; [exact J|]. intros i Hi. rewrite H. cbn [fst].
  assert (EQ : forall p, (qn (i + 1) * ds == qn p * (L / qn n))%Q <-> (i + 1 = p * j)%nat).
  { intros p. pose proof (qn_pos n Hn) as Pn.
    assert (X : (qn p * (L / qn n) == qn (p * j) * ds)%Q).
    { rewrite HL, Hj, !qn_mult. field. Lqa.lra. }
    rewrite X. split.
    - intros F. apply Qmult_inj_r in F; [|Lqa.lra]. unfold qn in F. apply (proj1 (inject_Z_injective _ _)) in F. lia.
    - intros ->. reflexivity. }
  split.
  - intros [_ (p & _ & F)]. exists p. apply EQ, F.
  - intros (p & F). split; [lia|]. exists p. split; [|apply EQ, F].
    assert (0 < p)%nat by (destruct p; lia). split; [lia|].
    apply (Nat.mul_le_mono_pos_r p n j J). lia.
Qed.
