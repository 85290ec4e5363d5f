(** Proofs for C121. *)
From Coq Require Import QArith Reals Qreals String List Arith Lia Lqa Lra.
From Coquelicot Require Import Coquelicot.
From Verif Require Model_Laser Proofs_Run.
From Verif Require Import Model_Push Spec_Push Proofs_Push Model_Interp Model_Tracker Spec_Tracker Proofs_Tracker Properties_Tracker Model_Run Model_RZ
  Model_Bunch Spec_Bunch Model_Sim Spec_Sim Proofs_Sim3 Proofs_Sim4 Spec_Circle Spec_Speed.
Import ListNotations.
Open Scope R_scope.

(** ** Lengths *)
(** The vector is not longer than [m]. *)
Definition short (v : vec) (m : R) : Prop := 0 <= m /\ sq v <= m * m.
Lemma short_norm v m : short v m -> norm v <= m.
Proof.
  intros [H1 H2]. unfold norm. rewrite <- (sqrt_square m) by exact H1. apply sqrt_le_1_alt, H2.
Qed.
Lemma short_dot u v m n : short u m -> short v n -> dot u v <= m * n.
Proof.
  destruct u as [[a b] c], v as [[d e] f]. unfold short, sq, dot. intros [H1 H2] [H3 H4].
  apply Rsqr_incr_0_var; [|apply Rmult_le_pos; assumption]. unfold Rsqr.
  assert (C : (a * d + b * e + c * f) * (a * d + b * e + c * f) <= (a * a + b * b + c * c) * (d * d + e * e + f * f)).
  { assert (E : (a * a + b * b + c * c) * (d * d + e * e + f * f) - (a * d + b * e + c * f) * (a * d + b * e + c * f) =
                (a * e - b * d) * (a * e - b * d) + (b * f - c * e) * (b * f - c * e) + (c * d - a * f) * (c * d - a * f)) by ring.
    pose proof (Rle_0_sqr (a * e - b * d)). pose proof (Rle_0_sqr (b * f - c * e)). pose proof (Rle_0_sqr (c * d - a * f)). unfold Rsqr in *. lra. }
  eapply Rle_trans; [exact C|]. replace (m * n * (m * n)) with (m * m * (n * n)) by ring.
  apply Rmult_le_compat; try assumption.
  - pose proof (Rle_0_sqr a). pose proof (Rle_0_sqr b). pose proof (Rle_0_sqr c). unfold Rsqr in *. lra.
  - pose proof (Rle_0_sqr d). pose proof (Rle_0_sqr e). pose proof (Rle_0_sqr f). unfold Rsqr in *. lra.
Qed.
Lemma short_add u v m n : short u m -> short v n -> short (vadd3 u v) (m + n).
Proof.
  intros H H'. pose proof (short_dot _ _ _ _ H H') as K. revert H H' K.
  destruct u as [[a b] c], v as [[d e] f]. unfold short, sq, vadd3, dot. intros [H1 H2] [H3 H4] K. split; lra.
Qed.
Lemma short_scal k v m : 0 <= k -> short v m -> short (scal k v) (k * m).
Proof.
  destruct v as [[a b] c]. unfold short, sq, scal. intros Hk [H1 H2]. split; [apply Rmult_le_pos; assumption|].
  replace (k * a * (k * a) + k * b * (k * b) + k * c * (k * c)) with (k * k * (a * a + b * b + c * c)) by ring.
  replace (k * m * (k * m)) with (k * k * (m * m)) by ring. apply Rmult_le_compat_l; [apply Rmult_le_pos; exact Hk|exact H2].
Qed.
(** Shorter than [m], if that is not zero. *)
Definition tight (v : vec) (m : R) : Prop := short v m /\ (0 < m -> sq v < m * m).
Lemma tight_add u v m n : tight u m -> tight v n -> tight (vadd3 u v) (m + n).
Proof.
  intros [A1 A2] [B1 B2]. split; [apply short_add; assumption|]. intros H.
  assert (K : sq (vadd3 u v) <= sq u + sq v + 2 * (m * n)).
  { assert (D : dot u v <= m * n) by (apply short_dot; assumption).
    replace (sq (vadd3 u v)) with (sq u + sq v + 2 * dot u v); [lra|]. destruct u as [[a b] c], v as [[d e] f]. unfold sq, vadd3, dot. ring. }
  destruct A1 as [A0 A1], B1 as [B0 B1]. destruct (Rle_lt_or_eq_dec 0 m A0) as [M|M]; [specialize (A2 M); lra|].
  assert (N : 0 < n) by lra. specialize (B2 N). lra.
Qed.
Lemma tight_scal k v m : 0 <= k -> tight v m -> tight (scal k v) (k * m).
Proof.
  intros Hk [A1 A2]. split; [apply short_scal; assumption|]. intros H. destruct A1 as [A0 _].
  assert (K : 0 < k) by (destruct (Rle_lt_or_eq_dec 0 k Hk) as [K|K]; [exact K|rewrite <- K in H; lra]).
  assert (M : 0 < m) by (apply Rmult_lt_reg_l with k; lra). specialize (A2 M).
  replace (sq (scal k v)) with (k * k * sq v) by (destruct v as [[a b] c]; unfold sq, scal; ring).
  replace (k * m * (k * m)) with (k * k * (m * m)) by ring. apply Rmult_lt_compat_l; [apply Rmult_lt_0_compat; exact K|exact A2].
Qed.
Lemma c_positive : 0 < c_SI. Proof. unfold c_SI. lra. Qed.
(** No particle is faster than light. *)
Lemma tight_velocity p : tight (velocity p) c_SI.
Proof.
  pose proof c_positive as C.
  assert (K : sq (velocity p) < c_SI * c_SI).
  { unfold velocity, sq, scal, momentum.
    set (n := px p * px p + py p * py p + pz p * pz p).
    assert (N : 0 <= n) by (unfold n; pose proof (Rle_0_sqr (px p)); pose proof (Rle_0_sqr (py p)); pose proof (Rle_0_sqr (pz p)); unfold Rsqr in *; lra).
    assert (G : gamma p * gamma p = 1 + n) by (unfold gamma; fold n; apply sqrt_sqrt; lra).
    assert (G0 : 0 < gamma p) by (unfold gamma; fold n; apply sqrt_lt_R0; lra).
    replace (c_SI / gamma p * px p * (c_SI / gamma p * px p) + c_SI / gamma p * py p * (c_SI / gamma p * py p) + c_SI / gamma p * pz p * (c_SI / gamma p * pz p))
      with (c_SI * c_SI * (n / (gamma p * gamma p))) by (unfold n; field; lra).
    rewrite G. rewrite <- (Rmult_1_r (c_SI * c_SI)) at 2. apply Rmult_lt_compat_l; [apply Rmult_lt_0_compat; exact C|].
    apply Rmult_lt_reg_r with (1 + n); [lra|]. unfold Rdiv. rewrite Rmult_assoc, Rinv_l, Rmult_1_r by lra. lra. }
  split; [split; lra|]. intros _. exact K.
Qed.

(** ** One push *)
(** Displacement in the laboratory in the time [dt]. *)
Definition shift (dt : R) (p p' : part) : vec := (x p' - x p, y p' - y p, xi p' - xi p + c_SI * dt).
Definition reach (dt : R) (p p' : part) : Prop := tight (shift dt p p') (c_SI * dt).
Lemma reach_same p : reach 0 p p.
Proof. unfold reach, tight, short, shift, sq. split; [split; [lra|right; ring]|lra]. Qed.
Lemma reach_then d d' p p' p'' : reach d p p' -> reach d' p' p'' -> reach (d + d') p p''.
Proof.
  intros H H'. unfold reach. rewrite Rmult_plus_distr_l.
  replace (shift (d + d') p p'') with (vadd3 (shift d p p') (shift d' p' p'')); [apply tight_add; assumption|].
  unfold shift, vadd3. apply vec_eq; ring.
Qed.
Lemma reach_half dt p : 0 <= dt -> reach (dt / 2) p (half_position_push1 dt p).
Proof.
  intros H. unfold reach. replace (shift (dt / 2) p (half_position_push1 dt p)) with (scal (dt / 2) (velocity p)).
  - rewrite (Rmult_comm c_SI). apply tight_scal; [lra|apply tight_velocity].
  - unfold shift, half_position_push1, velocity, scal, momentum, gamma. cbv zeta. cbn [x y xi px py pz].
    replace (1 + (px p * px p + py p * py p + pz p * pz p)) with (1 + (px p ^ 2 + py p ^ 2 + pz p ^ 2)) by ring.
    set (g := c_SI / _). apply vec_eq; lra.
Qed.
Lemma boris1_reach fields qm t dt p p' : 0 <= dt -> boris1 fields qm t dt p = Some p' -> reach dt p p'.
Proof.
  intros Hd. unfold boris1. cbv zeta. destruct (gather1 _ _ _ _) as [f|]; [|discriminate]. intros E. injection E as <-.
  replace dt with (dt / 2 + dt / 2) at 1 by lra. eapply reach_then; [apply reach_half, Hd|].
  set (p1 := half_position_push1 dt p). pose proof (reach_half dt (push_momentum1 dt qm p1 f) Hd) as H. exact H.
Qed.
(** The velocity in a slope, in the laboratory. *)
Definition slope_v (k : part) : vec := (x k, y k, xi k + c_SI).
Lemma slope1_tight fields qm t p k : slope1 fields qm t p = Some k -> tight (slope_v k) c_SI.
Proof.
  unfold slope1. destruct (gather1 _ _ _ _) as [f|]; [|discriminate]. intros E. injection E as <-.
  replace (slope_v (calculate_k1 qm p f)) with (velocity p); [apply tight_velocity|].
  unfold slope_v, calculate_k1, velocity, scal, momentum, gamma. cbv zeta. cbn [x y xi].
  replace (1 + px p ^ 2 + py p ^ 2 + pz p ^ 2) with (1 + (px p * px p + py p * py p + pz p * pz p)) by ring.
  set (g := c_SI / _). apply vec_eq; ring.
Qed.
Lemma rk4_1_reach fields qm t dt p p' : 0 <= dt -> rk4_1 fields qm t dt p = Some p' -> reach dt p p'.
Proof.
  intros Hd. unfold rk4_1.
  destruct (slope1 fields qm t p) as [k1|] eqn:E1; [|discriminate]. cbn [bindo].
  destruct (slope1 _ _ _ (Proofs_Sim3.along dt 0.5 p k1)) as [k2|] eqn:E2; [|discriminate]. cbn [bindo].
  destruct (slope1 _ _ _ (Proofs_Sim3.along dt 0.5 p k2)) as [k3|] eqn:E3; [|discriminate]. cbn [bindo].
  destruct (slope1 _ _ _ (Proofs_Sim3.along dt 1 p k3)) as [k4|] eqn:E4; [|discriminate]. cbn [bindo]. intros E. injection E as <-.
  apply slope1_tight in E1, E2, E3, E4. unfold reach.
  match goal with |- tight ?v ?m => replace v with (vadd3 (vadd3 (scal (dt / 6) (slope_v k1)) (scal (dt / 3) (slope_v k2)))
    (vadd3 (scal (dt / 3) (slope_v k3)) (scal (dt / 6) (slope_v k4))));
    [replace m with ((dt / 6 * c_SI + dt / 3 * c_SI) + (dt / 3 * c_SI + dt / 6 * c_SI)) by field|] end.
  - apply tight_add; apply tight_add; apply tight_scal; try lra; assumption.
  - unfold shift, slope_v, vadd3, scal. cbn [lift2 lift1 x y xi]. apply vec_eq; lra.
Qed.
Lemma push1_reach pusher fields q m t dt p p' : 0 <= dt -> push1 pusher fields q m t dt p = Some p' -> reach dt p p'.
Proof.
  intros Hd. unfold push1. destruct (String.eqb pusher "rk4"); [apply rk4_1_reach, Hd|].
  destruct (String.eqb pusher "boris"); [apply boris1_reach, Hd|discriminate].
Qed.

(** ** Bunches *)
Definition went (d : R) (b b' : tracked) : Prop :=
  sound b' /\ prop_distance (snd b') = prop_distance (snd b) + c_SI * d /\ Forall2 (reach d) (parts b) (parts b').
Definition went_opt (d : R) (u u' : option tracked) : Prop :=
  forall b', u' = Some b' -> exists b, u = Some b /\ (sound b -> went d b b').
Lemma forall2_trans {A} (r1 r2 r3 : A -> A -> Prop) : (forall a b c, r1 a b -> r2 b c -> r3 a c) ->
  forall l l' l'', Forall2 r1 l l' -> Forall2 r2 l' l'' -> Forall2 r3 l l''.
Proof.
  intros H l l' l'' K. revert l''. induction K as [|a b l l' Hab K IH]; intros l'' K'; inversion K'; subst; constructor; eauto.
Qed.
Lemma went_same u : went_opt 0 u u.
Proof.
  intros b E. exists b. split; [exact E|]. intros S. split; [exact S|]. split; [ring|].
  induction (parts b); constructor; [apply reach_same|assumption].
Qed.
Lemma went_step pusher f u u' t dt d : (0 <= dt)%Q -> went_opt d u u' -> went_opt (d + Q2R dt) u (sim_evolve pusher f u' t dt).
Proof.
  intros Hd H b'' E. unfold sim_evolve in E. destruct f as [f|]; [|discriminate]. destruct u' as [b'|]; [|discriminate].
  destruct (H b' eq_refl) as (b & -> & K). exists b. split; [reflexivity|]. intros S. destruct (K S) as (S' & E1 & F1). clear H K.
  pose proof (push_cases pusher f b' (Q2R t) (Q2R dt) S') as C. rewrite E in C. destruct C as (C & S'' & _ & M).
  split; [exact S''|]. destruct M as (_ & M & _). split; [rewrite M, E1; ring|].
  assert (D : 0 <= Q2R dt) by (replace 0 with (Q2R 0) by (unfold Q2R; cbn; lra); apply Qle_Rle, Hd).
  eapply (forall2_trans (reach d) (reach (Q2R dt))); [intros p p' p''; apply reach_then|exact F1|].
  unfold pushed in C. destruct (acts b' f) as [fs|]; [|discriminate]. destruct (knownb pusher); [|discriminate].
  apply travo_some in C. revert C. generalize (parts b''). generalize (parts b'). clear - D.
  induction l as [|p l IH]; intros [|p' l'] C; try discriminate; constructor.
  - injection C as C _. eapply push1_reach; eassumption.
  - apply IH. injection C as _ C. exact C.
Qed.
Lemma went_same' t u : went_opt (t - t) u u.
Proof. rewrite Rminus_eq_0. apply went_same. Qed.
Lemma went_step' pusher f u u' t dt a : (0 <= dt)%Q -> went_opt (Q2R t - a) u u' -> went_opt (Q2R t + Q2R dt - a) u (sim_evolve pusher f u' t dt).
Proof. intros Hd H. replace (Q2R t + Q2R dt - a) with (Q2R t - a + Q2R dt) by ring. apply went_step; assumption. Qed.
Lemma went_reach d b b' : sound b -> went d b b' -> within_reach (c_SI * d) b b'.
Proof.
  intros S (_ & E & F). unfold within_reach. induction F as [|p p' l l' H F IH]; constructor; [|exact IH].
  assert (L : vsub (lab b' p') (lab b p) = shift d p p') by (unfold vsub, lab, shift, vadd3, scal; rewrite E; apply vec_eq; ring).
  rewrite L. destruct H as [H1 H2]. split; [apply short_norm, H1|].
  assert (Q : (xi p' - xi p + c_SI * d) * (xi p' - xi p + c_SI * d) <= sq (shift d p p')).
  { unfold shift, sq. pose proof (Rle_0_sqr (x p' - x p)). pose proof (Rle_0_sqr (y p' - y p)). unfold Rsqr in *. lra. }
  destruct H1 as [H0 H1]. split.
  - assert (K : xi p' - xi p + c_SI * d <= c_SI * d) by (apply Rsqr_incr_0_var; [unfold Rsqr; lra|exact H0]). lra.
  - intros D. specialize (H2 D). split.
    + unfold norm. rewrite <- (sqrt_square (c_SI * d)) by exact H0. apply sqrt_lt_1_alt. split; [|exact H2].
      unfold shift, sq. pose proof (Rle_0_sqr (x p' - x p)). pose proof (Rle_0_sqr (y p' - y p)). pose proof (Rle_0_sqr (xi p' - xi p + c_SI * d)). unfold Rsqr in *. lra.
    + assert (K : xi p' - xi p + c_SI * d < c_SI * d) by (apply Rsqr_incrst_0 with (1 := ltac:(unfold Rsqr; lra)) || (apply Rnot_le_lt; intros N; assert (c_SI * d * (c_SI * d) <= (xi p' - xi p + c_SI * d) * (xi p' - xi p + c_SI * d)) by (apply Rmult_le_compat; assumption); lra)). lra.
Qed.

(** ** Parts of a run *)
Section Along.
  Open Scope Q_scope.
  Variables B F : Type.
  Variable evolve : F -> B -> Q -> Q -> B.
  Variable update : nat -> F -> list B -> F.
  Variable auto_dt : B -> Q.
  Variable copy : B -> B.
  Variable fs0 : F.
  (** [P t0 t b b']: [b] at the time t0 has become [b'] at the time t. *)
  Variable P : R -> R -> B -> B -> Prop.
  Variable T : Q.
  Variable Inv : F -> Prop.
  Hypothesis Inv0 : Inv fs0.
  Hypothesis Inv1 : forall j f bs, Inv f -> Inv (update j f bs).
  Hypothesis Psame : forall t b, P t t b b.
  Hypothesis Pstep : forall f t dt t0 b b', Inv f -> 0 <= dt -> t + dt <= T -> P t0 (Q2R t) b b' -> P t0 (Q2R t + Q2R dt)%R b (evolve f b' t dt).

  Notation psh := Spec_Tracker.pushes.
  Definition fine (p : Q * Q) : Prop := 0 <= snd p /\ fst p + snd p <= T.
  Lemma replay_pos i l : forall w b0 b a t0 t, chain t0 (psh i l) t -> List.Forall fine (psh i l) -> Inv (fst w) ->
    nth_error (snd w) i = Some b -> P a (Q2R t0) b0 b ->
    exists b', nth_error (snd (replay B F evolve update l w)) i = Some b' /\ P a (Q2R t) b0 b'.
  Proof.
    unfold replay. induction l as [|e l IH]; intros [f bs] b0 b a t0 t Hc Hp Hv Hb HP.
    - cbn in *. inversion Hc; subst. exists b. split; [assumption|].
      rewrite <- (Qeq_eqR t0 t) by assumption. exact HP.
    - cbn [fold_left]. destruct e as [k s dt y|j s|s sn]; cbn [effect Spec_Tracker.pushes] in *.
      + cbn [snd] in Hb. destruct (nth_error bs k) as [bk|] eqn:Ek.
        * assert (Hk : (k < List.length bs)%nat) by (apply nth_error_Some; congruence).
          destruct (Nat.eqb_spec k i) as [->|Hne].
          -- inversion Hc as [|t0' s' dt' l' t' Es Hc']; subst. inversion Hp as [|? ? [P1 P2] P3]; subst. cbn [fst snd] in P1, P2.
             apply (IH (f, replace_at B i (evolve f bk s dt) bs) b0 (evolve f bk s dt) a (t0 + dt) t); try assumption.
             ++ cbn [snd]. rewrite Proofs_Run.nth_error_replace_at, Nat.eqb_refl by assumption. reflexivity.
             ++ rewrite Q2R_plus. assert (Eq : Q2R t0 = Q2R s) by (apply Qeq_eqR; rewrite Es; reflexivity). rewrite Eq in *.
                apply Pstep; [exact Hv|exact P1|exact P2|]. congruence.
          -- apply (IH (f, replace_at B k (evolve f bk s dt) bs) b0 b a t0 t); try assumption. cbn [snd].
             rewrite Proofs_Run.nth_error_replace_at by assumption. destruct (Nat.eqb_spec i k); [congruence|assumption].
        * destruct (Nat.eqb_spec k i) as [->|Hne]; [cbn [snd] in *; congruence|]. apply (IH (f, bs) b0 b a t0 t); assumption.
      + apply (IH (update j f bs, bs) b0 b a t0 t); try assumption. apply Inv1, Hv.
      + apply (IH (f, bs) b0 b a t0 t); assumption.
  Qed.
  Lemma replay_inv l : forall w, Inv (fst w) -> Inv (fst (replay B F evolve update l w)).
  Proof.
    unfold replay. induction l as [|e l IH]; intros [f bs] Hv; [exact Hv|]. cbn [fold_left]. apply IH.
    destruct e as [k s dt y|j s|s sn]; cbn [effect]; [|apply Inv1, Hv|exact Hv]. destruct (nth_error bs k); exact Hv.
  Qed.
  Lemma pushes_cat i l l' : psh i (l ++ l') = psh (B := B) i l ++ psh i l'.
  Proof.
    induction l as [|e l IH]; [reflexivity|]. cbn [app Spec_Tracker.pushes].
    destruct e; [destruct (Nat.eqb _ _)| |]; rewrite IH; reflexivity.
  Qed.
  Lemma chain_rest l : forall t0 t t' l', chain t0 l t -> chain t0 (l ++ l') t' -> chain t l' t'.
  Proof.
    assert (X : forall l a b t, a == b -> chain a l t -> chain b l t).
    { induction l0 as [|[s d] l0 IH]; intros a b t E H; inversion H; subst; constructor.
      - rewrite <- E. assumption.
      - rewrite <- E. assumption.
      - eapply IH; [|eassumption]. rewrite E. reflexivity. }
    induction l as [|[s d] l IH]; intros t0 t t' l' H H'; inversion H; subst.
    - eapply X; eassumption.
    - cbn [app] in H'. inversion H'; subst. eapply IH; eassumption.
  Qed.
  Lemma cut (A : Type) (l1 l2 l1' l2' : list A) : l1 ++ l2 = l1' ++ l2' ->
    (exists l, l1' = l1 ++ l) \/ (exists l, l1 = l1' ++ l).
  Proof.
    revert l1'. induction l1 as [|a l1 IH]; intros l1' H; [left; exists l1'; reflexivity|].
    destruct l1' as [|a' l1']; [right; exists (a :: l1); reflexivity|]. injection H as <- H.
    destruct (IH _ H) as [[l E]|[l E]]; [left|right]; exists l; cbn; congruence.
  Qed.

  Variable c : config.
  Variable bs0 : list B.
  Hypothesis Hgood : good_config c bs0.
  Hypothesis HT : c_tfinal c <= T.
  Variable m : Q.
  Hypothesis Hauto : bounded_below auto_dt m.
  Hypothesis Hpb : c_push_before c = true.
  Definition time_of (k : nat) : Q := inject_Z (Z.of_nat k) * (c_tfinal c / inject_Z (Z.of_nat (c_ndiags c))).
  Lemma along_pos fuel s i b :
    do_tracking B F evolve update auto_dt copy exact fuel c bs0 fs0 = Model_Tracker.Done s ->
    nth_error bs0 i = Some b ->
    (exists b', nth_error (bs s) i = Some b' /\ P 0%R (Q2R (c_tfinal c)) b b') /\
    (exists o, nth_error (out s) i = Some o /\ List.length o = S (c_ndiags c) /\
       (forall j k, (j <= k <= c_ndiags c)%nat -> exists bj bk, nth_error o j = Some (copy bj) /\ nth_error o k = Some (copy bk) /\
         P 0%R (Q2R (time_of j)) b bj /\ P 0%R (Q2R (time_of k)) b bk /\ P (Q2R (time_of j)) (Q2R (time_of k)) bj bk)).
  Proof.
    intros H Hb.
    assert (Hi : (i < List.length bs0)%nat) by (apply nth_error_Some; congruence).
    pose proof (C03_pushes_tile_the_interval B F evolve update auto_dt copy c bs0 fs0 m fuel s i Hgood Hauto H Hi Hpb) as (Hc & Hf & _).
    assert (Hf' : List.Forall fine (psh i (log s))) by (revert Hf; apply Forall_impl; intros a [Ha1 Ha2]; split; [exact Ha1|eapply Qle_trans; eassumption]). clear Hf.
    assert (Z0 : Q2R 0 = 0%R) by (unfold Q2R; cbn; Lra.lra).
    assert (S0 : P 0%R (Q2R 0) b b) by (rewrite Z0; apply Psame).
    split.
    - pose proof (C06_log_explains_state B F evolve update auto_dt copy c bs0 fs0 fuel s exact Hgood H) as E.
      destruct (replay_pos i (log s) (fs0, bs0) b b 0%R 0 (c_tfinal c) Hc Hf' Inv0 Hb S0) as (b' & E' & HP').
      exists b'. rewrite <- E in E'. split; [exact E'|exact HP'].
    - pose proof (C05_one_output_list_per_bunch B F evolve update auto_dt copy c bs0 fs0 m fuel s exact Hgood Hauto H) as [Lo _].
      destruct (nth_error (out s) i) as [o|] eqn:Eo; [|apply nth_error_None in Eo; lia].
      destruct (C05_outputs_are_synchronous B F evolve update auto_dt copy c bs0 fs0 m fuel s i o Hgood Hauto H Hpb Eo) as [Ln Ho].
      exists o. split; [reflexivity|]. split; [exact Ln|].
      assert (At : forall k, (k <= c_ndiags c)%nat -> exists l1 l2 bk, log s = l1 ++ l2 /\ nth_error o k = Some (copy bk) /\
        nth_error (snd (replay B F evolve update l1 (fs0, bs0))) i = Some bk /\ chain 0 (psh i l1) (time_of k) /\
        List.Forall fine (psh i l1) /\ P 0%R (Q2R (time_of k)) b bk /\ List.length (diag_times l1) = k).
      { intros k Hk. destruct (nth_error o k) as [u|] eqn:Eu; [|apply nth_error_None in Eu; lia].
        destruct (Ho k u Eu) as (l1 & t & sn & l2 & b0 & El & Ld & Et & E0 & -> & Hc1).
        exists l1, (EDiag t sn :: l2), b0. split; [exact El|]. split; [reflexivity|]. split; [exact E0|].
        assert (C1 : chain 0 (psh i l1) (time_of k)).
        { fold (time_of k) in Et. revert Hc1 Et. generalize (time_of k). clear. generalize 0. induction (psh i l1) as [|[a d] l IH]; intros t0 q Hc E; inversion Hc; subst; constructor; try assumption.
          - rewrite <- E. assumption.
          - eapply IH; eassumption. }
        split; [exact C1|].
        assert (F1 : List.Forall fine (psh i l1)).
        { rewrite El, pushes_cat in Hf'. apply Forall_app in Hf'. apply Hf'. }
        split; [exact F1|].
        destruct (replay_pos i l1 (fs0, bs0) b b 0%R 0 (time_of k) C1 F1 Inv0 Hb S0) as (b' & E' & HP').
        rewrite E0 in E'. injection E' as <-. split; [exact HP'|exact Ld]. }
      intros j k [Hj Hk]. destruct (At k Hk) as (l1' & l2' & bk & El' & Ek & Rk & Ck & Fk & Pk & Dk).
      destruct (Nat.eq_dec j k) as [->|N].
      { exists bk, bk. repeat (split; [assumption|]). apply Psame. }
      destruct (At j) as (l1 & l2 & bj & El & Ej & Rj & Cj & Fj & Pj & Dj); [lia|].
      exists bj, bk. split; [exact Ej|]. split; [exact Ek|]. split; [exact Pj|]. split; [exact Pk|].
      rewrite El in El'. destruct (cut _ _ _ _ _ El') as [[l E]|[l E]].
      + rewrite E in Ck, Fk, Rk. rewrite pushes_cat in Ck, Fk. apply Forall_app in Fk as [_ Fk]. pose proof (chain_rest _ _ _ _ _ Cj Ck) as C.
        unfold replay in Rk. rewrite fold_left_app in Rk. fold (replay B F evolve update l1 (fs0, bs0)) in Rk. fold (replay B F evolve update l (replay B F evolve update l1 (fs0, bs0))) in Rk.
        destruct (replay_pos i l (replay B F evolve update l1 (fs0, bs0)) bj bj (Q2R (time_of j)) (time_of j) (time_of k) C Fk (replay_inv l1 (fs0, bs0) Inv0) Rj (Psame _ bj)) as (b' & E' & HP').
        rewrite Rk in E'. injection E' as <-. exact HP'.
      + exfalso. rewrite E, diag_times_app, app_length in Dj. lia.
  Qed.
End Along.
