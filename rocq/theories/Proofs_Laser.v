(** Proofs about the laser. *)
From Coq Require Import Reals ZArith String List Lia Lra.
From Coquelicot Require Import Complex.
From Verif Require Import Model_Push Model_Laser Spec_Laser.
Import ListNotations.
Open Scope R_scope.

Ltac ceq := apply injective_projections; cbn -[INR]; unfold Re, Im; cbn -[INR].

(** ** TDMA *)
Section TD.
Open Scope C_scope.
Lemma C1_neq_0 : RtoC 1 <> RtoC 0.
Proof. intros E. injection E. intros. lra. Qed.

Lemma fwd_w a b c d i : fst (tdma_fwd a b c d i) = c i / pivot a b c i.
Proof.
  induction i as [|i IH]; [reflexivity|].
  cbn [tdma_fwd pivot]. destruct (tdma_fwd a b c d i) as [w g]. cbn [fst] in *. subst w.
  unfold Cdiv. ring.
Qed.
Lemma fwd_g0 a b c d : snd (tdma_fwd a b c d 0) = d 0%nat / pivot a b c 0.
Proof. reflexivity. Qed.
Lemma fwd_gS a b c d i :
  snd (tdma_fwd a b c d (S i)) = (d (S i) - a i * snd (tdma_fwd a b c d i)) / pivot a b c (S i).
Proof.
  cbn [tdma_fwd pivot]. rewrite <- (fwd_w a b c d i).
  destruct (tdma_fwd a b c d i) as [w g]. cbn [fst snd]. unfold Cdiv. ring.
Qed.

Lemma tdma_small n a b c d : (n < 3)%nat -> TDMA n a b c d = None.
Proof.
  intros H. unfold TDMA, neg_index.
  destruct (Nat.leb_spec 2 (n - 1)); [lia | reflexivity].
Qed.
Lemma tdma_some n a b c d : (3 <= n)%nat -> exists p, TDMA n a b c d = Some p.
Proof.
  intros H. unfold TDMA, neg_index.
  destruct (Nat.leb_spec 2 (n - 1)); [eexists; reflexivity | lia].
Qed.
Lemma tdma_p n a b c d p (H : (3 <= n)%nat) (E : TDMA n a b c d = Some p) :
  (forall i, (i + 1 < n)%nat ->
     p i = snd (tdma_fwd a b c d i) - c i / pivot a b c i * p (i + 1)%nat) /\
  p (n - 1)%nat = (d (n - 1)%nat - a (n - 3)%nat * snd (tdma_fwd a b c d (n - 2)))
                  / (b (n - 1)%nat - a (n - 3)%nat * (c (n - 3)%nat / pivot a b c (n - 3))).
Proof.
  unfold TDMA, neg_index in E.
  destruct (Nat.leb_spec 2 (n - 1)); [|lia]. injection E as <-.
  replace (n - 1 - 2)%nat with (n - 3)%nat by lia. split.
  - intros i Hi.
    replace (n - 1 - i)%nat with (S (n - 1 - (i + 1)))%nat by lia. cbn [tdma_back].
    replace (n - 1 - S (n - 1 - (i + 1)))%nat with i by lia.
    rewrite (fwd_w a b c d i). reflexivity.
  - replace (n - 1 - (n - 1))%nat with 0%nat by lia. cbn [tdma_back].
    rewrite (fwd_w a b c d (n - 3)). reflexivity.
Qed.

Lemma tdma_rows n a b c d p : (3 <= n)%nat -> TDMA n a b c d = Some p ->
  (forall i, (i + 1 < n)%nat -> pivot a b c i <> RtoC 0) ->
  forall i, (i + 1 < n)%nat -> tri_row n a b c p i = d i.
Proof.
  intros H E Hp i Hi. destruct (tdma_p _ _ _ _ _ _ H E) as [Hb _].
  unfold tri_row. destruct (Nat.ltb_spec (i + 1) n); [|lia].
  rewrite (Hb i Hi). destruct i as [|i].
  - rewrite fwd_g0. specialize (Hp 0%nat Hi). cbn [pivot] in *. field. assumption.
  - rewrite (Hb i) by lia. replace (i + 1)%nat with (S i) by lia. rewrite (Hb (S i)) by lia.
    rewrite fwd_gS. pose proof (Hp (S i) Hi) as HA. pose proof (Hp i ltac:(lia)) as HB.
    set (g := snd (tdma_fwd a b c d i)). set (q := p (S i + 1)%nat).
    assert (Eb : b (S i) = pivot a b c (S i) + a i * (c i / pivot a b c i)).
    { cbn [pivot]. ring. }
    rewrite Eb. field. split; assumption.
Qed.
Lemma tdma_last n a b c d p : (3 <= n)%nat -> TDMA n a b c d = Some p ->
  b (n - 1)%nat - a (n - 3)%nat * (c (n - 3)%nat / pivot a b c (n - 3)) <> RtoC 0 ->
  a (n - 3)%nat * p (n - 2)%nat
  + (b (n - 1)%nat + a (n - 3)%nat * (c (n - 2)%nat / pivot a b c (n - 2)
                                       - c (n - 3)%nat / pivot a b c (n - 3))) * p (n - 1)%nat
  = d (n - 1)%nat.
Proof.
  intros H E Hq. destruct (tdma_p _ _ _ _ _ _ H E) as [Hb Hl].
  rewrite (Hb (n - 2)%nat) by lia. replace (n - 2 + 1)%nat with (n - 1)%nat by lia.
  set (w2 := c (n - 2)%nat / pivot a b c (n - 2)) in *.
  set (w3 := c (n - 3)%nat / pivot a b c (n - 3)) in *.
  set (g := snd (tdma_fwd a b c d (n - 2))) in *.
  transitivity (a (n - 3)%nat * g + (b (n - 1)%nat - a (n - 3)%nat * w3) * p (n - 1)%nat).
  { ring. }
  rewrite Hl. field. assumption.
Qed.
Lemma tdma_solves n a b c d p : (3 <= n)%nat -> TDMA n a b c d = Some p ->
  (forall i, (i < n)%nat -> pivot a b c i <> RtoC 0) ->
  a (n - 3)%nat = a (n - 2)%nat ->
  c (n - 3)%nat / pivot a b c (n - 3) = c (n - 2)%nat / pivot a b c (n - 2) ->
  forall i, (i < n)%nat -> tri_row n a b c p i = d i.
Proof.
  intros H E Hp Ha Hw i Hi.
  destruct (Nat.lt_ge_cases (i + 1) n) as [L|L].
  { apply (tdma_rows _ _ _ _ _ _ H E); [intros; apply Hp; lia | assumption]. }
  assert (i = n - 1)%nat by lia. subst i.
  rewrite <- (tdma_last n a b c d p H E).
  - unfold tri_row. destruct (Nat.ltb_spec (n - 1 + 1) n); [lia|].
    replace (n - 1)%nat with (S (n - 2)) by lia. rewrite Ha, Hw. ring.
  - rewrite Ha, Hw. specialize (Hp (n - 1)%nat ltac:(lia)).
    replace (n - 1)%nat with (S (n - 2)) in * by lia. exact Hp.
Qed.
End TD.

(** A 3 x 3 system with unit pivots for which the result is not the solution:
    main (2,2,2), upper (1,1), lower (1,1), right-hand side (0,0,1). *)
Lemma tdma_wrong :
  exists a b c d p, TDMA 3 a b c d = Some p /\
    (forall i, (i < 3)%nat -> pivot a b c i <> RtoC 0) /\
    tri_row 3 a b c p 2 <> d 2%nat.
Proof.
  exists (fun _ => RtoC 1), (fun _ => RtoC 2), (fun _ => RtoC 1),
    (fun i => if Nat.eqb i 2 then RtoC 1 else RtoC 0).
  destruct (tdma_some 3 (fun _ => RtoC 1) (fun _ => RtoC 2) (fun _ => RtoC 1)
    (fun i => if Nat.eqb i 2 then RtoC 1 else RtoC 0) ltac:(lia)) as [p E].
  exists p. split; [exact E|]. split.
  - intros i Hi. destruct i as [|[|[|i]]]; [| | |lia]; intros F;
      apply (f_equal fst) in F; cbn in F; field_simplify in F; lra.
  - destruct (tdma_p 3 _ _ _ _ _ ltac:(lia) E) as [Hb Hl].
    assert (E2 : p 2%nat = RtoC (2 / 3)).
    { change (3 - 1)%nat with 2%nat in Hl at 1. rewrite Hl. ceq; field; lra. }
    assert (E1 : p 1%nat = RtoC (- (4 / 9))).
    { rewrite (Hb 1%nat) by lia. change (1 + 1)%nat with 2%nat. rewrite E2. ceq; field; lra. }
    unfold tri_row. cbn [Nat.eqb Nat.ltb Nat.leb Nat.add]. rewrite E1, E2.
    intros F. apply (f_equal fst) in F. cbn in F. lra.
Qed.

(** ** One time iteration *)
Definition rhs_of (centered : bool) := if centered then rhs_centered else rhs_non_centered.
Definition main_of (centered : bool) := if centered then main_centered else main_non_centered.
Definition upper_of (e : eargs) : carr := fun i => RtoC (L_plus_over_2 e i).
Definition lower_of (e : eargs) : carr := fun i => RtoC (L_minus_over_2 e (i + 1)).

Lemma set_row_same a i r : set_row a i r i = r.
Proof. unfold set_row. rewrite Nat.eqb_refl. reflexivity. Qed.
Lemma set_row_other a i r j : j <> i -> set_row a i r j = a j.
Proof. intros H. unfold set_row. apply Nat.eqb_neq in H. rewrite H. reflexivity. Qed.

(** The rows computed so far, from the original arrays. *)
Definition solved (centered : bool) (e : eargs) chi ph (a a_old new : carr2) (m : nat) : Prop :=
  (forall k, new (e_nz e) k = RtoC 0) /\ (forall k, new (e_nz e + 1)%nat k = RtoC 0) /\
  forall j, (m <= j < e_nz e)%nat ->
    TDMA (e_nr e) (lower_of e) (main_of centered e chi ph j) (upper_of e)
      (rhs_of centered e chi ph a a_old (new (j + 1)%nat) (new (j + 2)%nat) j) = Some (new j).
Definition zinv (centered : bool) (e : eargs) chi ph (a a_old new : carr2) (m : nat) (s : zst) : Prop :=
  solved centered e chi ph a a_old new m /\
  (forall j, (j < m + 2)%nat -> z_a s j = a j /\ z_old s j = a_old j) /\
  (forall j, (m + 2 <= j < e_nz e + 2)%nat -> z_a s j = new j /\ z_old s j = a j) /\
  z_jp1 s = new m /\ z_jp2 s = new (m + 1)%nat.

Lemma rhs_rows centered e chi ph a a_old a' a_old' n1 n2 j :
  a' j = a j -> a' (j + 1)%nat = a (j + 1)%nat -> a' (j + 2)%nat = a (j + 2)%nat ->
  a_old' j = a_old j -> a_old' (j + 1)%nat = a_old (j + 1)%nat ->
  a_old' (j + 2)%nat = a_old (j + 2)%nat ->
  rhs_of centered e chi ph a' a_old' n1 n2 j = rhs_of centered e chi ph a a_old n1 n2 j.
Proof.
  intros H1 H2 H3 H4 H5 H6.
  destruct centered; unfold rhs_of, rhs_centered, rhs_non_centered;
    rewrite ?H1, ?H2, ?H3, ?H4, ?H5, ?H6; reflexivity.
Qed.

Lemma z_loop centered e chi ph a a_old : (3 <= e_nr e)%nat ->
  forall m s new, (m <= e_nz e)%nat -> zinv centered e chi ph a a_old new m s ->
  exists s' new', ofold (z_step centered e chi ph) (rev (seq 0 m)) s = Some s' /\
    zinv centered e chi ph a a_old new' 0 s'.
Proof.
  intros Hr. induction m as [|m IH]; intros s new Hm Inv.
  { exists s, new. split; [reflexivity | exact Inv]. }
  rewrite seq_S, rev_app_distr. cbn [rev app Nat.add ofold].
  destruct Inv as ((N0 & N1 & Hs) & Hlo & Hhi & J1 & J2).
  destruct (tdma_some (e_nr e) (lower_of e) (main_of centered e chi ph m) (upper_of e)
              (rhs_of centered e chi ph a a_old (new (m + 1)%nat) (new (m + 2)%nat) m) Hr) as [p Ep].
  set (new' := fun j => if Nat.eqb j m then p else new j).
  assert (En : forall j, (m < j)%nat -> new' j = new j).
  { intros j Hj. unfold new'. destruct (Nat.eqb_spec j m); [lia | reflexivity]. }
  assert (Em : new' m = p) by (unfold new'; rewrite Nat.eqb_refl; reflexivity).
  assert (Estep : z_step centered e chi ph s m =
    Some (mkz (set_row (z_a s) (m + 2) (z_jp2 s)) (set_row (z_old s) (m + 2) (z_a s (m + 2)%nat))
            p (z_jp1 s))).
  { unfold z_step. rewrite J1, J2.
    replace (S m) with (m + 1)%nat by lia. replace (m + 1 + 1)%nat with (m + 2)%nat by lia.
    fold (rhs_of centered). fold (main_of centered). fold (lower_of e). fold (upper_of e).
    rewrite (rhs_rows centered e chi ph a a_old (z_a s) (z_old s)) by (apply Hlo; lia).
    rewrite Ep. reflexivity. }
  rewrite Estep. apply (IH _ new'); [lia|].
  split; [|split; [|split; [|split]]]; cbn [z_a z_old z_jp1 z_jp2].
  - split; [|split].
    + intros k. rewrite En by lia. apply N0.
    + intros k. rewrite En by lia. apply N1.
    + intros j Hj. destruct (Nat.eq_dec j m) as [->|Hne].
      * rewrite Em, !En by lia. exact Ep.
      * rewrite !En by lia. apply Hs. lia.
  - intros j Hj. rewrite !set_row_other by lia. apply Hlo. lia.
  - intros j Hj. destruct (Nat.eq_dec j (m + 2)) as [->|Hne].
    + rewrite !set_row_same. rewrite En by lia. split.
      * rewrite J2. f_equal. lia.
      * apply Hlo. lia.
    + rewrite !set_row_other, En by lia. apply Hhi. lia.
  - symmetry. exact Em.
  - rewrite En by lia. rewrite J1. f_equal. lia.
Qed.

Lemma t_step_solved centered e chi a a_old : (3 <= e_nr e)%nat -> (2 <= e_nz e)%nat ->
  exists new old', t_step centered e chi (a, a_old) = Some (new, old') /\
    solved centered e chi (phases e a) a a_old new 0 /\
    forall j, (j < e_nz e + 2)%nat -> old' j = a j.
Proof.
  intros Hr Hz. unfold t_step.
  destruct (z_loop centered e chi (phases e a) a a_old Hr (e_nz e)
              (mkz a a_old (fun _ => RtoC 0) (fun _ => RtoC 0))
              (fun j k => RtoC 0) (le_n _)) as (s' & new & E & Inv).
  { split; [|split; [|split; [|split]]]; cbn; try reflexivity.
    - split; [|split]; try reflexivity. intros; lia.
    - intros; split; reflexivity.
    - intros; lia. }
  rewrite E. destruct Inv as ((N0 & N1 & Hs) & Hlo & Hhi & J1 & J2).
  set (A := set_row (set_row (z_a s') 0 (z_jp1 s')) 1 (z_jp2 s')).
  assert (HA : forall j, (j < e_nz e + 2)%nat -> A j = new j).
  { intros j Hj. unfold A. destruct (Nat.eq_dec j 1) as [->|H1].
    - rewrite set_row_same. exact J2.
    - rewrite set_row_other by assumption. destruct (Nat.eq_dec j 0) as [->|H0].
      + rewrite set_row_same. exact J1.
      + rewrite set_row_other by assumption. apply Hhi. lia. }
  exists A. eexists. split; [reflexivity|]. split.
  - split; [|split].
    + intros k. rewrite HA by lia. apply N0.
    + intros k. rewrite HA by lia. apply N1.
    + intros j Hj. rewrite !HA by lia. apply Hs. lia.
  - intros j Hj. destruct (Nat.eq_dec j 1) as [->|H1].
    + rewrite set_row_same. apply Hlo. lia.
    + rewrite set_row_other by assumption. destruct (Nat.eq_dec j 0) as [->|H0].
      * rewrite set_row_same. apply Hlo. lia.
      * rewrite set_row_other by assumption. apply Hhi. lia.
Qed.
Lemma t_step_small centered e chi s : (e_nr e < 3)%nat -> (1 <= e_nz e)%nat ->
  t_step centered e chi s = None.
Proof.
  intros Hr Hz. destruct s as [a a_old]. unfold t_step.
  destruct (e_nz e) as [|m] eqn:Em; [lia|]. rewrite seq_S, rev_app_distr.
  cbn [rev app ofold]. unfold z_step. rewrite tdma_small by assumption. reflexivity.
Qed.
Lemma evolve_levels centered e chi nt a a_old : (3 <= e_nr e)%nat -> (2 <= e_nz e)%nat ->
  exists b b_old c c_old,
    evolve_envelope centered e chi nt (a, a_old) = Some (b, b_old) /\
    evolve_envelope centered e chi (S nt) (a, a_old) = Some (c, c_old) /\
    (forall j, (j < e_nz e + 2)%nat -> c_old j = b j) /\
    forall k, c (e_nz e) k = RtoC 0 /\ c (e_nz e + 1)%nat k = RtoC 0.
Proof.
  intros Hr Hz. revert a a_old. induction nt as [|nt IH]; intros a a_old.
  - destruct (t_step_solved centered e chi a a_old Hr Hz) as (new & old' & E & (N0 & N1 & _) & Ho).
    exists a, a_old, new, old'. cbn [evolve_envelope]. rewrite E.
    repeat split; auto.
  - destruct (t_step_solved centered e chi a a_old Hr Hz) as (new & old' & E & _ & _).
    destruct (IH new old') as (b & b_old & c & c_old & E1 & E2 & H).
    exists b, b_old, c, c_old. split; [|split; [|exact H]].
    + cbn [evolve_envelope]. rewrite E. exact E1.
    + remember (S nt) as n. cbn [evolve_envelope]. rewrite E. exact E2.
Qed.
Lemma evolve_iter centered e chi nt s s' :
  evolve_envelope centered e chi nt s = Some s' ->
  evolve_envelope centered e chi (S nt) s = t_step centered e chi s'.
Proof.
  revert s. induction nt as [|nt IH]; intros s E.
  - injection E as <-. cbn [evolve_envelope]. destruct (t_step centered e chi s); reflexivity.
  - cbn [evolve_envelope] in E. remember (S nt) as n. cbn [evolve_envelope].
    destruct (t_step centered e chi s) as [s1|]; [|discriminate]. subst n.
    apply IH. exact E.
Qed.

(** ** No vanishing pivot: diagonal dominance *)
Lemma Cmod_ge_Re z : Rabs (fst z) <= Cmod z.
Proof. eapply Rle_trans; [apply Rmax_l | apply Rmax_Cmod]. Qed.
Lemma Cmod_lt_neq z x : 0 <= x -> x < Cmod z -> z <> RtoC 0.
Proof. intros Hx H ->. rewrite Cmod_0 in H. lra. Qed.
Lemma dominant a b c n :
  (forall i, (i < n)%nat ->
     Cmod (c i) + (match i with O => 0 | S i' => Cmod (a i') end) < Cmod (b i)) ->
  forall i, (i < n)%nat -> Cmod (c i) < Cmod (pivot a b c i).
Proof.
  intros H. induction i as [|i IH]; intros Hi.
  - specialize (H 0%nat Hi). cbn [pivot]. lra.
  - specialize (IH ltac:(lia)). specialize (H (S i) Hi). cbn [pivot].
    assert (P : pivot a b c i <> RtoC 0) by (eapply Cmod_lt_neq; [apply Cmod_ge_0 | exact IH]).
    assert (W : Cmod (Cdiv (c i) (pivot a b c i)) <= 1).
    { rewrite Cmod_div by exact P. assert (0 < Cmod (pivot a b c i)) by (apply Cmod_gt_0; exact P).
      apply Rmult_le_reg_r with (Cmod (pivot a b c i)); [assumption|].
      unfold Rdiv. rewrite Rmult_assoc, Rinv_l by lra. lra. }
    assert (T : Cmod (b (S i)) <= Cmod (Cminus (b (S i)) (Cmult (a i) (Cdiv (c i) (pivot a b c i))))
                + Cmod (Cmult (a i) (Cdiv (c i) (pivot a b c i)))).
    { eapply Rle_trans; [|apply Cmod_triangle]. right. f_equal. ring. }
    rewrite Cmod_mult in T.
    assert (Cmod (a i) * Cmod (Cdiv (c i) (pivot a b c i)) <= Cmod (a i)).
    { rewrite <- (Rmult_1_r (Cmod (a i))) at 2. apply Rmult_le_compat_l; [apply Cmod_ge_0 | exact W]. }
    lra.
Qed.

Lemma steps_pos e : grid_ok e -> 0 < inv_dt e /\ 0 < inv_dr e /\ 0 < inv_dz e.
Proof.
  intros (Hz & Hr & Hk & Hzz & Hrr & Ht). apply le_INR in Hz, Hr. cbn in Hz, Hr.
  assert (0 < c_SI) by (unfold c_SI; lra).
  assert (Hi : forall x, 0 < x -> 0 < 1 / x).
  { intros x Hx. unfold Rdiv. rewrite Rmult_1_l. apply Rinv_0_lt_compat. exact Hx. }
  assert (Hq : forall x y, 0 < x -> 0 < y -> 0 < x / y).
  { intros x y Hx Hy. apply Rmult_lt_0_compat; [assumption | apply Rinv_0_lt_compat; assumption]. }
  unfold inv_dt, inv_dr, inv_dz, e_dtn, e_dr, e_dz.
  split; [|split]; apply Hi.
  - apply Rmult_lt_0_compat; [apply Rmult_lt_0_compat|]; assumption.
  - apply Hq; [apply Rmult_lt_0_compat; assumption | lra].
  - apply Hq; [apply Rmult_lt_0_compat; lra | lra].
Qed.
Lemma L_base_bounds k : 0 < L_base k <= 1.
Proof.
  unfold L_base. pose proof (pos_INR k). split.
  - unfold Rdiv. rewrite Rmult_1_l. apply Rinv_0_lt_compat. lra.
  - unfold Rdiv. rewrite Rmult_1_l. rewrite <- Rinv_1. apply Rinv_le_contravar; lra.
Qed.
Lemma L_sum e k : L_minus_over_2 e k + L_plus_over_2 e k = inv_dr e ^ 2.
Proof. unfold L_minus_over_2, L_plus_over_2. lra. Qed.
Lemma L_pos e k : 0 <= L_minus_over_2 e k /\ 0 <= L_plus_over_2 e k.
Proof.
  unfold L_minus_over_2, L_plus_over_2. pose proof (L_base_bounds k). pose proof (pow2_ge_0 (inv_dr e)).
  set (x := inv_dr e ^ 2) in *. clearbody x.
  split; (apply Rmult_le_pos; [apply Rmult_le_pos|]); lra.
Qed.
Lemma L_minus_0 e : L_minus_over_2 e 0 = 0.
Proof.
  unfold L_minus_over_2, L_base. cbn [INR]. replace (2 * (0 + 0.5)) with 1 by lra. lra.
Qed.
Lemma fst_main centered e chi ph j k :
  fst (main_of centered e chi ph j k) =
  - inv_dr e ^ 2 - chi j k * 0.5 -
  (if centered then 1.5 * inv_dzdt e + inv_dt e ^ 2 else 3 * inv_dzdt e).
Proof.
  destruct centered; unfold main_of, main_centered, main_non_centered, C_plus, C_plus_nc;
    cbn; lra.
Qed.
Lemma Cmod_pos x : 0 <= x -> Cmod (RtoC x) = x.
Proof. intros. rewrite Cmod_R. apply Rabs_right. lra. Qed.
Lemma main_dominates centered e chi ph j k : grid_ok e -> 0 <= chi j k ->
  inv_dr e ^ 2 < Cmod (main_of centered e chi ph j k).
Proof.
  intros Hg Hc. eapply Rlt_le_trans; [|apply Cmod_ge_Re]. rewrite fst_main.
  destruct (steps_pos e Hg) as (Ht & Hr & Hz).
  assert (0 < inv_dzdt e) by (apply Rmult_lt_0_compat; assumption).
  assert (0 < inv_dt e ^ 2) by (apply pow_lt; assumption).
  assert (0 < inv_dr e ^ 2) by (apply pow_lt; assumption).
  destruct centered; rewrite Rabs_left; lra.
Qed.
Lemma pivots_ok centered e chi ph j : grid_ok e ->
  (forall k, (k < e_nr e)%nat -> 0 <= chi j k) ->
  forall i, (i < e_nr e)%nat ->
    Cmod (upper_of e i) < Cmod (pivot (lower_of e) (main_of centered e chi ph j) (upper_of e) i).
Proof.
  intros Hg Hc. apply dominant. intros i Hi.
  eapply Rle_lt_trans; [|apply main_dominates; auto].
  rewrite <- (L_sum e i). unfold upper_of. rewrite Cmod_pos by apply L_pos.
  destruct i as [|i]; [rewrite L_minus_0; lra|].
  unfold lower_of. rewrite Cmod_pos by apply L_pos. replace (i + 1)%nat with (S i) by lia. lra.
Qed.

(** ** The rows are the discretised envelope equation *)
Lemma cexp_turn t : cexp (Cmult (Copp Ci) (RtoC t)) = turn t.
Proof.
  unfold cexp, turn. cbn. replace (- 0 * t - - (1) * 0) with 0 by ring.
  replace (- 0 * 0 + - (1) * t) with (- t) by ring.
  rewrite exp_0, cos_neg, sin_neg, !Rmult_1_l. reflexivity.
Qed.
Section COEFS.
Variable e : eargs.
Hypothesis Hg : grid_ok e.
Lemma step_t_inv : / step_t e = inv_dt e.
Proof. unfold inv_dt, e_dtn, step_t, Rdiv. rewrite Rmult_1_l. reflexivity. Qed.
Lemma step_r_inv : / step_r e = inv_dr e.
Proof. unfold inv_dr, e_dr, step_r. unfold Rdiv. rewrite Rmult_1_l. reflexivity. Qed.
Lemma step_z_inv : / step_z e = inv_dz e.
Proof. unfold inv_dz, e_dz, step_z. unfold Rdiv. rewrite Rmult_1_l. reflexivity. Qed.
Lemma steps_neq : step_t e <> 0 /\ step_r e <> 0 /\ step_z e <> 0.
Proof.
  destruct (steps_pos e Hg) as (Ht & Hr & Hz). rewrite <- step_t_inv in Ht.
  rewrite <- step_r_inv in Hr. rewrite <- step_z_inv in Hz.
  repeat split; intros E; rewrite E, Rinv_0 in *; lra.
Qed.
Lemma co_r : / step_r e ^ 2 = inv_dr e ^ 2.
Proof. rewrite <- step_r_inv. destruct steps_neq as (? & ? & ?). field. assumption. Qed.
Lemma co_rr k : / (2 * step_r e * ((INR k + / 2) * step_r e)) = L_base k * inv_dr e ^ 2.
Proof.
  rewrite <- step_r_inv. destruct steps_neq as (? & ? & ?). unfold L_base.
  replace 0.5 with (/ 2) by lra. pose proof (pos_INR k). field. split; lra.
Qed.
Lemma co_z : / (2 * step_z e) = inv_dz e * / 2.
Proof. rewrite <- step_z_inv. destruct steps_neq as (? & ? & ?). field. assumption. Qed.
Lemma co_t : / (2 * step_t e) = inv_dt e * / 2.
Proof. rewrite <- step_t_inv. destruct steps_neq as (? & ? & ?). field. assumption. Qed.
Lemma co_tt : / step_t e ^ 2 = inv_dt e ^ 2.
Proof. rewrite <- step_t_inv. destruct steps_neq as (? & ? & ?). field. assumption. Qed.
Lemma co_D t1 t2 : (3 * t1 - t2) / (2 * step_z e) = (3 * t1 - t2) * inv_dz e * / 2.
Proof. rewrite <- step_z_inv. destruct steps_neq as (? & ? & ?). field. assumption. Qed.

Lemma Cminus_eq (x y u v : C) : Cminus x y = Cminus u v -> u = v -> x = y.
Proof.
  intros E ->. replace x with (Cplus (Cminus x y) y) by ring. rewrite E. ring.
Qed.

Ltac dest t := let x := fresh "x" in let y := fresh "y" in destruct t as [x y].
Lemma row_centered chi ph new a old j k :
  tri_row (e_nr e) (lower_of e) (main_of true e chi ph j) (upper_of e) (new j) k
  = rhs_of true e chi ph a old (new (j + 1)%nat) (new (j + 2)%nat) j k ->
  envelope_equation_centered e chi (d_theta1 e ph j) (d_theta2 e ph j) new a old j k.
Proof.
  intros H. unfold envelope_equation_centered. eapply Cminus_eq; [|exact H]. clear H.
  unfold z_derivative, laplacian, tri_row, rhs_of, rhs_centered, main_of, main_centered,
    C_plus, C_minus, upper_of, lower_of.
  rewrite !cexp_turn, (Rplus_comm (d_theta2 e ph j) (d_theta1 e ph j)).
  rewrite co_r, co_rr, co_z, co_t, co_tt, co_D. unfold D_jkn.
  set (t1 := d_theta1 e ph j). set (t2 := d_theta2 e ph j).
  unfold L_minus_over_2, L_plus_over_2, inv_dzdt, k0_over_kp.
  set (kk := e_k0 e / e_kp e).
  generalize (turn t1), (turn (t1 + t2)). intros u1 u2.
  replace 0.5 with (/ 2) by lra. replace 1.5 with (3 * / 2) by lra.
  destruct (Nat.ltb (k + 1) (e_nr e)); destruct k as [|k].
  1, 3: assert (E0 : L_base 0 = 1)
      by (unfold L_base; cbn [INR]; replace (2 * (0 + 0.5)) with 1 by lra; lra);
    cbn [Nat.ltb Nat.leb]; rewrite E0; ceq; field.
  all: replace (S k - 1)%nat with k by lia; replace (k + 1)%nat with (S k) by lia;
    cbn [Nat.ltb Nat.leb]; generalize (L_base (S k)); intros lb; ceq; field.
Qed.
Lemma row_first chi ph new a old j k :
  tri_row (e_nr e) (lower_of e) (main_of false e chi ph j) (upper_of e) (new j) k
  = rhs_of false e chi ph a old (new (j + 1)%nat) (new (j + 2)%nat) j k ->
  envelope_equation_first e chi (d_theta1 e ph j) (d_theta2 e ph j) new a j k.
Proof.
  intros H. unfold envelope_equation_first. eapply Cminus_eq; [|exact H]. clear H.
  unfold z_derivative, laplacian, tri_row, rhs_of, rhs_non_centered, main_of, main_non_centered,
    C_plus_nc, C_minus_nc, upper_of, lower_of.
  rewrite !cexp_turn, (Rplus_comm (d_theta2 e ph j) (d_theta1 e ph j)).
  rewrite co_r, co_rr, co_z, step_t_inv, co_D. unfold D_jkn.
  set (t1 := d_theta1 e ph j). set (t2 := d_theta2 e ph j).
  unfold L_minus_over_2, L_plus_over_2, inv_dzdt, k0_over_kp.
  set (kk := e_k0 e / e_kp e).
  generalize (turn t1), (turn (t1 + t2)). intros u1 u2.
  replace 0.5 with (/ 2) by lra. replace 1.5 with (3 * / 2) by lra.
  destruct (Nat.ltb (k + 1) (e_nr e)); destruct k as [|k].
  1, 3: assert (E0 : L_base 0 = 1)
      by (unfold L_base; cbn [INR]; replace (2 * (0 + 0.5)) with 1 by lra; lra);
    cbn [Nat.ltb Nat.leb]; rewrite E0; ceq; field.
  all: replace (S k - 1)%nat with k by lia; replace (k + 1)%nat with (S k) by lia;
    cbn [Nat.ltb Nat.leb]; generalize (L_base (S k)); intros lb; ceq; field.
Qed.

Lemma solved_rows centered chi ph a a_old new j k :
  (forall k, (k < e_nr e)%nat -> 0 <= chi j k) ->
  solved centered e chi ph a a_old new 0 -> (j < e_nz e)%nat -> (k + 1 < e_nr e)%nat ->
  tri_row (e_nr e) (lower_of e) (main_of centered e chi ph j) (upper_of e) (new j) k
  = rhs_of centered e chi ph a a_old (new (j + 1)%nat) (new (j + 2)%nat) j k.
Proof.
  intros Hc (_ & _ & Hs) Hj Hk. specialize (Hs j ltac:(lia)).
  apply (tdma_rows _ _ _ _ _ _ (proj1 (proj2 Hg)) Hs); [|exact Hk].
  intros i Hi. eapply Cmod_lt_neq; [apply Cmod_ge_0|].
  apply (pivots_ok centered e chi ph j Hg Hc). lia.
Qed.
End COEFS.

Lemma envelope_centered e chi a a_old : grid_ok e ->
  (forall j k, (j < e_nz e)%nat -> (k < e_nr e)%nat -> 0 <= chi j k) ->
  exists new old', t_step true e chi (a, a_old) = Some (new, old') /\
    forall j k, (j < e_nz e)%nat -> (k + 1 < e_nr e)%nat ->
      envelope_equation_centered e chi (phase_jump e a j) (phase_jump e a (j + 1)) new a a_old j k.
Proof.
  intros Hg Hc. pose proof Hg as (Hz & Hr & _).
  destruct (t_step_solved true e chi a a_old Hr Hz) as (new & old' & E & Hs & _).
  exists new, old'. split; [exact E|]. intros j k Hj Hk.
  replace (phase_jump e a (j + 1)) with (d_theta2 e (phases e a) j)
    by (unfold phase_jump, d_theta2; rewrite <- Nat.add_assoc; reflexivity).
  apply (row_centered e Hg chi (phases e a) new a a_old j k).
  apply (solved_rows e Hg); auto.
Qed.
Lemma envelope_first e chi a a_old : grid_ok e ->
  (forall j k, (j < e_nz e)%nat -> (k < e_nr e)%nat -> 0 <= chi j k) ->
  exists new old', t_step false e chi (a, a_old) = Some (new, old') /\
    forall j k, (j < e_nz e)%nat -> (k + 1 < e_nr e)%nat ->
      envelope_equation_first e chi (phase_jump e a j) (phase_jump e a (j + 1)) new a j k.
Proof.
  intros Hg Hc. pose proof Hg as (Hz & Hr & _).
  destruct (t_step_solved false e chi a a_old Hr Hz) as (new & old' & E & Hs & _).
  exists new, old'. split; [exact E|]. intros j k Hj Hk.
  replace (phase_jump e a (j + 1)) with (d_theta2 e (phases e a) j)
    by (unfold phase_jump, d_theta2; rewrite <- Nat.add_assoc; reflexivity).
  apply (row_first e Hg chi (phases e a) new a a_old j k).
  apply (solved_rows e Hg); auto.
Qed.
