From Coq Require Import Reals ZArith String List Bool Lia Lra FunctionalExtensionality.
From Coquelicot Require Import Coquelicot.
From Verif Require Model_Laser Spec_Laser Proofs_Laser Properties_Laser Properties_QS Properties_Fluid Spec_QS Spec_Fluid.
From Verif Require Import Model_Push Model_Interp Spec_Interp Model_Deposit Spec_Deposit Model_QS Model_Fluid Model_RZ Spec_RZ.
Import ListNotations.
Open Scope R_scope.

Section History.
  Variable env : R -> R -> C.
  Variable to_main : Model_Laser.sparams -> nat * nat -> Model_Laser.carr2 -> Model_Laser.carr2.
  Variable to_sub : Model_Laser.sparams -> nat * nat -> (nat -> nat -> R) -> (nat -> nat -> R).
  Variables e_ch m_e eps_0 : R.
  Variable solve : box -> solver.
  Notation hist := (history env to_main to_sub e_ch m_e eps_0 solve).
  Notation upd := (updates env to_main to_sub e_ch m_e eps_0 solve).
  Notation upd1 := (update env to_main to_sub e_ch m_e eps_0 solve).

  Lemma stride_c d : d / c_SI * c_SI = d.
  Proof. unfold c_SI. field. Qed.
  (** A new wakefield with the distance [d] between updates. *)
  Definition begin (x : box) (d : R) (l : option pulse) : wake :=
    let n := new_wake x l in mkwk x (d / c_SI) (o_even n) false 0 0 l (o_arrays n) (o_zero n).

  Lemma start_prepared x d l l' : start_laser env to_main x (d / c_SI) l = Some l' <-> prepared env to_main x d l l'.
  Proof.
    unfold start_laser, prepared, set_args. destruct l as [p|]; [|split; congruence].
    destruct (Model_Laser.set_envelope_solver_params p _) as [[] p1] eqn:E1.
    - destruct (Model_Laser.initialize_envelope env to_main p1) as [[] p2] eqn:E2.
      + split; [intros [= <-]; exists p1, p2; auto|]. intros (q1 & q2 & [= <-] & Q & ->). congruence.
      + split; [discriminate|]. intros (q1 & q2 & [= <-] & Q & _). congruence.
      + split; [discriminate|]. intros (q1 & q2 & [= <-] & Q & _). congruence.
      + split; [discriminate|]. intros (q1 & q2 & [= <-] & Q & _). congruence.
    - split; [discriminate|]. intros (q1 & q2 & Q & _). discriminate.
    - split; [discriminate|]. intros (q1 & q2 & Q & _). discriminate.
    - split; [discriminate|]. intros (q1 & q2 & Q & _). discriminate.
  Qed.
  Lemma evolve_advanced x F n l l' : evolve_laser to_main to_sub e_ch m_e eps_0 x (h_chi F) n l = Some l' <->
    advanced to_main to_sub e_ch m_e eps_0 x F n l l'.
  Proof.
    unfold evolve_laser, advanced. destruct l as [p|]; [|split; congruence].
    destruct (x_evolution x); [|split; congruence]. unfold inner.
    destruct (Model_Laser.evolve to_main to_sub e_ch m_e eps_0 p _ n) as [[] p'].
    - split; [intros [= <-]; exists p'; auto|]. intros (q & [= <-] & ->). reflexivity.
    - split; [discriminate|]. intros (q & Q & _). discriminate.
    - split; [discriminate|]. intros (q & Q & _). discriminate.
    - split; [discriminate|]. intros (q & Q & _). discriminate.
  Qed.

  Definition zero_fields (x : box) : arr2 * arr2 * arr2 :=
    (zeros2 (x_nxi x) (x_nr x), zeros2 (x_nxi x) (x_nr x), zeros2 (x_nxi x) (x_nr x)).
  Definition state (x : box) (d : R) (even : bool) (k : nat) (N : R) (l : option pulse) (F : fields) : wake :=
    mkwk x (d / c_SI) even true (INR k * (d / c_SI)) N l F (zero_fields x).

  Lemma calc x d even k N0 l F0 b o :
    calculate_field solve b (state x d even k N0 l F0) = Some o <->
    exists N F v, x_density x (INR k * d) = Some N /\ seen l = Some v /\
      solve x N (INR k * d) v b = Returned (Ok F) /\ o = state x d even k N l F.
  Proof.
    unfold calculate_field, state; cbn [o_box o_t o_laser o_dt o_even o_init o_zero].
    rewrite Rmult_assoc, stride_c. destruct (x_density x _) as [N|] eqn:En.
    - destruct (seen l) as [v|] eqn:El.
      + destruct (solve x N _ v b) as [[F|]|] eqn:Es.
        * split; [intros [= <-]; exists N, F, v; auto|]. intros (N' & F' & v' & [= <-] & [= <-] & Q & ->). rewrite Q in Es. injection Es as <-. reflexivity.
        * split; [discriminate|]. intros (N' & F' & v' & [= <-] & [= <-] & Q & ->). congruence.
        * split; [discriminate|]. intros (N' & F' & v' & [= <-] & [= <-] & Q & ->). congruence.
      + split; [discriminate|]. intros (N' & F' & v' & _ & Q & _). discriminate.
    - split; [discriminate|]. intros (N' & F' & v' & Q & _). discriminate.
  Qed.
  Definition has (l : option pulse) : bool := match l with None => false | Some _ => true end.
  Lemma first_update x d l b o : upd1 (begin x d l) b = Some o <->
    exists l0 N F v, prepared env to_main x d l l0 /\ x_density x (INR 0 * d) = Some N /\ seen l0 = Some v /\
      solve x N (INR 0 * d) v b = Returned (Ok F) /\ o = state x d (has l) 0 N l0 F.
  Proof.
    unfold update. cbn [o_init begin]. unfold initialize_properties. cbn [o_box o_laser begin].
    change (o_dt (begin x d l)) with (d / c_SI).
    destruct (start_laser env to_main x (d / c_SI) l) as [l0|] eqn:E.
    - apply start_prepared in E. cbv zeta.
      match goal with |- calculate_field _ _ ?w = _ <-> _ =>
        replace w with (state x d (has l) 0 0 l0 (o_arrays w)) by (unfold state, zero_fields; cbn; f_equal; ring) end.
      rewrite calc. split.
      + intros (N & F & v & H1 & H2 & H3 & ->). exists l0, N, F, v. auto.
      + intros (l1 & N & F & v & P & H1 & H2 & H3 & ->). assert (l1 = l0) as -> by (apply start_prepared in P, E; congruence).
        exists N, F, v. auto.
    - split; [discriminate|]. intros (l1 & N & F & v & P & _). apply start_prepared in P. congruence.
  Qed.
  Lemma next_update x d even k N l F b o : upd1 (state x d even k N l F) b = Some o <->
    exists l' N' F' v, advanced to_main to_sub e_ch m_e eps_0 x F N l l' /\ x_density x (INR (S k) * d) = Some N' /\
      seen l' = Some v /\ solve x N' (INR (S k) * d) v b = Returned (Ok F') /\ o = state x d even (S k) N' l' F'.
  Proof.
    unfold update. change (o_init (state x d even k N l F)) with true. cbv iota. unfold evolve_properties.
    change (o_box (state x d even k N l F)) with x. change (o_arrays (state x d even k N l F)) with F.
    change (o_np (state x d even k N l F)) with N. change (o_laser (state x d even k N l F)) with l.
    destruct (evolve_laser to_main to_sub e_ch m_e eps_0 x (h_chi F) N l) as [l'|] eqn:E.
    - apply evolve_advanced in E.
      replace (mkwk x _ _ _ _ _ _ _ _) with (state x d even (S k) N l' F).
      2:{ unfold state; cbn [o_dt o_even o_init o_t o_zero]. f_equal. rewrite S_INR. ring. }
      rewrite calc. split.
      + intros (N' & F' & v & H1 & H2 & H3 & ->). exists l', N', F', v. auto.
      + intros (l1 & N' & F' & v & P & H1 & H2 & H3 & ->).
        assert (l1 = l') as -> by (apply evolve_advanced in P, E; congruence). exists N', F', v. auto.
    - split; [discriminate|]. intros (l1 & N' & F' & v & P & _). apply evolve_advanced in P. congruence.
  Qed.

  Lemma upd_app o l1 l2 : upd o (l1 ++ l2) = match upd o l1 with Some o' => upd o' l2 | None => None end.
  Proof. revert o. induction l1 as [|b l1 IH]; intros o; [reflexivity|]. cbn [app updates]. destruct (upd1 o b); [apply IH|reflexivity]. Qed.
  Lemma hist_prefix x d l bs b L N F : hist x d l (bs ++ [b]) L N F -> hist x d l bs L N F.
  Proof.
    intros [H1 H2 H3 H4]. rewrite app_length in *. cbn [length] in *. constructor; try assumption.
    - intros k K. apply H2. lia.
    - intros k K. apply H3. lia.
    - intros k K. destruct (H4 k ltac:(lia)) as (v & A & B). exists v. split; [exact A|]. rewrite app_nth1 in B by exact K. exact B.
  Qed.
  Lemma hist_change x d l bs L N F L' N' F' : (forall k, (k < length bs)%nat -> L' k = L k /\ N' k = N k /\ F' k = F k) -> bs <> [] ->
    hist x d l bs L N F -> hist x d l bs L' N' F'.
  Proof.
    intros E B [H1 H2 H3 H4]. assert (0 < length bs)%nat by (destruct bs; [congruence|cbn; lia]). constructor.
    - rewrite (proj1 (E 0%nat ltac:(assumption))). exact H1.
    - intros k K. destruct (E k ltac:(lia)) as (-> & -> & ->). destruct (E (S k) K) as (-> & _). apply H2. exact K.
    - intros k K. destruct (E k K) as (_ & -> & _). apply H3. exact K.
    - intros k K. destruct (E k K) as (-> & -> & ->). apply H4. exact K.
  Qed.
  Definition set {A} (k : nat) (a : A) (f : nat -> A) (i : nat) : A := if Nat.eqb i k then a else f i.
  Lemma set_same {A} k (a : A) f : set k a f k = a.
  Proof. unfold set. rewrite Nat.eqb_refl. reflexivity. Qed.
  Lemma set_other {A} k (a : A) f i : (i < k)%nat -> set k a f i = f i.
  Proof. intros H. unfold set. destruct (Nat.eqb_spec i k); [lia|reflexivity]. Qed.

  Lemma updates_lemma x d l bs : bs <> [] -> forall o, upd (begin x d l) bs = Some o <->
    exists L N F, hist x d l bs L N F /\
      let n := (length bs - 1)%nat in o = state x d (has l) n (N n) (L n) (F n).
  Proof.
    induction bs as [|b bs IH] using rev_ind; [congruence|]. intros _ o. rewrite upd_app.
    destruct bs as [|b0 bs0].
    - cbn [updates app length Nat.sub]. split.
      + intros H. destruct (upd1 (begin x d l) b) as [o'|] eqn:E; [|discriminate]. injection H as <-.
        apply first_update in E as (l0 & N & F & v & P & H1 & H2 & H3 & ->).
        exists (fun _ => l0), (fun _ => N), (fun _ => F). split; [|reflexivity]. constructor; cbn [length].
        * exact P.
        * intros k K. lia.
        * intros k K. replace k with 0%nat by lia. exact H1.
        * intros k K. replace k with 0%nat by lia. exists v. auto.
      + intros (L & N & F & [P1 P2 P3 P4] & ->). cbn [length] in *.
        destruct (P4 0%nat ltac:(lia)) as (v & A & B).
        assert (E : upd1 (begin x d l) b = Some (state x d (has l) 0 (N 0%nat) (L 0%nat) (F 0%nat))).
        { apply first_update. exists (L 0%nat), (N 0%nat), (F 0%nat), v. repeat split; auto. }
        rewrite E. reflexivity.
    - remember (b0 :: bs0) as bs eqn:Eb. assert (Nb : bs <> []) by (subst; discriminate). specialize (IH Nb).
      assert (Hl : (0 < length bs)%nat) by (subst; cbn; lia). clear Eb.
      rewrite app_length. cbn [length]. replace (length bs + 1 - 1)%nat with (length bs) by lia.
      assert (Hs : S (length bs - 1) = length bs) by lia. cbn [updates]. split.
      + intros H. destruct (upd (begin x d l) bs) as [o1|] eqn:E1; [|discriminate].
        destruct (upd1 o1 b) as [o2|] eqn:E2; [|discriminate]. injection H as <-.
        destruct (proj1 (IH o1) eq_refl) as (L & N & F & Hh & E). cbv zeta in E. rewrite E in E2.
        apply next_update in E2 as (l' & N' & F' & v & P & H1 & H2 & H3 & ->). rewrite Hs in *.
        exists (set (length bs) l' L), (set (length bs) N' N), (set (length bs) F' F).
        split; [|cbv zeta; rewrite !set_same; reflexivity].
        destruct Hh as [Q1 Q2 Q3 Q4]. constructor; rewrite ?app_length; cbn [length].
        * rewrite set_other by lia. exact Q1.
        * intros k K. destruct (Nat.eq_dec (S k) (length bs)) as [Ek|Nk].
          -- rewrite <- Ek, set_same, !set_other by lia. replace k with (length bs - 1)%nat by lia. exact P.
          -- rewrite !set_other by lia. apply Q2. lia.
        * intros k K. destruct (Nat.eq_dec k (length bs)) as [->|Nk]; [rewrite set_same; exact H1|]. rewrite set_other by lia. apply Q3. lia.
        * intros k K. destruct (Nat.eq_dec k (length bs)) as [->|Nk].
          -- rewrite !set_same. exists v. split; [exact H2|]. rewrite app_nth2, Nat.sub_diag by lia. exact H3.
          -- rewrite !set_other by lia. rewrite app_nth1 by lia. apply Q4. lia.
      + intros (L & N & F & Hh & ->). cbv zeta.
        rewrite (proj2 (IH (state x d (has l) (length bs - 1) (N (length bs - 1)%nat) (L (length bs - 1)%nat) (F (length bs - 1)%nat)))).
        2:{ exists L, N, F. split; [exact (hist_prefix _ _ _ _ _ _ _ _ Hh)|reflexivity]. }
        destruct Hh as [Q1 Q2 Q3 Q4]. rewrite app_length in *. cbn [length] in *.
        destruct (Q4 (length bs) ltac:(lia)) as (v & A & B). rewrite app_nth2, Nat.sub_diag in B by lia. cbn [nth] in B.
        remember (length bs - 1)%nat as m eqn:Em. rewrite <- Hs in *. clear Em Hs Hl IH.
        assert (E : upd1 (state x d (has l) m (N m) (L m) (F m)) b = Some (state x d (has l) (S m) (N (S m)) (L (S m)) (F (S m)))).
        { apply next_update. exists (L (S m)), (N (S m)), (F (S m)), v.
          repeat split; auto; [apply Q2; lia|apply Q3; lia]. }
        rewrite E. reflexivity.
  Qed.

  Lemma begin_lemma x l T : 0 < T -> 0 < stride x -> exists d, spacing x l (c_SI * T) d /\ 0 < d /\ adjust_dt T (new_wake x l) = begin x d l.
  Proof.
    intros HT Hs. unfold spacing, adjust_dt, begin. assert (Hc : 0 < c_SI) by (unfold c_SI; lra). destruct l as [p|].
    2:{ exists (stride x). split; [reflexivity|]. split; [exact Hs|]. reflexivity. }
    cbn [new_wake o_even o_dt o_box o_init o_t o_np o_laser o_arrays o_zero]. change (match x_dz x with None => x_ximax x - x_ximin x | Some d => d end) with (stride x).
    set (q := T / (stride x / c_SI)). assert (Hq : 0 < q) by (unfold q; apply Rdiv_lt_0_compat; [exact HT|apply Rdiv_lt_0_compat; assumption]).
    assert (Eq : c_SI * T = q * stride x) by (unfold q; field; lra).
    destruct (base_Int_part (- q)) as [B1 B2]. set (m := (- Int_part (- q))%Z). assert (Em : - IZR (Int_part (- q)) = IZR m) by (unfold m; rewrite opp_IZR; ring).
    assert (Hm : IZR m - 1 < q <= IZR m) by lra. assert (m1 : (1 <= m)%Z) by (assert (0 < m)%Z by (apply lt_IZR; lra); lia).
    assert (Hm1 : 1 <= IZR m) by (apply IZR_le; exact m1).
    exists (c_SI * T / IZR m). split; [|split].
    - exists (Z.to_nat m). rewrite INR_IZR_INZ, Z2Nat.id by lia. split; [lia|]. split; [field; lra|]. split.
      + apply (Rmult_le_reg_r (IZR m)); [lra|]. replace (c_SI * T / IZR m * IZR m) with (q * stride x) by (rewrite <- Eq; field; lra). nra.
      + intros k K Hk. assert (1 <= INR k) by (apply (le_INR 1); exact K).
        assert (q <= INR k). { apply (Rmult_le_reg_r (stride x)); [exact Hs|]. rewrite <- Eq. apply (Rmult_le_reg_r (/ INR k)); [apply Rinv_0_lt_compat; lra|].
          replace (INR k * stride x * / INR k) with (stride x) by (field; lra). exact Hk. }
        rewrite INR_IZR_INZ in *. assert (m - 1 < Z.of_nat k)%Z by (apply lt_IZR; rewrite minus_IZR; lra). lia.
    - apply Rdiv_lt_0_compat; [nra|lra].
    - rewrite Em. f_equal. field. split; lra.
  Qed.
  (** Without evolution the pulse stays as it was prepared. *)
  Lemma static_laser x d l bs L N F : (l = None \/ x_evolution x = false) -> hist x d l bs L N F ->
    forall k, (k < length bs)%nat -> L k = L 0%nat.
  Proof.
    intros S [H1 H2 _ _]. induction k as [|k IH]; intros K; [reflexivity|].
    specialize (H2 k K). specialize (IH ltac:(lia)). unfold advanced in H2. rewrite <- IH. destruct (L k) as [p|] eqn:E.
    - destruct S as [->|S].
      + exfalso. unfold prepared in H1. congruence.
      + rewrite S in H2. exact H2.
    - exact H2.
  Qed.
  Lemma prepared_unique x d l a b : prepared env to_main x d l a -> prepared env to_main x d l b -> a = b.
  Proof. intros A B. apply start_prepared in A, B. congruence. Qed.
End History.
