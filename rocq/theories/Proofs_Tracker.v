(** Lemmas about the tracking loop (Model_Tracker). *)
From Coq Require Import QArith Qround List Bool Arith ZArith Lia Lqa.
From Verif Require Import Model_Tracker Spec_Tracker.
Import ListNotations.
Open Scope Q_scope.

(** * Basic tools *)
Lemma Qltb_true a b : Qltb a b = true <-> a < b.
Proof.
  unfold Qltb. rewrite negb_true_iff. split; intros H.
  - apply Qnot_le_lt. intros Hle. apply Qle_bool_iff in Hle. congruence.
  - destruct (Qle_bool b a) eqn:E; [|reflexivity].
    apply Qle_bool_iff in E. lra.
Qed.
Lemma Qltb_false a b : Qltb a b = false <-> b <= a.
Proof.
  unfold Qltb. rewrite negb_false_iff. apply Qle_bool_iff.
Qed.
Lemma Qeqb_true a b : Qeq_bool a b = true <-> a == b.
Proof. apply Qeq_bool_iff. Qed.
Lemma Qeqb_false a b : Qeq_bool a b = false <-> ~ a == b.
Proof.
  split; intros H.
  - apply Qeq_bool_neq; assumption.
  - destruct (Qeq_bool a b) eqn:E; [|reflexivity].
    apply Qeq_bool_iff in E. contradiction.
Qed.

Lemma argmin_go_spec l : forall best vbest i pre,
  length pre = i -> (best < i)%nat -> nth best pre 0 = vbest ->
  (forall k, (k < i)%nat -> vbest <= nth k pre 0) ->
  (forall k, (k < best)%nat -> vbest < nth k pre 0) ->
  let r := argmin_go best vbest i l in
  let full := (pre ++ l)%list in
  (r < length full)%nat /\
  (forall k, (k < length full)%nat -> nth r full 0 <= nth k full 0) /\
  (forall k, (k < r)%nat -> nth r full 0 < nth k full 0).
Proof.
  induction l as [|y ys IH]; intros best vbest i pre Hl Hb Hv Hle Hlt; cbn [argmin_go].
  - rewrite app_nil_r. cbn zeta. rewrite Hl, Hv. auto.
  - assert (Hfull : (pre ++ y :: ys)%list = ((pre ++ [y]) ++ ys)%list).
    { rewrite <- app_assoc. reflexivity. }
    destruct (Qltb y vbest) eqn:E.
    + apply Qltb_true in E. rewrite Hfull. apply IH.
      * rewrite app_length; simpl; lia.
      * lia.
      * rewrite app_nth2 by lia. rewrite Hl, Nat.sub_diag. reflexivity.
      * intros k Hk. destruct (Nat.eq_dec k i) as [->|Hne].
        -- rewrite app_nth2 by lia. rewrite Hl, Nat.sub_diag. simpl. lra.
        -- rewrite app_nth1 by lia. specialize (Hle k ltac:(lia)). lra.
      * intros k Hk. rewrite app_nth1 by lia. specialize (Hle k Hk). lra.
    + apply Qltb_false in E. rewrite Hfull. apply IH.
      * rewrite app_length; simpl; lia.
      * lia.
      * rewrite app_nth1 by lia. assumption.
      * intros k Hk. destruct (Nat.eq_dec k i) as [->|Hne].
        -- rewrite app_nth2 by lia. rewrite Hl, Nat.sub_diag. simpl. lra.
        -- rewrite app_nth1 by lia. apply Hle; lia.
      * intros k Hk. rewrite app_nth1 by lia. apply Hlt; lia.
Qed.

Lemma argmin_spec l i : argmin l = Some i ->
  (i < length l)%nat /\
  (forall k, (k < length l)%nat -> nth i l 0 <= nth k l 0) /\
  (forall k, (k < i)%nat -> nth i l 0 < nth k l 0).
Proof.
  destruct l as [|x xs]; intros H; [discriminate|].
  cbn [argmin] in H. injection H as <-.
  apply (argmin_go_spec xs 0 x 1 [x]); auto.
  - intros k Hk. assert (k = 0)%nat by lia. subst. simpl. lra.
  - intros k Hk. lia.
Qed.

Lemma argmin_none l : argmin l = None -> l = [].
Proof. destruct l; [reflexivity|discriminate]. Qed.

Lemma upd_length {A} i (v : A) l : length (upd i v l) = length l.
Proof. revert i; induction l as [|x xs IH]; intros [|i]; simpl; auto. Qed.
Lemma upd_nth_same {A} i (v d : A) l :
  (i < length l)%nat -> nth i (upd i v l) d = v.
Proof.
  revert i; induction l as [|x xs IH]; intros [|i] H; simpl in *; try lia; auto.
  apply IH; lia.
Qed.
Lemma upd_nth_other {A} i k (v d : A) l :
  k <> i -> nth k (upd i v l) d = nth k l d.
Proof.
  revert i k; induction l as [|x xs IH]; intros [|i] [|k] H; simpl in *;
    try lia; auto.
Qed.
Lemma upd_nth_error_same {A} i (v : A) l :
  (i < length l)%nat -> nth_error (upd i v l) i = Some v.
Proof.
  revert i; induction l as [|x xs IH]; intros [|i] H; simpl in *; try lia; auto.
  apply IH; lia.
Qed.
Lemma upd_nth_error_other {A} i k (v : A) l :
  k <> i -> nth_error (upd i v l) k = nth_error l k.
Proof.
  revert i k; induction l as [|x xs IH]; intros [|i] [|k] H; simpl in *;
    try lia; auto.
Qed.
Lemma upd_replace {B} i (v : B) l :
  (i < length l)%nat -> upd i v l = replace_at B i v l.
Proof.
  revert i; induction l as [|x xs IH]; intros [|i] H; simpl in *; try lia; auto.
  unfold replace_at in *. simpl. f_equal. apply IH; lia.
Qed.

Lemma vadd_length a b : length a = length b -> length (vadd a b) = length a.
Proof.
  revert b; induction a as [|x xs IH]; intros [|y ys] H; simpl in *; auto.
Qed.
Lemma vadd_nth a b k : length a = length b -> (k < length a)%nat ->
  nth k (vadd a b) 0 = nth k a 0 + nth k b 0.
Proof.
  revert b k; induction a as [|x xs IH]; intros [|y ys] [|k] H Hk;
    simpl in *; try lia; auto.
  apply IH; lia.
Qed.

(** * Logs *)
Section LogLemmas.
  Context {B : Type}.
  Implicit Types l : list (event B).
  Lemma pushes_app i l1 l2 : pushes i (l1 ++ l2) = (pushes i l1 ++ pushes i l2)%list.
  Proof.
    induction l1 as [|e r IH]; simpl; auto.
    destruct e as [k t d s| |]; auto. destruct (Nat.eqb k i); simpl; congruence.
  Qed.
  Lemma field_times_app j l1 l2 :
    field_times j (l1 ++ l2) = (field_times j l1 ++ field_times j l2)%list.
  Proof.
    induction l1 as [|e r IH]; simpl; auto.
    destruct e as [|k t|]; auto. destruct (Nat.eqb k j); simpl; congruence.
  Qed.
  Lemma diag_times_app l1 l2 :
    diag_times (l1 ++ l2) = (diag_times l1 ++ diag_times l2)%list.
  Proof.
    induction l1 as [|e r IH]; simpl; auto. destruct e; simpl; congruence.
  Qed.
  Lemma snapshots_app l1 l2 :
    snapshots (l1 ++ l2) = (snapshots l1 ++ snapshots l2)%list.
  Proof.
    induction l1 as [|e r IH]; simpl; auto. destruct e; simpl; congruence.
  Qed.
End LogLemmas.

Lemma chain_ext a a' l b b' : a == a' -> b == b' -> chain a l b -> chain a' l b'.
Proof.
  intros Ha Hb H. revert a' b' Ha Hb.
  induction H as [a b E|a b t d l E H IH]; intros a' b' Ha Hb.
  - constructor. lra.
  - constructor; [lra|]. apply IH; lra.
Qed.
Lemma chain_snoc a l b t d c : chain a l b -> t == b -> c == b + d ->
  chain a (l ++ [(t, d)]) c.
Proof.
  intros H. revert t d c.
  induction H as [a b E|a b t0 d0 l E H IH]; intros t d c Ht Hc; simpl.
  - constructor; [lra|]. constructor. lra.
  - constructor; [assumption|]. apply IH; assumption.
Qed.
Lemma chain_total a l b : chain a l b ->
  a + fold_right (fun p acc => snd p + acc) 0 l == b.
Proof.
  induction 1 as [a b E|a b t d l E H IH]; simpl; lra.
Qed.

Lemma multiples_snoc d n l t : multiples d n l ->
  t == inject_Z (Z.of_nat n) * d -> multiples d (S n) (l ++ [t]).
Proof.
  intros [Hl Hm] Ht. split.
  - rewrite app_length; simpl; lia.
  - intros k u Hk. destruct (lt_dec k (length l)) as [Hlt|Hge].
    + rewrite nth_error_app1 in Hk by assumption. auto.
    + rewrite nth_error_app2 in Hk by lia.
      destruct (k - length l)%nat as [|q] eqn:E; simpl in Hk.
      * injection Hk as <-. replace k with n by lia. assumption.
      * destruct q; discriminate.
Qed.
Lemma inject_S n : inject_Z (Z.of_nat (S n)) == inject_Z (Z.of_nat n) + 1.
Proof. rewrite Nat2Z.inj_succ. unfold Z.succ. rewrite inject_Z_plus. reflexivity. Qed.

(** * The even-update adjustment *)
Lemma Qdiv_pos a b : 0 < a -> 0 < b -> 0 < a / b.
Proof. intros Ha Hb. apply Qlt_shift_div_l; [assumption|]. lra. Qed.

Lemma ceil_pos T d : 0 < T -> 0 < d -> (1 <= Qceiling (T / d))%Z.
Proof.
  intros HT Hd.
  assert (H : 0 < inject_Z (Qceiling (T / d))).
  { apply Qlt_le_trans with (T / d); [apply Qdiv_pos; assumption|].
    apply Qle_ceiling. }
  change 0 with (inject_Z 0) in H. rewrite <- Zlt_Qlt in H. lia.
Qed.
Lemma adjust_pos f T d : 0 < T -> 0 < d -> 0 < adjust_dt f T d.
Proof.
  intros HT Hd. destruct f; simpl; [|assumption].
  apply Qdiv_pos; [assumption|].
  pose proof (ceil_pos T d HT Hd).
  change 0 with (inject_Z 0). rewrite <- Zlt_Qlt. lia.
Qed.

(** * Indices of the tracked objects *)
Lemma objects_length c : length (objects c) =
  (n_bunches c + (n_fields c + if Nat.ltb 0 (c_ndiags c) then 1 else 0))%nat.
Proof.
  unfold objects. rewrite !app_length, !map_length, !seq_length.
  destruct (Nat.ltb 0 (c_ndiags c)); reflexivity.
Qed.
Lemma objects_bunch c i : (i < n_bunches c)%nat ->
  nth_error (objects c) i = Some (OBunch i).
Proof.
  intros H. unfold objects. rewrite nth_error_app1.
  - rewrite nth_error_map. rewrite (nth_error_nth' _ 0%nat).
    + simpl. rewrite seq_nth by assumption. reflexivity.
    + rewrite seq_length; assumption.
  - rewrite map_length, seq_length; assumption.
Qed.
Lemma objects_field c j : (j < n_fields c)%nat ->
  nth_error (objects c) (n_bunches c + j) = Some (OField j).
Proof.
  intros H. unfold objects. rewrite nth_error_app2.
  - rewrite map_length, seq_length.
    replace (n_bunches c + j - n_bunches c)%nat with j by lia.
    rewrite nth_error_app1.
    + rewrite nth_error_map. rewrite (nth_error_nth' _ 0%nat).
      * simpl. rewrite seq_nth by assumption. reflexivity.
      * rewrite seq_length; assumption.
    + rewrite map_length, seq_length; assumption.
  - rewrite map_length, seq_length; lia.
Qed.
Lemma objects_diag c : (0 < c_ndiags c)%nat ->
  nth_error (objects c) (n_bunches c + n_fields c) = Some ODiag.
Proof.
  intros H. unfold objects. rewrite nth_error_app2.
  - rewrite map_length, seq_length.
    rewrite nth_error_app2; rewrite map_length, seq_length; [|lia].
    replace (n_bunches c + n_fields c - n_bunches c - n_fields c)%nat with 0%nat by lia.
    apply Nat.ltb_lt in H. rewrite H. reflexivity.
  - rewrite map_length, seq_length; lia.
Qed.
(** The three kinds of index. *)
Lemma index_cases c i : (i < length (objects c))%nat ->
  (i < n_bunches c)%nat \/
  (exists j, (j < n_fields c)%nat /\ i = (n_bunches c + j)%nat) \/
  (i = (n_bunches c + n_fields c)%nat /\ (0 < c_ndiags c)%nat).
Proof.
  rewrite objects_length. intros H.
  destruct (lt_dec i (n_bunches c)) as [|Hb]; [left; assumption|].
  destruct (lt_dec i (n_bunches c + n_fields c)) as [Hf|Hf].
  - right; left. exists (i - n_bunches c)%nat. lia.
  - right; right. destruct (Nat.ltb 0 (c_ndiags c)) eqn:E.
    + apply Nat.ltb_lt in E. lia.
    + lia.
Qed.

Lemma initial_dtb_length {B} auto_dt dtb (bs0 : list B) :
  length bs0 = length dtb -> length (initial_dtb B auto_dt dtb bs0) = length dtb.
Proof.
  revert bs0; induction dtb as [|d ds IH]; intros [|b r] H; simpl in *; auto.
Qed.
Lemma initial_dt_length {B} auto_dt c (bs0 : list B) :
  length bs0 = length (c_dtb c) ->
  length (initial_dt B auto_dt c bs0) = length (objects c).
Proof.
  intros H. rewrite objects_length. unfold initial_dt.
  rewrite !app_length, initial_dtb_length by assumption.
  unfold dt_fields. rewrite map_length.
  destruct (Nat.ltb 0 (c_ndiags c)); reflexivity.
Qed.
Lemma initial_dt_bunch {B} auto_dt c (bs0 : list B) i :
  length bs0 = length (c_dtb c) -> (i < n_bunches c)%nat ->
  nth i (initial_dt B auto_dt c bs0) 0 =
  nth i (initial_dtb B auto_dt (c_dtb c) bs0) 0.
Proof.
  intros H Hi. unfold initial_dt. apply app_nth1.
  rewrite initial_dtb_length; assumption.
Qed.
Lemma initial_dt_field {B} auto_dt c (bs0 : list B) j :
  length bs0 = length (c_dtb c) -> (j < n_fields c)%nat ->
  nth (n_bunches c + j) (initial_dt B auto_dt c bs0) 0 = nth j (dt_fields c) 0.
Proof.
  intros H Hi. unfold initial_dt.
  rewrite app_nth2; rewrite initial_dtb_length by assumption; [|unfold n_bunches; lia].
  replace (n_bunches c + j - length (c_dtb c))%nat with j by (unfold n_bunches; lia).
  apply app_nth1. unfold dt_fields. rewrite map_length; assumption.
Qed.
Lemma initial_dt_diag {B} auto_dt c (bs0 : list B) :
  length bs0 = length (c_dtb c) -> (0 < c_ndiags c)%nat ->
  nth (n_bunches c + n_fields c) (initial_dt B auto_dt c bs0) 0 = dt_diags c.
Proof.
  intros H Hi. unfold initial_dt.
  rewrite app_nth2; rewrite initial_dtb_length by assumption; [|unfold n_bunches; lia].
  rewrite app_nth2; unfold dt_fields; rewrite map_length; [|unfold n_bunches, n_fields; lia].
  replace (n_bunches c + n_fields c - length (c_dtb c) - length (c_fields c))%nat
    with 0%nat by (unfold n_bunches, n_fields; lia).
  apply Nat.ltb_lt in Hi. rewrite Hi. reflexivity.
Qed.
Lemma initial_dtb_nth {B} auto_dt dtb (bs0 : list B) i d b :
  nth_error dtb i = Some d -> nth_error bs0 i = Some b ->
  nth i (initial_dtb B auto_dt dtb bs0) 0 =
  match d with Some q => q | None => auto_dt b end.
Proof.
  revert dtb bs0; induction i as [|i IH]; intros [|x xs] [|y ys] Hd Hb;
    simpl in *; try discriminate.
  - injection Hd as <-. injection Hb as <-. reflexivity.
  - apply IH; assumption.
Qed.

(** * The loop *)
Lemma upd_id {A} i (d : A) l : upd i (nth i l d) l = l.
Proof.
  revert i; induction l as [|x xs IH]; intros [|i]; simpl; auto.
  f_equal; apply IH.
Qed.
Lemma upd_upd {A} i (v w : A) l : upd i v (upd i w l) = upd i v l.
Proof.
  revert i; induction l as [|x xs IH]; intros [|i]; simpl; auto.
  f_equal; apply IH.
Qed.
Lemma upd_other_eq {A} i k (v d : A) l :
  nth k (upd i v l) d = if Nat.eqb k i then (if Nat.ltb i (length l) then v else d)
                        else nth k l d.
Proof.
  destruct (Nat.eqb_spec k i) as [->|H]; [|apply upd_nth_other; assumption].
  destruct (Nat.ltb_spec i (length l)) as [Hi|Hi].
  - apply upd_nth_same; assumption.
  - apply nth_overflow. rewrite upd_length. lia.
Qed.

Lemma split_snoc {A} (l1 : list A) e l2 log e' :
  log ++ [e'] = l1 ++ e :: l2 ->
  (l2 = [] /\ l1 = log /\ e = e') \/
  (exists l2', l2 = l2' ++ [e'] /\ log = l1 ++ e :: l2').
Proof.
  intros H. destruct l2 as [|x xs] using rev_ind.
  - left. apply app_inj_tail in H as [H1 H2]. auto.
  - right. clear IHxs. exists xs.
    rewrite app_comm_cons, app_assoc in H. apply app_inj_tail in H as [H1 H2].
    subst. auto.
Qed.

From Coq Require Import Sorted.
Lemma SSorted_snoc {A} (R : A -> A -> Prop) l e :
  StronglySorted R l -> (forall x, In x l -> R x e) ->
  StronglySorted R (l ++ [e]).
Proof.
  induction 1 as [|a l H IH HF]; intros He; simpl.
  - constructor; constructor.
  - constructor.
    + apply IH. intros x Hx. apply He. right; assumption.
    + apply Forall_app. split; [assumption|].
      constructor; [|constructor]. apply He. left; reflexivity.
Qed.

Section LoopProofs.
  Variables B F : Type.
  Variable evolve : F -> B -> Q -> Q -> B.
  Variable update : nat -> F -> list B -> F.
  Variable auto_dt : B -> Q.
  Variable copy : B -> B.
  Variable rnd : Q -> Q.
  Hypothesis rnd_mono : monotone rnd.
  Variable c : config.
  Variable bs0 : list B.
  Variable fs0 : F.
  Hypothesis Hgood : good_config c bs0.
  Variable m : Q.
  Hypothesis Hauto : bounded_below auto_dt m.

  Notation state := (state B F).
  Notation evolve_bunch := (evolve_bunch B F evolve auto_dt rnd).
  Notation push_to := (push_to B F evolve auto_dt rnd).
  Notation generate_diagnostics := (generate_diagnostics B F copy).
  Notation update_field := (update_field B F update).
  Notation advance := (advance B F).
  Notation step := (step B F evolve update auto_dt copy rnd).
  Notation loop := (loop B F evolve update auto_dt copy rnd).
  Notation start := (start B F update auto_dt).
  Notation do_tracking := (do_tracking B F evolve update auto_dt copy rnd).

  Definition Tf := c_tfinal c.
  Definition nb := n_bunches c.
  Definition nf := n_fields c.
  Definition nobj := length (objects c).
  Definition tm (s : state) (k : nat) : Q := nth k (tobj s) 0.
  Definition dm (s : state) (k : nat) : Q := nth k (dtobj s) 0.
  Definition dtf (j : nat) : Q := nth j (dt_fields c) 0.

  Ltac ftm := repeat match goal with
    | s : Model_Tracker.state B F |- context [nth ?k (tobj ?s) 0] =>
        change (nth k (tobj s) 0) with (tm s k)
    | s : Model_Tracker.state B F |- context [nth ?k (dtobj ?s) 0] =>
        change (nth k (dtobj s) 0) with (dm s k)
    end.
  Lemma rnd_lt_inv x y : rnd x < rnd y -> x < y.
  Proof.
    intros H. apply Qnot_le_lt. intros Hle. apply rnd_mono in Hle. lra.
  Qed.
  Lemma rnd_eq x y : x == y -> rnd x == rnd y.
  Proof.
    intros H. assert (H1 : x <= y) by lra. assert (H2 : y <= x) by lra.
    apply rnd_mono in H1. apply rnd_mono in H2. lra.
  Qed.
  Lemma Tf_pos : 0 < Tf.
  Proof. destruct Hgood as [H _]. exact H. Qed.
  Lemma dtf_pos j : (j < nf)%nat -> 0 < dtf j.
  Proof.
    intros Hj. unfold dtf, dt_fields.
    destruct (nth_error (c_fields c) j) as [[d f]|] eqn:E.
    - rewrite (nth_indep _ 0 (adjust_dt (snd (0, true)) (c_tfinal c) (fst (0, true))))
        by (rewrite map_length; assumption).
      rewrite (map_nth (fun f => adjust_dt (snd f) (c_tfinal c) (fst f))).
      rewrite (nth_error_nth _ _ _ E). simpl.
      apply adjust_pos; [apply Tf_pos|].
      destruct Hgood as (_ & _ & _ & H). apply (H d f).
      eapply nth_error_In; eassumption.
    - apply nth_error_None in E. unfold nf, n_fields in Hj. lia.
  Qed.
  Lemma ndiags_pos_Q : (0 < c_ndiags c)%nat ->
    0 < inject_Z (Z.of_nat (c_ndiags c)).
  Proof. intros H. change 0 with (inject_Z 0). rewrite <- Zlt_Qlt. lia. Qed.
  Lemma dtdiag_pos : (0 < c_ndiags c)%nat -> 0 < dt_diags c.
  Proof.
    intros H. unfold dt_diags. apply Qdiv_pos; [apply Tf_pos|].
    apply ndiags_pos_Q; assumption.
  Qed.

  (** Step of bunch [i] after a push to [tn]. *)
  Definition newdt (i : nat) (b' : B) (d tn : Q) : Q :=
    let d1 := if is_auto c i then auto_dt b' else d in
    if negb (Qeq_bool (rnd tn) (rnd Tf)) && Qltb Tf (tn + d1)
    then Tf - tn else d1.

  Lemma evolve_bunch_eff sync i b t tn d (s : state) :
    nth_error (bs s) i = Some b -> (i < length (dtobj s))%nat ->
    let b' := evolve (fs s) b t d in
    evolve_bunch c sync i t tn d s =
    {| bs := upd i b' (bs s); fs := fs s; tobj := tobj s;
       dtobj := upd i (newdt i b' (dm s i) tn) (dtobj s);
       out := out s; log := log s ++ [EPush i t d sync] |}.
  Proof.
    intros Hb Hi b'. unfold Model_Tracker.evolve_bunch. rewrite Hb. fold b'.
    unfold newdt, dm. fold Tf.
    destruct (is_auto c i).
    - rewrite upd_nth_same by assumption.
      destruct (negb _ && _); [rewrite upd_upd|]; reflexivity.
    - destruct (negb _ && _); [|rewrite upd_id]; reflexivity.
  Qed.

  (** A push of bunch [i] together with the advance of its clock. *)
  Definition push (sync : bool) (i : nat) (tn d : Q) (s : state) : state :=
    advance i d (evolve_bunch c sync i (tm s i) tn d s).

  Record wfs (s : state) : Prop := {
    w_t : length (tobj s) = nobj;
    w_d : length (dtobj s) = nobj;
    w_b : length (bs s) = nb;
    w_o : length (out s) = nb }.

  Lemma nb_le_nobj : (nb <= nobj)%nat.
  Proof. unfold nb, nobj. rewrite objects_length. lia. Qed.

  Lemma push_eff sync i tn d s : wfs s -> (i < nb)%nat ->
    exists b b', nth_error (bs s) i = Some b /\
      b' = evolve (fs s) b (tm s i) d /\
      push sync i tn d s =
      {| bs := upd i b' (bs s); fs := fs s;
         tobj := upd i (tm s i + d) (tobj s);
         dtobj := upd i (newdt i b' (dm s i) tn) (dtobj s);
         out := out s; log := log s ++ [EPush i (tm s i) d sync] |}.
  Proof.
    intros W Hi. pose proof nb_le_nobj as Hn.
    destruct (nth_error (bs s) i) as [b|] eqn:E.
    - exists b, (evolve (fs s) b (tm s i) d). repeat split.
      unfold push. rewrite (evolve_bunch_eff _ _ b); [reflexivity|assumption|].
      rewrite (w_d s W). lia.
    - apply nth_error_None in E. rewrite (w_b s W) in E. lia.
  Qed.

  (** ** Generic invariant (any monotone rounding) *)
  Definition ev_le (a b : event B) : Prop := rnd (etime a) <= rnd (etime b).

  Record Inv (now : Q) (s : state) : Prop := {
    I_wf : wfs s;
    I_fd : forall j, (j < nf)%nat -> dm s (nb + j) = dtf j;
    I_dd : (0 < c_ndiags c)%nat -> dm s (nb + nf) = dt_diags c;
    I_pos : forall k, (k < nobj)%nat -> 0 < dm s k;
    I_chain : forall i, (i < nb)%nat -> chain 0 (pushes i (log s)) (tm s i);
    I_ft : forall j, (j < nf)%nat -> exists n,
      multiples (dtf j) (S n) (field_times j (log s)) /\
      tm s (nb + j) == inject_Z (Z.of_nat n) * dtf j;
    I_dt : (0 < c_ndiags c)%nat -> exists n,
      multiples (dt_diags c) (S n) (diag_times (log s)) /\
      tm s (nb + nf) == inject_Z (Z.of_nat n) * dt_diags c;
    I_clip : forall i, (i < nb)%nat ->
      (pushes i (log s) = [] /\ tm s i = 0 /\
       dm s i = nth i (initial_dt B auto_dt c bs0) 0) \/
      (pushes i (log s) <> [] /\ rnd (tm s i) == rnd Tf) \/
      (pushes i (log s) <> [] /\ tm s i + dm s i <= Tf);
    I_now : rnd now <= rnd Tf;
    I_tn : forall k, (k < nobj)%nat -> rnd (tm s k) <= rnd now;
    I_nx : forall k, (k < nobj)%nat -> rnd now <= rnd (tm s k + dm s k);
    I_lg : forall e, In e (log s) -> rnd (etime e) <= rnd now;
    I_srt : StronglySorted ev_le (log s);
    I_snc : forall l1 t sn l2, log s = l1 ++ EDiag t sn :: l2 ->
      c_push_before c = true \/ l1 = map (fun j => EField j 0) (seq 0 nf) ->
      forall i, (i < nb)%nat -> chain 0 (pushes i l1) t }.

  Lemma Inv_later now now' s : Inv now s -> rnd now <= rnd now' ->
    rnd now' <= rnd Tf ->
    (forall k, (k < nobj)%nat -> rnd now' <= rnd (tm s k + dm s k)) ->
    Inv now' s.
  Proof.
    intros H H1 H2 H3. destruct H as [W A1 A2 A3 A4 A5 A6 A7 A8 A9 A10 A11 A12 A13].
    constructor; auto.
    - intros k Hk. specialize (A9 k Hk). lra.
    - intros e He. specialize (A11 e He). lra.
  Qed.

  Lemma newdt_pos i b' d tn : 0 < d -> rnd tn <= rnd Tf -> 0 < newdt i b' d tn.
  Proof.
    intros Hd Hr. unfold newdt.
    assert (H1 : 0 < if is_auto c i then auto_dt b' else d).
    { destruct (is_auto c i); [|assumption]. destruct Hauto as [Hm Ha].
      specialize (Ha b'). lra. }
    set (d1 := if is_auto c i then auto_dt b' else d) in *.
    destruct (Qeq_bool (rnd tn) (rnd Tf)) eqn:E; simpl; [assumption|].
    destruct (Qltb Tf (tn + d1)); [|assumption].
    apply Qeqb_false in E.
    assert (Hlt : rnd tn < rnd Tf).
    { destruct (Qlt_le_dec (rnd tn) (rnd Tf)) as [|Hge]; [assumption|].
      exfalso. apply E. lra. }
    apply rnd_lt_inv in Hlt. lra.
  Qed.
  Lemma newdt_clip i b' d tn :
    rnd tn == rnd Tf \/ tn + newdt i b' d tn <= Tf.
  Proof.
    unfold newdt. set (d1 := if is_auto c i then auto_dt b' else d) in *.
    destruct (Qeq_bool (rnd tn) (rnd Tf)) eqn:E; simpl.
    - left. apply Qeqb_true. assumption.
    - right. destruct (Qltb Tf (tn + d1)) eqn:E2; [lra|].
      apply Qltb_false in E2. assumption.
  Qed.

  Lemma push_inv sync i tn d s : Inv tn s -> (i < nb)%nat ->
    tn == tm s i + d -> Inv tn (push sync i tn d s).
  Proof.
    intros H Hi Hd.
    destruct (push_eff sync i tn d s (I_wf _ _ H) Hi) as (b & b' & Hb & Hb' & ->).
    pose proof nb_le_nobj as Hn.
    destruct H as [W A1 A2 A3 A4 A5 A6 A7 A8 A9 A10 A11 A12 A13].
    assert (Wt := w_t _ W). assert (Wd := w_d _ W).
    assert (Hold : 0 < dm s i) by (apply A3; lia).
    assert (Hpos := newdt_pos i b' (dm s i) tn Hold A8).
    assert (Hrt : rnd (tm s i + d) == rnd tn) by (apply rnd_eq; lra).
    constructor.
    - constructor; simpl; rewrite ?upd_length; apply W.
    - intros j Hj. unfold dm; cbn [dtobj]. rewrite upd_nth_other by lia. apply A1; assumption.
    - intros Hdg. unfold dm; cbn [dtobj]. rewrite upd_nth_other by lia. apply A2; assumption.
    - intros k Hk. unfold dm; cbn [dtobj]. destruct (Nat.eq_dec k i) as [->|Hne].
      + rewrite upd_nth_same by lia. assumption.
      + rewrite upd_nth_other by assumption. apply A3; assumption.
    - intros k Hk. unfold tm; cbn [tobj log]. rewrite pushes_app. cbn [pushes].
      destruct (Nat.eq_dec k i) as [->|Hne].
      + rewrite Nat.eqb_refl, upd_nth_same by lia.
        apply (chain_snoc _ _ (tm s i)); [apply A4; assumption|reflexivity|reflexivity].
      + replace (Nat.eqb i k) with false by (symmetry; apply Nat.eqb_neq; lia).
        rewrite app_nil_r, upd_nth_other by assumption. apply A4; assumption.
    - intros j Hj. destruct (A5 j Hj) as (n & Hm & Ht). exists n.
      unfold tm; cbn [tobj log]. rewrite field_times_app, app_nil_r.
      rewrite upd_nth_other by lia. auto.
    - intros Hdg. destruct (A6 Hdg) as (n & Hm & Ht). exists n.
      unfold tm; cbn [tobj log]. rewrite diag_times_app, app_nil_r.
      rewrite upd_nth_other by lia. auto.
    - intros k Hk. unfold tm, dm; cbn [tobj dtobj log]. rewrite pushes_app. cbn [pushes].
      destruct (Nat.eq_dec k i) as [->|Hne].
      + rewrite Nat.eqb_refl, !upd_nth_same by lia. right.
        assert (Hne : (pushes i (log s) ++ [(tm s i, d)])%list <> []).
        { destruct (pushes i (log s)); discriminate. }
        destruct (newdt_clip i b' (dm s i) tn) as [Hc|Hc]; [left|right];
          split; auto; ftm; lra.
      + replace (Nat.eqb i k) with false by (symmetry; apply Nat.eqb_neq; lia).
        rewrite app_nil_r, !upd_nth_other by assumption. apply A7; assumption.
    - assumption.
    - intros k Hk. unfold tm; cbn [tobj]. destruct (Nat.eq_dec k i) as [->|Hne].
      + rewrite upd_nth_same by lia. ftm. lra.
      + rewrite upd_nth_other by assumption. apply A9; assumption.
    - intros k Hk. unfold tm, dm; cbn [tobj dtobj]. destruct (Nat.eq_dec k i) as [->|Hne].
      + rewrite !upd_nth_same by lia. ftm. apply rnd_mono. lra.
      + rewrite !upd_nth_other by assumption. apply A10; assumption.
    - intros e He. cbn [log] in He. apply in_app_or in He as [He|[<-|[]]]; [auto|].
      cbn [etime]. lra.
    - cbn [log]. apply SSorted_snoc; [assumption|].
      intros e He. unfold ev_le. cbn [etime]. specialize (A11 e He). lra.
    - cbn [log]. intros l1 t sn l2 Hl Hc k Hk.
      apply split_snoc in Hl as [(_ & _ & Hx)|(l2' & -> & Hl)]; [discriminate|].
      eapply A13; eassumption.
  Qed.

  Lemma update_inv j tn s : Inv tn s -> (j < nf)%nat ->
    tn == tm s (nb + j) + dtf j ->
    Inv tn (advance (nb + j) (dtf j) (update_field tn j s)).
  Proof.
    intros H Hj Hd.
    assert (Hn : (nb + j < nobj)%nat).
    { unfold nobj. rewrite objects_length. unfold nb, nf in *. lia. }
    destruct H as [W A1 A2 A3 A4 A5 A6 A7 A8 A9 A10 A11 A12 A13].
    assert (Wt := w_t _ W). assert (Wd := w_d _ W).
    assert (Hrt : rnd (tm s (nb + j) + dtf j) == rnd tn) by (apply rnd_eq; lra).
    unfold Model_Tracker.advance, Model_Tracker.update_field; cbn [bs fs tobj dtobj out log].
    fold (tm s (nb + j)).
    constructor.
    - constructor; simpl; rewrite ?upd_length; apply W.
    - exact A1.
    - exact A2.
    - exact A3.
    - intros i Hi. unfold tm; cbn [tobj log]. rewrite pushes_app, app_nil_r.
      rewrite upd_nth_other by lia. apply A4; assumption.
    - intros k Hk. unfold tm; cbn [tobj log]. rewrite field_times_app. cbn [field_times].
      destruct (A5 k Hk) as (n & Hm & Ht).
      destruct (Nat.eq_dec k j) as [->|Hne].
      + exists (S n). rewrite Nat.eqb_refl, upd_nth_same by lia.
        assert (Heq : tn == inject_Z (Z.of_nat (S n)) * dtf j).
        { rewrite inject_S. rewrite Hd, Ht. ring. }
        split; [|ftm; lra]. apply multiples_snoc; assumption.
      + exists n. replace (Nat.eqb j k) with false by (symmetry; apply Nat.eqb_neq; lia).
        rewrite app_nil_r, upd_nth_other by lia. auto.
    - intros Hdg. destruct (A6 Hdg) as (n & Hm & Ht). exists n.
      unfold tm; cbn [tobj log]. rewrite diag_times_app, app_nil_r.
      rewrite upd_nth_other by lia. auto.
    - intros i Hi. unfold tm, dm; cbn [tobj dtobj log]. rewrite pushes_app, app_nil_r.
      rewrite upd_nth_other by lia. apply A7; assumption.
    - assumption.
    - intros k Hk. unfold tm; cbn [tobj]. destruct (Nat.eq_dec k (nb + j)) as [->|Hne].
      + rewrite upd_nth_same by lia. ftm. lra.
      + rewrite upd_nth_other by assumption. apply A9; assumption.
    - intros k Hk. unfold tm, dm; cbn [tobj dtobj].
      destruct (Nat.eq_dec k (nb + j)) as [->|Hne].
      + rewrite upd_nth_same by lia. apply rnd_mono.
        specialize (A3 _ Hk). ftm. lra.
      + rewrite upd_nth_other by assumption. apply A10; assumption.
    - intros e He. cbn [log] in He. apply in_app_or in He as [He|[<-|[]]]; [auto|].
      cbn [etime]. lra.
    - cbn [log]. apply SSorted_snoc; [assumption|].
      intros e He. unfold ev_le. cbn [etime]. specialize (A11 e He). lra.
    - cbn [log]. intros l1 t sn l2 Hl Hc k Hk.
      apply split_snoc in Hl as [(_ & _ & Hx)|(l2' & -> & Hl)]; [discriminate|].
      eapply A13; eassumption.
  Qed.

  Lemma append_out_length o l : length o = length l ->
    length (append_out B copy o l) = length l.
  Proof.
    intros H. unfold append_out. rewrite map_length, combine_length. lia.
  Qed.

  Lemma diag_inv tn s : Inv tn s -> (0 < c_ndiags c)%nat ->
    tn == tm s (nb + nf) + dt_diags c ->
    (c_push_before c = true -> forall i, (i < nb)%nat -> tm s i == tn) ->
    (log s <> map (fun j => EField j 0) (seq 0 nf)) ->
    Inv tn (advance (nb + nf) (dt_diags c) (generate_diagnostics tn s)).
  Proof.
    intros H Hdg Hd Hsync Hnotfirst.
    assert (Hn : (nb + nf < nobj)%nat).
    { unfold nobj. rewrite objects_length. apply Nat.ltb_lt in Hdg. rewrite Hdg.
      unfold nb, nf in *. lia. }
    destruct H as [W A1 A2 A3 A4 A5 A6 A7 A8 A9 A10 A11 A12 A13].
    assert (Wt := w_t _ W). assert (Wd := w_d _ W).
    assert (Hrt : rnd (tm s (nb + nf) + dt_diags c) == rnd tn) by (apply rnd_eq; lra).
    unfold Model_Tracker.advance, Model_Tracker.generate_diagnostics;
      cbn [bs fs tobj dtobj out log].
    fold (tm s (nb + nf)).
    constructor.
    - constructor; simpl; rewrite ?upd_length; try apply W.
      rewrite append_out_length; [apply W|]. rewrite (w_o _ W), (w_b _ W); reflexivity.
    - exact A1.
    - exact A2.
    - exact A3.
    - intros i Hi. unfold tm; cbn [tobj log]. rewrite pushes_app, app_nil_r.
      rewrite upd_nth_other by lia. apply A4; assumption.
    - intros k Hk. unfold tm; cbn [tobj log]. rewrite field_times_app, app_nil_r.
      rewrite upd_nth_other by lia. apply A5; assumption.
    - intros _. destruct (A6 Hdg) as (n & Hm & Ht). exists (S n).
      unfold tm; cbn [tobj log]. rewrite diag_times_app. cbn [diag_times].
      rewrite upd_nth_same by lia.
      assert (Heq : tn == inject_Z (Z.of_nat (S n)) * dt_diags c).
      { rewrite inject_S. rewrite Hd, Ht. ring. }
      split; [|ftm; lra]. apply multiples_snoc; assumption.
    - intros i Hi. unfold tm, dm; cbn [tobj dtobj log]. rewrite pushes_app, app_nil_r.
      rewrite upd_nth_other by lia. apply A7; assumption.
    - assumption.
    - intros k Hk. unfold tm; cbn [tobj]. destruct (Nat.eq_dec k (nb + nf)) as [->|Hne].
      + rewrite upd_nth_same by lia. ftm. lra.
      + rewrite upd_nth_other by assumption. apply A9; assumption.
    - intros k Hk. unfold tm, dm; cbn [tobj dtobj].
      destruct (Nat.eq_dec k (nb + nf)) as [->|Hne].
      + rewrite upd_nth_same by lia. apply rnd_mono.
        specialize (A3 _ Hk). ftm. lra.
      + rewrite upd_nth_other by assumption. apply A10; assumption.
    - intros e He. cbn [log] in He. apply in_app_or in He as [He|[<-|[]]]; [auto|].
      cbn [etime]. lra.
    - cbn [log]. apply SSorted_snoc; [assumption|].
      intros e He. unfold ev_le. cbn [etime]. specialize (A11 e He). lra.
    - cbn [log]. intros l1 t sn l2 Hl Hc k Hk.
      apply split_snoc in Hl as [(-> & -> & Hx)|(l2' & -> & Hl)].
      + injection Hx as -> _. destruct Hc as [Hc|Hc]; [|contradiction].
        apply (chain_ext 0 0 _ (tm s k)); [reflexivity|auto|]. apply A4; assumption.
      + eapply A13; eassumption.
  Qed.

  (** ** Synchronisation of all bunches before diagnostics *)
  Definition sync_upto (n : nat) (tn : Q) (s : state) : state :=
    fold_left (push_to c tn) (seq 0 n) s.
  Lemma sync_S n tn s :
    sync_upto (S n) tn s =
    push true n tn (tn - tm (sync_upto n tn s) n) (sync_upto n tn s).
  Proof.
    unfold sync_upto. rewrite seq_S, fold_left_app. reflexivity.
  Qed.

  Lemma push_tm sync i tn d s k : wfs s -> (i < nb)%nat ->
    tm (push sync i tn d s) k = if Nat.eqb k i then tm s i + d else tm s k.
  Proof.
    intros W Hi. destruct (push_eff sync i tn d s W Hi) as (b & b' & _ & _ & ->).
    unfold tm at 1; cbn [tobj]. rewrite upd_other_eq.
    destruct (Nat.eqb k i); [|reflexivity].
    pose proof nb_le_nobj. rewrite (w_t _ W).
    destruct (Nat.ltb_spec i nobj); [reflexivity|lia].
  Qed.
  Lemma push_log sync i tn d s : wfs s -> (i < nb)%nat ->
    log (push sync i tn d s) = (log s ++ [EPush i (tm s i) d sync])%list.
  Proof.
    intros W Hi. destruct (push_eff sync i tn d s W Hi) as (b & b' & _ & _ & ->).
    reflexivity.
  Qed.

  Lemma sync_spec n tn s : Inv tn s -> (n <= nb)%nat ->
    Inv tn (sync_upto n tn s) /\
    (forall k, (k < n)%nat -> tm (sync_upto n tn s) k == tn) /\
    (forall k, (n <= k)%nat -> tm (sync_upto n tn s) k = tm s k) /\
    log (sync_upto n tn s) =
      (log s ++ map (fun k => EPush k (tm s k) (tn - tm s k) true) (seq 0 n))%list.
  Proof.
    intros H. induction n as [|n IH]; intros Hn.
    - unfold sync_upto; simpl. rewrite app_nil_r. split; [exact H|].
      split; [intros k Hk; lia|]. split; reflexivity.
    - destruct IH as (I1 & I2 & I3 & I4); [lia|]. rewrite sync_S.
      assert (W := I_wf _ _ I1).
      split; [|split; [|split]].
      + apply push_inv; [assumption|lia|lra].
      + intros k Hk. rewrite push_tm by (assumption || lia).
        destruct (Nat.eqb_spec k n) as [->|Hne]; [lra|]. apply I2; lia.
      + intros k Hk. rewrite push_tm by (assumption || lia).
        destruct (Nat.eqb_spec k n) as [->|Hne]; [lia|]. apply I3; lia.
      + rewrite push_log by (assumption || lia). rewrite I4, seq_S, map_app, app_assoc.
        cbn [map Nat.add]. rewrite (I3 n) by lia. reflexivity.
  Qed.

  (** ** Inversion of one iteration *)
  Inductive stepped (s : state) : state -> Prop :=
  | st_bunch i tn : (i < nb)%nat -> tn = tm s i + dm s i ->
      (forall k, (k < nobj)%nat -> rnd tn <= rnd (tm s k + dm s k)) ->
      (forall k, (k < i)%nat -> rnd tn < rnd (tm s k + dm s k)) ->
      rnd tn <= rnd Tf ->
      stepped s (push false i tn (dm s i) s)
  | st_field j tn : (j < nf)%nat -> tn = tm s (nb + j) + dm s (nb + j) ->
      (forall k, (k < nobj)%nat -> rnd tn <= rnd (tm s k + dm s k)) ->
      (forall k, (k < nb + j)%nat -> rnd tn < rnd (tm s k + dm s k)) ->
      rnd tn <= rnd Tf ->
      stepped s (advance (nb + j) (dm s (nb + j)) (update_field tn j s))
  | st_diag tn : (0 < c_ndiags c)%nat -> tn = tm s (nb + nf) + dm s (nb + nf) ->
      (forall k, (k < nobj)%nat -> rnd tn <= rnd (tm s k + dm s k)) ->
      (forall k, (k < nb + nf)%nat -> rnd tn < rnd (tm s k + dm s k)) ->
      rnd tn <= rnd Tf ->
      stepped s (advance (nb + nf) (dm s (nb + nf))
                   (generate_diagnostics tn
                      (if c_push_before c then sync_upto nb tn s else s))).

  Lemma step_min s i : wfs s ->
    argmin (map rnd (vadd (tobj s) (dtobj s))) = Some i ->
    (i < nobj)%nat /\
    nth i (vadd (tobj s) (dtobj s)) 0 = tm s i + dm s i /\
    (forall k, (k < nobj)%nat ->
       rnd (tm s i + dm s i) <= rnd (tm s k + dm s k)) /\
    (forall k, (k < i)%nat -> rnd (tm s i + dm s i) < rnd (tm s k + dm s k)).
  Proof.
    intros W E. apply argmin_spec in E. destruct E as (E1 & E2 & E3).
    assert (Wt := w_t _ W). assert (Wd := w_d _ W).
    assert (Hl : length (vadd (tobj s) (dtobj s)) = nobj).
    { rewrite vadd_length; congruence. }
    rewrite map_length, Hl in *.
    assert (Hnth : forall k, (k < nobj)%nat ->
              nth k (map rnd (vadd (tobj s) (dtobj s))) 0 = rnd (tm s k + dm s k)).
    { intros k Hk. rewrite (nth_indep _ 0 (rnd 0)) by (rewrite map_length; lia).
      rewrite map_nth. rewrite vadd_nth by (congruence || lia). reflexivity. }
    split; [assumption|]. split; [apply vadd_nth; congruence || lia|].
    rewrite Hnth in * by assumption.
    split; intros k Hk.
    - specialize (E2 k Hk). rewrite Hnth in E2 by assumption. exact E2.
    - specialize (E3 k Hk). rewrite Hnth in E3 by lia. exact E3.
  Qed.

  Lemma step_inv s s' : wfs s -> step c s = Continue s' -> stepped s s'.
  Proof.
    intros W Hs. unfold Model_Tracker.step in Hs.
    destruct (argmin (map rnd (vadd (tobj s) (dtobj s)))) as [i|] eqn:E; [|discriminate].
    destruct (step_min s i W E) as (Hi & Hnth & Hmin & Hfirst).
    cbv zeta in Hs. rewrite Hnth in Hs.
    destruct (Qltb _ _) eqn:Hf; [discriminate|]. apply Qltb_false in Hf.
    injection Hs as <-.
    destruct (index_cases c i Hi) as [Hb|[(j & Hj & ->)|(-> & Hdg)]].
    - rewrite objects_bunch by assumption. apply st_bunch; auto.
    - rewrite objects_field by assumption. apply st_field; auto.
    - rewrite objects_diag by assumption. apply st_diag; auto.
  Qed.
  Lemma step_done s s' : wfs s -> step c s = Done s' -> s' = s /\
    forall k, (k < nobj)%nat -> rnd Tf < rnd (tm s k + dm s k).
  Proof.
    intros W Hs. unfold Model_Tracker.step in Hs.
    destruct (argmin (map rnd (vadd (tobj s) (dtobj s)))) as [i|] eqn:E; [|discriminate].
    destruct (step_min s i W E) as (Hi & Hnth & Hmin & Hfirst).
    cbv zeta in Hs. rewrite Hnth in Hs.
    destruct (Qltb _ _) eqn:Hf; [|discriminate]. apply Qltb_true in Hf.
    injection Hs as <-. split; [reflexivity|].
    intros k Hk. specialize (Hmin k Hk). unfold Tf. lra.
  Qed.
  Lemma step_raise s e s' : wfs s -> step c s = Raise e s' -> nobj = 0%nat.
  Proof.
    intros W Hs. unfold Model_Tracker.step in Hs.
    destruct (argmin (map rnd (vadd (tobj s) (dtobj s)))) as [i|] eqn:E.
    - cbv zeta in Hs. destruct (Qltb _ _); discriminate.
    - apply argmin_none in E. apply (f_equal (@length Q)) in E.
      rewrite map_length, vadd_length in E.
      + rewrite (w_t _ W) in E. assumption.
      + rewrite (w_t _ W), (w_d _ W). reflexivity.
  Qed.

  (** The diagnostics of a run never come first in a non-initial state. *)
  Definition begun (s : state) : Prop := (0 < c_ndiags c)%nat ->
    forall ext, (log s ++ ext)%list <> map (fun j => EField j 0) (seq 0 nf).

  Lemma step_Inv now s s' : Inv now s -> begun s -> step c s = Continue s' ->
    begun s' /\ exists now', rnd now <= rnd now' /\ Inv now' s'.
  Proof.
    intros H Hb2 Hs. apply step_inv in Hs; [|apply H].
    destruct Hs as [i tn Hi Ht Hmin Hfst Hf|j tn Hj Ht Hmin Hfst Hf|tn Hdg Ht Hmin Hfst Hf].
    - assert (Hi' : (i < nobj)%nat) by (pose proof nb_le_nobj; lia).
      assert (Hn : rnd now <= rnd tn) by (subst tn; apply (I_nx _ _ H); assumption).
      assert (H' : Inv tn s) by (eapply Inv_later; eassumption).
      split.
      + unfold begun. rewrite push_log by (apply H || assumption).
        intros Hp ext. rewrite <- app_assoc. apply Hb2; assumption.
      + exists tn. split; [assumption|]. apply push_inv; auto. subst tn; reflexivity.
    - assert (Hj' : (nb + j < nobj)%nat).
      { unfold nobj. rewrite objects_length. unfold nb, nf in *. lia. }
      assert (Hn : rnd now <= rnd tn) by (subst tn; apply (I_nx _ _ H); assumption).
      assert (H' : Inv tn s) by (eapply Inv_later; eassumption).
      rewrite (I_fd _ _ H) in * by assumption.
      split.
      + unfold begun. cbn [log Model_Tracker.advance Model_Tracker.update_field].
        intros Hp ext. rewrite <- app_assoc. apply Hb2; assumption.
      + exists tn. split; [assumption|]. apply update_inv; auto. subst tn; reflexivity.
    - assert (Hj' : (nb + nf < nobj)%nat).
      { unfold nobj. rewrite objects_length. apply Nat.ltb_lt in Hdg. rewrite Hdg.
        unfold nb, nf in *. lia. }
      assert (Hn : rnd now <= rnd tn) by (subst tn; apply (I_nx _ _ H); assumption).
      assert (H' : Inv tn s) by (eapply Inv_later; eassumption).
      rewrite (I_dd _ _ H) in * by assumption.
      destruct (sync_spec nb tn s H' (Nat.le_refl _)) as (J1 & J2 & J3 & J4).
      set (s1 := if c_push_before c then sync_upto nb tn s else s).
      assert (K1 : Inv tn s1) by (unfold s1; destruct (c_push_before c); assumption).
      assert (K2 : c_push_before c = true -> forall i, (i < nb)%nat -> tm s1 i == tn).
      { intros Hc. unfold s1. rewrite Hc. exact J2. }
      assert (K3 : tm s1 (nb + nf) = tm s (nb + nf)).
      { unfold s1. destruct (c_push_before c); [apply J3; lia|reflexivity]. }
      assert (K4 : exists e, log s1 = (log s ++ e)%list).
      { unfold s1. destruct (c_push_before c); [eexists; exact J4|].
        exists []. rewrite app_nil_r. reflexivity. }
      destruct K4 as (e4 & K4).
      split.
      + unfold begun. cbn [log Model_Tracker.advance Model_Tracker.generate_diagnostics].
        rewrite K4. intros Hp ext. rewrite <- !app_assoc. apply Hb2; assumption.
      + exists tn. split; [assumption|]. apply diag_inv; auto.
        * rewrite K3. subst tn. reflexivity.
        * rewrite K4. apply Hb2; assumption.
  Qed.

  Lemma loop_Inv fuel : forall now s s', Inv now s -> begun s ->
    loop fuel c s = Done s' ->
    (exists now', Inv now' s') /\
    forall k, (k < nobj)%nat -> rnd Tf < rnd (tm s' k + dm s' k).
  Proof.
    induction fuel as [|fuel IH]; intros now s s' H Hb Hl; cbn [Model_Tracker.loop] in Hl;
      [discriminate|].
    destruct (step c s) as [s1|s1|e s1] eqn:E.
    - destruct (step_Inv now s s1 H Hb E) as (Hb' & now' & _ & H').
      eapply IH; eassumption.
    - injection Hl as ->. apply step_done in E as [-> E]; [|apply H].
      split; [eauto|exact E].
    - discriminate.
  Qed.

  (** ** Initial state *)
  Definition fs_start : F :=
    fold_left (fun f j => update j f bs0) (seq 0 nf) fs0.
  Lemma start_eq : start c bs0 fs0 =
    {| bs := bs0; fs := fs_start;
       tobj := map (fun _ => 0) (initial_dt B auto_dt c bs0);
       dtobj := initial_dt B auto_dt c bs0;
       out := map (fun _ => []) bs0;
       log := map (fun j => EField j 0) (seq 0 nf) |}.
  Proof.
    unfold Model_Tracker.start, fs_start. fold nf.
    induction nf as [|n IH]; [reflexivity|].
    rewrite seq_S, !fold_left_app, map_app. cbn [fold_left map].
    rewrite IH. reflexivity.
  Qed.

  Definition initial : state :=
    match c_ndiags c with
    | O => start c bs0 fs0
    | S _ => generate_diagnostics 0 (start c bs0 fs0)
    end.

  Lemma init_tm k d : nth k (map (fun _ : Q => 0) (initial_dt B auto_dt c bs0)) d = 0 \/
    nth k (map (fun _ : Q => 0) (initial_dt B auto_dt c bs0)) d = d.
  Proof.
    destruct (nth_in_or_default k (map (fun _ : Q => 0) (initial_dt B auto_dt c bs0)) d)
      as [H|H]; [left|right; assumption].
    apply in_map_iff in H as (x & <- & _). reflexivity.
  Qed.
  Lemma init_t k : tm initial k = 0.
  Proof.
    assert (H : tobj initial = map (fun _ => 0) (initial_dt B auto_dt c bs0)).
    { unfold initial. destruct (c_ndiags c); rewrite start_eq; reflexivity. }
    unfold tm. rewrite H. destruct (init_tm k 0); assumption.
  Qed.
  Lemma init_d : dtobj initial = initial_dt B auto_dt c bs0.
  Proof. unfold initial. destruct (c_ndiags c); rewrite start_eq; reflexivity. Qed.
  Lemma init_log : log initial =
    (map (fun j => EField j 0) (seq 0 nf) ++
     if Nat.ltb 0 (c_ndiags c) then [EDiag 0 (map copy bs0)] else [])%list.
  Proof.
    unfold initial. destruct (c_ndiags c); rewrite start_eq; cbn [log];
      [rewrite app_nil_r|]; reflexivity.
  Qed.
  Lemma pushes_fields i n a : pushes (B:=B) i (map (fun j => EField j 0) (seq a n)) = [].
  Proof. revert a; induction n as [|n IH]; intros a; simpl; auto. Qed.
  Lemma diag_fields n a : diag_times (B:=B) (map (fun j => EField j 0) (seq a n)) = [].
  Proof. revert a; induction n as [|n IH]; intros a; simpl; auto. Qed.
  Lemma field_times_none j n a : (j < a)%nat ->
    field_times (B:=B) j (map (fun j => EField j 0) (seq a n)) = [].
  Proof.
    revert a; induction n as [|n IH]; intros a H; simpl; auto.
    replace (Nat.eqb a j) with false by (symmetry; apply Nat.eqb_neq; lia).
    apply IH; lia.
  Qed.
  Lemma field_times_fields j n a : (a <= j < a + n)%nat ->
    field_times (B:=B) j (map (fun j => EField j 0) (seq a n)) = [0].
  Proof.
    revert a; induction n as [|n IH]; intros a H; simpl; [lia|].
    destruct (Nat.eqb_spec a j) as [->|Hne].
    - rewrite field_times_none by lia. reflexivity.
    - apply IH; lia.
  Qed.

  Lemma init_pos k : (k < nobj)%nat -> 0 < nth k (initial_dt B auto_dt c bs0) 0.
  Proof.
    intros Hk. destruct Hgood as (G1 & G2 & G3 & G4).
    destruct (index_cases c k Hk) as [Hb|[(j & Hj & ->)|(-> & Hdg)]].
    - rewrite initial_dt_bunch by assumption.
      destruct (nth_error (c_dtb c) k) as [d|] eqn:Ed.
      + destruct (nth_error bs0 k) as [b|] eqn:Eb.
        * rewrite (initial_dtb_nth _ _ _ _ _ _ Ed Eb). destruct d as [q|].
          -- apply G3. eapply nth_error_In; eassumption.
          -- destruct Hauto as [Hm Ha]. specialize (Ha b). lra.
        * apply nth_error_None in Eb. unfold n_bunches in Hb. lia.
      + apply nth_error_None in Ed. unfold n_bunches in Hb. lia.
    - rewrite initial_dt_field by assumption. apply dtf_pos; assumption.
    - rewrite initial_dt_diag by assumption. apply dtdiag_pos; assumption.
  Qed.

  Lemma initial_wf : wfs initial.
  Proof.
    pose proof Hgood as (G1 & G2 & G3 & G4).
    unfold initial. destruct (c_ndiags c) eqn:E; rewrite start_eq;
      constructor; cbn [tobj dtobj bs out Model_Tracker.generate_diagnostics];
      rewrite ?append_out_length, ?map_length;
      try (apply initial_dt_length; assumption); try assumption;
      rewrite ?map_length; reflexivity.
  Qed.

  Lemma initial_Inv : Inv 0 initial.
  Proof.
    pose proof Hgood as (G1 & G2 & G3 & G4). pose proof Tf_pos as HT.
    assert (Hd : forall k, dm initial k = nth k (initial_dt B auto_dt c bs0) 0).
    { intros k. unfold dm. rewrite init_d. reflexivity. }
    assert (Hpush : forall i, pushes i (log initial) = []).
    { intros i. rewrite init_log, pushes_app, pushes_fields.
      destruct (Nat.ltb 0 (c_ndiags c)); reflexivity. }
    assert (Htimes : forall e, In e (log initial) -> etime e = 0).
    { intros e. rewrite init_log. intros He. apply in_app_or in He as [He|He].
      - apply in_map_iff in He as (j & <- & _). reflexivity.
      - destruct (Nat.ltb 0 (c_ndiags c)); [|destruct He].
        destruct He as [<-|[]]. reflexivity. }
    assert (Hle0 : forall x, 0 <= x -> rnd 0 <= rnd x) by (intros x Hx; apply rnd_mono; exact Hx).
    constructor.
    - apply initial_wf.
    - intros j Hj. rewrite Hd. apply initial_dt_field; assumption.
    - intros Hdg. rewrite Hd. apply initial_dt_diag; assumption.
    - intros k Hk. rewrite Hd. apply init_pos; assumption.
    - intros i Hi. rewrite Hpush, init_t. constructor. reflexivity.
    - intros j Hj. exists 0%nat. rewrite init_t. split; [|simpl; ring].
      rewrite init_log, field_times_app, field_times_fields by lia.
      replace (field_times j (if Nat.ltb 0 (c_ndiags c) then [EDiag 0 (map copy bs0)] else []))
        with (@nil Q) by (destruct (Nat.ltb 0 (c_ndiags c)); reflexivity).
      split; [reflexivity|]. intros [|[|k]] t Hk; simpl in Hk; try discriminate.
      injection Hk as <-. simpl. ring.
    - intros Hdg. exists 0%nat. rewrite init_t. split; [|simpl; ring].
      rewrite init_log, diag_times_app, diag_fields.
      apply Nat.ltb_lt in Hdg. rewrite Hdg.
      split; [reflexivity|]. intros [|[|k]] t Hk; simpl in Hk; try discriminate.
      injection Hk as <-. simpl. ring.
    - intros i Hi. left. rewrite Hpush, init_t, Hd. auto.
    - apply Hle0. lra.
    - intros k Hk. rewrite init_t. lra.
    - intros k Hk. rewrite init_t, Hd. apply Hle0.
      pose proof (init_pos k Hk). lra.
    - intros e He. rewrite (Htimes e He). lra.
    - assert (Hx : forall l : list (event B), (forall e, In e l -> etime e = 0) -> StronglySorted ev_le l).
      { induction l as [|e l IH]; intros Hl; constructor.
        - apply IH. intros x Hx. apply Hl; right; assumption.
        - apply Forall_forall. intros x Hx. unfold ev_le.
          rewrite (Hl e) by (left; reflexivity). rewrite (Hl x) by (right; assumption). lra. }
      apply Hx. exact Htimes.
    - intros l1 t sn l2 Hl _ i Hi. rewrite init_log in Hl.
      assert (Hin : In (EDiag t sn) (map (fun j => EField j 0) (seq 0 nf) ++
        (if Nat.ltb 0 (c_ndiags c) then [EDiag 0 (map copy bs0)] else []))%list).
      { rewrite Hl. apply in_or_app. right. left. reflexivity. }
      assert (Ht : t = 0).
      { change t with (etime (EDiag t sn)). apply Htimes. rewrite init_log. assumption. }
      assert (Hp : pushes i l1 = []).
      { pose proof (Hpush i) as Hp. rewrite init_log, Hl, pushes_app in Hp.
        apply app_eq_nil in Hp as [Hp _]. assumption. }
      rewrite Hp, Ht. constructor. reflexivity.
  Qed.
  Lemma initial_begun : begun initial.
  Proof.
    intros Hdg ext Heq. rewrite init_log in Heq. apply Nat.ltb_lt in Hdg.
    rewrite Hdg in Heq. apply (f_equal (@length _)) in Heq.
    rewrite !app_length in Heq. simpl in Heq. lia.
  Qed.

  Lemma tracking_cases fuel s : do_tracking fuel c bs0 fs0 = Done s ->
    (0 < c_ndiags c)%nat /\ loop fuel c initial = Done s.
  Proof.
    unfold Model_Tracker.do_tracking, initial. intros H. clear Hgood.
    destruct (c_ndiags c) as [|n] eqn:E.
    - exfalso. destruct bs0; [|discriminate].
      destruct (loop fuel c (start c [] fs0)); discriminate.
    - split; [lia|]. exact H.
  Qed.

  Lemma done_Inv fuel s : do_tracking fuel c bs0 fs0 = Done s ->
    (0 < c_ndiags c)%nat /\ (exists now, Inv now s) /\
    forall k, (k < nobj)%nat -> rnd Tf < rnd (tm s k + dm s k).
  Proof.
    intros H. apply tracking_cases in H as [Hdg H]. split; [assumption|].
    eapply loop_Inv; [apply initial_Inv|apply initial_begun|eassumption].
  Qed.

  (** Every bunch has been pushed by the last output, if synchronised. *)
  Lemma diag_index : (0 < c_ndiags c)%nat -> (nb + nf < nobj)%nat.
  Proof.
    intros Hdg. unfold nobj. rewrite objects_length. apply Nat.ltb_lt in Hdg.
    rewrite Hdg. unfold nb, nf in *. lia.
  Qed.
  Lemma dtdiag_total : (0 < c_ndiags c)%nat ->
    inject_Z (Z.of_nat (c_ndiags c)) * dt_diags c == Tf.
  Proof.
    intros H. unfold dt_diags, Tf. pose proof (ndiags_pos_Q H) as Hp.
    field. lra.
  Qed.

  (** Number of outputs at the end: at least [n_diags + 1]. *)
  Lemma diag_count fuel s : do_tracking fuel c bs0 fs0 = Done s ->
    exists n, (c_ndiags c <= n)%nat /\
      multiples (dt_diags c) (S n) (diag_times (log s)) /\
      rnd (inject_Z (Z.of_nat n) * dt_diags c) <= rnd Tf /\
      rnd Tf < rnd (inject_Z (Z.of_nat (S n)) * dt_diags c).
  Proof.
    intros H. destruct (done_Inv fuel s H) as (Hdg & (now & HI) & Hend).
    destruct (I_dt _ _ HI Hdg) as (n & Hm & Ht). exists n.
    pose proof (Hend _ (diag_index Hdg)) as He. rewrite (I_dd _ _ HI Hdg) in He.
    assert (E1 : tm s (nb + nf) + dt_diags c == inject_Z (Z.of_nat (S n)) * dt_diags c).
    { rewrite Ht, inject_S. ring. }
    rewrite (rnd_eq _ _ E1) in He.
    split; [|split; [assumption|split; [|assumption]]].
    - destruct (le_lt_dec (c_ndiags c) n) as [|Hlt]; [assumption|exfalso].
      assert (Hle : inject_Z (Z.of_nat (S n)) * dt_diags c <= Tf).
      { rewrite <- (dtdiag_total Hdg). apply Qmult_le_compat_r.
        - rewrite <- Zle_Qle. lia.
        - pose proof (dtdiag_pos Hdg). lra. }
      apply rnd_mono in Hle. lra.
    - rewrite <- (rnd_eq _ _ Ht).
      pose proof (I_tn _ _ HI _ (diag_index Hdg)) as E2.
      pose proof (I_now _ _ HI) as E3. lra.
  Qed.

  Lemma field_count fuel s j : do_tracking fuel c bs0 fs0 = Done s -> (j < nf)%nat ->
    exists n, multiples (dtf j) (S n) (field_times j (log s)) /\
      rnd (inject_Z (Z.of_nat n) * dtf j) <= rnd Tf /\
      rnd Tf < rnd (inject_Z (Z.of_nat (S n)) * dtf j).
  Proof.
    intros H Hj. destruct (done_Inv fuel s H) as (Hdg & (now & HI) & Hend).
    destruct (I_ft _ _ HI j Hj) as (n & Hm & Ht). exists n.
    assert (Hn : (nb + j < nobj)%nat).
    { unfold nobj. rewrite objects_length. unfold nb, nf in *. lia. }
    pose proof (Hend _ Hn) as He. rewrite (I_fd _ _ HI j Hj) in He.
    assert (E1 : tm s (nb + j) + dtf j == inject_Z (Z.of_nat (S n)) * dtf j).
    { rewrite Ht, inject_S. ring. }
    rewrite (rnd_eq _ _ E1) in He.
    split; [assumption|]. split; [|assumption].
    rewrite <- (rnd_eq _ _ Ht).
    pose proof (I_tn _ _ HI _ Hn) as E2. pose proof (I_now _ _ HI) as E3. lra.
  Qed.

  (** A bunch that was pushed at all ends within one rounding cell of the end. *)
  Lemma arrival_rnd fuel s i : do_tracking fuel c bs0 fs0 = Done s -> (i < nb)%nat ->
    pushes i (log s) <> [] -> rnd (tm s i) == rnd Tf.
  Proof.
    intros H Hi Hp. destruct (done_Inv fuel s H) as (Hdg & (now & HI) & Hend).
    destruct (I_clip _ _ HI i Hi) as [(Hc & _)|[(_ & Hc)|(_ & Hc)]];
      [contradiction|assumption|].
    exfalso. assert (Hn : (i < nobj)%nat) by (pose proof nb_le_nobj; lia).
    specialize (Hend i Hn). apply rnd_mono in Hc. lra.
  Qed.
  (** Bunches whose first step fits are pushed. *)
  Lemma pushed_if_fits fuel s i : do_tracking fuel c bs0 fs0 = Done s -> (i < nb)%nat ->
    nth i (initial_dt B auto_dt c bs0) 0 <= Tf -> pushes i (log s) <> [].
  Proof.
    intros H Hi Hfit Hp. destruct (done_Inv fuel s H) as (Hdg & (now & HI) & Hend).
    destruct (I_clip _ _ HI i Hi) as [(_ & Ht & Hd)|[(Hc & _)|(Hc & _)]]; try contradiction.
    assert (Hn : (i < nobj)%nat) by (pose proof nb_le_nobj; lia).
    specialize (Hend i Hn). rewrite Ht, Hd in Hend.
    assert (E : rnd (0 + nth i (initial_dt B auto_dt c bs0) 0) <= rnd Tf)
      by (apply rnd_mono; lra).
    lra.
  Qed.
  (** With synchronised diagnostics every bunch is pushed. *)
  Lemma pushed_if_sync fuel s i : do_tracking fuel c bs0 fs0 = Done s -> (i < nb)%nat ->
    c_push_before c = true -> pushes i (log s) <> [].
  Proof.
    intros H Hi Hpb Hp. destruct (done_Inv fuel s H) as (Hdg & (now & HI) & Hend).
    destruct (diag_count fuel s H) as (n & Hn & (Hlen & Hm) & _).
    assert (Hlast : exists l1 t sn l2, log s = l1 ++ EDiag t sn :: l2 /\ 0 < t).
    { destruct (nth_error (diag_times (log s)) 1) as [t|] eqn:E.
      - pose proof (Hm _ _ E) as Ht. change (inject_Z (Z.of_nat 1)) with 1 in Ht.
        pose proof (dtdiag_pos Hdg) as Hpos.
        apply nth_error_In in E.
        assert (Hin : exists sn, In (EDiag t sn) (log s)).
        { clear - E. induction (log s) as [|e l IH]; [destruct E|].
          destruct e as [| |t' sn']; cbn [diag_times] in E;
            try (destruct (IH E) as [sn Hs]; exists sn; right; exact Hs).
          destruct E as [<-|E]; [exists sn'; left; reflexivity|].
          destruct (IH E) as [sn Hs]. exists sn; right; exact Hs. }
        destruct Hin as [sn Hin]. apply in_split in Hin as (l1 & l2 & Hl).
        exists l1, t, sn, l2. split; [assumption|]. lra.
      - apply nth_error_None in E. rewrite Hlen in E. lia. }
    destruct Hlast as (l1 & t & sn & l2 & Hl & Hpos).
    pose proof (I_snc _ _ HI _ _ _ _ Hl (or_introl Hpb) i Hi) as Hch.
    rewrite Hl, pushes_app in Hp. apply app_eq_nil in Hp as [Hp _].
    rewrite Hp in Hch. inversion Hch. lra.
  Qed.

  (** ** Termination for any monotone rounding that does not saturate *)
    Lemma sum_lt (f g : nat -> nat) i n a : (forall k, f k <= g k)%nat ->
      (a <= i < a + n)%nat -> (f i < g i)%nat ->
      (list_sum (map f (seq a n)) < list_sum (map g (seq a n)))%nat.
    Proof.
      intros Hle. revert a; induction n as [|n IH]; intros a Hi Hlt; [lia|].
      cbn [seq map list_sum fold_right]. fold (list_sum (map f (seq (S a) n))).
      fold (list_sum (map g (seq (S a) n))).
      destruct (Nat.eq_dec a i) as [->|Hne].
      - assert (Hs : forall l, (list_sum (map f l) <= list_sum (map g l))%nat).
        { induction l as [|x l IHl]; simpl; [lia|]. specialize (Hle x). simpl in *. lia. }
        specialize (Hs (seq (S i) n)). lia.
      - specialize (IH (S a) ltac:(lia) Hlt). specialize (Hle a). lia.
    Qed.

    Lemma adv_tm k d s x : (k < length (tobj s))%nat ->
      tm (advance k d s) x = if Nat.eqb x k then tm s k + d else tm s x.
    Proof.
      intros Hk. unfold tm at 1; cbn [tobj Model_Tracker.advance]. rewrite upd_other_eq.
      destruct (Nat.eqb x k); [|reflexivity].
      apply Nat.ltb_lt in Hk. rewrite Hk. reflexivity.
    Qed.


  Section RoundedTermination.
    Variable T' : Q.
    Hypothesis HT' : rnd Tf < rnd T'.

    Definition cnt (T t d : Q) : nat :=
      if Qltb t T then S (Z.to_nat (Qfloor ((T - t) / d))) else 0%nat.
    Lemma cnt_lt T t d t' d' : 0 < d -> d <= d' -> t < T -> t + d <= t' ->
      (cnt T t' d' < cnt T t d)%nat.
    Proof.
      intros Hd Hd' Ht Hs. unfold cnt.
      replace (Qltb t T) with true by (symmetry; apply Qltb_true; assumption).
      destruct (Qltb t' T) eqn:E'; [|lia]. apply Qltb_true in E'.
      assert (E : (Qfloor ((T - t') / d') + 1 <= Qfloor ((T - t) / d))%Z).
      { assert (Hq : inject_Z (Qfloor ((T - t') / d') + 1) <= (T - t) / d).
        { rewrite inject_Z_plus.
          apply Qle_trans with ((T - t') / d' + 1).
          - pose proof (Qfloor_le ((T - t') / d')). change (inject_Z 1) with 1. lra.
          - apply Qle_trans with ((T - t') / d + 1).
            + assert ((T - t') / d' <= (T - t') / d); [|lra].
              apply Qle_shift_div_l; [assumption|].
              assert (Hx : (T - t') / d' * d == (T - t') * (d / d')) by (field; lra).
              rewrite Hx. rewrite <- (Qmult_1_r (T - t')) at 2.
              rewrite !(Qmult_comm (T - t')). apply Qmult_le_compat_r; [|lra].
              apply Qle_shift_div_r; lra.
            + assert (Hx : (T - t') / d + 1 == (T - t' + d) / d) by (field; lra).
              rewrite Hx. unfold Qdiv. apply Qmult_le_compat_r; [lra|].
              apply Qlt_le_weak, Qinv_lt_0_compat. assumption. }
        apply Qfloor_resp_le in Hq. rewrite Qfloor_Z in Hq. exact Hq. }
      assert (E0 : (0 <= Qfloor ((T - t') / d'))%Z).
      { change 0%Z with (Qfloor (inject_Z 0)). apply Qfloor_resp_le.
        apply Qlt_le_weak. apply Qdiv_pos; lra. }
      lia.
    Qed.
    Lemma cnt_pos T t d : t < T -> (0 < cnt T t d)%nat.
    Proof.
      intros H. unfold cnt.
      replace (Qltb t T) with true by (symmetry; apply Qltb_true; assumption). lia.
    Qed.

    Definition low (d : Q) : Q := if Qltb d m then d else m.
    Lemma low_spec d : 0 < d -> 0 < low d /\ low d <= d /\ low d <= m.
    Proof.
      intros Hd. destruct Hauto as [Hm _]. unfold low. destruct (Qltb d m) eqn:E.
      - apply Qltb_true in E. repeat split; lra.
      - apply Qltb_false in E. repeat split; lra.
    Qed.
    Lemma low_mono d d' : d <= d' \/ m <= d' -> low d <= low d'.
    Proof.
      intros H. unfold low. destruct (Qltb d m) eqn:E; destruct (Qltb d' m) eqn:E';
        try apply Qltb_true in E; try apply Qltb_true in E';
        try apply Qltb_false in E; try apply Qltb_false in E'; lra.
    Qed.

    (** Steps a bunch can still make before / after reaching the final time. *)
    Definition early (s : state) (i : nat) : bool :=
      Qltb (rnd (tm s i + dm s i)) (rnd Tf).
    Definition rem1 (s : state) (i : nat) : nat :=
      if early s i then cnt Tf (tm s i) (low (dm s i)) else 0%nat.
    Definition rem2 (s : state) (k : nat) : nat :=
      if Nat.ltb k nb then
        if early s k then 0%nat else cnt T' (tm s k) (low (dm s k))
      else cnt T' (tm s k) (dm s k).
    Definition m1 (s : state) : nat := cnt T' (tm s (nb + nf)) (dm s (nb + nf)).
    Definition m2 (s : state) : nat := list_sum (map (rem1 s) (seq 0 nb)).
    Definition m3 (s : state) : nat := list_sum (map (rem2 s) (seq 0 (nb + nf))).

    Lemma sum_eq (f g : nat -> nat) n a : (forall k, (a <= k < a + n)%nat -> f k = g k) ->
      list_sum (map f (seq a n)) = list_sum (map g (seq a n)).
    Proof.
      intros H. f_equal. apply map_ext_in. intros k Hk. apply in_seq in Hk. apply H. lia.
    Qed.
    Lemma below_T' t : rnd t <= rnd Tf -> t < T'.
    Proof. intros H. apply rnd_lt_inv. lra. Qed.

    Lemma push_dm_own sync i tn d s : wfs s -> (i < nb)%nat ->
      exists b', dm (push sync i tn d s) i = newdt i b' (dm s i) tn.
    Proof.
      intros W Hi. pose proof nb_le_nobj.
      destruct (push_eff sync i tn d s W Hi) as (b & b' & _ & _ & ->). exists b'.
      unfold dm at 1; cbn [dtobj]. rewrite upd_nth_same; [reflexivity|].
      rewrite (w_d _ W). lia.
    Qed.
    Lemma push_dm_other' sync i tn d s k : wfs s -> (i < nb)%nat -> k <> i ->
      dm (push sync i tn d s) k = dm s k.
    Proof.
      intros W Hi Hk. destruct (push_eff sync i tn d s W Hi) as (b & b' & _ & _ & ->).
      unfold dm; cbn [dtobj]. apply upd_nth_other; assumption.
    Qed.
    Lemma sync_dm_diag n tn s k : Inv tn s -> (n <= nb)%nat -> (n <= k)%nat ->
      dm (sync_upto n tn s) k = dm s k.
    Proof.
      intros HI. induction n as [|n IH]; intros Hn Hk; [reflexivity|].
      destruct (sync_spec n tn s HI) as (J1 & _); [lia|].
      rewrite sync_S, push_dm_other'; [apply IH; lia|apply J1|lia|lia].
    Qed.

    Lemma step_lex now s s' : Inv now s -> step c s = Continue s' ->
      (m1 s' < m1 s)%nat \/
      (m1 s' = m1 s /\ (m2 s' < m2 s)%nat) \/
      (m1 s' = m1 s /\ m2 s' = m2 s /\ (m3 s' < m3 s)%nat).
    Proof.
      intros H Hs. apply step_inv in Hs; [|apply H].
      assert (W := I_wf _ _ H). assert (Wt := w_t _ W). pose proof nb_le_nobj as Hnb.
      destruct Hs as [i tn Hi Ht Hmin Hfst Hf|j tn Hj Ht Hmin Hfst Hf|tn Hdg Ht Hmin Hfst Hf].
      - right. assert (Hi' : (i < nobj)%nat) by lia.
        pose proof (I_pos _ _ H i Hi') as Hp.
        destruct (low_spec _ Hp) as (L1 & L2 & L3).
        set (s' := push false i tn (dm s i) s).
        assert (K1 : forall k, k <> i -> tm s' k = tm s k /\ dm s' k = dm s k).
        { intros k Hk. unfold s'. rewrite push_tm by assumption.
          apply Nat.eqb_neq in Hk as Hk'. rewrite Hk'. split; [reflexivity|].
          apply push_dm_other'; assumption. }
        assert (K2 : tm s' i = tn).
        { unfold s'. rewrite push_tm by assumption. rewrite Nat.eqb_refl. symmetry. exact Ht. }
        destruct (push_dm_own false i tn (dm s i) s W Hi) as (b' & K3). fold s' in K3.
        assert (E1 : m1 s' = m1 s).
        { unfold m1. destruct (K1 (nb + nf)%nat) as [-> ->]; [lia|reflexivity]. }
        assert (Hne : forall k, k <> i -> rem1 s' k = rem1 s k /\ rem2 s' k = rem2 s k).
        { intros k Hk. destruct (K1 k Hk) as [E E']. unfold rem1, rem2, early.
          rewrite E, E'. split; reflexivity. }
        destruct (early s i) eqn:Ee.
        + left. split; [assumption|].
          assert (Hlt : tm s i + dm s i < Tf).
          { unfold early in Ee. apply Qltb_true in Ee. apply rnd_lt_inv. assumption. }
          assert (Hdec : (rem1 s' i < rem1 s i)%nat).
          { unfold rem1. rewrite Ee.
            destruct (early s' i) eqn:Ee'; [|apply cnt_pos; lra].
            apply cnt_lt; [assumption| |lra|rewrite K2, Ht; lra].
            apply low_mono. rewrite K3. unfold newdt.
            unfold early in Ee'. rewrite K2, K3 in Ee'. unfold newdt in Ee'.
            destruct (negb _ && _) in *.
            { exfalso. apply Qltb_true in Ee'. apply rnd_lt_inv in Ee'. lra. }
            destruct (is_auto c i); [right|left; lra]. apply Hauto. }
          unfold m2. apply (sum_lt _ _ i); [|lia|assumption].
          intros k. destruct (Nat.eq_dec k i) as [->|Hk]; [lia|].
          rewrite (proj1 (Hne k Hk)). lia.
        + right. split; [assumption|].
          assert (Hr : rnd tn == rnd Tf).
          { unfold early in Ee. apply Qltb_false in Ee. rewrite <- Ht in Ee. lra. }
          pose proof (newdt_pos i b' (dm s i) tn Hp Hf) as Hp'.
          assert (Ee' : early s' i = false).
          { unfold early. apply Qltb_false. rewrite K2, K3, <- Hr. apply rnd_mono. lra. }
          assert (HtT : tm s i < T').
          { assert (tn < T') by (apply below_T'; assumption). rewrite Ht in H0. lra. }
          assert (Hlt : (rem2 s' i < rem2 s i)%nat).
          { unfold rem2. apply Nat.ltb_lt in Hi as Hib. rewrite Hib, Ee, Ee'.
            apply cnt_lt; [assumption| |assumption|rewrite K2, Ht; lra].
            apply low_mono. rewrite K3. unfold newdt.
            apply Qeqb_true in Hr. rewrite Hr. cbn [negb andb].
            destruct (is_auto c i); [right|left; lra]. apply Hauto. }
          split.
          * unfold m2. apply sum_eq. intros k Hk.
            destruct (Nat.eq_dec k i) as [->|Hk']; [|apply Hne; assumption].
            unfold rem1. rewrite Ee, Ee'. reflexivity.
          * unfold m3. apply (sum_lt _ _ i); [|lia|assumption].
            intros k. destruct (Nat.eq_dec k i) as [->|Hk]; [lia|].
            rewrite (proj2 (Hne k Hk)). lia.
      - right; right.
        assert (Hj' : (nb + j < nobj)%nat).
        { unfold nobj. rewrite objects_length. unfold nb, nf in *. lia. }
        pose proof (I_pos _ _ H _ Hj') as Hp.
        set (s' := advance (nb + j) (dm s (nb + j)) (update_field tn j s)).
        assert (K1 : forall k, tm s' k = if Nat.eqb k (nb + j) then tn else tm s k).
        { intros k. unfold s'. rewrite adv_tm by (cbn [tobj Model_Tracker.update_field]; lia).
          rewrite Ht. reflexivity. }
        assert (K2 : forall k, dm s' k = dm s k) by (intros k; reflexivity).
        assert (Hne : forall k, k <> (nb + j)%nat -> rem1 s' k = rem1 s k /\ rem2 s' k = rem2 s k).
        { intros k Hk. unfold rem1, rem2, early. rewrite K1, K2.
          apply Nat.eqb_neq in Hk. rewrite Hk. split; reflexivity. }
        assert (Hlt : (rem2 s' (nb + j) < rem2 s (nb + j))%nat).
        { unfold rem2. replace (Nat.ltb (nb + j) nb) with false
            by (symmetry; apply Nat.ltb_ge; lia).
          rewrite K1, K2, Nat.eqb_refl. apply cnt_lt; [assumption|lra| |rewrite Ht; lra].
          assert (tn < T') by (apply below_T'; assumption). rewrite Ht in H0. lra. }
        split; [|split].
        + unfold m1. rewrite K1, K2. replace (Nat.eqb (nb + nf) (nb + j)) with false
            by (symmetry; apply Nat.eqb_neq; lia). reflexivity.
        + unfold m2. apply sum_eq. intros k Hk. apply Hne. lia.
        + unfold m3. apply (sum_lt _ _ (nb + j)%nat); [|lia|assumption].
          intros k. destruct (Nat.eq_dec k (nb + j)) as [->|Hk]; [lia|].
          rewrite (proj2 (Hne k Hk)). lia.
      - left. pose proof (diag_index Hdg) as Hj'.
        assert (Hn : rnd now <= rnd tn) by (subst tn; apply (I_nx _ _ H); assumption).
        assert (H' : Inv tn s) by (eapply Inv_later; eassumption).
        destruct (sync_spec nb tn s H' (Nat.le_refl _)) as (J1 & J2 & J3 & J4).
        set (s1 := if c_push_before c then sync_upto nb tn s else s).
        pose proof (I_pos _ _ H _ Hj') as Hp.
        assert (K2 : tm s1 (nb + nf) = tm s (nb + nf)).
        { unfold s1. destruct (c_push_before c); [apply J3; lia|reflexivity]. }
        assert (K4 : dm s1 (nb + nf) = dm s (nb + nf)).
        { unfold s1. destruct (c_push_before c); [apply sync_dm_diag; [assumption|lia|lia]|reflexivity]. }
        assert (K3 : length (tobj s1) = nobj).
        { unfold s1. destruct (c_push_before c); [apply (I_wf _ _ J1)|assumption]. }
        unfold m1. rewrite adv_tm by (cbn [tobj Model_Tracker.generate_diagnostics]; lia).
        rewrite Nat.eqb_refl.
        change (tm (generate_diagnostics tn s1) (nb + nf)) with (tm s1 (nb + nf)).
        change (dm (advance (nb + nf) (dm s (nb + nf)) (generate_diagnostics tn s1)) (nb + nf))
          with (dm s1 (nb + nf)).
        rewrite K2, K4. apply cnt_lt; [assumption|lra| |lra].
        assert (tn < T') by (apply below_T'; assumption). rewrite Ht in H0. lra.
    Qed.

    Lemma loop_terminates_rnd : (0 < nobj)%nat -> forall a b d now s,
      (m1 s < a)%nat -> (m2 s < b)%nat -> (m3 s < d)%nat -> Inv now s -> begun s ->
      exists fuel s', loop fuel c s = Done s'.
    Proof.
      intros Hne.
      assert (Gen : forall a b d, forall now s, m1 s = a -> m2 s = b -> m3 s = d ->
                Inv now s -> begun s -> exists fuel s', loop fuel c s = Done s').
      { intros a. induction a as [a IHa] using lt_wf_ind.
        intros b. induction b as [b IHb] using lt_wf_ind.
        intros d. induction d as [d IHd] using lt_wf_ind.
        intros now s Ea Eb Ed H Hb.
        destruct (step c s) as [s1|s1|e s1] eqn:E.
        - destruct (step_Inv now s s1 H Hb E) as (Hb' & now' & _ & H').
          assert (Hr : exists fuel s', loop fuel c s1 = Done s').
          { destruct (step_lex now s s1 H E) as [L|[(L1 & L)|(L1 & L2 & L)]].
            - apply (IHa (m1 s1) ltac:(lia) (m2 s1) (m3 s1) now'); auto.
            - apply (IHb (m2 s1) ltac:(lia) (m3 s1) now'); auto. lia.
            - apply (IHd (m3 s1) ltac:(lia) now'); auto; lia. }
          destruct Hr as (fuel & s' & Hr). exists (S fuel), s'.
          cbn [Model_Tracker.loop]. rewrite E. exact Hr.
        - exists 1%nat, s1. cbn [Model_Tracker.loop]. rewrite E. reflexivity.
        - apply step_raise in E; [lia|apply H]. }
      intros a b d now s _ _ _ H Hb. eapply Gen; eauto.
    Qed.
  End RoundedTermination.

  (** ** The log explains the final state *)
  Notation replay := (replay B F evolve update).
  Notation effect := (effect B F evolve update).
  Notation outputs_ok := (outputs_ok B F evolve update copy).

  Lemma replay_app l1 l2 w : replay (l1 ++ l2) w = replay l2 (replay l1 w).
  Proof. apply fold_left_app. Qed.
  Lemma outputs_ok_app l1 l2 w :
    outputs_ok (l1 ++ l2) w <-> outputs_ok l1 w /\ outputs_ok l2 (replay l1 w).
  Proof.
    revert w; induction l1 as [|e l IH]; intros w.
    - simpl. tauto.
    - cbn [app Spec_Tracker.outputs_ok Spec_Tracker.replay fold_left].
      rewrite IH. unfold Spec_Tracker.replay. tauto.
  Qed.

  Record Rep (s : state) : Prop := {
    R_wf : wfs s;
    R_st : (fs s, bs s) = replay (log s) (fs0, bs0);
    R_ok : outputs_ok (log s) (fs0, bs0);
    R_out : forall i o, nth_error (out s) i = Some o ->
      map Some o = map (fun sn => nth_error sn i) (snapshots (log s)) }.

  Lemma push_Rep sync i tn d s : Rep s -> (i < nb)%nat -> Rep (push sync i tn d s).
  Proof.
    intros [W R1 R2 R3] Hi.
    destruct (push_eff sync i tn d s W Hi) as (b & b' & Hb & Hb' & ->).
    constructor; cbn [fs bs log out].
    - constructor; simpl; rewrite ?upd_length; apply W.
    - rewrite replay_app, <- R1. unfold Spec_Tracker.replay. cbn [fold_left Spec_Tracker.effect].
      rewrite Hb. rewrite <- Hb'. f_equal. apply upd_replace. rewrite (w_b _ W). assumption.
    - apply outputs_ok_app. split; [assumption|]. simpl. auto.
    - intros k o Ho. rewrite snapshots_app. cbn [snapshots]. rewrite app_nil_r. apply R3; assumption.
  Qed.
  Lemma advance_Rep k d s : Rep s -> Rep (advance k d s).
  Proof.
    intros [W R1 R2 R3]. constructor; auto.
    constructor; simpl; rewrite ?upd_length; apply W.
  Qed.
  Lemma update_Rep tn j s : Rep s -> Rep (update_field tn j s).
  Proof.
    intros [W R1 R2 R3]. constructor; cbn [fs bs log out Model_Tracker.update_field].
    - constructor; simpl; apply W.
    - rewrite replay_app, <- R1. reflexivity.
    - apply outputs_ok_app. split; [assumption|]. simpl. auto.
    - intros k o Ho. rewrite snapshots_app. cbn [snapshots]. rewrite app_nil_r. apply R3; assumption.
  Qed.
  Lemma append_out_nth o l i r : length o = length l ->
    nth_error (append_out B copy o l) i = Some r ->
    exists oi b, nth_error o i = Some oi /\ nth_error l i = Some b /\ r = (oi ++ [copy b])%list.
  Proof.
    unfold append_out. revert l i; induction o as [|x xs IH]; intros [|y ys] i Hl Hr;
      simpl in *; try (destruct i; discriminate); try lia.
    destruct i as [|i]; simpl in *.
    - injection Hr as <-. exists x, y. auto.
    - apply IH; auto.
  Qed.
  Lemma diag_Rep tn s : Rep s -> Rep (generate_diagnostics tn s).
  Proof.
    intros [W R1 R2 R3]. constructor; cbn [fs bs log out Model_Tracker.generate_diagnostics].
    - constructor; simpl; try apply W. rewrite append_out_length; [apply W|].
      rewrite (w_o _ W), (w_b _ W); reflexivity.
    - rewrite replay_app, <- R1. reflexivity.
    - apply outputs_ok_app. split; [assumption|]. rewrite <- R1. simpl. auto.
    - intros k o Ho. apply append_out_nth in Ho; [|rewrite (w_o _ W), (w_b _ W); reflexivity].
      destruct Ho as (oi & b & Ho & Hb & ->).
      rewrite snapshots_app, !map_app. cbn [snapshots map]. rewrite (R3 _ _ Ho).
      f_equal. rewrite nth_error_map, Hb. reflexivity.
  Qed.
  Lemma sync_Rep n tn s : Rep s -> (n <= nb)%nat -> Rep (sync_upto n tn s).
  Proof.
    intros H. induction n as [|n IH]; intros Hn; [exact H|].
    rewrite sync_S. apply push_Rep; [apply IH|]; lia.
  Qed.
  Lemma step_Rep s s' : Rep s -> step c s = Continue s' -> Rep s'.
  Proof.
    intros H Hs. apply step_inv in Hs; [|apply H].
    destruct Hs as [i tn Hi _ _ _ _|j tn Hj _ _ _ _|tn Hdg _ _ _ _].
    - apply push_Rep; assumption.
    - apply advance_Rep, update_Rep; assumption.
    - apply advance_Rep, diag_Rep. destruct (c_push_before c); [|assumption].
      apply sync_Rep; [assumption|lia].
  Qed.
  Lemma initial_Rep : Rep initial.
  Proof.
    assert (H0 : Rep {| bs := bs0; fs := fs_start;
       tobj := map (fun _ => 0) (initial_dt B auto_dt c bs0);
       dtobj := initial_dt B auto_dt c bs0;
       out := map (fun _ => []) bs0;
       log := map (fun j => EField j 0) (seq 0 nf) |}).
    { pose proof Hgood as (G1 & G2 & G3 & G4). constructor; cbn [fs bs log out].
      - constructor; cbn [tobj dtobj bs out]; rewrite ?map_length;
          try (apply initial_dt_length; assumption); assumption.
      - unfold fs_start. induction nf as [|n IH]; [reflexivity|].
        rewrite seq_S, map_app, replay_app, fold_left_app. rewrite <- IH. reflexivity.
      - generalize (fs0, bs0). generalize 0%nat. induction nf as [|n IH]; intros a w; simpl; auto.
      - intros i o Ho. rewrite nth_error_map in Ho.
        destruct (nth_error bs0 i); [|discriminate]. injection Ho as <-.
        assert (Hs : forall a n, snapshots (B:=B) (map (fun j => EField j 0) (seq a n)) = []).
        { intros a n; revert a; induction n as [|n IH]; intros a; simpl; auto. }
        rewrite Hs. reflexivity. }
    unfold initial. rewrite start_eq. destruct (c_ndiags c); [exact H0|].
    apply diag_Rep. exact H0.
  Qed.
  Lemma loop_Rep fuel : forall s s', Rep s -> loop fuel c s = Done s' -> Rep s'.
  Proof.
    induction fuel as [|fuel IH]; intros s s' H Hl; cbn [Model_Tracker.loop] in Hl;
      [discriminate|].
    destruct (step c s) as [s1|s1|e s1] eqn:E.
    - eapply IH; [|eassumption]. eapply step_Rep; eassumption.
    - injection Hl as ->. apply step_done in E as [-> E]; [assumption|apply H].
    - discriminate.
  Qed.
  Lemma done_Rep fuel s : do_tracking fuel c bs0 fs0 = Done s -> Rep s.
  Proof.
    intros H. apply tracking_cases in H as [_ H].
    eapply loop_Rep; [apply initial_Rep|eassumption].
  Qed.

  (** ** Exact comparisons *)
  Section Exact.
    Hypothesis Hex : forall x, rnd x = x.
    (** Admissible step lengths of each bunch. *)
    Variable M : nat -> Q -> Prop.
    Hypothesis HMle : forall i d d', M i d -> d' <= d -> M i d'.
    Hypothesis HM0 : forall i, (i < nb)%nat -> M i (nth i (initial_dt B auto_dt c bs0) 0).
    Hypothesis HMa : forall i b, (i < nb)%nat -> is_auto c i = true -> M i (auto_dt b).
    Variable mm : Q.
    Hypothesis Hmm : 0 < mm.
    Hypothesis Hmm0 : forall k, (k < nobj)%nat -> mm <= nth k (initial_dt B auto_dt c bs0) 0.
    Hypothesis Hmma : mm <= m.

    Record InvX (s : state) : Prop := {
      X_d : forall i, (i < nb)%nat -> M i (dm s i);
      X_p : forall i, (i < nb)%nat ->
        Forall (fun p => 0 <= snd p /\ M i (snd p)) (pushes i (log s));
      X_m : forall k, (k < nobj)%nat -> mm <= dm s k \/ Tf <= tm s k + dm s k;
      X_f : forall j t, In (EField j t) (log s) ->
        forall i, (i < nb)%nat -> t < tm s i + dm s i;
      X_fs : forall l1 j t l2 i t' d', log s = l1 ++ EField j t :: l2 ->
        In (EPush i t' d' false) l2 -> t < t' + d';
      X_g : forall t sn, In (EDiag t sn) (log s) ->
        forall k, (k < nobj)%nat -> t < tm s k + dm s k;
      X_gs : forall l1 t sn l2 e, log s = l1 ++ EDiag t sn :: l2 ->
        In e l2 -> t < etime e }.

    Lemma Inv_tm now s k : Inv now s -> (k < nobj)%nat -> tm s k <= now.
    Proof. intros H Hk. pose proof (I_tn _ _ H k Hk) as E. rewrite !Hex in E. exact E. Qed.
    Lemma Inv_nx now s k : Inv now s -> (k < nobj)%nat -> now <= tm s k + dm s k.
    Proof. intros H Hk. pose proof (I_nx _ _ H k Hk) as E. rewrite !Hex in E. exact E. Qed.
    Lemma Inv_lg now s e : Inv now s -> In e (log s) -> etime e <= now.
    Proof. intros H Hk. pose proof (I_lg _ _ H e Hk) as E. rewrite !Hex in E. exact E. Qed.
    Lemma Inv_now now s : Inv now s -> now <= Tf.
    Proof. intros H. pose proof (I_now _ _ H) as E. rewrite !Hex in E. exact E. Qed.

    Lemma newdt_bound i b' d tn : (i < nb)%nat -> M i d -> M i (newdt i b' d tn).
    Proof.
      intros Hi Hd. unfold newdt.
      assert (H1 : M i (if is_auto c i then auto_dt b' else d)).
      { destruct (is_auto c i) eqn:E; [|assumption]. apply HMa; assumption. }
      set (d1 := if is_auto c i then auto_dt b' else d) in *.
      destruct (negb _ && _) eqn:E; [|assumption].
      apply andb_true_iff in E as [_ E]. apply Qltb_true in E. eapply HMle; [eassumption|]. lra.
    Qed.
    Lemma newdt_min i b' d t tn : t <= tn ->
      mm <= d \/ Tf <= t + d -> mm <= newdt i b' d tn \/ Tf <= tn + newdt i b' d tn.
    Proof.
      intros Ht H. unfold newdt.
      assert (H1 : mm <= (if is_auto c i then auto_dt b' else d) \/
                   Tf <= tn + (if is_auto c i then auto_dt b' else d)).
      { destruct (is_auto c i) eqn:E.
        - left. destruct Hauto as [_ Ha]. specialize (Ha b'). lra.
        - destruct H; [left; assumption|right; lra]. }
      set (d1 := if is_auto c i then auto_dt b' else d) in *.
      destruct (negb _ && _) eqn:E; [|assumption]. right. lra.
    Qed.

    Lemma push_InvX sync i tn d s : Inv tn s -> InvX s -> (i < nb)%nat ->
      tn == tm s i + d ->
      (sync = false -> forall j t, In (EField j t) (log s) -> t < tn) ->
      (forall t sn, In (EDiag t sn) (log s) -> t < tn) ->
      InvX (push sync i tn d s).
    Proof.
      intros HI HX Hi Hd Hf Hg.
      destruct (push_eff sync i tn d s (I_wf _ _ HI) Hi) as (b & b' & Hb & Hb' & ->).
      pose proof nb_le_nobj as Hn. assert (Hi' : (i < nobj)%nat) by lia.
      assert (W := I_wf _ _ HI). assert (Wt := w_t _ W). assert (Wd := w_d _ W).
      pose proof (Inv_tm _ _ _ HI Hi') as E1. pose proof (Inv_nx _ _ _ HI Hi') as E2.
      pose proof (I_pos _ _ HI _ Hi') as E3.
      pose proof (newdt_pos i b' (dm s i) tn E3 (I_now _ _ HI)) as E4.
      destruct HX as [A1 A2 A3 A4 A5 A6 A7].
      constructor.
      - intros k Hk. unfold dm; cbn [dtobj]. destruct (Nat.eq_dec k i) as [->|Hne].
        + rewrite upd_nth_same by lia. apply newdt_bound; [assumption|]. apply A1; assumption.
        + rewrite upd_nth_other by assumption. apply A1; assumption.
      - intros k Hk. cbn [log]. rewrite pushes_app. apply Forall_app.
        split; [apply A2; assumption|]. cbn [pushes].
        destruct (Nat.eqb_spec i k) as [<-|Hne]; constructor; [|constructor].
        simpl. split; [lra|]. eapply HMle; [apply A1; assumption|]. lra.
      - intros k Hk. unfold tm, dm; cbn [tobj dtobj]. destruct (Nat.eq_dec k i) as [->|Hne].
        + rewrite !upd_nth_same by lia. ftm.
          destruct (newdt_min i b' (dm s i) (tm s i) tn E1 (A3 i Hi')); [left|right]; lra.
        + rewrite !upd_nth_other by assumption. apply A3; assumption.
      - intros j t Hin k Hk. cbn [log] in Hin. apply in_app_or in Hin as [Hin|[Hin|[]]];
          [|discriminate].
        unfold tm, dm; cbn [tobj dtobj]. destruct (Nat.eq_dec k i) as [->|Hne].
        + rewrite !upd_nth_same by lia. ftm.
          pose proof (Inv_lg _ _ _ HI Hin) as E5. cbn [etime] in E5. lra.
        + rewrite !upd_nth_other by assumption. eapply A4; eassumption.
      - intros l1 j t l2 k t' d' Hl Hin. cbn [log] in Hl.
        apply split_snoc in Hl as [(-> & _ & Hx)|(l2' & -> & Hl)]; [discriminate|].
        apply in_app_or in Hin as [Hin|[Hin|[]]]; [eapply A5; eassumption|].
        injection Hin as -> <- <- ->.
        assert (t < tn); [|lra]. apply (Hf eq_refl j). rewrite Hl. apply in_or_app; right; left; reflexivity.
      - intros t sn Hin k Hk. cbn [log] in Hin. apply in_app_or in Hin as [Hin|[Hin|[]]];
          [|discriminate].
        unfold tm, dm; cbn [tobj dtobj]. destruct (Nat.eq_dec k i) as [->|Hne].
        + rewrite !upd_nth_same by lia. ftm.
          pose proof (Inv_lg _ _ _ HI Hin) as E5. cbn [etime] in E5. lra.
        + rewrite !upd_nth_other by assumption. eapply A6; eassumption.
      - intros l1 t sn l2 e Hl Hin. cbn [log] in Hl.
        apply split_snoc in Hl as [(-> & _ & Hx)|(l2' & -> & Hl)]; [discriminate|].
        apply in_app_or in Hin as [Hin|[Hin|[]]]; [eapply A7; eassumption|].
        subst e. cbn [etime].
        assert (t < tn); [|lra]. apply (Hg t sn). rewrite Hl. apply in_or_app; right; left; reflexivity.
    Qed.

    Lemma update_InvX j tn s : Inv tn s -> InvX s -> (j < nf)%nat ->
      tn == tm s (nb + j) + dtf j ->
      (forall i, (i < nb)%nat -> tn < tm s i + dm s i) ->
      (forall t sn, In (EDiag t sn) (log s) -> t < tn) ->
      InvX (advance (nb + j) (dtf j) (update_field tn j s)).
    Proof.
      intros HI HX Hj Hd Hf Hg.
      assert (Hn : (nb + j < nobj)%nat).
      { unfold nobj. rewrite objects_length. unfold nb, nf in *. lia. }
      assert (W := I_wf _ _ HI). assert (Wt := w_t _ W). assert (Wd := w_d _ W).
      pose proof (I_pos _ _ HI _ Hn) as E3. pose proof (dtf_pos j Hj) as E9.
      destruct HX as [A1 A2 A3 A4 A5 A6 A7].
      unfold Model_Tracker.advance, Model_Tracker.update_field; cbn [bs fs tobj dtobj out log].
      ftm. constructor.
      - exact A1.
      - intros k Hk. cbn [log]. rewrite pushes_app, app_nil_r. apply A2; assumption.
      - intros k Hk. unfold tm, dm; cbn [tobj dtobj]. destruct (Nat.eq_dec k (nb + j)) as [->|Hne].
        + rewrite !upd_nth_same by lia. ftm. destruct (A3 _ Hn) as [H|H]; [left; assumption|].
          right. lra.
        + rewrite !upd_nth_other by assumption. apply A3; assumption.
      - intros k t Hin i Hi. cbn [log] in Hin. unfold tm, dm; cbn [tobj dtobj].
        rewrite upd_nth_other by lia. ftm.
        apply in_app_or in Hin as [Hin|[Hin|[]]]; [eapply A4; eassumption|].
        injection Hin as -> ->. apply Hf; assumption.
      - intros l1 k t l2 i t' d' Hl Hin. cbn [log] in Hl.
        apply split_snoc in Hl as [(-> & _ & Hx)|(l2' & -> & Hl)]; [destruct Hin|].
        apply in_app_or in Hin as [Hin|[Hin|[]]]; [eapply A5; eassumption|discriminate].
      - intros t sn Hin k Hk. cbn [log] in Hin. apply in_app_or in Hin as [Hin|[Hin|[]]];
          [|discriminate].
        unfold tm, dm; cbn [tobj dtobj]. destruct (Nat.eq_dec k (nb + j)) as [->|Hne].
        + rewrite upd_nth_same by lia. ftm. specialize (Hg _ _ Hin). lra.
        + rewrite upd_nth_other by assumption. eapply A6; eassumption.
      - intros l1 t sn l2 e Hl Hin. cbn [log] in Hl.
        apply split_snoc in Hl as [(-> & _ & Hx)|(l2' & -> & Hl)]; [discriminate|].
        apply in_app_or in Hin as [Hin|[Hin|[]]]; [eapply A7; eassumption|].
        subst e. cbn [etime]. apply (Hg t sn). rewrite Hl. apply in_or_app; right; left; reflexivity.
    Qed.

    Lemma diag_InvX tn s : Inv tn s -> InvX s -> (0 < c_ndiags c)%nat ->
      tn == tm s (nb + nf) + dt_diags c ->
      (forall k, (k < nb + nf)%nat -> tn < tm s k + dm s k) ->
      (forall t sn, In (EDiag t sn) (log s) -> t < tn) ->
      InvX (advance (nb + nf) (dt_diags c) (generate_diagnostics tn s)).
    Proof.
      intros HI HX Hdg Hd Hf Hg. pose proof (diag_index Hdg) as Hn.
      assert (W := I_wf _ _ HI). assert (Wt := w_t _ W). assert (Wd := w_d _ W).
      pose proof (I_pos _ _ HI _ Hn) as E3. pose proof (dtdiag_pos Hdg) as E9.
      destruct HX as [A1 A2 A3 A4 A5 A6 A7].
      unfold Model_Tracker.advance, Model_Tracker.generate_diagnostics;
        cbn [bs fs tobj dtobj out log].
      ftm. constructor.
      - exact A1.
      - intros k Hk. cbn [log]. rewrite pushes_app, app_nil_r. apply A2; assumption.
      - intros k Hk. unfold tm, dm; cbn [tobj dtobj]. destruct (Nat.eq_dec k (nb + nf)) as [->|Hne].
        + rewrite !upd_nth_same by lia. ftm. destruct (A3 _ Hn) as [H|H]; [left; assumption|].
          right. lra.
        + rewrite !upd_nth_other by assumption. apply A3; assumption.
      - intros k t Hin i Hi. cbn [log] in Hin. unfold tm, dm; cbn [tobj dtobj].
        rewrite upd_nth_other by lia. ftm.
        apply in_app_or in Hin as [Hin|[Hin|[]]]; [eapply A4; eassumption|discriminate].
      - intros l1 k t l2 i t' d' Hl Hin. cbn [log] in Hl.
        apply split_snoc in Hl as [(-> & _ & Hx)|(l2' & -> & Hl)]; [discriminate|].
        apply in_app_or in Hin as [Hin|[Hin|[]]]; [eapply A5; eassumption|discriminate].
      - intros t sn Hin k Hk. cbn [log] in Hin.
        unfold tm, dm; cbn [tobj dtobj]. destruct (Nat.eq_dec k (nb + nf)) as [->|Hne].
        + rewrite upd_nth_same by lia. ftm.
          apply in_app_or in Hin as [Hin|[Hin|[]]]; [specialize (Hg _ _ Hin); lra|].
          injection Hin as -> _. lra.
        + rewrite upd_nth_other by assumption. ftm.
          apply in_app_or in Hin as [Hin|[Hin|[]]]; [eapply A6; eassumption|].
          injection Hin as -> _. apply Hf. unfold nobj in Hk. rewrite objects_length in Hk.
          apply Nat.ltb_lt in Hdg. rewrite Hdg in Hk. unfold nb, nf in *. lia.
      - intros l1 t sn l2 e Hl Hin. cbn [log] in Hl.
        apply split_snoc in Hl as [(-> & _ & Hx)|(l2' & -> & Hl)]; [destruct Hin|].
        apply in_app_or in Hin as [Hin|[Hin|[]]]; [eapply A7; eassumption|].
        subst e. cbn [etime]. apply (Hg t sn). rewrite Hl. apply in_or_app; right; left; reflexivity.
    Qed.

    Lemma sync_InvX n tn s : Inv tn s -> InvX s -> (n <= nb)%nat ->
      (forall t sn, In (EDiag t sn) (log s) -> t < tn) ->
      InvX (sync_upto n tn s).
    Proof.
      intros HI HX. induction n as [|n IH]; intros Hn Hg; [exact HX|].
      destruct (sync_spec n tn s HI) as (J1 & J2 & J3 & J4); [lia|].
      rewrite sync_S. apply push_InvX; [assumption|apply IH; [lia|assumption]|lia|lra|discriminate|].
      - intros t sn Hin. rewrite J4 in Hin. apply in_app_or in Hin as [Hin|Hin];
          [eapply Hg; eassumption|].
        apply in_map_iff in Hin as (k & Hk & _). discriminate.
    Qed.

    (** Steps and clocks of the other objects during synchronisation. *)
    Lemma push_dm_other sync i tn d s k : wfs s -> (i < nb)%nat -> k <> i ->
      dm (push sync i tn d s) k = dm s k.
    Proof.
      intros W Hi Hk. destruct (push_eff sync i tn d s W Hi) as (b & b' & _ & _ & ->).
      unfold dm; cbn [dtobj]. apply upd_nth_other; assumption.
    Qed.
    Lemma sync_dm_other n tn s k : Inv tn s -> (n <= nb)%nat -> (n <= k)%nat ->
      dm (sync_upto n tn s) k = dm s k.
    Proof.
      intros HI. induction n as [|n IH]; intros Hn Hk; [reflexivity|].
      destruct (sync_spec n tn s HI) as (J1 & _); [lia|].
      rewrite sync_S, push_dm_other; [apply IH; lia|apply J1|lia|lia].
    Qed.

    Lemma step_InvX now s s' : Inv now s -> InvX s ->
      step c s = Continue s' -> InvX s'.
    Proof.
      intros H HX Hs. apply step_inv in Hs; [|apply H].
      destruct Hs as [i tn Hi Ht Hmin Hfst Hf|j tn Hj Ht Hmin Hfst Hf|tn Hdg Ht Hmin Hfst Hf].
      - assert (Hi' : (i < nobj)%nat) by (pose proof nb_le_nobj; lia).
        assert (Hn : rnd now <= rnd tn) by (subst tn; apply (I_nx _ _ H); assumption).
        assert (H' : Inv tn s) by (eapply Inv_later; eassumption).
        apply push_InvX; auto.
        + subst tn; reflexivity.
        + intros _ j t Hin. rewrite Ht. eapply X_f; eassumption.
        + intros t sn Hin. rewrite Ht. eapply X_g; eassumption.
      - assert (Hj' : (nb + j < nobj)%nat).
        { unfold nobj. rewrite objects_length. unfold nb, nf in *. lia. }
        assert (Hn : rnd now <= rnd tn) by (subst tn; apply (I_nx _ _ H); assumption).
        assert (H' : Inv tn s) by (eapply Inv_later; eassumption).
        rewrite (I_fd _ _ H j Hj) in *.
        apply update_InvX; auto.
        + subst tn; reflexivity.
        + intros i Hi. specialize (Hfst i ltac:(lia)). rewrite !Hex in Hfst. exact Hfst.
        + intros t sn Hin. rewrite Ht, <- (I_fd _ _ H j Hj). eapply X_g; eassumption.
      - pose proof (diag_index Hdg) as Hj'.
        assert (Hn : rnd now <= rnd tn) by (subst tn; apply (I_nx _ _ H); assumption).
        assert (H' : Inv tn s) by (eapply Inv_later; eassumption).
        assert (Hg : forall t sn, In (EDiag t sn) (log s) -> t < tn).
        { intros t sn Hin. rewrite Ht. eapply X_g; eassumption. }
        rewrite (I_dd _ _ H Hdg) in *.
        destruct (c_push_before c) eqn:Hpb.
        + destruct (sync_spec nb tn s H' (Nat.le_refl _)) as (J1 & J2 & J3 & J4).
          apply diag_InvX; auto.
          * apply sync_InvX; auto.
          * rewrite J3 by lia. subst tn; reflexivity.
          * intros k Hk. destruct (lt_dec k nb) as [Hkb|Hkb].
            -- rewrite (J2 k Hkb).
               pose proof (I_pos _ _ J1 k ltac:(pose proof nb_le_nobj; lia)). lra.
            -- rewrite J3 by lia. rewrite sync_dm_other by (assumption || lia).
               specialize (Hfst k Hk). rewrite !Hex in Hfst. exact Hfst.
          * intros t sn Hin. rewrite J4 in Hin. apply in_app_or in Hin as [Hin|Hin];
              [eapply Hg; eassumption|].
            apply in_map_iff in Hin as (k & Hk & _). discriminate.
        + apply diag_InvX; auto.
          * subst tn; reflexivity.
          * intros k Hk. specialize (Hfst k Hk). rewrite !Hex in Hfst. exact Hfst.
    Qed.

    Lemma initial_InvX : InvX initial.
    Proof.
      assert (Hd : forall k, dm initial k = nth k (initial_dt B auto_dt c bs0) 0).
      { intros k. unfold dm. rewrite init_d. reflexivity. }
      assert (Hpush : forall i, pushes i (log initial) = []).
      { intros i. rewrite init_log, pushes_app, pushes_fields.
        destruct (Nat.ltb 0 (c_ndiags c)); reflexivity. }
      assert (Hz : forall k, (k < nobj)%nat -> 0 < tm initial k + dm initial k).
      { intros k Hk. rewrite init_t, Hd. pose proof (init_pos k Hk). lra. }
      constructor.
      - intros i Hi. rewrite Hd. auto.
      - intros i Hi. rewrite Hpush. constructor.
      - intros k Hk. left. rewrite Hd. auto.
      - intros j t Hin i Hi. rewrite init_log in Hin. apply in_app_or in Hin as [Hin|Hin].
        + apply in_map_iff in Hin as (k & Hk & _). injection Hk as _ <-.
          apply Hz. pose proof nb_le_nobj. lia.
        + destruct (Nat.ltb 0 (c_ndiags c)); [|destruct Hin].
          destruct Hin as [Hin|[]]. discriminate.
      - intros l1 j t l2 i t' d' Hl Hin. exfalso.
        assert (Hin' : In (EPush i t' d' false) (log initial)).
        { rewrite Hl. apply in_or_app; right; right; assumption. }
        rewrite init_log in Hin'. apply in_app_or in Hin' as [Hin'|Hin'].
        + apply in_map_iff in Hin' as (k & Hk & _). discriminate.
        + destruct (Nat.ltb 0 (c_ndiags c)); [|destruct Hin'].
          destruct Hin' as [Hin'|[]]. discriminate.
      - intros t sn Hin k Hk. rewrite init_log in Hin. apply in_app_or in Hin as [Hin|Hin].
        + apply in_map_iff in Hin as (j & Hj & _). discriminate.
        + destruct (Nat.ltb 0 (c_ndiags c)); [|destruct Hin].
          destruct Hin as [Hin|[]]. injection Hin as <- _. apply Hz; assumption.
      - intros l1 t sn l2 e Hl Hin. exfalso. rewrite init_log in Hl.
        assert (Hnil : l2 = []).
        { destruct (Nat.ltb 0 (c_ndiags c)).
          - apply split_snoc in Hl as [(-> & _)|(l2' & -> & Hl)]; [reflexivity|].
            exfalso. assert (Hx : In (EDiag t sn) (map (fun j => @EField B j 0) (seq 0 nf))).
            { rewrite Hl. apply in_or_app; right; left; reflexivity. }
            apply in_map_iff in Hx as (j & Hj & _). discriminate.
          - rewrite app_nil_r in Hl.
            exfalso. assert (Hx : In (EDiag t sn) (map (fun j => @EField B j 0) (seq 0 nf))).
            { rewrite Hl. apply in_or_app; right; left; reflexivity. }
            apply in_map_iff in Hx as (j & Hj & _). discriminate. }
        subst l2. destruct Hin.
    Qed.

    Lemma loop_InvX fuel : forall now s s', Inv now s -> begun s -> InvX s ->
      loop fuel c s = Done s' -> InvX s'.
    Proof.
      induction fuel as [|fuel IH]; intros now s s' H Hb HX Hl; cbn [Model_Tracker.loop] in Hl;
        [discriminate|].
      destruct (step c s) as [s1|s1|e s1] eqn:E.
      - destruct (step_Inv now s s1 H Hb E) as (Hb' & now' & _ & H').
        apply (IH now' s1 s'); auto. exact (step_InvX now s s1 H HX E).
      - injection Hl as ->. apply step_done in E as [-> E]; [assumption|apply H].
      - discriminate.
    Qed.
    Lemma done_InvX fuel s : do_tracking fuel c bs0 fs0 = Done s -> InvX s.
    Proof.
      intros H. apply tracking_cases in H as [_ H].
      eapply loop_InvX; [apply initial_Inv|apply initial_begun|apply initial_InvX|eassumption].
    Qed.

    (** ** Lengths of a bunch's own steps *)
    Definition req (i : nat) (b : B) : Q :=
      match nth_error (c_dtb c) i with
      | Some (Some q) => q
      | _ => auto_dt b
      end.
    Record Req (s : state) : Prop := {
      Q_rep : Rep s;
      Q_d : forall i b, nth_error (bs s) i = Some b ->
        dm s i == req i b \/ (dm s i <= req i b /\ dm s i == Tf - tm s i) \/ tm s i == Tf;
      Q_l : forall l1 i t d l2, log s = l1 ++ EPush i t d false :: l2 ->
        exists b, nth_error (snd (replay l1 (fs0, bs0))) i = Some b /\
          (d == req i b \/ (d <= req i b /\ t + d == Tf)) }.

    Lemma req_next i b b' d t tn : (i < nb)%nat -> t <= tn -> tn <= Tf ->
      (d == req i b \/ (d <= req i b /\ d == Tf - t) \/ t == Tf) ->
      newdt i b' d tn == req i b' \/
      (newdt i b' d tn <= req i b' /\ newdt i b' d tn == Tf - tn) \/ tn == Tf.
    Proof.
      intros Hi Ht Htn H. unfold newdt. rewrite !Hex.
      destruct (Qeq_bool tn Tf) eqn:E; [right; right; apply Qeqb_true; assumption|].
      apply Qeqb_false in E. cbn [negb andb].
      assert (Hlt : tn < Tf).
      { destruct (Qlt_le_dec tn Tf) as [|Hge]; [assumption|]. exfalso. apply E. lra. }
      assert (Hd : (if is_auto c i then auto_dt b' else d) == req i b' \/
                   ((if is_auto c i then auto_dt b' else d) <= req i b' /\
                    (if is_auto c i then auto_dt b' else d) == Tf - t)).
      { unfold req, is_auto in *. destruct (nth_error (c_dtb c) i) as [[q|]|] eqn:Ei.
        - destruct H as [H|[H|H]]; [left; exact H|right; exact H|lra].
        - left; reflexivity.
        - apply nth_error_None in Ei. unfold nb, n_bunches in Hi. lia. }
      set (d1 := if is_auto c i then auto_dt b' else d) in *.
      destruct (Qltb Tf (tn + d1)) eqn:E1.
      - apply Qltb_true in E1. right; left. destruct Hd as [Hd|[Hd1 Hd2]]; split; lra.
      - apply Qltb_false in E1. destruct Hd as [Hd|[Hd1 Hd2]]; [left; exact Hd|].
        right; left. split; lra.
    Qed.

    Lemma push_Req sync i tn d s : Inv tn s -> Req s -> (i < nb)%nat ->
      tn == tm s i + d -> (sync = false -> d = dm s i) -> Req (push sync i tn d s).
    Proof.
      intros HI HQ Hi Hd Hy.
      pose proof nb_le_nobj as Hn. assert (Hi' : (i < nobj)%nat) by lia.
      pose proof (Inv_tm _ _ _ HI Hi') as E1. pose proof (Inv_now _ _ HI) as E2.
      pose proof (I_pos _ _ HI _ Hi') as E3.
      assert (HR := push_Rep sync i tn d s (Q_rep _ HQ) Hi).
      destruct (push_eff sync i tn d s (I_wf _ _ HI) Hi) as (b & b' & Hb & Hb' & E).
      assert (W := I_wf _ _ HI). assert (Wt := w_t _ W). assert (Wd := w_d _ W).
      rewrite E in *. clear E. destruct HQ as [A1 A2 A3]. constructor; [assumption| |].
      - intros k bk Hk. cbn [bs] in Hk. unfold tm, dm; cbn [tobj dtobj].
        destruct (Nat.eq_dec k i) as [->|Hne].
        + rewrite upd_nth_error_same in Hk by (rewrite (w_b _ W); assumption).
          injection Hk as <-. rewrite !upd_nth_same by lia. ftm.
          destruct (req_next i b b' (dm s i) (tm s i) tn Hi E1 E2 (A2 i b Hb)) as [H|[[H1 H2]|H]];
            [left|right; left|right; right]; try split; lra.
        + rewrite upd_nth_error_other in Hk by assumption.
          rewrite !upd_nth_other by assumption. apply A2; assumption.
      - intros l1 k t x l2 Hl. cbn [log] in Hl.
        apply split_snoc in Hl as [(-> & -> & Hx)|(l2' & -> & Hl)]; [|eapply A3; eassumption].
        injection Hx as -> -> -> Hy'. specialize (Hy (eq_sym Hy')). subst d.
        pose proof (R_st _ A1) as Hr.
        exists b. split; [rewrite <- Hr; exact Hb|].
        destruct (A2 i b Hb) as [H|[[H1 H2]|H]]; [left; assumption|right; split; lra|lra].
    Qed.
    Lemma advance_Req k d s : (forall i, (i < nb)%nat -> i <> k) -> Req s -> Req (advance k d s).
    Proof.
      intros Hk [A1 A2 A3]. constructor; [apply advance_Rep; assumption| |exact A3].
      intros i b Hb. cbn [bs Model_Tracker.advance] in Hb.
      assert (Hi : (i < nb)%nat).
      { rewrite <- (w_b _ (R_wf _ A1)). apply nth_error_Some. congruence. }
      specialize (Hk i Hi). unfold tm, dm; cbn [tobj dtobj Model_Tracker.advance].
      rewrite upd_nth_other by lia. apply A2; assumption.
    Qed.
    Lemma update_Req tn j s : Req s -> Req (update_field tn j s).
    Proof.
      intros [A1 A2 A3]. constructor; [apply update_Rep; assumption|exact A2|].
      intros l1 i t d l2 Hl. cbn [log Model_Tracker.update_field] in Hl.
      apply split_snoc in Hl as [(-> & -> & Hx)|(l2' & -> & Hl)]; [discriminate|].
      eapply A3; eassumption.
    Qed.
    Lemma diag_Req tn s : Req s -> Req (generate_diagnostics tn s).
    Proof.
      intros [A1 A2 A3]. constructor; [apply diag_Rep; assumption|exact A2|].
      intros l1 i t d l2 Hl. cbn [log Model_Tracker.generate_diagnostics] in Hl.
      apply split_snoc in Hl as [(-> & -> & Hx)|(l2' & -> & Hl)]; [discriminate|].
      eapply A3; eassumption.
    Qed.
    Lemma sync_Req n tn s : Inv tn s -> Req s -> (n <= nb)%nat -> Req (sync_upto n tn s).
    Proof.
      intros HI HQ. induction n as [|n IH]; intros Hn; [exact HQ|].
      destruct (sync_spec n tn s HI) as (J1 & J2 & J3 & J4); [lia|].
      rewrite sync_S. apply push_Req; [assumption|apply IH; lia|lia|lra|discriminate].
    Qed.
    Lemma step_Req now s s' : Inv now s -> Req s -> step c s = Continue s' -> Req s'.
    Proof.
      intros H HQ Hs. apply step_inv in Hs; [|apply H].
      destruct Hs as [i tn Hi Ht Hmin Hfst Hf|j tn Hj Ht Hmin Hfst Hf|tn Hdg Ht Hmin Hfst Hf].
      - assert (Hi' : (i < nobj)%nat) by (pose proof nb_le_nobj; lia).
        assert (Hn : rnd now <= rnd tn) by (subst tn; apply (I_nx _ _ H); assumption).
        assert (H' : Inv tn s) by (eapply Inv_later; eassumption).
        apply push_Req; auto. subst tn; reflexivity.
      - apply advance_Req; [intros; lia|]. apply update_Req; assumption.
      - pose proof (diag_index Hdg) as Hj'.
        assert (Hn : rnd now <= rnd tn) by (subst tn; apply (I_nx _ _ H); assumption).
        assert (H' : Inv tn s) by (eapply Inv_later; eassumption).
        apply advance_Req; [intros; lia|]. apply diag_Req.
        destruct (c_push_before c); [apply sync_Req; auto|assumption].
    Qed.
    Lemma initial_Req : Req initial.
    Proof.
      pose proof Hgood as (G1 & G2 & G3 & G4).
      constructor; [apply initial_Rep| |].
      - intros i b Hb. left. unfold dm. rewrite init_d.
        assert (Hbs : bs initial = bs0).
        { unfold initial. destruct (c_ndiags c); rewrite start_eq; reflexivity. }
        rewrite Hbs in Hb.
        assert (Hi : (i < length bs0)%nat) by (apply nth_error_Some; congruence).
        rewrite initial_dt_bunch by (auto; unfold n_bunches; lia).
        unfold req. destruct (nth_error (c_dtb c) i) as [d|] eqn:Ed;
          [|apply nth_error_None in Ed; lia].
        rewrite (initial_dtb_nth _ _ _ _ _ _ Ed Hb). destruct d; reflexivity.
      - intros l1 i t d l2 Hl. exfalso.
        assert (Hin' : In (EPush i t d false) (log initial)).
        { rewrite Hl. apply in_or_app; right; left; reflexivity. }
        rewrite init_log in Hin'. apply in_app_or in Hin' as [Hin'|Hin'].
        + apply in_map_iff in Hin' as (k & Hk & _). discriminate.
        + destruct (Nat.ltb 0 (c_ndiags c)); [|destruct Hin'].
          destruct Hin' as [Hin'|[]]. discriminate.
    Qed.
    Lemma loop_Req fuel : forall now s s', Inv now s -> begun s -> Req s ->
      loop fuel c s = Done s' -> Req s'.
    Proof.
      induction fuel as [|fuel IH]; intros now s s' H Hb HX Hl; cbn [Model_Tracker.loop] in Hl;
        [discriminate|].
      destruct (step c s) as [s1|s1|e s1] eqn:E.
      - destruct (step_Inv now s s1 H Hb E) as (Hb' & now' & _ & H').
        apply (IH now' s1 s'); auto. exact (step_Req now s s1 H HX E).
      - injection Hl as ->. apply step_done in E as [-> E]; [assumption|apply H].
      - discriminate.
    Qed.
    Lemma done_Req fuel s : do_tracking fuel c bs0 fs0 = Done s -> Req s.
    Proof.
      intros H. apply tracking_cases in H as [_ H].
      eapply loop_Req; [apply initial_Inv|apply initial_begun|apply initial_Req|eassumption].
    Qed.

    (** ** Termination *)
    Definition phi (s : state) (k : nat) : nat :=
      if Qltb (tm s k) Tf then S (Z.to_nat (Qfloor ((Tf - tm s k) / mm))) else 0%nat.
    Definition measure (s : state) : nat := list_sum (map (phi s) (seq 0 nobj)).

    Lemma floor_mono a b : a <= b -> (Qfloor a <= Qfloor b)%Z.
    Proof. apply Qfloor_resp_le. Qed.
    Lemma Z2Nat_mono a b : (a <= b)%Z -> (Z.to_nat a <= Z.to_nat b)%nat.
    Proof. lia. Qed.
    Lemma phi_le t t' : t <= t' ->
      ((if Qltb t' Tf then S (Z.to_nat (Qfloor ((Tf - t') / mm))) else 0) <=
       (if Qltb t Tf then S (Z.to_nat (Qfloor ((Tf - t) / mm))) else 0))%nat.
    Proof.
      intros Ht. destruct (Qltb t' Tf) eqn:E'; [|lia]. apply Qltb_true in E'.
      destruct (Qltb t Tf) eqn:E.
      - apply le_n_S, Z2Nat_mono, floor_mono. unfold Qdiv.
        apply Qmult_le_compat_r; [lra|]. apply Qlt_le_weak, Qinv_lt_0_compat. assumption.
      - apply Qltb_false in E. lra.
    Qed.
    Lemma phi_lt t t' : t < Tf -> (t + mm <= t' \/ Tf <= t') ->
      ((if Qltb t' Tf then S (Z.to_nat (Qfloor ((Tf - t') / mm))) else 0) <
       (if Qltb t Tf then S (Z.to_nat (Qfloor ((Tf - t) / mm))) else 0))%nat.
    Proof.
      intros Ht H. replace (Qltb t Tf) with true by (symmetry; apply Qltb_true; assumption).
      destruct (Qltb t' Tf) eqn:E'; [|lia]. apply Qltb_true in E'.
      destruct H as [H|H]; [|lra].
      assert (E : (Qfloor ((Tf - t') / mm) + 1 <= Qfloor ((Tf - t) / mm))%Z).
      { rewrite <- (Qfloor_Z 1) at 1.
        assert (Hq : inject_Z (Qfloor ((Tf - t') / mm) + 1) <= (Tf - t) / mm).
        { rewrite inject_Z_plus.
          apply Qle_trans with ((Tf - t') / mm + 1).
          - pose proof (Qfloor_le ((Tf - t') / mm)). change (inject_Z 1) with 1. lra.
          - assert (Hx : (Tf - t') / mm + 1 == (Tf - t' + mm) / mm) by (field; lra).
            rewrite Hx. unfold Qdiv. apply Qmult_le_compat_r; [lra|].
            apply Qlt_le_weak, Qinv_lt_0_compat. assumption. }
        apply floor_mono in Hq. rewrite Qfloor_Z in Hq. rewrite Qfloor_Z. exact Hq. }
      assert (E0 : (0 <= Qfloor ((Tf - t') / mm))%Z).
      { change 0%Z with (Qfloor (inject_Z 0)). apply floor_mono.
        apply Qlt_le_weak. apply Qdiv_pos; lra. }
      lia.
    Qed.
    Lemma measure_lt s s' i : (i < nobj)%nat ->
      (forall k, tm s k <= tm s' k) -> tm s i < Tf ->
      (tm s i + mm <= tm s' i \/ Tf <= tm s' i) ->
      (measure s' < measure s)%nat.
    Proof.
      intros Hi Hle Hlt Hstep. unfold measure.
      apply (sum_lt _ _ i); [|lia|].
      - intros k. apply phi_le. apply Hle.
      - apply phi_lt; assumption.
    Qed.

    Lemma step_measure now s s' : Inv now s -> InvX s ->
      step c s = Continue s' -> (measure s' < measure s)%nat.
    Proof.
      intros H HX Hs. apply step_inv in Hs; [|apply H].
      assert (W := I_wf _ _ H). assert (Wt := w_t _ W).
      destruct Hs as [i tn Hi Ht Hmin Hfst Hf|j tn Hj Ht Hmin Hfst Hf|tn Hdg Ht Hmin Hfst Hf].
      - assert (Hi' : (i < nobj)%nat) by (pose proof nb_le_nobj; lia).
        rewrite !Hex in Hf. rewrite Ht in Hf. pose proof (I_pos _ _ H i Hi') as Hp.
        apply (measure_lt _ _ i Hi').
        + intros k. rewrite push_tm by assumption.
          destruct (Nat.eqb_spec k i) as [->|_]; lra.
        + lra.
        + rewrite push_tm by assumption. rewrite Nat.eqb_refl.
          destruct (X_m _ HX i Hi'); [left; lra|right; lra].
      - assert (Hj' : (nb + j < nobj)%nat).
        { unfold nobj. rewrite objects_length. unfold nb, nf in *. lia. }
        rewrite !Hex in Hf. rewrite Ht in Hf. pose proof (I_pos _ _ H _ Hj') as Hp.
        apply (measure_lt _ _ (nb + j)%nat Hj').
        + intros k. rewrite adv_tm by (cbn [tobj Model_Tracker.update_field]; lia).
          change (tm (update_field tn j s) k) with (tm s k).
          change (tm (update_field tn j s) (nb + j)) with (tm s (nb + j)).
          destruct (Nat.eqb_spec k (nb + j)) as [->|_]; lra.
        + lra.
        + rewrite adv_tm by (cbn [tobj Model_Tracker.update_field]; lia).
          rewrite Nat.eqb_refl.
          change (tm (update_field tn j s) (nb + j)) with (tm s (nb + j)).
          destruct (X_m _ HX _ Hj'); [left; lra|right; lra].
      - pose proof (diag_index Hdg) as Hj'.
        assert (Hn : rnd now <= rnd tn) by (subst tn; apply (I_nx _ _ H); assumption).
        assert (H' : Inv tn s) by (eapply Inv_later; eassumption).
        destruct (sync_spec nb tn s H' (Nat.le_refl _)) as (J1 & J2 & J3 & J4).
        set (s1 := if c_push_before c then sync_upto nb tn s else s).
        rewrite !Hex in Hf. rewrite Ht in Hf. pose proof (I_pos _ _ H _ Hj') as Hp.
        assert (K1 : forall k, tm s k <= tm s1 k).
        { intros k. unfold s1. destruct (c_push_before c); [|lra].
          destruct (lt_dec k nb) as [Hk|Hk].
          - rewrite (J2 k Hk). apply (Inv_tm _ _ _ H'). pose proof nb_le_nobj. lia.
          - rewrite J3 by lia. lra. }
        assert (K2 : tm s1 (nb + nf) = tm s (nb + nf)).
        { unfold s1. destruct (c_push_before c); [apply J3; lia|reflexivity]. }
        assert (K3 : length (tobj s1) = nobj).
        { unfold s1. destruct (c_push_before c); [apply (I_wf _ _ J1)|assumption]. }
        apply (measure_lt _ _ (nb + nf)%nat Hj').
        + intros k. rewrite adv_tm by (cbn [tobj Model_Tracker.generate_diagnostics]; lia).
          change (tm (generate_diagnostics tn s1) k) with (tm s1 k).
          change (tm (generate_diagnostics tn s1) (nb + nf)) with (tm s1 (nb + nf)).
          destruct (Nat.eqb_spec k (nb + nf)) as [->|_]; [rewrite K2; lra|apply K1].
        + lra.
        + rewrite adv_tm by (cbn [tobj Model_Tracker.generate_diagnostics]; lia).
          rewrite Nat.eqb_refl.
          change (tm (generate_diagnostics tn s1) (nb + nf)) with (tm s1 (nb + nf)).
          rewrite K2. destruct (X_m _ HX _ Hj'); [left; lra|right; lra].
    Qed.

    Lemma loop_terminates fuel : (0 < nobj)%nat -> forall now s, Inv now s -> begun s ->
      InvX s -> (measure s < fuel)%nat -> exists s', loop fuel c s = Done s'.
    Proof.
      intros Hne. induction fuel as [|fuel IH]; intros now s H Hb HX Hm; [lia|].
      cbn [Model_Tracker.loop]. destruct (step c s) as [s1|s1|e s1] eqn:E.
      - destruct (step_Inv now s s1 H Hb E) as (Hb' & now' & _ & H').
        apply (IH now'); auto.
        + exact (step_InvX now s s1 H HX E).
        + pose proof (step_measure _ _ _ H HX E). lia.
      - eauto.
      - apply step_raise in E; [lia|apply H].
    Qed.
  End Exact.
End LoopProofs.

(** * Corollaries for exact comparisons *)
Lemma exact_mono : monotone exact.
Proof. intros x y H. exact H. Qed.

Lemma common_lower_bound (l : list Q) m : 0 < m -> (forall x, In x l -> 0 < x) ->
  exists mm, 0 < mm /\ mm <= m /\ forall x, In x l -> mm <= x.
Proof.
  intros Hm. induction l as [|a l IH]; intros H.
  - exists m. repeat split; [assumption|lra|intros x []].
  - destruct IH as (mm & H1 & H2 & H3); [intros x Hx; apply H; right; assumption|].
    assert (Ha : 0 < a) by (apply H; left; reflexivity).
    destruct (Qlt_le_dec a mm) as [Hlt|Hle].
    + exists a. repeat split; [assumption|lra|].
      intros x [<-|Hx]; [lra|]. specialize (H3 x Hx). lra.
    + exists mm. repeat split; auto. intros x [<-|Hx]; auto.
Qed.

Section ExactResults.
  Variables B F : Type.
  Variable evolve : F -> B -> Q -> Q -> B.
  Variable update : nat -> F -> list B -> F.
  Variable auto_dt : B -> Q.
  Variable copy : B -> B.
  Variable c : config.
  Variable bs0 : list B.
  Variable fs0 : F.
  Hypothesis Hgood : good_config c bs0.
  Variable m : Q.
  Hypothesis Hauto : bounded_below auto_dt m.

  Lemma loop_more rnd fuel : forall s s' k,
    loop B F evolve update auto_dt copy rnd fuel c s = Done s' ->
    loop B F evolve update auto_dt copy rnd (fuel + k) c s = Done s'.
  Proof.
    induction fuel as [|fuel IH]; intros s s' k H; cbn [loop Nat.add] in *; [discriminate|].
    destruct (step B F evolve update auto_dt copy rnd c s); auto.
  Qed.
  Lemma tracking_more rnd fuel s k :
    do_tracking B F evolve update auto_dt copy rnd fuel c bs0 fs0 = Done s ->
    do_tracking B F evolve update auto_dt copy rnd (fuel + k) c bs0 fs0 = Done s.
  Proof.
    unfold do_tracking. destruct (c_ndiags c).
    - destruct bs0; [|discriminate].
      destruct (loop B F evolve update auto_dt copy rnd fuel c _); discriminate.
    - apply loop_more.
  Qed.

  Lemma tracking_terminates_lemma : (0 < c_ndiags c)%nat ->
    exists N s, forall fuel, (N <= fuel)%nat ->
      do_tracking B F evolve update auto_dt copy exact fuel c bs0 fs0 = Done s.
  Proof.
    intros Hdg.
    destruct (common_lower_bound (initial_dt B auto_dt c bs0) m) as (mm & H1 & H2 & H3).
    { apply Hauto. }
    { intros x Hx. apply (In_nth _ _ 0) in Hx as (k & Hk & <-).
      rewrite initial_dt_length in Hk by apply Hgood.
      eapply init_pos; eassumption. }
    assert (H3' : forall k, (k < nobj c)%nat -> mm <= nth k (initial_dt B auto_dt c bs0) 0).
    { intros k Hk. apply H3. apply nth_In. rewrite initial_dt_length; [assumption|apply Hgood]. }
    pose proof (initial_Inv B F update auto_dt copy exact exact_mono c bs0 fs0 Hgood m Hauto) as HI.
    pose proof (initial_begun B F update auto_dt copy c bs0 fs0) as Hb.
    set (s0 := initial B F update auto_dt copy c bs0 fs0) in *.
    pose (M := fun (_ : nat) (_ : Q) => True).
    pose proof (initial_InvX B F update auto_dt copy c bs0 fs0 Hgood m Hauto M
      (fun _ _ => I) mm H3') as HX.
    destruct (loop_terminates B F evolve update auto_dt copy exact exact_mono c bs0 Hgood m Hauto
       (fun x => eq_refl) M (fun _ _ _ _ _ => I) (fun _ _ _ _ => I) mm H1 H2
       (S (measure B F c mm s0))) with (now := 0) (s := s0) as (s & Hs); auto; try lia.
    { pose proof (diag_index c Hdg). lia. }
    generalize dependent (S (measure B F c mm s0)). intros N Hs.
    exists N, s. intros fuel Hf. unfold do_tracking.
    unfold s0, initial in Hs. destruct (c_ndiags c) as [|n]; [lia|].
    replace fuel with (N + (fuel - N))%nat by lia.
    apply loop_more. exact Hs.
  Qed.

  Lemma tracking_terminates_rnd rnd T' : monotone rnd -> rnd (c_tfinal c) < rnd T' ->
    (0 < c_ndiags c)%nat ->
    exists N s, forall fuel, (N <= fuel)%nat ->
      do_tracking B F evolve update auto_dt copy rnd fuel c bs0 fs0 = Done s.
  Proof.
    intros Hr HT Hdg.
    pose proof (initial_Inv B F update auto_dt copy rnd Hr c bs0 fs0 Hgood m Hauto) as HI.
    pose proof (initial_begun B F update auto_dt copy c bs0 fs0) as Hb.
    destruct (loop_terminates_rnd B F evolve update auto_dt copy rnd Hr c bs0 m Hauto
      T' HT ltac:(pose proof (diag_index c Hdg); lia)
      _ _ _ 0 _ (Nat.lt_succ_diag_r _) (Nat.lt_succ_diag_r _) (Nat.lt_succ_diag_r _) HI Hb)
      as (N & s & Hs).
    exists N, s. intros fuel Hf. unfold do_tracking.
    unfold initial in Hs. destruct (c_ndiags c) as [|n]; [lia|].
    replace fuel with (N + (fuel - N))%nat by lia.
    apply loop_more. exact Hs.
  Qed.

  Lemma split_diag (l : list (event B)) : forall k t, nth_error (diag_times l) k = Some t ->
    exists l1 sn l2, l = l1 ++ EDiag t sn :: l2 /\ length (diag_times l1) = k /\
      nth_error (snapshots l) k = Some sn.
  Proof.
    induction l as [|e l IH]; intros k t H; [destruct k; discriminate|].
    destruct e as [i u d y|j u|u sn]; cbn [diag_times snapshots] in *.
    1,2: destruct (IH k t H) as (l1 & sn & l2 & -> & H1 & H2);
      eexists (_ :: l1), sn, l2; repeat split; try reflexivity; assumption.
    destruct k as [|k]; cbn [nth_error] in *.
    - injection H as ->. exists [], sn, l. auto.
    - destruct (IH k t H) as (l1 & sn' & l2 & -> & H1 & H2).
      exists (EDiag u sn :: l1), sn', l2. repeat split; auto. simpl. congruence.
  Qed.
  Lemma snap_times (l : list (event B)) : length (snapshots l) = length (diag_times l).
  Proof. induction l as [|[] l IH]; simpl; auto. Qed.

  Definition extends (a b : list (event B)) : Prop := exists ext, b = (a ++ ext)%list.
  Lemma extends_refl a : extends a a.
  Proof. exists []. rewrite app_nil_r. reflexivity. Qed.
  Lemma extends_trans a b d : extends a b -> extends b d -> extends a d.
  Proof. intros [x ->] [y ->]. exists (x ++ y)%list. rewrite app_assoc. reflexivity. Qed.
  Lemma evolve_extends rnd sync i t tn d s :
    extends (log s) (log (evolve_bunch B F evolve auto_dt rnd c sync i t tn d s)).
  Proof.
    unfold evolve_bunch. destruct (nth_error (bs s) i); [|apply extends_refl].
    eexists. reflexivity.
  Qed.
  Lemma sync_extends rnd tn l : forall s,
    extends (log s) (log (fold_left (push_to B F evolve auto_dt rnd c tn) l s)).
  Proof.
    induction l as [|i l IH]; intros s; [apply extends_refl|]. simpl.
    eapply extends_trans; [|apply IH]. unfold push_to. cbn [log advance].
    apply evolve_extends.
  Qed.
  Lemma step_extends rnd s s' : step B F evolve update auto_dt copy rnd c s = Continue s' ->
    extends (log s) (log s').
  Proof.
    unfold step. destruct (argmin _) as [i|]; [|discriminate]. cbv zeta.
    destruct (Qltb _ _); [discriminate|]. intros H. injection H as <-. cbn [log advance].
    destruct (nth_error (objects c) i) as [[k|j|]|]; [apply evolve_extends| | |apply extends_refl].
    - eexists. reflexivity.
    - cbn [log generate_diagnostics]. destruct (c_push_before c).
      + eapply extends_trans; [apply sync_extends|]. eexists. reflexivity.
      + eexists. reflexivity.
  Qed.
  Lemma loop_extends rnd fuel : forall s s',
    loop B F evolve update auto_dt copy rnd fuel c s = Done s' -> extends (log s) (log s').
  Proof.
    induction fuel as [|fuel IH]; intros s s' H; cbn [loop] in H; [discriminate|].
    destruct (step B F evolve update auto_dt copy rnd c s) as [s1|s1|e s1] eqn:E.
    - eapply extends_trans; [eapply step_extends; eassumption|]. apply IH; assumption.
    - injection H as <-. unfold step in E. destruct (argmin _); [|discriminate]. cbv zeta in E.
      destruct (Qltb _ _); [|discriminate]. injection E as <-. apply extends_refl.
    - discriminate.
  Qed.
  Lemma first_output_lemma rnd fuel s :
    do_tracking B F evolve update auto_dt copy rnd fuel c bs0 fs0 = Done s ->
    extends (map (fun j => EField j 0) (seq 0 (n_fields c)) ++ [EDiag 0 (map copy bs0)])
            (log s).
  Proof.
    intros H. apply tracking_cases in H as [Hdg H].
    apply loop_extends in H. rewrite (init_log B F update auto_dt copy c bs0 fs0) in H.
    apply Nat.ltb_lt in Hdg.
    rewrite Hdg in H. exact H.
  Qed.
  Lemma no_diag_unique (a b : list (event B)) t t' sn sn' x y :
    diag_times a = [] -> diag_times b = [] ->
    a ++ EDiag t sn :: x = b ++ EDiag t' sn' :: y -> a = b.
  Proof.
    revert b. induction a as [|e a IH]; intros [|e' b] Ha Hb H; simpl in H.
    - reflexivity.
    - injection H as <- _. discriminate.
    - injection H as -> _. discriminate.
    - injection H as -> H. f_equal.
      destruct e'; try discriminate; apply IH; assumption.
  Qed.

  Lemma outputs_lemma rnd fuel s i o : monotone rnd ->
    do_tracking B F evolve update auto_dt copy rnd fuel c bs0 fs0 = Done s ->
    nth_error (out s) i = Some o ->
    length o = length (diag_times (log s)) /\
    forall k b, nth_error o k = Some b ->
      exists l1 t sn l2 b0,
        log s = l1 ++ EDiag t sn :: l2 /\
        length (diag_times l1) = k /\
        nth_error (diag_times (log s)) k = Some t /\
        nth_error (snd (replay B F evolve update l1 (fs0, bs0))) i = Some b0 /\
        b = copy b0 /\
        (c_push_before c = true \/ k = O -> chain 0 (pushes i l1) t).
  Proof.
    intros Hr H Ho.
    pose proof (done_Rep B F evolve update auto_dt copy rnd c bs0 fs0 Hgood fuel s H) as [W R1 R2 R3].
    destruct (done_Inv B F evolve update auto_dt copy rnd Hr c bs0 fs0 Hgood m Hauto fuel s H)
      as (Hdg & (now & HI) & Hend).
    pose proof (R3 i o Ho) as Hm.
    assert (Hlen : length o = length (diag_times (log s))).
    { rewrite <- snap_times. apply (f_equal (@length _)) in Hm.
      rewrite !map_length in Hm. exact Hm. }
    split; [exact Hlen|]. intros k b Hk.
    assert (Hk' : (k < length o)%nat) by (apply nth_error_Some; congruence).
    destruct (nth_error (diag_times (log s)) k) as [t|] eqn:Et;
      [|apply nth_error_None in Et; lia].
    destruct (split_diag _ _ _ Et) as (l1 & sn & l2 & El & E1 & E2).
    assert (Hb : nth_error sn i = Some b).
    { apply (f_equal (fun l => nth_error l k)) in Hm.
      rewrite !nth_error_map, Hk, E2 in Hm. simpl in Hm. congruence. }
    rewrite El in R2. apply outputs_ok_app in R2 as [_ R2]. simpl in R2. destruct R2 as [R2 _].
    rewrite R2, nth_error_map in Hb.
    destruct (nth_error (snd (replay B F evolve update l1 (fs0, bs0))) i) as [b0|] eqn:Eb;
      [|discriminate].
    simpl in Hb. injection Hb as Hb. exists l1, t, sn, l2, b0.
    repeat split; auto. intros Hc.
    assert (Hi : (i < nb c)%nat).
    { rewrite <- (w_o _ _ _ _ W). apply nth_error_Some. congruence. }
    apply (I_snc _ _ _ _ _ _ _ _ HI l1 t sn l2 El); [|exact Hi].
    destruct Hc as [Hc|Hc]; [left; assumption|right].
    (* the first output follows the initial updates only *)
    subst k. destruct (first_output_lemma _ _ _ H) as [ext Hx].
    rewrite <- app_assoc in Hx. rewrite El in Hx. cbn [app] in Hx.
    apply (no_diag_unique l1 _ t 0 sn (map copy bs0) l2 ext); [| |exact Hx].
    - destruct (diag_times l1); [reflexivity|discriminate].
    - apply diag_fields.
  Qed.

  (** Everything that the invariants give at the end. *)
  Lemma arrival_lemma rnd fuel s i : monotone rnd ->
    do_tracking B F evolve update auto_dt copy rnd fuel c bs0 fs0 = Done s ->
    (i < length bs0)%nat ->
    (c_push_before c = true \/
     exists b d, nth_error bs0 i = Some b /\ nth_error (c_dtb c) i = Some d /\
       match d with Some q => q | None => auto_dt b end <= c_tfinal c) ->
    exists t, chain 0 (pushes i (log s)) t /\ rnd t == rnd (c_tfinal c).
  Proof.
    intros Hr H Hi Hfit.
    destruct (done_Inv B F evolve update auto_dt copy rnd Hr c bs0 fs0 Hgood m Hauto fuel s H)
      as (Hdg & (now & HI) & Hend).
    pose proof Hgood as (G1 & G2 & G3 & G4).
    assert (Hi' : (i < nb c)%nat) by (unfold nb, n_bunches; lia).
    exists (tm B F s i). split; [apply (I_chain _ _ _ _ _ _ _ _ HI); assumption|].
    eapply arrival_rnd; try eassumption.
    destruct Hfit as [Hpb|(b & d & Eb & Ed & Hle)].
    - eapply pushed_if_sync; eassumption.
    - eapply pushed_if_fits; try eassumption.
      rewrite initial_dt_bunch by assumption.
      rewrite (initial_dtb_nth _ _ _ _ _ _ Ed Eb). exact Hle.
  Qed.

  Lemma mm_exists : exists mm, 0 < mm /\ mm <= m /\
    forall k, (k < nobj c)%nat -> mm <= nth k (initial_dt B auto_dt c bs0) 0.
  Proof.
    destruct (common_lower_bound (initial_dt B auto_dt c bs0) m) as (mm & H1 & H2 & H3).
    { apply Hauto. }
    { intros x Hx. apply (In_nth _ _ 0) in Hx as (k & Hk & <-).
      rewrite initial_dt_length in Hk by apply Hgood.
      eapply init_pos; eassumption. }
    exists mm. repeat split; auto.
    intros k Hk. apply H3. apply nth_In. rewrite initial_dt_length; [assumption|apply Hgood].
  Qed.

  Lemma chain_prefix x l1 l2 y : chain x (l1 ++ l2) y -> exists u, chain x l1 u.
  Proof.
    revert x. induction l1 as [|[t d] l1 IH]; intros x H.
    - exists x. constructor. reflexivity.
    - simpl in H. inversion H as [|? ? ? ? ? E5 E6]; subst. destruct (IH _ E6) as [u Hu].
      exists u. constructor; assumption.
  Qed.
  Lemma chain_end_le x l u t : chain x l u -> x <= t ->
    (forall a d, In (a, d) l -> a + d <= t) -> u <= t.
  Proof.
    induction 1 as [a b E|a b t0 d l E H IH]; intros Hx Hl; [lra|].
    apply IH; [|intros; apply Hl; right; assumption].
    specialize (Hl t0 d (or_introl eq_refl)). lra.
  Qed.
  Lemma in_pushes i (l : list (event B)) a d : In (a, d) (pushes i l) ->
    exists y, In (EPush i a d y) l.
  Proof.
    induction l as [|e l IH]; intros H; [destruct H|].
    destruct e as [k t x y| |]; simpl in H.
    - destruct (Nat.eqb_spec k i) as [->|_].
      + destruct H as [H|H]; [injection H as -> ->; exists y; left; reflexivity|].
        destruct (IH H) as [z Hz]. exists z. right; assumption.
      + destruct (IH H) as [z Hz]. exists z. right; assumption.
    - destruct (IH H) as [z Hz]. exists z. right; assumption.
    - destruct (IH H) as [z Hz]. exists z. right; assumption.
  Qed.

  Lemma causality_lemma fuel s :
    do_tracking B F evolve update auto_dt copy exact fuel c bs0 fs0 = Done s ->
    (forall e, In e (log s) -> 0 <= etime e <= c_tfinal c) /\
    (forall l1 e l2 e', log s = l1 ++ e :: l2 -> In e' l2 -> etime e <= etime e') /\
    (forall l1 j t l2 i t' d', log s = l1 ++ EField j t :: l2 ->
        In (EPush i t' d' false) l2 -> t < t' + d') /\
    (forall l1 t sn l2 e, log s = l1 ++ EDiag t sn :: l2 -> In e l2 -> t < etime e).
  Proof.
    intros H. destruct mm_exists as (mm & H1 & H2 & H3).
    destruct (done_Inv B F evolve update auto_dt copy exact exact_mono c bs0 fs0 Hgood m Hauto fuel s H)
      as (Hdg & (now & HI) & Hend).
    pose proof (done_InvX B F evolve update auto_dt copy exact exact_mono c bs0 fs0 Hgood m Hauto
      (fun x => eq_refl) (fun _ _ => True) (fun _ _ _ _ _ => I) (fun _ _ => I) (fun _ _ _ _ => I)
      mm H3 H2 fuel s H) as HX.
    assert (Hord : forall l1 e l2 e', log s = l1 ++ e :: l2 -> In e' l2 -> etime e <= etime e').
    { intros l1 e l2 e' El Hin.
      pose proof (I_srt _ _ _ _ _ _ _ _ HI) as Hs. rewrite El in Hs. clear - Hs Hin.
      induction l1 as [|x l1 IH]; simpl in Hs.
      + inversion Hs as [|? ? _ Hf]. subst. rewrite Forall_forall in Hf. apply (Hf e' Hin).
      + inversion Hs. auto. }
    split; [|split; [exact Hord|split]].
    - intros e Hin. split.
      + destruct (first_output_lemma _ _ _ H) as [ext Hx].
        destruct (log s) as [|e0 r] eqn:El; [destruct Hin|].
        assert (E0 : 0 <= etime e0).
        { destruct (n_fields c); simpl in Hx; injection Hx as -> _; simpl; lra. }
        destruct Hin as [<-|Hin]; [assumption|].
        pose proof (Hord [] e0 r e eq_refl Hin). lra.
      + pose proof (I_lg _ _ _ _ _ _ _ _ HI e Hin) as L1.
        pose proof (I_now _ _ _ _ _ _ _ _ HI) as L2. unfold exact, Tf in *. lra.
    - apply (X_fs _ _ _ _ _ _ HX).
    - apply (X_gs _ _ _ _ _ _ HX).
  Qed.

  Lemma own_steps_lemma fuel s l1 i t d l2 :
    do_tracking B F evolve update auto_dt copy exact fuel c bs0 fs0 = Done s ->
    log s = l1 ++ EPush i t d false :: l2 ->
    exists b, nth_error (snd (replay B F evolve update l1 (fs0, bs0))) i = Some b /\
      let r := match nth_error (c_dtb c) i with Some (Some q) => q | _ => auto_dt b end in
      d == r \/ (d <= r /\ t + d == c_tfinal c).
  Proof.
    intros H El.
    pose proof (done_Req B F evolve update auto_dt copy exact exact_mono c bs0 fs0 Hgood m Hauto
      (fun x => eq_refl) fuel s H) as HX.
    exact (Q_l _ _ _ _ _ _ _ _ _ _ HX l1 i t d l2 El).
  Qed.

  Lemma field_sees_lemma fuel s l1 j t l2 i :
    do_tracking B F evolve update auto_dt copy exact fuel c bs0 fs0 = Done s ->
    log s = l1 ++ EField j t :: l2 -> (i < length bs0)%nat ->
    exists u, chain 0 (pushes i l1) u /\ u <= t.
  Proof.
    intros H El Hi. destruct (causality_lemma fuel s H) as (C0 & C1 & C2 & C3).
    destruct (done_Inv B F evolve update auto_dt copy exact exact_mono c bs0 fs0 Hgood m Hauto fuel s H)
      as (Hdg & (now & HI) & Hend).
    pose proof Hgood as (G1 & G2 & G3 & G4).
    assert (Hi' : (i < nb c)%nat) by (unfold nb, n_bunches; lia).
    pose proof (I_chain _ _ _ _ _ _ _ _ HI i Hi') as Hc. rewrite El, pushes_app in Hc.
    destruct (chain_prefix _ _ _ _ Hc) as [u Hu]. exists u. split; [assumption|].
    eapply chain_end_le; [exact Hu| |].
    - specialize (C0 (EField j t)). apply C0. rewrite El. apply in_or_app; right; left; reflexivity.
    - intros a d Hin. apply in_pushes in Hin as [y Hin].
      apply in_split in Hin as (x1 & x2 & ->).
      apply (C1 x1 (EPush i a d y) (x2 ++ EField j t :: l2) (EField j t)).
      + rewrite El, <- app_assoc. reflexivity.
      + apply in_or_app; right; left; reflexivity.
  Qed.

  Lemma push_lengths_lemma fuel s i :
    do_tracking B F evolve update auto_dt copy exact fuel c bs0 fs0 = Done s ->
    (i < length bs0)%nat ->
    Forall (fun p => 0 <= snd p) (pushes i (log s)) /\
    (forall d, nth_error (c_dtb c) i = Some (Some d) ->
       Forall (fun p => snd p <= d) (pushes i (log s))) /\
    (forall d, nth_error (c_dtb c) i = Some None -> (forall b, auto_dt b <= d) ->
       Forall (fun p => snd p <= d) (pushes i (log s))).
  Proof.
    intros H Hi. destruct mm_exists as (mm & H1 & H2 & H3).
    pose proof Hgood as (G1 & G2 & G3 & G4).
    assert (Hi' : (i < nb c)%nat) by (unfold nb, n_bunches; lia).
    assert (Gen : forall P : Q -> Prop, (forall d d', P d -> d' <= d -> P d') ->
      (match nth_error (c_dtb c) i with
       | Some (Some d) => P d
       | Some None => forall b, P (auto_dt b)
       | None => True end) ->
      Forall (fun p => 0 <= snd p /\ P (snd p)) (pushes i (log s))).
    { intros P Hdown HP.
      pose (M := fun k d => k = i -> P d).
      assert (HM1 : forall k d d', M k d -> d' <= d -> M k d').
      { intros k d d' Hm Hd Hk. eapply Hdown; [apply Hm; assumption|assumption]. }
      assert (HM2 : forall k, (k < nb c)%nat -> M k (nth k (initial_dt B auto_dt c bs0) 0)).
      { intros k Hk ->. rewrite initial_dt_bunch by assumption.
        destruct (nth_error (c_dtb c) i) as [d|] eqn:Ed;
          [|apply nth_error_None in Ed; lia].
        destruct (nth_error bs0 i) as [b|] eqn:Eb;
          [|apply nth_error_None in Eb; lia].
        rewrite (initial_dtb_nth _ _ _ _ _ _ Ed Eb). destruct d; [assumption|apply HP]. }
      assert (HM3 : forall k b, (k < nb c)%nat -> is_auto c k = true -> M k (auto_dt b)).
      { intros k b Hk Ha ->. unfold is_auto in Ha.
        destruct (nth_error (c_dtb c) i) as [[d|]|]; try discriminate. apply HP. }
      pose proof (done_InvX B F evolve update auto_dt copy exact exact_mono c bs0 fs0 Hgood m Hauto
        (fun x => eq_refl) M HM1 HM2 HM3 mm H3 H2 fuel s H) as HX.
      pose proof (X_p _ _ _ _ _ _ HX i Hi') as Hp.
      eapply Forall_impl; [|exact Hp]. intros p [Hp1 Hp2]. split; [assumption|].
      apply Hp2. reflexivity. }
    repeat split.
    - eapply Forall_impl; [|apply (Gen (fun _ => True))]; auto.
      + intros p [Hp _]. exact Hp.
      + destruct (nth_error (c_dtb c) i) as [[]|]; auto.
    - intros d Ed. eapply Forall_impl; [|apply (Gen (fun x => x <= d))].
      + intros p [_ Hp]. exact Hp.
      + intros; lra.
      + rewrite Ed. lra.
    - intros d Ed Hb. eapply Forall_impl; [|apply (Gen (fun x => x <= d))].
      + intros p [_ Hp]. exact Hp.
      + intros; lra.
      + rewrite Ed. exact Hb.
  Qed.

  Lemma diag_count_lemma rnd fuel s : monotone rnd ->
    do_tracking B F evolve update auto_dt copy rnd fuel c bs0 fs0 = Done s ->
    exists n, (c_ndiags c <= n)%nat /\
      multiples (c_tfinal c / inject_Z (Z.of_nat (c_ndiags c))) (S n) (diag_times (log s)) /\
      (rnd (c_tfinal c) <
       rnd (c_tfinal c + c_tfinal c / inject_Z (Z.of_nat (c_ndiags c))) ->
       n = c_ndiags c).
  Proof.
    intros Hr H.
    destruct (done_Inv B F evolve update auto_dt copy rnd Hr c bs0 fs0 Hgood m Hauto fuel s H)
      as (Hdg & _).
    destruct (diag_count B F evolve update auto_dt copy rnd Hr c bs0 fs0 Hgood m Hauto fuel s H)
      as (n & H1 & H2 & H3 & H4).
    exists n. repeat split; [assumption|apply H2|apply H2|].
    intros Hlt. destruct (Nat.eq_dec n (c_ndiags c)) as [|Hne]; [assumption|exfalso].
    assert (Hn : (S (c_ndiags c) <= n)%nat) by lia.
    pose proof (dtdiag_pos B c bs0 Hgood Hdg) as Hpos.
    pose proof (dtdiag_total c Hdg) as Htot. unfold Tf, dt_diags in *.
    set (D := c_tfinal c / inject_Z (Z.of_nat (c_ndiags c))) in *.
    assert (E : c_tfinal c + D <= inject_Z (Z.of_nat n) * D).
    { rewrite <- Htot. apply Nat2Z.inj_le in Hn. rewrite Zle_Qle in Hn.
      rewrite inject_S in Hn.
      assert (E1 : inject_Z (Z.of_nat (c_ndiags c)) * D + D ==
                   (inject_Z (Z.of_nat (c_ndiags c)) + 1) * D) by ring.
      rewrite E1. apply Qmult_le_compat_r; lra. }
    apply Hr in E. lra.
  Qed.

  Lemma field_count_lemma rnd fuel s j d f : monotone rnd ->
    do_tracking B F evolve update auto_dt copy rnd fuel c bs0 fs0 = Done s ->
    nth_error (c_fields c) j = Some (d, f) ->
    exists n, multiples (adjust_dt f (c_tfinal c) d) (S n) (field_times j (log s)) /\
      rnd (inject_Z (Z.of_nat n) * adjust_dt f (c_tfinal c) d) <= rnd (c_tfinal c) /\
      rnd (c_tfinal c) < rnd (inject_Z (Z.of_nat (S n)) * adjust_dt f (c_tfinal c) d).
  Proof.
    intros Hr H Hj.
    assert (Hjn : (j < nf c)%nat).
    { unfold nf, n_fields. apply nth_error_Some. congruence. }
    destruct (field_count B F evolve update auto_dt copy rnd Hr c bs0 fs0 Hgood m Hauto fuel s j H Hjn)
      as (n & Hn).
    assert (E : dtf c j = adjust_dt f (c_tfinal c) d).
    { unfold dtf, dt_fields.
      rewrite (nth_indep _ 0 (adjust_dt (snd (0, true)) (c_tfinal c) (fst (0, true))))
        by (rewrite map_length; exact Hjn).
      rewrite (map_nth (fun f => adjust_dt (snd f) (c_tfinal c) (fst f))).
      rewrite (nth_error_nth _ _ _ Hj). reflexivity. }
    rewrite E in Hn. exists n. exact Hn.
  Qed.
  Lemma rounded_order_lemma rnd fuel s : monotone rnd ->
    do_tracking B F evolve update auto_dt copy rnd fuel c bs0 fs0 = Done s ->
    (forall l1 e l2 e', log s = l1 ++ e :: l2 -> In e' l2 ->
       rnd (etime e) <= rnd (etime e')) /\
    (forall e, In e (log s) -> rnd (etime e) <= rnd (c_tfinal c)).
  Proof.
    intros Hr H.
    destruct (done_Inv B F evolve update auto_dt copy rnd Hr c bs0 fs0 Hgood m Hauto fuel s H)
      as (Hdg & (now & HI) & Hend).
    split.
    - intros l1 e l2 e' El Hin.
      pose proof (I_srt _ _ _ _ _ _ _ _ HI) as Hs. rewrite El in Hs. clear - Hs Hin.
      induction l1 as [|x l1 IH]; simpl in Hs.
      + inversion Hs as [|? ? _ Hf]. subst. rewrite Forall_forall in Hf. apply (Hf e' Hin).
      + inversion Hs. auto.
    - intros e Hin. pose proof (I_lg _ _ _ _ _ _ _ _ HI e Hin) as L1.
      pose proof (I_now _ _ _ _ _ _ _ _ HI) as L2. unfold Tf in *. lra.
  Qed.
End ExactResults.

(** * adjust_dt *)
Lemma adjust_lemma T d : 0 < T -> 0 < d ->
  exists k, (1 <= k)%nat /\
    inject_Z (Z.of_nat k) * adjust_dt true T d == T /\
    adjust_dt true T d <= d /\
    (forall j, (1 <= j)%nat -> T / inject_Z (Z.of_nat j) <= d -> (k <= j)%nat).
Proof.
  intros HT Hd. pose proof (ceil_pos T d HT Hd) as Hc.
  exists (Z.to_nat (Qceiling (T / d))). rewrite Z2Nat.id by lia.
  assert (Hq : 0 < inject_Z (Qceiling (T / d))).
  { change 0 with (inject_Z 0). rewrite <- Zlt_Qlt. lia. }
  split; [lia|]. cbn [adjust_dt]. split; [|split].
  - field. lra.
  - apply Qle_shift_div_r; [assumption|].
    pose proof (Qle_ceiling (T / d)) as Hle.
    assert (E : T == T / d * d) by (field; lra). rewrite E at 1.
    rewrite (Qmult_comm d). apply Qmult_le_compat_r; lra.
  - intros j Hj Hle.
    assert (Hjq : 0 < inject_Z (Z.of_nat j)).
    { change 0 with (inject_Z 0). rewrite <- Zlt_Qlt. lia. }
    assert (E : T / d <= inject_Z (Z.of_nat j)).
    { apply Qle_shift_div_r; [assumption|].
      assert (E : T == T / inject_Z (Z.of_nat j) * inject_Z (Z.of_nat j)) by (field; lra).
      rewrite E, Qmult_comm. rewrite !(Qmult_comm (inject_Z (Z.of_nat j))).
      apply Qmult_le_compat_r; lra. }
    apply Qceiling_resp_le in E. rewrite Qceiling_Z in E. lia.
Qed.
Lemma adjust_fixed T d k : 0 < T -> 0 < d -> (1 <= k)%nat ->
  inject_Z (Z.of_nat k) * d == T -> adjust_dt true T d == d.
Proof.
  intros HT Hd Hk E. cbn [adjust_dt].
  assert (Hkq : 0 < inject_Z (Z.of_nat k)).
  { change 0 with (inject_Z 0). rewrite <- Zlt_Qlt. lia. }
  assert (E1 : T / d == inject_Z (Z.of_nat k)) by (rewrite <- E; field; lra).
  assert (E2 : Qceiling (T / d) = Z.of_nat k).
  { rewrite E1. apply Qceiling_Z. }
  rewrite E2, <- E. field. lra.
Qed.

(** * Field updates at the end of the interval when they are forced to be even *)
Lemma even_updates_lemma T d n : 0 < T -> 0 < d ->
  inject_Z (Z.of_nat n) * adjust_dt true T d <= T ->
  T < inject_Z (Z.of_nat (S n)) * adjust_dt true T d ->
  inject_Z (Z.of_nat n) * adjust_dt true T d == T /\
  Z.of_nat n = Qceiling (T / d).
Proof.
  intros HT Hd H1 H2. pose proof (ceil_pos T d HT Hd) as Hc.
  pose proof (adjust_pos true T d HT Hd) as Hp.
  assert (Hq : 0 < inject_Z (Qceiling (T / d))).
  { change 0 with (inject_Z 0). rewrite <- Zlt_Qlt. lia. }
  assert (E : inject_Z (Qceiling (T / d)) * adjust_dt true T d == T).
  { cbn [adjust_dt]. field. lra. }
  assert (Hn : Z.of_nat n = Qceiling (T / d)).
  { set (D := adjust_dt true T d) in *. rewrite <- E in H1, H2.
    apply Qmult_le_r in H1; [|assumption]. apply Qmult_lt_r in H2; [|assumption].
    rewrite <- Zle_Qle in H1. rewrite <- Zlt_Qlt in H2. lia. }
  split; [|assumption]. rewrite Hn. exact E.
Qed.

(** * No outputs *)
Lemma zero_outputs_lemma : forall B F evolve update auto_dt copy (c : config) (b : B) bs0 (fs0 : F) fuel rnd,
  c_ndiags c = O ->
  exists s, do_tracking B F evolve update auto_dt copy rnd fuel c (b :: bs0) fs0
            = Raise AttributeError s /\
    bs s = b :: bs0 /\ (forall i, pushes i (log s) = []).
Proof.
  intros B F evolve update auto_dt copy c b bs0 fs0 fuel rnd Hn.
  unfold do_tracking. rewrite Hn. eexists. split; [reflexivity|].
  unfold start. generalize (seq 0 (n_fields c)). intros l.
  match goal with |- context [fold_left _ _ ?x] => set (s0 := x) end.
  assert (H0 : bs s0 = b :: bs0 /\ forall i, pushes i (log s0) = []) by (split; reflexivity).
  clearbody s0. revert s0 H0. induction l as [|j l IH]; intros s0 H0; [exact H0|].
  simpl. apply IH. destruct H0 as [H1 H2]. split; [exact H1|].
  intros i. cbn [log update_field]. rewrite pushes_app, H2. reflexivity.
Qed.
