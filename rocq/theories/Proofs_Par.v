(** Proofs for C94: interleavings of loops whose iterations own their entries. *)
From Coq Require Import Reals List Arith Lia Permutation Bool FunctionalExtensionality.
From Verif Require Import Model_Push Model_Interp Model_Par Spec_Par.
Import ListNotations.

(** ** Iterations that touch only their own entries *)
Lemma store_other : forall m a i v b j, j <> i -> store m a i v b j = m b j.
Proof.
  intros. unfold store. destruct (name_eq a b); auto.
  destruct (Nat.eqb_spec i j); congruence.
Qed.
Lemma store_same : forall m a i v b, store m a i v b i = if name_eq a b then v else m b i.
Proof. intros. unfold store. rewrite Nat.eqb_refl. reflexivity. Qed.
Lemma run_other : forall i p, own i p -> forall m b j, j <> i -> run p m b j = m b j.
Proof.
  intros i p H; induction H; intros m b j Hj; simpl; auto.
  rewrite IHown by auto. apply store_other; auto.
Qed.
Lemma run_column : forall i p, own i p -> forall m1 m2, (forall a, m1 a i = m2 a i) ->
  forall a, run p m1 a i = run p m2 a i.
Proof.
  intros i p H; induction H; intros m1 m2 E b; simpl; auto.
  - rewrite (E a). apply H0; auto.
  - apply IHown. intros c. rewrite !store_same. destruct (name_eq a c); auto.
Qed.
Fixpoint cost (p : prog) (m : mem) : nat :=
  match p with
  | Done => 0
  | Rd a i k => S (cost (k (m a i)) m)
  | Wr a i v k => S (cost k (store m a i v))
  end.
Lemma cost_column : forall i p, own i p -> forall m1 m2, (forall a, m1 a i = m2 a i) -> cost p m1 = cost p m2.
Proof.
  intros i p H; induction H; intros m1 m2 E; simpl; auto.
  - rewrite (E a). f_equal. apply H0; auto.
  - f_equal. apply IHown. intros c. rewrite !store_same. destruct (name_eq a c); auto.
Qed.

(** ** The sequential loop *)
Lemma fold_run : forall (body : loop_body) l m, (forall i, In i l -> own i (body i)) -> NoDup l ->
  forall a j, fold_left (fun m i => run (body i) m) l m a j =
    if in_dec Nat.eq_dec j l then run (body j) m a j else m a j.
Proof.
  intros body l; induction l as [|i l IH]; intros m Ho Hn a j.
  - reflexivity.
  - inversion Hn as [|? ? Hi Hl]; subst. cbn [fold_left].
    rewrite IH; [|intros; apply Ho; right; auto|auto].
    destruct (in_dec Nat.eq_dec j l) as [H|H].
    + assert (j <> i) by (intros ->; auto).
      destruct (in_dec Nat.eq_dec j (i :: l)) as [_|N]; [|exfalso; apply N; right; auto].
      apply (run_column j); [apply Ho; right; auto|].
      intros b. apply (run_other i); auto. apply Ho; left; auto.
    + destruct (in_dec Nat.eq_dec j (i :: l)) as [[->|Y]|N]; [reflexivity|contradiction|].
      apply (run_other i); [apply Ho; left; auto|]. intros ->; apply N; left; auto.
Qed.
Lemma one_thread_at : forall body n m, (forall i, (i < n)%nat -> own i (body i)) ->
  forall a j, one_thread body n m a j = if lt_dec j n then run (body j) m a j else m a j.
Proof.
  intros body n m Ho a j. unfold one_thread.
  rewrite fold_run; [|intros i Hi; apply in_seq in Hi; apply Ho; lia|apply seq_NoDup].
  destruct (in_dec Nat.eq_dec j (seq 0 n)) as [H|H]; destruct (lt_dec j n) as [L|L]; auto.
  - apply in_seq in H. lia.
  - exfalso; apply H, in_seq. lia.
Qed.

(** ** Threads, with the iteration each of them is in *)
Definition ghost := (option nat * prog * list nat)%type.
Definition untag (g : ghost) : thread := let '(o, p, r) := g in (p, r).
Definition current (o : option nat) : list nat := match o with Some i => [i] | None => [] end.
Definition pending (g : ghost) : list nat := let '(o, p, r) := g in current o ++ r.
Definition all_pending (gs : list ghost) : list nat := concat (map pending gs).
Section Body.
Variable body : loop_body.
Definition good (g : ghost) : Prop :=
  let '(o, p, r) := g in
  match o with Some i => own i p | None => p = Done end /\ (forall j, In j r -> own j (body j)).
Definition will (T m : mem) (g : ghost) : Prop :=
  let '(o, p, r) := g in
  (forall i, o = Some i -> forall a, run p m a i = T a i) /\
  (forall j, In j r -> forall a, run (body j) m a j = T a j).
Definition weight (m : mem) (g : ghost) : nat :=
  let '(o, p, r) := g in cost p m + list_sum (map (fun j => S (cost (body j) m)) r).
Record inv (T : mem) (k : nat) (gs : list ghost) (m : mem) : Prop := {
  i_nodup : NoDup (all_pending gs);
  i_good : Forall good gs;
  i_will : Forall (will T m) gs;
  i_rest : forall j, ~ In j (all_pending gs) -> forall a, m a j = T a j;
  i_cost : list_sum (map (weight m) gs) = k }.

Lemma will_column : forall T m m' g, good g -> (forall j, In j (pending g) -> forall a, m' a j = m a j) ->
  will T m g -> will T m' g.
Proof.
  intros T m m' [[o p] r] [G1 G2] E [W1 W2]. split.
  - intros i -> a. rewrite <- (W1 i eq_refl a). apply (run_column i); auto. intros b; apply E; left; auto.
  - intros j Hj a. rewrite <- (W2 j Hj a). apply (run_column j); auto. intros b; apply E. apply in_or_app; auto.
Qed.
Lemma sum_map_ext : forall A (f g : A -> nat) l, (forall x, In x l -> f x = g x) ->
  list_sum (map f l) = list_sum (map g l).
Proof. intros. f_equal. apply map_ext_in; auto. Qed.
Lemma weight_column : forall m m' g, good g -> (forall j, In j (pending g) -> forall a, m' a j = m a j) ->
  weight m' g = weight m g.
Proof.
  intros m m' [[o p] r] [G1 G2] E. unfold weight. f_equal.
  - destruct o as [i|]; [|subst p; reflexivity].
    apply (cost_column i); auto. intros b; apply E; left; auto.
  - apply sum_map_ext. intros j Hj. f_equal. apply (cost_column j); auto. intros b; apply E. apply in_or_app; auto.
Qed.
Lemma all_pending_mid : forall g1 g g2,
  all_pending (g1 ++ g :: g2) = all_pending g1 ++ pending g ++ all_pending g2.
Proof. intros. unfold all_pending. rewrite map_app, concat_app. reflexivity. Qed.
Lemma pending_in : forall gs g j, In g gs -> In j (pending g) -> In j (all_pending gs).
Proof. intros. apply in_concat. exists (pending g). split; auto. apply in_map; auto. Qed.
Lemma sum_mid : forall m g1 g g2,
  list_sum (map (weight m) (g1 ++ g :: g2)) =
  (list_sum (map (weight m) g1) + weight m g + list_sum (map (weight m) g2))%nat.
Proof. intros. rewrite map_app, list_sum_app. simpl. lia. Qed.
Lemma nodup_mid : forall (A : list nat) i r B, NoDup (A ++ (i :: r) ++ B) -> ~ In i A /\ ~ In i r /\ ~ In i B.
Proof.
  intros A i r B H. apply NoDup_remove_2 in H.
  repeat split; intros X; apply H; rewrite ?in_app_iff; auto.
Qed.

Lemma inv_step : forall T k gs m c', inv T k gs m -> step body (map untag gs, m) c' ->
  exists gs' m' k', c' = (map untag gs', m') /\ inv T k' gs' m' /\ k = S k'.
Proof.
  intros T k gs m c' I St. inversion St as [l1 l2 a i p r m0 E1 E2|l1 l2 a i v p r m0 E1 E2|l1 l2 j r m0 E1 E2]; subst.
  - apply eq_sym, map_eq_app in E1. destruct E1 as [g1 [g' [-> [<- E]]]].
    destruct g' as [|[[o q] r'] g2]; [discriminate|]. injection E as -> -> <-.
    destruct I as [In1 In2 In3 In4 In5]. rewrite all_pending_mid in *.
    apply Forall_app in In2. destruct In2 as [Ga Gb]. inversion Gb as [|? ? G0 Gc]; subst. destruct G0 as [G1 G2].
    destruct o as [i0|]; [|discriminate].
    inversion G1 as [|a' k' Hk|]; subst.
    apply Forall_app in In3. destruct In3 as [Wa Wb]. inversion Wb as [|? ? W0 Wc]; subst. destruct W0 as [W1 W2].
    exists (g1 ++ (Some i, p (m a i), r) :: g2), m, (list_sum (map (weight m) (g1 ++ (Some i, p (m a i), r) :: g2))).
    split; [rewrite map_app; reflexivity|]. split.
    + constructor.
      * rewrite all_pending_mid; auto.
      * apply Forall_app; split; auto. constructor; auto. split; auto.
      * apply Forall_app; split; auto. constructor; auto. split; auto.
      * intros j Hj. rewrite all_pending_mid in Hj; auto.
      * reflexivity.
    + rewrite !sum_mid. simpl. lia.
  - apply eq_sym, map_eq_app in E1. destruct E1 as [g1 [g' [-> [<- E]]]].
    destruct g' as [|[[o q] r'] g2]; [discriminate|]. injection E as -> -> <-.
    destruct I as [In1 In2 In3 In4 In5]. rewrite all_pending_mid in *.
    apply Forall_app in In2. destruct In2 as [Ga Gb]. inversion Gb as [|? ? G0 Gc]; subst. destruct G0 as [G1 G2].
    destruct o as [i0|]; [|discriminate].
    inversion G1 as [| |a' v' k' Hk]; subst.
    apply Forall_app in In3. destruct In3 as [Wa Wb]. inversion Wb as [|? ? W0 Wc]; subst. destruct W0 as [W1 W2].
    destruct (nodup_mid _ _ _ _ In1) as [N1 [N2 N3]].
    assert (U : forall j, j <> i -> forall b, store m a i v b j = m b j) by (intros; apply store_other; auto).
    assert (O1 : forall g, In g g1 -> forall j, In j (pending g) -> forall b, store m a i v b j = m b j).
    { intros g Hg j Hj. apply U. intros ->. apply N1. eapply pending_in; eauto. }
    assert (O2 : forall g, In g g2 -> forall j, In j (pending g) -> forall b, store m a i v b j = m b j).
    { intros g Hg j Hj. apply U. intros ->. apply N3. eapply pending_in; eauto. }
    rewrite Forall_forall in Ga, Wa. rewrite Forall_forall in Gc, Wc.
    exists (g1 ++ (Some i, p, r) :: g2), (store m a i v),
           (list_sum (map (weight (store m a i v)) (g1 ++ (Some i, p, r) :: g2))).
    split; [rewrite map_app; reflexivity|]. split.
    + constructor; [rewrite all_pending_mid; auto| | | |reflexivity].
      * apply Forall_app; split; [apply Forall_forall; auto|]. constructor; [split; auto|apply Forall_forall; auto].
      * apply Forall_app; split; [apply Forall_forall; intros g Hg; apply (will_column T m _ g (Ga g Hg) (O1 g Hg) (Wa g Hg))|].
        constructor; [|apply Forall_forall; intros g Hg; apply (will_column T m _ g (Gc g Hg) (O2 g Hg) (Wc g Hg))].
        split.
        -- intros i' Hi b. injection Hi as <-. apply (W1 i eq_refl b).
        -- intros j Hj b. rewrite <- (W2 j Hj b). apply (run_column j); auto.
           apply U. intros ->; auto.
      * intros j Hj b. rewrite all_pending_mid in Hj. rewrite <- (In4 j Hj b). apply U.
        intros ->. apply Hj. rewrite !in_app_iff. simpl. auto.
    + rewrite !sum_mid.
      rewrite (sum_map_ext _ (weight (store m a i v)) (weight m) g1) by (intros g Hg; apply (weight_column m _ g (Ga g Hg) (O1 g Hg))).
      rewrite (sum_map_ext _ (weight (store m a i v)) (weight m) g2) by (intros g Hg; apply (weight_column m _ g (Gc g Hg) (O2 g Hg))).
      simpl. rewrite (sum_map_ext _ (fun j => S (cost (body j) (store m a i v))) (fun j => S (cost (body j) m)) r).
      * lia.
      * intros j Hj. f_equal. apply (cost_column j); auto. apply U. intros ->; auto.
  - apply eq_sym, map_eq_app in E1. destruct E1 as [g1 [g' [-> [<- E]]]].
    destruct g' as [|[[o q] r'] g2]; [discriminate|]. injection E as -> -> <-.
    destruct I as [In1 In2 In3 In4 In5]. rewrite all_pending_mid in *.
    apply Forall_app in In2. destruct In2 as [Ga Gb]. inversion Gb as [|? ? G0 Gc]; subst. destruct G0 as [G1 G2].
    apply Forall_app in In3. destruct In3 as [Wa Wb]. inversion Wb as [|? ? W0 Wc]; subst. destruct W0 as [W1 W2].
    exists (g1 ++ (Some j, body j, r) :: g2), m, (list_sum (map (weight m) (g1 ++ (Some j, body j, r) :: g2))).
    split; [rewrite map_app; reflexivity|]. split.
    + constructor; [rewrite all_pending_mid| | | |reflexivity].
      * destruct o as [i0|]; auto. simpl in In1. apply NoDup_remove_1 in In1. exact In1.
      * apply Forall_app; split; auto. constructor; auto. split; [apply G2; left; auto|]. intros; apply G2; right; auto.
      * apply Forall_app; split; auto. constructor; auto. split.
        -- intros i Hi b. injection Hi as <-. apply W2; left; auto.
        -- intros; apply W2; right; auto.
      * intros j' Hj b. rewrite all_pending_mid in Hj.
        destruct o as [i0|]; [|apply In4; auto].
        destruct (Nat.eq_dec j' i0) as [-> |Hne].
        -- apply (W1 i0 eq_refl b).
        -- apply In4. intros X. apply Hj. rewrite !in_app_iff in *. simpl in *. intuition congruence.
    + rewrite !sum_mid. simpl. lia.
Qed.

Lemma inv_steps : forall T n k gs m c', steps body n (map untag gs, m) c' -> inv T k gs m ->
  exists gs' m' k', c' = (map untag gs', m') /\ inv T k' gs' m' /\ k = (n + k')%nat.
Proof.
  intros T n; induction n as [|n IH]; intros k gs m c' S I; inversion S; subst.
  - exists gs, m, k. auto.
  - destruct (inv_step _ _ _ _ _ I H0) as [gs1 [m1 [k1 [-> [I1 ->]]]]].
    destruct (IH _ _ _ _ H1 I1) as [gs2 [m2 [k2 [-> [I2 ->]]]]].
    exists gs2, m2, k2. auto.
Qed.

Lemma finished_inv : forall T k gs m, inv T k gs m -> all_finished (map untag gs) -> m = T.
Proof.
  intros T k gs m I F. apply functional_extensionality; intros a. apply functional_extensionality; intros j.
  destruct (in_dec Nat.eq_dec j (all_pending gs)) as [Y|N]; [|eapply i_rest; eauto].
  unfold all_pending in Y. apply in_concat in Y. destruct Y as [l [Hl Hj]].
  apply in_map_iff in Hl. destruct Hl as [[[o p] r] [<- Hg]].
  unfold all_finished in F. rewrite Forall_forall in F.
  pose proof (F _ (in_map untag _ _ Hg)) as E. unfold finished in E. simpl in E. injection E as -> ->.
  pose proof (i_will _ _ _ _ I) as W. rewrite Forall_forall in W. destruct (W _ Hg) as [W1 _].
  simpl in Hj. rewrite app_nil_r in Hj. destruct o as [i|]; [|destruct Hj].
  destruct Hj as [<- |[]]. apply (W1 i eq_refl a).
Qed.

Definition total (n : nat) (m : mem) : nat := list_sum (map (fun j => S (cost (body j) m)) (seq 0 n)).
Lemma list_sum_perm : forall l l', Permutation l l' -> list_sum l = list_sum l'.
Proof. intros l l' H; induction H; simpl; lia. Qed.
Lemma list_sum_concat : forall (f : nat -> nat) chunks,
  list_sum (map (fun c => list_sum (map f c)) chunks) = list_sum (map f (concat chunks)).
Proof. intros f chunks; induction chunks; simpl; auto. rewrite map_app, list_sum_app. lia. Qed.
Lemma inv_start : forall n chunks m, (forall i, (i < n)%nat -> own i (body i)) -> distribution n chunks ->
  inv (one_thread body n m) (total n m) (map (fun c => (None, Done, c)) chunks) m /\
  map untag (map (fun c => (None, Done, c)) chunks) = start chunks.
Proof.
  intros n chunks m Ho D. split; [|rewrite map_map; reflexivity].
  assert (E : all_pending (map (fun c => (None, Done, c)) chunks) = concat chunks).
  { unfold all_pending. rewrite map_map. simpl. rewrite map_id. reflexivity. }
  assert (L : forall c j, In c chunks -> In j c -> (j < n)%nat).
  { intros c j Hc Hj. assert (X : In j (seq 0 n)) by (eapply Permutation_in; [exact D|apply in_concat; eauto]).
    apply in_seq in X. lia. }
  constructor.
  - rewrite E. eapply Permutation_NoDup; [apply Permutation_sym; exact D|apply seq_NoDup].
  - apply Forall_forall. intros g Hg. apply in_map_iff in Hg. destruct Hg as [c [<- Hc]].
    split; auto. intros; apply Ho; eauto.
  - apply Forall_forall. intros g Hg. apply in_map_iff in Hg. destruct Hg as [c [<- Hc]].
    split; [discriminate|]. intros j Hj a. rewrite one_thread_at by auto.
    destruct (lt_dec j n) as [|X]; auto. exfalso; apply X; eauto.
  - intros j Hj a. rewrite one_thread_at by auto. destruct (lt_dec j n) as [X|]; auto.
    exfalso; apply Hj. rewrite E. eapply Permutation_in; [apply Permutation_sym; exact D|apply in_seq; lia].
  - rewrite map_map. simpl. rewrite list_sum_concat. apply list_sum_perm, Permutation_map. exact D.
Qed.

Theorem deterministic : forall n chunks k pool m m', (forall i, (i < n)%nat -> own i (body i)) ->
  distribution n chunks -> steps body k (start chunks, m) (pool, m') -> all_finished pool ->
  m' = one_thread body n m.
Proof.
  intros n chunks k pool m m' Ho D S F.
  destruct (inv_start n chunks m Ho D) as [I E]. rewrite <- E in S.
  destruct (inv_steps _ _ _ _ _ _ S I) as [gs' [m2 [k' [X [I' _]]]]].
  injection X as -> ->. eapply finished_inv; eauto.
Qed.
Theorem bounded : forall n chunks k c m, (forall i, (i < n)%nat -> own i (body i)) ->
  distribution n chunks -> steps body k (start chunks, m) c -> (k <= total n m)%nat.
Proof.
  intros n chunks k c m Ho D S.
  destruct (inv_start n chunks m Ho D) as [I E]. rewrite <- E in S.
  destruct (inv_steps _ _ _ _ _ _ S I) as [gs' [m2 [k' [X [I' Y]]]]]. lia.
Qed.
Theorem progress : forall pool m, ~ all_finished pool -> exists c, step body (pool, m) c.
Proof.
  intros pool m; induction pool as [|[p r] pool IH]; intros F.
  - exfalso; apply F; constructor.
  - destruct p as [|a i k|a i v k].
    + destruct r as [|j r].
      * destruct IH as [[pool' m'] S].
        { intros X; apply F; constructor; [reflexivity|exact X]. }
        inversion S; subst.
        -- eexists. apply (s_read body ((Done, []) :: l1)).
        -- eexists. apply (s_write body ((Done, []) :: l1)).
        -- eexists. apply (s_next body ((Done, []) :: l1)).
      * eexists. apply (s_next body []).
    + eexists. apply (s_read body []).
    + eexists. apply (s_write body []).
Qed.
Lemma steps_snoc : forall k c c' c'', steps body k c c' -> step body c' c'' -> steps body (S k) c c''.
Proof. intros k c c' c'' H; induction H; intros; econstructor; eauto; constructor. Qed.
Lemma steps_app : forall k c c', steps body k c c' -> forall l c'', steps body l c' c'' -> steps body (k + l) c c''.
Proof. intros k c c' H; induction H; intros; simpl; auto. econstructor; eauto. Qed.
Lemma finished_dec : forall pool, {all_finished pool} + {~ all_finished pool}.
Proof.
  intros; apply Forall_dec. intros [p r]. unfold finished.
  destruct p; [destruct r|..]; first [left; reflexivity|right; discriminate].
Qed.
Lemma completes_fuel : forall K pool m, (forall k c, steps body k (pool, m) c -> (k <= K)%nat) ->
  exists k pool' m', steps body k (pool, m) (pool', m') /\ all_finished pool'.
Proof.
  induction K as [|K IH]; intros pool m H.
  - destruct (finished_dec pool) as [F|F]; [exists 0%nat, pool, m; split; auto; constructor|].
    destruct (progress _ m F) as [c S]. assert (1 <= 0)%nat by (eapply H; econstructor; eauto; constructor). lia.
  - destruct (finished_dec pool) as [F|F]; [exists 0%nat, pool, m; split; auto; constructor|].
    destruct (progress _ m F) as [[pool1 m1] S].
    destruct (IH pool1 m1) as [k [pool' [m' [S' F']]]].
    + intros k c S'. assert (Datatypes.S k <= Datatypes.S K)%nat by (eapply H; econstructor; eauto). lia.
    + exists (Datatypes.S k), pool', m'. split; auto. econstructor; eauto.
Qed.
End Body.
