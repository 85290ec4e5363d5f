(** Proofs for C95. *)
From Coq Require Import QArith List Bool Arith Lia.
From Verif Require Import Model_Tracker Spec_Tracker Proofs_Tracker Model_Crash Spec_Crash.
Import ListNotations.

Lemma prefix_refl : forall A (l : list A), prefix l l.
Proof. intros; exists []; rewrite app_nil_r; auto. Qed.
Lemma prefix_trans : forall A (a b c : list A), prefix a b -> prefix b c -> prefix a c.
Proof. intros A a b c [r ->] [r' ->]. exists (r ++ r'). rewrite app_assoc; auto. Qed.
Lemma prefix_app : forall A (l r : list A), prefix l (l ++ r).
Proof. intros; exists r; auto. Qed.
Lemma prefixes_refl : forall A (l : list (list A)), Forall2 prefix l l.
Proof. intros A l; induction l; constructor; auto using prefix_refl. Qed.
Lemma prefixes_trans : forall A (a b c : list (list A)), Forall2 prefix a b -> Forall2 prefix b c -> Forall2 prefix a c.
Proof.
  intros A a b c H; revert c; induction H; intros c Hc; inversion Hc; subst; constructor; eauto using prefix_trans.
Qed.

Section P.
  Variables B F : Type.
  Variable evolve : F -> B -> Q -> Q -> B.
  Variable update : nat -> F -> list B -> F.
  Variable auto_dt : B -> Q.
  Variable copy : B -> B.
  Variable rnd : Q -> Q.
  Variable raises : list (event B) -> bool.
  Variable half_evolved : list (event B) -> B -> B.
  Variable half_updated : list (event B) -> F -> F.
  Variable copies : list (event B) -> nat.
  Variable bs0 : list B.
  Variable fs0 : F.
  Notation st := (state B F).
  Notation try_evolve := (try_evolve B F evolve auto_dt rnd raises half_evolved).
  Notation try_update := (try_update B F update raises half_updated).
  Notation try_diagnostics := (try_diagnostics B F copy raises copies).
  Notation try_push_to := (try_push_to B F evolve auto_dt rnd raises half_evolved).
  Notation evolve_bunch := (evolve_bunch B F evolve auto_dt rnd).
  Notation update_field := (update_field B F update).
  Notation generate_diagnostics := (generate_diagnostics B F copy).
  Notation advance := (advance B F).
  Notation push_to := (push_to B F evolve auto_dt rnd).
  Notation replay := (replay B F evolve update).

  Lemma beginning_refl : forall s : st, beginning_of s s.
  Proof. split; auto using prefix_refl, prefixes_refl. Qed.
  Lemma beginning_trans : forall a b c : st, beginning_of a b -> beginning_of b c -> beginning_of a c.
  Proof. intros a b c [] []. split; eauto using prefix_trans, prefixes_trans. Qed.

  (** ** States of the undisturbed tracking *)
  Record sane (s : st) : Prop := {
    sa_len : length (out s) = length (bs s);
    sa_replay : (fs s, bs s) = replay (log s) (fs0, bs0) }.

  Lemma append_out_prefix : forall o (b : list B), length o = length b -> Forall2 prefix o (append_out B copy o b).
  Proof.
    intros o; induction o as [|x o IH]; intros [|y b] H; simpl in *; try discriminate; constructor.
    - apply prefix_app.
    - apply IH. lia.
  Qed.
  Lemma append_out_len : forall o (b : list B), length o = length b -> length (append_out B copy o b) = length b.
  Proof. intros. unfold append_out. rewrite map_length, combine_length. lia. Qed.
  Lemma append_first_prefix : forall k o (b : list B), length o = length b ->
    Forall2 prefix (append_first B copy k o b) (append_out B copy o b).
  Proof.
    intros k; induction k as [|k IH]; intros [|x o] [|y b] H; simpl in *; try discriminate; try constructor.
    - apply prefix_app.
    - apply (append_out_prefix o b). lia.
    - apply prefix_refl.
    - apply (IH o b). lia.
  Qed.
  Lemma upd_length : forall A i (v : A) l, length (upd i v l) = length l.
  Proof. intros A i v l; revert i; induction l; intros [|i]; simpl; auto. Qed.
  Lemma upd_at : forall i (b v : B) l, nth_error l i = Some b -> upd i v l = replace_at B i v l.
  Proof. intros. apply upd_replace. apply nth_error_Some. congruence. Qed.
  Lemma replay_snoc : forall l e w, replay (l ++ [e]) w = effect B F evolve update (replay l w) e.
  Proof. intros. unfold Spec_Tracker.replay. rewrite fold_left_app. reflexivity. Qed.

  Lemma sane_evolve : forall c sync i t tn d s, sane s ->
    sane (evolve_bunch c sync i t tn d s) /\ beginning_of s (evolve_bunch c sync i t tn d s).
  Proof.
    intros c sync i t tn d s [L Rp]. unfold Model_Tracker.evolve_bunch.
    destruct (nth_error (bs s) i) as [b|] eqn:E; [|split; [split; auto|apply beginning_refl]].
    split; [split|split]; cbn [bs fs out log].
    - rewrite upd_length; auto.
    - rewrite replay_snoc, <- Rp. cbn [effect]. rewrite E. f_equal. eapply upd_at; eauto.
    - apply prefix_app.
    - apply prefixes_refl.
  Qed.
  Lemma sane_update : forall t j s, sane s -> sane (update_field t j s) /\ beginning_of s (update_field t j s).
  Proof.
    intros t j s [L Rp]. split; [split|split]; cbn [Model_Tracker.update_field bs fs out log]; auto.
    - rewrite replay_snoc, <- Rp. reflexivity.
    - apply prefix_app.
    - apply prefixes_refl.
  Qed.
  Lemma sane_diagnostics : forall t s, sane s -> sane (generate_diagnostics t s) /\ beginning_of s (generate_diagnostics t s).
  Proof.
    intros t s [L Rp]. split; [split|split]; cbn [Model_Tracker.generate_diagnostics bs fs out log]; auto.
    - apply append_out_len; auto.
    - rewrite replay_snoc, <- Rp. reflexivity.
    - apply prefix_app.
    - apply append_out_prefix; auto.
  Qed.
  Lemma sane_advance : forall i d s, sane s -> sane (advance i d s) /\ beginning_of s (advance i d s).
  Proof. intros i d s [L Rp]. split; [split; auto|split; [apply prefix_refl|apply prefixes_refl]]. Qed.
  Lemma sane_push_to : forall c t s i, sane s -> sane (push_to c t s i) /\ beginning_of s (push_to c t s i).
  Proof.
    intros c t s i H. unfold Model_Tracker.push_to.
    destruct (sane_evolve c true i (nth i (tobj s) 0%Q) t (t - nth i (tobj s) 0)%Q s H) as [H1 H2].
    destruct (sane_advance i (t - nth i (tobj s) 0)%Q _ H1) as [H3 H4].
    split; [exact H3|eapply beginning_trans; eauto].
  Qed.
  Lemma sane_fold : forall A (op : st -> A -> st), (forall s a, sane s -> sane (op s a) /\ beginning_of s (op s a)) ->
    forall l s, sane s -> sane (fold_left op l s) /\ beginning_of s (fold_left op l s).
  Proof.
    intros A op H l; induction l as [|a l IH]; intros s Hs; simpl; [split; auto; apply beginning_refl|].
    destruct (H s a Hs) as [H1 H2]. destruct (IH _ H1) as [H3 H4]. split; auto. eapply beginning_trans; eauto.
  Qed.
  Definition next_of (c : config) (i_next : nat) (t_current t_next dt_next : Q) (s : st) : st :=
    match nth_error (objects c) i_next with
    | Some (OBunch i) => evolve_bunch c false i t_current t_next dt_next s
    | Some (OField j) => update_field t_next j s
    | Some ODiag => generate_diagnostics t_next
        (if c_push_before c then fold_left (push_to c t_next) (seq 0 (n_bunches c)) s else s)
    | None => s
    end.
  Lemma sane_next : forall c i tc tn d s, sane s -> sane (next_of c i tc tn d s) /\ beginning_of s (next_of c i tc tn d s).
  Proof.
    intros c i tc tn d s H. unfold next_of. destruct (nth_error (objects c) i) as [[k|j|]|].
    - apply sane_evolve; auto.
    - apply sane_update; auto.
    - assert (X : sane (if c_push_before c then fold_left (push_to c tn) (seq 0 (n_bunches c)) s else s) /\
        beginning_of s (if c_push_before c then fold_left (push_to c tn) (seq 0 (n_bunches c)) s else s)).
      { destruct (c_push_before c); [|split; auto; apply beginning_refl].
        apply sane_fold; auto. intros; apply sane_push_to; auto. }
      destruct X as [X1 X2]. destruct (sane_diagnostics tn _ X1) as [X3 X4]. split; auto. eapply beginning_trans; eauto.
    - split; auto; apply beginning_refl.
  Qed.
  Notation loop := (loop B F evolve update auto_dt copy rnd).
  Lemma loop_beginning : forall fuel c s, sane s -> beginning_of s (end_of (loop fuel c s)).
  Proof.
    intros fuel; induction fuel as [|fuel IH]; intros c s H; [apply beginning_refl|].
    cbn [Model_Tracker.loop]. unfold step.
    destruct (argmin _) as [i|]; [|apply beginning_refl].
    destruct (Qltb _ _); [apply beginning_refl|].
    match goal with |- context [loop fuel c (advance ?i ?d ?x)] => change x with
      (next_of c i (nth i (tobj s) 0%Q) (nth i (vadd (tobj s) (dtobj s)) 0%Q) d s) end.
    destruct (sane_next c i (nth i (tobj s) 0%Q) (nth i (vadd (tobj s) (dtobj s)) 0%Q) (nth i (dtobj s) 0%Q) s H) as [H1 H2].
    destruct (sane_advance i (nth i (dtobj s) 0%Q) _ H1) as [H3 H4].
    eapply beginning_trans; [exact H2|]. eapply beginning_trans; [exact H4|]. apply IH; auto.
  Qed.

  (** ** Attempts *)
  (** [a]: the attempt from [s] of an operation that would lead to [s']. *)
  Definition faithful (s : st) (a : attempt B F) (s' : st) : Prop :=
    match a with
    | Fine s1 => s1 = s'
    | Crash s1 => beginning_of s1 s' /\ raises (log s1) = true /\
                  one_unfinished (half_evolved (log s1)) (half_updated (log s1)) (replay (log s1) (fs0, bs0)) s1 /\
                  prefix (log s) (log s1) /\ log s1 <> log s'
    end.
  (** Nothing that was done raised. *)
  Definition quiet (s : st) := nothing_raises raises (log s).
  Definition quiet_ok (s : st) (a : attempt B F) : Prop :=
    quiet s -> match a with Fine s1 => quiet s1 | Crash s1 => quiet s1 end.
  Lemma quiet_snoc : forall l (e : event B), nothing_raises raises l -> raises l = false -> nothing_raises raises (l ++ [e]).
  Proof.
    intros l e N H l1 x l2 E. destruct l2 as [|y l2] using rev_ind.
    - apply app_inj_tail in E. destruct E as [-> _]. exact H.
    - clear IHl2. rewrite app_comm_cons, app_assoc in E. apply app_inj_tail in E. destruct E as [E _].
      eapply N; eauto.
  Qed.
  Lemma snoc_neq : forall A (l : list A) e, l <> l ++ [e].
  Proof. intros A l e H. apply (f_equal (@length A)) in H. rewrite app_length in H. simpl in H. lia. Qed.

  Lemma try_evolve_ok : forall c sync i t tn d s, sane s ->
    faithful s (try_evolve c sync i t tn d s) (evolve_bunch c sync i t tn d s) /\
    quiet_ok s (try_evolve c sync i t tn d s).
  Proof.
    intros c sync i t tn d s [L Rp]. unfold Model_Crash.try_evolve, Model_Tracker.evolve_bunch, quiet_ok.
    destruct (nth_error (bs s) i) as [b|] eqn:E; [|split; [reflexivity|auto]].
    destruct (raises (log s)) eqn:X; (split; [|intros Qs]).
    - cbn [faithful log out bs fs]. split; [split; cbn [log out]; [apply prefix_app|apply prefixes_refl]|].
      split; auto. split; [|split; [apply prefix_refl|apply snoc_neq]].
      left. rewrite <- Rp. cbn [fst snd fs bs]. split; auto. exists i, b. split; auto. eapply upd_at; eauto.
    - exact Qs.
    - reflexivity.
    - apply quiet_snoc; auto.
  Qed.
  Lemma try_update_ok : forall t j s, sane s ->
    faithful s (try_update t j s) (update_field t j s) /\ quiet_ok s (try_update t j s).
  Proof.
    intros t j s [L Rp]. unfold Model_Crash.try_update, Model_Tracker.update_field, quiet_ok.
    destruct (raises (log s)) eqn:X; (split; [|intros Qs]).
    - cbn [faithful log out bs fs]. split; [split; cbn [log out]; [apply prefix_app|apply prefixes_refl]|].
      split; auto. split; [|split; [apply prefix_refl|apply snoc_neq]].
      right; left. rewrite <- Rp. auto.
    - exact Qs.
    - reflexivity.
    - apply quiet_snoc; auto.
  Qed.
  Lemma try_diagnostics_ok : forall t s, sane s ->
    faithful s (try_diagnostics t s) (generate_diagnostics t s) /\ quiet_ok s (try_diagnostics t s).
  Proof.
    intros t s [L Rp]. unfold Model_Crash.try_diagnostics, Model_Tracker.generate_diagnostics, quiet_ok.
    destruct (raises (log s)) eqn:X; (split; [|intros Qs]).
    - cbn [faithful log out bs fs].
      split; [split; cbn [log out]; [apply prefix_app|apply append_first_prefix; auto]|].
      split; auto. split; [|split; [apply prefix_refl|apply snoc_neq]].
      right; right. rewrite <- Rp. auto.
    - exact Qs.
    - reflexivity.
    - apply quiet_snoc; auto.
  Qed.
  Lemma longer_neq : forall A (a b c : list A), prefix a b -> a <> b -> prefix b c -> a <> c.
  Proof.
    intros A a b c [r ->] N [r' E] X. apply N. rewrite <- X in E.
    rewrite <- app_assoc in E. rewrite <- (app_nil_r a) in E at 1. apply app_inv_head in E.
    symmetry in E. apply app_eq_nil in E. destruct E as [-> _]. rewrite app_nil_r; auto.
  Qed.
  Lemma faithful_more : forall s a s' s'', faithful s a s' -> beginning_of s' s'' ->
    match a with Fine _ => True | Crash _ => faithful s a s'' end.
  Proof.
    intros s [s1|s1] s' s'' H G; auto. destruct H as [H1 [H2 [H3 [H4 H5]]]].
    split; [eapply beginning_trans; eauto|]. repeat split; auto.
    eapply longer_neq; [apply H1|exact H5|apply G].
  Qed.
  Lemma faithful_before : forall s0 s a s', beginning_of s0 s -> faithful s a s' -> faithful s0 a s'.
  Proof.
    intros s0 s [s1|s1] s' G H; auto. destruct H as [H1 [H2 [H3 [H4 H5]]]]. repeat split; auto; try apply H1.
    eapply prefix_trans; [apply G|exact H4].
  Qed.
  (** One operation after another. *)
  Lemma andthen_ok : forall s a (k : st -> attempt B F) s1 s2,
    faithful s a s1 -> quiet_ok s a -> beginning_of s s1 -> beginning_of s1 s2 ->
    faithful s1 (k s1) s2 -> quiet_ok s1 (k s1) ->
    faithful s (andthen B F a k) s2 /\ quiet_ok s (andthen B F a k).
  Proof.
    intros s a k s1 s2 Fa Qa G1 G2 Fk Qk. destruct a as [x|x]; simpl.
    - cbn [faithful] in Fa. subst x. split; [eapply faithful_before; eauto|].
      intros Q. apply Qk. apply Qa; auto.
    - split; [apply (faithful_more s (Crash x) s1 s2 Fa G2)|exact Qa].
  Qed.
  Lemma try_push_to_ok : forall c t i s, sane s ->
    faithful s (try_push_to c t i s) (push_to c t s i) /\ quiet_ok s (try_push_to c t i s).
  Proof.
    intros c t i s H. unfold Model_Crash.try_push_to, Model_Tracker.push_to. cbv zeta.
    destruct (try_evolve_ok c true i (nth i (tobj s) 0%Q) t (t - nth i (tobj s) 0)%Q s H) as [F1 Q1].
    destruct (sane_evolve c true i (nth i (tobj s) 0%Q) t (t - nth i (tobj s) 0)%Q s H) as [S1 G1].
    eapply andthen_ok; [exact F1|exact Q1|exact G1|..].
    - apply sane_advance. exact S1.
    - reflexivity.
    - intros Q. exact Q.
  Qed.
  Lemma in_turn_ok : forall (op : nat -> st -> attempt B F) (op' : st -> nat -> st),
    (forall i s, sane s -> faithful s (op i s) (op' s i) /\ quiet_ok s (op i s)) ->
    (forall s i, sane s -> sane (op' s i) /\ beginning_of s (op' s i)) ->
    forall is s, sane s -> faithful s (in_turn B F op is s) (fold_left op' is s) /\ quiet_ok s (in_turn B F op is s).
  Proof.
    intros op op' H1 H2 is; induction is as [|i is IH]; intros s Hs; [split; [reflexivity|intros Q; exact Q]|].
    cbn [in_turn fold_left]. destruct (H1 i s Hs) as [F1 Q1]. destruct (H2 s i Hs) as [S1 G1].
    destruct (IH _ S1) as [F2 Q2].
    eapply andthen_ok; eauto. apply (sane_fold nat op' H2 is _ S1).
  Qed.
  Definition try_next (c : config) (i_next : nat) (t_current t_next dt_next : Q) (s : st) : attempt B F :=
    match nth_error (objects c) i_next with
    | Some (OBunch i) => try_evolve c false i t_current t_next dt_next s
    | Some (OField j) => try_update t_next j s
    | Some ODiag =>
        andthen B F (if c_push_before c then in_turn B F (try_push_to c t_next) (seq 0 (n_bunches c)) s else Fine s)
          (try_diagnostics t_next)
    | None => Fine s
    end.
  Lemma try_next_ok : forall c i tc tn d s, sane s ->
    faithful s (try_next c i tc tn d s) (next_of c i tc tn d s) /\ quiet_ok s (try_next c i tc tn d s).
  Proof.
    intros c i tc tn d s H. unfold try_next, next_of. destruct (nth_error (objects c) i) as [[k|j|]|].
    - apply try_evolve_ok; auto.
    - apply try_update_ok; auto.
    - assert (X : sane (if c_push_before c then fold_left (push_to c tn) (seq 0 (n_bunches c)) s else s) /\
        beginning_of s (if c_push_before c then fold_left (push_to c tn) (seq 0 (n_bunches c)) s else s)).
      { destruct (c_push_before c); [|split; auto; apply beginning_refl].
        apply sane_fold; auto. intros; apply sane_push_to; auto. }
      destruct X as [X1 X2].
      assert (Y : faithful s (if c_push_before c then in_turn B F (try_push_to c tn) (seq 0 (n_bunches c)) s else Fine s)
         (if c_push_before c then fold_left (push_to c tn) (seq 0 (n_bunches c)) s else s) /\
         quiet_ok s (if c_push_before c then in_turn B F (try_push_to c tn) (seq 0 (n_bunches c)) s else Fine s)).
      { destruct (c_push_before c); [|split; [reflexivity|intros Q; exact Q]].
        apply in_turn_ok; auto; [intros; apply try_push_to_ok; auto|intros; apply sane_push_to; auto]. }
      destruct Y as [Y1 Y2]. destruct (try_diagnostics_ok tn _ X1) as [Z1 Z2].
      eapply andthen_ok; eauto. apply sane_diagnostics; auto.
    - split; [reflexivity|intros Q; exact Q].
  Qed.

  (** ** The whole tracking *)
  Definition ending_ok (s : st) (e : ending B F) (o : outcome B F) : Prop :=
    match e with
    | Interrupted s1 => faithful s (Crash s1) (end_of o) /\ (quiet s -> quiet s1)
    | _ => same_ending e o /\ (quiet s -> quiet (end_of o))
    end.
  Notation try_loop := (try_loop B F evolve update auto_dt copy rnd raises half_evolved half_updated copies).
  Lemma try_loop_ok : forall fuel c s, sane s -> ending_ok s (try_loop fuel c s) (loop fuel c s).
  Proof.
    intros fuel; induction fuel as [|fuel IH]; intros c s H.
    - simpl. auto.
    - cbn [Model_Crash.try_loop Model_Tracker.loop]. unfold step.
      destruct (argmin _) as [i|]; [|simpl; auto].
      destruct (Qltb _ _); [simpl; auto|].
      set (tc := nth i (tobj s) 0%Q). set (tn := nth i (vadd (tobj s) (dtobj s)) 0%Q). set (d := nth i (dtobj s) 0%Q).
      match goal with |- context [loop fuel c (advance i d ?x)] => change x with (next_of c i tc tn d s) end.
      match goal with |- ending_ok _ (match ?a with Fine _ => _ | Crash _ => _ end) _ =>
        change a with (try_next c i tc tn d s) end.
      destruct (try_next_ok c i tc tn d s H) as [F1 Q1].
      destruct (sane_next c i tc tn d s H) as [S1 G1].
      destruct (sane_advance i d _ S1) as [S2 G2].
      destruct (try_next c i tc tn d s) as [s1|s1].
      + cbn [faithful] in F1. subst s1. specialize (IH c _ S2).
        destruct (try_loop fuel c (advance i d (next_of c i tc tn d s))) as [x|x y|x]; cbn [ending_ok] in *.
        * destruct IH as [I1 I2]. split; auto.
        * destruct IH as [I1 I2]. split; auto.
        * destruct IH as [I1 I2]. split; [|intros Q; apply I2; apply Q1; auto].
          eapply faithful_before; [|exact I1]. eapply beginning_trans; eauto.
      + cbn [ending_ok]. split; [|exact Q1].
        apply (faithful_more s (Crash s1) _ _ F1). eapply beginning_trans; [exact G2|]. apply loop_beginning; auto.
  Qed.
End P.
