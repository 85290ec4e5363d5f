(** Proofs for C95: the whole tracking and what it leaves behind. *)
From Coq Require Import QArith List Bool Arith Lia.
From Verif Require Import Model_Tracker Spec_Tracker Proofs_Tracker Model_Crash Spec_Crash Proofs_Crash.
Import ListNotations.

Section P.
  Variables B F : Type.
  Variable evolve : F -> B -> Q -> Q -> B.
  Variable update : nat -> F -> list B -> F.
  Variable auto_dt : B -> Q.
  Variable copy : B -> B.
  Variable rnd : Q -> Q.
  Variable raises : list (event B) -> bool.
  Variable half_evolved : list (event B) -> B -> B.
  Variable half_updated : list (event B) -> F -> F.
  Variable copies : list (event B) -> nat.
  Notation try_tracking := (try_tracking B F evolve update auto_dt copy rnd raises half_evolved half_updated copies).
  Notation do_tracking := (do_tracking B F evolve update auto_dt copy rnd).
  Notation faithful := (faithful B F evolve update raises half_evolved half_updated).
  Notation quiet := (quiet B F raises).

  Definition init (c : config) (bs0 : list B) (fs0 : F) : state B F :=
    {| bs := bs0; fs := fs0; tobj := map (fun _ => 0%Q) (initial_dt B auto_dt c bs0);
       dtobj := initial_dt B auto_dt c bs0; out := map (fun _ => []) bs0; log := [] |}.
  Lemma sane_init : forall c bs0 fs0, sane B F evolve update bs0 fs0 (init c bs0 fs0).
  Proof. intros c bs0 fs0. split; cbn [init out bs fs log]; [apply map_length|reflexivity]. Qed.
  Lemma quiet_init : forall c bs0 fs0, quiet (init c bs0 fs0).
  Proof. intros c bs0 fs0 l1 e l2 E. destruct l1; discriminate. Qed.

  Definition verdict (bs0 : list B) (fs0 : F) (s : state B F) (e : ending B F) (o : outcome B F) : Prop :=
    match e with
    | Interrupted s1 => faithful bs0 fs0 s (Crash s1) (end_of o) /\ quiet s1
    | _ => same_ending e o /\ quiet (end_of o)
    end.

  Lemma tracking_ok : forall threads0 light fuel c bs0 fs0 g,
    verdict bs0 fs0 (init c bs0 fs0) (fst (try_tracking threads0 light fuel c bs0 fs0 g)) (do_tracking fuel c bs0 fs0).
  Proof.
    intros nt light fuel c bs0 fs0 g. unfold Model_Crash.try_tracking, Model_Tracker.do_tracking, start. cbv zeta.
    fold (init c bs0 fs0).
    assert (UO : forall s j, sane B F evolve update bs0 fs0 s -> sane B F evolve update bs0 fs0 (update_field B F update 0 j s) /\ beginning_of s (update_field B F update 0 j s)).
    { intros; apply sane_update; auto. }
    destruct (in_turn_ok B F evolve update raises half_evolved half_updated bs0 fs0
      (try_update B F update raises half_updated 0) (fun s j => update_field B F update 0 j s)) with
      (is := seq 0 (n_fields c)) (s := init c bs0 fs0) as [F1 Q1]; auto using sane_init.
    { intros; apply try_update_ok; auto. }
    destruct (sane_fold B F evolve update bs0 fs0 nat (fun s j => update_field B F update 0 j s) UO
      (seq 0 (n_fields c)) (init c bs0 fs0) (sane_init c bs0 fs0)) as [S1 G1].
    specialize (Q1 (quiet_init c bs0 fs0)).
    set (s1 := fold_left (fun s j => update_field B F update 0 j s) (seq 0 (n_fields c)) (init c bs0 fs0)) in *.
    destruct (sane_diagnostics B F evolve update copy bs0 fs0 0 s1 S1) as [S2 G2].
    destruct (in_turn B F (try_update B F update raises half_updated 0) (seq 0 (n_fields c)) (init c bs0 fs0)) as [x|x].
    - cbn [Proofs_Crash.faithful] in F1. subst x.
      destruct (c_ndiags c) as [|n] eqn:N.
      + destruct bs0 as [|b r].
        * pose proof (try_loop_ok B F evolve update auto_dt copy rnd raises half_evolved half_updated copies [] fs0 fuel c s1 S1) as T.
          destruct (try_loop _ _ _ _ _ _ _ _ _ _ _ fuel c s1) as [y|e y|y]; cbn [fst ending_ok verdict same_ending] in *.
          -- destruct T as [T1 T2]. destruct (loop _ _ _ _ _ _ _ fuel c s1) as [z|z|e z]; try contradiction. subst z.
             cbn [end_of] in *. rewrite ?N; cbn [fst verdict same_ending end_of]; auto.
          -- destruct T as [T1 T2]. destruct (loop _ _ _ _ _ _ _ fuel c s1) as [z|z|e' z]; try contradiction.
             cbn [end_of] in *. auto.
          -- destruct T as [T1 T2]. split; [|auto].
             eapply faithful_before; [exact G1|].
             destruct (loop _ _ _ _ _ _ _ fuel c s1) as [z|z|e' z]; exact T1.
        * cbn [fst verdict same_ending end_of]. auto.
      + destruct (try_diagnostics_ok B F evolve update copy raises half_evolved half_updated copies bs0 fs0 0 s1 S1) as [F2 Q2].
        destruct (try_diagnostics B F copy raises copies 0 s1) as [y|y].
        * cbn [Proofs_Crash.faithful] in F2. subst y. specialize (Q2 Q1).
          pose proof (try_loop_ok B F evolve update auto_dt copy rnd raises half_evolved half_updated copies bs0 fs0 fuel c _ S2) as T.
          destruct (try_loop _ _ _ _ _ _ _ _ _ _ _ fuel c _) as [y|e y|y]; cbn [fst ending_ok verdict same_ending] in *.
          -- rewrite ?N. cbn [fst verdict same_ending]. destruct T; auto.
          -- destruct T; auto.
          -- destruct T as [T1 T2]. split; [|auto].
             eapply faithful_before; [|exact T1]. eapply beginning_trans; eauto.
        * cbn [fst verdict]. split; [|exact (Q2 Q1)].
          eapply faithful_before; [exact G1|].
          apply (faithful_more B F evolve update raises half_evolved half_updated bs0 fs0 s1 (Crash y) _ _ F2).
          apply (loop_beginning B F evolve update auto_dt copy rnd bs0 fs0); auto.
    - cbn [fst verdict]. split; [|exact Q1].
      destruct (c_ndiags c) as [|n] eqn:N.
      + destruct bs0 as [|b r].
        * pose proof (loop_beginning B F evolve update auto_dt copy rnd [] fs0 fuel c s1 S1) as T.
          destruct (loop _ _ _ _ _ _ _ fuel c s1) as [z|z|e' z]; cbn [end_of] in *;
            apply (faithful_more B F evolve update raises half_evolved half_updated [] fs0 _ (Crash x) _ _ F1); exact T.
        * exact F1.
      + apply (faithful_more B F evolve update raises half_evolved half_updated bs0 fs0 _ (Crash x) _ _ F1).
        eapply beginning_trans; [exact G2|]. apply (loop_beginning B F evolve update auto_dt copy rnd bs0 fs0); auto.
  Qed.

  (** ** Threads and position *)
  Lemma session_ok : forall nt light fuel c bs0 fs0 g e g',
    try_tracking nt light fuel c bs0 fs0 g = (e, g') ->
    match e with
    | Completed _ => threads g' = threads g /\ z_pos g' = (z_pos g + c_tfinal c * light)%Q
    | Interrupted _ => threads g' = nt /\ z_pos g' = z_pos g
    | Raised _ _ => bs0 <> [] -> threads g' = nt /\ z_pos g' = z_pos g
    end.
  Proof.
    intros nt light fuel c bs0 fs0 g e g'. unfold Model_Crash.try_tracking. cbv zeta.
    destruct (in_turn _ _ _ _ _) as [s|s]; [|intros H; injection H as <- <-; simpl; auto].
    destruct (c_ndiags c) as [|n].
    - destruct bs0 as [|b r].
      + destruct (try_loop _ _ _ _ _ _ _ _ _ _ _ fuel c s) as [x|x y|x]; intros H; injection H as <- <-; simpl; auto;
          intros X; congruence.
      + intros H; injection H as <- <-; simpl; auto.
    - destruct (try_diagnostics _ _ _ _ _ _ s) as [y|y]; [|intros H; injection H as <- <-; simpl; auto].
      destruct (try_loop _ _ _ _ _ _ _ _ _ _ _ fuel c y) as [x|x z|x]; intros H; injection H as <- <-; simpl; auto.
  Qed.
End P.
