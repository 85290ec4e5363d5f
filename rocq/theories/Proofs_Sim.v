(** Two runs of the tracker with related bunches and related fields stay related. *)
From Coq Require Import QArith List Bool Arith.
From Verif Require Import Model_Tracker Spec_Sim.
Import ListNotations.

Section Related.
  Variables B F B' F' : Type.
  Variable evolve : F -> B -> Q -> Q -> B.
  Variable update : nat -> F -> list B -> F.
  Variable auto_dt : B -> Q.
  Variable copy : B -> B.
  Variable evolve' : F' -> B' -> Q -> Q -> B'.
  Variable update' : nat -> F' -> list B' -> F'.
  Variable auto_dt' : B' -> Q.
  Variable copy' : B' -> B'.
  Variable rnd : Q -> Q.
  Variable r : B -> B' -> Prop.
  Variable rf : F -> F' -> Prop.
  Hypothesis Hevolve : forall f f' b b' t dt, rf f f' -> r b b' -> r (evolve f b t dt) (evolve' f' b' t dt).
  Hypothesis Hupdate : forall j f f' l l', rf f f' -> Forall2 r l l' -> rf (update j f l) (update' j f' l').
  Hypothesis Hauto : forall b b', r b b' -> auto_dt b = auto_dt' b'.
  Hypothesis Hcopy : forall b b', r b b' -> r (copy b) (copy' b').

  Lemma forall2_nth {A C} (P : A -> C -> Prop) l l' : Forall2 P l l' -> forall i,
    match nth_error l i, nth_error l' i with
    | Some a, Some b => P a b | None, None => True | _, _ => False end.
  Proof. induction 1; intros [|i]; cbn; auto. apply IHForall2. Qed.
  Lemma forall2_upd {A C} (P : A -> C -> Prop) l l' a b : Forall2 P l l' -> P a b ->
    forall i, Forall2 P (upd i a l) (upd i b l').
  Proof. intros H Hab. induction H; intros [|i]; cbn; constructor; auto. Qed.
  Lemma forall2_map {A C D E} (P : A -> C -> Prop) (Q : D -> E -> Prop) f g l l' :
    (forall a b, P a b -> Q (f a) (g b)) -> Forall2 P l l' -> Forall2 Q (map f l) (map g l').
  Proof. intros H H2. induction H2; cbn; constructor; auto. Qed.
  Lemma forall2_snoc {A C} (P : A -> C -> Prop) l l' a b : Forall2 P l l' -> P a b ->
    Forall2 P (l ++ [a]) (l' ++ [b]).
  Proof. intros H Hab. apply Forall2_app; [exact H|]. constructor; [exact Hab|constructor]. Qed.

  Notation ss := (@same_state B B' F F' rf r).
  Lemma evolve_related c sync i t t' dt s s' : ss s s' ->
    ss (evolve_bunch B F evolve auto_dt rnd c sync i t t' dt s)
       (evolve_bunch B' F' evolve' auto_dt' rnd c sync i t t' dt s').
  Proof.
    intros (Hb & Hf & Ht & Hd & Ho & Hl). unfold evolve_bunch.
    pose proof (forall2_nth r _ _ Hb i) as N.
    destruct (nth_error (bs s) i) as [b|], (nth_error (bs s') i) as [b'|]; try contradiction;
      [|repeat split; assumption].
    pose proof (Hevolve (fs s) (fs s') b b' t dt Hf N) as E.
    rewrite (Hauto _ _ E), <- Hd.
    repeat split; cbn; try assumption.
    - apply forall2_upd; [exact Hb|exact E].
    - apply forall2_snoc; [exact Hl|]. repeat split.
  Qed.
  Lemma append_related o o' l l' : Forall2 (Forall2 r) o o' -> Forall2 r l l' ->
    Forall2 (Forall2 r) (append_out B copy o l) (append_out B' copy' o' l').
  Proof.
    intros Ho. unfold append_out. revert l l'. induction Ho; intros l0 l0' Hl; cbn; [constructor|].
    destruct Hl; cbn; constructor; [|apply IHHo; assumption].
    apply forall2_snoc; auto.
  Qed.
  Lemma diagnostics_related t s s' : ss s s' ->
    ss (generate_diagnostics B F copy t s) (generate_diagnostics B' F' copy' t s').
  Proof.
    intros (Hb & Hf & Ht & Hd & Ho & Hl). repeat split; cbn; try assumption.
    - apply append_related; assumption.
    - apply forall2_snoc; [exact Hl|]. split; [reflexivity|].
      eapply forall2_map; [|exact Hb]. apply Hcopy.
  Qed.
  Lemma update_related t j s s' : ss s s' ->
    ss (update_field B F update t j s) (update_field B' F' update' t j s').
  Proof.
    intros (Hb & Hf & Ht & Hd & Ho & Hl). repeat split; cbn; try assumption.
    - apply Hupdate; assumption.
    - apply forall2_snoc; [exact Hl|]. split; reflexivity.
  Qed.
  Lemma advance_related i d s s' : ss s s' -> ss (advance B F i d s) (advance B' F' i d s').
  Proof.
    intros (Hb & Hf & Ht & Hd & Ho & Hl). repeat split; cbn; try assumption.
    rewrite Ht. reflexivity.
  Qed.
  Lemma push_to_related c t l : forall s s', ss s s' ->
    ss (fold_left (push_to B F evolve auto_dt rnd c t) l s)
       (fold_left (push_to B' F' evolve' auto_dt' rnd c t) l s').
  Proof.
    induction l as [|i l IH]; intros s s' H; [exact H|]. cbn [fold_left]. apply IH.
    unfold push_to. assert (Ht : tobj s = tobj s') by apply H. rewrite <- Ht.
    apply advance_related, evolve_related, H.
  Qed.
  Lemma step_related c s s' : ss s s' ->
    same_run rf r (step B F evolve update auto_dt copy rnd c s)
               (step B' F' evolve' update' auto_dt' copy' rnd c s').
  Proof.
    intros H. assert (Ht : tobj s = tobj s') by apply H. assert (Hd : dtobj s = dtobj s') by apply H.
    unfold step. rewrite <- Ht, <- Hd.
    destruct (argmin _) as [i|]; [|split; [reflexivity|exact H]]. cbv zeta.
    destruct (Qltb _ _); [exact H|]. cbn [same_run]. apply advance_related.
    destruct (nth_error (objects c) i) as [[k|j|]|]; [| | |exact H].
    - apply evolve_related, H.
    - apply update_related, H.
    - apply diagnostics_related. destruct (c_push_before c); [|exact H]. apply push_to_related, H.
  Qed.
  Lemma loop_related c fuel : forall s s', ss s s' ->
    same_run rf r (loop B F evolve update auto_dt copy rnd fuel c s)
               (loop B' F' evolve' update' auto_dt' copy' rnd fuel c s').
  Proof.
    induction fuel as [|k IH]; intros s s' H; [split; [reflexivity|exact H]|].
    cbn [loop]. pose proof (step_related c s s' H) as E.
    destruct (step _ _ _ _ _ _ _ c s) as [u|u|e u], (step _ _ _ _ _ _ _ c s') as [u'|u'|e' u'];
      try contradiction; [apply IH, E|exact E|exact E].
  Qed.
  Lemma initial_related l l' : Forall2 r l l' -> forall d,
    initial_dtb B auto_dt d l = initial_dtb B' auto_dt' d l'.
  Proof.
    induction 1 as [|b b' l l' Hb Hl IH]; intros [|d ds]; cbn; try reflexivity.
    rewrite (Hauto b b' Hb), IH. reflexivity.
  Qed.
  Lemma start_related c l l' f f' : rf f f' -> Forall2 r l l' ->
    ss (start B F update auto_dt c l f) (start B' F' update' auto_dt' c l' f').
  Proof.
    intros Hf H. unfold start, initial_dt. rewrite (initial_related l l' H).
    match goal with |- ss (fold_left _ _ ?a) (fold_left _ _ ?b) => assert (E : ss a b) end.
    { repeat split; cbn; try assumption; try constructor.
      eapply forall2_map; [|exact H]. constructor. }
    revert E. match goal with |- ss ?a ?b -> _ => generalize a, b end.
    induction (seq 0 (n_fields c)) as [|j js IH]; intros s s' E; [exact E|].
    cbn [fold_left]. apply IH. apply update_related, E.
  Qed.
  Lemma run_related fuel c l l' f f' : rf f f' -> Forall2 r l l' ->
    same_run rf r (do_tracking B F evolve update auto_dt copy rnd fuel c l f)
                  (do_tracking B' F' evolve' update' auto_dt' copy' rnd fuel c l' f').
  Proof.
    intros Hf H. unfold do_tracking. pose proof (start_related c l l' f f' Hf H) as E.
    destruct (c_ndiags c).
    - destruct H; [|split; [reflexivity|exact E]].
      pose proof (loop_related c fuel _ _ E) as L.
      destruct (loop B F _ _ _ _ _ _ c _) as [u|u|e u], (loop B' F' _ _ _ _ _ _ c _) as [u'|u'|e' u']; try contradiction;
        try exact L. split; [reflexivity|exact L].
    - apply loop_related, diagnostics_related, E.
  Qed.
End Related.
(** A weaker conclusion on the fields. *)
Lemma same_run_weaken {B B' F F'} (rf rf' : F -> F' -> Prop) (r : B -> B' -> Prop) o o' :
  (forall f f', rf f f' -> rf' f f') -> same_run rf r o o' -> same_run rf' r o o'.
Proof.
  intros H. assert (G : forall s s', same_state rf r s s' -> same_state rf' r s s').
  { intros s s' (H1 & H2 & H3). split; [exact H1|]. split; [apply H, H2|exact H3]. }
  destruct o, o'; cbn; try tauto; auto. intros [E X]. auto.
Qed.
