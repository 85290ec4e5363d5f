(** Proofs for C118: lists of linear fields. *)
From Coq Require Import Reals List Lra Lia.
From Verif Require Import Model_Push Spec_Push Proofs_Push Model_Own Spec_Own Proofs_Own Spec_Conv Proofs_Conv6 Proofs_Ord8 Spec_Volume Proofs_Volume5.
Import ListNotations.
Open Scope R_scope.

Lemma linear_fold c l : List.Forall linear_field l -> forall v, affine v -> affine (fun r t => fold_left (fun a o => act c o r t a) l (v r t)).
Proof.
  induction 1 as [|o l Ho Hl IH]; intros v Hv; cbn [fold_left]; [exact Hv|].
  apply (IH (fun r t => act c o r t (v r t))).
  destruct (Ho c) as (a & b & d & e & k & E). destruct Hv as (a' & b' & d' & e' & k' & Ev).
  destruct (o_given o c) as [|f|f] eqn:Eo.
  - exists a', b', d', e', k'. intros r t. rewrite <- Ev. unfold act. rewrite Eo. reflexivity.
  - exists (a' + a), (b' + b), (d' + d), (e' + e), (k' + k). intros r t. rewrite act_adds by (intros (g & X); congruence). rewrite Ev, E. ring.
  - exists a, b, d, e, k. intros r t. rewrite act_assigns by (exists f; exact Eo). apply E.
Qed.
Lemma linear_entry c l : List.Forall linear_field l -> affine (fun r t => entry c (fold_left (step r t) l em0)).
Proof.
  intros H. destruct (linear_fold c l H (fun _ _ => entry c em0)) as (a & b & d & e & k & E).
  - exists 0, 0, 0, 0, (entry c em0). intros. ring.
  - exists a, b, d, e, k. intros r t. rewrite entry_fold. apply E.
Qed.
Lemma linear_list l : List.Forall linear_field l ->
  well_behaved (fun r t => fold_left (step r t) l em0) /\ forall s, differentiable (fun r t => fold_left (step r t) l em0) s.
Proof.
  intros H. split; [apply affine_well_behaved|apply affine_differentiable];
  first [exact (linear_entry Ex l H)|exact (linear_entry Ey l H)|exact (linear_entry Ez l H)|exact (linear_entry Bx l H)|exact (linear_entry By l H)|exact (linear_entry Bz l H)].
Qed.
