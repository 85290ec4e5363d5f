(** Proofs for C118. *)
From Coq Require Import Reals List Lra Lia.
From Verif Require Import Model_Push Spec_Push Proofs_Push Model_Own Spec_Own.
Import ListNotations.
Open Scope R_scope.

(** One entry of one array. *)
Definition act (c : component) (o : own) (r : pos) (t v : R) : R :=
  component_of (code (o_given o c)) (match o_constants o with Some k => k | None => [] end) r t v.
Definition step (r : pos) (t : R) (v : em) (o : own) : em :=
  mke (act Ex o r t (ex v)) (act Ey o r t (ey v)) (act Ez o r t (ez v)) (act Bx o r t (bx v)) (act By o r t (by_ v)) (act Bz o r t (bz v)).
Lemma field_of_step o ps t b : field_of o ps t b = map2 (fun r v => step r t v o) ps b.
Proof. reflexivity. Qed.
Lemma map2_twice {A B} (f g : A -> B -> B) a : forall b, map2 f a (map2 g a b) = map2 (fun u v => f u (g u v)) a b.
Proof. induction a; intros [|v b]; cbn; auto. rewrite IHa. reflexivity. Qed.
Lemma gather_own l ps t : forall f, fold_left (fun b f => f ps t b) (map field_of l) (map f ps) =
  map (fun r => fold_left (step r t) l (f r)) ps.
Proof.
  induction l as [|o l IH]; intros f; cbn [map fold_left]; [reflexivity|].
  rewrite field_of_step, map2_map_r, map2_diag. rewrite (IH (fun r => step r t (f r) o)). reflexivity.
Qed.
Lemma reset_map (ps : list pos) (b : list em) : length ps = length b -> reset_particle_fields b = map (fun _ => em0) ps.
Proof. unfold reset_particle_fields. revert ps. induction b; intros [|p ps] H; cbn in *; try lia; auto. rewrite (IHb ps) by lia. reflexivity. Qed.

Lemma entry_step c r t v o : entry c (step r t v o) = act c o r t (entry c v).
Proof. destruct c; reflexivity. Qed.
Lemma entry_fold c r t l : forall v, entry c (fold_left (step r t) l v) = fold_left (fun a o => act c o r t a) l (entry c v).
Proof. induction l as [|o l IH]; intros v; cbn; [reflexivity|]. rewrite IH, entry_step. reflexivity. Qed.
Lemma act_adds c o r t v : ~ assigns c o -> act c o r t v = v + meant c r t o.
Proof.
  intros H. unfold act, meant, assigns in *. destruct (o_given o c) as [|f|f]; cbn; unfold no_field; [lra|reflexivity|]. exfalso. apply H. eauto.
Qed.
Lemma act_assigns c o r t v : assigns c o -> act c o r t v = meant c r t o.
Proof. intros (f & E). unfold act, meant. rewrite E. reflexivity. Qed.
Lemma fold_adds c r t l : (forall o, In o l -> ~ assigns c o) -> forall v, fold_left (fun a o => act c o r t a) l v = v + total (map (meant c r t) l).
Proof.
  induction l as [|o l IH]; intros H v; cbn; [unfold total; cbn; lra|].
  rewrite IH by (intros; apply H; right; assumption). rewrite act_adds by (apply H; left; reflexivity). unfold total. cbn. lra.
Qed.
Lemma fold_last c r t before o after v : assigns c o -> (forall o', In o' after -> ~ assigns c o') ->
  fold_left (fun a o => act c o r t a) (before ++ o :: after) v = total (map (meant c r t) (o :: after)).
Proof.
  intros Ho Ha. rewrite fold_left_app. cbn [fold_left]. rewrite act_assigns by exact Ho. rewrite fold_adds by exact Ha. reflexivity.
Qed.
Lemma own_gathers l : gathers (map field_of l) (fun r t => fold_left (step r t) l em0).
Proof. intros ps t b Hb. unfold gather_fields. rewrite (reset_map ps b Hb). apply gather_own. Qed.
Lemma wake_own_gathers w g l : adds w g -> gathers (w :: map field_of l) (fun r t => fold_left (step r t) l (g r t)).
Proof.
  intros Hw ps t b Hb. unfold gather_fields. cbn [fold_left]. rewrite (reset_map ps b Hb).
  rewrite (Hw ps t (map (fun _ => em0) ps)) by (rewrite map_length; reflexivity). rewrite map2_map_r, map2_diag.
  rewrite <- (gather_own l ps t (fun r => g r t)). f_equal. apply map_ext. intros r. cbn. destruct (g r t). cbn. f_equal; lra.
Qed.
