(** The passes over the particles. *)
From Coq Require Import Reals Lra ZArith Lia List Bool Arith.
From Coquelicot Require Import Coquelicot.
From Verif Require Import Model_Push Model_Interp Model_Psi Spec_Psi Model_BTheta Spec_BTheta.
Import ListNotations.
Open Scope R_scope.

Definition plus2 (s h : R * R) (d : R) : R * R := (fst s + d * fst h, snd s + d * snd h).
Fixpoint zip (tp ku : list (R * R)) (d : R) : list (R * R) :=
  match tp, ku with
  | s :: tp', h :: ku' => plus2 s h d :: zip tp' ku' d
  | _, _ => []
  end.
Lemma homs_length rnd l s : length (homs rnd l s) = length l.
Proof. revert s; induction l; simpl; auto. Qed.
Lemma inhs_length rnd l s : length (inhs rnd l s) = length l.
Proof. revert s; induction l; simpl; auto. Qed.
Lemma zip_length d : forall tp ku, length tp = length ku -> length (zip tp ku d) = length tp.
Proof. induction tp as [|s tp IH]; intros [|h ku] L; simpl in *; auto; try lia. Qed.

Lemma step_linear c s h d :
  inh_step exact c (plus2 s h d) = plus2 (inh_step exact c s) (hom_step exact c h) d.
Proof. unfold inh_step, hom_step, plus2, exact; cbn [fst snd]; f_equal; ring. Qed.
Lemma inhs_linear l : forall s h d, inhs exact l (plus2 s h d) = zip (inhs exact l s) (homs exact l h) d.
Proof.
  induction l as [|c l IH]; intros s h d; [reflexivity|]. cbn [inhs homs zip].
  rewrite step_linear. f_equal. apply IH.
Qed.
Lemma accept_prefix d : forall tp ku first, length tp = length ku ->
  exists m, (m <= length tp)%nat /\ (first = true -> tp <> [] -> (0 < m)%nat) /\
    accept exact d first tp ku = firstn m (zip tp ku d).
Proof.
  induction tp as [|[T P] tp IH]; intros [|[K U] ku] first L; simpl in L; try lia.
  - exists 0%nat. repeat split; auto. congruence.
  - cbn [accept]. match goal with |- context [if ?b then _ else _] => destruct b eqn:E end.
    + destruct (IH ku false ltac:(lia)) as (m & M & _ & A). exists (S m). simpl. repeat split; try lia.
      unfold plus2, exact in *. cbn [fst snd]. rewrite A. f_equal. f_equal; ring.
    + exists 0%nat. simpl. repeat split; try lia. intros ->. discriminate.
Qed.
Lemma precise_zero T P : precise T P 0 0 = true.
Proof.
  unfold precise. rewrite !Rminus_0_r, !Rplus_0_r.
  pose proof (Rabs_pos T). pose proof (Rabs_pos P).
  destruct (Rle_dec _ _); [|lra]. destruct (Rle_dec _ _); [reflexivity|lra].
Qed.
Lemma accept_zero : forall tp ku first, length tp = length ku -> accept exact 0 first tp ku = tp.
Proof.
  induction tp as [|[T P] tp IH]; intros [|[K U] ku] first L; simpl in L; try lia; auto.
  cbn [accept]. unfold exact. rewrite !Rmult_0_r, precise_zero, !orb_true_r, !Rplus_0_r. f_equal.
  apply IH. lia.
Qed.
Lemma last_default {A} (l : list A) d e : l <> [] -> last l d = last l e.
Proof. induction l as [|a [|b l] IH]; intros N; [congruence|reflexivity|]. simpl in *. apply IH. discriminate. Qed.
Lemma last_cons' {A} (a : A) l d : last (a :: l) d = last l a.
Proof. destruct l as [|b l]; [reflexivity|]. change (last (a :: b :: l) d) with (last (b :: l) d). apply last_default. discriminate. Qed.
Lemma inhs_skipn l : forall s m, skipn m (inhs exact l s) =
  inhs exact (skipn m l) (last (firstn m (inhs exact l s)) s).
Proof.
  induction l as [|c l IH]; intros s m. { rewrite !skipn_nil. reflexivity. }
  destruct m as [|m]; [reflexivity|]. cbn [inhs skipn firstn]. rewrite IH, last_cons'. reflexivity.
Qed.
Lemma last_skipn {A} (l : list A) m d : (m < length l)%nat -> last (skipn m l) d = last l d.
Proof.
  revert m; induction l as [|a l IH]; intros m M; simpl in M; [lia|]. destruct m as [|m]; [reflexivity|].
  cbn [skipn]. rewrite IH by lia. destruct l; [simpl in M; lia|reflexivity].
Qed.
Lemma inhs_last l : forall s, last (inhs exact l s) s = fold_left (fun s c => inh_step exact c s) l s.
Proof. induction l as [|c l IH]; intros s; [reflexivity|]. cbn [inhs fold_left]. rewrite last_cons'. apply IH. Qed.
Lemma homs_last l : forall s, last (homs exact l s) s = fold_left (fun s c => hom_step exact c s) l s.
Proof. induction l as [|c l IH]; intros s; [reflexivity|]. cbn [homs fold_left]. rewrite last_cons'. apply IH. Qed.
Definition inh_end (l : list coef) (s : R * R) := fold_left (fun s c => inh_step exact c s) l s.
Definition hom_end (l : list coef) (s : R * R) := fold_left (fun s c => hom_step exact c s) l s.
Lemma end_linear l : forall s h d, inh_end l (plus2 s h d) = plus2 (inh_end l s) (hom_end l h) d.
Proof. induction l as [|c l IH]; intros s h d; [reflexivity|]. unfold inh_end, hom_end in *. cbn [fold_left]. rewrite step_linear. apply IH. Qed.

(** The value on axis that leads to a_N = 0. *)
Definition shoot (l : list coef) : R := - fst (inh_end l (0, 0)) / fst (hom_end l (1, 0)).
Lemma shoot_hits l : fst (hom_end l (1, 0)) <> 0 -> fst (inh_end l (shoot l, 0)) = 0.
Proof.
  intros N. replace (shoot l, 0) with (plus2 (0, 0) (1, 0) (shoot l)) by (unfold plus2; cbn [fst snd]; f_equal; ring).
  rewrite end_linear. unfold plus2; cbn [fst]. unfold shoot. field. assumption.
Qed.
Lemma shoot_only l a : fst (hom_end l (1, 0)) <> 0 -> fst (inh_end l (a, 0)) = 0 -> a = shoot l.
Proof.
  intros N. replace (a, 0) with (plus2 (0, 0) (1, 0) a) by (unfold plus2; cbn [fst snd]; f_equal; ring).
  rewrite end_linear. unfold plus2; cbn [fst]. unfold shoot. intros E.
  replace (fst (inh_end l (0, 0))) with (- (a * fst (hom_end l (1, 0)))) by lra. field. assumption.
Qed.
Lemma passes_done f K a prev ku : passes exact f K a prev [] ku = Some ([], a).
Proof. destruct f; reflexivity. Qed.
(** Two passes lead to the solution. *)
Lemma passes_exact f l : fst (hom_end l (1, 0)) <> 0 ->
  passes exact (S (S f)) (fst (hom_end l (1, 0))) 0 (0, 0) l (homs exact l (1, 0))
  = Some (inhs exact l (shoot l, 0), match l with [] => 0 | _ => shoot l end).
Proof.
  intros N. destruct l as [|c l]; [reflexivity|]. set (L := c :: l) in *.
  assert (Z : zip (inhs exact L (0, 0)) (homs exact L (1, 0)) (shoot L) = inhs exact L (shoot L, 0)).
  { rewrite <- inhs_linear. unfold plus2. cbn [fst snd]. f_equal. f_equal; ring. }
  change (passes exact (S (S f)) (fst (hom_end L (1, 0))) 0 (0, 0) L (homs exact L (1, 0))) with
    (let tp := inhs exact L (0, 0) in
     let d := exact (- fst (last tp (0, 0)) / fst (hom_end L (1, 0))) in
     let done := accept exact d true tp (homs exact L (1, 0)) in
     match passes exact (S f) (fst (hom_end L (1, 0))) (exact (0 + d)) (last done (0, 0))
             (skipn (length done) L) (skipn (length done) (homs exact L (1, 0))) with
     | None => None | Some (more, a) => Some (done ++ more, a) end).
  cbv zeta. rewrite inhs_last. fold (inh_end L (0, 0)). 
  change (exact (- fst (inh_end L (0, 0)) / fst (hom_end L (1, 0)))) with (shoot L).
  change (exact (0 + shoot L)) with (0 + shoot L).
  destruct (accept_prefix (shoot L) (inhs exact L (0, 0)) (homs exact L (1, 0)) true) as (m & M & MP & ->).
  { rewrite inhs_length, homs_length. reflexivity. }
  rewrite Z. rewrite inhs_length in M. specialize (MP eq_refl ltac:(discriminate)).
  rewrite firstn_length, inhs_length, Nat.min_l by assumption.
  destruct (Nat.eq_dec m (length L)) as [->|NE].
  - rewrite (skipn_all L). rewrite passes_done. rewrite firstn_all2 by (rewrite inhs_length; auto).
    rewrite app_nil_r, Rplus_0_l. reflexivity.
  - destruct (skipn m L) as [|c' l'] eqn:SK. { apply (f_equal (@length _)) in SK. rewrite skipn_length in SK. change (length (@nil coef)) with 0%nat in SK. lia. }
    set (prev := last (firstn m (inhs exact L (shoot L, 0))) (0, 0)).
    assert (TP : inhs exact (c' :: l') prev = skipn m (inhs exact L (shoot L, 0))).
    { rewrite inhs_skipn, SK. f_equal. apply last_default. destruct m; [lia|]. discriminate. }
    change (passes ?r (S f) ?K ?a prev (c' :: l') ?ku) with
      (let tp := inhs r (c' :: l') prev in
       let d := r (- fst (last tp prev) / K) in
       let done := accept r d true tp ku in
       match passes r f K (r (a + d)) (last done prev) (skipn (length done) (c' :: l')) (skipn (length done) ku) with
       | None => None | Some (more, fin) => Some (done ++ more, fin) end).
    cbv zeta.
    rewrite TP. rewrite last_skipn by (rewrite inhs_length; lia).
    rewrite (last_default _ prev (shoot L, 0)) by discriminate. rewrite inhs_last. fold (inh_end L (shoot L, 0)).
    rewrite shoot_hits by assumption.
    replace (exact (- 0 / fst (hom_end L (1, 0)))) with 0 by (unfold exact; field; assumption).
    rewrite accept_zero by (rewrite !skipn_length, inhs_length, homs_length; reflexivity).
    rewrite skipn_length, inhs_length. rewrite (skipn_all2 (c' :: l')).
    + rewrite passes_done, app_nil_r, firstn_skipn. unfold exact. rewrite Rplus_0_l, Rplus_0_r. reflexivity.
    + apply (f_equal (@length _)) in SK. rewrite skipn_length in SK. lia.
Qed.

(** Termination with any rounding. *)
Lemma accept_some rnd d : forall tp ku, length tp = length ku -> tp <> [] ->
  (0 < length (accept rnd d true tp ku) <= length tp)%nat.
Proof.
  assert (LE : forall tp ku b, (length (accept rnd d b tp ku) <= length tp)%nat).
  { induction tp as [|[T P] tp IH]; intros [|[K U] ku] b; cbn [accept length]; try lia.
    match goal with |- context [if ?x then _ else _] => destruct x end; cbn [length]; try lia. specialize (IH ku false). lia. }
  intros [|[T P] tp] [|[K U] ku] L N; simpl in L; try lia; try congruence.
  cbn [accept orb length]. specialize (LE tp ku false). lia.
Qed.
Lemma passes_terminate rnd : forall fuel K a prev rest ku, length ku = length rest -> (length rest <= fuel)%nat ->
  exists l a', passes rnd fuel K a prev rest ku = Some (l, a') /\ length l = length rest.
Proof.
  induction fuel as [|f IH]; intros K a prev [|c rest] ku L F; try (simpl in F; lia).
  1, 2: exists [], a; split; reflexivity.
  cbn [passes]. set (done := accept rnd _ true _ ku).
  assert (D : (0 < length done <= length (c :: rest))%nat).
  { pose proof (accept_some rnd (rnd (- fst (last (inhs rnd (c :: rest) prev) prev) / K)) (inhs rnd (c :: rest) prev) ku) as A.
    rewrite inhs_length in A. apply A; auto. discriminate. }
  clearbody done.
  match goal with |- context [passes rnd f ?K ?a ?p ?r ?k] => destruct (IH K a p r k) as (l & a' & E & LL) end.
  - rewrite !skipn_length, L. reflexivity.
  - rewrite skipn_length. cbn [length] in *. lia.
  - rewrite E. exists (done ++ l), a'. split; auto. rewrite app_length, LL, skipn_length. lia.
Qed.
