(** The recursion from the edge; plasma at rest. *)
From Coq Require Import Reals Lra ZArith Lia List Bool Arith Permutation.
From Coquelicot Require Import Coquelicot.
From Verif Require Import Model_Push Model_Interp Model_Psi Spec_Psi Proofs_Psi Model_BTheta Spec_BTheta Proofs_BTheta Proofs_BTheta2 Proofs_BTheta3.
Import ListNotations.
Open Scope R_scope.

Definition proper (x : R * coef) : Prop := c_r (snd x) <> 0 /\ fst x = c_A (snd x) * c_r (snd x).
Lemma edge_back x s : proper x -> edge_inh exact x (inh_step exact (snd x) s) = s.
Proof.
  destruct x as [qa c], s as [T P]. intros [N E]. cbn [fst snd] in *. unfold edge_inh, inh_step, exact. cbn [fst snd]. rewrite E.
  replace (-0.5) with (- / 2) by lra. replace 0.5 with (/ 2) by lra. replace 0.25 with (/ 4) by lra.
  f_equal; field; assumption.
Qed.
Lemma edge_forth x s : proper x -> hom_step exact (snd x) (edge_hom exact x s) = s.
Proof.
  destruct x as [qa c], s as [T P]. intros [N E]. cbn [fst snd] in *. unfold edge_hom, hom_step, exact. cbn [fst snd]. rewrite E.
  replace (-0.5) with (- / 2) by lra. replace 0.5 with (/ 2) by lra.
  f_equal; field; assumption.
Qed.
Lemma edge_linear x s h d : edge_inh exact x (plus2 s h d) = plus2 (edge_inh exact x s) (edge_hom exact x h) d.
Proof. destruct x as [qa c]. unfold edge_inh, edge_hom, plus2, exact; cbn [fst snd]; f_equal; unfold Rdiv; ring. Qed.
Lemma trace_length f l : forall s, length (fst (trace f l s)) = length l.
Proof. induction l as [|c l IH]; intros s; [reflexivity|]. cbn [trace]. specialize (IH (f c s)). destruct (trace f l (f c s)) as [t e]. simpl in *. auto. Qed.
Lemma trace_end f l : forall s, snd (trace f l s) = fold_left (fun s c => f c s) l s.
Proof. induction l as [|c l IH]; intros s; [reflexivity|]. cbn [trace fold_left]. rewrite <- IH. destruct (trace f l (f c s)). reflexivity. Qed.
Lemma trace_linear l : forall s h d, trace (edge_inh exact) l (plus2 s h d) =
  (zip (fst (trace (edge_inh exact) l s)) (fst (trace (edge_hom exact) l h)) d,
   plus2 (snd (trace (edge_inh exact) l s)) (snd (trace (edge_hom exact) l h)) d).
Proof.
  induction l as [|c l IH]; intros s h d; [reflexivity|]. cbn [trace]. rewrite edge_linear.
  specialize (IH (edge_inh exact c s) (edge_hom exact c h) d). rewrite IH.
  destruct (trace (edge_inh exact) l (edge_inh exact c s)), (trace (edge_hom exact) l (edge_hom exact c h)). reflexivity.
Qed.
Lemma trace_states f l : forall (S : nat -> R * R), (forall j, (j < length l)%nat -> f (nth j l (0, mkc 0 0 0 0)) (S j) = S (j + 1)%nat) ->
  trace f l (S 0%nat) = (map S (seq 0 (length l)), S (length l)).
Proof.
  induction l as [|c l IH]; intros S H; [reflexivity|]. cbn [trace].
  pose proof (H 0%nat ltac:(simpl; lia)) as H0. cbn [nth] in H0. rewrite H0.
  assert (T : trace f l (S (0 + 1)%nat) = (map (fun j => S (j + 1)%nat) (seq 0 (length l)), S (length l + 1)%nat)).
  1: apply (IH (fun j => S (j + 1)%nat)).
  2: rewrite T.
  2:{
    cbn [length seq map]. f_equal.
    + f_equal. rewrite <- seq_shift, map_map. apply map_ext. intros a. f_equal. lia.
    + f_equal. lia. }
  - intros j J. pose proof (H (Datatypes.S j) ltac:(simpl; lia)) as HJ. cbn [nth] in HJ.
    replace (j + 1)%nat with (Datatypes.S j) by lia. rewrite HJ. f_equal; lia.
Qed.
Lemma trace_skip f l : forall s m dflt, (m < length l)%nat ->
  trace f (skipn m l) (nth m (fst (trace f l s)) dflt) = (skipn m (fst (trace f l s)), snd (trace f l s)).
Proof.
  induction l as [|c l IH]; intros s m dflt M; simpl in M; [lia|].
  destruct m as [|m].
  - cbn [skipn trace]. destruct (trace f l (f c s)) eqn:E. cbn [fst snd nth]. rewrite E. reflexivity.
  - cbn [skipn trace]. specialize (IH (f c s) m dflt ltac:(lia)). destruct (trace f l (f c s)). cbn [fst snd nth skipn] in *. exact IH.
Qed.
Lemma edge_accept_prefix d : forall tp ku first, length tp = length ku ->
  exists m, (m <= length tp)%nat /\ (first = true -> tp <> [] -> (0 < m)%nat) /\
    edge_accept exact d first tp ku = firstn m (zip tp ku d).
Proof.
  induction tp as [|[T P] tp IH]; intros [|[K U] ku] first L; simpl in L; try lia.
  - exists 0%nat. repeat split; auto. congruence.
  - cbn [edge_accept]. match goal with |- context [if ?b then _ else _] => destruct b eqn:E end.
    + destruct (IH ku false ltac:(lia)) as (m & M & _ & A). exists (S m). simpl. repeat split; try lia.
      unfold plus2, exact in *. cbn [fst snd]. rewrite A. f_equal. f_equal; ring.
    + exists 0%nat. simpl. repeat split; try lia. intros ->. discriminate.
Qed.
Lemma edge_accept_zero : forall tp ku first, length tp = length ku -> edge_accept exact 0 first tp ku = tp.
Proof.
  induction tp as [|[T P] tp IH]; intros [|[K U] ku] first L; simpl in L; try lia; auto.
  cbn [edge_accept]. unfold exact. rewrite !Rmult_0_r, precise_zero, !orb_true_r, !Rplus_0_r. f_equal.
  apply IH. lia.
Qed.
Lemma edge_passes_done rnd f ku_0 prev ku : edge_passes rnd f ku_0 prev [] ku = Some ([], prev).
Proof. destruct f; reflexivity. Qed.
Lemma skipn_nth_cons {A} (l : list A) m d : (m < length l)%nat -> skipn m l = nth m l d :: skipn (S m) l.
Proof. revert m; induction l as [|a t IH]; intros k K; simpl in K; [lia|]. destruct k; simpl; auto. apply IH. lia. Qed.
Lemma zip_nth d : forall tp ku m, length tp = length ku -> (m < length tp)%nat ->
  nth m (zip tp ku d) (0, 0) = plus2 (nth m tp (0, 0)) (nth m ku (0, 0)) d.
Proof. induction tp as [|a tp IH]; intros [|b ku] m L M; simpl in *; try lia. destruct m; auto. apply IH; lia. Qed.
(** One pass of the loop. *)
Definition edge_pass (rnd : R -> R) (f : nat) (ku_0 prev : R * R) (rest : list (R * coef)) (ku : list (R * R)) :=
  let '(tp, e) := trace (edge_inh rnd) rest prev in
  let d := rnd (- snd e / snd ku_0) in
  let done := edge_accept rnd d true tp ku in
  let n := length done in
  let next := match skipn n tp, skipn n ku with
              | (T, P) :: _, (K, U) :: _ => (rnd (T + K * d), rnd (P + U * d))
              | _, _ => (rnd (fst e + fst ku_0 * d), rnd (snd e + snd ku_0 * d)) end in
  match edge_passes rnd f ku_0 next (skipn n rest) (skipn n ku) with
  | None => None
  | Some (more, s) => Some (done ++ more, s)
  end.
Lemma edge_passes_S rnd f ku_0 prev rest ku : rest <> [] -> edge_passes rnd (S f) ku_0 prev rest ku = edge_pass rnd f ku_0 prev rest ku.
Proof. destruct rest; [congruence|reflexivity]. Qed.
Lemma edge_exact f l bN : let tr := trace (edge_inh exact) l in let hs := trace (edge_hom exact) l (0, 1) in
  snd (snd hs) <> 0 -> snd (snd (tr (0, bN))) = 0 -> l <> [] ->
  edge_passes exact (S (S f)) (snd hs) (0, 0) l (fst hs) = Some (tr (0, bN)).
Proof.
  intros tr hs U0 END NE. rewrite edge_passes_S by assumption. unfold edge_pass.
  assert (LIN : tr (0, bN) = (zip (fst (tr (0, 0))) (fst hs) bN, plus2 (snd (tr (0, 0))) (snd hs) bN)).
  { unfold tr, hs. rewrite <- trace_linear. unfold plus2. cbn [fst snd]. f_equal. f_equal; ring. }
  assert (LT : length (fst (tr (0, 0))) = length l) by apply trace_length.
  assert (LH : length (fst hs) = length l) by apply trace_length.
  assert (LB : length (fst (tr (0, bN))) = length l) by apply trace_length.
  change (trace (edge_inh exact) l (0, 0)) with (tr (0, 0)). destruct (tr (0, 0)) as [tp e] eqn:TR. cbn [fst snd] in LIN, LT.
  assert (D : exact (- snd e / snd (snd hs)) = bN).
  { rewrite LIN in END. unfold plus2 in END. cbn [fst snd] in END. unfold exact. replace (snd e) with (- (bN * snd (snd hs))) by lra. field. assumption. }
  cbv zeta. rewrite D.
  destruct (edge_accept_prefix bN tp (fst hs) true) as (m & M & MP & ->). { lia. }
  assert (ZZ : zip tp (fst hs) bN = fst (tr (0, bN))) by (rewrite LIN; reflexivity).
  rewrite ZZ. rewrite firstn_length, LB, Nat.min_l by lia.
  assert (NT : tp <> []). { intros ->. destruct l; [congruence|discriminate]. }
  specialize (MP eq_refl NT).
  destruct (Nat.eq_dec m (length l)) as [->|NM].
  - rewrite (skipn_all l). rewrite (skipn_all2 tp) by lia. cbn match. rewrite edge_passes_done.
    rewrite firstn_all2 by lia. rewrite app_nil_r. rewrite (surjective_pairing (tr (0, bN))). f_equal. f_equal.
    rewrite LIN. cbn [snd]. unfold plus2, exact. f_equal; ring.
  - assert (ML : (m < length l)%nat) by lia.
    rewrite (skipn_nth_cons tp m (0, 0)) by lia. rewrite (skipn_nth_cons (fst hs) m (0, 0)) by lia.
    destruct (nth m tp (0, 0)) as [T P] eqn:ET. destruct (nth m (fst hs) (0, 0)) as [K U] eqn:EK. cbn match.
    replace (exact (T + K * bN), exact (P + U * bN)) with (nth m (fst (tr (0, bN))) (0, 0)).
    2: { rewrite <- ZZ, zip_nth by lia. rewrite ET, EK. unfold plus2, exact. cbn [fst snd]. f_equal; ring. }
    rewrite <- EK. rewrite <- (skipn_nth_cons (fst hs) m (0, 0)) by lia.
    rewrite edge_passes_S. 2: { intros E. apply (f_equal (@length _)) in E. rewrite skipn_length in E. change (length (@nil (R * coef))) with 0%nat in E. lia. }
    unfold edge_pass. rewrite trace_skip by assumption. fold tr. rewrite END. cbv zeta.
    replace (exact (- 0 / snd (snd hs))) with 0 by (unfold exact; field; assumption).
    rewrite edge_accept_zero by (rewrite !skipn_length; lia). rewrite skipn_length, LB.
    rewrite (skipn_all2 (skipn m l)) by (rewrite skipn_length; lia).
    rewrite (skipn_all2 (skipn m (fst (tr (0, bN))))) by (rewrite skipn_length; lia). rewrite edge_passes_done, app_nil_r, firstn_skipn.
    destruct (tr (0, bN)) as [tb [e1 e2]]. cbn [fst snd] in *. subst e2. f_equal. f_equal. unfold exact. f_equal; ring.
Qed.
Lemma hom_end_scale l k : forall s, hom_end l (k * fst s, k * snd s) = (k * fst (hom_end l s), k * snd (hom_end l s)).
Proof.
  induction l as [|c l IH]; intros s; [reflexivity|]. unfold hom_end in *. cbn [fold_left]. rewrite <- IH. f_equal.
  unfold hom_step, exact. cbn [fst snd]. f_equal; unfold Rdiv; ring.
Qed.
Lemma hom_end_back l s : List.Forall proper l ->
  hom_end (map snd l) (fold_left (fun s x => edge_hom exact x s) (rev l) s) = s.
Proof.
  intros H. rewrite <- (fold_left_rev_right (fun x s => edge_hom exact x s)), rev_involutive. induction H as [|x l P _ IH]; [reflexivity|].
  cbn [map fold_right]. unfold hom_end in *. cbn [fold_left]. rewrite edge_forth by assumption. exact IH.
Qed.

Section EdgeResult.
  Variables (p : plasma) (idx : list nat).
  Hypothesis ORD : orders idx (e_r p).
  Hypothesis REG : regular p.
  Let n := length (e_r p).
  Let shot := shoot (chain p idx).
  Let pair (i : nat) := (nth i (e_q p) 0 / (1 + nth i (e_psi p) 0), coefficients p i).
  Lemma pair_proper i : (i < n)%nat -> proper (pair i).
  Proof.
    intros I. pose proof (r_pos p REG i I) as R0. pose proof (psi_pos p REG i I) as P0. unfold at_ in *.
    split; cbn [fst snd pair]; [unfold coefficients; cbn [c_r]; lra|]. unfold pair. cbn [fst snd]. unfold coefficients. cbn [c_A c_r]. field. lra.
  Qed.
  Lemma pairs_proper : List.Forall proper (map pair idx).
  Proof. apply Forall_forall. intros x X. apply in_map_iff in X. destruct X as (i & <- & I). apply pair_proper. eapply orders_lt; eauto. Qed.
  Lemma nonsingular : snd (snd (trace (edge_hom exact) (map pair (rev idx)) (0, 1))) <> 0.
  Proof.
    rewrite trace_end, map_rev. set (e := fold_left _ (rev (map pair idx)) (0, 1)). intros Z.
    pose proof (hom_end_back (map pair idx) (0, 1) pairs_proper) as H. fold e in H.
    assert (MC : map snd (map pair idx) = chain p idx) by (rewrite map_map; reflexivity). rewrite MC in H.
    rewrite (surjective_pairing e), Z in H.
    replace (fst e, 0) with (fst e * fst (1, 0), fst e * snd (1, 0)) in H by (cbn [fst snd]; f_equal; ring).
    rewrite hom_end_scale in H. pose proof (growth p idx ORD REG) as G.
    assert (H1 := f_equal fst H). assert (H2 := f_equal snd H). cbn [fst snd] in H1, H2. apply Rmult_integral in H1. destruct H1 as [H1|H1]; [|lra]. rewrite H1 in H2. lra.
  Qed.
  Lemma back_nth k : (k < n)%nat -> nth k (rev idx) 0%nat = nth (n - 1 - k) idx 0%nat.
  Proof. intros K. pose proof (idx_length p idx ORD) as L. fold n in L. rewrite rev_nth by lia. f_equal. lia. Qed.
  Lemma edge_states : trace (edge_inh exact) (map pair (rev idx)) (st p idx shot n) =
    (map (fun j => st p idx shot (n - j)) (seq 0 n), (shot, 0)).
  Proof.
    pose proof (idx_length p idx ORD) as L. fold n in L.
    assert (LB : length (map pair (rev idx)) = n) by (rewrite map_length, rev_length; exact L).
    pose proof (trace_states (edge_inh exact) (map pair (rev idx)) (fun j => st p idx shot (n - j))) as T.
    cbv beta in T. rewrite Nat.sub_0_r, LB, Nat.sub_diag in T. rewrite T; [reflexivity|].
    intros j J. rewrite (nth_indep _ (0, mkc 0 0 0 0) (pair 0%nat)) by (rewrite LB; exact J). rewrite map_nth, back_nth by auto.
    replace (n - j)%nat with (S (n - 1 - j)) by lia. rewrite st_S by (auto; fold n; lia).
    change (coefficients p (nth (n - 1 - j) idx 0%nat)) with (snd (pair (nth (n - 1 - j) idx 0%nat))).
    rewrite edge_back by (apply pair_proper; apply (idx_lt p idx ORD); fold n; lia). f_equal. lia.
  Qed.
  Lemma edge_is_axis f : ai_bi_from_edge exact (S (S f)) p idx = ai_bi_from_axis exact (S (S f)) p idx.
  Proof.
    pose proof (idx_length p idx ORD) as L. fold n in L.
    destruct (axis_result p idx ORD REG f) as (a & b & -> & LA & LB & AB).
    change (shoot (chain p idx)) with shot in AB |- *. change (length (e_r p)) with n in LA, LB, AB |- *.
    unfold ai_bi_from_edge. fold pair. change (map (fun i => (nth i (e_q p) 0 / (1 + nth i (e_psi p) 0), coefficients p i)) (rev idx)) with (map pair (rev idx)).
    assert (R : exists tp, (let '(ku, ku_0) := trace (edge_hom exact) (map pair (rev idx)) (0, 1) in
       edge_passes exact (S (S f)) ku_0 (0, 0) (map pair (rev idx)) ku) = Some (tp, (shot, 0)) /\ tp = map (fun j => st p idx shot (n - j)) (seq 0 n)).
    { exists (map (fun j => st p idx shot (n - j)) (seq 0 n)). split; [|reflexivity].
      destruct (trace (edge_hom exact) (map pair (rev idx)) (0, 1)) as [ku ku_0] eqn:H.
      destruct (Nat.eq_dec n 0) as [Z|NZ].
      - assert (idx = []) by (destruct idx; [reflexivity|simpl in L; lia]). subst idx. rewrite Z. cbn [rev map seq]. rewrite edge_passes_done.
        f_equal. f_equal. unfold shot, chain, shoot, inh_end, hom_end. cbn. f_equal; lra.
      - rewrite <- edge_states. assert (E0 : st p idx shot n = (0, snd (st p idx shot n))).
        { rewrite (surjective_pairing (st p idx shot n)) at 1. f_equal. unfold n. rewrite st_n by auto. apply shoot_hits. pose proof (growth p idx ORD REG). lra. }
        rewrite E0. pose proof (edge_exact f (map pair (rev idx)) (snd (st p idx shot n))) as X. cbv zeta in X. rewrite H in X. cbn [fst snd] in X. apply X.
        + pose proof nonsingular as NS. rewrite H in NS. exact NS.
        + rewrite <- E0. rewrite edge_states. reflexivity.
        + intros E. apply (f_equal (@length _)) in E. rewrite map_length, rev_length in E. simpl in E. lia. }
    destruct R as (tp & R & TP). destruct (trace (edge_hom exact) (map pair (rev idx)) (0, 1)) as [ku ku_0]. rewrite R. cbn [fst].
    assert (NB : NoDup (rev idx)) by (apply NoDup_rev; eapply orders_nodup; eauto).
    assert (IB : forall i, In i (rev idx) -> (i < length (repeat 0%R n))%nat).
    { intros i I. rewrite repeat_length. apply in_rev in I. eapply orders_lt; eauto. }
    assert (TL : length tp = n) by (rewrite TP, map_length, seq_length; reflexivity).
    assert (EN : forall j, (j < n)%nat -> nth j tp (0, 0) = st p idx shot (n - j)).
    { intros j J. rewrite TP. rewrite (nth_indep _ (0, 0) ((fun j => st p idx shot (n - j)) 0%nat)) by (rewrite map_length, seq_length; auto).
      rewrite (map_nth (fun j => st p idx shot (n - j))), seq_nth by auto. reflexivity. }
    f_equal. f_equal. f_equal.
    - apply (nth_ext _ _ 0 0). { rewrite put_length, repeat_length. symmetry. exact LA. }
      intros i I. rewrite put_length, repeat_length in I. destruct (orders_hit idx (e_r p) i ORD I) as (k & K & <-). fold n in K.
      rewrite (proj1 (AB k K)). replace (nth k idx 0%nat) with (nth (n - 1 - k) (rev idx) 0%nat) by (rewrite back_nth by lia; f_equal; lia).
      rewrite put_nth; [|exact NB|exact IB|rewrite map_length, rev_length; congruence|rewrite rev_length, L; lia].
      rewrite map_nth_pair, EN by (auto; lia). f_equal. f_equal. lia.
    - apply (nth_ext _ _ 0 0). { rewrite put_length, repeat_length. symmetry. exact LB. }
      intros i I. rewrite put_length, repeat_length in I. destruct (orders_hit idx (e_r p) i ORD I) as (k & K & <-). fold n in K.
      rewrite (proj2 (AB k K)). replace (nth k idx 0%nat) with (nth (n - 1 - k) (rev idx) 0%nat) by (rewrite back_nth by lia; f_equal; lia).
      rewrite put_nth; [|exact NB|exact IB|rewrite map_length, rev_length; congruence|rewrite rev_length, L; lia].
      rewrite map_nth_pair, EN by (auto; lia). f_equal. f_equal. lia.
  Qed.
End EdgeResult.

(** Termination with any rounding. *)
Lemma edge_accept_some rnd d : forall tp ku, length tp = length ku -> tp <> [] ->
  (0 < length (edge_accept rnd d true tp ku) <= length tp)%nat.
Proof.
  assert (LE : forall tp ku b, (length (edge_accept rnd d b tp ku) <= length tp)%nat).
  { induction tp as [|[T P] tp IH]; intros [|[K U] ku] b; cbn [edge_accept length]; try lia.
    match goal with |- context [if ?x then _ else _] => destruct x end; cbn [length]; try lia. specialize (IH ku false). lia. }
  intros [|[T P] tp] [|[K U] ku] L N; simpl in L; try lia; try congruence.
  cbn [edge_accept orb length]. specialize (LE tp ku false). lia.
Qed.
Lemma edge_terminate rnd : forall fuel ku_0 prev rest ku, length ku = length rest -> (length rest <= fuel)%nat ->
  exists l s, forall more, edge_passes rnd (fuel + more) ku_0 prev rest ku = Some (l, s).
Proof.
  induction fuel as [|f IH]; intros ku_0 prev rest ku L F.
  - destruct rest; [|simpl in F; lia]. exists [], prev. intros more. apply edge_passes_done.
  - destruct rest as [|c rest]. { exists [], prev. intros more. apply edge_passes_done. }
    pose proof (trace_length (edge_inh rnd) (c :: rest) prev) as TL.
    destruct (trace (edge_inh rnd) (c :: rest) prev) as [tp e] eqn:TR. cbn [fst] in TL.
    set (d := rnd (- snd e / snd ku_0)). set (done := edge_accept rnd d true tp ku).
    assert (D : (0 < length done <= length tp)%nat) by (apply edge_accept_some; [lia|intros ->; discriminate]).
    set (next := match skipn (length done) tp, skipn (length done) ku with
              | (T, P) :: _, (K, U) :: _ => (rnd (T + K * d), rnd (P + U * d))
              | _, _ => (rnd (fst e + fst ku_0 * d), rnd (snd e + snd ku_0 * d)) end).
    destruct (IH ku_0 next (skipn (length done) (c :: rest)) (skipn (length done) ku)) as (l & s & E).
    { rewrite !skipn_length, L. reflexivity. }
    { rewrite skipn_length. cbn [length] in *. lia. }
    exists (done ++ l), s. intros more. change (S f + more)%nat with (S (f + more)). rewrite edge_passes_S by discriminate.
    unfold edge_pass. rewrite TR. cbv zeta. fold d. fold done. fold next. rewrite E. reflexivity.
Qed.
Lemma edge_ends rnd p idx : length idx = length (e_r p) ->
  exists res, forall fuel, (length (e_r p) <= fuel)%nat -> ai_bi_from_edge rnd fuel p idx = Some res.
Proof.
  intros L. unfold ai_bi_from_edge. set (cs := map _ (rev idx)).
  assert (LC : length cs = length (e_r p)) by (unfold cs; rewrite map_length, rev_length; exact L).
  pose proof (trace_length (edge_hom rnd) cs (0, 1)) as TL. destruct (trace (edge_hom rnd) cs (0, 1)) as [ku ku_0].
  cbn [fst] in TL. destruct (edge_terminate rnd (length cs) ku_0 (0, 0) cs ku TL (le_n _)) as (l & s & E).
  eexists. intros fuel F. replace fuel with (length cs + (fuel - length cs))%nat by lia. rewrite E. reflexivity.
Qed.
Lemma zero_solves p : regular p -> quiet p -> solves p (fun _ => 0) (fun _ => 0).
Proof.
  intros REG Q. split.
  - intros x X N. apply (is_derive_ext (fun _ => 0)). { intros t. match goal with |- @eq _ ?a ?b => change (@eq R a b) end. ring. }
    rewrite Rmult_0_r. apply @is_derive_const.
  - intros x X N. apply @is_derive_const.
  - intros i I. destruct (Q i I) as (PR & GA & DP & B0 & NA). exists 0, 0, 0, 0.
    split; [apply filterlim_const|]. split; [apply filterlim_const|]. split; [apply filterlim_const|]. split; [apply filterlim_const|].
    pose proof (psi_pos p REG i I) as P0. split.
    + unfold speed. rewrite PR, GA. field. lra.
    + unfold radial_current, force, potential_change, speed. rewrite PR, GA, DP, B0, NA.
      apply (is_derive_ext (fun _ => 0)).
      * intros t. match goal with |- @eq _ ?a ?b => change (@eq R a b) end. unfold Rdiv. ring.
      * replace (- (0 - 0)) with 0 by ring. apply @is_derive_const.
  - apply filterlim_const.
  - reflexivity.
Qed.

(** Every list can be sorted. *)
Lemma insert_index (r : list R) i : forall l, (forall a b, (a < b < length l)%nat -> nth (nth a l 0%nat) r 0 <= nth (nth b l 0%nat) r 0) ->
  exists l', Permutation (i :: l) l' /\ forall a b, (a < b < length l')%nat -> nth (nth a l' 0%nat) r 0 <= nth (nth b l' 0%nat) r 0.
Proof.
  induction l as [|j l IH]; intros H.
  - exists [i]. split; auto. simpl. lia.
  - destruct (Rle_dec (nth i r 0) (nth j r 0)) as [L|L].
    + exists (i :: j :: l). split; auto. intros a b AB. destruct a as [|a].
      * destruct b as [|b]; [lia|]. cbn [nth]. eapply Rle_trans; [exact L|]. destruct b as [|b]; [right; reflexivity|].
        apply (H 0%nat (S b)). simpl in *. lia.
      * destruct b as [|b]; [lia|]. apply (H a b). simpl in *. lia.
    + destruct IH as (l' & P & S). { intros a b AB. apply (H (Datatypes.S a) (Datatypes.S b)). simpl. lia. }
      exists (j :: l'). split. { rewrite perm_swap. constructor. exact P. }
      intros a b AB. destruct a as [|a]; (destruct b as [|b]; [lia|]); cbn [nth].
      * assert (B : In (nth b l' 0%nat) (i :: l)). { apply (Permutation_in _ (Permutation_sym P)). apply nth_In. simpl in AB. lia. }
        destruct B as [<-|B]; [lra|]. destruct (In_nth _ _ 0%nat B) as (c & C & <-). apply (H 0%nat (Datatypes.S c)). simpl. lia.
      * apply S. simpl in AB. lia.
Qed.
Lemma sort_exists (r : list R) : exists idx, orders idx r.
Proof.
  assert (G : forall l, exists l', Permutation l l' /\ forall a b, (a < b < length l')%nat -> nth (nth a l' 0%nat) r 0 <= nth (nth b l' 0%nat) r 0).
  { induction l as [|i l (l1 & P & S)]. { exists []. split; auto. simpl; lia. }
    destruct (insert_index r i l1 S) as (l2 & P2 & S2). exists l2. split; auto. rewrite P. exact P2. }
  destruct (G (seq 0 (length r))) as (idx & P & S). exists idx. split; [apply Permutation_sym, P|].
  intros i j IJ. apply S. rewrite <- (Permutation_length P), seq_length. exact IJ.
Qed.
Lemma assign_in i v a x : In x (assign i v a) -> x = v \/ In x a.
Proof. revert i; induction a as [|y a IH]; intros [|i] H; simpl in *; auto. destruct H as [->|H]; auto. destruct H as [->|H]; auto. destruct (IH _ H); auto. Qed.
Lemma put_in idx : forall v a x, In x (put idx v a) -> In x v \/ In x a.
Proof.
  induction idx as [|i idx IH]; intros [|y v] a x H; cbn [put] in *; auto.
  destruct (IH _ _ _ H) as [H1|H1]; [left; right; auto|]. destruct (assign_in _ _ _ _ H1) as [->|H2]; [left; left; auto|right; auto].
Qed.
Lemma particle_bound rnd fuel p idx dr_p v : b_theta_at_particles rnd fuel p idx dr_p = Some v ->
  forall x, In x v -> -3 <= x <= 3.
Proof.
  unfold b_theta_at_particles. destruct (ai_bi_from_axis rnd fuel p idx) as [[[a b] a_0]|]; [|discriminate].
  intros E x X. injection E as <-. apply put_in in X. destruct X as [X|X].
  - apply in_map_iff in X. destruct X as (y & <- & _). unfold clip3. destruct (Rlt_dec 3 y); destruct (Rlt_dec _ (-3)); lra.
  - apply repeat_spec in X. subst. lra.
Qed.

Definition kept (rnd : R -> R) (d : R) (tp ku : list (R * R)) (j : nat) : Prop :=
  no_cancellation (fst (nth j tp (0, 0))) (rnd (fst (nth j ku (0, 0)) * d)) /\
  no_cancellation (snd (nth j tp (0, 0))) (rnd (snd (nth j ku (0, 0)) * d)).
Lemma precise_iff T P K U : precise T P K U = true <-> no_cancellation T K /\ no_cancellation P U.
Proof.
  unfold precise, no_cancellation. replace 0.5 with (/ 2) by lra.
  destruct (Rle_dec _ _) as [A|A]; destruct (Rle_dec _ _) as [B|B]; simpl; split; intros H; try discriminate; auto;
    try (split; lra); exfalso; destruct H; lra.
Qed.
Lemma accept_kept rnd d : forall tp ku b k, length tp = length ku -> (k < length tp)%nat ->
  ((k < length (accept rnd d b tp ku))%nat <->
   (forall j, (j <= k)%nat -> (b = true /\ j = 0%nat) \/ S j = length tp \/ kept rnd d tp ku j)).
Proof.
  induction tp as [|[T P] tp IH]; intros [|[K U] ku] b k L KL; cbn [length] in *; try lia.
  cbn [accept]. set (test := orb b _).
  assert (TT : test = true <-> (b = true \/ tp = [] \/ kept rnd d ((T, P) :: tp) ((K, U) :: ku) 0)).
  { unfold test. rewrite !orb_true_iff. unfold kept. cbn [nth fst snd]. rewrite precise_iff. destruct tp; split; intros [H|[H|H]]; auto; discriminate. }
  destruct test; cbn [length].
  - destruct k as [|k].
    + split; [|lia]. intros _ j J. replace j with 0%nat by lia. destruct (proj1 TT eq_refl) as [H|[H|H]]; auto.
      right. left. subst. reflexivity.
    + specialize (IH ku false k ltac:(lia) ltac:(lia)). split; intros H.
      * intros [|j] J. { destruct (proj1 TT eq_refl) as [H1|[H1|H1]]; auto. subst. cbn in KL. lia. }
        destruct (proj1 IH ltac:(lia) j ltac:(lia)) as [[A _]|[A|A]]; [discriminate|right; left; lia|right; right; exact A].
      * apply -> Nat.succ_lt_mono. apply IH. intros j J. destruct (H (S j) ltac:(lia)) as [[_ A]|[A|A]]; [discriminate|right; left; lia|right; right; exact A].
  - split; [cbn; lia|]. intros H. exfalso. assert (false = true); [|discriminate]. apply TT.
    destruct (H 0%nat ltac:(lia)) as [[A _]|[A|A]]; auto. right. left. destruct tp; [reflexivity|cbn in A; lia].
Qed.
Lemma edge_accept_kept rnd d : forall tp ku b k, length tp = length ku -> (k < length tp)%nat ->
  ((k < length (edge_accept rnd d b tp ku))%nat <->
   (forall j, (j <= k)%nat -> (b = true /\ j = 0%nat) \/ kept rnd d tp ku j)).
Proof.
  induction tp as [|[T P] tp IH]; intros [|[K U] ku] b k L KL; cbn [length] in *; try lia.
  cbn [edge_accept]. set (test := orb b _).
  assert (TT : test = true <-> (b = true \/ kept rnd d ((T, P) :: tp) ((K, U) :: ku) 0)).
  { unfold test. rewrite !orb_true_iff. unfold kept. cbn [nth fst snd]. rewrite precise_iff. tauto. }
  destruct test; cbn [length].
  - destruct k as [|k].
    + split; [|lia]. intros _ j J. replace j with 0%nat by lia. destruct (proj1 TT eq_refl) as [H|H]; auto.
    + specialize (IH ku false k ltac:(lia) ltac:(lia)). split; intros H.
      * intros [|j] J. { destruct (proj1 TT eq_refl) as [H1|H1]; auto. }
        destruct (proj1 IH ltac:(lia) j ltac:(lia)) as [[A _]|A]; [discriminate|right; exact A].
      * apply -> Nat.succ_lt_mono. apply IH. intros j J. destruct (H (S j) ltac:(lia)) as [[_ A]|A]; [discriminate|right; exact A].
  - split; [cbn; lia|]. intros H. exfalso. assert (false = true); [|discriminate]. apply TT.
    destruct (H 0%nat ltac:(lia)) as [[A _]|A]; auto.
Qed.
