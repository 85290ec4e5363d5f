From Coq Require Import Reals Lra ZArith Lia String List Bool Arith Permutation.
From Coquelicot Require Import Coquelicot.
From Verif Require Import Model_Push Model_Interp Model_Deposit Model_Psi Proofs_Psi Model_BTheta Model_QS Spec_QS.
Import ListNotations.
Open Scope R_scope.

(** ** Orders of the pushers *)
Fixpoint prim (n : nat) (c : list R) (t : R) : R :=
  match c with [] => 0 | a :: l => a * t ^ n / INR n + prim (S n) l t end.
Lemma prim_derive : forall c n t, (0 < n)%nat -> is_derive (prim n c) t (t ^ (n - 1) * poly c t).
Proof.
  induction c as [|a l IH]; intros n t N; cbn [prim poly].
  - rewrite Rmult_0_r. apply (@is_derive_const R_AbsRing R_NormedModule).
  - destruct n as [|n]; [lia|]. replace (S n - 1)%nat with n by lia.
    replace (t ^ n * (a + t * poly l t)) with (a * t ^ n + t ^ S n * poly l t) by (cbn [pow]; ring).
    apply (@is_derive_plus R_AbsRing R_NormedModule).
    + auto_derive; [trivial|]. cbn [pred]. field. change (INR (S n) <> 0). apply not_0_INR. lia.
    + specialize (IH (S (S n)) t ltac:(lia)). replace (S (S n) - 1)%nat with (S n) in IH by lia. exact IH.
Qed.
Lemma poly_integral c a b : is_RInt (poly c) a b (prim 1 c b - prim 1 c a).
Proof.
  apply (is_RInt_ext (fun t => t ^ 0 * poly c t)). { intros. simpl. ring. }
  apply (is_RInt_derive (prim 1 c)).
  - intros x _. apply (prim_derive c 1 x). lia.
  - intros x _. apply (ex_derive_continuous (fun t => t ^ 0 * poly c t)).
    assert (E : forall c x, ex_derive (poly c) x).
    { induction c0; intros y; cbn [poly]. { apply ex_derive_const. } auto_derive. auto. }
    specialize (E c x). auto_derive. auto.
Qed.
Lemma ab5_exact c t h x : (length c <= 5)%nat ->
  is_RInt (poly c) t (t + h)
    (apply_ab5 x h (poly c t) (mkm (poly c (t - h)) (poly c (t - 2 * h)) (poly c (t - 3 * h)) (poly c (t - 4 * h))) - x).
Proof.
  intros L. replace (_ - x) with (prim 1 c (t + h) - prim 1 c t); [apply poly_integral|].
  unfold apply_ab5. cbn [m2 m3 m4 m5].
  destruct c as [|c0 [|c1 [|c2 [|c3 [|c4 [|]]]]]]; cbn [length] in L; try lia; cbn [prim poly];
    rewrite ?INR_IZR_INZ; cbn [Z.of_nat Pos.of_succ_nat Pos.succ]; field.
Qed.
Lemma rk4_exact c t h x : (length c <= 4)%nat ->
  is_RInt (poly c) t (t + h)
    (apply_rk4 x h (poly c t) (poly c (t + h / 2)) (poly c (t + h / 2)) (poly c (t + h)) - x).
Proof.
  intros L. replace (_ - x) with (prim 1 c (t + h) - prim 1 c t); [apply poly_integral|].
  unfold apply_rk4.
  destruct c as [|c0 [|c1 [|c2 [|c3 [|]]]]]; cbn [length] in L; try lia; cbn [prim poly];
    rewrite ?INR_IZR_INZ; cbn [Z.of_nat Pos.of_succ_nat Pos.succ]; field.
Qed.

(** ** Reflection, ab5 *)
Lemma nth_map_seq {A} (f : nat -> A) n i d : (i < n)%nat -> nth i (map f (seq 0 n)) d = f i.
Proof. intros H. rewrite (nth_indep _ d (f 0%nat)) by (rewrite map_length, seq_length; auto). rewrite map_nth, seq_nth by auto. reflexivity. Qed.
Lemma map2_length' {A B C} (f : A -> B -> C) : forall a b, length (map2 f a b) = Nat.min (length a) (length b).
Proof. induction a as [|x a IH]; intros [|y b]; cbn; auto. Qed.
Lemma map2_nth' {A B C} (f : A -> B -> C) da db d : forall a b i, (i < length a)%nat -> (i < length b)%nat ->
  nth i (map2 f a b) d = f (nth i a da) (nth i b db).
Proof.
  induction a as [|x a IH]; intros [|y b] [|i] H K; cbn [length] in *; try lia; cbn; auto. apply IH; lia.
Qed.
Definition act (v : event) (i : nat) (e : electron) : electron :=
  mkel (l_r e) (if nth i (v_stop v) false then 0 else l_pr e) (l_dr e) (l_dpr e).
Definition rate (v : event) (i : nat) (pr : R) : R * R := (pr / (1 + nth i (f_psi (v_felt v)) 0), pull v i).
Lemma nth_src (l : list (R * R * R)) i : (entry (b0_of l) i, entry (na2_of l) i, entry (a2_of l) i) =
  let '(a2, na2, b0) := nth i l (0, 0, 0) in (b0, na2, a2).
Proof.
  unfold entry, b0_of, na2_of, a2_of.
  pose proof (map_nth (fun s : R * R * R => snd s) l (0, 0, 0) i) as A.
  pose proof (map_nth (fun s : R * R * R => snd (fst s)) l (0, 0, 0) i) as B.
  pose proof (map_nth (fun s : R * R * R => fst (fst s)) l (0, 0, 0) i) as C.
  cbn [fst snd] in A, B, C. change (fun s : R * R * R => snd s) with (@snd (R * R) R) in A. rewrite A, B, C.
  destruct (nth i l (0, 0, 0)) as [[a b] c]. reflexivity.
Qed.
Lemma derivative_rate v i pr :
  derivative pr (entry (v_gamma v) i) (entry (b0_of (f_src (v_felt v))) i) (entry (na2_of (f_src (v_felt v))) i)
    (entry (f_bt (v_felt v)) i) (entry (f_psi (v_felt v)) i) (entry (f_drpsi (v_felt v)) i) = rate v i pr.
Proof.
  unfold derivative, rate, pull. pose proof (nth_src (f_src (v_felt v)) i) as E.
  destruct (nth i (f_src (v_felt v)) (0, 0, 0)) as [[a b] c].
  assert (E1 := f_equal (fun t => fst (fst t)) E). assert (E2 := f_equal (fun t => snd (fst t)) E). cbn in E1, E2. rewrite E1, E2.
  f_equal. unfold entry. ring.
Qed.
Lemma ab5_electron U st v i : length (t_r st) = length (t_pr st) -> event_of (length (t_r st)) v -> (i < length (t_r st))%nat ->
  electron_at (evolve_plasma_ab5 U (prepare st v)) i =
  push_ab5 (u_dxi U) (rate v i (l_pr (act v i (electron_at st i)))) (act v i (electron_at st i)).
Proof.
  intros L (E1 & E2 & E3 & E4 & E5 & E6) I.
  unfold electron_at at 1. unfold evolve_plasma_ab5. cbn [t_r t_pr t_mem].
  set (d := derivatives _ _ _). set (n := length (t_r (prepare st v))).
  assert (N : n = length (t_r st)) by reflexivity.
  set (new := map _ (seq 0 n)).
  assert (LP : length (t_pr (prepare st v)) = length (t_r st)).
  { unfold prepare; cbn [t_pr]. rewrite map2_length'. rewrite E1, <- L. lia. }
  assert (EI : nth i new (mkel 0 0 (mkm 0 0 0 0) (mkm 0 0 0 0)) =
    push_ab5 (u_dxi U) (rate v i (l_pr (act v i (electron_at st i)))) (act v i (electron_at st i))).
  { unfold new. rewrite nth_map_seq by lia.
    assert (P : entry (t_pr (prepare st v)) i = l_pr (act v i (electron_at st i))).
    { unfold prepare, act, electron_at, entry; cbn [t_pr l_pr]. rewrite (map2_nth' _ false 0) by lia. reflexivity. }
    rewrite P.
    assert (D : nth i d (0, 0) = rate v i (l_pr (act v i (electron_at st i)))).
    { unfold d, derivatives. rewrite nth_map_seq by lia. rewrite P. apply (derivative_rate v i). }
    rewrite D. reflexivity. }
  assert (LN : length new = length (t_r st)). { unfold new. rewrite map_length, seq_length. exact N. }
  set (z := mkel 0 0 (mkm 0 0 0 0) (mkm 0 0 0 0)) in *.
  change 0 with (l_r z) at 1. rewrite map_nth.
  change 0 with (l_pr z) at 1. rewrite map_nth.
  change (mkm 0 0 0 0, mkm 0 0 0 0) with ((fun e => (l_dr e, l_dpr e)) z). rewrite map_nth. rewrite EI.
  destruct (push_ab5 _ _ _). reflexivity.
Qed.
Lemma electron_eq a b c d a' b' c' d' : a = a' -> b = b' -> c = c' -> d = d' -> mkel a b c d = mkel a' b' c' d'.
Proof. congruence. Qed.
Lemma memory_eq a b c d a' b' c' d' : a = a' -> b = b' -> c = c' -> d = d' -> mkm a b c d = mkm a' b' c' d'.
Proof. congruence. Qed.
(** One push of the image. *)
Lemma push_image dxi v i s e : (s = 1 \/ s = -1) ->
  let e1 := act v i (image s e) in
  exists s', (s' = 1 \/ s' = -1) /\ push_ab5 dxi (rate v i (l_pr e1)) e1 = image s' (free_push dxi i s v e) /\
    0 <= s' * l_r (free_push dxi i s v e).
Proof.
  intros HS e1. set (pr := if nth i (v_stop v) false then 0 else l_pr e).
  assert (P1 : l_pr e1 = s * pr). { unfold e1, act, image, pr; cbn [l_pr]. destruct (nth i (v_stop v) false); ring. }
  assert (SS : s * s = 1) by (destruct HS; subst; ring).
  assert (X : apply_ab5 (l_r e1) dxi (fst (rate v i (l_pr e1))) (l_dr e1) = s * l_r (free_push dxi i s v e)).
  { rewrite P1. unfold e1, act, image, rate, free_push, apply_ab5, adams, times_memory. cbn [fst l_r l_dr m2 m3 m4 m5]. fold pr.
    unfold Rdiv. set (k := / (1 + _)). clearbody k. field. }
  assert (Y : apply_ab5 (l_pr e1) dxi (snd (rate v i (l_pr e1))) (l_dpr e1) = s * l_pr (free_push dxi i s v e)).
  { rewrite P1. unfold e1, act, image, rate, free_push, apply_ab5, adams, times_memory. cbn [snd l_pr l_dpr m2 m3 m4 m5]. fold pr.
    replace (pull v i) with (s * s * pull v i) at 1 by (rewrite SS; ring). field. }
  assert (Z : shift (fst (rate v i (l_pr e1))) (l_dr e1) = times_memory s (l_dr (free_push dxi i s v e))).
  { rewrite P1. unfold e1, act, image, rate, free_push, shift, times_memory. cbn [fst l_dr m2 m3 m4 m5]. fold pr. apply memory_eq; unfold Rdiv; ring. }
  assert (W : shift (snd (rate v i (l_pr e1))) (l_dpr e1) = times_memory s (l_dpr (free_push dxi i s v e))).
  { unfold e1, act, image, rate, free_push, shift, times_memory. cbn [snd l_dpr m2 m3 m4 m5]. apply memory_eq; try ring.
    replace (pull v i) with (s * s * pull v i) at 1 by (rewrite SS; ring). ring. }
  set (F := free_push dxi i s v e) in *. clearbody F. unfold push_ab5. rewrite X, Y, Z, W.
  destruct (Rlt_dec (s * l_r F) 0) as [N|N].
  - exists (- s). split; [destruct HS; subst; lra|]. split; [|lra]. unfold image, flip, times_memory.
    apply electron_eq; try ring; apply memory_eq; cbn [m2 m3 m4 m5]; ring.
  - exists s. split; [exact HS|]. split; [reflexivity|lra].
Qed.
Lemma image_one e : image 1 e = e.
Proof. destruct e as [a b [c d f g] [h j k l]]. unfold image, times_memory. cbn. apply electron_eq; try ring; apply memory_eq; ring. Qed.
Lemma evolve_lengths U st v : length (t_r (evolve_plasma_ab5 U (prepare st v))) = length (t_r st) /\
  length (t_pr (evolve_plasma_ab5 U (prepare st v))) = length (t_r st).
Proof. unfold evolve_plasma_ab5. cbn [t_r t_pr]. rewrite !map_length, seq_length. auto. Qed.
Lemma history_lengths U : forall l st, length (t_r st) = length (t_pr st) ->
  length (t_r (history U l st)) = length (t_r st) /\ length (t_pr (history U l st)) = length (t_r st).
Proof.
  unfold history. induction l as [|v l IH]; intros st L; cbn [fold_left]; auto.
  destruct (evolve_lengths U st v) as [A B]. destruct (IH _ (eq_trans A (eq_sym B))) as [C D]. lia.
Qed.
Lemma history_snoc U l v st : history U (l ++ [v]) st = evolve_plasma_ab5 U (prepare (history U l st) v).
Proof. unfold history. rewrite fold_left_app. reflexivity. Qed.
Lemma ab5_reflects U st i l : length (t_r st) = length (t_pr st) -> (i < length (t_r st))%nat -> 0 <= nth i (t_r st) 0 ->
  List.Forall (event_of (length (t_r st))) l ->
  exists s e, (s = 1 \/ s = -1) /\ passes_axis (u_dxi U) i (electron_at st i) l s e /\
    electron_at (history U l st) i = image s e /\ 0 <= nth i (t_r (history U l st)) 0.
Proof.
  intros L I R0. induction l as [|v l IH] using rev_ind; intros F.
  - exists 1, (electron_at st i). split; [auto|]. split; [constructor|]. split; [rewrite image_one; reflexivity|exact R0].
  - apply Forall_app in F. destruct F as [F1 F2]. inversion F2 as [|? ? FV _]; subst.
    destruct (IH F1) as (s & e & S & PA & E & _). destruct (history_lengths U l st L) as [A B].
    rewrite history_snoc. rewrite <- A in FV.
    pose proof (ab5_electron U (history U l st) v i ltac:(lia) FV ltac:(lia)) as EE. rewrite E in EE.
    destruct (push_image (u_dxi U) v i s e S) as (s' & S' & P & N). rewrite P in EE.
    exists s', (free_push (u_dxi U) i s v e). split; [exact S'|]. split; [constructor; auto|]. split; [exact EE|].
    apply (f_equal l_r) in EE. cbn [electron_at l_r image] in EE. rewrite EE. exact N.
Qed.

(** ** Reflection, rk4 *)
Lemma map2_ext {A B C} (f g : A -> B -> C) : (forall a b, f a b = g a b) -> forall l m, map2 f l m = map2 g l m.
Proof. intros H. induction l as [|x l IH]; intros [|y m]; cbn; auto. rewrite H, IH. reflexivity. Qed.
Lemma map2_swap {A B C} (f : A -> B -> C) : forall l m, map2 f l m = map2 (fun b a => f a b) m l.
Proof. induction l as [|x l IH]; intros [|y m]; cbn; auto. rewrite IH. reflexivity. Qed.
Lemma side_sign x : side x = sign_of x. Proof. reflexivity. Qed.
Lemma flip_right s l : map2 Rmult l s = flipped s l.
Proof. unfold flipped. rewrite map2_swap. apply map2_ext. intros; ring. Qed.
Lemma list_eq_nth {A} (d : A) l m : length l = length m -> (forall i, (i < length l)%nat -> nth i l d = nth i m d) -> l = m.
Proof. intros; apply (nth_ext l m d d); auto. Qed.
Lemma at_lengths argsort U xi r pr old f g : at_particles argsort U xi r pr old = Ok (f, g) ->
  length (f_psi f) = length r /\ length (f_drpsi f) = length r /\ length (f_dxipsi f) = length r /\ length g = length pr.
Proof.
  unfold at_particles. destruct (gather_sources_qs_baxevanis _ _ _ _ _ _ _) as [src|]; cbn [bind]; [|discriminate].
  destruct (psi_at_particles r pr (u_q U) (argsort r) (u_rmax U) (u_drp U) (u_pc U)) as [[psi dr_psi] dxi_psi] eqn:E.
  intros H. injection H as <- <-. cbn [f_psi f_drpsi f_dxipsi]. unfold each. rewrite map_length, seq_length.
  unfold psi_at_particles in E. injection E as <- <- <-. rewrite !map_length. 
  assert (P : forall idx v a, length (put idx v a) = length a).
  { induction idx as [|i idx IH]; intros [|y v] a; cbn [put]; auto. rewrite IH.
    clear. revert i; induction a as [|z a IH]; intros [|i]; cbn [assign length]; auto. }
  rewrite !P, repeat_length. auto.
Qed.
Lemma derivatives_rates pr gamma f : length (f_psi f) = length pr ->
  map fst (derivatives pr gamma f) = map2 (fun p psi => p / (1 + psi)) pr (f_psi f) /\
  map snd (derivatives pr gamma f) = map (pull (mkev [] gamma f)) (seq 0 (length pr)).
Proof.
  intros L. unfold derivatives. rewrite !map_map. split.
  - apply (list_eq_nth 0). { rewrite map_length, seq_length, map2_length'. lia. }
    rewrite map_length, seq_length. intros i I. rewrite nth_map_seq by exact I. rewrite (map2_nth' _ 0 0) by lia. reflexivity.
  - apply map_ext. intros i. change (snd (derivative (entry pr i) (entry (v_gamma (mkev [] gamma f)) i) (entry (b0_of (f_src (v_felt (mkev [] gamma f)))) i)
      (entry (na2_of (f_src (v_felt (mkev [] gamma f)))) i) (entry (f_bt (v_felt (mkev [] gamma f))) i) (entry (f_psi (v_felt (mkev [] gamma f))) i)
      (entry (f_drpsi (v_felt (mkev [] gamma f))) i)) = pull (mkev [] gamma f) i). rewrite derivative_rate. reflexivity.
Qed.
Lemma map_map2 {A B C D} (g : C -> D) (f : A -> B -> C) : forall l m, map g (map2 f l m) = map2 (fun a b => g (f a b)) l m.
Proof. induction l as [|x l IH]; intros [|y m]; cbn; auto. rewrite IH. reflexivity. Qed.
Lemma map2_map_l {A A' B C} (g : A -> A') (f : A' -> B -> C) : forall l m, map2 f (map g l) m = map2 (fun a b => f (g a) b) l m.
Proof. induction l as [|x l IH]; intros [|y m]; cbn; auto. rewrite IH. reflexivity. Qed.
Lemma flip_pairs : forall (k : list (R * R)) s,
  map fst (map2 (fun d s => (fst d * s, snd d * s)) k s) = flipped s (map fst k) /\
  map snd (map2 (fun d s => (fst d * s, snd d * s)) k s) = flipped s (map snd k).
Proof.
  unfold flipped. induction k as [|[a b] k IH]; intros [|y s]; cbn; auto. destruct (IH s) as [-> ->].
  split; f_equal; ring.
Qed.
Lemma substep_rates argsort U xi r pr old : length r = length pr ->
  match derivatives_substep argsort U xi r pr old with
  | Ok (src, k) => signed_rates argsort U xi old r pr = Ok (map fst k, map snd k) /\ length k = length r
  | Fault e => signed_rates argsort U xi old r pr = Fault e
  end.
Proof.
  intros L. unfold derivatives_substep, signed_rates, column_rates.
  change (map side r) with (map sign_of r). set (s := map sign_of r).
  assert (LS : length s = length r) by apply map_length.
  rewrite (flip_right s r), (flip_right s pr).
  destruct (at_particles argsort U xi (flipped s r) (flipped s pr) old) as [[f g]|e] eqn:E; cbn [bind]; [|reflexivity].
  destruct (at_lengths _ _ _ _ _ _ _ _ E) as (A & _ & _ & B).
  assert (LF : length (flipped s r) = length r) by (unfold flipped; rewrite map2_length'; lia).
  assert (LF' : length (flipped s pr) = length r) by (unfold flipped; rewrite map2_length'; lia).
  destruct (derivatives_rates (flipped s pr) g f ltac:(lia)) as [D1 D2].
  split.
  - rewrite <- D1, <- D2. cbn [fst snd]. destruct (flip_pairs (derivatives (flipped s pr) g f) s) as [-> ->]. reflexivity.
  - rewrite map2_length'. unfold derivatives. rewrite map_length, seq_length. lia.
Qed.

Lemma moved_step h w x d : moved h w x d = step_to (h * w) x d.
Proof. unfold moved, step_to. apply map2_ext. intros; ring. Qed.
Lemma rk4_reflects argsort U xi st st' n : length (t_r st) = n -> length (t_pr st) = n -> length (f_psi (t_felt st)) = n ->
  evolve_plasma_rk4 argsort U xi st = Ok st' ->
  exists x u, runge_kutta (u_dxi U) (rates_now st)
      (signed_rates argsort U (xi - u_dxi U / 2) (t_sub2 st)) (signed_rates argsort U (xi - u_dxi U / 2) (t_sub3 st))
      (signed_rates argsort U (xi - u_dxi U) (t_sub4 st)) (t_r st) (t_pr st) = Ok (x, u) /\
    length x = n /\ length u = n /\ t_r st' = map Rabs x /\ t_pr st' = flipped (map sign_of x) u.
Proof.
  intros L1 L2 L3. unfold evolve_plasma_rk4, runge_kutta. set (h := u_dxi U). set (r := t_r st) in *. set (pr := t_pr st) in *.
  destruct (derivatives_rates pr (t_gamma st) (t_felt st) ltac:(lia)) as [K1 K1'].
  set (k1 := derivatives pr (t_gamma st) (t_felt st)) in *.
  assert (LK1 : length k1 = n) by (unfold k1, derivatives; rewrite map_length, seq_length; exact L2). clearbody k1.
  unfold rates_now. fold pr. rewrite <- K1, <- K1'. cbn [fst snd].
  rewrite !moved_step. replace (h * 0.5) with (h / 2) by lra. replace (h * 1) with h by ring.
  assert (LM : forall w x (k : list (R * R)) (g : R * R -> R), length x = n -> length k = n -> length (step_to w x (map g k)) = n).
  { intros w x k g A B. unfold step_to. rewrite map2_length', map_length. lia. }
  pose proof (substep_rates argsort U (xi - h / 2) (step_to (h / 2) r (map fst k1)) (step_to (h / 2) pr (map snd k1)) (t_sub2 st)
    ltac:(rewrite !LM; auto)) as S2.
  destruct (derivatives_substep _ _ _ _ _ (t_sub2 st)) as [[src2 k2]|e]; cbn [bind]; [|discriminate].
  destruct S2 as [E2 LK2]. rewrite E2. cbn [bind fst snd]. rewrite LM in LK2 by auto.
  rewrite !moved_step. replace (h * 0.5) with (h / 2) by lra.
  pose proof (substep_rates argsort U (xi - h / 2) (step_to (h / 2) r (map fst k2)) (step_to (h / 2) pr (map snd k2)) (t_sub3 st)
    ltac:(rewrite !LM; auto)) as S3.
  destruct (derivatives_substep _ _ _ _ _ (t_sub3 st)) as [[src3 k3]|e]; cbn [bind]; [|discriminate].
  destruct S3 as [E3 LK3]. rewrite E3. cbn [bind fst snd]. rewrite LM in LK3 by auto.
  rewrite !moved_step. replace (h * 1) with h by ring.
  pose proof (substep_rates argsort U (xi - h) (step_to h r (map fst k3)) (step_to h pr (map snd k3)) (t_sub4 st)
    ltac:(rewrite !LM; auto)) as S4.
  destruct (derivatives_substep _ _ _ _ _ (t_sub4 st)) as [[src4 k4]|e]; cbn [bind]; [|discriminate].
  destruct S4 as [E4 LK4]. rewrite E4. cbn [bind fst snd]. rewrite LM in LK4 by auto.
  intros E. injection E as <-. cbn [t_r t_pr].
  assert (W : forall (g : R * R -> R) y, g (0, 0) = 0 -> length y = n ->
    step_to h y (weighted_mean (map g k1) (map g k2) (map g k3) (map g k4)) =
    each y (fun i => apply_rk4 (entry y i) h (g (nth i k1 (0, 0))) (g (nth i k2 (0, 0))) (g (nth i k3 (0, 0))) (g (nth i k4 (0, 0))))).
  { intros g y G Y. unfold each. apply (list_eq_nth 0).
    - unfold step_to, weighted_mean. rewrite !map2_length', !map_length, seq_length. lia.
    - unfold step_to at 1, weighted_mean at 1. rewrite !map2_length', !map_length. intros i I. rewrite nth_map_seq by lia.
      unfold step_to, weighted_mean. repeat rewrite (map2_nth' _ 0 0) by (rewrite ?map2_length', ?map_length; lia).
      unfold entry, apply_rk4. rewrite <- !(map_nth g), !G. field. }
  exists (step_to h r (weighted_mean (map fst k1) (map fst k2) (map fst k3) (map fst k4))),
    (step_to h pr (weighted_mean (map snd k1) (map snd k2) (map snd k3) (map snd k4))).
  split; [reflexivity|]. rewrite !W by auto.
  assert (LE : forall y f, length y = n -> length (each y f) = n) by (intros; unfold each; rewrite map_length, seq_length; auto).
  rewrite !LE by auto. split; [reflexivity|]. split; [reflexivity|]. split.
  - rewrite (flip_right (map side _)). unfold flipped. rewrite map2_map_l. set (X := each r _). clearbody X. clear.
    induction X as [|x X IH]; cbn; auto. rewrite IH. f_equal. unfold side. destruct (Rlt_dec x 0).
    + rewrite Rabs_left by lra. ring.
    + rewrite Rabs_right by lra. ring.
  - rewrite (flip_right (map side _)). reflexivity.
Qed.
Lemma rk4_nonneg argsort U xi st st' : evolve_plasma_rk4 argsort U xi st = Ok st' -> forall x, In x (t_r st') -> 0 <= x.
Proof.
  unfold evolve_plasma_rk4. destruct (derivatives_substep _ _ _ _ _ (t_sub2 st)) as [[src2 k2]|e]; cbn [bind]; [|discriminate].
  destruct (derivatives_substep _ _ _ _ _ (t_sub3 st)) as [[src3 k3]|e]; cbn [bind]; [|discriminate].
  destruct (derivatives_substep _ _ _ _ _ (t_sub4 st)) as [[src4 k4]|e]; cbn [bind]; [|discriminate].
  intros E. injection E as <-. cbn [t_r]. set (X := each (t_r st) _). clearbody X. clear.
  induction X as [|y X IH]; cbn; intros x H; [destruct H|]. destruct H as [<-|H]; [|auto].
  unfold side. destruct (Rlt_dec y 0); lra.
Qed.
Lemma ab5_nonneg U st : forall x, In x (t_r (evolve_plasma_ab5 U st)) -> 0 <= x.
Proof.
  intros x H. unfold evolve_plasma_ab5 in H. cbn [t_r] in H. rewrite map_map in H. apply in_map_iff in H.
  destruct H as (i & <- & _). unfold push_ab5. cbv zeta. set (y := apply_ab5 _ _ _ _). clearbody y. destruct (Rlt_dec y 0); cbn [l_r]; lra.
Qed.
(** Electrons can be mirrored in any substep. *)
Lemma sign_flip s x : (s = 1 \/ s = -1) -> x <> 0 -> sign_of (s * x) = s * sign_of x.
Proof. intros [->| ->] N; apply Rdichotomy in N; unfold sign_of; repeat destruct (Rlt_dec _ _); lra. Qed.
Lemma flip_signs : forall s x, (forall y, In y s -> y = 1 \/ y = -1) -> (forall y, In y x -> y <> 0) ->
  map sign_of (flipped s x) = flipped s (map sign_of x).
Proof.
  unfold flipped. induction s as [|a s IH]; intros [|y x] S X; cbn; auto. rewrite IH; [|intros; apply S; cbn; auto|intros; apply X; cbn; auto].
  f_equal. apply sign_flip; [apply S|apply X]; cbn; auto.
Qed.
Lemma flip_twice : forall s t l, (forall y, In y s -> y = 1 \/ y = -1) -> length s = length l ->
  flipped (flipped s t) (flipped s l) = flipped t l.
Proof.
  unfold flipped. induction s as [|a s IH]; intros [|y t] [|z l] S L; cbn in *; auto; try lia.
  rewrite IH by (auto; lia). f_equal. destruct (S a) as [->| ->]; auto; ring.
Qed.
Lemma mirrored_substep argsort U xi old s r pr : (forall y, In y s -> y = 1 \/ y = -1) -> (forall y, In y r -> y <> 0) ->
  length s = length r -> length pr = length r ->
  derivatives_substep argsort U xi (flipped s r) (flipped s pr) old =
  do (src, k) <- derivatives_substep argsort U xi r pr old; Ok (src, map2 (fun d s => (fst d * s, snd d * s)) k s).
Proof.
  intros S N L1 L2. unfold derivatives_substep. change (map side) with (map sign_of).
  rewrite flip_signs by auto. set (t := map sign_of r). assert (LT : length t = length r) by apply map_length.
  rewrite (flip_right (flipped s t) (flipped s r)), (flip_right (flipped s t) (flipped s pr)), (flip_right t r), (flip_right t pr).
  rewrite !flip_twice by (auto; lia).
  destruct (at_particles _ _ _ _ _ _) as [[f g]|e]; cbn [bind]; [|reflexivity].
  f_equal. f_equal. set (k := derivatives _ _ _). clearbody k t. clear -LT L1. revert s t k L1 LT.
  generalize (length r). induction n as [|n IH]; intros [|a s] [|b t] k A B; cbn in A, B; try lia; destruct k as [|[c d] k]; cbn; auto.
  unfold flipped in IH. rewrite (IH s t k) by lia. f_equal. f_equal; ring.
Qed.
