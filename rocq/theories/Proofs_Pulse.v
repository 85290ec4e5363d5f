(** Proofs about the laser: unwrapping, causality, life cycle, pulse profiles. *)
From Coq Require Import Reals ZArith String List Lia Lra.
From Coquelicot Require Import Complex.
From Verif Require Import Model_Push Model_Laser Spec_Laser Proofs_Laser.
Import ListNotations.
Open Scope R_scope.

(** ** unwrap *)
Fixpoint U (P s : R) (l : list R) : list R :=
  match l with
  | [] => []
  | x :: l' => (x + s) :: match l' with
                          | [] => []
                          | y :: _ => U P (s + ph_correct P (y - x)) l'
                          end
  end.
Lemma U_cumsum P l : forall s x,
  U P s (x :: l) = (x + s) :: map2 Rplus l (cumsum_from s (map (ph_correct P) (diff (x :: l)))).
Proof.
  induction l as [|y l IH]; intros s x; [reflexivity|].
  change (U P s (x :: y :: l)) with ((x + s) :: U P (s + ph_correct P (y - x)) (y :: l)).
  rewrite IH. reflexivity.
Qed.
Lemma unwrap_U P l : unwrap P l = U P 0 l.
Proof.
  destruct l as [|x l]; [reflexivity|]. rewrite U_cumsum, Rplus_0_r. reflexivity.
Qed.
Lemma U_length P l : forall s, length (U P s l) = length l.
Proof.
  induction l as [|x [|y l] IH]; intros s; [reflexivity | reflexivity |].
  change (U P s (x :: y :: l)) with ((x + s) :: U P (s + ph_correct P (y - x)) (y :: l)).
  cbn [length]. rewrite IH. reflexivity.
Qed.
Lemma U_head P l s : l <> [] -> nth 0 (U P s l) 0 = nth 0 l 0 + s.
Proof. destruct l; [congruence | reflexivity]. Qed.
Lemma U_jump P l : forall s i, (i + 1 < length l)%nat ->
  jump (U P s l) i = jump l i + ph_correct P (jump l i).
Proof.
  induction l as [|x [|y l] IH]; intros s i Hi; cbn [length] in Hi; try lia.
  change (U P s (x :: y :: l)) with ((x + s) :: U P (s + ph_correct P (y - x)) (y :: l)).
  destruct i as [|i].
  - unfold jump. cbn [Nat.add nth]. rewrite U_head by discriminate. cbn [nth]. ring.
  - unfold jump in *. cbn [Nat.add nth]. apply IH. cbn [length]. lia.
Qed.
Lemma unwrap_length P l : length (unwrap P l) = length l.
Proof. rewrite unwrap_U. apply U_length. Qed.
Lemma unwrap_first P l : nth 0 (unwrap P l) 0 = nth 0 l 0.
Proof. destruct l; reflexivity. Qed.
Lemma unwrap_jump P l i : (i + 1 < length l)%nat ->
  jump (unwrap P l) i = jump l i + ph_correct P (jump l i).
Proof. rewrite unwrap_U. apply U_jump. Qed.

Lemma Int_part_bounds r : IZR (Int_part r) <= r < IZR (Int_part r) + 1.
Proof. destruct (base_Int_part r). lra. Qed.
Lemma np_mod_range x P : 0 < P -> 0 <= np_mod x P < P.
Proof.
  intros HP. unfold np_mod. pose proof (Int_part_bounds (x / P)) as [A B].
  apply Rmult_le_compat_l with (r := P) in A; [|lra].
  apply Rmult_lt_compat_l with (r := P) in B; [|lra].
  replace (P * (x / P)) with x in * by (field; lra). lra.
Qed.
Lemma ph_correct_int P dd : 0 < P -> exists k : Z, ph_correct P dd = IZR k * P.
Proof.
  intros HP. unfold ph_correct. destruct (Rlt_dec _ _). { exists 0%Z. lra. }
  unfold np_mod. set (N := Int_part _).
  destruct (Req_EM_T _ _) as [E|E]; [destruct (Rlt_dec 0 dd)|].
  - exists (1 - N)%Z. rewrite minus_IZR. lra.
  - exists (- N)%Z. rewrite opp_IZR. lra.
  - exists (- N)%Z. rewrite opp_IZR. lra.
Qed.
Lemma ph_correct_small P dd : 0 < P -> Rabs (dd + ph_correct P dd) <= P / 2.
Proof.
  intros HP. unfold ph_correct. destruct (Rlt_dec _ _). { rewrite Rplus_0_r. lra. }
  pose proof (np_mod_range (dd - - (P / 2)) P HP). set (m := np_mod _ _) in *.
  apply Rabs_le. destruct (Req_EM_T _ _) as [E|E]; [destruct (Rlt_dec 0 dd)|]; lra.
Qed.
Lemma ph_correct_id P dd : Rabs dd < P / 2 -> ph_correct P dd = 0.
Proof. intros H. unfold ph_correct. destruct (Rlt_dec _ _); [reflexivity | contradiction]. Qed.
Lemma unwrap_multiple P l : 0 < P -> forall i, (i < length l)%nat ->
  exists k : Z, nth i (unwrap P l) 0 = nth i l 0 + IZR k * P.
Proof.
  intros HP. induction i as [|i IH]; intros Hi.
  - exists 0%Z. rewrite unwrap_first. lra.
  - destruct (IH ltac:(lia)) as [k Hk].
    destruct (ph_correct_int P (jump l i) HP) as [k' Hk'].
    pose proof (unwrap_jump P l i ltac:(lia)) as HJ. rewrite Hk' in HJ. unfold jump in HJ.
    replace (i + 1)%nat with (S i) in HJ by lia.
    exists (k + k')%Z. rewrite plus_IZR. lra.
Qed.
Lemma unwrap_small_jumps P l i : 0 < P -> (i + 1 < length l)%nat ->
  Rabs (jump (unwrap P l) i) <= P / 2.
Proof. intros HP Hi. rewrite unwrap_jump by assumption. apply ph_correct_small. exact HP. Qed.
Lemma unwrap_id P l : (forall i, (i + 1 < length l)%nat -> Rabs (jump l i) < P / 2) ->
  unwrap P l = l.
Proof.
  intros H. rewrite unwrap_U.
  assert (G : forall l s, (forall i, (i + 1 < length l)%nat -> Rabs (jump l i) < P / 2) ->
    U P s l = map (fun x => x + s) l).
  { clear. induction l as [|x [|y l] IH]; intros s H; [reflexivity | reflexivity |].
    change (U P s (x :: y :: l)) with ((x + s) :: U P (s + ph_correct P (y - x)) (y :: l)).
    rewrite (ph_correct_id P (y - x)), Rplus_0_r by (apply (H 0%nat); cbn; lia).
    rewrite IH; [reflexivity|]. intros i Hi. apply (H (S i)). cbn [length] in *. lia. }
  rewrite G by exact H. transitivity (map (fun x => x) l); [|apply map_id].
  apply map_ext. intros. lra.
Qed.

(** ** Causality *)
Lemma phases_jump e a i : (i < e_nz e + 1)%nat ->
  nth (i + 1) (phases e a) 0 - nth i (phases e a) 0
  = let d := angle (a (i + 1)%nat 0%nat) - angle (a i 0%nat) in d + ph_correct 6.283185307179586 d.
Proof.
  intros Hi. unfold phases. set (l := map _ _).
  assert (Hl : length l = (e_nz e + 2)%nat) by (unfold l; rewrite map_length, seq_length; reflexivity).
  assert (Hn : forall m, (m < e_nz e + 2)%nat -> nth m l 0 = angle (a m 0%nat)).
  { intros m Hm. unfold l. rewrite (nth_indep _ 0 (angle (a 0%nat 0%nat))) by (rewrite map_length, seq_length; lia).
    rewrite (map_nth (fun j => angle (a j 0%nat))), seq_nth by lia. reflexivity. }
  pose proof (unwrap_jump 6.283185307179586 l i ltac:(lia)) as H. unfold jump in H.
  cbv zeta. rewrite H, !Hn by lia. reflexivity.
Qed.
Lemma tdma_fwd_ext a b c d b' d' i :
  (forall m, (m <= i)%nat -> b m = b' m /\ d m = d' m) ->
  tdma_fwd a b c d i = tdma_fwd a b' c d' i.
Proof.
  induction i as [|i IH]; intros H.
  - destruct (H 0%nat (le_n _)) as [E1 E2]. cbn. rewrite E1, E2. reflexivity.
  - destruct (H (S i) (le_n _)) as [E1 E2]. cbn [tdma_fwd].
    rewrite IH by (intros; apply H; lia). rewrite E1, E2. reflexivity.
Qed.
Lemma tdma_back_ext n w g w' g' last m :
  (forall i, (i < n)%nat -> w i = w' i /\ g i = g' i) -> (m < n)%nat ->
  tdma_back n w g last m = tdma_back n w' g' last m.
Proof.
  intros H. induction m as [|m IH]; intros Hm; [reflexivity|]. cbn [tdma_back].
  destruct (H (n - 1 - S m)%nat ltac:(lia)) as [-> ->]. rewrite IH by lia. reflexivity.
Qed.
Lemma tdma_ext n a b c d b' d' p p' : 
  (forall m, (m < n)%nat -> b m = b' m /\ d m = d' m) ->
  TDMA n a b c d = Some p -> TDMA n a b' c d' = Some p' ->
  forall i, (i < n)%nat -> p i = p' i.
Proof.
  intros H E E' i Hi. unfold TDMA, neg_index in *.
  destruct (Nat.leb_spec 2 (n - 1)); [|discriminate]. injection E as <-. injection E' as <-.
  destruct (H (n - 1)%nat ltac:(lia)) as [-> ->].
  rewrite (tdma_fwd_ext a b c d b' d' (n - 2)) by (intros; apply H; lia).
  rewrite (tdma_fwd_ext a b c d b' d' (n - 1 - 2)) by (intros; apply H; lia).
  apply tdma_back_ext; [|lia]. intros m Hm.
  rewrite (tdma_fwd_ext a b c d b' d' m) by (intros; apply H; lia). split; reflexivity.
Qed.

Lemma causal_step centered e chi chi' a a_old b b_old j0 new old1 new' old1' :
  (3 <= e_nr e)%nat -> (2 <= e_nz e)%nat ->
  same_from e j0 a b -> same_from e j0 a_old b_old ->
  (forall j k, (j0 <= j < e_nz e)%nat -> (k < e_nr e)%nat -> chi j k = chi' j k) ->
  t_step centered e chi (a, a_old) = Some (new, old1) ->
  t_step centered e chi' (b, b_old) = Some (new', old1') ->
  same_from e j0 new new' /\ same_from e j0 old1 old1'.
Proof.
  intros Hr Hz Ha Ho Hc E E'.
  destruct (t_step_solved centered e chi a a_old Hr Hz) as (n1 & o1 & E1 & (N0 & N1 & Hs) & Hold).
  destruct (t_step_solved centered e chi' b b_old Hr Hz) as (n2 & o2 & E2 & (M0 & M1 & Ht) & Hold').
  rewrite E in E1. injection E1 as <- <-. rewrite E' in E2. injection E2 as <- <-.
  split; [|intros i k Hi Hk; rewrite Hold, Hold' by lia; apply Ha; assumption].
  assert (Hj : forall j, (j0 <= j < e_nz e)%nat ->
     nth (j + 1) (phases e a) 0 - nth j (phases e a) 0
     = nth (j + 1) (phases e b) 0 - nth j (phases e b) 0 /\
     nth (j + 2) (phases e a) 0 - nth (j + 1) (phases e a) 0
     = nth (j + 2) (phases e b) 0 - nth (j + 1) (phases e b) 0).
  { intros j Hj. replace (j + 2)%nat with (j + 1 + 1)%nat by lia.
    rewrite !phases_jump by lia. rewrite !(Ha _ 0%nat) by lia. split; reflexivity. }
  assert (T : forall m, (m <= e_nz e + 2)%nat -> forall i k, (j0 <= i)%nat ->
     (e_nz e + 2 - m <= i < e_nz e + 2)%nat -> (k < e_nr e)%nat -> new i k = new' i k).
  { induction m as [|m IH]; intros Hm i k Hi0 Hi Hk; [lia|].
    destruct (Nat.lt_ge_cases (e_nz e + 2 - S m) i) as [L|L]; [apply IH; lia|].
    destruct (Nat.lt_ge_cases i (e_nz e)) as [L2|L2].
    2:{ assert (i = e_nz e \/ i = e_nz e + 1)%nat as [-> | ->] by lia.
        - rewrite N0, M0. reflexivity.
        - rewrite N1, M1. reflexivity. }
    destruct (Hj i ltac:(lia)) as [J1 J2].
    refine (tdma_ext _ _ _ _ _ _ _ _ _ _ (Hs i ltac:(lia)) (Ht i ltac:(lia)) k Hk).
    assert (D1 : d_theta1 e (phases e a) i = d_theta1 e (phases e b) i)
      by (unfold d_theta1; rewrite J1; reflexivity).
    assert (D2 : d_theta2 e (phases e a) i = d_theta2 e (phases e b) i)
      by (unfold d_theta2; rewrite J2; reflexivity).
    intros q Hq.
    assert (A0 : a i q = b i q) by (apply Ha; lia).
    assert (A1 : a (i + 1)%nat q = b (i + 1)%nat q) by (apply Ha; lia).
    assert (A2 : a (i + 2)%nat q = b (i + 2)%nat q) by (apply Ha; lia).
    assert (O0 : a_old i q = b_old i q) by (apply Ho; lia).
    assert (O1 : a_old (i + 1)%nat q = b_old (i + 1)%nat q) by (apply Ho; lia).
    assert (O2 : a_old (i + 2)%nat q = b_old (i + 2)%nat q) by (apply Ho; lia).
    assert (B1 : new (i + 1)%nat q = new' (i + 1)%nat q) by (apply IH; lia).
    assert (B2 : new (i + 2)%nat q = new' (i + 2)%nat q) by (apply IH; lia).
    assert (X : chi i q = chi' i q) by (apply Hc; lia).
    assert (Am : (0 < q)%nat -> a i (q - 1)%nat = b i (q - 1)%nat) by (intros; apply Ha; lia).
    assert (Om : (0 < q)%nat -> a_old i (q - 1)%nat = b_old i (q - 1)%nat) by (intros; apply Ho; lia).
    assert (Ap : (q + 1 < e_nr e)%nat -> a i (q + 1)%nat = b i (q + 1)%nat) by (intros; apply Ha; lia).
    assert (Op : (q + 1 < e_nr e)%nat -> a_old i (q + 1)%nat = b_old i (q + 1)%nat) by (intros; apply Ho; lia).
    destruct centered; unfold main_of, rhs_of, main_centered, main_non_centered, rhs_centered,
      rhs_non_centered, D_jkn; rewrite D1, D2, X;
      (split; [reflexivity|]); rewrite ?A0, ?A1, ?A2, ?O0, ?O1, ?O2, ?B1, ?B2;
      destruct (Nat.ltb_spec 0 q), (Nat.ltb_spec (q + 1) (e_nr e));
      rewrite ?Am, ?Ap, ?Om, ?Op by assumption; reflexivity. }
  intros i k Hi Hk. apply (T (e_nz e + 2)%nat); lia.
Qed.
Lemma causal centered e chi chi' nt j0 : (3 <= e_nr e)%nat -> (2 <= e_nz e)%nat ->
  (forall j k, (j0 <= j < e_nz e)%nat -> (k < e_nr e)%nat -> chi j k = chi' j k) ->
  forall a a_old b b_old c c_old d d_old,
  same_from e j0 a b -> same_from e j0 a_old b_old ->
  evolve_envelope centered e chi nt (a, a_old) = Some (c, c_old) ->
  evolve_envelope centered e chi' nt (b, b_old) = Some (d, d_old) ->
  same_from e j0 c d /\ same_from e j0 c_old d_old.
Proof.
  intros Hr Hz Hc. induction nt as [|nt IH]; intros a a_old b b_old c c_old d d_old Ha Ho E E'.
  - injection E as <- <-. injection E' as <- <-. split; assumption.
  - cbn [evolve_envelope] in E, E'.
    destruct (t_step centered e chi (a, a_old)) as [[n1 o1]|] eqn:E1; [|discriminate].
    destruct (t_step centered e chi' (b, b_old)) as [[n2 o2]|] eqn:E2; [|discriminate].
    destruct (causal_step centered e chi chi' a a_old b b_old j0 n1 o1 n2 o2 Hr Hz Ha Ho Hc E1 E2).
    apply (IH n1 o1 n2 o2 c c_old d d_old); assumption.
Qed.

(** ** Life cycle *)
Section LC.
Variable env : R -> R -> C.
Variable to_main : sparams -> nat * nat -> carr2 -> carr2.
Variable to_sub : sparams -> nat * nat -> (nat -> nat -> R) -> (nat -> nat -> R).
Variables e_ch m_e eps_0 : R.
Notation do_call := (do_call env to_main to_sub e_ch m_e eps_0).
Notation history := (history env to_main to_sub e_ch m_e eps_0).
Notation accepted := (accepted env to_main to_sub e_ch m_e eps_0).
Notation evolved := (evolved_with_this_step env to_main to_sub e_ch m_e eps_0).
Notation Evolve := (evolve to_main to_sub e_ch m_e eps_0).

Lemma history_app p h1 h2 : history p (h1 ++ h2) = history (history p h1) h2.
Proof. revert p. induction h1 as [|c h1 IH]; intros p; [reflexivity | apply IH]. Qed.
Lemma history_snoc p h c : history p (h ++ [c]) = snd (do_call (history p h) c).
Proof. rewrite history_app. reflexivity. Qed.

(** What each call does to the step counter and the parameters. *)
Lemma set_effect p s :
  let q := snd (set_envelope_solver_params p s) in
  match fst (set_envelope_solver_params p s) with
  | Fine => p_params q = Some (snd (params_of s)) /\
            (p_n_steps q = p_n_steps p \/ p_n_steps q = 0%nat) /\
            (forall old, p_params p = Some old -> (0 < p_n_steps p)%nat ->
               (sp_dt old = step_of s -> p_n_steps q = p_n_steps p) /\
               (sp_dt old <> step_of s -> p_n_steps q = 0%nat))
  | _ => p_params q = p_params p /\ p_n_steps q = p_n_steps p
  end.
Proof.
  unfold set_envelope_solver_params.
  destruct (Nat.ltb (a_nt s) 1); [split; reflexivity|].
  destruct (params_of s) as [sub sp] eqn:Esp. cbv zeta.
  assert (Hd : sp_dt sp = step_of s).
  { change sp with (snd (sub, sp)). rewrite <- Esp. reflexivity. }
  destruct (p_params p) as [old|] eqn:Ep; [destruct (p_n_steps p) as [|n] eqn:En|].
  - cbn [fst snd p_params p_n_steps]. split; [reflexivity|]. split; [left; reflexivity|].
    intros; lia.
  - destruct (andb _ _); [split; [exact eq_refl | reflexivity]|].
    unfold neq. destruct (Req_EM_T (sp_dt sp) (sp_dt old)) as [E|E];
      cbn [fst snd p_params p_n_steps]; (split; [reflexivity|]); split; auto;
      intros o Eo _; injection Eo as <-; rewrite Hd in E; split; intros F; try reflexivity;
      exfalso; congruence.
  - cbn [fst snd p_params p_n_steps]. split; [reflexivity|]. split; [left; reflexivity|].
    intros; discriminate.
Qed.
Lemma init_effect p :
  p_params (snd (initialize_envelope env to_main p)) = p_params p /\
  p_n_steps (snd (initialize_envelope env to_main p)) = p_n_steps p.
Proof.
  unfold initialize_envelope. destruct (p_params p) as [sp|] eqn:E; [|cbn; rewrite E; split; reflexivity].
  destruct (p_sub p); [|cbn; rewrite E; split; reflexivity].
  destruct (p_a_env p); cbn; rewrite ?E; split; reflexivity.
Qed.
Lemma evolve_effect p chi n_p :
  p_params (snd (Evolve p chi n_p)) = p_params p /\
  match fst (Evolve p chi n_p) with
  | Fine => p_n_steps (snd (Evolve p chi n_p)) = S (p_n_steps p) /\ p_params p <> None
  | _ => p_n_steps (snd (Evolve p chi n_p)) = p_n_steps p
  end.
Proof.
  unfold evolve. destruct (p_params p) as [sp|] eqn:E; [|cbn; rewrite E; split; reflexivity].
  destruct (p_sub p); [|cbn; rewrite E; split; reflexivity].
  destruct (p_env p) as [[en old]|]; [|cbn; rewrite E; split; reflexivity].
  destruct (andb _ _); [|cbn; rewrite E; split; reflexivity].
  destruct (evolve_envelope _ _ _ _ _) as [[a a_old]|]; cbn; rewrite ?E; split; try reflexivity.
  split; congruence.
Qed.

Definition evolved_d (p : pulse) (h : list call) (d : R) : Prop :=
  exists h1 chi n_p h2,
    h = h1 ++ CEvolve chi n_p :: h2 /\ accepted (history p h1) (CEvolve chi n_p) /\
    (exists sp, p_params (history p h1) = Some sp /\ sp_dt sp = d) /\
    forall h3 s h4, h2 = h3 ++ CSet s :: h4 ->
      accepted (history p (h1 ++ CEvolve chi n_p :: h3)) (CSet s) -> step_of s = d.
Lemma evolved_iff p h : evolved p h <-> exists d, evolved_d p h d.
Proof.
  split.
  - intros (h1 & chi & n_p & h2 & d & H). exists d, h1, chi, n_p, h2. exact H.
  - intros (d & h1 & chi & n_p & h2 & H). exists h1, chi, n_p, h2, d. exact H.
Qed.
Lemma snoc_split (A : Type) (h h1 h2 : list A) (c x : A) :
  h ++ [c] = h1 ++ x :: h2 ->
  (h2 = [] /\ c = x /\ h = h1) \/ exists h2', h2 = h2' ++ [c] /\ h = h1 ++ x :: h2'.
Proof.
  intros E. destruct (exists_last (l := x :: h2) ltac:(discriminate)) as (t & y & Et).
  destruct h2 as [|z h2].
  - left. apply app_inj_tail in E. destruct E as [-> ->]. repeat split.
  - right. destruct t as [|t0 t]; [discriminate Et|].
    cbn [app] in Et. injection Et as <- Et. rewrite Et in *.
    exists t. change (h1 ++ x :: t ++ [y]) with (h1 ++ (x :: t) ++ [y]) in E.
    rewrite app_assoc in E. apply app_inj_tail in E. destruct E as [-> ->]. split; reflexivity.
Qed.
Lemma steps_inv p0 : p_n_steps p0 = 0%nat -> forall h,
  ((0 < p_n_steps (history p0 h))%nat -> exists d, evolved_d p0 h d) /\
  (forall d, evolved_d p0 h d -> (0 < p_n_steps (history p0 h))%nat /\
     exists sp, p_params (history p0 h) = Some sp /\ sp_dt sp = d).
Proof.
  intros H0. induction h as [|c h [IH1 IH2]] using rev_ind.
  { split.
    - cbn. lia.
    - intros d (h1 & chi & n_p & h2 & E & _). destruct h1; discriminate E. }
  rewrite history_snoc. set (p := history p0 h) in *. split.
  - intros Hn. destruct c as [s| |chi n_p]; cbn [Spec_Laser.do_call] in Hn.
    + pose proof (set_effect p s) as HS. cbv zeta in HS.
      assert (Hp : (0 < p_n_steps p)%nat).
      { destruct (fst (set_envelope_solver_params p s)); try (destruct HS; congruence).
        destruct HS as (_ & [Q|Q] & _); lia. }
      destruct (IH1 Hp) as [d (h1 & chi & n_p & h2 & E & A & P & Q)].
      destruct (IH2 d ltac:(exists h1, chi, n_p, h2; auto)) as (_ & sp & Esp & Ed).
      exists d, h1, chi, n_p, (h2 ++ [CSet s]). split.
      { rewrite E, <- app_assoc. reflexivity. }
      split; [exact A|]. split; [exact P|]. intros h3 s' h4 E3 A3.
      apply snoc_split in E3. destruct E3 as [(-> & Ec & ->)|(h4' & -> & ->)].
      2:{ eapply Q; [reflexivity | exact A3]. }
      injection Ec as <-. rewrite <- E in A3. fold p in A3. unfold Spec_Laser.accepted in A3.
      cbn [Spec_Laser.do_call] in A3. rewrite A3 in HS. destruct HS as (_ & _ & HS).
      destruct (HS sp Esp Hp) as [_ HS2].
      destruct (Req_EM_T (sp_dt sp) (step_of s)) as [F|F]; [congruence|].
      specialize (HS2 F). lia.
    + destruct (init_effect p) as [Ep En]. rewrite En in Hn.
      destruct (IH1 Hn) as [d (h1 & chi & n_p & h2 & E & A & P & Q)].
      exists d, h1, chi, n_p, (h2 ++ [CInit]). split.
      { rewrite E, <- app_assoc. reflexivity. }
      split; [exact A|]. split; [exact P|]. intros h3 s' h4 E3 A3.
      apply snoc_split in E3. destruct E3 as [(_ & Ec & _)|(h4' & -> & ->)]; [discriminate|].
      eapply Q; [reflexivity | exact A3].
    + pose proof (evolve_effect p chi n_p) as [Ep En].
      destruct (fst (Evolve p chi n_p)) eqn:Ef.
      * destruct En as [En Np]. destruct (p_params p) as [sp|] eqn:Esp; [|congruence].
        exists (sp_dt sp), h, chi, n_p, []. split; [reflexivity|]. split; [exact Ef|].
        split; [exists sp; split; [exact Esp | reflexivity]|].
        intros h3 s h4 E3. destruct h3; discriminate E3.
      * rewrite En in Hn. destruct (IH1 Hn) as [d (h1 & chi' & n_p' & h2 & E & A & P & Q)].
        exists d, h1, chi', n_p', (h2 ++ [CEvolve chi n_p]). split.
        { rewrite E, <- app_assoc. reflexivity. }
        split; [exact A|]. split; [exact P|]. intros h3 s' h4 E3 A3.
        apply snoc_split in E3. destruct E3 as [(_ & Ec & _)|(h4' & -> & ->)]; [discriminate|].
        eapply Q; [reflexivity | exact A3].
      * rewrite En in Hn. destruct (IH1 Hn) as [d (h1 & chi' & n_p' & h2 & E & A & P & Q)].
        exists d, h1, chi', n_p', (h2 ++ [CEvolve chi n_p]). split.
        { rewrite E, <- app_assoc. reflexivity. }
        split; [exact A|]. split; [exact P|]. intros h3 s' h4 E3 A3.
        apply snoc_split in E3. destruct E3 as [(_ & Ec & _)|(h4' & -> & ->)]; [discriminate|].
        eapply Q; [reflexivity | exact A3].
      * rewrite En in Hn. destruct (IH1 Hn) as [d (h1 & chi' & n_p' & h2 & E & A & P & Q)].
        exists d, h1, chi', n_p', (h2 ++ [CEvolve chi n_p]). split.
        { rewrite E, <- app_assoc. reflexivity. }
        split; [exact A|]. split; [exact P|]. intros h3 s' h4 E3 A3.
        apply snoc_split in E3. destruct E3 as [(_ & Ec & _)|(h4' & -> & ->)]; [discriminate|].
        eapply Q; [reflexivity | exact A3].
  - intros d (h1 & chi & n_p & h2 & E & A & (sp1 & Ep1 & Ed1) & Q).
    apply snoc_split in E. destruct E as [(-> & -> & <-)|(h2' & -> & E)].
    + fold p in Ep1. pose proof (evolve_effect p chi n_p) as [Ep En].
      unfold Spec_Laser.accepted in A. fold p in A.
      cbn [Spec_Laser.do_call] in *. rewrite A in En. split; [lia|].
      exists sp1. rewrite Ep. split; assumption.
    + destruct (IH2 d) as (Hp & sp & Esp & Ed).
      { exists h1, chi, n_p, h2'. repeat split; auto.
        - exists sp1; auto.
        - intros h3 s h4 E3 A3. apply (Q h3 s (h4 ++ [c])); [|exact A3].
          rewrite E3, <- app_assoc. reflexivity. }
      destruct c as [s| |chi' n_p']; cbn [Spec_Laser.do_call].
      * pose proof (set_effect p s) as HS. cbv zeta in HS.
        destruct (fst (set_envelope_solver_params p s)) eqn:Ef;
          try (destruct HS as [-> ->]; split; [exact Hp | exists sp; auto]).
        destruct HS as (HP & _ & HS). destruct (HS sp Esp Hp) as [HS1 _].
        assert (Es : step_of s = d).
        { apply (Q h2' s []); [reflexivity|]. rewrite <- E. exact Ef. }
        rewrite HS1 by congruence. split; [exact Hp|].
        eexists. split; [exact HP|]. rewrite <- Es. reflexivity.
      * destruct (init_effect p) as [-> ->]. split; [exact Hp | exists sp; auto].
      * pose proof (evolve_effect p chi' n_p') as [-> En]. split; [|exists sp; auto].
        destruct (fst (Evolve p chi' n_p')); [lia|congruence..].
Qed.
Lemma steps_history p0 h : p_n_steps p0 = 0%nat ->
  (0 < p_n_steps (history p0 h))%nat <-> evolved p0 h.
Proof.
  intros H0. destruct (steps_inv p0 H0 h) as [A B]. rewrite evolved_iff. split; [exact A|].
  intros [d Hd]. apply (B d Hd).
Qed.

Lemma solver_choice l0 pol h chi n_p p' :
  Evolve (history (new_pulse l0 pol) h) chi n_p = (Fine, p') ->
  exists sp en old en' old' centered,
    p_params (history (new_pulse l0 pol) h) = Some sp /\
    p_env (history (new_pulse l0 pol) h) = Some (en, old) /\ p_env p' = Some (en', old') /\
    evolve_envelope centered
      (eargs_of sp (2 * PI / p_l0 (history (new_pulse l0 pol) h))
         (sqrt (e_ch ^ 2 * n_p / (m_e * eps_0)) / c_SI))
      (if match p_sub (history (new_pulse l0 pol) h) with Some b => b | None => false end
       then to_sub sp (p_main (history (new_pulse l0 pol) h)) chi else chi)
      (sp_nt sp) (s_val en, s_val old) = Some (s_val en', s_val old') /\
    (centered = true <-> evolved (new_pulse l0 pol) h).
Proof.
  intros E. pose proof (steps_history (new_pulse l0 pol) h eq_refl) as HH.
  set (p := history (new_pulse l0 pol) h) in *. unfold evolve in E.
  destruct (p_params p) as [sp|]; [|discriminate].
  destruct (p_sub p) as [sub|]; [|discriminate].
  destruct (p_env p) as [[en old]|]; [|discriminate].
  destruct (andb _ _); [|discriminate].
  match type of E with context[evolve_envelope ?a ?b ?c ?d ?e] =>
    destruct (evolve_envelope a b c d e) as [[x y]|] eqn:Ev; [|discriminate] end.
  injection E as <-. cbn [p_env].
  exists sp, en, old. do 2 eexists. exists (negb (Nat.eqb (p_n_steps p) 0)).
  split; [reflexivity|]. split; [reflexivity|]. split; [reflexivity|]. split; [exact Ev|].
  rewrite <- HH. destruct (p_n_steps p); cbn; split; intros; try lia; try discriminate; reflexivity.
Qed.

(** Setting, initialising, evolving. *)
Lemma set_nt p s : fst (set_envelope_solver_params p s) = Fine ->
  (1 <= a_nt s)%nat /\
  exists sp, p_params (snd (set_envelope_solver_params p s)) = Some sp /\
    INR (sp_nt sp) * sp_dt sp = a_dt s.
Proof.
  intros E. assert (Hn : (1 <= a_nt s)%nat).
  { destruct (Nat.lt_ge_cases (a_nt s) 1) as [L|L]; [|exact L].
    unfold set_envelope_solver_params in E. destruct (Nat.ltb_spec (a_nt s) 1); [discriminate | lia]. }
  split; [exact Hn|]. pose proof (set_effect p s) as HS. cbv zeta in HS. rewrite E in HS.
  destruct HS as (HP & _). eexists. split; [exact HP|]. cbn.
  field. apply not_0_INR. lia.
Qed.
Lemma set_rejected p s :
  fst (set_envelope_solver_params p s) = ValueErr <->
  (a_nt s < 1)%nat \/
  (exists old, p_params p = Some old /\ (0 < p_n_steps p)%nat /\
     a_xi_min s <> sp_zmin old /\ a_xi_max s <> sp_zmax old /\ a_r_max s <> sp_rmax old /\
     sp_nz (snd (params_of s)) <> sp_nz old /\ sp_nr (snd (params_of s)) <> sp_nr old).
Proof.
  unfold set_envelope_solver_params.
  destruct (Nat.ltb_spec (a_nt s) 1) as [L|L]; [cbn; tauto|].
  destruct (params_of s) as [sub sp] eqn:Esp. cbn [snd]. cbv zeta.
  assert (Hs : a_xi_min s = sp_zmin sp /\ a_xi_max s = sp_zmax sp /\ a_r_max s = sp_rmax sp).
  { change sp with (snd (sub, sp)). rewrite <- Esp. repeat split. }
  destruct Hs as (-> & -> & ->).
  destruct (p_params p) as [old|] eqn:Ep; [destruct (p_n_steps p) as [|n] eqn:En|].
  - cbn. split; [discriminate|]. intros [F|(o & _ & F & _)]; lia.
  - match goal with |- context[andb ?a ?b] => destruct (andb a b) eqn:Eb end.
    + cbn [fst]. split; [|reflexivity]. intros _. right. exists old.
      rewrite !Bool.andb_true_iff in Eb. destruct Eb as (B1 & B2 & B3 & B4 & B5).
      unfold neq in *. apply Bool.negb_true_iff, Nat.eqb_neq in B4, B5.
      split; [reflexivity|]. split; [lia|].
      repeat split; try assumption; intros F; rewrite F in *.
      * destruct (Req_EM_T (sp_zmin old) (sp_zmin old)); [discriminate | congruence].
      * destruct (Req_EM_T (sp_zmax old) (sp_zmax old)); [discriminate | congruence].
      * destruct (Req_EM_T (sp_rmax old) (sp_rmax old)); [discriminate | congruence].
    + split.
      * destruct (neq (sp_dt sp) (sp_dt old)); intros F; discriminate F.
      * intros [F|(o & Eo & _ & B1 & B2 & B3 & B4 & B5)]; [lia|]. injection Eo as <-.
        exfalso. apply Bool.not_true_iff_false in Eb. apply Eb.
        rewrite !Bool.andb_true_iff. unfold neq.
        destruct (Req_EM_T (sp_zmin sp) (sp_zmin old)); [congruence|].
        destruct (Req_EM_T (sp_zmax sp) (sp_zmax old)); [congruence|].
        destruct (Req_EM_T (sp_rmax sp) (sp_rmax old)); [congruence|].
        apply Nat.eqb_neq in B4, B5. rewrite B4, B5. repeat split.
  - cbn. split; [discriminate|]. intros [F|(o & Eo & _)]; [lia | discriminate].
Qed.
Lemma set_again p s q : set_envelope_solver_params p s = (Fine, q) ->
  set_envelope_solver_params q s = (Fine, q).
Proof.
  unfold set_envelope_solver_params.
  destruct (Nat.ltb_spec (a_nt s) 1) as [L|L]; [discriminate|].
  destruct (params_of s) as [sub sp] eqn:Esp. cbv zeta.
  assert (G : forall n m, 
    match Some sp, n with
    | Some old, S _ =>
        if andb (neq (sp_zmin sp) (sp_zmin old)) (andb (neq (sp_zmax sp) (sp_zmax old))
          (andb (neq (sp_rmax sp) (sp_rmax old)) (andb (negb (Nat.eqb (sp_nz sp) (sp_nz old)))
            (negb (Nat.eqb (sp_nr sp) (sp_nr old))))))
        then (ValueErr, m (Some old) n)
        else if neq (sp_dt sp) (sp_dt old) then (Fine, m (Some sp) 0%nat)
        else (Fine, m (Some sp) n)
    | _, _ => (Fine, m (Some sp) n)
    end = (Fine, m (Some sp) n : pulse)).
  { intros n m. destruct n; [reflexivity|]. unfold neq.
    destruct (Req_EM_T (sp_zmin sp) (sp_zmin sp)); [|congruence]. cbn [andb].
    destruct (Req_EM_T (sp_dt sp) (sp_dt sp)); [reflexivity | congruence]. }
  intros E.
  assert (Eq : exists n, q = mkpl (p_l0 p) (p_pol p) (p_a_env p) (Some sp) n (Some sub)
                 (if sub then (a_nz s, a_nr s) else p_main p) (p_env p)).
  { destruct (p_params p) as [old|]; [destruct (p_n_steps p)|];
      try (injection E as <-; eexists; reflexivity).
    destruct (andb _ _); [discriminate|].
    destruct (neq _ _); injection E as <-; eexists; reflexivity. }
  destruct Eq as [n ->]. cbn [p_params p_n_steps p_l0 p_pol p_a_env p_main p_env].
  etransitivity; [apply (G n (fun params k => mkpl (p_l0 p) (p_pol p) (p_a_env p) params k (Some sub)
    (if sub then (a_nz s, a_nr s) else (if sub then (a_nz s, a_nr s) else p_main p)) (p_env p)))|].
  destruct sub; reflexivity.
Qed.
Lemma evolve_early p chi n_p : p_params p = None \/ p_env p = None ->
  Evolve p chi n_p = (AttributeErr, p).
Proof.
  unfold evolve. intros [E|E]; rewrite E.
  - reflexivity.
  - destruct (p_params p); [|reflexivity]. destruct (p_sub p); reflexivity.
Qed.
Lemma init_early p : p_params p = None -> initialize_envelope env to_main p = (ValueErr, p).
Proof. unfold initialize_envelope. intros ->. reflexivity. Qed.
Lemma init_once p x : p_a_env p = Some x -> fst (initialize_envelope env to_main p) = Fine ->
  initialize_envelope env to_main p = (Fine, p).
Proof.
  unfold initialize_envelope. intros E. rewrite E.
  destruct (p_params p), (p_sub p); cbn; congruence.
Qed.
Lemma init_values p s q : a_subgrid_nz s = None -> a_subgrid_nr s = None ->
  p_a_env p = None -> set_envelope_solver_params p s = (Fine, q) ->
  (2 <= a_nz s)%nat -> (2 <= a_nr s)%nat ->
  exists q' out, initialize_envelope env to_main q = (Fine, q') /\ p_a_env q' = Some out /\
    s_rows out = a_nz s /\ s_cols out = a_nr s /\
    forall i k, (i < a_nz s)%nat -> (k < a_nr s)%nat ->
      s_val out i k = env (a_xi_min s + INR i * ((a_xi_max s - a_xi_min s) / (INR (a_nz s) - 1)))
                          ((INR k + / 2) * (a_r_max s / INR (a_nr s))).
Proof.
  intros Hz Hr Ha E Nz Nr.
  assert (Eq : exists n m, q = mkpl (p_l0 p) (p_pol p) None (Some (snd (params_of s))) n (Some false)
                 m (p_env p)).
  { unfold set_envelope_solver_params in E. destruct (Nat.ltb (a_nt s) 1); [discriminate|].
    unfold params_of in *. rewrite Hz, Hr in *. cbn [snd].
    rewrite Ha in E.
    destruct (p_params p) as [old|]; [destruct (p_n_steps p)|];
      try (injection E as <-; do 2 eexists; reflexivity).
    destruct (andb _ _); [discriminate|].
    destruct (neq _ _); injection E as <-; do 2 eexists; reflexivity. }
  destruct Eq as (n & m & ->). unfold initialize_envelope. cbn [p_params p_sub p_a_env].
  do 2 eexists. split; [reflexivity|]. split; [reflexivity|].
  unfold params_of. rewrite Hz, Hr. cbn -[Nat.sub INR Nat.ltb].
  split; [lia|]. split; [reflexivity|]. intros i k Hi Hk.
  destruct (Nat.ltb_spec i (a_nz s)); [|lia]. unfold node_xi, node_rad. cbn -[INR].
  f_equal. apply le_INR in Nr. cbn in Nr. field. lra.
Qed.

Lemma init_ahead p s q : a_subgrid_nz s = None -> a_subgrid_nr s = None ->
  p_a_env p = None -> set_envelope_solver_params p s = (Fine, q) ->
  exists q' e old, initialize_envelope env to_main q = (Fine, q') /\ p_env q' = Some (e, old) /\
    s_rows e = (a_nz s + 2)%nat /\ s_cols e = a_nr s /\ s_rows old = (a_nz s + 2)%nat /\ s_cols old = a_nr s /\
    forall i k, s_val old i k = RtoC 0 /\ ((a_nz s <= i)%nat -> s_val e i k = RtoC 0).
Proof.
  intros Hz Hr Ha E.
  assert (Eq : exists n m, q = mkpl (p_l0 p) (p_pol p) None (Some (snd (params_of s))) n (Some false)
                 m (p_env p)).
  { unfold set_envelope_solver_params in E. destruct (Nat.ltb (a_nt s) 1); [discriminate|].
    unfold params_of in *. rewrite Hz, Hr in *. cbn [snd].
    rewrite Ha in E.
    destruct (p_params p) as [old|]; [destruct (p_n_steps p)|];
      try (injection E as <-; do 2 eexists; reflexivity).
    destruct (andb _ _); [discriminate|].
    destruct (neq _ _); injection E as <-; do 2 eexists; reflexivity. }
  destruct Eq as (n & m & ->). unfold initialize_envelope. cbn [p_params p_sub p_a_env].
  do 3 eexists. split; [reflexivity|]. split; [reflexivity|].
  unfold params_of. rewrite Hz, Hr. cbn -[Nat.sub INR Nat.ltb].
  do 4 (split; [reflexivity|]). intros i0 k0. split; [reflexivity|]. intros Hi.
  destruct (Nat.ltb_spec i0 (a_nz s)); [lia|reflexivity].
Qed.

(** A change of the grid that is not noticed. *)
Lemma grid_change : 
  exists h : list call,
    let p := history (new_pulse 1 "linear") h in
    (0 < p_n_steps p)%nat /\
    (exists sp, p_params p = Some sp /\ sp_nz sp = 4%nat) /\
    fst (set_envelope_solver_params p (set1 8)) = Fine /\
    forall chi n_p, fst (Evolve (snd (set_envelope_solver_params p (set1 8))) chi n_p) = MemoryErr.
Proof.
  exists [CSet (set1 4); CInit; CEvolve (fun _ _ => 0) 1].
  cbn [Spec_Laser.history Spec_Laser.do_call snd].
  set (p1 := snd (set_envelope_solver_params (new_pulse 1 "linear") (set1 4))).
  set (sp1 := mksp 0 1 1 4 3 1 (1 / INR 1) true).
  assert (E1 : p1 = mkpl 1 "linear" None (Some sp1) 0 (Some false) (0, 0)%nat None) by reflexivity.
  set (p2 := snd (initialize_envelope env to_main p1)).
  assert (E2 : exists out en old, p2 = mkpl 1 "linear" (Some out) (Some sp1) 0 (Some false)
                (0, 0)%nat (Some (en, old)) /\ s_rows en = 6%nat /\ s_cols en = 3%nat
                /\ s_rows out = 4%nat /\ s_cols out = 3%nat).
  { unfold p2. rewrite E1. do 3 eexists. split; [reflexivity|]. cbn. repeat split. }
  destruct E2 as (out & en & old & E2 & Rw & Cl & Ro & Co).
  assert (E3 : exists out' en' old', snd (Evolve p2 (fun _ _ => 0) 1)
     = mkpl 1 "linear" (Some out') (Some sp1) 1 (Some false) (0, 0)%nat (Some (en', old'))
       /\ s_rows en' = 6%nat).
  { rewrite E2. unfold evolve. cbn [p_params p_sub p_env p_l0 p_n_steps p_a_env p_main].
    rewrite Rw, Cl, Ro, Co. cbn [Nat.eqb sp_nz sp_nr sp1 Nat.add andb Nat.sub sp_nt negb].
    cbn [evolve_envelope].
    match goal with |- context[t_step false ?e ?c ?s] =>
      destruct (t_step_solved false e c (s_val en) (s_val old) ltac:(cbn; lia) ltac:(cbn; lia))
        as (nw & ol & Et & _) end.
    rewrite Et. do 3 eexists. split; [reflexivity | reflexivity]. }
  destruct E3 as (out' & en' & old' & E3 & Rw'). rewrite E3. cbn [p_n_steps p_params].
  split; [lia|]. split; [exists sp1; split; reflexivity|].
  unfold set_envelope_solver_params. cbn [set1 a_nt Nat.ltb Nat.leb params_of a_subgrid_nz a_subgrid_nr
    a_xi_min a_xi_max a_r_max a_nz a_nr a_dt a_use_phase p_params p_n_steps sp_zmin sp1 sp_dt].
  assert (NR : forall x, neq x x = false).
  { intros x. unfold neq. destruct (Req_EM_T x x); congruence. }
  rewrite !NR. cbn [andb]. rewrite ?NR.
  split; [reflexivity|]. intros chi n_p. unfold evolve.
  cbn [snd p_params p_sub p_env p_l0 p_n_steps p_a_env p_main sp_nz]. rewrite Rw'. reflexivity.
Qed.
End LC.

(** ** The phase used by the solver *)
Lemma phase_jump_wrapped e a i : e_use_phase e = true -> (i < e_nz e + 1)%nat ->
  Rabs (phase_jump e a i) <= 6.283185307179586 / 2 /\
  exists k : Z, phase_jump e a i
    = angle (a (i + 1)%nat 0%nat) - angle (a i 0%nat) + IZR k * 6.283185307179586.
Proof.
  intros Hu Hi. unfold phase_jump. rewrite Hu, phases_jump by exact Hi. cbv zeta. split.
  - apply ph_correct_small. lra.
  - destruct (ph_correct_int 6.283185307179586 (angle (a (i + 1)%nat 0%nat) - angle (a i 0%nat))
                ltac:(lra)) as [k ->]. exists k. reflexivity.
Qed.
Lemma pow2_gt_0 x : x <> 0 -> 0 < x ^ 2.
Proof. intros H. rewrite <- Rsqr_pow2. apply Rsqr_pos_lt. exact H. Qed.
Lemma atan_polar x y : x <> 0 ->
  cos (atan (y / x)) = Rabs x / sqrt (x ^ 2 + y ^ 2) /\
  sin (atan (y / x)) = Rabs x / x * (y / sqrt (x ^ 2 + y ^ 2)).
Proof.
  intros Hx. rewrite cos_atan, sin_atan.
  assert (Hp : 0 < x ^ 2) by (apply pow2_gt_0; exact Hx).
  assert (Hs : 0 < x ^ 2 + y ^ 2) by (pose proof (pow2_ge_0 y); lra).
  assert (E : sqrt (1 + (y / x)²) = sqrt (x ^ 2 + y ^ 2) / Rabs x).
  { replace (1 + (y / x)²) with ((x ^ 2 + y ^ 2) / x ^ 2) by (unfold Rsqr; field; exact Hx).
    rewrite sqrt_div_alt by exact Hp. f_equal. rewrite <- Rsqr_pow2. apply sqrt_Rsqr_abs. }
  rewrite E. assert (0 < sqrt (x ^ 2 + y ^ 2)) by (apply sqrt_lt_R0; exact Hs).
  assert (Rabs x <> 0) by (apply Rabs_no_R0; exact Hx). split; field; repeat split; lra.
Qed.
Lemma angle_polar z : z = polar (Cmod z) (angle z).
Proof.
  destruct z as [x y]. unfold polar, angle, Cmod. cbn [fst snd].
  assert (Hn : forall u v : R, 0 < u ^ 2 + v ^ 2 -> 0 < sqrt (u ^ 2 + v ^ 2))
    by (intros; apply sqrt_lt_R0; assumption).
  assert (Hs : x <> 0 -> 0 < sqrt (x ^ 2 + y ^ 2)).
  { intros Hx. apply Hn. pose proof (pow2_gt_0 x Hx). pose proof (pow2_ge_0 y). lra. }
  destruct (Rlt_dec 0 x) as [Hx|Hx].
  - destruct (atan_polar x y ltac:(lra)) as [-> ->]. rewrite Rabs_right by lra.
    specialize (Hs ltac:(lra)). f_equal; field; lra.
  - destruct (Rlt_dec x 0) as [Hx2|Hx2].
    + destruct (atan_polar x y ltac:(lra)) as [E1 E2]. rewrite Rabs_left in E1, E2 by lra.
      specialize (Hs ltac:(lra)).
      destruct (Rle_dec 0 y).
      * rewrite neg_cos, neg_sin, E1, E2. f_equal; field; lra.
      * unfold Rminus. replace (atan (y / x) + - PI) with (- (- atan (y / x) + PI)) by ring.
        rewrite cos_neg, sin_neg, neg_cos, neg_sin, cos_neg, sin_neg, E1, E2. f_equal; field; lra.
    + assert (x = 0) by lra. subst x. replace (0 ^ 2 + y ^ 2) with (y ^ 2) by ring.
      rewrite <- Rsqr_pow2, sqrt_Rsqr_abs.
      destruct (Rlt_dec 0 y).
      * rewrite cos_PI2, sin_PI2, Rabs_right by lra. f_equal; ring.
      * destruct (Rlt_dec y 0).
        -- rewrite cos_neg, sin_neg, cos_PI2, sin_PI2, Rabs_left by lra. f_equal; ring.
        -- assert (y = 0) by lra. subst y. rewrite Rabs_R0. f_equal; ring.
Qed.
Lemma angle_range z : - PI < angle z <= PI.
Proof.
  destruct z as [x y]. unfold angle. cbn [fst snd]. pose proof PI_RGT_0.
  pose proof (atan_bound (y / x)).
  destruct (Rlt_dec 0 x); [lra|]. destruct (Rlt_dec x 0).
  - assert (Hi : / x < 0) by (apply Rinv_lt_0_compat; assumption).
    destruct (Rle_dec 0 y).
    + assert (atan (y / x) <= 0); [|lra]. rewrite <- atan_0.
      assert (Hq : y / x <= 0) by (unfold Rdiv; nra).
      destruct Hq as [Hq| ->]; [left; apply atan_increasing; exact Hq | lra].
    + assert (0 < atan (y / x)); [|lra]. rewrite <- atan_0. apply atan_increasing.
      unfold Rdiv. nra.
  - destruct (Rlt_dec 0 y); [lra|]. destruct (Rlt_dec y 0); lra.
Qed.
Lemma set_params_lemma p s q : set_envelope_solver_params p s = (Fine, q) ->
  (1 <= a_nt s)%nat /\
  exists sp, p_params q = Some sp /\ sp_zmin sp = a_xi_min s /\ sp_zmax sp = a_xi_max s /\
    sp_rmax sp = a_r_max s /\ sp_nz sp = default (a_subgrid_nz s) (a_nz s) /\
    sp_nr sp = default (a_subgrid_nr s) (a_nr s) /\ sp_use_phase sp = a_use_phase s /\
    sp_nt sp = a_nt s /\ INR (sp_nt sp) * sp_dt sp = a_dt s /\
    exists sub, p_sub q = Some sub /\
      (sub = true <-> a_subgrid_nz s <> None \/ a_subgrid_nr s <> None) /\
      (sub = true -> p_main q = (a_nz s, a_nr s)) /\
      p_env q = p_env p /\ p_a_env q = p_a_env p /\ p_l0 q = p_l0 p.
Proof.
  intros E. unfold set_envelope_solver_params in E.
  destruct (Nat.ltb_spec (a_nt s) 1) as [L|L]; [discriminate|]. split; [exact L|].
  destruct (params_of s) as [sub sp] eqn:Esp. cbv zeta in E.
  assert (Eq : exists n, q = mkpl (p_l0 p) (p_pol p) (p_a_env p) (Some sp) n (Some sub)
                 (if sub then (a_nz s, a_nr s) else p_main p) (p_env p)).
  { destruct (p_params p) as [old|]; [destruct (p_n_steps p)|];
      try (injection E as <-; eexists; reflexivity).
    destruct (andb _ _); [discriminate|].
    destruct (neq _ _); injection E as <-; eexists; reflexivity. }
  destruct Eq as [n ->]. cbn [p_params p_sub p_main p_env p_a_env p_l0].
  unfold params_of in Esp. injection Esp as Es1 Es2.
  exists sp. split; [reflexivity|]. subst sp. cbn [sp_zmin sp_zmax sp_rmax sp_nz sp_nr sp_use_phase sp_nt sp_dt].
  rewrite Es1.
  do 3 (split; [reflexivity|]).
  assert (Hsub : sub = true <-> a_subgrid_nz s <> None \/ a_subgrid_nr s <> None).
  { subst sub. destruct (a_subgrid_nz s), (a_subgrid_nr s); split; intros H; try reflexivity;
      try discriminate; try (left; discriminate); try (right; discriminate).
    destruct H; congruence. }
  split; [|split].
  - destruct sub; [reflexivity|]. destruct (a_subgrid_nz s); [|reflexivity].
    exfalso. assert (false = true) by (apply Hsub; left; discriminate). discriminate.
  - destruct sub; [reflexivity|]. destruct (a_subgrid_nr s); [|reflexivity].
    exfalso. assert (false = true) by (apply Hsub; right; discriminate). discriminate.
  - do 2 (split; [reflexivity|]). split; [field; apply not_0_INR; lia|].
    exists sub. split; [reflexivity|]. split; [exact Hsub|]. split; [intros ->; reflexivity|].
    repeat split.
Qed.
Section OUT.
Variable to_main : sparams -> nat * nat -> carr2 -> carr2.
Variable to_sub : sparams -> nat * nat -> (nat -> nat -> R) -> (nat -> nat -> R).
Variables e_ch m_e eps_0 : R.
Lemma evolve_output p chi n_p p' : evolve to_main to_sub e_ch m_e eps_0 p chi n_p = (Fine, p') ->
  exists out en old sub sp, p_a_env p' = Some out /\ p_env p' = Some (en, old) /\
    p_sub p' = Some sub /\ p_params p' = Some sp /\ s_rows en = (sp_nz sp + 2)%nat /\
    (if sub then s_val out = to_main sp (p_main p') (s_val en) /\
                 (s_rows out, s_cols out) = p_main p'
     else s_val out = s_val en /\ s_rows out = sp_nz sp /\ s_cols out = sp_nr sp).
Proof.
  unfold evolve. intros E.
  destruct (p_params p) as [sp|]; [|discriminate]. destruct (p_sub p) as [sub|]; [|discriminate].
  destruct (p_env p) as [[en old]|]; [|discriminate].
  match type of E with context[andb (andb ?a ?b) ?c] => destruct a eqn:Ea; [|discriminate];
    destruct b eqn:Eb; [|discriminate]; destruct c; [|discriminate] end.
  apply Nat.eqb_eq in Ea, Eb. cbn [andb] in E.
  match type of E with context[evolve_envelope ?a ?b ?c ?d ?e] =>
    destruct (evolve_envelope a b c d e) as [[x y]|]; [|discriminate] end.
  injection E as <-. cbn [p_a_env p_env p_sub p_params p_main].
  do 5 eexists. do 4 (split; [reflexivity|]). cbn [s_rows s_cols s_val].
  split; [symmetry; exact Ea|]. unfold output. destruct sub; cbn [s_val s_rows s_cols].
  - split; [reflexivity|]. destruct (p_main p); reflexivity.
  - split; [reflexivity|]. split; lia.
Qed.
End OUT.
