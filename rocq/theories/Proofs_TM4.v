(** Consequences for the outputs and the final bunch. *)
From Coq Require Import QArith Qround Qreals Reals List Arith Lqa Lra Lia.
From Coquelicot Require Import Coquelicot.
From Verif Require Import Model_Push Model_Bunch Spec_Bunch Proofs_Bunch Model_Optics Spec_Optics
  Proofs_Optics Proofs_Optics3 Model_CSR Spec_CSR Proofs_CSR Proofs_CSR2 Proofs_CSR3 Proofs_CSR6
  Proofs_CSR9 Proofs_CSR10 Model_TM Spec_TM Proofs_TM Proofs_TM2 Proofs_TM3.
Import ListNotations.
Open Scope R_scope.

Lemma Q2R_pos q : (0 < q)%Q -> 0 < Q2R q.
Proof. intros H. apply Qlt_Rlt in H. unfold Q2R in H at 1. cbn in H. lra. Qed.

Lemma F2_nth {A B} (P : A -> B -> Prop) l m da db : Forall2 P l m ->
  length l = length m /\ forall k, (k < length l)%nat -> P (nth k l da) (nth k m db).
Proof.
  intros H. induction H as [|a b l m Hab H [IL IH]]; [split; [reflexivity|cbn; intros; lia]|].
  split; [cbn; f_equal; exact IL|]. intros [|k] Hk; [exact Hab|]. cbn [nth]. apply IH. cbn in Hk. lia.
Qed.

(** The tracking plan, whether CSR is on or off. *)
Lemma plan c e n (g : R) : ready c e -> (0 < e_length e)%Q -> e_n_out e = Some n -> (0 < n)%nat ->
  let e' := set_gamma e g in
  let c' := if e_csr_on e then add_lattice_element noround c e' else clear c in
  exists ls nt outs j,
    determine_steps noround (e_length e) (Some n)
      (if e_csr_on e then Some (get_csr_step c' e') else None) = Some (ls, nt, outs) /\
    (0 < ls)%Q /\ (0 < j)%nat /\ nt = (n * j)%nat /\ (e_csr_on e = false -> j = 1%nat) /\
    Q2R ls = Q2R (e_length e) / INR n / INR j /\
    js_of outs nt = map (fun p => ((p + 1) * j - 1)%nat) (seq 0 n).
Proof.
  intros HR HL Hn Pn e' c'. assert (Rn : INR n <> 0) by (apply not_0_INR; lia).
  destruct (e_csr_on e) eqn:Ec.
  - destruct HR as [HR|(l & -> & O1 & O2 & O3)]; [congruence|].
    assert (EC : c' = run noround (l ++ [Add e'])) by (unfold c'; rewrite run_snoc; reflexivity).
    assert (OK : ok_op (Add e')).
    { split; [exact HL|]. change (e_n_out e') with (e_n_out e). rewrite Hn. intros F. injection F as F. lia. }
    destruct (ranges_run l e' O1 O2 O3 OK) as (k & m & t & K1 & K2 & K3 & _). fold c' in K3. rewrite <- EC in K3.
    change (e_length e') with (e_length e) in K3.
    assert (W : wf (run noround l)) by (apply wf_run; [intros q Hq; exact Hq|exact wf0|exact O1]).
    destruct W as (W1 & W2 & _). pose proof (own_step l e' O2 O3) as E.
    assert (S1 : c_step (run noround (l ++ [Add e'])) = c_step (run noround l)) by (rewrite run_snoc; reflexivity).
    destruct (steps_exact _ _ (e_length e') (e_n_out e') W1 W2 HL (proj2 OK)) as (D1 & _ & _ & _ & (k' & D2 & D3 & D4) & _).
    rewrite <- E in D1, D3. change (fst (steps_of (run noround (l ++ [Add e'])) e')) with (get_csr_step (run noround (l ++ [Add e'])) e') in D1, D3.
    rewrite <- EC in D1, D3.
    change (e_n_out e') with (e_n_out e) in D4. rewrite Hn in D4.
    destruct (plan_on (e_length e) (get_csr_step c' e') k' n D1 D2 D3 Pn D4) as (outs & j & P1 & P2 & P3 & P4).
    exists (get_csr_step c' e'), k', outs, j. split; [exact P1|]. split; [exact D1|]. split; [exact P3|].
    split; [exact P2|]. split; [discriminate|]. split; [|exact P4].
    assert (Rj : INR j <> 0) by (apply not_0_INR; lia).
    change (e_length e') with (e_length e) in D3. apply Qeq_eqR in D3. rewrite D3, Q2R_mult, Q2R_qn, P2, mult_INR. field. split; assumption.
  - destruct (plan_off (e_length e) n Pn) as (outs & P1 & P2).
    exists (e_length e / qn n)%Q, n, outs, 1%nat. split; [exact P1|].
    split. { pose proof (qn_pos n Pn). apply Qlt_shift_div_l; [assumption|]. Lqa.lra. }
    split; [lia|]. split; [lia|]. split; [reflexivity|]. split.
    + rewrite Q2R_div_qn by exact Pn. cbn [INR]. field. exact Rn.
    + rewrite P2. transitivity (map (fun p => p) (seq 0 n)); [symmetry; apply map_id|].
      apply map_ext. intros p. lia.
Qed.

Lemma last_app {A} (l m : list A) d : m <> [] -> last (l ++ m) d = last m d.
Proof.
  intros H. induction l as [|a l IH]; [reflexivity|]. cbn [app].
  destruct (l ++ m) eqn:E; [destruct l, m; cbn in E; congruence|]. rewrite <- E, <- IH, E. reflexivity.
Qed.
Lemma last_nth {A} (l : list A) d : last l d = nth (length l - 1) l d.
Proof.
  induction l as [|a l IH]; [reflexivity|]. destruct l as [|b l]; [reflexivity|].
  change (last (a :: b :: l) d) with (last (b :: l) d). rewrite IH. cbn [length].
  replace (S (S (length l)) - 1)%nat with (S (S (length l) - 1)) by lia. reflexivity.
Qed.

Lemma map2_nth_gen {A B C} (f : A -> B -> C) l m i da db dc :
  (i < length l)%nat -> (i < length m)%nat -> nth i (map2 f l m) dc = f (nth i l da) (nth i m db).
Proof.
  revert m i. induction l as [|a l IH]; intros [|b m] [|i]; cbn; intros; try lia; auto. apply IH; lia.
Qed.

Lemma outputs_spec h n0 c e b oi tr n : valid h b -> (0 < e_length e)%Q -> e_n_out e = Some n ->
  ready c e -> track noround h n0 c e b false oi = Some tr ->
  let g := reference_energy h b e in
  let L := Q2R (e_length e) in
  let sh := if oi then 1%nat else 0%nat in
  length (tr_out tr) = (n + sh)%nat /\ (0 < n)%nat /\
  (oi = true -> same_place h b (tr_heap tr) (nth 0 (tr_out tr) b)) /\
  (exists m : nat -> list (list R), forall k, (k < n)%nat ->
     let d := INR (k + 1) * (L / INR n) in
     length (m k) = length (particles h b) /\
     carried h b g d (ref_x (x_ref b) (theta_ref b) (e_theta e) L d)
       (ref_theta (theta_ref b) (e_theta e) L d) (m k) (tr_heap tr) (nth (k + sh) (tr_out tr) b) /\
     (e_csr_on e = false -> m k = map (fun p => iter (k + 1) (piece e g (L / INR n))
        (enter (x_ref b) (theta_ref b) g p)) (particles h b))) /\
  same_place (tr_heap tr) (last (tr_out tr) b) (tr_heap tr) (tr_bunch tr) /\
  map w_bunch (tr_writes tr) = tr_out tr /\
  (forall k, (k < n)%nat -> w_time (nth (k + sh) (tr_writes tr) (mkwr 0 0 b)) = INR (k + 1) * (L / INR n) / c_SI) /\
  (exists j, (0 < j)%nat /\ (e_csr_on e = false -> j = 1%nat) /\
     forall w, In w (tr_writes tr) -> w_dt w = L / INR n / INR j / c_SI).
Proof.
  intros V HL Hn HR E g L sh.
  assert (Pn : (0 < n)%nat).
  { unfold track in E. destruct (Qeq_bool (e_length e) 0); [discriminate|].
    destruct (match e_gamma_ref e with None => if Req_EM_T (sum (rd h (b_w b))) 0 then true else false | Some _ => false end);
      [discriminate|]. rewrite Hn in E. destruct n; [discriminate|lia]. }
  destruct (track_spec noround h n0 c e b false oi tr V E) as
    (ls & nt & outs & st & ini & ks & D & T0 & EV & _ & _ & _ & O & I & F & WR & K & M & G & ND & A & SC & VA).
  fold g in D, T0, EV, F, M, WR. fold L in M.
  destruct (plan c e n g HR HL Hn Pn) as (ls' & nt' & outs' & j & D' & PL & Pj & Ent & Ej & Els & Ejs).
  rewrite Hn in D. rewrite D' in D. injection D as -> -> ->.
  assert (RL : 0 < L) by (apply Q2R_pos; exact HL).
  assert (Rn : 0 < INR n) by (apply lt_0_INR; exact Pn).
  assert (Rj : 0 < INR j) by (apply lt_0_INR; exact Pj).
  fold L in Els. rewrite Ejs in F, WR.
  destruct (F2_nth _ _ _ 0%nat b F) as [FL FN]. rewrite map_length, seq_length in FL, FN.
  assert (LI : length ini = sh) by (unfold sh; destruct oi; [destruct I as (cb & -> & _); reflexivity|subst ini; reflexivity]).
  assert (NK : forall k, nth (k + sh) (tr_out tr) b = nth k ks b).
  { intros k. rewrite O, app_nth2 by lia. f_equal. lia. }
  assert (DK : forall k, INR ((k + 1) * j - 1 + 1) * (Q2R ls) * dir_of false = INR (k + 1) * (L / INR n)).
  { intros k. replace ((k + 1) * j - 1 + 1)%nat with ((k + 1) * j)%nat by lia.
    rewrite mult_INR, Els. unfold dir_of. field. split; lra. }
  assert (JK : forall k, (k < n)%nat -> nth k (map (fun p => ((p + 1) * j - 1)%nat) (seq 0 n)) 0%nat = ((k + 1) * j - 1)%nat).
  { intros k Hk. rewrite (nth_indep _ 0%nat ((0 + 1) * j - 1)%nat) by (rewrite map_length, seq_length; exact Hk).
    rewrite (map_nth (fun p => ((p + 1) * j - 1)%nat)). rewrite seq_nth by exact Hk. reflexivity. }
  split; [rewrite O, app_length, LI; lia|]. split; [exact Pn|]. split.
  { intros ->. destruct I as (cb & -> & P). rewrite O. exact P. }
  split.
  { exists (fun k => st ((k + 1) * j)%nat). intros k Hk. cbv zeta.
    assert (Hkj : ((k + 1) * j <= nt)%nat) by (rewrite Ent; apply Nat.mul_le_mono_r; lia).
    split; [apply SC; exact Hkj|]. split.
    - specialize (FN k Hk). rewrite JK in FN by exact Hk. unfold output_of in FN. cbv zeta in FN.
      rewrite DK in FN. rewrite new_theta_eq in FN by (fold L; lra).
      rewrite new_x_eq in FN; [|fold L; lra|].
      + replace (S ((k + 1) * j - 1)) with ((k + 1) * j)%nat in FN by lia. rewrite NK. exact FN.
      + apply Rmult_lt_0_compat; [apply lt_0_INR; lia|]. apply Rdiv_lt_0_compat; assumption.
    - intros Hc. assert (Hc' : e_csr_on (set_gamma e g) = false) by exact Hc.
      pose proof (evolves_off _ (set_gamma e g) _ _ _ _ _ _ Hc' EV ((k + 1) * j)%nat Hkj) as X. rewrite X.
      rewrite T0, map_map, (Ej Hc). rewrite Nat.mul_1_r. rewrite (Ej Hc) in Els. rewrite Els. cbn [INR].
      replace (L / INR n / 1) with (L / INR n) by (field; lra). reflexivity. }
  assert (NE : ks <> []) by (intros ->; cbn in FL; lia).
  split.
  { destruct (tr_out tr) as [|o1 os] eqn:EO.
    - destruct ini, ks; try discriminate; congruence.
    - cbv zeta in M. destruct M as (M1 & M2 & M3 & M4). unfold same_place, same_kind.
      split; [exact M1|]. split; [exact M2|]. split; [exact M3|]. split; [exact M4|].
      assert (LS : last (o1 :: os) b = nth (n - 1) ks b).
      { rewrite O, last_app by exact NE. rewrite last_nth. f_equal. lia. }
      specialize (FN (n - 1)%nat ltac:(lia)). destruct FN as (_ & _ & _ & _ & B1 & B2 & B3 & B4).
      destruct K as (K1 & _ & _ & _ & K2 & K3 & K4). rewrite LS, B1, B2, B3, B4, K1, K2, K3, K4.
      split; [|repeat split]. apply grows_rd; [exact G|]. destruct V as (_ & V & _). apply V.
      unfold footprint. cbn [In]. auto 10. }
  assert (WB : forall l m, length l = length m ->
     map w_bunch (map2 (fun (j : nat) ob => mkwr (INR (j + 1) * Q2R ls * dir_of false / c_SI) (Q2R ls / c_SI) ob) l m) = m).
  { clear. induction l as [|a l IH]; intros [|o m] H; try discriminate; [reflexivity|].
    cbn [map2 map]. rewrite IH by (injection H; auto). reflexivity. }
  split.
  { rewrite WR, map_app, map_map, O. f_equal; [apply map_id|]. apply WB. rewrite map_length, seq_length. exact FL. }
  split.
  { intros k Hk. rewrite WR, app_nth2 by (rewrite map_length; lia). rewrite map_length, LI.
    replace (k + sh - sh)%nat with k by lia.
    rewrite (map2_nth_gen _ _ _ k 0%nat b) by (rewrite ?map_length, ?seq_length; lia).
    cbn [w_time]. rewrite JK, DK by exact Hk. reflexivity. }
  exists j. split; [exact Pj|]. split; [exact Ej|]. intros w Hw. rewrite WR in Hw. apply in_app_or in Hw.
  destruct Hw as [Hw|Hw].
  - apply in_map_iff in Hw. destruct Hw as (o & <- & _). cbn [w_dt]. rewrite Els. reflexivity.
  - assert (Q : forall l m, In w (map2 (fun (j : nat) ob => mkwr (INR (j + 1) * Q2R ls * dir_of false / c_SI) (Q2R ls / c_SI) ob) l m) ->
      w_dt w = Q2R ls / c_SI).
    { clear. induction l as [|a l IH]; intros [|o m] H; try destruct H; [subst w; reflexivity|apply (IH m); assumption]. }
    rewrite (Q _ _ Hw), Els. reflexivity.
Qed.
