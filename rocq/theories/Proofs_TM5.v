(** Tracking without outputs, definedness, history, tracking backwards. *)
From Coq Require Import QArith Qround Qreals Reals String List Arith Lqa Lra Lia.
From Coquelicot Require Import Coquelicot.
From Verif Require Import Model_Push Model_Bunch Spec_Bunch Proofs_Bunch Model_Optics Spec_Optics
  Proofs_Optics Proofs_Optics3 Model_CSR Spec_CSR Proofs_CSR Proofs_CSR2 Proofs_CSR3 Proofs_CSR6
  Proofs_CSR9 Proofs_CSR10 Model_TM Spec_TM Proofs_TM Proofs_TM2 Proofs_TM3 Proofs_TM4.
Import ListNotations.
Open Scope R_scope.

Lemma js_nil n : js_of [] n = [].
Proof. unfold js_of. apply filter_none. reflexivity. Qed.
Lemma plan_none rnd L step ls nt outs : determine_steps rnd L None step = Some (ls, nt, outs) -> outs = [].
Proof.
  unfold determine_steps. destruct step; cbn [Nat.eqb]; intros E; injection E as _ _ <-; reflexivity.
Qed.

(** No outputs requested. *)
Lemma none_spec rnd h n0 c e b bt tr : valid h b -> (0 < e_length e)%Q -> e_n_out e = None ->
  track rnd h n0 c e b bt false = Some tr ->
  let g := reference_energy h b e in let L := Q2R (e_length e) in
  tr_out tr = [] /\ tr_writes tr = [] /\
  exists m, length m = length (particles h b) /\
    carried h b g L (ref_x (x_ref b) (theta_ref b) (e_theta e) L L)
      (ref_theta (theta_ref b) (e_theta e) L L) m (tr_heap tr) (tr_bunch tr) /\
    (e_csr_on e = false -> m = map (fun p => piece e g L (enter (x_ref b) (theta_ref b) g p)) (particles h b)).
Proof.
  intros V HL Hn E g L.
  destruct (track_spec rnd h n0 c e b bt false tr V E) as
    (ls & nt & outs & st & ini & ks & D & T0 & EV & _ & _ & _ & O & I & F & WR & K & M & G & ND & A & SC & VA).
  fold g in D, T0, EV, F, M, WR. fold L in M. rewrite Hn in D. pose proof (plan_none _ _ _ _ _ _ D) as ->.
  rewrite js_nil in F, WR. inversion F; subst ks. subst ini. cbn in O. rewrite O in M.
  assert (RL : 0 < L) by (apply Q2R_pos; exact HL).
  split; [exact O|]. split; [exact WR|]. exists (st nt). split; [apply SC; lia|].
  rewrite new_theta_eq in M by (fold L; lra). rewrite new_x_eq in M by (fold L; lra). fold L in M.
  split; [exact M|]. intros Hc. rewrite Hc in D. cbn in D. injection D as <- <-.
  specialize (EV 0%nat ltac:(lia)). cbv zeta in EV. change (e_csr_on (set_gamma e g)) with (e_csr_on e) in EV.
  rewrite Hc in EV. rewrite EV, T0, map_map. fold L. reflexivity.
Qed.
(** The initial bunch requested but no other outputs. *)
Lemma initial_spec rnd h n0 c e b bt tr : valid h b -> e_n_out e = None ->
  track rnd h n0 c e b bt true = Some tr ->
  exists cb, tr_out tr = [cb] /\ same_place h b (tr_heap tr) cb /\ same_place h b (tr_heap tr) (tr_bunch tr).
Proof.
  intros V Hn E.
  destruct (track_spec rnd h n0 c e b bt true tr V E) as
    (ls & nt & outs & st & ini & ks & D & T0 & EV & _ & _ & _ & O & I & F & WR & K & M & G & ND & A & SC & VA).
  rewrite Hn in D. pose proof (plan_none _ _ _ _ _ _ D) as ->.
  rewrite js_nil in F. inversion F; subst ks. destruct I as (cb & -> & P). cbn in O. rewrite O in M.
  exists cb. split; [exact O|]. split; [exact P|]. cbn [last] in M. cbv zeta in M.
  destruct M as (M1 & M2 & M3 & M4). destruct P as (P1 & P2 & P3 & P4 & P5 & P6).
  destruct K as (K1 & _ & _ & _ & K2). unfold same_place, same_kind.
  rewrite M1, M2, M3, M4, P1, P2, P3, P4, K1.
  split; [reflexivity|]. split; [reflexivity|]. split; [reflexivity|]. split; [reflexivity|].
  split; [|exact K2]. apply grows_rd; [exact G|]. destruct V as (_ & V & _). apply V.
  unfold footprint. cbn [In]. auto 10.
Qed.

(** The end of the element, first order, no CSR. *)
Lemma end_spec h n0 c e b oi tr : valid h b -> (0 < e_length e)%Q -> e_csr_on e = false ->
  e_order e <> 2%nat -> 1 < reference_energy h b e -> e_n_out e <> None \/ oi = false ->
  track noround h n0 c e b false oi = Some tr ->
  let g := reference_energy h b e in let L := Q2R (e_length e) in
  carried h b g L (ref_x (x_ref b) (theta_ref b) (e_theta e) L L)
    (ref_theta (theta_ref b) (e_theta e) L L)
    (map (fun p => piece e g L (enter (x_ref b) (theta_ref b) g p)) (particles h b))
    (tr_heap tr) (tr_bunch tr).
Proof.
  intros V HL Hc Ho Hg Hi E g L. destruct (e_n_out e) as [n|] eqn:Hn.
  - destruct (outputs_spec h n0 c e b oi tr n V HL Hn (or_introl Hc) E) as (O & Pn & _ & (m & HM) & P & _).
    fold g L in O, HM. specialize (HM (n - 1)%nat ltac:(lia)). cbv zeta in HM. destruct HM as (_ & C & M).
    specialize (M Hc). replace (n - 1 + 1)%nat with n in C, M by lia.
    assert (Rn : INR n <> 0) by (apply not_0_INR; lia).
    replace (INR n * (L / INR n)) with L in C by (field; exact Rn).
    assert (LS : last (tr_out tr) b = nth (n - 1 + (if oi then 1 else 0)) (tr_out tr) b).
    { rewrite last_nth, O. f_equal. lia. }
    rewrite <- LS in C. destruct C as (C1 & C2 & C3 & C4 & C5 & C6 & C7 & C8).
    destruct P as (P1 & P2 & P3 & P4 & P5 & P6 & P7 & P8). unfold carried, same_kind.
    rewrite P1, P2, P3, P4, P5, P6, P7, P8. 
    split; [|repeat split; assumption]. rewrite C1, M. f_equal. apply map_ext. intros p.
    destruct n as [|n]; [lia|]. rewrite piece_iter by (assumption || reflexivity). f_equal. field. exact Rn.
  - destruct Hi as [Hi| ->]; [congruence|].
    destruct (none_spec noround h n0 c e b false tr V HL Hn E) as (_ & _ & m & _ & C & M).
    fold g L in C, M. rewrite (M Hc) in C. exact C.
Qed.

(** ** When tracking succeeds *)
Lemma steps_off c e g b q ls bt outs is : e_csr_on e = false -> forall s,
  exists s', steps c e g b q ls bt outs s is = Some s'.
Proof.
  intros Hc. induction is as [|i is_ IH]; intros s; [eexists; reflexivity|].
  cbn [steps]. unfold step. rewrite Hc. cbv zeta. apply IH.
Qed.
Lemma steps_all c e g b q ls bt outs is :
  (forall i m, In i is -> exists m', apply_csr c e (INR (i + 1) * ls * dir_of bt) g q m = Some m') ->
  forall s, exists s', steps c e g b q ls bt outs s is = Some s'.
Proof.
  intros H. induction is as [|i is_ IH]; intros s; [eexists; reflexivity|].
  cbn [steps]. unfold step. cbv zeta.
  set (m := track_with_transfer_map _ _ _ _ _ _ _ _).
  destruct (e_csr_on e).
  - destruct (H i m (or_introl eq_refl)) as [m' Hm]. unfold dir_of in Hm. rewrite Hm.
    apply IH. intros j m'' Hj. apply H. right. exact Hj.
  - apply IH. intros j m'' Hj. apply H. right. exact Hj.
Qed.

Lemma plan_total rnd L n_out step : n_out <> Some 0%nat -> exists p, determine_steps rnd L n_out step = Some p.
Proof.
  intros H. unfold determine_steps. destruct n_out as [[|n]|]; [congruence| |].
  - destruct step; eexists; reflexivity.
  - destruct step; eexists; reflexivity.
Qed.

Lemma track_off rnd h n0 c e b bt oi : e_csr_on e = false ->
  (exists tr, track rnd h n0 c e b bt oi = Some tr) <->
  (~ (e_length e == 0)%Q /\ e_n_out e <> Some 0%nat /\ (e_gamma_ref e = None -> sum (rd h (b_w b)) <> 0)).
Proof.
  intros Hc. unfold track. destruct (Qeq_bool (e_length e) 0) eqn:EL.
  { apply Qeq_bool_iff in EL. split; [intros [tr F]; discriminate|intros [F _]; contradiction]. }
  assert (NL : ~ (e_length e == 0)%Q) by (intros F; apply Qeq_bool_iff in F; congruence).
  destruct (match e_gamma_ref e with None => if Req_EM_T (sum (rd h (b_w b))) 0 then true else false | Some _ => false end) eqn:EW.
  { split; [intros [tr F]; discriminate|]. intros (_ & _ & F). destruct (e_gamma_ref e); [discriminate|].
    destruct (Req_EM_T (sum (rd h (b_w b))) 0); [|discriminate]. exfalso. apply F; auto. }
  assert (NW : e_gamma_ref e = None -> sum (rd h (b_w b)) <> 0).
  { intros Hg. rewrite Hg in EW. destruct (Req_EM_T (sum (rd h (b_w b))) 0); [discriminate|assumption]. }
  destruct (match e_n_out e with Some O => true | _ => false end) eqn:EN.
  { split; [intros [tr F]; discriminate|]. intros (_ & F & _). destruct (e_n_out e) as [[|n]|]; congruence. }
  assert (NN : e_n_out e <> Some 0%nat) by (intros F; rewrite F in EN; discriminate).
  split; [intros _; split; [exact NL|split; [exact NN|exact NW]]|]. intros _.
  destruct (beam_matrix h b (e_gamma_ref e)) as [m g_avg]. cbv zeta.
  set (g := match e_gamma_ref e with Some g => g | None => g_avg end).
  change (e_csr_on (set_gamma e g)) with (e_csr_on e). rewrite Hc.
  change (e_n_out (set_gamma e g)) with (e_n_out e). change (e_length (set_gamma e g)) with (e_length e).
  destruct (plan_total rnd (e_length e) (e_n_out e) None NN) as [[[ls nt] outs] ->].
  destruct (if oi then _ else _) as [[[h1 n1] out] wr1].
  destruct (steps_off (clear c) (set_gamma e g) g b (get_q h1 b) (Q2R ls) bt outs (seq 0 nt) Hc (mkl m h1 out wr1)) as [s ->].
  destruct (update_input_bunch (l_heap s) n1 b (set_gamma e g) g (l_cols s) (l_out s)) as [[h3 b'] n3].
  eexists. reflexivity.
Qed.

Lemma track_ready h n0 c e b oi : ready c e -> accepts h b e ->
  exists tr, track noround h n0 c e b false oi = Some tr.
Proof.
  intros HR (HL & NN & NW). destruct (e_csr_on e) eqn:Hc.
  2:{ apply track_off; [exact Hc|]. split; [|split; assumption]. intros F. rewrite F in HL. apply (Qlt_irrefl 0 HL). }
  destruct HR as [HR|(l & -> & O1 & O2 & O3)]; [congruence|].
  unfold track. destruct (Qeq_bool (e_length e) 0) eqn:EL.
  { apply Qeq_bool_iff in EL. rewrite EL in HL. exfalso. apply (Qlt_irrefl 0 HL). }
  destruct (match e_gamma_ref e with None => if Req_EM_T (sum (rd h (b_w b))) 0 then true else false | Some _ => false end) eqn:EW.
  { destruct (e_gamma_ref e); [discriminate|]. destruct (Req_EM_T (sum (rd h (b_w b))) 0); [|discriminate].
    exfalso. apply NW; auto. }
  destruct (match e_n_out e with Some O => true | _ => false end) eqn:EN.
  { destruct (e_n_out e) as [[|n]|]; congruence. }
  destruct (beam_matrix h b (e_gamma_ref e)) as [m g_avg]. cbv zeta.
  set (g := match e_gamma_ref e with Some g => g | None => g_avg end). set (e' := set_gamma e g).
  change (e_csr_on e') with (e_csr_on e). rewrite Hc.
  change (e_n_out e') with (e_n_out e). change (e_length e') with (e_length e).
  set (c' := add_lattice_element noround (run noround l) e').
  assert (EC : c' = run noround (l ++ [Add e'])) by (unfold c'; rewrite run_snoc; reflexivity).
  assert (OK : ok_op (Add e')) by (split; assumption).
  assert (W : wf (run noround l)) by (apply wf_run; [intros q Hq; exact Hq|exact wf0|exact O1]).
  destruct W as (W1 & W2 & _). pose proof (own_step l e' O2 O3) as E.
  destruct (steps_exact _ _ (e_length e') (e_n_out e') W1 W2 HL (proj2 OK)) as (D1 & _ & _ & _ & (k' & D2 & D3 & D4) & _).
  rewrite <- E in D1, D3. change (fst (steps_of (run noround (l ++ [Add e'])) e')) with (get_csr_step (run noround (l ++ [Add e'])) e') in D1, D3.
  rewrite <- EC in D1, D3. change (e_length e') with (e_length e) in D3.
  destruct (plan_csr (e_length e) (e_n_out e) (get_csr_step c' e') k' D1 D2 D3 NN D4) as (outs & -> & _).
  destruct (if oi then _ else _) as [[[h1 n1] out] wr1].
  destruct (steps_all c' e' g b (get_q h1 b) (Q2R (get_csr_step c' e')) false outs (seq 0 k')) with (s := mkl m h1 out wr1) as [s ->].
  { intros i cols Hi. apply in_seq in Hi. unfold dir_of.
    replace (INR (i + 1) * Q2R (get_csr_step c' e') * (1 - 2 * 0)) with (INR (i + 1) * Q2R (get_csr_step c' e')) by ring.
    rewrite EC. apply apply_some; try assumption. rewrite <- EC. change (e_length e') with (e_length e). rewrite D3.
    apply Qmult_le_compat_r; [|Lqa.lra]. unfold qn. rewrite <- Zle_Qle. lia. }
  destruct (update_input_bunch (l_heap s) n1 b e' g (l_cols s) (l_out s)) as [[h3 b'] n3].
  eexists. reflexivity.
Qed.

(** ** History *)
Lemma steps_csr c c' e g b q ls bt outs is : e_csr_on e = false -> forall s,
  steps c e g b q ls bt outs s is = steps c' e g b q ls bt outs s is.
Proof.
  intros Hc. induction is as [|i is_ IH]; intros s; [reflexivity|].
  cbn [steps]. unfold step. rewrite Hc. cbv zeta. apply IH.
Qed.
Lemma track_history rnd h n0 c c' e b bt oi g : e_csr_on e = false -> e_gamma_ref e = Some g ->
  option_map forget (track rnd h n0 c e b bt oi) = option_map forget (track rnd h n0 c' e b bt oi) /\
  forall tr, track rnd h n0 c e b bt oi = Some tr -> tr_elem tr = e /\ tr_csr tr = clear c.
Proof.
  intros Hc Hg. unfold track. destruct (Qeq_bool (e_length e) 0); [split; [reflexivity|discriminate]|].
  rewrite Hg. destruct (match e_n_out e with Some O => true | _ => false end); [split; [reflexivity|discriminate]|].
  destruct (beam_matrix h b (Some g)) as [m g_avg]. cbv zeta.
  assert (SE : set_gamma e g = e) by (destruct e; cbn in *; rewrite Hg; reflexivity).
  rewrite SE, Hc. destruct (determine_steps rnd (e_length e) (e_n_out e) None) as [[[ls nt] outs]|];
    [|split; [reflexivity|discriminate]].
  destruct (if oi then _ else _) as [[[h1 n1] out] wr1].
  rewrite (steps_csr (clear c) (clear c') e g b (get_q h1 b) (Q2R ls) bt outs (seq 0 nt) Hc).
  destruct (steps (clear c') e g b (get_q h1 b) (Q2R ls) bt outs (mkl m h1 out wr1) (seq 0 nt)) as [s|];
    [|split; [reflexivity|discriminate]].
  destruct (update_input_bunch (l_heap s) n1 b e g (l_cols s) (l_out s)) as [[h3 b'] n3].
  split; [reflexivity|]. intros tr E. injection E as <-. split; reflexivity.
Qed.

(** ** Tracking backwards *)
Lemma back_spec h n0 c e b oi tr n : valid h b -> (0 < e_length e)%Q -> e_n_out e = Some n ->
  e_csr_on e = false -> track noround h n0 c e b true oi = Some tr ->
  let g := reference_energy h b e in let L := Q2R (e_length e) in
  let sh := if oi then 1%nat else 0%nat in
  forall k, (k < n)%nat ->
    let d := INR (k + 1) * (L / INR n) in
    exists xr, (e_theta e <> 0 -> xr = 2 * x_ref b - ref_x (x_ref b) (theta_ref b) (e_theta e) L (- d)) /\
      (e_theta e = 0 -> xr = ref_x (x_ref b) (theta_ref b) (e_theta e) L (- d)) /\
      carried h b g (- d) xr (ref_theta (theta_ref b) (e_theta e) L (- d))
        (map (fun p => iter (k + 1) (piece e g (L / INR n)) (enter (x_ref b) (theta_ref b) g p))
          (particles h b)) (tr_heap tr) (nth (k + sh) (tr_out tr) b).
Proof.
  intros V HL Hn Hc E g L sh k Hk d.
  destruct (track_spec noround h n0 c e b true oi tr V E) as
    (ls & nt & outs & st & ini & ks & D & T0 & EV & _ & _ & _ & O & I & F & WR & K & M & G & ND & A & SC & VA).
  fold g in D, T0, EV, F, M, WR. rewrite Hn, Hc in D. 
  assert (Pn : (0 < n)%nat) by lia.
  destruct (plan_off (e_length e) n Pn) as (outs' & D' & J). rewrite D' in D. injection D as <- <- <-.
  rewrite Q2R_div_qn in F, EV by exact Pn. fold L in F, EV.
  assert (RL : 0 < L) by (apply Q2R_pos; exact HL).
  assert (Rn : 0 < INR n) by (apply lt_0_INR; exact Pn).
  assert (Pd : 0 < d).
  { unfold d. apply Rmult_lt_0_compat; [apply lt_0_INR; lia|]. apply Rdiv_lt_0_compat; assumption. }
  rewrite J in F. destruct (F2_nth _ _ _ 0%nat b F) as [FL FN]. rewrite seq_length in FL, FN.
  specialize (FN k Hk). rewrite seq_nth in FN by exact Hk. cbn [Nat.add] in FN.
  assert (NK : nth (k + sh) (tr_out tr) b = nth k ks b).
  { assert (LI : length ini = sh) by (unfold sh; destruct oi; [destruct I as (cb & -> & _); reflexivity|subst ini; reflexivity]).
    rewrite O, app_nth2 by lia. f_equal. lia. }
  rewrite <- NK in FN. unfold output_of in FN. cbv zeta in FN.
  replace (INR (k + 1) * (L / INR n) * dir_of true) with (- d) in FN by (unfold d, dir_of; ring).
  assert (Hc' : e_csr_on (set_gamma e g) = false) by exact Hc.
  pose proof (evolves_off _ (set_gamma e g) _ _ _ _ _ _ Hc' EV (S k) ltac:(lia)) as X. rewrite X, T0, map_map in FN.
  rewrite new_theta_eq in FN by (fold L; lra).
  exists (new_x e b (- d)). split; [intros N; apply new_x_back; assumption|]. split.
  - intros Z. unfold new_x, ref_x. destruct (Req_EM_T (e_theta e) 0); [reflexivity|contradiction].
  - replace (k + 1)%nat with (S k) by lia. exact FN.
Qed.
