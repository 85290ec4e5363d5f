(** What [track] does. *)
From Coq Require Import QArith Qround Qreals Reals List Arith Lra Lia.
From Verif Require Import Model_Push Model_Bunch Spec_Bunch Proofs_Bunch Model_Optics Spec_Optics
  Proofs_Optics Proofs_Optics3 Model_CSR Spec_CSR Proofs_CSR Proofs_CSR9 Model_TM Spec_TM Proofs_TM.
Import ListNotations.
Open Scope R_scope.

Lemma copy_place h n b h' cb n' : copy h n b = (h', cb, n') ->
  same_place h b h' cb /\ grows h h' /\ NoDup (coords cb) /\
  (forall a, In a (coords cb) -> (length h <= a < length h')%nat) /\
  (length h <= b_w cb < length h')%nat /\ ~ In (b_w cb) (coords cb) /\
  (uniform h b -> uniform h' cb).
Proof.
  intros E. pose proof (copy_contents h n b h' cb n' E) as C. unfold contents in C.
  injection C as C1 C2. rewrite copy_eq in E. injection E as E1 E2 E3.
  assert (G : grows h h') by (subst h'; eexists; reflexivity).
  split; [|split; [exact G|]].
  - unfold same_place, same_kind. rewrite C1, C2. subst cb. repeat split.
  - subst cb h'. rewrite app_length. unfold coords. cbn [b_x b_y b_xi b_px b_py b_pz b_w In length].
    split; [repeat constructor; simpl; intuition lia|]. split; [intuition lia|]. split; [lia|].
    split; [intuition lia|].
    unfold uniform, coords. cbn [b_x b_y b_xi b_px b_py b_pz In].
    rewrite !rd_app_new. cbn [nth]. intros U a Ha.
    destruct Ha as [<-|[<-|[<-|[<-|[<-|[<-|[]]]]]]]; rewrite rd_app_new; cbn [nth]; apply U; auto 10.
Qed.

Lemma place_grows h b h' h'' b' : grows h' h'' ->
  (forall a, In a (coords b') -> (a < length h')%nat) -> (b_w b' < length h')%nat ->
  same_place h b h' b' -> same_place h b h'' b'.
Proof.
  intros G A W (H1 & H2 & H3 & H4 & K & K'). unfold same_place, same_kind.
  split; [|split; [exact H2|split; [exact H3|split; [exact H4|split]]]].
  - rewrite <- H1. symmetry. apply particles_ext. intros a Ha. symmetry. apply grows_rd; [exact G|].
    unfold footprint in Ha. unfold coords in A. cbn [In] in *.
    destruct Ha as [<-|[<-|[<-|[<-|[<-|[<-|[<-|[]]]]]]]]; try exact W; apply A; auto 10.
  - rewrite (grows_rd h' h'') by assumption. exact K.
  - exact K'.
Qed.

(** ** The input bunch *)
Lemma update_spec h0 h n b e g m out h' b' n' :
  grows h0 h -> (b_w b < length h0)%nat -> (forall a, In a (flat_map coords out) -> (a < length h)%nat) ->
  (forall ob, In ob out -> (b_w ob < length h)%nat /\ uniform h ob) ->
  update_input_bunch h n b e g m out = (h', b', n') ->
  grows h h' /\ kept b b' /\ NoDup (coords b') /\
  (forall a, In a (coords b') -> (length h <= a < length h')%nat) /\ uniform h' b' /\
  match out with
  | [] => let d := Q2R (e_length e) in carried h0 b g d (new_x e b d) (new_theta e b d) m h' b'
  | _ => let l := last out b in
      particles h' b' = particles h' l /\ prop_distance b' = prop_distance l /\
      x_ref b' = x_ref l /\ theta_ref b' = theta_ref l
  end.
Proof.
  intros G W A B. unfold update_input_bunch. destruct out as [|o1 out].
  - destruct (create_new_bunch h b e (convert_from_ocelot_matrix m g) (Q2R (e_length e))) as [h1 nb] eqn:E1.
    intros E. injection E as <- <- <-. pose proof (grows_length _ _ G) as GL.
    destruct (create_carried h b e g m (Q2R (e_length e)) h1 nb ltac:(lia) E1) as (G1 & C1 & B1 & N1 & A1 & U1).
    split; [exact G1|]. split; [repeat split|]. split; [exact N1|]. split; [exact A1|].
    split; [intros a Ha; rewrite (U1 a Ha); symmetry; apply U1; left; reflexivity|].
    destruct C1 as (K1 & K2 & K3 & K4 & K5 & K6). unfold carried, same_kind. cbv zeta.
    split; [exact K1|]. split; [exact K2|]. split; [exact K3|]. split; [exact K4|].
    split; [|repeat split]. cbn [b_w with_ref with_prop set_phase_space with_coords].
    apply grows_rd; [exact (grows_trans _ _ _ G G1)|exact W].
  - set (l := last (o1 :: out) b).
    assert (Hl : In l (o1 :: out)).
    { unfold l. clear. revert o1. induction out as [|o2 out IH]; intros o1; [left; reflexivity|].
      right. change (last (o1 :: o2 :: out) b) with (last (o2 :: out) b). apply IH. }
    destruct (copy h n l) as [[h1 lb] n1] eqn:E1. intros E. injection E as <- <- <-.
    destruct (copy_place h n l h1 lb n1 E1) as (P & G1 & N1 & A1 & W1 & _ & U1).
    split; [exact G1|]. split; [repeat split|]. split; [exact N1|]. split; [exact A1|].
    split; [intros a Ha; apply U1; [apply B; exact Hl|exact Ha]|].
    cbv zeta. destruct P as (P1 & P2 & P3 & P4 & _).
    split; [|split; [exact P2|split; [exact P3|exact P4]]].
    transitivity (particles h1 lb); [reflexivity|]. rewrite P1.
    apply particles_ext. intros a Ha. symmetry. apply grows_rd; [exact G1|].
    unfold footprint in Ha. cbn [In] in Ha.
    assert (A' : forall a, In a (coords l) -> (a < length h)%nat).
    { intros a' Ha'. apply A. apply in_flat_map. exists l. split; assumption. }
    unfold coords in A'. cbn [In] in A'.
    destruct Ha as [<-|[<-|[<-|[<-|[<-|[<-|[<-|[]]]]]]]]; [apply A'; auto 10..|apply B; exact Hl].
Qed.

(** ** Everything *)
Definition js_of (outs : list nat) (n : nat) : list nat :=
  filter (fun j => existsb (Nat.eqb j) outs) (seq 0 n).

Lemma NoDup_app {A} (l m : list A) : NoDup l -> NoDup m -> (forall a, In a l -> ~ In a m) -> NoDup (l ++ m).
Proof.
  intros Hl Hm H. induction Hl as [|a l Ha Hl IH]; [exact Hm|]. cbn [app]. constructor.
  - rewrite in_app_iff. intros [Q|Q]; [auto|]. apply (H a); [left; reflexivity|exact Q].
  - apply IH. intros a' Ha'. apply H. right. exact Ha'.
Qed.

(** The number of particles and of coordinates. *)
Lemma piece_col e g l v : is_col v -> is_col (piece e g l v).
Proof.
  intros Hv. unfold piece, track_col, is_col. cbv zeta.
  assert (forall a b : list R, length a = 6%nat -> length b = 6%nat -> length (map2 Rplus a b) = 6%nat).
  { intros a b Ha Hb. rewrite <- Ha in Hb |- *. clear Ha. revert b Hb.
    induction a as [|u a IH]; intros [|w b] Hb; try discriminate; [reflexivity|].
    cbn. f_equal. apply IH. injection Hb as Hb. exact Hb. }
  destruct (Nat.eqb (e_order e) 2); [apply H; [apply length_mat_vec|reflexivity]|apply length_mat_vec].
Qed.
Lemma evolves_cols c e g ls dir q n st N : evolves c e g ls dir q n st ->
  length (st 0%nat) = N -> List.Forall is_col (st 0%nat) ->
  forall i, (i <= n)%nat -> length (st i) = N /\ List.Forall is_col (st i).
Proof.
  intros E L0 C0. induction i as [|i IH]; intros Hi; [split; assumption|].
  destruct IH as [IL IC]; [lia|]. specialize (E i ltac:(lia)). cbv zeta in E.
  assert (C : List.Forall is_col (map (piece e g ls) (st i))).
  { apply Forall_map. eapply Forall_impl; [|exact IC]. intros v. apply piece_col. }
  destruct (e_csr_on e).
  - apply apply_spec in E. destruct E as [EL [kick EK]]. rewrite map_length in EL. split; [lia|].
    apply Forall_forall. intros v Hv. destruct (In_nth _ _ [] Hv) as (p & Hp & <-).
    rewrite map_length in EK. rewrite EK by lia. reflexivity.
  - rewrite E. split; [rewrite map_length; exact IL|exact C].
Qed.
Lemma enter_cols xr th g l : List.Forall is_col (map (enter xr th g) l).
Proof. apply Forall_map, Forall_forall. intros p _. reflexivity. Qed.

Lemma uniform_valid h b : valid h b -> uniform h b.
Proof.
  intros (_ & _ & V) a Ha. apply V. unfold footprint. unfold coords in Ha. cbn [In] in *. tauto.
Qed.
Lemma valid_intro h b : NoDup (coords b) -> ~ In (b_w b) (coords b) ->
  (forall a, In a (coords b) -> (a < length h)%nat) -> (b_w b < length h)%nat -> uniform h b ->
  length (rd h (b_w b)) = length (particles h b) -> valid h b.
Proof.
  intros N W A B U L.
  assert (F : forall a, In a (footprint b) -> In a (coords b) \/ a = b_w b).
  { intros a. unfold footprint, coords. cbn [In]. intuition. }
  split; [|split].
  - change (footprint b) with (coords b ++ [b_w b]). apply NoDup_app; [exact N|repeat constructor; intros []|].
    intros a Ha [<-|[]]. exact (W Ha).
  - intros a Ha. apply F in Ha. destruct Ha as [Ha| ->]; [apply A, Ha|exact B].
  - intros a Ha. apply F in Ha. destruct Ha as [Ha| ->]; [apply U, Ha|].
    rewrite L, particles_length. reflexivity.
Qed.

Lemma track_spec rnd h n0 c e b bt oi tr : valid h b ->
  track rnd h n0 c e b bt oi = Some tr ->
  let g := reference_energy h b e in
  let e' := set_gamma e g in
  let c' := if e_csr_on e then add_lattice_element rnd c e' else clear c in
  let L := Q2R (e_length e) in
  exists l_step nt outs st ini ks,
    determine_steps rnd (e_length e) (e_n_out e)
      (if e_csr_on e then Some (get_csr_step c' e') else None) = Some (l_step, nt, outs) /\
    let ls := Q2R l_step in
    st 0%nat = map (enter (x_ref b) (theta_ref b) g) (particles h b) /\
    evolves c' e' g ls (dir_of bt) (get_q h b) nt st /\
    tr_elem tr = e' /\ tr_csr tr = c' /\ tr_z tr = L /\ tr_out tr = ini ++ ks /\
    (if oi then exists cb, ini = [cb] /\ same_place h b (tr_heap tr) cb else ini = []) /\
    Forall2 (output_of h b e g ls (dir_of bt) st (tr_heap tr)) (js_of outs nt) ks /\
    tr_writes tr = map (fun ob => mkwr 0 (ls / c_SI) ob) ini ++
      map2 (fun j ob => mkwr (INR (j + 1) * ls * dir_of bt / c_SI) (ls / c_SI) ob) (js_of outs nt) ks /\
    kept b (tr_bunch tr) /\
    match tr_out tr with
    | [] => carried h b g L (new_x e b L) (new_theta e b L) (st nt) (tr_heap tr) (tr_bunch tr)
    | _ => let l := last (tr_out tr) b in
        particles (tr_heap tr) (tr_bunch tr) = particles (tr_heap tr) l /\
        prop_distance (tr_bunch tr) = prop_distance l /\
        x_ref (tr_bunch tr) = x_ref l /\ theta_ref (tr_bunch tr) = theta_ref l
    end /\
    grows h (tr_heap tr) /\ NoDup (flat_map coords (tr_out tr ++ [tr_bunch tr])) /\
    (forall a, In a (flat_map coords (tr_out tr ++ [tr_bunch tr])) ->
       (length h <= a < length (tr_heap tr))%nat) /\
    (forall i, (i <= nt)%nat -> length (st i) = length (particles h b) /\ List.Forall is_col (st i)) /\
    (forall ob, In ob (tr_out tr ++ [tr_bunch tr]) -> valid (tr_heap tr) ob).
Proof.
  intros V E. cbv zeta. unfold track in E.
  assert (W : (b_w b < length h)%nat).
  { destruct V as (_ & V & _). apply V. unfold footprint. cbn. auto 10. }
  destruct (Qeq_bool (e_length e) 0); [discriminate|].
  destruct (match e_gamma_ref e with None => if Req_EM_T (sum (rd h (b_w b))) 0 then true else false | Some _ => false end);
    [discriminate|].
  destruct (match e_n_out e with Some O => true | _ => false end); [discriminate|].
  pose proof (gamma_eq h b e V) as [Eg Eg']. pose proof (beam_eq h b (e_gamma_ref e) V) as Em. cbv zeta in Em.
  destruct (beam_matrix h b (e_gamma_ref e)) as [m g_avg]. cbn [fst snd] in Em, Eg, Eg'.
  cbv zeta in E. rewrite Eg in E. rewrite Eg' in Em. clear Eg Eg' g_avg.
  set (g := reference_energy h b e) in *. set (e' := set_gamma e g) in *.
  change (e_csr_on e') with (e_csr_on e) in E. change (e_n_out e') with (e_n_out e) in E.
  change (e_length e') with (e_length e) in E.
  set (c' := if e_csr_on e then add_lattice_element rnd c e' else clear c) in *.
  destruct (determine_steps rnd (e_length e) (e_n_out e) (if e_csr_on e then Some (get_csr_step c' e') else None))
    as [[[l_step nt] outs]|]; [|discriminate].
  exists l_step, nt, outs.
  set (ls := Q2R l_step) in *.
  assert (X : exists h1 n1 ini wr1,
    (if oi then let '(h', cb, counter') := copy h n0 b in (h', counter', [cb], [mkwr 0 (ls / c_SI) cb])
     else (h, n0, [], [])) = (h1, n1, ini, wr1) /\
    grows h h1 /\ wr1 = map (fun ob => mkwr 0 (ls / c_SI) ob) ini /\
    (if oi then exists cb, ini = [cb] /\ same_place h b h1 cb else ini = []) /\
    NoDup (flat_map coords ini) /\ (forall a, In a (flat_map coords ini) -> (length h <= a < length h1)%nat) /\
    (forall ob, In ob ini -> (b_w ob < length h1)%nat /\ uniform h1 ob /\ NoDup (coords ob) /\ ~ In (b_w ob) (coords ob))).
  { destruct oi.
    - destruct (copy h n0 b) as [[h1 cb] n1] eqn:E1. exists h1, n1, [cb], [mkwr 0 (ls / c_SI) cb].
      destruct (copy_place h n0 b h1 cb n1 E1) as (P & G1 & N1 & A1 & W1 & D1 & U1).
      split; [reflexivity|]. split; [exact G1|]. split; [reflexivity|]. split; [exists cb; split; [reflexivity|exact P]|].
      cbn [flat_map]. rewrite app_nil_r. split; [exact N1|]. split; [exact A1|]. intros ob [<-|[]].
      split; [lia|]. split; [apply U1, uniform_valid, V|]. split; assumption.
    - exists h, n0, [], []. split; [reflexivity|]. split; [apply grows_refl|]. split; [reflexivity|].
      split; [reflexivity|]. split; [constructor|]. split; intros a []. }
  destruct X as (h1 & n1 & ini & wr1 & -> & G1 & -> & I1 & N1 & A1 & B1) in E.
  destruct (steps c' e' g b (get_q h1 b) ls bt outs (mkl m h1 ini (map (fun ob => mkwr 0 (ls / c_SI) ob) ini)) (seq 0 nt))
    as [s|] eqn:ES; [|discriminate].
  assert (W1 : (b_w b < length h1)%nat) by (pose proof (grows_length _ _ G1); lia).
  destruct (steps_spec c' e' g b (get_q h1 b) ls bt outs h nt W 0%nat (mkl m h1 ini (map (fun ob => mkwr 0 (ls / c_SI) ob) ini)) s G1 ES)
    as (st & ks & T0 & TN & TS & G2 & O2 & W2 & F2 & N2 & A2 & B2).
  cbn [l_cols l_heap l_out l_writes] in T0, G2, O2, W2, A2.
  assert (EQ : get_q h1 b = get_q h b).
  { unfold get_q. rewrite (grows_rd h h1) by assumption. reflexivity. }
  rewrite EQ in *.
  destruct (update_input_bunch (l_heap s) n1 b e' g (l_cols s) (l_out s)) as [[h3 b'] n3] eqn:EU.
  injection E as <-.
  pose proof (grows_length _ _ G1) as L1. pose proof (grows_length _ _ G2) as L2.
  assert (AO : forall a, In a (flat_map coords (ini ++ ks)) -> (length h <= a < length (l_heap s))%nat).
  { intros a Ha. rewrite flat_map_app, in_app_iff in Ha. destruct Ha as [Ha|Ha].
    - apply A1 in Ha. lia. - apply A2 in Ha. lia. }
  assert (BO' : forall ob, In ob (ini ++ ks) -> (b_w ob < length (l_heap s))%nat /\ uniform (l_heap s) ob /\
    NoDup (coords ob) /\ ~ In (b_w ob) (coords ob)).
  { intros ob Ho. apply in_app_or in Ho. destruct Ho as [Ho|Ho].
    - destruct (B1 ob Ho) as (Q1 & Q2 & Q3 & Q4). split; [lia|]. split; [|split; assumption].
      apply (uniform_grows h1); [exact G2| |exact Q2]. intros a Ha.
      apply (A1 a). apply in_flat_map. exists ob. split; assumption.
    - destruct (B2 ob Ho) as (Q1 & Q2 & Q3). rewrite Q1. split; [lia|]. split; [exact Q2|]. split; [exact Q3|].
      intros F. assert (F' : In (b_w b) (flat_map coords ks)) by (apply in_flat_map; exists ob; split; assumption).
      apply A2 in F'. lia. }
  assert (BO : forall ob, In ob (ini ++ ks) -> (b_w ob < length (l_heap s))%nat) by (intros ob Ho; apply BO', Ho).
  rewrite O2 in EU.
  destruct (update_spec h (l_heap s) n1 b e' g (l_cols s) (ini ++ ks) h3 b' n3) as (G3 & K3 & N3 & A3 & U3 & M3);
    [exact (grows_trans _ _ _ G1 G2)|exact W|intros a Ha; apply AO in Ha; lia|
     intros ob Ho; split; apply BO', Ho|exact EU|].
  pose proof (grows_length _ _ G3) as L3.
  assert (SC : forall i, (i <= nt)%nat -> length (st i) = length (particles h b) /\ List.Forall is_col (st i)).
  { intros i Hi. apply (evolves_cols c' e' g ls (dir_of bt) (get_q h b) nt st); [|rewrite T0, Em; apply map_length|
      rewrite T0, Em; apply enter_cols|exact Hi]. intros j Hj. apply TS. lia. }
  assert (IO : if oi then exists cb, ini = [cb] /\ same_place h b h3 cb else ini = []).
  { destruct oi; [|exact I1]. destruct I1 as (cb & -> & P). exists cb. split; [reflexivity|].
    apply (place_grows h b h1); [exact (grows_trans _ _ _ G2 G3)| | |exact P].
    - intros a Ha. apply (A1 a). cbn [flat_map]. rewrite app_nil_r. exact Ha.
    - apply B1. left. reflexivity. }
  assert (FO : Forall2 (output_of h b e g ls (dir_of bt) st h3) (js_of outs nt) ks).
  { clear - F2 G3 AO BO. rename BO into BO0. unfold js_of.
    assert (AO' : forall a, In a (flat_map coords ks) -> (a < length (l_heap s))%nat).
    { intros a Ha. apply AO. rewrite flat_map_app. apply in_or_app. right. exact Ha. }
    assert (BO' : forall ob, In ob ks -> (b_w ob < length (l_heap s))%nat).
    { intros ob Ho. apply BO0. apply in_or_app. right. exact Ho. }
    clear AO BO0. induction F2 as [|j ob js ks HO HF IH]; constructor.
    - unfold output_of in *. cbv zeta in *.
      apply (carried_grows h b g _ _ _ _ (l_heap s)); [exact G3| |apply BO'; left; reflexivity|exact HO].
      intros a Ha. apply AO'. cbn [flat_map]. apply in_or_app. left. exact Ha.
    - apply IH.
      + intros a Ha. apply AO'. cbn [flat_map]. apply in_or_app. right. exact Ha.
      + intros ob' Ho. apply BO'. right. exact Ho. }
  assert (FM : flat_map coords ((ini ++ ks) ++ [b']) = (flat_map coords ini ++ flat_map coords ks) ++ coords b').
  { rewrite !flat_map_app. cbn [flat_map]. rewrite app_nil_r. reflexivity. }
  assert (VW : length (rd h (b_w b)) = length (particles h b)).
  { rewrite particles_length. destruct V as (_ & _ & V). apply V. unfold footprint. cbn [In]. auto 10. }
  assert (G0 : grows h h3) by exact (grows_trans _ _ _ G1 (grows_trans _ _ _ G2 G3)).
  assert (PW : forall ob, In ob (ini ++ ks) ->
    length (particles h3 ob) = length (particles h b) /\ length (rd h3 (b_w ob)) = length (particles h b)).
  { intros ob Ho. apply in_app_or in Ho. destruct Ho as [Ho|Ho].
    - destruct oi; [|subst ini; destruct Ho]. destruct IO as (cb & -> & P). destruct Ho as [<-|[]].
      destruct P as (P1 & _ & _ & _ & P5 & _). rewrite P1, P5. split; [reflexivity|exact VW].
    - clear - FO Ho SC VW.
      assert (Q : forall js kk, (forall j, In j js -> (j < nt)%nat) ->
        Forall2 (output_of h b e g ls (dir_of bt) st h3) js kk -> forall ob, In ob kk ->
        length (particles h3 ob) = length (particles h b) /\ length (rd h3 (b_w ob)) = length (particles h b)).
      { intros js kk Hj HF. induction HF as [|j o js kk HO HF IH]; intros ob' [].
        - subst ob'. destruct HO as (P1 & _ & _ & _ & P5 & _). rewrite P1, P5, map_length.
          split; [|exact VW]. apply SC. specialize (Hj j (or_introl eq_refl)). lia.
        - apply IH; [intros j' Hj'; apply Hj; right; exact Hj'|assumption]. }
      apply (Q (js_of outs nt) ks); [|exact FO|exact Ho].
      intros j Hj. unfold js_of in Hj. apply filter_In in Hj. destruct Hj as [Hj _]. apply in_seq in Hj. lia. }
  exists st, ini, ks. split; [reflexivity|]. cbv zeta. cbn [tr_heap tr_elem tr_csr tr_bunch tr_out tr_writes tr_z].
  split; [rewrite T0; exact Em|]. split; [intros i Hi; apply TS; lia|].
  split; [reflexivity|]. split; [reflexivity|]. split; [reflexivity|]. split; [exact O2|].
  split; [exact IO|]. split; [exact FO|].
  split; [exact W2|]. split; [exact K3|]. rewrite O2, FM. split.
  { rewrite <- TN in M3. exact M3. }
  split; [exact G0|]. split; [|split; [|split; [exact SC|]]].
  - apply NoDup_app; [apply NoDup_app; [exact N1|exact N2|]|exact N3|].
    + intros a Ha Ha'. apply A1 in Ha. apply A2 in Ha'. lia.
    + intros a Ha Ha'. rewrite <- flat_map_app in Ha. apply AO in Ha. apply A3 in Ha'. lia.
  - intros a Ha. rewrite <- flat_map_app, in_app_iff in Ha. destruct Ha as [Ha|Ha].
    + apply AO in Ha. lia.
    + apply A3 in Ha. lia.
  - intros ob Ho. apply in_app_or in Ho. destruct Ho as [Ho|[<-|[]]].
    + destruct (BO' ob Ho) as (Q1 & Q2 & Q3 & Q4). destruct (PW ob Ho) as (Q5 & Q6).
      assert (A4 : forall a, In a (coords ob) -> (a < length (l_heap s))%nat).
      { intros a Ha. apply AO. apply in_flat_map. exists ob. split; assumption. }
      apply valid_intro; [exact Q3|exact Q4|intros a Ha; apply A4 in Ha; lia|lia| |rewrite Q5; exact Q6].
      apply (uniform_grows (l_heap s)); [exact G3|exact A4|exact Q2].
    + destruct K3 as (K1 & _). assert (BW : rd h3 (b_w b') = rd h (b_w b)).
      { rewrite K1. apply grows_rd; [exact G0|exact W]. }
      apply valid_intro; [exact N3| |intros a Ha; apply A3, Ha|rewrite K1; lia|exact U3|].
      * rewrite K1. intros F. apply A3 in F. lia.
      * rewrite BW, VW. symmetry.
        destruct (ini ++ ks) as [|o1 os] eqn:EO.
        -- cbv zeta in M3. destruct M3 as (P1 & _). rewrite P1, map_length, <- TN.
           apply (SC nt). lia.
        -- cbv zeta in M3. destruct M3 as (P1 & _). rewrite P1. apply PW.
           clear. revert o1. induction os as [|o2 os IH]; intros o1; [left; reflexivity|].
           right. change (last (o1 :: o2 :: os) b) with (last (o2 :: os) b). apply IH.
Qed.
