(** Proofs about tracking through transfer-map elements. *)
From Coq Require Import QArith Qround Qreals Reals List Arith Lra Lia.
From Verif Require Import Model_Push Model_Bunch Spec_Bunch Proofs_Bunch Model_Optics Spec_Optics
  Proofs_Optics Proofs_Optics3 Model_CSR Spec_CSR Proofs_CSR Proofs_CSR9 Model_TM Spec_TM.
Import ListNotations.
Open Scope R_scope.

(** ** Frames *)
Definition part6 (p : part) : list R := [x p; px p; y p; py p; xi p; pz p].
Definition of6 (v : list R) : part :=
  mkp (nth 0 v 0) (nth 2 v 0) (nth 4 v 0) (nth 1 v 0) (nth 3 v 0) (nth 5 v 0).

Lemma columns_particles h b : valid h b -> columns (get_6D_matrix h b) = map part6 (particles h b).
Proof.
  intros V. unfold columns, get_6D_matrix, particles. cbn [hd map]. rewrite map_map.
  apply map_ext. intros i. reflexivity.
Qed.

Lemma enter_eq xr th g p :
  to_ocelot_col g ((if Req_EM_T th 0 then fun v => v else mat_vec (rotation_matrix_xz (- th)))
                     (add_x (- xr) (part6 p))) = enter xr th g p.
Proof.
  assert (E : (if Req_EM_T th 0 then fun v => v else mat_vec (rotation_matrix_xz (- th)))
                (add_x (- xr) (part6 p)) = mat_vec (rotation_matrix_xz (- th)) (add_x (- xr) (part6 p))).
  { destruct (Req_EM_T th 0) as [->|N]; [|reflexivity]. rewrite Ropp_0. symmetry. apply rotation_0. reflexivity. }
  rewrite E. unfold to_ocelot_col, enter. fold (rel_beta g).
  pose proof (rotation_lengths (- th) (add_x (- xr) (part6 p)) eq_refl) as H. cbv zeta in H.
  destruct H as (_ & _ & _ & _ & H). rewrite H. unfold col_gamma, p_kin.
  change (b_ref g) with (rel_beta g).
  destruct (rotation_direction (- th) (add_x (- xr) (part6 p)) eq_refl) as (H0 & H1 & H4 & H5).
  rewrite H0, H1, H4. unfold add_x, part6. cbn [nth]. rewrite cos_neg, sin_neg.
  unfold mat_vec, rotation_matrix_xz, sum6. cbn [map nth].
  f_equal; [ring|]. f_equal; [f_equal; ring|]. f_equal; [ring|]. f_equal; [f_equal; ring|].
  f_equal. ring.
Qed.

Lemma leave_eq xr th g v :
  of6 (add_x xr ((if Req_EM_T th 0 then fun v => v else mat_vec (rotation_matrix_xz th))
                   (from_ocelot_col g v))) = leave xr th g v.
Proof.
  assert (E : (if Req_EM_T th 0 then fun v => v else mat_vec (rotation_matrix_xz th))
                (from_ocelot_col g v) = mat_vec (rotation_matrix_xz th) (from_ocelot_col g v)).
  { destruct (Req_EM_T th 0) as [->|N]; [|reflexivity]. symmetry. apply rotation_0. reflexivity. }
  rewrite E. unfold leave, from_ocelot_col, p_kin. change (b_ref g) with (rel_beta g).
  replace (nth 5 v 0 * g * rel_beta g + g) with (g + nth 5 v 0 * g * rel_beta g) by ring.
  cbv zeta. set (uz := sqrt _). clearbody uz.
  unfold of6, add_x, mat_vec, rotation_matrix_xz, sum6. cbn [map nth]. f_equal; ring.
Qed.

Lemma if_map {P : Prop} (d : {P} + {~ P}) {A} (f : A -> A) (l : list A) :
  (if d then l else map f l) = map (if d then fun v => v else f) l.
Proof. destruct d; [symmetry; apply map_id|reflexivity]. Qed.

Lemma beam_eq h b go : valid h b ->
  let g := snd (beam_matrix h b go) in
  fst (beam_matrix h b go) = map (enter (x_ref b) (theta_ref b) g) (particles h b).
Proof.
  intros V g. unfold beam_matrix, convert_to_ocelot_matrix. cbn [fst snd].
  change (match go with Some _ => _ | None => _ end) with g.
  unfold lab_matrix. rewrite columns_particles by exact V. cbv zeta. rewrite if_map, !map_map.
  apply map_ext. intros p. apply enter_eq.
Qed.

Lemma gamma_eq h b e : valid h b ->
  match e_gamma_ref e with None => snd (beam_matrix h b (e_gamma_ref e)) | Some g => g end =
    reference_energy h b e /\
  snd (beam_matrix h b (e_gamma_ref e)) = reference_energy h b e.
Proof.
  intros V. assert (E : snd (beam_matrix h b (e_gamma_ref e)) = reference_energy h b e).
  { unfold reference_energy, beam_matrix, convert_to_ocelot_matrix. cbn [snd].
    destruct (e_gamma_ref e) as [g|]; [reflexivity|].
    unfold average. f_equal. f_equal. f_equal. unfold lab_matrix.
    rewrite columns_particles by exact V. cbv zeta. rewrite if_map, !map_map.
    apply map_ext. intros p.
    assert (C : is_col (add_x (- x_ref b) (part6 p))) by reflexivity.
    destruct (Req_EM_T (theta_ref b) 0) as [E|E].
    - reflexivity.
    - pose proof (rotation_lengths (- theta_ref b) _ C) as H. cbv zeta in H.
      destruct H as (_ & _ & _ & _ & H). rewrite H. reflexivity. }
  split; [|exact E]. rewrite E. unfold reference_energy. destruct (e_gamma_ref e); reflexivity.
Qed.

(** ** New bunches *)
Definition grows (h h' : heap) : Prop := exists ext, h' = h ++ ext.
Lemma grows_refl h : grows h h.
Proof. exists []. symmetry. apply app_nil_r. Qed.
Lemma grows_trans a b c : grows a b -> grows b c -> grows a c.
Proof. intros [u ->] [v ->]. exists (u ++ v). symmetry. apply app_assoc. Qed.
Lemma grows_rd h h' a : grows h h' -> (a < length h)%nat -> rd h' a = rd h a.
Proof. intros [u ->]. apply rd_app_old. Qed.
Lemma grows_length h h' : grows h h' -> (length h <= length h')%nat.
Proof. intros [u ->]. rewrite app_length. lia. Qed.

Lemma create_eq h b e g m d :
  let th := new_theta e b d in let xr := new_x e b d in
  let ps := map (leave xr th g) m in
  let n := length h in
  create_new_bunch h b e (convert_from_ocelot_matrix m g) d =
  (h ++ [map x ps; map px ps; map y ps; map py ps; map xi ps; map pz ps],
   mkb (n + 0)%nat (n + 2)%nat (n + 4)%nat (n + 1)%nat (n + 3)%nat (n + 5)%nat (b_w b) None
     (prop_distance b + d) 0 None xr th (b_name b) (q_species b) (m_species b) None None).
Proof.
  intros th xr ps n. unfold create_new_bunch. cbv zeta. fold th xr. rewrite if_map.
  unfold convert_from_ocelot_matrix. rewrite !map_map.
  set (f := fun v => add_x xr ((if Req_EM_T th 0 then fun v => v else mat_vec (rotation_matrix_xz th))
                                 (from_ocelot_col g v))).
  change (map (fun x0 => add_x xr _) m) with (map f m).
  assert (E : ps = map of6 (map f m)).
  { unfold ps. rewrite map_map. apply map_ext. intros v. symmetry. apply leave_eq. }
  rewrite E. unfold row, alloc, new_bunch, set_name, with_ref. rewrite <- !app_assoc, !app_length.
  cbn [length app prop_distance b_x b_y b_xi b_px b_py b_pz b_w b_tags t_flight z_injection b_name q_species m_species b_fld b_rk].
  rewrite !map_map. f_equal. f_equal; unfold n; lia.
Qed.

Lemma create_carried h b e g m d h' ob : (b_w b < length h)%nat ->
  create_new_bunch h b e (convert_from_ocelot_matrix m g) d = (h', ob) ->
  grows h h' /\ carried h b g d (new_x e b d) (new_theta e b d) m h' ob /\ b_w ob = b_w b /\
  NoDup (coords ob) /\ (forall a, In a (coords ob) -> (length h <= a < length h')%nat) /\
  (forall a, In a (coords ob) -> length (rd h' a) = length m).
Proof.
  intros W. rewrite create_eq. intros E. injection E as <- <-.
  split; [eexists; reflexivity|]. split; [|split; [reflexivity|split; [|split]]].
  - unfold carried, same_kind.
    cbn [prop_distance x_ref theta_ref b_w b_name q_species m_species].
    split; [|split; [reflexivity|split; [reflexivity|split; [reflexivity|]]]].
    + apply particles_arrays; cbn [b_x b_y b_xi b_px b_py b_pz]; rewrite rd_app_new; reflexivity.
    + split; [apply rd_app_old; exact W|]. repeat split.
  - unfold coords. cbn. repeat constructor; simpl; intuition lia.
  - unfold coords. cbn [b_x b_y b_xi b_px b_py b_pz In]. rewrite app_length. cbn [length]. intuition lia.
  - unfold coords. cbn [b_x b_y b_xi b_px b_py b_pz In].
    intros a Ha. decompose [or] Ha; subst; try contradiction; rewrite rd_app_new; cbn [nth];
      rewrite !map_length; reflexivity.
Qed.

(** All coordinate arrays have one entry per particle. *)
Definition uniform (h : heap) (b : bunch) : Prop :=
  forall a, In a (coords b) -> length (rd h a) = length (rd h (b_x b)).
Lemma uniform_grows h h' b : grows h h' -> (forall a, In a (coords b) -> (a < length h)%nat) ->
  uniform h b -> uniform h' b.
Proof.
  intros G A U a Ha. rewrite !(grows_rd h h') by (auto; apply A; left; reflexivity). apply U, Ha.
Qed.

(** Later allocations do not matter. *)
Lemma carried_grows h b g d xr th m h' h'' ob : grows h' h'' ->
  (forall a, In a (coords ob) -> (a < length h')%nat) -> (b_w ob < length h')%nat ->
  carried h b g d xr th m h' ob -> carried h b g d xr th m h'' ob.
Proof.
  intros G A W (H1 & H2 & H3 & H4 & K & K'). unfold carried, same_kind.
  split; [|split; [exact H2|split; [exact H3|split; [exact H4|split]]]].
  - rewrite <- H1. symmetry. apply particles_ext. intros a Ha. symmetry. apply grows_rd; [exact G|].
    unfold footprint in Ha. unfold coords in A. cbn [In] in *.
    destruct Ha as [<-|[<-|[<-|[<-|[<-|[<-|[<-|[]]]]]]]]; try exact W; apply A; auto 10.
  - rewrite (grows_rd h' h'') by assumption. exact K.
  - exact K'.
Qed.

(** ** The loop *)
Definition dir_of (bt : bool) : R := 1 - 2 * (if bt then 1 else 0).
Definition output_of (h : heap) (b : bunch) (e : elem) (g : R) (ls : R) (dir : R)
    (st : nat -> list (list R)) (h' : heap) (j : nat) (ob : bunch) : Prop :=
  let d := INR (j + 1) * ls * dir in
  carried h b g d (new_x e b d) (new_theta e b d) (st (S j)) h' ob.

Lemma steps_spec c e g b q ls bt outs h0 n : (b_w b < length h0)%nat -> forall i s s',
  grows h0 (l_heap s) ->
  steps c e g b q ls bt outs s (seq i n) = Some s' ->
  exists (st : nat -> list (list R)) ks,
    st i = l_cols s /\ st (i + n)%nat = l_cols s' /\
    (forall j, (i <= j < i + n)%nat ->
       let m := map (piece e g ls) (st j) in
       if e_csr_on e then apply_csr c e (INR (j + 1) * ls * dir_of bt) g q m = Some (st (S j))
       else st (S j) = m) /\
    grows (l_heap s) (l_heap s') /\ l_out s' = l_out s ++ ks /\
    l_writes s' = l_writes s ++ map2 (fun j ob => mkwr (INR (j + 1) * ls * dir_of bt / c_SI) (ls / c_SI) ob)
                      (filter (fun j => existsb (Nat.eqb j) outs) (seq i n)) ks /\
    Forall2 (output_of h0 b e g ls (dir_of bt) st (l_heap s'))
      (filter (fun j => existsb (Nat.eqb j) outs) (seq i n)) ks /\
    NoDup (flat_map coords ks) /\
    (forall a, In a (flat_map coords ks) -> (length (l_heap s) <= a < length (l_heap s'))%nat) /\
    (forall ob, In ob ks -> b_w ob = b_w b /\ uniform (l_heap s') ob /\ NoDup (coords ob)).
Proof.
  intros W. induction n as [|n IH]; intros i s s' G E.
  - cbn [seq steps] in E. injection E as <-. exists (fun _ => l_cols s), []. cbn [seq filter].
    split; [reflexivity|]. split; [reflexivity|]. split; [intros; lia|]. split; [apply grows_refl|].
    split; [symmetry; apply app_nil_r|]. split; [symmetry; apply app_nil_r|].
    split; [constructor|]. split; [constructor|]. split; intros a [].
  - cbn [seq steps] in E. destruct (step c e g b q ls bt outs s i) as [s1|] eqn:E1; [|discriminate].
    unfold step in E1.
    set (m := track_with_transfer_map (l_cols s) ls (Q2R (e_length e)) (- e_theta e) (e_k1 e) (e_k2 e) g (e_order e)) in E1.
    assert (Em : m = map (piece e g ls) (l_cols s)) by reflexivity.
    set (lc := INR (i + 1) * ls * (1 - 2 * (if bt then 1 else 0))) in E1. cbv zeta in E1.
    destruct (if e_csr_on e then apply_csr c e lc g q m else Some m) as [m'|] eqn:E2; [|discriminate].
    assert (S1 : l_cols s1 = m').
    { destruct (existsb (Nat.eqb i) outs);
        [destruct (create_new_bunch (l_heap s) b e (convert_from_ocelot_matrix m' g) lc)|];
        injection E1 as <-; reflexivity. }
    assert (X : exists k, grows (l_heap s) (l_heap s1) /\ l_out s1 = l_out s ++ k /\
      l_writes s1 = l_writes s ++ map (fun ob => mkwr (lc / c_SI) (ls / c_SI) ob) k /\
      (if existsb (Nat.eqb i) outs then exists ob, k = [ob] else k = []) /\
      (forall ob, In ob k ->
        carried h0 b g lc (new_x e b lc) (new_theta e b lc) m' (l_heap s1) ob /\ b_w ob = b_w b /\
        NoDup (coords ob) /\ (forall a, In a (coords ob) -> (length (l_heap s) <= a < length (l_heap s1))%nat) /\
        uniform (l_heap s1) ob)).
    { destruct (existsb (Nat.eqb i) outs).
      - destruct (create_new_bunch (l_heap s) b e (convert_from_ocelot_matrix m' g) lc) as [h1 nb] eqn:E3.
        injection E1 as <-. exists [nb]. cbn [l_heap l_out l_writes map].
        pose proof (grows_length _ _ G) as GL. assert (W' : (b_w b < length (l_heap s))%nat) by lia.
        destruct (create_carried (l_heap s) b e g m' lc h1 nb W' E3) as (G1 & C1 & B1 & N1 & A1 & U1).
        split; [exact G1|]. split; [reflexivity|]. split; [reflexivity|]. split; [exists nb; reflexivity|].
        intros ob [<-|[]]. split; [|split; [exact B1|split; [exact N1|split; [exact A1|
          intros a Ha; rewrite !U1; [reflexivity|left; reflexivity|exact Ha]]]]].
        destruct C1 as (K1 & K2 & K3 & K4 & K5 & K6). unfold carried, same_kind.
        split; [exact K1|]. split; [exact K2|]. split; [exact K3|]. split; [exact K4|]. split; [|exact K6].
        rewrite K5. apply grows_rd; assumption.
      - injection E1 as <-. exists []. cbn [l_heap l_out l_writes map].
        split; [apply grows_refl|]. split; [symmetry; apply app_nil_r|].
        split; [symmetry; apply app_nil_r|]. split; [reflexivity|]. intros ob []. }
    destruct X as (k & G1 & O1 & W1 & K1 & P1).
    destruct (IH (S i) s1 s' (grows_trans _ _ _ G G1) E) as (st & ks & T0 & TN & TS & G2 & O2 & W2 & F2 & N2 & A2 & B2).
    exists (fun j => if Nat.eqb j i then l_cols s else st j), (k ++ ks).
    assert (R : forall j, (i < j)%nat -> (if Nat.eqb j i then l_cols s else st j) = st j).
    { intros j Hj. destruct (Nat.eqb j i) eqn:Ej; [apply Nat.eqb_eq in Ej; lia|reflexivity]. }
    split; [rewrite Nat.eqb_refl; reflexivity|]. split.
    { rewrite R by lia. rewrite <- TN. f_equal. lia. }
    split.
    { intros j Hj. destruct (Nat.eq_dec j i) as [->|N].
      - rewrite Nat.eqb_refl. rewrite R by lia. rewrite <- Em, T0, S1. unfold dir_of.
        fold lc. cbv zeta. destruct (e_csr_on e); [exact E2|injection E2 as ->; reflexivity].
      - rewrite !R by lia. apply TS. lia. }
    split; [exact (grows_trans _ _ _ G1 G2)|]. split; [rewrite O2, O1; symmetry; apply app_assoc|].
    pose proof (grows_length _ _ G) as L0. pose proof (grows_length _ _ G1) as L1. pose proof (grows_length _ _ G2) as L2.
    assert (F : Forall2 (output_of h0 b e g ls (dir_of bt) (fun j => if Nat.eqb j i then l_cols s else st j) (l_heap s'))
      (filter (fun j => existsb (Nat.eqb j) outs) (seq (S i) n)) ks).
    { assert (Q : forall l, (forall j, In j l -> (i < j)%nat) -> forall kk,
        Forall2 (output_of h0 b e g ls (dir_of bt) st (l_heap s')) l kk ->
        Forall2 (output_of h0 b e g ls (dir_of bt) (fun j => if Nat.eqb j i then l_cols s else st j) (l_heap s')) l kk).
      { intros l Hl kk HF. induction HF as [|j ob l kk HO HF IHF]; constructor.
        - unfold output_of in *. rewrite R; [exact HO|]. specialize (Hl j (or_introl eq_refl)). lia.
        - apply IHF. intros j' Hj'. apply Hl. right. exact Hj'. }
      apply Q; [|exact F2]. intros j Hj. apply filter_In in Hj. destruct Hj as [Hj _]. apply in_seq in Hj. lia. }
    assert (WB : forall ob, In ob k -> b_w ob = b_w b /\ uniform (l_heap s') ob /\ NoDup (coords ob)).
    { intros ob Ho. destruct (P1 ob Ho) as (_ & Q1 & Q2 & Q3 & Q4). split; [exact Q1|split; [|exact Q2]].
      apply (uniform_grows (l_heap s1)); [exact G2| |exact Q4]. intros a Ha. apply Q3 in Ha. lia. }
    split.
    { rewrite W2, W1, <- app_assoc. f_equal. cbn [seq filter].
      destruct (existsb (Nat.eqb i) outs).
      - destruct K1 as [ob ->]. reflexivity.
      - subst k. reflexivity. }
    split.
    { cbn [seq filter]. destruct (existsb (Nat.eqb i) outs).
      - destruct K1 as [ob ->]. cbn [app]. constructor; [|exact F].
        unfold output_of. rewrite R by lia. rewrite T0, S1. unfold dir_of. fold lc. cbv zeta.
        destruct (P1 ob (or_introl eq_refl)) as (C1 & B1 & N1 & A1 & _).
        apply (carried_grows h0 b g lc _ _ m' (l_heap s1)); [exact G2| | |exact C1].
        + intros a Ha. apply A1 in Ha. lia.
        + rewrite B1. lia.
      - subst k. exact F. }
    split.
    { rewrite flat_map_app. destruct (existsb (Nat.eqb i) outs).
      - destruct K1 as [ob ->]. cbn [flat_map]. rewrite app_nil_r.
        destruct (P1 ob (or_introl eq_refl)) as (C1 & B1 & N1 & A1 & _).
        clear - N1 A1 N2 A2. induction (coords ob) as [|a l IHl]; [exact N2|].
        inversion N1; subst. cbn [app]. constructor.
        + rewrite in_app_iff. intros [Q|Q]; [auto|]. apply A2 in Q. specialize (A1 a (or_introl eq_refl)). lia.
        + apply IHl; [assumption|]. intros a' Ha'. apply A1. right. exact Ha'.
      - subst k. exact N2. }
    split.
    { intros a Ha. rewrite flat_map_app, in_app_iff in Ha. destruct Ha as [Ha|Ha].
      - apply in_flat_map in Ha. destruct Ha as (ob & Ho & Ha). apply P1 in Ho.
        destruct Ho as (_ & _ & _ & A1 & _). apply A1 in Ha. lia.
      - apply A2 in Ha. lia. }
    intros ob Ho. apply in_app_or in Ho. destruct Ho as [Ho|Ho]; [apply WB|apply B2]; exact Ho.
Qed.
