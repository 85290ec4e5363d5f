From Coq Require Import Reals ZArith String List Bool Lia Lra FunctionalExtensionality.
From Coquelicot Require Import Coquelicot.
From Verif Require Model_Laser Spec_Laser Model_Bunch Spec_Bunch.
From Verif Require Import Model_Push Model_Interp Spec_Interp Model_Deposit Spec_Deposit Model_QS Model_Fluid Model_RZ Spec_RZ.
Import ListNotations.
Open Scope R_scope.

(** ** Dictionaries *)
Lemma get_put {V} k k' (v : V) d : get k (put k' v d) = if String.eqb k k' then Some v else get k d.
Proof.
  induction d as [|[k1 v1] d IH]; cbn [put get].
  - destruct (String.eqb k k'); reflexivity.
  - destruct (String.eqb_spec k' k1) as [->|N]; cbn [get].
    + destruct (String.eqb_spec k k1) as [->|]; reflexivity.
    + rewrite IH. destruct (String.eqb_spec k k1) as [->|]; [|reflexivity].
      destruct (String.eqb_spec k1 k') as [->|]; [congruence|reflexivity].
Qed.
Lemma put_keys {V} k (v : V) d : map fst (put k v d) = if existsb (String.eqb k) (map fst d) then map fst d else map fst d ++ [k].
Proof.
  induction d as [|[k1 v1] d IH]; cbn [put map existsb fst]; [reflexivity|].
  destruct (String.eqb_spec k k1) as [->|N]; cbn [map fst orb]; [reflexivity|]. rewrite IH. destruct (existsb _ _); reflexivity.
Qed.

Definition before (f : string) (ms : dict mesh) : mesh := match get f ms with Some m => m | None => no_mesh end.
Lemma write_meshes_lemma d fields : NoDup fields -> (forall f, In f fields -> exists n, get f d = Some n /\ (n_comps n <> None \/ n_scalar n <> None)) ->
  forall ms, exists ms', write_meshes d fields ms = Some ms' /\
    (forall f, In f fields -> exists n m, get f d = Some n /\ write_mesh f n (before f ms) = Some m /\ get f ms' = Some m) /\
    (forall f, ~ In f fields -> get f ms' = get f ms).
Proof.
  induction fields as [|f l IH]; intros Hd He ms.
  - exists ms. split; [reflexivity|]. split; [intros f []|reflexivity].
  - inversion Hd as [|? ? Hn Hd']; subst. destruct (He f (or_introl eq_refl)) as (n & En & Hc). cbn [write_meshes]. rewrite En.
    fold (before f ms).
    assert (exists m, write_mesh f n (before f ms) = Some m) as [m Em].
    { unfold write_mesh. destruct (n_comps n); [eexists; reflexivity|]. destruct (n_scalar n); [eexists; reflexivity|]. destruct Hc; congruence. }
    rewrite Em. destruct (IH Hd' (fun g Hg => He g (or_intror Hg)) (put f m ms)) as (ms' & E1 & E2 & E3).
    exists ms'. split; [exact E1|]. split.
    + intros g [<-|Hg].
      * exists n, m. split; [exact En|]. split; [exact Em|]. rewrite E3 by exact Hn. rewrite get_put, String.eqb_refl. reflexivity.
      * destruct (E2 g Hg) as (n' & m' & A & B & C). exists n', m'. split; [exact A|]. split; [|exact C].
        unfold before in B |- *. rewrite get_put in B. destruct (String.eqb_spec g f) as [->|]; [contradiction|exact B].
    + intros g Hg. rewrite E3 by (intros K; apply Hg; right; exact K). rewrite get_put.
      destruct (String.eqb_spec g f) as [->|]; [destruct Hg; left; reflexivity|reflexivity].
Qed.

(** ** Meshes *)
Section Meshes.
  Variable charge_e : R.
  Variables (o : wake) (t : R).
  Notation x := (o_box o).
  Hypothesis Hsize : sized x (o_arrays o).
  Hypothesis Hzero : o_zero o = (zeros2 (x_nxi x) (x_nr x), zeros2 (x_nxi x) (x_nr x), zeros2 (x_nxi x) (x_nr x)).
  Hypothesis Hbox : x_ximin x < x_ximax x /\ 0 < x_rmax x /\ (2 <= x_nxi x)%Z /\ (2 <= x_nr x)%Z.

  Definition spacing_r : R := Rabs (r_fld (as_rz o) 1 - r_fld (as_rz o) 0).
  Definition spacing_z : R := Rabs (xi_fld (as_rz o) 1 - xi_fld (as_rz o) 0).
  Lemma spacing_r_value : spacing_r = x_rmax x / IZR (x_nr x).
  Proof.
    destruct Hbox as (_ & Hr & _ & Hn). assert (2 <= IZR (x_nr x)) by (apply IZR_le; exact Hn).
    unfold spacing_r, r_fld, linspace, w_dr. cbn [as_rz w_rmax w_nr].
    assert (E : 0 < x_rmax x / IZR (x_nr x)) by (apply Rdiv_lt_0_compat; lra).
    match goal with |- Rabs ?v = _ => replace v with (x_rmax x / IZR (x_nr x)) by (field; lra) end. apply Rabs_pos_eq. lra.
  Qed.
  Lemma spacing_z_value : spacing_z = (x_ximax x - x_ximin x) / (IZR (x_nxi x) - 1).
  Proof.
    destruct Hbox as (Hx & _ & Hn & _). assert (2 <= IZR (x_nxi x)) by (apply IZR_le; exact Hn).
    unfold spacing_z, xi_fld, linspace. cbn [as_rz w_ximin w_ximax w_nxi].
    assert (E : 0 < (x_ximax x - x_ximin x) / (IZR (x_nxi x) - 1)) by (apply Rdiv_lt_0_compat; lra).
    match goal with |- Rabs ?v = _ => replace v with ((x_ximax x - x_ximin x) / (IZR (x_nxi x) - 1)) by (field; lra) end. apply Rabs_pos_eq. lra.
  Qed.

  (** The mesh on the grid of the box at time t. *)
  Definition on_grid (m : mesh) : Prop := e_geometry m = "thetaMode"%string /\ e_labels m = ["r"; "z"]%string /\
    e_spacing m = [spacing_r; spacing_z] /\ e_offset m = [0; t * c_SI + x_ximin x].
  Lemma axes_ok m c : on_grid m -> k_shape c = (1, x_nr x, x_nxi x)%Z -> k_position c = [0.5; 0] -> axes x (t * c_SI) m c.
  Proof.
    intros (H1 & H2 & H3 & H4) S P. split; [exact H1|]. split; [exact H2|]. split; [exact S|].
    exists 0, (t * c_SI + x_ximin x), spacing_r, spacing_z, 0.5, 0. repeat (split; [assumption|]). intros i j _.
    unfold coordinate, node_r, node_z; cbn [box_grid gz0 gdz gdr]. rewrite spacing_r_value, spacing_z_value. split; lra.
  Qed.
  Lemma stripped_shape a : box_array x a -> shape_of (DReal (stripped a)) = (1, x_nr x, x_nxi x)%Z.
  Proof. intros [A B]. cbn [shape_of stripped t_rows t_cols]. rewrite A, B. f_equal; [f_equal|]; lia. Qed.
  Lemma holds_array m k a : on_grid m -> box_array x a -> get k (e_comps m) = Some (stored (DReal (stripped a), [0.5; 0])) ->
    holds x (t * c_SI) m k (inner a).
  Proof.
    intros G A E. eexists _, _. split; [exact E|]. split; [reflexivity|]. split.
    - apply axes_ok; [exact G| |reflexivity]. apply stripped_shape. exact A.
    - intros i j _. reflexivity.
  Qed.
  Lemma holds_zero m k : on_grid m -> get k (e_comps m) = Some (stored (DReal (stripped (zeros2 (x_nxi x) (x_nr x))), [0.5; 0])) ->
    holds x (t * c_SI) m k (fun _ _ => 0).
  Proof.
    intros G E. eexists _, _. split; [exact E|]. split; [reflexivity|]. split.
    - apply axes_ok; [exact G| |reflexivity]. apply stripped_shape. split; reflexivity.
    - intros i j _. reflexivity.
  Qed.

  Record written (ms : dict mesh) : Prop := mkwr {
    wr_E : exists m, get "E" ms = Some m /\ on_grid m /\ e_units m = Some (mkun 1 1 (-3) (-1)) /\
      holds x (t * c_SI) m "r" (inner (h_er (o_arrays o))) /\ holds x (t * c_SI) m "t" (fun _ _ => 0) /\
      holds x (t * c_SI) m "z" (inner (h_ez (o_arrays o)));
    wr_B : exists m, get "B" ms = Some m /\ on_grid m /\ e_units m = Some (mkun 0 1 (-2) (-1)) /\
      holds x (t * c_SI) m "r" (fun _ _ => 0) /\ holds x (t * c_SI) m "t" (inner (h_bt (o_arrays o))) /\
      holds x (t * c_SI) m "z" (fun _ _ => 0);
    wr_rho : exists m, get "rho" ms = Some m /\ on_grid m /\ e_units m = Some (mkun (-3) 0 1 1) /\
      holds x (t * c_SI) m SCALAR (fun i j => - charge_e * o_np o * inner (h_rho (o_arrays o)) i j);
    wr_laser : forall p a, o_laser o = Some p -> Model_Laser.p_a_env p = Some a ->
      (exists m, get "a_mod" ms = Some m /\ get "polarization" (e_attributes m) = Some (AString (Model_Laser.p_pol p)) /\
         holds x (t * c_SI) m SCALAR (fun i j => Cmod (value a i j))) /\
      (exists m, get "a_phase" ms = Some m /\ holds x (t * c_SI) m SCALAR (fun i j => Model_Laser.angle (value a i j))) /\
      (exists m, get "a" ms = Some m /\ get "angularFrequency" (e_attributes m) = Some (ANumber (2 * PI * c_SI / Model_Laser.p_l0 p)) /\
         e_units m = Some (mkun 1 1 (-2) (-1)) /\
         holds_complex x (t * c_SI) m SCALAR (fun i j => value a i j)) }.
  Definition mine (k : string) : bool :=
    existsb (String.eqb k) (["E"; "B"; "rho"]%string ++ match o_laser o with Some _ => ["a_mod"; "a_phase"; "a"]%string | None => [] end).

  Definition names : list string := (["E"; "B"; "rho"]%string ++ match o_laser o with Some _ => ["a_mod"; "a_phase"; "a"]%string | None => [] end).
  Definition the_common : common :=
    (mkcm "other" (x_name x) (repeat "other" 4) (repeat "none" 4) (repeat "other" 4) (repeat "none" 4) "none" "none")%string.
  Definition en (c : option (dict (data * list R))) (sc : option (data * list R)) (at_ : dict attribute) : entry :=
    mken c sc [spacing_r; spacing_z] ["r"; "z"]%string [0; t * c_SI + x_ximin x] at_.
  Definition vec (a b c : arr2) : option (dict (data * list R)) :=
    Some [("r", (DReal (stripped a), [0.5; 0])); ("t", (DReal (stripped b), [0.5; 0])); ("z", (DReal (stripped c), [0.5; 0]))]%string.
  Notation zz := (zeros2 (x_nxi x) (x_nr x)).

  Lemma data_lemma : (forall p, o_laser o = Some p -> Model_Laser.p_a_env p <> None) ->
    exists d, get_openpmd_diagnostics_data charge_e o t = Some d /\ d_fields d = names /\ d_common d = the_common /\
      get "E" (d_entries d) = Some (en (vec (h_er (o_arrays o)) zz (h_ez (o_arrays o))) None []) /\
      get "B" (d_entries d) = Some (en (vec zz (h_bt (o_arrays o)) zz) None []) /\
      get "rho" (d_entries d) = Some (en None (Some (DReal (scaled (- charge_e) (scaled (o_np o) (stripped (h_rho (o_arrays o))))), [0.5; 0])) []) /\
      (forall p a, o_laser o = Some p -> Model_Laser.p_a_env p = Some a ->
        get "a_mod" (d_entries d) = Some (en None (Some (DReal (turned Cmod a), [0.5; 0])) [("polarization", AString (Model_Laser.p_pol p))]%string) /\
        get "a_phase" (d_entries d) = Some (en None (Some (DReal (turned Model_Laser.angle a), [0.5; 0])) []) /\
        get "a" (d_entries d) = Some (en None (Some (DComplex (turned (fun z => z) a), [0.5; 0]))
                                  [("angularFrequency", ANumber (2 * PI * c_SI / Model_Laser.p_l0 p))]%string)).
  Proof.
    intros Hl. unfold get_openpmd_diagnostics_data, names. rewrite Hzero. destruct (o_laser o) as [p|].
    - destruct (Model_Laser.p_a_env p) as [a|] eqn:Ea; [|destruct (Hl p eq_refl Ea)].
      eexists. split; [reflexivity|]. do 5 (split; [reflexivity|]). intros q b Hq Hb. injection Hq as <-. rewrite Ea in Hb. injection Hb as <-.
      repeat split.
    - eexists. split; [reflexivity|]. do 5 (split; [reflexivity|]). intros q b Hq. discriminate.
  Qed.

  Lemma names_nodup : NoDup names.
  Proof. unfold names. destruct (o_laser o); cbn [app]; repeat (constructor; [cbn [In]; intuition discriminate|]); constructor. Qed.
  Lemma mine_in k : mine k = true <-> In k names.
  Proof.
    unfold mine. fold names. rewrite existsb_exists. split.
    - intros (y & Hy & E). apply String.eqb_eq in E. subst. exact Hy.
    - intros H. exists k. split; [exact H|apply String.eqb_refl].
  Qed.

  (** A mesh made from an entry. *)
  Lemma made f c sc at_ m m' : write_mesh f (en c sc at_) m = Some m' ->
    on_grid m' /\ e_units m' = match units_of f with Some u => Some u | None => e_units m end /\
    e_attributes m' = fold_left (fun d a => put (fst a) (snd a) d) at_ (put "fieldSmoothing" (AString "none") (e_attributes m))%string.
  Proof. unfold write_mesh, en. cbn. destruct c; [|destruct sc; [|discriminate]]; intros H; injection H as <-; repeat split. Qed.
  Lemma made_vec f a b c at_ m m' : write_mesh f (en (vec a b c) None at_) m = Some m' ->
    get "r" (e_comps m') = Some (stored (DReal (stripped a), [0.5; 0])) /\
    get "t" (e_comps m') = Some (stored (DReal (stripped b), [0.5; 0])) /\
    get "z" (e_comps m') = Some (stored (DReal (stripped c), [0.5; 0])).
  Proof.
    unfold write_mesh, en, vec. cbn [n_comps n_scalar]. intros H; injection H as <-. cbn [e_comps fold_left fst snd].
    rewrite !get_put. repeat split.
  Qed.
  Lemma made_scalar f s at_ m m' : write_mesh f (en None (Some s) at_) m = Some m' -> get SCALAR (e_comps m') = Some (stored s).
  Proof. unfold write_mesh, en. cbn [n_comps n_scalar]. intros H; injection H as <-. cbn [e_comps]. rewrite get_put. reflexivity. Qed.

  Lemma fits_shape a : fits x a = true -> Z.of_nat (Model_Laser.s_cols a) = x_nr x /\ Z.of_nat (Model_Laser.s_rows a) = x_nxi x.
  Proof. unfold fits. intros H. apply andb_prop in H. destruct H as [A B]. apply Nat.eqb_eq in A, B. destruct Hbox as (_ & _ & H1 & H2). lia. Qed.

  Lemma written_lemma it : (forall p, o_laser o = Some p -> exists a, Model_Laser.p_a_env p = Some a /\ fits x a = true) ->
    exists d it', get_openpmd_diagnostics_data charge_e o t = Some d /\ write_fields d it = Some it' /\
      i_time it' = i_time it /\ i_dt it' = i_dt it /\ i_species it' = i_species it /\ i_common it' = Some the_common /\
      written (i_meshes it') /\ (forall k, mine k = false -> get k (i_meshes it') = get k (i_meshes it)).
  Proof.
    intros Hl.
    pose proof Hsize as Hs. unfold sized in Hs.
    apply Forall_cons_iff in Hs. destruct Hs as [A1 Hs]. apply Forall_cons_iff in Hs. destruct Hs as [A2 Hs].
    apply Forall_cons_iff in Hs. destruct Hs as [A3 Hs]. apply Forall_cons_iff in Hs. destruct Hs as [A4 Hs].
    apply Forall_cons_iff in Hs. destruct Hs as [A5 _].
    assert (Hl' : forall p, o_laser o = Some p -> Model_Laser.p_a_env p <> None).
    { intros p Hp. destruct (Hl p Hp) as (a & -> & _). discriminate. }
    destruct (data_lemma Hl') as (d & Ed & Ef & Ec & DE & DB & DR & DL).
    destruct (write_meshes_lemma (d_entries d) names names_nodup) with (ms := i_meshes it) as (ms' & E1 & E2 & E3).
    { intros f Hf. unfold names in Hf. apply in_app_or in Hf. destruct Hf as [[<-|[<-|[<-|[]]]]|Hf].
      - rewrite DE. eexists. split; [reflexivity|]. left. discriminate.
      - rewrite DB. eexists. split; [reflexivity|]. left. discriminate.
      - rewrite DR. eexists. split; [reflexivity|]. right. discriminate.
      - destruct (o_laser o) as [p|] eqn:El; [|destruct Hf]. destruct (Hl p eq_refl) as (a & Ea & _).
        destruct (DL p a eq_refl Ea) as (L1 & L2 & L3).
        destruct Hf as [<-|[<-|[<-|[]]]]; [rewrite L1|rewrite L2|rewrite L3]; eexists; (split; [reflexivity|right; discriminate]). }
    exists d. unfold write_fields. rewrite Ef, E1, Ec. eexists. split; [exact Ed|]. split; [reflexivity|]. cbn [i_time i_dt i_species i_common i_meshes].
    do 4 (split; [reflexivity|]). split.
    - constructor.
      + destruct (E2 "E"%string) as (n & m & H1 & H2 & H3); [apply in_or_app; left; cbn; auto|]. rewrite DE in H1. injection H1 as <-.
        destruct (made _ _ _ _ _ _ H2) as (G & U & _). destruct (made_vec _ _ _ _ _ _ _ H2) as (C1 & C2 & C3).
        exists m. split; [exact H3|]. split; [exact G|]. split; [exact U|].
        split; [|split]; [apply holds_array|apply holds_zero|apply holds_array]; assumption.
      + destruct (E2 "B"%string) as (n & m & H1 & H2 & H3); [apply in_or_app; left; cbn; auto|]. rewrite DB in H1. injection H1 as <-.
        destruct (made _ _ _ _ _ _ H2) as (G & U & _). destruct (made_vec _ _ _ _ _ _ _ H2) as (C1 & C2 & C3).
        exists m. split; [exact H3|]. split; [exact G|]. split; [exact U|].
        split; [|split]; [apply holds_zero|apply holds_array|apply holds_zero]; assumption.
      + destruct (E2 "rho"%string) as (n & m & H1 & H2 & H3); [apply in_or_app; left; cbn; auto|]. rewrite DR in H1. injection H1 as <-.
        destruct (made _ _ _ _ _ _ H2) as (G & U & _). pose proof (made_scalar _ _ _ _ _ H2) as C1.
        exists m. split; [exact H3|]. split; [exact G|]. split; [exact U|].
        eexists _, _. split; [exact C1|]. split; [reflexivity|]. split.
        * apply axes_ok; [exact G| |reflexivity]. destruct A1 as [X Y]. cbn [stored k_shape shape_of fst scaled stripped t_rows t_cols]. rewrite X, Y. f_equal; [f_equal|]; lia.
        * intros i j _. cbn [scaled stripped t_val]. unfold inner. ring.
      + intros p a El Ea. destruct (DL p a El Ea) as (L1 & L2 & L3).
        assert (fits x a = true) as Hf by (destruct (Hl p El) as (a' & Ea' & Hf); congruence).
        apply fits_shape in Hf. destruct Hf as [X Y].
        assert (forall k, In k ["a_mod"; "a_phase"; "a"]%string -> In k names) as Hin
          by (intros k Hk; unfold names; rewrite El; apply in_or_app; right; exact Hk).
        split; [|split].
        * destruct (E2 "a_mod"%string) as (n & m & H1 & H2 & H3); [apply Hin; cbn; auto|]. rewrite L1 in H1. injection H1 as <-.
          destruct (made _ _ _ _ _ _ H2) as (G & U & At). exists m. split; [exact H3|]. split; [rewrite At; cbn [fold_left fst snd]; rewrite get_put; reflexivity|].
          eexists _, _. split; [exact (made_scalar _ _ _ _ _ H2)|]. split; [reflexivity|]. split; [|intros i j _; reflexivity].
          apply axes_ok; [exact G| |reflexivity]. cbn [stored k_shape shape_of fst turned t_rows t_cols]. rewrite X, Y. reflexivity.
        * destruct (E2 "a_phase"%string) as (n & m & H1 & H2 & H3); [apply Hin; cbn; auto|]. rewrite L2 in H1. injection H1 as <-.
          destruct (made _ _ _ _ _ _ H2) as (G & U & At). exists m. split; [exact H3|].
          eexists _, _. split; [exact (made_scalar _ _ _ _ _ H2)|]. split; [reflexivity|]. split; [|intros i j _; reflexivity].
          apply axes_ok; [exact G| |reflexivity]. cbn [stored k_shape shape_of fst turned t_rows t_cols]. rewrite X, Y. reflexivity.
        * destruct (E2 "a"%string) as (n & m & H1 & H2 & H3); [apply Hin; cbn; auto|]. rewrite L3 in H1. injection H1 as <-.
          destruct (made _ _ _ _ _ _ H2) as (G & U & At). exists m. split; [exact H3|]. split; [rewrite At; cbn [fold_left fst snd]; rewrite get_put; reflexivity|].
          split; [exact U|].
          eexists _, _. split; [exact (made_scalar _ _ _ _ _ H2)|]. split; [reflexivity|]. split; [|intros i j _; reflexivity].
          apply axes_ok; [exact G| |reflexivity]. cbn [stored k_shape shape_of fst turned t_rows t_cols]. rewrite X, Y. reflexivity.
    - intros k Hk. apply E3. intros K. apply mine_in in K. congruence.
  Qed.
End Meshes.

(** ** Several fields and the species *)
Lemma write_all_app l d it : write_all_fields (l ++ [d]) it = match write_all_fields l it with Some it' => write_fields d it' | None => None end.
Proof.
  revert it. induction l as [|d' l IH]; intros it; cbn [app write_all_fields].
  - destruct (write_fields d it); reflexivity.
  - destruct (write_fields d' it); [apply IH|reflexivity].
Qed.
Lemma write_fields_keeps d it it' : write_fields d it = Some it' -> i_time it' = i_time it /\ i_dt it' = i_dt it /\ i_species it' = i_species it.
Proof. unfold write_fields. destruct (write_meshes _ _ _); [|discriminate]. intros H; injection H as <-. repeat split. Qed.
Lemma write_all_keeps l it it' : write_all_fields l it = Some it' -> i_time it' = i_time it /\ i_dt it' = i_dt it /\ i_species it' = i_species it.
Proof.
  revert it. induction l as [|d l IH]; intros it; cbn [write_all_fields].
  - intros H; injection H as <-. repeat split.
  - destruct (write_fields d it) as [i1|] eqn:E; [|discriminate]. intros H. apply IH in H. apply write_fields_keeps in E.
    destruct H as (-> & -> & ->). exact E.
Qed.
Lemma species_lookup {S} (name : S -> string) (f : S -> species) l : forall d0, NoDup (map name l) ->
  (forall s, In s l -> get (name s) (fold_left (fun d s => put (name s) (f s) d) l d0) = Some (f s)) /\
  (forall k, ~ In k (map name l) -> get k (fold_left (fun d s => put (name s) (f s) d) l d0) = get k d0).
Proof.
  induction l as [|s l IH]; intros d0 Hd; cbn [fold_left map].
  - split; [intros s []|reflexivity].
  - cbn [map] in Hd. inversion Hd as [|? ? Hn Hd']; subst. destruct (IH (put (name s) (f s) d0) Hd') as [I1 I2]. split.
    + intros s' [<-|Hs]; [|apply I1; exact Hs]. rewrite I2 by exact Hn. rewrite get_put, String.eqb_refl. reflexivity.
    + intros k Hk. rewrite I2 by (intros K; apply Hk; right; exact K). rewrite get_put.
      destruct (String.eqb_spec k (name s)) as [->|]; [destruct Hk; left; reflexivity|reflexivity].
Qed.

Lemma write_iteration_eq time dt z_pos sp flds : let t := time + z_pos / c_SI in
  write_iteration time dt z_pos sp flds =
  match collected t flds with
  | Some ds => write_all_fields ds
      (mkit t dt (fold_left (fun d s => put (Model_Bunch.od_name (s t)) (write_species (s t)) d) sp []) [] None)
  | None => None
  end.
Proof. reflexivity. Qed.
Lemma collected_app t l f : collected t (l ++ [f]) = match collected t l, f t with Some r, Some d => Some (r ++ [d]) | _, _ => None end.
Proof.
  induction l as [|g l IH]; cbn [app collected].
  - destruct (f t); reflexivity.
  - rewrite IH. destruct (g t); [|reflexivity]. destruct (collected t l); [|reflexivity]. destruct (f t); reflexivity.
Qed.

Lemma fold_map {A B D} (g : A -> B) (f : D -> B -> D) l : forall d, fold_left f (map g l) d = fold_left (fun d a => f d (g a)) l d.
Proof. induction l as [|a l IH]; intros d; cbn; [reflexivity|apply IH]. Qed.
Lemma put_put {V} k (v v' : V) d : put k v (put k v' d) = put k v d.
Proof.
  induction d as [|[k1 v1] d IH]; cbn [put].
  - rewrite String.eqb_refl. reflexivity.
  - destruct (String.eqb k k1) eqn:E; cbn [put]; rewrite ?String.eqb_refl; [reflexivity|]. rewrite E, IH. reflexivity.
Qed.
