(** Property C105: parameter and bunch files. *)
From Coq Require Import Reals String List Bool Permutation Lia Lra.
From Verif Require Import Model_Gen Model_Params Spec_Params.
Import ListNotations.
Open Scope R_scope.

Lemma get_in {A} k (l : list (string * A)) v : get k l = Some v -> In (k, v) l.
Proof.
  induction l as [|[n w] l IH]; cbn; [discriminate|].
  destruct (String.eqb_spec n k) as [->|H]; [intros [= ->]; left; reflexivity|right; auto].
Qed.
Lemma get_none {A} k (l : list (string * A)) : get k l = None <-> ~ In k (map fst l).
Proof.
  induction l as [|[n w] l IH]; cbn; [tauto|].
  destruct (String.eqb_spec n k) as [->|H]; [split; [discriminate|tauto]|].
  rewrite IH. tauto.
Qed.
Lemma get_dict {A} k (l : list (string * A)) v : is_dict l -> In (k, v) l -> get k l = Some v.
Proof.
  unfold is_dict. induction l as [|[n w] l IH]; cbn; [tauto|]. intros D [E|H]; inversion D; subst.
  - injection E as -> ->. rewrite String.eqb_refl. reflexivity.
  - destruct (String.eqb_spec n k) as [->|E]; [|auto].
    exfalso. apply H2. apply in_map_iff. exists (k, v). auto.
Qed.
Lemma get_put {A} k k' (v : A) l : get k (put k' v l) = if String.eqb k' k then Some v else get k l.
Proof.
  induction l as [|[n w] l IH]; cbn.
  - destruct (String.eqb k' k); reflexivity.
  - destruct (String.eqb_spec n k') as [->|H]; cbn.
    + destruct (String.eqb k' k); reflexivity.
    + destruct (String.eqb_spec n k) as [->|H'].
      * destruct (String.eqb_spec k' k) as [->|]; [congruence|reflexivity].
      * exact IH.
Qed.
Lemma put_new {A} k (v : A) l : ~ In k (map fst l) -> put k v l = (l ++ [(k, v)])%list.
Proof.
  induction l as [|[n w] l IH]; cbn; [reflexivity|]. intros H.
  destruct (String.eqb_spec n k) as [->|]; [tauto|]. rewrite IH by tauto. reflexivity.
Qed.
Lemma create_all_ok l : forall f, NoDup (map fst (datasets f) ++ map fst l) ->
  create_all l f = (Ok (mkh5 (datasets f ++ l) (attrs f)), mkh5 (datasets f ++ l) (attrs f)).
Proof.
  induction l as [|[k v] l IH]; intros [ds at_] D; cbn in *.
  - rewrite app_nil_r. reflexivity.
  - unfold create_dataset. cbn [datasets attrs].
    assert (G : get k ds = None).
    { apply get_none. intros H. apply NoDup_remove_2 in D. apply D, in_or_app. left. exact H. }
    rewrite G. rewrite IH; cbn [datasets attrs].
    + rewrite <- app_assoc. reflexivity.
    + rewrite map_app, <- app_assoc. exact D.
Qed.
Lemma folder_made folder d : has_folder (make_folder folder d) folder /\
  (forall f, has_folder d f -> has_folder (make_folder folder d) f) /\ files (make_folder folder d) = files d.
Proof.
  unfold make_folder, has_folder. destruct (existsb _ _) eqn:E.
  - apply existsb_exists in E as (x & Hx & E). apply String.eqb_eq in E. subst. auto.
  - cbn. split; [|split; [|reflexivity]]; intros; apply in_or_app; cbn; auto.
Qed.

(** Saving succeeds; the file contains exactly the parameters, whatever it contained before;
    other files and folders stay. *)
Theorem C105_saved : forall params folder name d, is_dict params ->
  let '(r, d') := save_parameters_to_file params folder name d in
  r = Ok tt /\ has_folder d' folder /\ (forall f, has_folder d f -> has_folder d' f) /\
  get (file_path folder name) (files d') = Some (mkh5 params []) /\
  forall p, p <> file_path folder name -> get p (files d') = get p (files d).
Proof.
  intros params folder name d D. unfold save_parameters_to_file.
  rewrite (create_all_ok params (mkh5 [] [])) by exact D. cbn [datasets attrs app].
  destruct (folder_made folder d) as (F1 & F2 & F3).
  split; [reflexivity|]. split; [exact F1|]. split; [exact F2|].
  cbn [write_file files]. rewrite F3. split.
  - rewrite get_put, String.eqb_refl. reflexivity.
  - intros p Hp. rewrite get_put. destruct (String.eqb_spec (file_path folder name) p); [congruence|reflexivity].
Qed.

Lemma read_all_ok f keys : is_dict (datasets f) -> (forall k, In k keys -> In k (map fst (datasets f))) ->
  forall acc, NoDup (map fst acc ++ keys) ->
  exists r, read_all true keys f acc = Ok (acc ++ r) /\ map fst r = keys /\
    forall k v, In (k, v) r -> In (k, v) (datasets f).
Proof.
  intros D. induction keys as [|k keys IH]; intros Hin acc N; cbn.
  - exists []. rewrite app_nil_r. repeat split. intros k v [].
  - destruct (get k (datasets f)) as [v|] eqn:G.
    + rewrite put_new.
      * destruct (IH (fun q H => Hin q (or_intror H)) (acc ++ [(k, v)])%list) as (r & E & E1 & E2).
        { rewrite map_app, <- app_assoc. exact N. }
        exists ((k, v) :: r). rewrite E, <- app_assoc. split; [reflexivity|]. split; [cbn; rewrite E1; reflexivity|].
        intros q w [E0|H]; [injection E0 as <- <-; apply get_in; exact G|apply E2; exact H].
      * intros H. apply NoDup_remove_2 in N. apply N, in_or_app. left. exact H.
    + exfalso. apply get_none in G. apply G, Hin. left. reflexivity.
Qed.
(** Reading what was saved gives the same dictionary, up to the order of the keys -- with h5py
    older than 3.0. *)
Theorem C105_round_trip : forall key_order params folder name d, is_dict params ->
  (forall l, Permutation (key_order l) l) ->
  exists params',
    read_parameters_from_file key_order true (file_path folder name)
      (snd (save_parameters_to_file params folder name d)) = Ok params' /\
    same_entries params' params /\ map fst params' = key_order (map fst params).
Proof.
  intros ko params folder name d D P.
  pose proof (C105_saved params folder name d D) as H.
  destruct (save_parameters_to_file params folder name d) as [r d']. cbn [snd].
  destruct H as (_ & _ & _ & G & _). unfold read_parameters_from_file. rewrite G. cbn [datasets].
  destruct (read_all_ok (mkh5 params []) (ko (map fst params)) D) with (acc := @nil (string * list R))
    as (l & E & E1 & E2).
  - intros k Hk. apply (Permutation_in _ (P _)) in Hk. exact Hk.
  - cbn. apply (Permutation_NoDup (Permutation_sym (P _))). exact D.
  - exists l. split; [exact E|]. split; [|exact E1]. unfold same_entries.
    assert (Dl : NoDup (map fst l)).
    { rewrite E1. apply (Permutation_NoDup (Permutation_sym (P _))). exact D. }
    apply NoDup_Permutation_bis.
    + exact (NoDup_map_inv _ _ Dl).
    + rewrite <- (map_length fst params), <- (Permutation_length (P (map fst params))), <- E1, map_length. lia.
    + intros [k v] Hk. apply E2 in Hk. exact Hk.
Qed.
(** With newer versions every file with a parameter in it cannot be read. *)
Theorem C105_new_h5py_refuted : forall key_order params folder name d, is_dict params -> params <> [] ->
  (forall l, Permutation (key_order l) l) ->
  read_parameters_from_file key_order false (file_path folder name)
    (snd (save_parameters_to_file params folder name d)) = Err AttributeError.
Proof.
  intros ko params folder name d D Hp P.
  pose proof (C105_saved params folder name d D) as H.
  destruct (save_parameters_to_file params folder name d) as [r d']. cbn [snd].
  destruct H as (_ & _ & _ & G & _). unfold read_parameters_from_file. rewrite G. cbn [datasets].
  pose proof (Permutation_length (P (map fst params))) as L. rewrite map_length in L.
  destruct (ko (map fst params)) as [|k keys]; [destruct params; [congruence|discriminate]|].
  cbn. destruct (get k params); reflexivity.
Qed.
(** No file, no parameters. *)
Theorem C105_missing : forall key_order v path d, get path (files d) = None ->
  read_parameters_from_file key_order v path d = Err FileNotFoundError.
Proof. intros ko v path d H. unfold read_parameters_from_file. rewrite H. reflexivity. Qed.
(** The file of a bunch: phase space, charges and distance travelled. *)
Theorem C105_bunch : forall b folder name d,
  let '(r, d') := save_bunch_to_file b folder name d in
  r = Ok tt /\ has_folder d' folder /\
  exists f, get (file_path folder name) (files d') = Some f /\
    get "x" (datasets f) = Some (b_x b) /\ get "y" (datasets f) = Some (b_y b) /\
    get "xi" (datasets f) = Some (b_xi b) /\ get "px" (datasets f) = Some (b_px b) /\
    get "py" (datasets f) = Some (b_py b) /\ get "pz" (datasets f) = Some (b_pz b) /\
    get "q" (datasets f) = Some (map (fun w => w * b_q b) (b_w b)) /\
    get "prop_dist" (attrs f) = Some (b_prop b).
Proof.
  intros b folder name d. unfold save_bunch_to_file.
  rewrite (create_all_ok _ (mkh5 [] [])) by
    (cbn; repeat (constructor; [cbn; intuition discriminate|]); constructor).
  cbn [datasets attrs app]. destruct (folder_made folder d) as (F1 & _ & _).
  split; [reflexivity|]. split; [exact F1|]. eexists. split.
  - cbn [write_file files]. rewrite get_put, String.eqb_refl. reflexivity.
  - repeat split; reflexivity.
Qed.
(** The species is not in the file: bunches of other particles can give the same file. *)
Theorem C105_species_refuted : exists b1 b2, forall folder name d,
  save_bunch_to_file b1 folder name d = save_bunch_to_file b2 folder name d /\
  b_q b1 <> b_q b2 /\ b_w b1 <> b_w b2 /\ b_m b1 <> b_m b2.
Proof.
  exists (mkb [2] [0] [0] [0] [0] [0] [1] None 1 1 0), (mkb [1] [0] [0] [0] [0] [0] [1] None 2 3 0).
  intros folder name d. split; [|cbn; repeat split; lra || (intros [= H]; lra)].
  unfold save_bunch_to_file. cbn [b_x b_y b_xi b_px b_py b_pz b_prop].
  replace (charges (mkb [1] [0] [0] [0] [0] [0] [1] None 2 3 0))
    with (charges (mkb [2] [0] [0] [0] [0] [0] [1] None 1 1 0)); [reflexivity|].
  unfold charges. cbn. f_equal. ring.
Qed.
(** The results of an analysis are such dictionaries. *)
Theorem C105_analysis_is_a_dict :
  forall A (d0 d1 d2 d3 d4 d5 d6 d7 d8 d9 d10 d11 d12 d13 d14 d15 d16 d17 d18 d19 d20 d21 d22 : A),
  is_dict (store_bunch_parameters_into_dict d0 d1 d2 d3 d4 d5 d6 d7 d8 d9 d10 d11 d12 d13 d14 d15 d16 d17 d18
    d19 d20 d21 d22).
Proof.
  intros. unfold is_dict. cbn. repeat (constructor; [cbn; intuition discriminate|]). constructor.
Qed.

(** ** Non-vacuity *)
Example C105_example : let p := [("b", [1; 2]); ("a", [3])]%string in
  is_dict p /\ p <> [] /\ (forall l : list string, Permutation (rev l) l) /\
  read_parameters_from_file (@rev string) true "f/n.h5" (snd (save_parameters_to_file p "f" "n" (mkdisk [] [])))
    = Ok [("a", [3]); ("b", [1; 2])]%string.
Proof.
  cbv zeta. split; [|split; [discriminate|split]].
  - unfold is_dict. cbn. repeat (constructor; [cbn; intuition discriminate|]). constructor.
  - intros l. apply Permutation_sym, Permutation_rev.
  - reflexivity.
Qed.

Print Assumptions C105_saved.
Print Assumptions C105_round_trip.
Print Assumptions C105_new_h5py_refuted.
Print Assumptions C105_missing.
Print Assumptions C105_bunch.
Print Assumptions C105_species_refuted.
Print Assumptions C105_analysis_is_a_dict.
