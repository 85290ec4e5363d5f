(** Property C118: fields defined by users.  Vocabulary: Spec_Own, Spec_Push. *)
From Coq Require Import Reals String List Lra.
From Verif Require Import Model_Push Spec_Push Proofs_Push Model_Own Spec_Own Proofs_Own Model_Stage
  Spec_Conv Spec_Volume Proofs_Own2.
Import ListNotations.
Open Scope R_scope.

(** ** C118 *)
(** A field on its own: whether its functions add or assign, every component is what its author means by
    it, and the components that are not given are zero. *)
Theorem C118_alone : forall o, exists G, gathers [field_of o] G /\ forall c r t, entry c (G r t) = meant c r t o.
Proof.
  intros o. eexists. split; [exact (own_gathers [o])|]. intros c r t. cbv beta. rewrite entry_fold. cbn [fold_left].
  replace (entry c em0) with 0 by (destruct c; reflexivity). unfold act, meant. destruct (o_given o c); cbn; unfold no_field; lra.
Qed.
Print Assumptions C118_alone.

(** Any list of such fields, separately for each component: the sum of all, if none of them assigns; else the
    last field that assigns it replaces all before it, and those after it are added. *)
Theorem C118_lists : forall l, exists G, gathers (map field_of l) G /\ forall c r t,
  ((forall o, In o l -> ~ assigns c o) -> entry c (G r t) = total (map (meant c r t) l)) /\
  (forall before o after, l = before ++ o :: after -> assigns c o -> (forall o', In o' after -> ~ assigns c o') ->
   entry c (G r t) = total (map (meant c r t) (o :: after))).
Proof.
  intros l. eexists. split; [exact (own_gathers l)|]. intros c r t. cbv beta. rewrite entry_fold. split.
  - intros H. rewrite fold_adds by exact H. destruct c; cbn; lra.
  - intros before o after E Ho Ha. rewrite E. apply fold_last; assumption.
Qed.
Print Assumptions C118_lists.

(** The same for the external fields of a plasma stage, whose wakefield adds [g]: it is part of the sum as
    long as no external field assigns the component, and lost otherwise. *)
Theorem C118_external_fields : forall wake e m_e c_light eps0 length d w l st g,
  plasma_stage field wake e m_e c_light eps0 length d (MField w) (map field_of l) = Some st -> adds w g ->
  exists G, gathers (s_fields st) G /\ forall c r t,
  ((forall o, In o l -> ~ assigns c o) -> entry c (G r t) = entry c (g r t) + total (map (meant c r t) l)) /\
  (forall before o after, l = before ++ o :: after -> assigns c o -> (forall o', In o' after -> ~ assigns c o') ->
   entry c (G r t) = total (map (meant c r t) (o :: after))).
Proof.
  intros wake e m_e c_light eps0 length d w l st g Hst Hw. unfold plasma_stage in Hst.
  destruct (get_density_profile d); [|discriminate]. cbn in Hst. injection Hst as <-. cbn [s_fields app].
  eexists. split; [exact (wake_own_gathers w g l Hw)|]. intros c r t. cbv beta. rewrite entry_fold. split.
  - intros H. apply fold_adds. exact H.
  - intros before o after E Ho Ha. rewrite E. apply fold_last; assumption.
Qed.
Print Assumptions C118_external_fields.

(** Finding: the field of the documentation assigns.  As external field of a plasma stage it does not act in
    addition to the wakefield: wherever the wakefield has a horizontal electric field, this is lost. *)
Theorem C118_documented_example_refuted : forall wake e m_e c_light eps0 length d w slope st g,
  plasma_stage field wake e m_e c_light eps0 length d (MField w) [documented_example slope] = Some st -> adds w g ->
  exists G, gathers (s_fields st) G /\
  (forall r t, ex (G r t) = slope * fst (fst r)) /\
  forall r t, ex (g r t) <> 0 -> ex (G r t) <> ex (g r t) + slope * fst (fst r).
Proof.
  intros wake e m_e c_light eps0 length d w slope st g Hst Hw.
  set (o := mkown (fun c => match c with Ex => Assigns (fun p _ k => nth 0 k 0 * fst (fst p)) | _ => Absent end) (Some [slope])).
  change [documented_example slope] with (map field_of [o]) in Hst.
  destruct (C118_external_fields _ _ _ _ _ _ _ _ _ _ _ Hst Hw) as (G & HG & H). exists G. split; [exact HG|].
  assert (X : forall r t, ex (G r t) = slope * fst (fst r)).
  { intros r t. destruct (H Ex r t) as [_ A]. specialize (A [] o [] eq_refl). cbn [entry] in A. rewrite A.
    - unfold total. cbn. lra.
    - eexists. reflexivity.
    - intros o' []. }
  split; [exact X|]. intros r t Hn. rewrite X. lra.
Qed.
Print Assumptions C118_documented_example_refuted.

(** Lists of fields that are linear in position and time, some added and some assigned: the total field
    meets the conditions under which tracking converges (C116) and conserves phase-space volume (C117). *)
Theorem C118_linear_lists : forall l, List.Forall linear_field l ->
  exists G, gathers (map field_of l) G /\ well_behaved G /\ forall t, differentiable G t.
Proof. intros l H. destruct (linear_list l H) as [W D]. eexists. split; [exact (own_gathers l)|]. split; [exact W|exact D]. Qed.
Print Assumptions C118_linear_lists.

(** Which components the fields of the library add and assign, so that the law holds for lists with them;
    in a uniform plasma they are linear. *)
Theorem C118_library_fields :
  (forall k, exists o, quadrupole_field k = field_of o /\ (forall c, ~ assigns c o) /\ linear_field o) /\
  (forall k, exists o, apl_field k = field_of o /\ (forall c, ~ assigns c o) /\ linear_field o) /\
  (forall e m_e eps0 n, exists o, focusing_blowout e m_e eps0 n = field_of o /\
     (forall c, assigns c o <-> c = Ex \/ c = Ey) /\ ((forall z z', n z = n z') -> linear_field o)) /\
  (forall n vg e0 slope foc xi0, exists o, custom_blowout n vg e0 slope foc xi0 = field_of o /\
     (forall c, assigns c o <-> c = Ex \/ c = Ey \/ c = Ez) /\ ((forall z z', n z = n z') -> linear_field o)) /\
  (forall e m_e n w_p vg l_c off, exists o, simple_blowout e m_e n w_p vg l_c off = field_of o /\
     (forall c, assigns c o <-> c = Ex \/ c = Ey \/ c = Ez) /\ ((forall z z', n z = n z') -> linear_field o)).
Proof.
  assert (A : forall (P : component -> Prop) g k, (forall c, (exists f, g c = Assigns f) <-> P c) -> forall c, assigns c (mkown g k) <-> P c).
  { intros P g k H c. apply H. }
  split; [|split; [|split; [|split]]].
  - intros k. exists (mkown (fun c => match c with Bx => Adds (fun p _ _ => - k * snd (fst p)) | By => Adds (fun p _ _ => - k * fst (fst p)) | _ => Absent end) None).
    split; [reflexivity|]. split.
    + intros [] (f & E); discriminate E.
    + intros []; unfold meant; cbn [o_given o_constants].
      * exists 0, 0, 0, 0, 0. intros. ring.
      * exists 0, 0, 0, 0, 0. intros. ring.
      * exists 0, 0, 0, 0, 0. intros. ring.
      * exists 0, (- k), 0, 0, 0. intros. ring.
      * exists (- k), 0, 0, 0, 0. intros. ring.
      * exists 0, 0, 0, 0, 0. intros. ring.
  - intros k. exists (mkown (fun c => match c with Bx => Adds (fun p _ _ => - (- k * snd (fst p))) | By => Adds (fun p _ _ => - k * fst (fst p)) | _ => Absent end) None).
    split; [reflexivity|]. split.
    + intros [] (f & E); discriminate E.
    + intros []; unfold meant; cbn [o_given o_constants].
      * exists 0, 0, 0, 0, 0. intros. ring.
      * exists 0, 0, 0, 0, 0. intros. ring.
      * exists 0, 0, 0, 0, 0. intros. ring.
      * exists 0, k, 0, 0, 0. intros. ring.
      * exists (- k), 0, 0, 0, 0. intros. ring.
      * exists 0, 0, 0, 0, 0. intros. ring.
  - intros e m_e eps0 n.
    exists (mkown (fun c => match c with
      | Ex => Assigns (fun p t _ => c_SI * (m_e / (2 * e * c_SI) * sqrt (n (t * c_SI + snd p) * e ^ 2 / (m_e * eps0)) ^ 2) * fst (fst p))
      | Ey => Assigns (fun p t _ => c_SI * (m_e / (2 * e * c_SI) * sqrt (n (t * c_SI + snd p) * e ^ 2 / (m_e * eps0)) ^ 2) * snd (fst p))
      | _ => Absent end) None).
    split; [reflexivity|]. split.
    + apply A. intros []; (split; [intros (f & E); try discriminate E; tauto|]);
      (intros [E|E]; try discriminate E; eexists; reflexivity).
    + intros Hn. intros []; unfold meant; cbn [o_given o_constants].
      * exists (c_SI * (m_e / (2 * e * c_SI) * sqrt (n 0 * e ^ 2 / (m_e * eps0)) ^ 2)), 0, 0, 0, 0. intros. rewrite (Hn _ 0). ring.
      * exists 0, (c_SI * (m_e / (2 * e * c_SI) * sqrt (n 0 * e ^ 2 / (m_e * eps0)) ^ 2)), 0, 0, 0. intros. rewrite (Hn _ 0). ring.
      * exists 0, 0, 0, 0, 0. intros. ring.
      * exists 0, 0, 0, 0, 0. intros. ring.
      * exists 0, 0, 0, 0, 0. intros. ring.
      * exists 0, 0, 0, 0, 0. intros. ring.
  - intros n vg e0 slope foc xi0.
    exists (mkown (fun c => match c with
      | Ex => Assigns (fun p t _ => c_SI * foc * fst (fst p))
      | Ey => Assigns (fun p t _ => c_SI * foc * snd (fst p))
      | Ez => Assigns (fun p t _ => e0 + slope * (snd p + (- xi0 + (1 - vg (n (t * c_SI))) * c_SI * t)))
      | _ => Absent end) None).
    split; [reflexivity|]. split.
    + apply A. intros []; (split; [intros (f & E); try discriminate E; tauto|]);
      (intros [E|[E|E]]; try discriminate E; eexists; reflexivity).
    + intros Hn. intros []; unfold meant; cbn [o_given o_constants].
      * exists (c_SI * foc), 0, 0, 0, 0. intros. ring.
      * exists 0, (c_SI * foc), 0, 0, 0. intros. ring.
      * exists 0, 0, slope, (slope * ((1 - vg (n 0)) * c_SI)), (e0 - slope * xi0). intros. rewrite (Hn _ 0). ring.
      * exists 0, 0, 0, 0, 0. intros. ring.
      * exists 0, 0, 0, 0, 0. intros. ring.
      * exists 0, 0, 0, 0, 0. intros. ring.
  - intros e m_e n w_p vg l_c off.
    exists (mkown (fun c => match c with
      | Ex => Assigns (fun p t _ => c_SI * (w_p (n (t * c_SI)) ^ 2 / 2 * m_e / (e * c_SI)) * fst (fst p))
      | Ey => Assigns (fun p t _ => c_SI * (w_p (n (t * c_SI)) ^ 2 / 2 * m_e / (e * c_SI)) * snd (fst p))
      | Ez => Assigns (fun p t _ => w_p (n (t * c_SI)) ^ 2 / 2 * m_e / e *
                (snd p + (2 * PI * c_SI / w_p (n (t * c_SI)) / 2 - l_c - off + (1 - vg (n (t * c_SI))) * c_SI * t)))
      | _ => Absent end) None).
    split; [reflexivity|]. split.
    + apply A. intros []; (split; [intros (f & E); try discriminate E; tauto|]);
      (intros [E|[E|E]]; try discriminate E; eexists; reflexivity).
    + intros Hn. intros []; unfold meant; cbn [o_given o_constants].
      * exists (c_SI * (w_p (n 0) ^ 2 / 2 * m_e / (e * c_SI))), 0, 0, 0, 0. intros. rewrite (Hn _ 0). ring.
      * exists 0, (c_SI * (w_p (n 0) ^ 2 / 2 * m_e / (e * c_SI))), 0, 0, 0. intros. rewrite (Hn _ 0). ring.
      * exists 0, 0, (w_p (n 0) ^ 2 / 2 * m_e / e), (w_p (n 0) ^ 2 / 2 * m_e / e * ((1 - vg (n 0)) * c_SI)), (w_p (n 0) ^ 2 / 2 * m_e / e * (2 * PI * c_SI / w_p (n 0) / 2 - l_c - off)). intros. rewrite !(Hn (_ * _) 0). set (l_p := 2 * PI * c_SI / w_p (n 0)). ring.
      * exists 0, 0, 0, 0, 0. intros. ring.
      * exists 0, 0, 0, 0, 0. intros. ring.
      * exists 0, 0, 0, 0, 0. intros. ring.
Qed.
Print Assumptions C118_library_fields.

(** Without any field the particles feel none. *)
Theorem C118_no_fields : gathers (default_fields []) (fun _ _ => em0).
Proof.
  destruct (C118_alone (mkown (fun _ => Absent) None)) as (G & HG & E).
  intros ps t b Hb. refine (eq_trans (HG ps t b Hb) _). apply map_ext. intros r.
  pose proof (fun c => E c r t) as E'. destruct (G r t). pose proof (E' Ex). pose proof (E' Ey). pose proof (E' Ez).
  pose proof (E' Bx). pose proof (E' By). pose proof (E' Bz). cbn in *. subst. reflexivity.
Qed.
Print Assumptions C118_no_fields.

(** ** Non-vacuity *)
(** Three fields, of which the second assigns [Ex]: 2 + 5 remains. *)
Example ex_three_fields : exists G,
  let const c v k := mkown (fun c' => match c, c' with Ex, Ex | Bz, Bz => k (fun (_ : pos) (_ : R) (_ : list R) => v) | _, _ => Absent end) None in
  gathers (map field_of [const Ex 1 Adds; const Ex 2 Assigns; const Ex 5 Adds; const Bz 7 Adds]) G /\
  forall r t, ex (G r t) = 7 /\ bz (G r t) = 7 /\ by_ (G r t) = 0.
Proof.
  eexists. intros const.
  split; [apply own_gathers|]. intros r t. cbn. unfold act. cbn. unfold no_field. repeat split; lra.
Qed.
(** A plasma stage with a uniform horizontal field as wakefield and the field of the documentation. *)
Example ex_stage_with_documented_field : exists st w g,
  plasma_stage field (fun _ _ => w) 1 1 1 1 1 (DFloat 1) (MField w) [documented_example 3] = Some st /\
  adds w g /\ ex (g (0, 0, 0) 0) <> 0.
Proof.
  set (w := analytical (mkcomp (fun _ _ v => v + 1) no_field no_field no_field no_field no_field)).
  eexists. exists w, (fun _ _ => mke 1 0 0 0 0 0). split; [reflexivity|]. split; [|cbn; lra].
  intros ps t b Hb. unfold w, analytical. cbn. apply map2_ext. intros r v. unfold no_field. destruct v. cbn. f_equal; lra.
Qed.
(** A lens inside a plasma of uniform density. *)
Example ex_lens_in_plasma : exists l, List.Forall linear_field l /\
  map field_of l = [custom_blowout (fun _ => 1) (fun _ => 1) 1 2 3 4; apl_field 5].
Proof.
  destruct C118_library_fields as (_ & A & _ & B & _). destruct (A 5) as (o & E & _ & H).
  destruct (B (fun _ => 1) (fun _ => 1) 1 2 3 4) as (o' & E' & _ & H'). exists [o'; o]. split.
  - repeat constructor; auto.
  - cbn. rewrite <- E, <- E'. reflexivity.
Qed.
