(** Lemmas about elements, beamlines and openPMD diagnostics. *)
From Coq Require Import QArith Qround String List Bool Arith ZArith Lia Lqa Setoid.
From Verif Require Import Model_Tracker Spec_Tracker Proofs_Tracker Model_Element
  Spec_Element.
Import ListNotations.
Open Scope Q_scope.

(** ** openPMD *)
Section Openpmd.
  Variables B D : Type.
  Variable name : B -> string.
  Notation diag := (diag B D).

  Lemma existsb_eqb x l : existsb (String.eqb x) l = true <-> In x l.
  Proof.
    rewrite existsb_exists. split.
    - intros (y & H & E). apply String.eqb_eq in E. subst; auto.
    - intros H. exists x. split; auto. apply String.eqb_refl.
  Qed.

  Lemma check_names_spec l : forall pre,
    check_names B name pre l = true <->
    NoDup (map name l) /\ (forall x, In x (map name l) -> ~ In x pre).
  Proof.
    induction l as [|b r IH]; intros pre; simpl.
    - split; auto. intros _. split; [constructor|tauto].
    - destruct (existsb (String.eqb (name b)) pre) eqn:E.
      + split; [discriminate|]. intros [_ H]. exfalso.
        apply existsb_eqb in E. apply (H (name b)); auto.
      + assert (E' : ~ In (name b) pre) by (intros Hin; apply existsb_eqb in Hin; congruence).
        rewrite IH. split.
        * intros [H1 H2]. split.
          -- constructor; auto. intros H. apply (H2 _ H). apply in_or_app. right; left; auto.
          -- intros x [<-|H]; auto. intros Hp. apply (H2 _ H). apply in_or_app; auto.
        * intros [H1 H2]. inversion H1; subst. split; auto.
          intros x H Hp. apply in_app_or in Hp as [Hp|[<-|[]]]; auto.
          apply (H2 x); auto.
  Qed.
  Lemma check_names_ok l : check_names B name [] l = true <-> distinct_names name l.
  Proof. rewrite check_names_spec. unfold distinct_names. simpl. tauto. Qed.

  Lemma supported_spec l : supported D l = map snd (filter fst l).
  Proof.
    induction l as [|[b x] r IH]; simpl; auto. unfold field_data. simpl.
    destruct b; simpl; rewrite IH; reflexivity.
  Qed.

  Definition dinv (d : diag) := index_out d = length (files d) /\
    map f_iter (files d) = seq 0 (length (files d)).

  Lemma new_dinv : dinv (new_diag B D).
  Proof. split; reflexivity. Qed.
  Lemma write_dinv t dt sp fl d d' : dinv d ->
    write_diagnostics B D name t dt sp fl d = Some d' -> dinv d'.
  Proof.
    unfold write_diagnostics. destruct check_names; [|discriminate].
    intros [H1 H2] E. injection E as <-. split; simpl; rewrite app_length; simpl.
    - lia.
    - rewrite map_app, H2, H1. simpl. rewrite Nat.add_1_r, seq_S. reflexivity.
  Qed.
  Lemma call_dinv (d : diag) x : dinv d -> dinv (call name d x).
  Proof.
    intros H. destruct x; simpl; auto.
    destruct write_diagnostics eqn:E; auto. eapply write_dinv; eauto.
  Qed.
  Lemma calls_dinv l : forall d, dinv d -> dinv (fold_left (call name) l d).
  Proof. induction l; simpl; intros; auto. apply IHl, call_dinv; auto. Qed.

  Lemma call_z (d : diag) x : z_pos (call name d x) ==
    z_pos d + match x with CAdvance dist => dist | _ => 0 end.
  Proof.
    destruct x; simpl; [|reflexivity].
    unfold write_diagnostics. destruct check_names; simpl; lra.
  Qed.
  Lemma calls_z l : forall d : diag, z_pos (fold_left (call name) l d) == z_pos d + advanced l.
  Proof.
    induction l as [|x l IH]; intros d; simpl.
    - unfold advanced; simpl; lra.
    - rewrite IH, call_z. unfold advanced; simpl. lra.
  Qed.

  Lemma history_lemma l t dt sp fl :
    let d := fold_left (call name) l (new_diag B D) in
    distinct_names name sp ->
    exists f,
      files (call name d (CWrite t dt sp fl)) = (files d ++ [f])%list /\
      f_iter f = length (files d) /\
      f_time f == t + advanced l / 299792458 /\
      f_dt f = dt /\ f_species f = sp /\
      (length (f_zoff f) = length sp /\
       forall z, In z (f_zoff f) -> z == t * 299792458 + advanced l) /\
      f_fields f = map snd (filter fst fl).
  Proof.
    intros d Hn. apply check_names_ok in Hn.
    pose proof (calls_dinv l _ new_dinv) as [Hi _]. fold d in Hi.
    assert (Hz : z_pos d == advanced l).
    { unfold d. rewrite calls_z. simpl. lra. }
    simpl. unfold write_diagnostics. rewrite Hn. simpl. eexists. split; [reflexivity|].
    simpl. split; [exact Hi|]. split; [rewrite Hz; reflexivity|].
    split; [reflexivity|]. split; [reflexivity|]. split; [|apply supported_spec].
    split; [apply map_length|]. intros z Hin. apply in_map_iff in Hin as (b & <- & _).
    rewrite Hz. unfold c_light. field.
  Qed.

  Lemma history_dup l t dt sp fl :
    let d := fold_left (call name) l (new_diag B D) in
    ~ distinct_names name sp ->
    write_diagnostics B D name t dt sp fl d = None.
  Proof.
    intros d Hn. unfold write_diagnostics. destruct check_names eqn:E; auto.
    apply check_names_ok in E. contradiction.
  Qed.
End Openpmd.

(** ** Field elements *)
Lemma c_light_pos : 0 < c_light.
Proof. reflexivity. Qed.
Lemma div_c_pos q : 0 < q -> 0 < q / c_light.
Proof. intros H. apply Qdiv_pos; auto using c_light_pos. Qed.

Section Element.
  Variables B F : Type.
  Variable evolve : F -> B -> Q -> Q -> B.
  Variable update : nat -> F -> list B -> F.
  Variable auto_dt : B -> Q.
  Variable copy : B -> B.
  Variable rnd : Q -> Q.
  Variable name : B -> string.
  Notation diag := (diag B unit).
  Notation fe_track := (fe_track B F evolve update auto_dt copy rnd name).
  Notation do_tracking := (do_tracking B F evolve update auto_dt copy rnd).

  Lemma dt_list_spec (dt : arg (option Q)) n l : dt_list dt n = Some l ->
    length l = n /\ forall i, (i < n)%nat -> nth_error l i = Some (requested dt i).
  Proof.
    destruct dt as [x|l0]; simpl; intros H.
    - injection H as <-. split; [apply repeat_length|]. intros i Hi.
      rewrite nth_error_repeat; auto.
    - destruct (Nat.eqb_spec (length l0) n) as [E|E]; [|discriminate]. injection H as <-.
      split; auto. intros i Hi. apply nth_error_nth'. lia.
  Qed.

  Lemma good_dt_list n (el : felement F) : good_element n el ->
    exists l, dt_list (fe_dt el) n = Some l.
  Proof.
    intros (_ & _ & H & _). destruct (fe_dt el) as [x|l]; simpl; eauto.
    destruct H as [-> _]. rewrite Nat.eqb_refl. eauto.
  Qed.

  Lemma good_cfg (bl : list B) (el : felement F) l : good_element (length bl) el ->
    dt_list (fe_dt el) (length bl) = Some l -> good_config (tracker_config F el l) bl.
  Proof.
    intros (HL & Hn & Hd & Hf) E. destruct (dt_list_spec _ _ _ E) as [El Er].
    repeat split; simpl; auto.
    - apply div_c_pos; auto.
    - intros q Hq. destruct (fe_dt el) as [x|l0]; simpl in *.
      + injection E as <-. apply repeat_spec in Hq. subst x. auto.
      + destruct Nat.eqb; [|discriminate]. injection E as <-. apply Hd; auto.
  Qed.

  Lemma returned_inv fuel bunches od el r bs' el' d' :
    fe_track fuel bunches od el = Returned r bs' el' d' ->
    exists l s, dt_list (fe_dt el) (length (as_list bunches)) = Some l /\
      do_tracking fuel (tracker_config F el l) (as_list bunches) (fe_fs el) = Done s /\
      r = unwrap (out s) /\ bs' = bs s /\ el' = adjusted F el (fs s) /\
      match resolve_diag (new_diag B unit) od with
      | None => d' = None
      | Some d0 => exists d1,
          write_all B name (dt_diags (tracker_config F el l)) (log s) d0 = Some d1 /\
          d' = Some (increase_z_pos B unit (fe_length el / c_light * c_light) d1)
      end.
  Proof.
    unfold fe_track. destruct dt_list as [l|]; [|discriminate].
    destruct do_tracking as [s|s|e s] eqn:E; try discriminate.
    destruct resolve_diag as [d0|].
    - destruct write_all as [d1|] eqn:Ew; [|discriminate].
      intros H. injection H as <- <- <- <-.
      exists l, s. repeat split; auto. exists d1. auto.
    - intros H. injection H as <- <- <- <-. exists l, s. repeat split; auto.
  Qed.

  Lemma wrong_number_lemma fuel bunches od el l :
    fe_dt el = Listed l -> length l <> length (as_list bunches) ->
    fe_track fuel bunches od el =
      Raised ValueError (as_list bunches) el (resolve_diag (new_diag B unit) od).
  Proof.
    intros E H. unfold fe_track. rewrite E. simpl.
    destruct (Nat.eqb_spec (length l) (length (as_list bunches))); [contradiction|reflexivity].
  Qed.

  Lemma one_step_lemma fuel bunches od el x :
    observed (fe_track fuel bunches od (with_dt (Single x) el)) =
    observed (fe_track fuel bunches od
                (with_dt (Listed (repeat x (length (as_list bunches)))) el)).
  Proof.
    unfold fe_track. simpl. rewrite repeat_length, Nat.eqb_refl.
    unfold tracker_config. simpl.
    destruct do_tracking as [s|s|e s]; try reflexivity.
    destruct resolve_diag; [|reflexivity]. destruct write_all; reflexivity.
  Qed.

  Lemma single_is_list_lemma fuel b od el :
    fe_track fuel (Single b) od el = fe_track fuel (Listed [b]) od el.
  Proof. reflexivity. Qed.
End Element.

(** Names along a run. *)
Section Names.
  Variables B F : Type.
  Variable evolve : F -> B -> Q -> Q -> B.
  Variable update : nat -> F -> list B -> F.
  Variable auto_dt : B -> Q.
  Variable copy : B -> B.
  Variable name : B -> string.
  Hypothesis Hk : keeps_names name evolve copy.

  Lemma effect_names w e :
    map name (snd (effect B F evolve update w e)) = map name (snd w).
  Proof.
    destruct w as [f l], e as [i t d y|j t|t sn]; simpl; auto.
    destruct (nth_error l i) as [b|] eqn:E; simpl; auto.
    unfold replace_at. rewrite map_app. simpl.
    rewrite (proj1 Hk). rewrite <- (firstn_skipn i l) at 3. rewrite map_app. f_equal.
    clear -E. revert l E. induction i; intros [|a l] E; try discriminate; simpl in *.
    - injection E as ->. reflexivity.
    - auto.
  Qed.

  Lemma write_all_ok dt l : forall w d,
    outputs_ok B F evolve update copy l w ->
    distinct_names name (snd w) ->
    exists d', write_all B name dt l d = Some d' /\
      z_pos d' = z_pos d /\ (dinv B unit d -> dinv B unit d') /\
      exists fl, files d' = (files d ++ fl)%list /\
        map f_species fl = snapshots l /\
        map f_time fl = map (fun t => t + z_pos d / c_light) (diag_times l) /\
        map f_dt fl = map (fun _ => dt) fl /\
        Forall (fun f => f_zoff f = map (fun _ => f_time f * c_light) (f_species f)) fl.
  Proof.
    induction l as [|e l IH]; intros w d Ho Hn.
    - exists d. repeat split; auto. apply H. apply H. exists []. rewrite app_nil_r.
      repeat split; auto.
    - simpl in Ho. destruct Ho as [He Ho].
      assert (Hn' : distinct_names name (snd (effect B F evolve update w e)))
        by (unfold distinct_names; rewrite effect_names; exact Hn).
      destruct e as [i t y z|j t|t sn]; simpl; try exact (IH _ d Ho Hn').
      subst sn.
      assert (E : check_names B name [] (map copy (snd w)) = true).
      { apply check_names_ok. unfold distinct_names. rewrite map_map.
        rewrite (map_ext _ name (proj2 Hk)). exact Hn. }
      unfold write_diagnostics. rewrite E.
      destruct (IH _ {| index_out := S (index_out d); z_pos := z_pos d;
        files := files d ++ [{| f_iter := index_out d; f_time := t + z_pos d / c_light;
          f_dt := dt; f_species := map copy (snd w);
          f_zoff := map (fun _ => (t + z_pos d / c_light) * c_light) (map copy (snd w));
          f_fields := supported unit [] |}] |} Ho Hn')
        as (d' & E1 & E2 & E3 & fl & F1 & F2 & F3 & F4 & F5).
      exists d'. split; [exact E1|]. split; [exact E2|]. split.
      { intros Hd. apply E3. apply (write_dinv B unit name t dt (map copy (snd w)) [] d); auto.
        unfold write_diagnostics. rewrite E. reflexivity. }
      eexists. simpl in F1, F3. split; [rewrite F1, <- app_assoc; reflexivity|].
      simpl. rewrite F2, F3, F4. repeat split; auto.
  Qed.

  Lemma write_all_dup dt l : forall w d,
    outputs_ok B F evolve update copy l w ->
    ~ distinct_names name (snd w) -> (0 < length (diag_times l))%nat ->
    write_all B name dt l d = None.
  Proof.
    induction l as [|e l IH]; intros w d Ho Hn Hl; simpl in *; [lia|].
    destruct Ho as [He Ho].
    assert (Hn' : ~ distinct_names name (snd (effect B F evolve update w e)))
      by (unfold distinct_names; rewrite effect_names; exact Hn).
    destruct e as [i t y z|j t|t sn]; try (eapply IH; eassumption).
    subst sn. unfold write_diagnostics.
    destruct check_names eqn:E; auto. exfalso. apply Hn.
    apply check_names_ok in E. unfold distinct_names in *. rewrite map_map in E.
    rewrite (map_ext _ name (proj2 Hk)) in E. exact E.
  Qed.
End Names.

Definition Qeqs := Forall2 Qeq.
Lemma Qeqs_refl l : Qeqs l l.
Proof. induction l; constructor; auto; reflexivity. Qed.
Lemma Qeqs_trans a b c : Qeqs a b -> Qeqs b c -> Qeqs a c.
Proof.
  intros H. revert c. induction H; intros c Hc; inversion Hc; subst; constructor.
  - etransitivity; eauto.
  - apply IHForall2; auto.
Qed.
Lemma Qeqs_app a b c d : Qeqs a b -> Qeqs c d -> Qeqs (a ++ c)%list (b ++ d)%list.
Proof. apply Forall2_app. Qed.
Lemma Qeqs_map {A} (f g : A -> Q) l : (forall x, f x == g x) -> Qeqs (map f l) (map g l).
Proof. intros H. induction l; constructor; auto. Qed.

Lemma expected_times_compat els : forall z z', z == z' ->
  Qeqs (expected_times z els) (expected_times z' els).
Proof.
  induction els as [|[L n] r IH]; intros z z' H; simpl.
  - constructor.
  - constructor; [rewrite H; reflexivity|]. apply Qeqs_app.
    + apply Qeqs_map. intros j. rewrite H. reflexivity.
    + apply IH. rewrite H. reflexivity.
Qed.

Lemma multiples_Qeqs d n l : multiples d n l ->
  Qeqs l (map (fun j => inject_Z (Z.of_nat j) * d) (seq 0 n)).
Proof.
  intros [Hl Hm]. subst n.
  assert (G : forall l a, (forall k t, nth_error l k = Some t ->
      t == inject_Z (Z.of_nat (a + k)) * d) ->
      Qeqs l (map (fun j => inject_Z (Z.of_nat j) * d) (seq a (length l)))).
  { clear. induction l as [|x l IH]; intros a H; simpl; constructor.
    - rewrite (H 0%nat x eq_refl), Nat.add_0_r. reflexivity.
    - apply IH. intros k t Hk. rewrite (H (S k) t Hk). rewrite <- plus_n_Sm. reflexivity. }
  apply (G l 0%nat). exact Hm.
Qed.

Lemma inject_nat_nz n : (0 < n)%nat -> ~ inject_Z (Z.of_nat n) == 0.
Proof. intros H E. unfold Qeq in E. simpl in E. lia. Qed.

Section Run.
  Variables B F : Type.
  Variable evolve : F -> B -> Q -> Q -> B.
  Variable update : nat -> F -> list B -> F.
  Variable auto_dt : B -> Q.
  Variable copy : B -> B.
  Variable name : B -> string.
  Variable m : Q.
  Hypothesis Hm : bounded_below auto_dt m.
  Notation diag := (diag B unit).
  Notation fe_track := (fe_track B F evolve update auto_dt copy exact name).
  Notation do_tracking := (do_tracking B F evolve update auto_dt copy exact).

  Lemma adjusted_good n (el : felement F) f :
    good_element n el -> good_element n (adjusted F el f).
  Proof.
    intros (H1 & H2 & H3 & H4). repeat split; simpl; auto.
    intros d b Hin. apply in_map_iff in Hin as ([d0 b0] & E & Hin). injection E as <- <-.
    apply adjust_pos; eauto using div_c_pos.
  Qed.

  Lemma fe_returns bunches od el :
    let bl := as_list bunches in
    good_element (length bl) el -> keeps_names name evolve copy ->
    distinct_names name bl \/ od = Falsy ->
    exists N r bs' el' d', forall fuel, (N <= fuel)%nat ->
      fe_track fuel bunches od el = Returned r bs' el' d'.
  Proof.
    intros bl Hg Hk Hd. destruct (good_dt_list F _ _ Hg) as [l El].
    pose proof (good_cfg B F bl el l Hg El) as Hc.
    destruct (tracking_terminates_lemma B F evolve update auto_dt copy _ bl (fe_fs el) Hc
                m Hm (proj1 (proj2 Hg))) as (N & s & Hs).
    pose proof (done_Rep B F evolve update auto_dt copy exact _ bl (fe_fs el) Hc N s
                  (Hs N (le_n N))) as Hr.
    exists N.
    destruct (resolve_diag (new_diag B unit) od) as [d0|] eqn:Er.
    - assert (Hn : distinct_names name bl).
      { destruct Hd as [H|H]; auto. subst od. discriminate. }
      destruct Hr as [_ _ Ho _].
      destruct (write_all_ok B F evolve update copy name Hk
        (dt_diags (tracker_config F el l)) (log s) (fe_fs el, bl) d0 Ho Hn)
        as (d1 & E1 & _).
      do 4 eexists. intros fuel Hf. unfold fe_track. fold bl. rewrite El, (Hs fuel Hf), Er, E1.
      reflexivity.
    - do 4 eexists. intros fuel Hf. unfold fe_track. fold bl. rewrite El, (Hs fuel Hf), Er.
      reflexivity.
  Qed.

  Lemma fe_static fuel bunches od el r bs' el' d' :
    good_element (length (as_list bunches)) el ->
    fe_track fuel bunches od el = Returned r bs' el' d' ->
    length bs' = length (as_list bunches) /\
    good_element (length bs') el' /\ fe_length el' = fe_length el /\
    fe_nout el' = fe_nout el.
  Proof.
    intros Hg H. apply returned_inv in H as (l & s & El & Hs & _ & -> & -> & _).
    pose proof (good_cfg B F _ el l Hg El) as Hc.
    destruct (done_Rep _ _ _ _ _ _ _ _ _ _ Hc _ _ Hs) as [W _ _ _].
    destruct (dt_list_spec _ _ _ El) as [Ll _].
    assert (E : length (bs s) = length (as_list bunches)).
    { transitivity (length l); [apply W|exact Ll]. }
    split; auto. split; [|split; reflexivity]. rewrite E. apply adjusted_good; auto.
  Qed.

  Lemma fe_names fuel bunches od el r bs' el' d' :
    good_element (length (as_list bunches)) el -> keeps_names name evolve copy ->
    fe_track fuel bunches od el = Returned r bs' el' d' ->
    map name bs' = map name (as_list bunches).
  Proof.
    intros Hg Hk H. apply returned_inv in H as (l & s & El & Hs & _ & -> & -> & _).
    pose proof (good_cfg B F _ el l Hg El) as Hc.
    destruct (done_Rep _ _ _ _ _ _ _ _ _ _ Hc _ _ Hs) as [_ Hr _ _].
    change (bs s) with (snd (fs s, bs s)). rewrite Hr. unfold replay.
    assert (G : forall lg w, map name (snd (fold_left (effect B F evolve update) lg w)) =
                             map name (snd w)).
    { induction lg as [|e lg IH]; intros w; simpl; auto. rewrite IH.
      apply (effect_names B F evolve update copy name Hk). }
    apply G.
  Qed.

  Lemma fe_diag fuel bunches d el r bs' el' d' :
    let bl := as_list bunches in
    good_element (length bl) el -> keeps_names name evolve copy -> distinct_names name bl ->
    fe_track fuel bunches (Instance d) el = Returned r bs' el' d' ->
    exists d1 fl, d' = Some d1 /\ z_pos d1 == z_pos d + fe_length el /\
      (dinv B unit d -> dinv B unit d1) /\
      files d1 = (files d ++ fl)%list /\
      Qeqs (map f_time fl) (expected_times (z_pos d) [(fe_length el, fe_nout el)]) /\
      Forall (fun f => f_dt f == fe_length el / inject_Z (Z.of_nat (fe_nout el)) / 299792458) fl /\
      Forall (fun f => f_zoff f = map (fun _ => f_time f * c_light) (f_species f)) fl /\
      Forall (fun f => map name (f_species f) = map name bl) fl.
  Proof.
    intros bl Hg Hk Hn H. apply returned_inv in H as (l & s & El & Hs & _ & -> & -> & Hw).
    simpl in Hw. destruct Hw as (d1 & Hw & ->). fold bl in El, Hs.
    pose proof (good_cfg B F _ el l Hg El) as Hc.
    destruct (done_Rep _ _ _ _ _ _ _ _ _ _ Hc _ _ Hs) as [_ _ Ho _].
    destruct (write_all_ok B F evolve update copy name Hk
        (dt_diags (tracker_config F el l)) (log s) (fe_fs el, bl) d Ho Hn)
        as (d2 & E1 & E2 & E3 & fl & F1 & F2 & F3 & F4 & F5).
    rewrite Hw in E1. injection E1 as <-.
    eexists _, fl. split; [reflexivity|].
    split; [|split; [|split; [exact F1|split; [|split; [|split; [exact F5|]]]]]].
    - simpl. rewrite E2. unfold c_light. field.
    - intros Hd. apply E3 in Hd. exact Hd.
    - rewrite F3.
      destruct (diag_count_lemma B F evolve update auto_dt copy _ bl (fe_fs el) Hc m Hm exact
                  fuel s exact_mono Hs) as (n & H1 & H2 & H3).
      assert (Hnd : (0 < fe_nout el)%nat) by apply Hg.
      assert (Hp : 0 < dt_diags (tracker_config F el l)) by (eapply dtdiag_pos; eassumption).
      unfold dt_diags in Hp.
      assert (En : n = fe_nout el) by (apply H3; unfold exact; lra). subst n.
      apply multiples_Qeqs in H2. simpl in H2.
      unfold expected_times. rewrite app_nil_r.
      set (q := z_pos d) in *. clear -H2 Hnd.
      assert (G : forall a b, Qeqs a (map (fun j => inject_Z (Z.of_nat j) *
           (fe_length el / c_light / inject_Z (Z.of_nat (fe_nout el)))) b) ->
         Qeqs (map (fun t => t + q / c_light) a)
          (map (fun j => (q + inject_Z (Z.of_nat j) *
             (fe_length el / inject_Z (Z.of_nat (fe_nout el)))) / 299792458) b)).
      { induction a as [|x a IH]; intros [|j b] HH; inversion HH; subst; simpl; constructor.
        - rewrite H3. unfold c_light. field. exact (inject_nat_nz _ Hnd).
        - apply IH; auto. }
      apply (G _ (seq 0 (S (fe_nout el)))). exact H2.
    - apply Forall_forall. intros f Hf.
      assert (E : f_dt f = dt_diags (tracker_config F el l)).
      { clear -F4 Hf. induction fl as [|g fl IH]; [destruct Hf|].
        simpl in F4. injection F4 as E1 E2. destruct Hf as [<-|Hf]; auto. }
      rewrite E. unfold dt_diags, tracker_config, c_light. simpl.
      assert (Hnd : (0 < fe_nout el)%nat) by apply Hg.
      field. exact (inject_nat_nz _ Hnd).
    - apply Forall_forall. intros f Hf.
      assert (Hin : In (f_species f) (snapshots (log s))).
      { rewrite <- F2. apply in_map; auto. }
      assert (G : forall lg w, outputs_ok B F evolve update copy lg w ->
        forall sn, In sn (snapshots lg) -> map name sn = map name (snd w)).
      { clear -Hk. induction lg as [|e lg IH]; intros w Hw sn Hs; [destruct Hs|].
        destruct Hw as [He Ho].
        assert (Hrec : In sn (snapshots lg) -> map name sn = map name (snd w)).
        { intros Hs'. rewrite (IH _ Ho sn Hs').
          apply (effect_names B F evolve update copy name Hk). }
        destruct e; simpl in Hs; auto. destruct Hs as [<-|Hs]; auto.
        subst snap. rewrite map_map. apply map_ext. apply Hk. }
      exact (G _ _ Ho _ Hin).
  Qed.

  (** Duplicate names: the call raises, bunches and diagnostics untouched. *)
  Lemma fe_dup bunches d el :
    let bl := as_list bunches in
    good_element (length bl) el -> keeps_names name evolve copy ->
    ~ distinct_names name bl ->
    exists N el', forall fuel, (N <= fuel)%nat ->
      fe_track fuel bunches (Instance d) el = Raised ValueError bl el' (Some d).
  Proof.
    intros bl Hg Hk Hd. destruct (good_dt_list F _ _ Hg) as [l El].
    pose proof (good_cfg B F bl el l Hg El) as Hc.
    destruct (tracking_terminates_lemma B F evolve update auto_dt copy _ bl (fe_fs el) Hc
                m Hm (proj1 (proj2 Hg))) as (N & s & Hs).
    pose proof (Hs N (le_n N)) as Hs0.
    pose proof (done_Rep B F evolve update auto_dt copy exact _ bl (fe_fs el) Hc N s Hs0) as Hr.
    destruct Hr as [_ _ Ho _].
    destruct (diag_count_lemma B F evolve update auto_dt copy _ bl (fe_fs el) Hc m Hm exact
                  N s exact_mono Hs0) as (n & H1 & [H2 _] & H3).
    exists N. eexists. intros fuel Hf. unfold fe_track. fold bl. rewrite El, (Hs fuel Hf). simpl.
    rewrite (write_all_dup B F evolve update copy name Hk _ (log s) (fe_fs el, bl) d Ho Hd)
      by lia.
    f_equal.
    assert (G : forall k s0, bs (fold_left (fun s j => update_field B F update 0 j s) k s0)
                = bs s0).
    { induction k; intros; simpl; auto. rewrite IHk. reflexivity. }
    unfold start. rewrite G. reflexivity.
  Qed.
End Run.

(** ** Beamlines *)
Section Beamlines.
  Variables W X O E : Type.
  Variable new : X.
  Notation element := (element W X O E).
  Notation bl_loop := (bl_loop W X O E).
  Notation beamline := (beamline W X O E new).

  Lemma bl_loop_acc els : forall x w acc,
    bl_loop els x w acc = and_then (Ok w x acc) (fun x w => bl_loop els x w []).
  Proof.
    induction els as [|e r IH]; intros x w acc; simpl.
    - rewrite app_nil_r. reflexivity.
    - destruct e as [w' x' o|]; [|reflexivity].
      rewrite (IH x' w' (acc ++ o)%list), (IH x' w' o). simpl.
      destruct (bl_loop r x' w' []); [|reflexivity].
      rewrite app_assoc. reflexivity.
  Qed.

  Lemma resolve_passed x : resolve_diag new (passed X x) = x.
  Proof. destruct x; reflexivity. Qed.

  Lemma bl_loop_app A B : forall x w acc,
    bl_loop (A ++ B) x w acc =
    match bl_loop A x w acc with
    | Ok w' x' o => bl_loop B x' w' o
    | Exn e w' x' => Exn e w' x'
    end.
  Proof.
    induction A as [|e r IH]; intros x w acc; simpl; auto.
    destruct e as [w' x' o|]; auto.
  Qed.

  Lemma beamline_app A B od w :
    beamline (A ++ B) od w =
    and_then (beamline A od w)
      (fun x w' => beamline B (match x with Some d => Instance d | None => Falsy end) w').
  Proof.
    unfold beamline. rewrite bl_loop_app.
    destruct (bl_loop A (resolve_diag new od) w []) as [w' x' o|]; simpl; auto.
    change (match x' with Some d => Instance d | None => Falsy end) with (passed X x').
    rewrite resolve_passed. apply bl_loop_acc.
  Qed.

  Lemma beamline_cons (e : element) B od w :
    beamline (e :: B) od w =
    and_then (e (passed X (resolve_diag new od)) w)
      (fun x w' => beamline B (passed X x) w').
  Proof.
    unfold beamline. simpl.
    destruct (e (passed X (resolve_diag new od)) w) as [w' x' o|]; simpl; auto.
    rewrite resolve_passed. apply bl_loop_acc.
  Qed.

  Lemma beamline_nested A B od w :
    beamline (beamline A :: B) od w = beamline (A ++ B) od w.
  Proof.
    rewrite beamline_cons, beamline_app. unfold beamline at 1.
    rewrite resolve_passed. reflexivity.
  Qed.

  Lemma beamline_visits els : forall od w r,
    beamline els od w = r <-> visits els (resolve_diag new od) w r.
  Proof.
    intros od w r. unfold beamline. generalize (resolve_diag new od). clear od.
    intros x. split.
    - intros <-. revert x w. induction els as [|e els IH]; intros x w; simpl.
      + constructor.
      + destruct (e (passed X x) w) as [w1 x1 o1|err w1 x1] eqn:E1.
        * rewrite bl_loop_acc. simpl. specialize (IH x1 w1).
          destruct (bl_loop els x1 w1 []).
          -- eapply visits_ok; eauto.
          -- eapply visits_exn; eauto.
        * eapply visits_raise; eauto.
    - induction 1; simpl; auto.
      + change (match x with Some d => Instance d | None => Falsy end) with (passed X x) in H.
        rewrite H, bl_loop_acc. simpl. rewrite IHvisits. reflexivity.
      + change (match x with Some d => Instance d | None => Falsy end) with (passed X x) in H.
        rewrite H, bl_loop_acc. simpl. rewrite IHvisits. reflexivity.
      + change (match x with Some d => Instance d | None => Falsy end) with (passed X x) in H.
        rewrite H. reflexivity.
  Qed.
End Beamlines.

(** ** Beamlines of field elements *)
Section FieldLine.
  Variables B F : Type.
  Variable evolve : F -> B -> Q -> Q -> B.
  Variable update : nat -> F -> list B -> F.
  Variable auto_dt : B -> Q.
  Variable copy : B -> B.
  Variable name : B -> string.
  Variable m : Q.
  Hypothesis Hm : bounded_below auto_dt m.
  Hypothesis Hk : keeps_names name evolve copy.
  Notation fe_at := (fe_at B F evolve update auto_dt copy exact name).
  Notation bl_loop := (bl_loop (world B F) (diag B unit) (entry B) error).

  Lemma profile_upd (els : list (felement F)) i el el' idx : nth_error els i = Some el ->
    fe_length el' = fe_length el -> fe_nout el' = fe_nout el ->
    profile (upd i el' els) idx = profile els idx.
  Proof.
    intros Hi E1 E2. apply map_ext. intros k.
    destruct (Nat.eq_dec i k) as [<-|Hk'].
    - rewrite Hi. rewrite upd_nth_error_same.
      + rewrite E1, E2. reflexivity.
      + apply nth_error_Some. congruence.
    - rewrite upd_nth_error_other; auto.
  Qed.

  Lemma upd_in {A} i (v : A) l x : In x (upd i v l) -> x = v \/ In x l.
  Proof.
    revert i. induction l as [|a l IH]; intros [|i]; simpl; try tauto.
    - intros [<-|H]; auto.
    - intros [<-|H]; auto. destruct (IH _ H); auto.
  Qed.

  Definition wgood (w : world B F) : Prop :=
    (forall el, In el (w_els w) -> good_element (length (w_bunches w)) el) /\
    distinct_names name (w_bunches w).

  Lemma out_lengths fuel bl el od r bs' el' d' :
    good_element (length bl) el ->
    fe_track B F evolve update auto_dt copy exact name fuel (Listed bl) od el
      = Returned r bs' el' d' ->
    length (entries B r) = (if Nat.eqb (length bl) 1 then S (fe_nout el) else length bl).
  Proof.
    intros Hg H. apply returned_inv in H as (l & s & El & Hs & -> & _ & _ & _).
    simpl in *. pose proof (good_cfg B F _ el l Hg El) as Hc.
    destruct (done_Rep _ _ _ _ _ _ _ _ _ _ Hc _ _ Hs) as [Wf _ _ _].
    destruct (dt_list_spec _ _ _ El) as [Ll _].
    assert (Lo : length (out s) = length bl).
    { transitivity (length l); [apply Wf|exact Ll]. }
    destruct (out s) as [|o [|o2 r]] eqn:Eo; simpl in Lo; rewrite <- Lo; simpl; auto.
    - rewrite map_length.
      destruct (outputs_lemma B F evolve update auto_dt copy _ bl (fe_fs el) Hc m Hm exact
                  fuel s 0%nat o exact_mono Hs) as [H1 _].
      { rewrite Eo. reflexivity. }
      destruct (diag_count_lemma B F evolve update auto_dt copy _ bl (fe_fs el) Hc m Hm exact
                  fuel s exact_mono Hs) as (n & _ & [H2 _] & H3).
      assert (Hnd : (0 < fe_nout el)%nat) by apply Hg.
      assert (Hp : 0 < dt_diags (tracker_config F el l)) by (eapply dtdiag_pos; eassumption).
      unfold dt_diags in Hp.
      assert (En : n = fe_nout el) by (apply H3; unfold exact; lra).
      lia.
    - rewrite map_length. reflexivity.
  Qed.

  Lemma line_diag idx : forall d w, dinv B unit d -> wgood w ->
    (forall i, In i idx -> (i < length (w_els w))%nat) ->
    exists N w' d' o, forall fuel, (N <= fuel)%nat ->
      bl_loop (map (fe_at fuel) idx) (Some d) w [] = Ok w' (Some d') o /\
      dinv B unit d' /\ wgood w' /\
      map name (w_bunches w') = map name (w_bunches w) /\
      z_pos d' == z_pos d + Qsum (map fst (profile (w_els w) idx)) /\
      length o = shape_len (length (w_bunches w)) (profile (w_els w) idx) /\
      exists fl, files d' = (files d ++ fl)%list /\
        Qeqs (map f_time fl) (expected_times (z_pos d) (profile (w_els w) idx)) /\
        Forall (fun f => f_zoff f = map (fun _ => f_time f * c_light) (f_species f)) fl /\
        Forall (fun f => map name (f_species f) = map name (w_bunches w)) fl.
  Proof.
    induction idx as [|i idx IH]; intros d w Hd Hw Hi; simpl.
    - exists 0%nat, w, d, []. intros fuel _. split; [reflexivity|].
      split; [exact Hd|]. split; [exact Hw|]. split; [reflexivity|].
      split; [simpl; lra|]. split; [reflexivity|].
      exists []. rewrite app_nil_r. repeat split; auto. constructor.
    - destruct (nth_error (w_els w) i) as [el|] eqn:Ei.
      2:{ exfalso. apply nth_error_None in Ei. specialize (Hi i (or_introl eq_refl)). lia. }
      destruct Hw as [Hw1 Hw2].
      pose proof (Hw1 el (nth_error_In _ _ Ei)) as Hg.
      destruct (fe_returns B F evolve update auto_dt copy name m Hm
                  (Listed (w_bunches w)) (Instance d) el Hg Hk (or_introl Hw2))
        as (N1 & r & bs' & el' & d1' & H1).
      pose proof (H1 N1 (le_n _)) as H1N.
      destruct (fe_diag B F evolve update auto_dt copy name m Hm N1 (Listed (w_bunches w)) d el
                  r bs' el' d1' Hg Hk Hw2 H1N) as (d1 & fl1 & -> & Z1 & D1 & F1 & T1 & _ & O1 & S1).
      destruct (fe_static B F evolve update auto_dt copy name N1 (Listed (w_bunches w))
                  (Instance d) el r bs' el' (Some d1) Hg H1N) as (L1 & G1 & P1 & P2).
      pose proof (fe_names B F evolve update auto_dt copy name N1 (Listed (w_bunches w))
                  (Instance d) el r bs' el' (Some d1) Hg Hk H1N) as M1.
      pose proof (out_lengths N1 (w_bunches w) el (Instance d) r bs' el' (Some d1) Hg H1N) as LO.
      simpl in L1, M1, S1.
      set (w1 := {| w_bunches := bs'; w_els := upd i el' (w_els w) |}).
      assert (Hw' : wgood w1).
      { split; simpl.
        - intros e He. apply upd_in in He as [->|He]; auto. rewrite L1. auto.
        - unfold distinct_names in *. rewrite M1. exact Hw2. }
      destruct (IH d1 w1 (D1 Hd) Hw') as (N2 & w2 & d2 & o2 & H2).
      { intros k Hk'. simpl. rewrite upd_length. apply Hi. right; auto. }
      assert (Pr : profile (w_els w1) idx = profile (w_els w) idx).
      { simpl. apply (profile_upd _ _ el); auto. }
      exists (Nat.max N1 N2), w2, d2, (entries B r ++ o2)%list. intros fuel Hf.
      destruct (H2 fuel ltac:(lia)) as (R1 & R2 & R3 & R4 & R5 & R6 & fl2 & R7 & R8 & R9 & R10).
      rewrite Pr in R5, R6, R8. simpl in R4, R6, R10.
      split.
      { unfold fe_at at 1. rewrite Ei. simpl. rewrite (H1 fuel ltac:(lia)).
        rewrite bl_loop_acc. simpl. unfold w1 in R1. rewrite R1. reflexivity. }
      split; [exact R2|]. split; [exact R3|]. split; [rewrite R4; exact M1|].
      split.
      { simpl. rewrite R5, Z1. lra. }
      split.
      { rewrite app_length, R6, LO, L1. simpl. reflexivity. }
      exists (fl1 ++ fl2)%list. split; [rewrite R7, F1, app_assoc; reflexivity|].
      split.
      { rewrite map_app.
        change (Qeqs (map f_time fl1 ++ map f_time fl2)%list
          (expected_times (z_pos d) ((fe_length el, fe_nout el) :: profile (w_els w) idx))).
        unfold expected_times in T1. rewrite app_nil_r in T1. simpl expected_times.
        rewrite app_comm_cons.
        apply Qeqs_app; [exact T1|]. eapply Qeqs_trans; [exact R8|].
        apply expected_times_compat. exact Z1. }
      split.
      { apply Forall_app; auto. }
      apply Forall_app. split; auto.
      apply Forall_forall. intros f Hf'. rewrite Forall_forall in R10. rewrite R10; auto.
  Qed.
End FieldLine.
