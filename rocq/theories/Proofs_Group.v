(** Two tracking runs whose bunches correspond to each other: every bunch of the second run is (a
    part of) a bunch of the first one (Model_Tracker). *)
From Coq Require Import QArith Qround List Bool Arith ZArith Lia Lqa.
From Verif Require Import Model_Tracker Spec_Tracker Proofs_Tracker Spec_Run Proofs_Solo.
Import ListNotations.
Open Scope Q_scope.

Section Cells.
  Variables B F : Type.
  Variable evolve : F -> B -> Q -> Q -> B.
  Variable update : nat -> F -> list B -> F.
  Variable auto_dt : B -> Q.
  Variable copy : B -> B.
  Variable rnd : Q -> Q.
  Variable c : config.
  Notation state := (state B F).
  Notation step := (step B F evolve update auto_dt copy rnd).
  Notation loop := (loop B F evolve update auto_dt copy rnd).
  Notation wf := (wfs B F c).
  Notation tm := (tm B F).
  Notation dm := (dm B F).
  Notation push := (push B F evolve auto_dt rnd c).

  (** What concerns one bunch: the bunch, its clock, its step, the pushes done. *)
  Definition cell_t : Type := (option B * Q * Q * list (Q * Q))%type.
  Definition cell (s : state) (i : nat) : cell_t :=
    (nth_error (bs s) i, tm s i, dm s i, pushes i (log s)).
  Definition key (x : cell_t) : Q := rnd (snd (fst (fst x)) + snd (fst x)).
  Definition nxt (i : nat) (f : F) (x : cell_t) : cell_t :=
    match x with
    | (Some b, t, d, l) => let b' := evolve f b t d in (Some b', t + d, newdt B auto_dt rnd c i b' d (t + d), l ++ [(t, d)])
    | _ => x
    end.
  Fixpoint it (n : nat) (i : nat) (f : F) (x : cell_t) : cell_t :=
    match n with O => x | S m => it m i f (nxt i f x) end.
  (** A time at which a bunch with this time is pushed before the fields and outputs are treated. *)
  Definition lim (s : state) (q : Q) : Prop :=
    q <= rnd (c_tfinal c) /\ forall k, (nb c <= k < nobj c)%nat -> q <= rnd (tm s k + dm s k).
  Definition runs (s : state) (i : nat) (n : nat) (x : cell_t) : Prop :=
    (forall m, (m < n)%nat -> lim s (key (it m i (fs s) x))) /\ ~ lim s (key (it n i (fs s) x)).
  Record rest (s e : state) : Prop := {
    k_t : forall k, (nb c <= k)%nat -> tm e k = tm s k;
    k_d : forall k, (nb c <= k)%nat -> dm e k = dm s k;
    k_f : fs e = fs s;
    k_o : out e = out s;
    k_ft : forall j, field_times j (log e) = field_times j (log s);
    k_dt : diag_times (log e) = diag_times (log s) }.
  Lemma rest_refl s : rest s s.
  Proof. split; reflexivity. Qed.
  Lemma rest_trans s e g : rest s e -> rest e g -> rest s g.
  Proof.
    intros [A1 A2 A3 A4 A5 A6] [B1 B2 B3 B4 B5 B6]. split; intros;
      rewrite ?B1, ?B2, ?B3, ?B4, ?B5, ?B6 by assumption; auto.
  Qed.
  Lemma lim_rest s e q : rest s e -> lim e q <-> lim s q.
  Proof.
    intros R. unfold lim. split; intros [H1 H2]; (split; [exact H1|]); intros k Hk; specialize (H2 k Hk).
    - rewrite <- (k_t _ _ R), <- (k_d _ _ R) by lia. exact H2.
    - rewrite (k_t _ _ R), (k_d _ _ R) by lia. exact H2.
  Qed.
  Lemma cell_key s i : key (cell s i) = rnd (tm s i + dm s i).
  Proof. reflexivity. Qed.

  Lemma push_cells s i : wf s -> (i < nb c)%nat ->
    let e := push false i (tm s i + dm s i) (dm s i) s in
    wf e /\ rest s e /\ cell e i = nxt i (fs s) (cell s i) /\ forall k, k <> i -> cell e k = cell s k.
  Proof.
    intros W Hi e. pose proof (push_wf B F evolve auto_dt rnd c false i (tm s i + dm s i) (dm s i) s W Hi) as W'.
    split; [exact W'|].
    destruct (push_eff B F evolve auto_dt rnd c false i (tm s i + dm s i) (dm s i) s W Hi) as (b & b' & Hb & Hb' & E).
    fold e in E. clearbody e. pose proof (nb_le_nobj c) as Hn.
    assert (L1 : (i < length (tobj s))%nat) by (rewrite (w_t _ _ _ _ W); lia).
    assert (L2 : (i < length (dtobj s))%nat) by (rewrite (w_d _ _ _ _ W); lia).
    assert (L3 : (i < length (bs s))%nat) by (rewrite (w_b _ _ _ _ W); lia).
    assert (To : forall k, tm e k = if Nat.eqb k i then tm s i + dm s i else tm s k).
    { intros k. rewrite E. unfold Proofs_Tracker.tm at 1; cbn [tobj]. rewrite upd_other_eq.
      destruct (Nat.eqb k i); [|reflexivity]. destruct (Nat.ltb_spec i (length (tobj s))); [reflexivity|lia]. }
    assert (Do : forall k, dm e k = if Nat.eqb k i then newdt B auto_dt rnd c i b' (dm s i) (tm s i + dm s i) else dm s k).
    { intros k. rewrite E. unfold Proofs_Tracker.dm at 1; cbn [dtobj]. rewrite upd_other_eq.
      destruct (Nat.eqb k i); [|reflexivity]. destruct (Nat.ltb_spec i (length (dtobj s))); [reflexivity|lia]. }
    split; [|split].
    - split.
      + intros k Hk. rewrite To. destruct (Nat.eqb_spec k i); [lia|reflexivity].
      + intros k Hk. rewrite Do. destruct (Nat.eqb_spec k i); [lia|reflexivity].
      + rewrite E. reflexivity.
      + rewrite E. reflexivity.
      + intros j. rewrite E. cbn [log]. rewrite field_times_app. cbn [field_times]. apply app_nil_r.
      + rewrite E. cbn [log]. rewrite diag_times_app. cbn [diag_times]. apply app_nil_r.
    - unfold cell. rewrite To, Do, Nat.eqb_refl, E. cbn [bs log]. rewrite nth_error_upd, Nat.eqb_refl.
      destruct (Nat.ltb_spec i (length (bs s))); [|lia]. rewrite Hb. cbn [nxt]. rewrite <- Hb'.
      rewrite pushes_app. cbn [pushes]. rewrite Nat.eqb_refl. reflexivity.
    - intros k Hk. unfold cell. rewrite To, Do, E. cbn [bs log]. rewrite nth_error_upd.
      destruct (Nat.eqb_spec k i); [contradiction|]. rewrite pushes_app. cbn [pushes].
      destruct (Nat.eqb_spec i k); [lia|]. rewrite app_nil_r. reflexivity.
  Qed.

  (** What a run does until it treats a field or an output, or ends. *)
  Lemma phase fuel : forall s r, wf s -> loop fuel c s = Done r ->
    exists e fuel1 n, wf e /\ (fuel1 <= fuel)%nat /\ loop fuel1 c e = Done r /\ rest s e /\
      (forall k, (k < nb c)%nat -> ~ lim e (key (cell e k))) /\
      forall k, (k < nb c)%nat -> runs s k (n k) (cell s k) /\ cell e k = it (n k) k (fs s) (cell s k).
  Proof.
    induction fuel as [|fuel IH]; intros s r W H; [discriminate|].
    assert (Now : (forall k, (k < nb c)%nat -> ~ lim s (key (cell s k))) ->
      exists e fuel1 n, wf e /\ (fuel1 <= S fuel)%nat /\ loop fuel1 c e = Done r /\ rest s e /\
      (forall k, (k < nb c)%nat -> ~ lim e (key (cell e k))) /\
      forall k, (k < nb c)%nat -> runs s k (n k) (cell s k) /\ cell e k = it (n k) k (fs s) (cell s k)).
    { intros Q. exists s, (S fuel), (fun _ => O). split; [exact W|]. split; [lia|]. split; [exact H|].
      split; [apply rest_refl|]. split; [exact Q|]. intros k Hk. split; [|reflexivity].
      split; [intros m Hm; lia|exact (Q k Hk)]. }
    cbn [Model_Tracker.loop] in H.
    destruct (step c s) as [s'|s'|e s'] eqn:E; [|injection H as <-|discriminate].
    - pose proof (step_inv B F evolve update auto_dt copy rnd c s s' W E) as St.
      destruct St as [i tn Hi Et Hle Hlt Hf|j tn Hj Et Hle Hlt Hf|tn Hdg Et Hle Hlt Hf].
      + subst tn. destruct (push_cells s i W Hi) as (W' & R & C1 & C2).
        set (s' := push false i (tm s i + dm s i) (dm s i) s) in *.
        destruct (IH s' r W' H) as (g & fuel1 & n & Wg & Hf1 & Hl & Rg & Qg & Cg).
        exists g, fuel1, (fun k => if Nat.eqb k i then S (n k) else n k).
        split; [exact Wg|]. split; [lia|]. split; [exact Hl|]. split; [eapply rest_trans; eassumption|].
        split; [exact Qg|]. intros k Hk. destruct (Cg k Hk) as [[G1 G2] G3]. rewrite (k_f _ _ R) in G1, G2, G3.
        destruct (Nat.eqb_spec k i) as [->|Hne].
        * rewrite C1 in G1, G2, G3. split; [|exact G3]. split.
          -- intros [|m] Hm; cbn [it].
             ++ split; [exact Hf|]. intros q Hq. rewrite cell_key. apply Hle. lia.
             ++ apply (lim_rest s s' _ R), G1. lia.
          -- cbn [it]. intros Hx. apply G2, (lim_rest s s' _ R), Hx.
        * rewrite C2 in G1, G2, G3 by exact Hne. split; [|exact G3]. split.
          -- intros m Hm. apply (lim_rest s s' _ R), G1, Hm.
          -- intros Hx. apply G2, (lim_rest s s' _ R), Hx.
      + apply Now. intros k Hk [_ L]. specialize (L (nb c + j)%nat).
        assert (Hb : (nb c <= nb c + j < nobj c)%nat).
        { unfold nobj. rewrite objects_length. unfold nb, nf in *. lia. }
        specialize (L Hb). specialize (Hlt k ltac:(lia)). rewrite cell_key in L. subst tn. lra.
      + apply Now. intros k Hk [_ L]. specialize (L (nb c + nf c)%nat).
        assert (Hb : (nb c <= nb c + nf c < nobj c)%nat).
        { unfold nobj. rewrite objects_length. unfold nb, nf in *. destruct (Nat.ltb_spec 0 (c_ndiags c)); lia. }
        specialize (L Hb). specialize (Hlt k ltac:(lia)). rewrite cell_key in L. subst tn. lra.
    - destruct (step_done B F evolve update auto_dt copy rnd c s s' W E) as [-> Hall].
      apply Now. intros k Hk [L _]. specialize (Hall k ltac:(pose proof (nb_le_nobj c); lia)).
      rewrite cell_key in L. unfold Tf in Hall. lra.
  Qed.

  Fixpoint total (n : nat -> nat) (m : nat) : nat := match m with O => O | S q => (total n q + n q)%nat end.
  Lemma total_pos n m : (0 < total n m)%nat -> exists i, (i < m)%nat /\ (0 < n i)%nat.
  Proof.
    induction m as [|m IH]; cbn [total]; [lia|]. intros H. destruct (n m) eqn:E.
    - destruct IH as (i & Hi & Hn); [lia|]. exists i. split; [lia|exact Hn].
    - exists m. split; [lia|]. lia.
  Qed.
  Lemma total_0 n m : total n m = O -> forall i, (i < m)%nat -> n i = O.
  Proof.
    induction m as [|m IH]; cbn [total]; intros H i Hi; [lia|].
    destruct (Nat.eq_dec i m) as [->|]; [lia|]. apply IH; lia.
  Qed.
  Lemma total_less n m i : (i < m)%nat -> (0 < n i)%nat ->
    total n m = S (total (fun k => if Nat.eqb k i then pred (n k) else n k) m).
  Proof.
    induction m as [|m IH]; intros Hi Hn; [lia|]. cbn [total].
    assert (Ex : forall q, (q <= i)%nat -> total (fun k => if Nat.eqb k i then pred (n k) else n k) q = total n q).
    { induction q as [|q IHq]; intros Hq; [reflexivity|]. cbn [total]. rewrite IHq by lia.
      destruct (Nat.eqb_spec q i); [lia|reflexivity]. }
    destruct (Nat.eq_dec i m) as [->|Hne].
    - rewrite Ex by lia. rewrite Nat.eqb_refl. lia.
    - rewrite (IH ltac:(lia) Hn). destruct (Nat.eqb_spec m i); [lia|]. lia.
  Qed.

  (** A run in which every bunch has a known number of pushes left before the next field or output
      does them all, in some order. *)
  Lemma catch_up m : forall s n, wf s -> total n (nb c) = m ->
    (forall i, (i < nb c)%nat -> runs s i (n i) (cell s i)) ->
    exists e, wf e /\ (forall fuel, loop (m + fuel) c s = loop fuel c e) /\ rest s e /\
      forall i, (i < nb c)%nat -> cell e i = it (n i) i (fs s) (cell s i).
  Proof.
    induction m as [|m IH]; intros s n W Hm Hr.
    - exists s. split; [exact W|]. split; [reflexivity|]. split; [apply rest_refl|].
      intros i Hi. rewrite (total_0 n _ Hm i Hi). reflexivity.
    - destruct (total_pos n (nb c) ltac:(lia)) as (i & Hi & Hn).
      pose proof (nb_le_nobj c) as Hnb.
      assert (Li : lim s (key (cell s i))) by (destruct (Hr i Hi) as [H1 _]; apply (H1 O Hn)).
      destruct (argmin (map rnd (vadd (tobj s) (dtobj s)))) as [k|] eqn:E.
      2:{ apply argmin_none in E. apply (f_equal (@length Q)) in E. rewrite map_length, vadd_length in E.
          - rewrite (w_t _ _ _ _ W) in E. cbn in E. lia.
          - rewrite (w_t _ _ _ _ W), (w_d _ _ _ _ W). reflexivity. }
      destruct (step_min B F rnd c s k W E) as (Hk & _ & Hmin & Hfirst).
      assert (Hki : rnd (tm s k + dm s k) <= rnd (tm s i + dm s i)) by (apply Hmin; lia).
      assert (Kb : (k < nb c)%nat).
      { destruct (Nat.lt_ge_cases k (nb c)) as [|Hge]; [assumption|exfalso].
        destruct Li as [_ Li]. specialize (Li k ltac:(lia)). rewrite cell_key in Li.
        specialize (Hfirst i ltac:(lia)). lra. }
      assert (Lk : lim s (key (cell s k))).
      { destruct Li as [L1 L2]. rewrite cell_key in *. split; [lra|]. intros q Hq. specialize (L2 q Hq). lra. }
      assert (Nk : (0 < n k)%nat).
      { destruct (n k) eqn:En; [|lia]. destruct (Hr k Kb) as [_ H2]. rewrite En in H2. contradiction. }
      assert (St : step c s = Continue (push false k (tm s k + dm s k) (dm s k) s)).
      { rewrite (step_pick B F evolve update auto_dt copy rnd c s k W Hk Hmin Hfirst).
        - rewrite objects_bunch by exact Kb. reflexivity.
        - apply Lk. }
      destruct (push_cells s k W Kb) as (W' & R & C1 & C2).
      set (s' := push false k (tm s k + dm s k) (dm s k) s) in *.
      set (n' := fun q => if Nat.eqb q k then pred (n q) else n q).
      destruct (IH s' n') as (e & We & Hl & Re & Ce).
      + exact W'.
      + rewrite (total_less n (nb c) k Kb Nk) in Hm. unfold n'. lia.
      + intros q Hq. destruct (Hr q Hq) as [G1 G2]. unfold n'.
        destruct (Nat.eqb_spec q k) as [->|Hne].
        * rewrite C1. split; rewrite (k_f _ _ R).
          -- intros j Hj. apply (lim_rest s s' _ R). apply (G1 (S j)). lia.
          -- intros Hx. apply (lim_rest s s' _ R) in Hx. apply G2. destruct (n k); [lia|]. exact Hx.
        * rewrite C2 by exact Hne. split; rewrite (k_f _ _ R).
          -- intros j Hj. apply (lim_rest s s' _ R), G1, Hj.
          -- intros Hx. apply (lim_rest s s' _ R) in Hx. apply G2, Hx.
      + exists e. split; [exact We|]. split.
        { intros fuel. cbn [Nat.add Model_Tracker.loop]. rewrite St. apply Hl. }
        split; [eapply rest_trans; eassumption|]. intros q Hq. rewrite (Ce q Hq), (k_f _ _ R). unfold n'.
        destruct (Nat.eqb_spec q k) as [->|Hne].
        * rewrite C1. destruct (n k); [lia|]. reflexivity.
        * rewrite C2 by exact Hne. reflexivity.
  Qed.

  (** The push of a bunch to the time [tn] of an output. *)
  Definition syn (i : nat) (tn : Q) (f : F) (x : cell_t) : cell_t :=
    match x with
    | (Some b, t, d, l) => let b' := evolve f b t (tn - t) in (Some b', t + (tn - t), newdt B auto_dt rnd c i b' d tn, l ++ [(t, tn - t)])
    | _ => x
    end.
  Lemma sync_cells tn s n : wf s -> (n <= nb c)%nat ->
    let e := sync_upto B F evolve auto_dt rnd c n tn s in
    wf e /\ rest s e /\ forall k, cell e k = if Nat.ltb k n then syn k tn (fs s) (cell s k) else cell s k.
  Proof.
    intros W. induction n as [|n IH]; intros Hn.
    - split; [exact W|]. split; [apply rest_refl|]. reflexivity.
    - destruct IH as (W1 & R1 & C1); [lia|]. cbv zeta. rewrite sync_S.
      set (u := sync_upto B F evolve auto_dt rnd c n tn s) in *.
      assert (Hi : (n < nb c)%nat) by lia.
      pose proof (push_wf B F evolve auto_dt rnd c true n tn (tn - tm u n) u W1 Hi) as W'.
      split; [exact W'|].
      destruct (push_eff B F evolve auto_dt rnd c true n tn (tn - tm u n) u W1 Hi) as (b & b' & Hb & Hb' & E).
      set (e := push true n tn (tn - tm u n) u) in *. clearbody e. pose proof (nb_le_nobj c) as Hno.
      assert (L1 : (n < length (tobj u))%nat) by (rewrite (w_t _ _ _ _ W1); lia).
      assert (L2 : (n < length (dtobj u))%nat) by (rewrite (w_d _ _ _ _ W1); lia).
      assert (L3 : (n < length (bs u))%nat) by (rewrite (w_b _ _ _ _ W1); lia).
      assert (To : forall k, tm e k = if Nat.eqb k n then tm u n + (tn - tm u n) else tm u k).
      { intros k. rewrite E. unfold Proofs_Tracker.tm at 1; cbn [tobj]. rewrite upd_other_eq.
        destruct (Nat.eqb k n); [|reflexivity]. destruct (Nat.ltb_spec n (length (tobj u))); [reflexivity|lia]. }
      assert (Do : forall k, dm e k = if Nat.eqb k n then newdt B auto_dt rnd c n b' (dm u n) tn else dm u k).
      { intros k. rewrite E. unfold Proofs_Tracker.dm at 1; cbn [dtobj]. rewrite upd_other_eq.
        destruct (Nat.eqb k n); [|reflexivity]. destruct (Nat.ltb_spec n (length (dtobj u))); [reflexivity|lia]. }
      assert (R2 : rest u e).
      { split.
        + intros k Hk. rewrite To. destruct (Nat.eqb_spec k n); [lia|reflexivity].
        + intros k Hk. rewrite Do. destruct (Nat.eqb_spec k n); [lia|reflexivity].
        + rewrite E. reflexivity.
        + rewrite E. reflexivity.
        + intros j. rewrite E. cbn [log]. rewrite field_times_app. cbn [field_times]. apply app_nil_r.
        + rewrite E. cbn [log]. rewrite diag_times_app. cbn [diag_times]. apply app_nil_r. }
      split; [eapply rest_trans; eassumption|]. intros k.
      assert (Cn : forall k, k <> n -> cell e k = cell u k).
      { intros q Hq. unfold cell. rewrite To, Do, E. cbn [bs log]. rewrite nth_error_upd.
        destruct (Nat.eqb_spec q n); [contradiction|]. rewrite pushes_app. cbn [pushes].
        destruct (Nat.eqb_spec n q); [lia|]. rewrite app_nil_r. reflexivity. }
      destruct (Nat.eq_dec k n) as [->|Hne].
      + destruct (Nat.ltb_spec n (S n)); [|lia]. specialize (C1 n).
        destruct (Nat.ltb_spec n n); [lia|]. rewrite <- C1.
        unfold cell. rewrite To, Do, Nat.eqb_refl, E. cbn [bs log]. rewrite nth_error_upd, Nat.eqb_refl.
        destruct (Nat.ltb_spec n (length (bs u))); [|lia]. rewrite Hb. cbn [syn].
        rewrite <- (k_f _ _ R1), <- Hb', pushes_app. cbn [pushes]. rewrite Nat.eqb_refl. reflexivity.
      + rewrite Cn by exact Hne. rewrite C1.
        destruct (Nat.ltb_spec k n), (Nat.ltb_spec k (S n)); lia || reflexivity.
  Qed.
End Cells.

(** * Two runs *)
Section Group.
  Variables B F : Type.
  Variable evolve : F -> B -> Q -> Q -> B.
  Variable update : nat -> F -> list B -> F.
  Variable auto_dt : B -> Q.
  Variable copy : B -> B.
  Variable rnd : Q -> Q.
  Variable c : config.
  Variable steps : list (option Q).
  Let c' := with_steps steps c.
  (** Bunch [i] of the second run belongs to bunch [p i] of the first. *)
  Variable p : nat -> nat.
  Hypothesis Hp : forall i, (i < nb c')%nat -> (p i < nb c)%nat /\ nth_error steps i = nth_error (c_dtb c) (p i).
  Hypothesis Hnb : (0 < nb c)%nat -> (0 < nb c')%nat.
  Variable Rp : nat -> B -> B -> Prop.
  Variable Rf : F -> F -> Prop.
  Hypothesis HE : forall i f f' b b' t d, (i < nb c')%nat -> Rf f f' -> Rp i b b' ->
    Rp i (evolve f b t d) (evolve f' b' t d).
  Hypothesis HU : forall j f f' l l', length l = nb c -> length l' = nb c' ->
    (forall i b b', nth_error l (p i) = Some b -> nth_error l' i = Some b' -> Rp i b b') ->
    Rf f f' -> Rf (update j f l) (update j f' l').
  Hypothesis HC : forall i b b', (i < nb c')%nat -> Rp i b b' -> Rp i (copy b) (copy b').
  Hypothesis HA : forall i b b', (i < nb c')%nat -> is_auto c' i = true -> Rp i b b' -> auto_dt b = auto_dt b'.

  Notation state := (state B F).
  Notation step := (step B F evolve update auto_dt copy rnd).
  Notation loop := (loop B F evolve update auto_dt copy rnd).
  Notation tm := (tm B F).
  Notation dm := (dm B F).
  Notation cell := (cell B F).
  Notation key := (key B rnd).
  Notation nxt := (nxt B F evolve auto_dt rnd).
  Notation it := (it B F evolve auto_dt rnd).
  Notation syn := (syn B F evolve auto_dt rnd).
  Notation lim := (lim B F rnd).
  Notation rest := (rest B F).
  Notation update_field := (update_field B F update).
  Notation generate_diagnostics := (generate_diagnostics B F copy).
  Notation advance := (advance B F).

  Definition crel (i : nat) (x x' : cell_t B) : Prop :=
    exists b b' t d l, x = (Some b, t, d, l) /\ x' = (Some b', t, d, l) /\ Rp i b b'.
  Record grel (s s' : state) : Prop := {
    g_wf : wfs B F c s;
    g_wf' : wfs B F c' s';
    g_t : forall k, tm s (nb c + k) = tm s' (nb c' + k);
    g_d : forall k, dm s (nb c + k) = dm s' (nb c' + k);
    g_f : Rf (fs s) (fs s');
    g_c : forall i, (i < nb c')%nat -> crel i (cell s (p i)) (cell s' i);
    g_o : forall i, (i < nb c')%nat -> exists o o', nth_error (out s) (p i) = Some o /\
            nth_error (out s') i = Some o' /\ Forall2 (Rp i) o o';
    g_ft : forall j, field_times j (log s) = field_times j (log s');
    g_dt : diag_times (log s) = diag_times (log s') }.

  Lemma nobj_more k : (nb c + k < nobj c)%nat <-> (nb c' + k < nobj c')%nat.
  Proof.
    unfold nobj. rewrite !objects_length. unfold nb, n_fields, c'. cbn [with_steps c_fields c_ndiags]. lia.
  Qed.
  Lemma auto_eq i : (i < nb c')%nat -> is_auto c' i = is_auto c (p i).
  Proof. intros Hi. unfold is_auto. cbn [c' with_steps c_dtb]. rewrite (proj2 (Hp i Hi)). reflexivity. Qed.
  Lemma newdt_rel i b b' d tn : (i < nb c')%nat -> Rp i b b' ->
    newdt B auto_dt rnd c (p i) b d tn = newdt B auto_dt rnd c' i b' d tn.
  Proof.
    intros Hi HR. unfold newdt. rewrite <- (auto_eq i Hi).
    destruct (is_auto c' i) eqn:E; [|reflexivity]. rewrite (HA i b b' Hi E HR). reflexivity.
  Qed.
  Lemma crel_nxt i f f' x x' : (i < nb c')%nat -> Rf f f' -> crel i x x' ->
    crel i (nxt c (p i) f x) (nxt c' i f' x').
  Proof.
    intros Hi Hf (b & b' & t & d & l & -> & -> & HR). cbn [Proofs_Group.nxt].
    rewrite (newdt_rel i _ _ _ _ Hi (HE i f f' b b' t d Hi Hf HR)).
    do 5 eexists. split; [reflexivity|]. split; [reflexivity|]. apply HE; assumption.
  Qed.
  Lemma crel_it i f f' n : forall x x', (i < nb c')%nat -> Rf f f' -> crel i x x' ->
    crel i (it c n (p i) f x) (it c' n i f' x').
  Proof.
    induction n as [|n IH]; intros x x' Hi Hf HR; cbn [Proofs_Group.it]; [exact HR|].
    apply IH; [exact Hi|exact Hf|]. apply crel_nxt; assumption.
  Qed.
  Lemma crel_syn i tn f f' x x' : (i < nb c')%nat -> Rf f f' -> crel i x x' ->
    crel i (syn c (p i) tn f x) (syn c' i tn f' x').
  Proof.
    intros Hi Hf (b & b' & t & d & l & -> & -> & HR). cbn [Proofs_Group.syn].
    rewrite (newdt_rel i _ _ _ _ Hi (HE i f f' b b' t (tn - t) Hi Hf HR)).
    do 5 eexists. split; [reflexivity|]. split; [reflexivity|]. apply HE; assumption.
  Qed.
  Lemma crel_key i x x' : crel i x x' -> key x = key x'.
  Proof. intros (b & b' & t & d & l & -> & -> & _). reflexivity. Qed.

  Lemma lim_rel s s' q : grel s s' -> lim c s q <-> lim c' s' q.
  Proof.
    intros G. unfold Proofs_Group.lim. cbn [c' with_steps c_tfinal]. fold c'.
    split; intros [H1 H2]; (split; [exact H1|]); intros k Hk.
    - pose proof (nobj_more (k - nb c')) as M. replace (nb c' + (k - nb c'))%nat with k in M by lia.
      specialize (H2 (nb c + (k - nb c'))%nat ltac:(lia)).
      rewrite (g_t _ _ G), (g_d _ _ G) in H2. replace (nb c' + (k - nb c'))%nat with k in H2 by lia. exact H2.
    - pose proof (nobj_more (k - nb c)) as M. replace (nb c + (k - nb c))%nat with k in M by lia.
      specialize (H2 (nb c' + (k - nb c))%nat ltac:(lia)).
      rewrite <- (g_t _ _ G), <- (g_d _ _ G) in H2. replace (nb c + (k - nb c))%nat with k in H2 by lia. exact H2.
  Qed.

  Lemma grel_rest s s' e e' : grel s s' -> rest c s e -> rest c' s' e' -> wfs B F c e -> wfs B F c' e' ->
    (forall i, (i < nb c')%nat -> crel i (cell e (p i)) (cell e' i)) -> grel e e'.
  Proof.
    intros G R R' W W' HC'. split; try assumption.
    - intros k. rewrite (k_t _ _ _ _ _ R), (k_t _ _ _ _ _ R') by lia. apply (g_t _ _ G).
    - intros k. rewrite (k_d _ _ _ _ _ R), (k_d _ _ _ _ _ R') by lia. apply (g_d _ _ G).
    - rewrite (k_f _ _ _ _ _ R), (k_f _ _ _ _ _ R'). apply (g_f _ _ G).
    - rewrite (k_o _ _ _ _ _ R), (k_o _ _ _ _ _ R'). apply (g_o _ _ G).
    - intros j. rewrite (k_ft _ _ _ _ _ R), (k_ft _ _ _ _ _ R'). apply (g_ft _ _ G).
    - rewrite (k_dt _ _ _ _ _ R), (k_dt _ _ _ _ _ R'). apply (g_dt _ _ G).
  Qed.
  Lemma grel_parts s s' : grel s s' -> forall i b b',
    nth_error (bs s) (p i) = Some b -> nth_error (bs s') i = Some b' -> Rp i b b'.
  Proof.
    intros G i b b' Hb Hb'.
    assert (Hi : (i < nb c')%nat) by (rewrite <- (w_b _ _ _ _ (g_wf' _ _ G)); apply nth_error_Some; congruence).
    destruct (g_c _ _ G i Hi) as (a & a' & t & d & l & Ea & Ea' & HR). unfold Proofs_Group.cell in Ea, Ea'.
    injection Ea as Ea _ _ _. injection Ea' as Ea' _ _ _. congruence.
  Qed.
  Lemma grel_update tn j s s' : grel s s' -> grel (update_field tn j s) (update_field tn j s').
  Proof.
    intros G. split; cbn [bs fs out log Model_Tracker.update_field]; try (apply G).
    - apply update_wf, G.
    - apply update_wf, G.
    - apply HU; [apply G|apply G|apply grel_parts, G|apply G].
    - intros i Hi. destruct (g_c _ _ G i Hi) as (a & a' & t & d & l & Ea & Ea' & HR).
      unfold Proofs_Group.cell in *. cbn [bs log Model_Tracker.update_field]. rewrite !pushes_app. cbn [pushes].
      rewrite !app_nil_r. exists a, a', t, d, l. split; [exact Ea|]. split; [exact Ea'|exact HR].
    - intros q. rewrite !field_times_app, (g_ft _ _ G q). reflexivity.
    - rewrite !diag_times_app. cbn [diag_times]. rewrite !app_nil_r. apply G.
  Qed.
  Lemma grel_diag tn s s' : grel s s' -> grel (generate_diagnostics tn s) (generate_diagnostics tn s').
  Proof.
    intros G. split; cbn [bs fs out log Model_Tracker.generate_diagnostics]; try (apply G).
    - apply diag_wf, G.
    - apply diag_wf, G.
    - intros i Hi. destruct (g_c _ _ G i Hi) as (a & a' & t & d & l & Ea & Ea' & HR).
      unfold Proofs_Group.cell in *. cbn [bs log Model_Tracker.generate_diagnostics]. rewrite !pushes_app.
      cbn [pushes]. rewrite !app_nil_r. exists a, a', t, d, l. split; [exact Ea|]. split; [exact Ea'|exact HR].
    - intros i Hi. destruct (g_c _ _ G i Hi) as (a & a' & t & d & l & Ea & Ea' & HR).
      unfold Proofs_Group.cell in Ea, Ea'. injection Ea as Ea _ _ _. injection Ea' as Ea' _ _ _.
      destruct (g_o _ _ G i Hi) as (o & o' & Ho & Ho' & HO).
      rewrite !nth_error_append_out.
      + rewrite Ho, Ho', Ea, Ea'. do 2 eexists. split; [reflexivity|]. split; [reflexivity|].
        apply Forall2_app; [exact HO|]. constructor; [|constructor]. apply HC; assumption.
      + rewrite (w_o _ _ _ _ (g_wf' _ _ G)), (w_b _ _ _ _ (g_wf' _ _ G)). reflexivity.
      + rewrite (w_o _ _ _ _ (g_wf _ _ G)), (w_b _ _ _ _ (g_wf _ _ G)). reflexivity.
    - intros q. rewrite !field_times_app. cbn [field_times]. rewrite !app_nil_r. apply G.
    - rewrite !diag_times_app, (g_dt _ _ G). reflexivity.
  Qed.
  Lemma grel_advance k x s s' : grel s s' -> (nb c + k < nobj c)%nat ->
    grel (advance (nb c + k) x s) (advance (nb c' + k) x s').
  Proof.
    intros G Hk. pose proof (proj1 (nobj_more k) Hk) as Hk'.
    assert (Ta : forall q, tm (advance (nb c + k) x s) q = if Nat.eqb q (nb c + k) then tm s (nb c + k) + x else tm s q).
    { intros q. unfold Proofs_Tracker.tm, Model_Tracker.advance; cbn [tobj]. rewrite upd_other_eq.
      rewrite (w_t _ _ _ _ (g_wf _ _ G)). destruct (Nat.eqb q (nb c + k)); [|reflexivity].
      destruct (Nat.ltb_spec (nb c + k) (nobj c)); [reflexivity|lia]. }
    assert (Tb : forall q, tm (advance (nb c' + k) x s') q = if Nat.eqb q (nb c' + k) then tm s' (nb c' + k) + x else tm s' q).
    { intros q. unfold Proofs_Tracker.tm, Model_Tracker.advance; cbn [tobj]. rewrite upd_other_eq.
      rewrite (w_t _ _ _ _ (g_wf' _ _ G)). destruct (Nat.eqb q (nb c' + k)); [|reflexivity].
      destruct (Nat.ltb_spec (nb c' + k) (nobj c')); [reflexivity|lia]. }
    split; cbn [bs fs out log Model_Tracker.advance]; try (apply G).
    - apply advance_wf, G.
    - apply advance_wf, G.
    - intros q. rewrite Ta, Tb, !(g_t _ _ G).
      destruct (Nat.eqb_spec (nb c + q) (nb c + k)), (Nat.eqb_spec (nb c' + q) (nb c' + k)); lia || reflexivity.
    - intros i Hi. destruct (Hp i Hi) as [Hpi _]. pose proof (g_c _ _ G i Hi) as H. unfold Proofs_Group.cell in *.
      rewrite Ta, Tb. destruct (Nat.eqb_spec (p i) (nb c + k)); [lia|]. destruct (Nat.eqb_spec i (nb c' + k)); [lia|].
      exact H.
  Qed.
  Lemma grel_sync tn s s' : grel s s' ->
    grel (sync_upto B F evolve auto_dt rnd c (nb c) tn s) (sync_upto B F evolve auto_dt rnd c' (nb c') tn s').
  Proof.
    intros G. destruct (sync_cells B F evolve auto_dt rnd c tn s (nb c) (g_wf _ _ G) (le_n _)) as (W & R & C).
    destruct (sync_cells B F evolve auto_dt rnd c' tn s' (nb c') (g_wf' _ _ G) (le_n _)) as (W' & R' & C').
    apply (grel_rest s s'); try assumption. intros i Hi. destruct (Hp i Hi) as [Hpi _]. rewrite C, C'.
    destruct (Nat.ltb_spec (p i) (nb c)); [|lia]. destruct (Nat.ltb_spec i (nb c')); [|lia].
    apply crel_syn; [exact Hi|apply (g_f _ _ G)|apply (g_c _ _ G i Hi)].
  Qed.

  (** A step of the first run that treats a field or an output is done by the second one as well. *)
  Lemma quiet_pick s s' k tn : grel s s' -> (nb c + k < nobj c)%nat ->
    (forall i, (i < nb c)%nat -> ~ lim c s (key (cell s i))) ->
    tn = tm s (nb c + k) + dm s (nb c + k) -> rnd tn <= rnd (c_tfinal c) ->
    (forall q, (q < nobj c)%nat -> rnd tn <= rnd (tm s q + dm s q)) ->
    (forall q, (q < nb c + k)%nat -> rnd tn < rnd (tm s q + dm s q)) ->
    tn = tm s' (nb c' + k) + dm s' (nb c' + k) /\
    (forall q, (q < nobj c')%nat -> rnd tn <= rnd (tm s' q + dm s' q)) /\
    (forall q, (q < nb c' + k)%nat -> rnd tn < rnd (tm s' q + dm s' q)).
  Proof.
    intros G Hk Qt Et Hf Hle Hlt. split; [rewrite Et, (g_t _ _ G), (g_d _ _ G); reflexivity|].
    assert (Hb : forall q, (q < nb c')%nat -> rnd tn < rnd (tm s' q + dm s' q)).
    { intros q Hq. destruct (Hp q Hq) as [Hpq _]. specialize (Hlt (p q) ltac:(lia)).
      pose proof (crel_key q _ _ (g_c _ _ G q Hq)) as Ek. rewrite !cell_key in Ek. rewrite <- Ek. exact Hlt. }
    split; intros q Hq.
    - destruct (Nat.lt_ge_cases q (nb c')) as [H|H]; [specialize (Hb q H); lra|].
      pose proof (nobj_more (q - nb c')) as M. replace (nb c' + (q - nb c'))%nat with q in M by lia.
      specialize (Hle (nb c + (q - nb c'))%nat ltac:(lia)). rewrite (g_t _ _ G), (g_d _ _ G) in Hle.
      replace (nb c' + (q - nb c'))%nat with q in Hle by lia. exact Hle.
    - destruct (Nat.lt_ge_cases q (nb c')) as [H|H]; [apply Hb, H|].
      specialize (Hlt (nb c + (q - nb c'))%nat ltac:(lia)). rewrite (g_t _ _ G), (g_d _ _ G) in Hlt.
      replace (nb c' + (q - nb c'))%nat with q in Hlt by lia. exact Hlt.
  Qed.

  Theorem group_loop fuel : forall s s' r, grel s s' -> loop fuel c s = Done r ->
    exists fuel' r', loop fuel' c' s' = Done r' /\ grel r r'.
  Proof.
    induction fuel as [fuel IH] using (well_founded_induction lt_wf). intros s s' r G H.
    destruct (phase B F evolve update auto_dt copy rnd c fuel s r (g_wf _ _ G) H)
      as (e & fuel1 & n & We & Hf1 & Hl & Re & Qe & Ce).
    destruct (catch_up B F evolve update auto_dt copy rnd c' (total (fun i => n (p i)) (nb c')) s' (fun i => n (p i))
                (g_wf' _ _ G) eq_refl) as (e' & We' & Hl' & Re' & Ce').
    { intros i Hi. destruct (Hp i Hi) as [Hpi _]. destruct (Ce (p i) Hpi) as [[R1 R2] _]. split.
      - intros m Hm. apply (lim_rel s s' _ G).
        rewrite <- (crel_key i _ _ (crel_it i _ _ m _ _ Hi (g_f _ _ G) (g_c _ _ G i Hi))). apply R1, Hm.
      - intros L. apply R2. apply (lim_rel s s' _ G).
        rewrite (crel_key i _ _ (crel_it i _ _ (n (p i)) _ _ Hi (g_f _ _ G) (g_c _ _ G i Hi))). exact L. }
    assert (Ge : grel e e').
    { apply (grel_rest s s'); try assumption. intros i Hi. destruct (Hp i Hi) as [Hpi _].
      rewrite (proj2 (Ce (p i) Hpi)), (Ce' i Hi). apply crel_it; [exact Hi|apply (g_f _ _ G)|apply (g_c _ _ G i Hi)]. }
    assert (Fin : exists fuel' r', loop fuel' c' e' = Done r' /\ grel r r').
    { destruct fuel1 as [|fuel1]; [discriminate|]. cbn [Model_Tracker.loop] in Hl.
      destruct (step c e) as [u|u|er u] eqn:E; [|injection Hl as <-|discriminate].
      - pose proof (step_inv B F evolve update auto_dt copy rnd c e u We E) as St.
        assert (No : nobj c = (nb c + nf c + if Nat.ltb 0 (c_ndiags c) then 1 else 0)%nat).
        { unfold nobj. rewrite objects_length. unfold nb, nf. lia. }
        assert (Next : forall u', step c' e' = Continue u' -> grel u u' ->
          exists fuel' r', loop fuel' c' e' = Done r' /\ grel r r').
        { intros u' E' Gu. destruct (IH fuel1 ltac:(lia) u u' r Gu Hl) as (fuel' & r' & Hr & Gr).
          exists (S fuel'), r'. cbn [Model_Tracker.loop]. rewrite E'. split; assumption. }
        destruct St as [i tn Hi Et Hle Hlt Hf|j tn Hj Et Hle Hlt Hf|tn Hdg Et Hle Hlt Hf].
        + exfalso. apply (Qe i Hi). split.
          * rewrite cell_key, <- Et. exact Hf.
          * intros k Hk. rewrite cell_key, <- Et. apply Hle. lia.
        + assert (Hk : (nb c + j < nobj c)%nat) by lia. pose proof (proj1 (nobj_more j) Hk) as Hk'.
          destruct (quiet_pick e e' j tn Ge Hk Qe Et Hf Hle Hlt) as (E1 & L1 & L2).
          eapply Next.
          * apply (step_pick B F evolve update auto_dt copy rnd c' e' (nb c' + j)); [exact We'|exact Hk'|..];
              rewrite <- E1; assumption.
          * rewrite (objects_field c' j Hj : nth_error (objects c') (nb c' + j) = _), <- E1, <- (g_d _ _ Ge). apply grel_advance; [|exact Hk].
            apply grel_update, Ge.
        + assert (Hk : (nb c + nf c < nobj c)%nat).
          { rewrite No. apply Nat.ltb_lt in Hdg. rewrite Hdg. lia. }
          pose proof (proj1 (nobj_more (nf c)) Hk) as Hk'.
          destruct (quiet_pick e e' (nf c) tn Ge Hk Qe Et Hf Hle Hlt) as (E1 & L1 & L2).
          eapply Next.
          * apply (step_pick B F evolve update auto_dt copy rnd c' e' (nb c' + nf c)); [exact We'|exact Hk'|..];
              rewrite <- E1; assumption.
          * rewrite (objects_diag c' Hdg : nth_error (objects c') (nb c' + nf c) = _), <- E1, <- (g_d _ _ Ge).
            apply grel_advance; [|exact Hk]. apply grel_diag. change (c_push_before c') with (c_push_before c).
            destruct (c_push_before c); [apply grel_sync, Ge|exact Ge].
      - destruct (step_done B F evolve update auto_dt copy rnd c e u We E) as [-> Hall].
        exists 1%nat, e'. split; [|exact Ge]. cbn [Model_Tracker.loop].
        assert (N0 : (0 < nobj c)%nat).
        { destruct (nobj c) eqn:En; [|lia]. exfalso. unfold Model_Tracker.step in E.
          pose proof (w_t _ _ _ _ We) as L. rewrite En in L. destruct (tobj e); [|discriminate].
          cbn in E. discriminate. }
        rewrite (step_stop B F evolve update auto_dt copy rnd c' e' We'); [reflexivity| |].
        + destruct (Nat.eq_dec (nb c) 0) as [Hz|Hz].
          * pose proof (nobj_more 0) as M. lia.
          * specialize (Hnb ltac:(lia)). pose proof (nb_le_nobj c'). lia.
        + intros q Hq. change (c_tfinal c') with (c_tfinal c). destruct (Nat.lt_ge_cases q (nb c')) as [H1|H1].
          * destruct (Hp q H1) as [Hpq _]. specialize (Hall (p q) ltac:(pose proof (nb_le_nobj c); lia)).
            pose proof (crel_key q _ _ (g_c _ _ Ge q H1)) as Ek. rewrite !cell_key in Ek. rewrite <- Ek. exact Hall.
          * pose proof (nobj_more (q - nb c')) as M. replace (nb c' + (q - nb c'))%nat with q in M by lia.
            specialize (Hall (nb c + (q - nb c'))%nat ltac:(lia)). rewrite (g_t _ _ Ge), (g_d _ _ Ge) in Hall.
            replace (nb c' + (q - nb c'))%nat with q in Hall by lia. exact Hall. }
    destruct Fin as (fuel' & r' & Hr & Gr). exists (total (fun i => n (p i)) (nb c') + fuel')%nat, r'.
    split; [rewrite Hl'; exact Hr|exact Gr].
  Qed.

  Lemma nth_const k (l : list Q) : nth k (map (fun _ => 0) l) 0 = 0.
  Proof. revert k. induction l as [|a l IH]; intros [|k]; cbn; auto. Qed.
  Theorem group_tracking fuel l l' f f' r : length l = nb c -> length l' = nb c' ->
    (forall i b b', nth_error l (p i) = Some b -> nth_error l' i = Some b' -> Rp i b b') -> Rf f f' ->
    do_tracking B F evolve update auto_dt copy rnd fuel c l f = Done r ->
    exists fuel' r', do_tracking B F evolve update auto_dt copy rnd fuel' c' l' f' = Done r' /\ grel r r'.
  Proof.
    intros L L' HR Hf H. unfold do_tracking in H. destruct (c_ndiags c) as [|nd] eqn:Ed.
    { destruct l; [|discriminate]. destruct (loop _ _ _); discriminate. }
    assert (G : grel (start B F update auto_dt c l f) (start B F update auto_dt c' l' f')).
    { unfold start. change (n_fields c') with (n_fields c).
      assert (Len : length (initial_dt B auto_dt c l) = nobj c) by (unfold nobj; apply initial_dt_length; exact L).
      assert (Len' : length (initial_dt B auto_dt c' l') = nobj c') by (unfold nobj; apply initial_dt_length; exact L').
      assert (G0 : grel {| bs := l; fs := f; tobj := map (fun _ => 0) (initial_dt B auto_dt c l);
                           dtobj := initial_dt B auto_dt c l; out := map (fun _ => []) l; log := [] |}
                        {| bs := l'; fs := f'; tobj := map (fun _ => 0) (initial_dt B auto_dt c' l');
                           dtobj := initial_dt B auto_dt c' l'; out := map (fun _ => []) l'; log := [] |}).
      { split; cbn [bs fs out log]; try reflexivity; try assumption.
        - split; cbn [tobj dtobj bs out]; rewrite ?map_length; assumption.
        - split; cbn [tobj dtobj bs out]; rewrite ?map_length; assumption.
        - intros k. unfold Proofs_Tracker.tm. cbn [tobj]. rewrite !nth_const. reflexivity.
        - intros k. unfold Proofs_Tracker.dm. cbn [dtobj]. unfold initial_dt.
          assert (A : forall cc (ll : list B), length ll = nb cc -> length (initial_dtb B auto_dt (c_dtb cc) ll) = nb cc).
          { intros cc ll Hl. unfold nb, n_bunches in *. apply initial_dtb_length. exact Hl. }
          rewrite (app_nth2 (initial_dtb B auto_dt (c_dtb c) l)), (app_nth2 (initial_dtb B auto_dt (c_dtb c') l'));
            rewrite ?A by assumption; try lia.
          replace (nb c + k - nb c)%nat with k by lia. replace (nb c' + k - nb c')%nat with k by lia. reflexivity.
        - intros i Hi. destruct (Hp i Hi) as [Hpi Est].
          destruct (nth_error l (p i)) as [b|] eqn:Eb; [|apply nth_error_None in Eb; lia].
          destruct (nth_error l' i) as [b'|] eqn:Eb'; [|apply nth_error_None in Eb'; lia].
          specialize (HR i b b' Eb Eb'). unfold Proofs_Group.cell, Proofs_Tracker.tm, Proofs_Tracker.dm.
          cbn [bs tobj dtobj log pushes]. rewrite !nth_const, Eb, Eb'.
          rewrite (initial_dt_bunch auto_dt c l (p i) L Hpi), (initial_dt_bunch auto_dt c' l' i L' Hi).
          destruct (nth_error (c_dtb c) (p i)) as [d|] eqn:Edt.
          2:{ apply nth_error_None in Edt. unfold nb, n_bunches in Hpi. lia. }
          rewrite (initial_dtb_nth auto_dt _ l (p i) d b Edt Eb), (initial_dtb_nth auto_dt (c_dtb c') l' i d b' Est Eb').
          exists b, b', 0, (match d with Some q => q | None => auto_dt b' end), [].
          split; [|split; [reflexivity|exact HR]]. destruct d as [q|]; [reflexivity|].
          rewrite (HA i b b' Hi); [reflexivity| |exact HR]. unfold is_auto. cbn [c' with_steps c_dtb]. rewrite Est. reflexivity.
        - intros i Hi. destruct (Hp i Hi) as [Hpi Est].
          destruct (nth_error l (p i)) as [b|] eqn:Eb; [|apply nth_error_None in Eb; lia].
          destruct (nth_error l' i) as [b'|] eqn:Eb'; [|apply nth_error_None in Eb'; lia].
          exists [], []. split; [exact (map_nth_error (fun _ => []) (p i) l Eb)|].
          split; [exact (map_nth_error (fun _ => []) i l' Eb')|constructor]. }
      generalize dependent G0. generalize (Build_state B F l' f' (map (fun _ => 0) (initial_dt B auto_dt c' l'))
        (initial_dt B auto_dt c' l') (map (fun _ => []) l') []).
      generalize (Build_state B F l f (map (fun _ => 0) (initial_dt B auto_dt c l))
        (initial_dt B auto_dt c l) (map (fun _ => []) l) []).
      induction (seq 0 (n_fields c)) as [|j js IH]; intros u u' Gu; [exact Gu|].
      cbn [fold_left]. apply IH, grel_update, Gu. }
    destruct (group_loop fuel _ _ r (grel_diag 0 _ _ G) H) as (fuel' & r' & Hr & Gr).
    exists fuel', r'. split; [|exact Gr]. unfold do_tracking. change (c_ndiags c') with (c_ndiags c). rewrite Ed.
    exact Hr.
  Qed.
End Group.
