(** How fields and bunches are combined. *)
From Coq Require Import QArith Reals Qreals String List Arith Lia Lra.
From Coquelicot Require Import Coquelicot.
From Verif Require Model_Laser.
From Verif Require Import Model_Push Spec_Push Proofs_Push Model_Interp Model_QS Model_Tracker Model_Run Model_RZ
  Model_Bunch Spec_Bunch Proofs_Bunch Model_Sim Spec_Sim Proofs_Sim Proofs_Sim2 Proofs_Sim3 Proofs_Sim4 Proofs_Sim5 Proofs_Sim6.
Import ListNotations.
Open Scope R_scope.

Lemma Forall2_impl {A B} (P Q : A -> B -> Prop) l l' : (forall a b, P a b -> Q a b) -> Forall2 P l l' -> Forall2 Q l l'.
Proof. intros H. induction 1; constructor; auto. Qed.

(** ** Pushes in the gathered field *)
Definition agrees (fields : list efield) (gs : list field) : Prop := forall ps t b v,
  gather_all fields ps t b = Ok v -> gather_fields gs ps t b = v.
Lemma reset_twice b : reset_particle_fields (reset_particle_fields b) = reset_particle_fields b.
Proof. unfold reset_particle_fields. rewrite map_map. reflexivity. Qed.
Lemma agrees_frozen fields : agrees fields [frozen fields].
Proof.
  intros ps t b v E. unfold gather_fields, frozen. cbn [fold_left]. unfold gather_all in *. rewrite reset_twice, E. reflexivity.
Qed.
Lemma agrees_nil : agrees [] [].
Proof. intros ps t b v E. injection E as <-. reflexivity. Qed.
Lemma analytic_each cs : forall ps t b, gather_each (map Analytic cs) ps t b = Ok (fold_left (fun b f => f ps t b) (map analytical cs) b).
Proof. induction cs as [|c cs IH]; intros ps t b; [reflexivity|]. cbn. apply IH. Qed.
Lemma agrees_analytic cs : agrees (map Analytic cs) (map analytical cs).
Proof. intros ps t b v E. unfold gather_all in E. rewrite analytic_each in E. injection E as <-. reflexivity. Qed.

Lemma boris_agrees fields gs q m t dt l b l' f : agrees fields gs -> boris q m fields t dt l b = Ok (l', f) ->
  apply_boris_pusher q m gs t dt l b = (l', f).
Proof.
  intros A. unfold boris, apply_boris_pusher. cbv zeta.
  destruct (gather_all fields _ _ b) as [v|e] eqn:E; cbn [bind]; [|discriminate]. intros X. injection X as <- <-.
  rewrite (A _ _ _ _ E). reflexivity.
Qed.
Lemma pass_agrees fields gs qm t dt l a i a' : agrees fields gs -> rk4_pass qm fields t dt l a i = Ok a' ->
  rk4_stage qm gs t dt l a i = a'.
Proof.
  intros A. unfold rk4_pass, rk4_stage. destruct i as [|[|[|[|i]]]]; cbv zeta;
    (destruct (gather_all fields _ _ _) as [v|e] eqn:E; cbn [bind]; [|discriminate]; intros X; injection X as <-;
     rewrite (A _ _ _ _ E); reflexivity).
Qed.
Lemma rk4_agrees fields gs q m t dt l a l' a' : agrees fields gs -> rk4 q m fields t dt l a = Ok (l', a') ->
  apply_rk4_pusher q m gs t dt l a = (l', a').
Proof.
  intros A. unfold rk4, apply_rk4_pusher. cbv zeta. cbn [fold_left].
  destruct (rk4_pass _ fields t dt l a 0) as [a0|] eqn:E0; cbn [bind]; [|discriminate].
  destruct (rk4_pass _ fields t dt l a0 1) as [a1|] eqn:E1; cbn [bind]; [|discriminate].
  destruct (rk4_pass _ fields t dt l a1 2) as [a2|] eqn:E2; cbn [bind]; [|discriminate].
  destruct (rk4_pass _ fields t dt l a2 3) as [a3|] eqn:E3; cbn [bind]; [|discriminate].
  intros X. injection X as <- <-.
  rewrite (pass_agrees _ _ _ _ _ _ _ _ _ A E0), (pass_agrees _ _ _ _ _ _ _ _ _ A E1),
    (pass_agrees _ _ _ _ _ _ _ _ _ A E2), (pass_agrees _ _ _ _ _ _ _ _ _ A E3). reflexivity.
Qed.
Lemma push_agrees fields gs pusher h b t dt r : agrees fields gs ->
  push_bunch pusher fields (h, b) t dt = Some r -> Model_Bunch.evolve h b gs t dt pusher = Model_Bunch.Done r.
Proof.
  intros A. unfold push_bunch, Model_Bunch.evolve.
  set (F := match z_injection b with None => Some fields | _ => _ end).
  set (G := match z_injection b with None => Some gs | _ => _ end).
  assert (X : match F, G with Some f, Some g => agrees f g | None, None => True | _, _ => False end).
  { unfold F, G. destruct (z_injection b); [|exact A]. destruct (amax _); [|exact I].
    destruct (Rlt_dec _ _); [exact agrees_nil|exact A]. }
  destruct F as [f|], G as [g|]; try contradiction; [|discriminate].
  destruct (String.eqb pusher "rk4").
  - destruct (rk4_arrays _ b) as [[co d] k].
    destruct (rk4 _ _ _ _ _ _ _) as [[l' a]|] eqn:E; [|discriminate]. intros Y. injection Y as <-.
    rewrite (rk4_agrees _ _ _ _ _ _ _ _ _ _ X E). reflexivity.
  - destruct (String.eqb pusher "boris"); [|discriminate]. cbv zeta.
    destruct (boris _ _ _ _ _ _ _) as [[l' a]|] eqn:E; [|discriminate]. intros Y. injection Y as <-.
    rewrite (boris_agrees _ _ _ _ _ _ _ _ _ _ X E). reflexivity.
Qed.

Lemma alone_gather e ps t b : length ps = length b -> gather_all [e] ps t b = alone e ps t.
Proof.
  intros L. unfold gather_all, alone. assert (X : reset_particle_fields b = map (fun _ => em0) ps).
  { unfold reset_particle_fields. revert b L. induction ps as [|p ps IH]; intros [|v b] L; try discriminate; [reflexivity|].
    cbn. f_equal. apply IH. cbn in L. lia. }
  rewrite X. destruct e as [env pl o|c]; cbn; [|reflexivity]. destruct (w_gather _ _ _); reflexivity.
Qed.
Lemma boris_fault q m fields t dt l b k : boris q m fields t dt l b = Fault k ->
  exists ps t' f k, gather_all fields ps t' f = Fault k.
Proof.
  unfold boris. cbv zeta. destruct (gather_all _ _ _ _) eqn:E; cbn; [discriminate|]. intros _. eauto.
Qed.
Lemma rk4_pass_fault q fields t dt l a i k : rk4_pass q fields t dt l a i = Fault k ->
  exists ps t' f k, gather_all fields ps t' f = Fault k.
Proof.
  unfold rk4_pass. destruct i as [|[|[|[|i]]]]; cbv zeta;
    (destruct (gather_all _ _ _ _) eqn:E; cbn; [discriminate|]; intros _; eauto).
Qed.
Lemma rk4_fault q m fields t dt l a k : rk4 q m fields t dt l a = Fault k ->
  exists ps t' f k, gather_all fields ps t' f = Fault k.
Proof.
  unfold rk4. cbv zeta. intros H.
  destruct (rk4_pass _ _ _ _ _ a 0) eqn:E0; cbn [bind] in H; [|apply (rk4_pass_fault _ _ _ _ _ _ _ _ E0)].
  destruct (rk4_pass _ _ _ _ _ _ 1) eqn:E1; cbn [bind] in H; [|apply (rk4_pass_fault _ _ _ _ _ _ _ _ E1)].
  destruct (rk4_pass _ _ _ _ _ _ 2) eqn:E2; cbn [bind] in H; [|apply (rk4_pass_fault _ _ _ _ _ _ _ _ E2)].
  destruct (rk4_pass _ _ _ _ _ _ 3) eqn:E3; cbn [bind] in H; [discriminate|apply (rk4_pass_fault _ _ _ _ _ _ _ _ E3)].
Qed.
Lemma push_raises pusher fields h b t dt : push_bunch pusher fields (h, b) t dt = None ->
  ~ known pusher \/ (z_injection b <> None /\ rd h (b_xi b) = []) \/
  exists ps t' f k, gather_all fields ps t' f = Fault k.
Proof.
  unfold push_bunch.
  assert (X : forall F, (exists ps t' f k, gather_all F ps t' f = Fault k) -> F = [] \/ F = fields ->
    exists ps t' f k, gather_all fields ps t' f = Fault k).
  { intros F (ps & t' & f & k & E) [->| ->]; [discriminate|eauto]. }
  assert (Y : forall F, F = [] \/ F = fields ->
    (let l := particles h b in
      let n_part := length (rd h (b_x b)) in
      if String.eqb pusher "rk4" then
        let '(co, d, k) := rk4_arrays n_part b in
        let f := field_arrays n_part b in
        match rk4 (q_species b) (m_species b) F t dt l (mkrk co d k f) with
        | Ok (l', a) =>
            let b1 := with_buffers b (Some (Model_Push.r_fld a)) (Some (r_coord a, r_push a, r_k a)) in
            Some (write_particles h b l', with_prop b1 (prop_distance b + dt * c_SI))
        | Fault _ => None
        end
      else if String.eqb pusher "boris" then
        let f := field_arrays n_part b in
        match boris (q_species b) (m_species b) F t dt l f with
        | Ok (l', f') =>
            let b1 := with_buffers b (Some f') (b_rk b) in
            Some (write_particles h b l', with_prop b1 (prop_distance b + dt * c_SI))
        | Fault _ => None
        end
      else None) = None ->
    ~ known pusher \/ exists ps t' f k, gather_all fields ps t' f = Fault k).
  { intros F HF. cbv zeta. destruct (String.eqb_spec pusher "rk4") as [E|N].
    - destruct (rk4_arrays _ b) as [[co d] k0]. destruct (rk4 _ _ _ _ _ _ _) as [[l' a]|k] eqn:E1; [discriminate|].
      intros _. right. apply (X F); [apply (rk4_fault _ _ _ _ _ _ _ _ E1)|exact HF].
    - destruct (String.eqb_spec pusher "boris") as [E|N'].
      + destruct (boris _ _ _ _ _ _ _) as [[l' a]|k] eqn:E1; [discriminate|].
        intros _. right. apply (X F); [apply (boris_fault _ _ _ _ _ _ _ _ E1)|exact HF].
      + intros _. left. unfold known. intros [K|K]; congruence. }
  destruct (z_injection b) as [z|].
  - destruct (amax (rd h (b_xi b))) as [m|] eqn:Em.
    + destruct (Rlt_dec _ _); intros H; [destruct (Y [] (or_introl eq_refl) H); auto|destruct (Y fields (or_intror eq_refl) H); auto].
    + intros _. right. left. split; [discriminate|]. destruct (rd h (b_xi b)); [reflexivity|discriminate Em].
  - intros H. destruct (Y fields (or_intror eq_refl) H); auto.
Qed.

(** ** Analytical fields only *)
Lemma gather1_total cs : forall p t f, exists v, gather1 (map Analytic cs) p t f = Some v.
Proof. induction cs as [|c cs IH]; intros p t f; [exists f; reflexivity|]. cbn. apply IH. Qed.
Lemma push1_total cs pusher q m t dt p : knownb pusher = true -> push1 pusher (map Analytic cs) q m t dt p <> None.
Proof.
  unfold knownb, push1. destruct (String.eqb pusher "rk4"); [intros _|cbn; destruct (String.eqb pusher "boris"); [intros _|discriminate]].
  - unfold rk4_1, slope1.
    destruct (gather1_total cs (pos_of p) t em0) as [f ->]. cbn [bindo].
    set (u := along _ _ _ _). destruct (gather1_total cs (pos_of u) (t + dt / 2) em0) as [f2 ->]. cbn [bindo].
    set (u2 := along _ _ _ _). destruct (gather1_total cs (pos_of u2) (t + dt / 2) em0) as [f3 ->]. cbn [bindo].
    set (u3 := along _ _ _ _). destruct (gather1_total cs (pos_of u3) (t + dt) em0) as [f4 ->]. discriminate.
  - unfold boris1. cbv zeta. set (u := half_position_push1 dt p).
    destruct (gather1_total cs (pos_of u) (t + dt / 2) em0) as [f ->]. discriminate.
Qed.
Lemma push_analytic cs pusher hb t dt : trackable hb -> known pusher ->
  exists hb', push_bunch pusher (map Analytic cs) hb t dt = Some hb' /\ trackable hb'.
Proof.
  intros [S1 Z] K. pose proof (push_cases pusher (map Analytic cs) hb t dt S1) as C.
  assert (Kb : knownb pusher = true) by (destruct K as [-> | ->]; reflexivity).
  assert (A : exists cs', acts hb (map Analytic cs) = Some (map Analytic cs')).
  { unfold acts. destruct (z_injection (snd hb)); [|exists cs; reflexivity].
    destruct Z as [Z|Z]; [discriminate|]. destruct (parts hb) as [|p l]; [contradiction|]. cbn [map amax].
    destruct (Rlt_dec _ _); [exists []; reflexivity|exists cs; reflexivity]. }
  destruct A as [cs' A].
  destruct (push_bunch _ _ _ _ _) as [hb'|].
  - exists hb'. split; [reflexivity|]. destruct C as (P & S2 & W & Mv). split; [exact S2|].
    unfold pushed in P. rewrite A, Kb in P. apply travo_length in P. destruct Mv as (_ & _ & _ & Ez & _). rewrite Ez.
    destruct Z as [Z|Z]; [left; exact Z|right]. destruct (parts hb); [contradiction|]. destruct (parts hb'); [discriminate|discriminate].
  - unfold pushed in C. rewrite A, Kb in C. apply travo_none in C as (p & _ & E). exfalso. revert E. apply push1_total, Kb.
Qed.
Lemma copy_trackable hb : trackable hb -> trackable (copy_tracked hb).
Proof.
  intros [S1 _]. destruct (copy_sound hb S1) as (T & _ & _ & _ & _ & _ & Z & _). split; [exact T|left; exact Z].
Qed.
(** ** Superposition *)
Definition wake_gain (o : wake) (p : pos) : option em := wake1 o p em0.
Lemma main_gain er ez_ bt g p f : to_opt (gather_main1 er ez_ bt g p f) =
  option_map (fun d => em_add f d) (to_opt (gather_main1 er ez_ bt g p em0)).
Proof.
  destruct p as [[x0 y0] z0]. unfold gather_main1. cbv zeta. destruct (Req_EM_T _ _); [reflexivity|].
  destruct (Model_Interp.within _ _ _).
  - destruct (interpolate4 er _ _); [|reflexivity]. cbn [bind]. destruct (interpolate4 bt _ _); [|reflexivity].
    cbn [bind]. destruct (interpolate4 ez_ _ _); [|reflexivity]. cbn [bind to_opt option_map]. f_equal.
    apply em_eq; cbn; ring.
  - cbn. f_equal. apply em_eq; cbn; ring.
Qed.
Definition all_additive (fields : list efield) : Prop := forall c, In (Analytic c) fields -> additive c.
Lemma gather1_sum fields : all_additive fields -> forall p t f,
  gather1 fields p t f = match travo (fun e => gather1 [e] p t em0) fields with
                         | Some gs => Some (em_add f (fold_right em_add em0 gs)) | None => None end.
Proof.
  intros A p t. induction fields as [|e r IH]; intros f.
  - cbn. f_equal. apply em_eq; cbn; ring.
  - assert (Ar : all_additive r) by (intros c Hc; apply A; right; exact Hc). specialize (IH Ar).
    cbn [travo]. destruct e as [env pl o|c].
    + cbn [gather1]. unfold wake1 at 1 2. rewrite main_gain.
      destruct (to_opt (gather_main1 _ _ _ _ p em0)) as [d|]; [|reflexivity]. cbn [option_map].
      rewrite IH. destruct (travo _ r); [|reflexivity]. f_equal. apply em_eq; cbn; ring.
    + cbn [gather1]. rewrite IH. destruct (travo _ r); [|reflexivity]. f_equal.
      assert (Ac : additive c) by (apply A; left; reflexivity).
      unfold analytic1. destruct (Ac p t (ex f)) as (-> & _). destruct (Ac p t (ey f)) as (_ & -> & _).
      destruct (Ac p t (ez f)) as (_ & _ & -> & _). destruct (Ac p t (bx f)) as (_ & _ & _ & -> & _).
      destruct (Ac p t (by_ f)) as (_ & _ & _ & _ & -> & _). destruct (Ac p t (bz f)) as (_ & _ & _ & _ & _ & ->).
      apply em_eq; cbn; ring.
Qed.
Lemma superposition fields ps t b : all_additive fields -> length ps = length b ->
  match gather_all fields ps t b with
  | Ok v => length v = length ps /\ exists each : efield -> list em,
      (forall e, In e fields -> gather_all [e] ps t b = Ok (each e)) /\
      forall i, (i < length ps)%nat -> nth i v em0 = fold_right em_add em0 (map (fun e => nth i (each e) em0) fields)
  | Fault _ => exists e k, In e fields /\ gather_all [e] ps t b = Fault k
  end.
Proof.
  intros A L. pose proof (gather_all_pt fields ps t b L) as P.
  assert (Pe : forall e, to_opt (gather_all [e] ps t b) = travo (fun p => gather1 [e] p t em0) ps)
    by (intros e; apply gather_all_pt, L).
  destruct (gather_all fields ps t b) as [v|k]; cbn [to_opt] in P.
  - symmetry in P. split; [apply (travo_length _ _ _ P)|].
    exists (fun e => map (fun p => match gather1 [e] p t em0 with Some d => d | None => em0 end) ps).
    apply travo_some in P.
    assert (Q : forall p, In p ps -> exists gs, travo (fun e => gather1 [e] p t em0) fields = Some gs).
    { intros p Hp. assert (X : In (gather1 fields p t em0) (map Some v))
        by (rewrite <- P; apply in_map with (f := fun p => gather1 fields p t em0), Hp).
      apply in_map_iff in X as (d & X & _). rewrite (gather1_sum fields A) in X.
      destruct (travo _ fields) as [gs|]; [exists gs; reflexivity|discriminate]. }
    split.
    + intros e He. specialize (Pe e).
      assert (T : travo (fun p => gather1 [e] p t em0) ps =
        Some (map (fun p => match gather1 [e] p t em0 with Some d => d | None => em0 end) ps)).
      { clear - Q He. induction ps as [|p ps IH]; [reflexivity|]. cbn [travo map].
        rewrite IH by (intros u Hu; apply Q; right; exact Hu).
        destruct (Q p (or_introl eq_refl)) as [gs G].
        destruct (gather1 [e] p t em0) eqn:E; [reflexivity|].
        assert (X : travo (fun e => gather1 [e] p t em0) fields = None) by (apply travo_none; exists e; auto). congruence. }
      rewrite T in Pe. destruct (gather_all [e] ps t b); [injection Pe as ->; reflexivity|discriminate].
    + intros i Hi.
      assert (Hp : In (nth i ps (0, 0, 0)) ps) by (apply nth_In, Hi).
      assert (X : gather1 fields (nth i ps (0, 0, 0)) t em0 = Some (nth i v em0)).
      { assert (Lv : length v = length ps) by (apply (f_equal (@length _)) in P; rewrite !map_length in P; lia).
        transitivity (nth i (map (fun p => gather1 fields p t em0) ps) (gather1 fields (0, 0, 0) t em0)).
        - symmetry. apply map_nth with (f := fun p => gather1 fields p t em0).
        - rewrite P. rewrite nth_indep with (d' := Some em0) by (rewrite map_length; lia). apply map_nth. }
      rewrite (gather1_sum fields A) in X. destruct (Q _ Hp) as [gs G]. rewrite G in X. injection X as <-.
      assert (Eg : gs = map (fun e => nth i (map (fun p => match gather1 [e] p t em0 with Some d => d | None => em0 end) ps) em0) fields).
      { apply travo_some in G. clear - G Hi. revert gs G. induction fields as [|e r IH]; intros [|g gs] G; try discriminate; [reflexivity|].
        cbn [map] in *. pose proof (f_equal (hd None) G) as G1. pose proof (f_equal (@tl _) G) as G2. cbn [hd tl] in G1, G2. f_equal; [|apply IH, G2].
        rewrite nth_indep with (d' := match gather1 [e] (0, 0, 0) t em0 with Some d => d | None => em0 end)
          by (rewrite map_length; exact Hi).
        rewrite map_nth with (f := fun p => match gather1 [e] p t em0 with Some d => d | None => em0 end).
        rewrite G1. reflexivity. }
      rewrite <- Eg. apply em_eq; cbn; ring.
  - symmetry in P. apply travo_none in P as (p & Hp & E). rewrite (gather1_sum fields A) in E.
    destruct (travo _ fields) as [gs|] eqn:G; [discriminate|]. apply travo_none in G as (e & He & G).
    exists e. specialize (Pe e).
    assert (X : travo (fun p => gather1 [e] p t em0) ps = None) by (apply travo_none; exists p; auto).
    rewrite X in Pe. destruct (gather_all [e] ps t b) as [w|k']; [discriminate|]. exists k'. auto.
Qed.

(** ** Updates *)
Section Updating.
  Variable to_main : Model_Laser.sparams -> nat * nat -> Model_Laser.carr2 -> Model_Laser.carr2.
  Variable to_sub : Model_Laser.sparams -> nat * nat -> (nat -> nat -> R) -> (nat -> nat -> R).
  Variables e_ch m_e eps_0 light : R.
  Variables (argsort : list R -> list nat) (skin_depth wave_breaking : R -> R).
  Notation uw := (update_wake to_main to_sub e_ch m_e eps_0 light argsort skin_depth wave_breaking).
  Notation so := (solve_of e_ch light argsort skin_depth wave_breaking).
  Lemma update_one l : forall fields j fields', uw j fields l = Some fields' ->
    length fields' = length fields /\
    forall i, nth_error fields' i =
      match nth_error fields i with
      | Some (Wake env pl o) =>
          if Nat.eqb (wakes_before i fields) j
          then option_map (Wake env pl) (update env to_main to_sub e_ch m_e eps_0 (so pl) o l)
          else Some (Wake env pl o)
      | e => e
      end.
  Proof.
    induction fields as [|[env pl o|c] r IH]; intros j fields' E; cbn [update_wake] in E.
    - injection E as <-. split; [reflexivity|]. intros [|i]; reflexivity.
    - destruct j as [|j].
      + destruct (update _ _ _ _ _ _ _ o l) as [o'|] eqn:Eo; [|discriminate]. injection E as <-. split; [reflexivity|].
        intros [|i]; cbn; [rewrite Eo; reflexivity|]. destruct (nth_error r i) as [[? ? ?|?]|]; reflexivity.
      + destruct (uw j r l) as [r'|] eqn:Er; [|discriminate]. injection E as <-. destruct (IH j r' Er) as [I1 I2].
        split; [cbn; rewrite I1; reflexivity|]. intros [|i]; [reflexivity|]. apply I2.
    - destruct (uw j r l) as [r'|] eqn:Er; [|discriminate]. injection E as <-. destruct (IH j r' Er) as [I1 I2].
      split; [cbn; rewrite I1; reflexivity|]. intros [|i]; [reflexivity|]. apply I2.
  Qed.
  Lemma update_none l : forall fields j, uw j fields l = None ->
    exists i env pl o, nth_error fields i = Some (Wake env pl o) /\ wakes_before i fields = j /\
      update env to_main to_sub e_ch m_e eps_0 (so pl) o l = None.
  Proof.
    induction fields as [|[env pl o|c] r IH]; intros j E; cbn [update_wake] in E; [discriminate| |].
    - destruct j as [|j].
      + destruct (update _ _ _ _ _ _ _ o l) as [o'|] eqn:Eo; [discriminate|]. exists 0%nat, env, pl, o. auto.
      + destruct (uw j r l) as [r'|] eqn:Er; [discriminate|]. destruct (IH j Er) as (i & env' & pl' & o' & H1 & H2 & H3).
        exists (S i), env', pl', o'. split; [exact H1|]. split; [cbn; unfold wakes_before in H2; rewrite H2; reflexivity|exact H3].
    - destruct (uw j r l) as [r'|] eqn:Er; [discriminate|]. destruct (IH j Er) as (i & env' & pl' & o' & H1 & H2 & H3).
      exists (S i), env', pl', o'. auto.
  Qed.
  Lemma all_some_map {A} (l : list A) : all_some (map Some l) = Some l.
  Proof. induction l as [|a l IH]; [reflexivity|]. cbn. rewrite IH. reflexivity. Qed.
  Lemma update_analytic_id l cs : forall j, uw j (map Analytic cs) l = Some (map Analytic cs).
  Proof. induction cs as [|c cs IH]; intros j; [reflexivity|]. cbn. rewrite IH. reflexivity. Qed.
End Updating.
Lemma adjust_nth T fields : length (adjust_wakes T fields) = length fields /\ forall i,
  nth_error (adjust_wakes T fields) i =
  match nth_error fields i with
  | Some (Wake env pl o) => Some (Wake env pl (Model_RZ.adjust_dt T o))
  | e => e
  end.
Proof.
  induction fields as [|[env pl o|c] r [I1 I2]]; cbn [adjust_wakes length]; [split; [reflexivity|intros [|i]; reflexivity]| |]; (split; [auto|intros [|i]; [reflexivity|exact (I2 i)]]).
Qed.
Lemma adjust_analytic T cs : adjust_wakes T (map Analytic cs) = map Analytic cs.
Proof. induction cs as [|c cs IH]; [reflexivity|]. cbn. rewrite IH. reflexivity. Qed.
Section Runs.
  Variable to_main : Model_Laser.sparams -> nat * nat -> Model_Laser.carr2 -> Model_Laser.carr2.
  Variable to_sub : Model_Laser.sparams -> nat * nat -> (nat -> nat -> R) -> (nat -> nat -> R).
  Variables e_ch m_e eps_0 light : R.
  Variables (argsort : list R -> list nat) (skin_depth wave_breaking : R -> R).
  Variable pusher : string.
  Variable auto_dt : option tracked -> Q.
  Variable rnd : Q -> Q.
  Notation sim := (simulate to_main to_sub e_ch m_e eps_0 light argsort skin_depth wave_breaking pusher auto_dt rnd).
  Lemma run_analytic cs fuel c l : known pusher -> List.Forall trackable l ->
    same_run (fun f g => f = Some (map Analytic cs) /\ g = map analytical cs) (fun a b => a = Some b)
      (sim fuel c l (map Analytic cs))
      (track pusher (fun b => auto_dt (Some b)) rnd (map analytical cs) fuel c l).
  Proof.
    intros K Hl.
    assert (W : forall o o', same_run (fun f g => f = Some (map Analytic cs) /\ g = map analytical cs)
       (fun a b => a = Some b /\ trackable b) o o' ->
       same_run (fun f g => f = Some (map Analytic cs) /\ g = map analytical cs) (fun a b => a = Some b) o o').
    { assert (G : forall (s : state (option tracked) (option (list efield))) (s' : state tracked (list field)),
        same_state (fun f g => f = Some (map Analytic cs) /\ g = map analytical cs)
          (fun a b => a = Some b /\ trackable b) s s' ->
        same_state (fun f g => f = Some (map Analytic cs) /\ g = map analytical cs) (fun a b => a = Some b) s s').
      { intros s s' (H1 & H2 & H3 & H4 & H5 & H6).
        split; [eapply Forall2_impl; [|exact H1]; intros a b [X _]; exact X|]. split; [exact H2|].
        split; [exact H3|]. split; [exact H4|]. split.
        - eapply Forall2_impl; [|exact H5]. intros a b X. eapply Forall2_impl; [|exact X]. intros u v [Y _]; exact Y.
        - eapply Forall2_impl; [|exact H6]. intros [| |] [| |] X; cbn in X |- *; try exact X.
          destruct X as [X1 X2]. split; [exact X1|]. eapply Forall2_impl; [|exact X2]. intros u v [Y _]; exact Y. }
      intros [s|s|e s] [s'|s'|e' s']; cbn; try tauto; try apply G. intros [X Y]. split; [exact X|apply G, Y]. }
    apply W. unfold simulate, track. rewrite adjust_analytic. apply run_related.
    - intros f f' b b' t dt [-> ->] [-> T]. unfold sim_evolve, evolve_tracked.
      destruct (push_analytic cs pusher b' (Q2R t) (Q2R dt) T K) as (r & E & Tr). rewrite E.
      destruct b' as [h b0]. apply (push_agrees _ _ _ _ _ _ _ _ (agrees_analytic cs)) in E. cbn [fst snd]. rewrite E. auto.
    - intros j f f' u u' [-> ->] Hu. split; [|reflexivity]. unfold sim_update.
      assert (X : u = map Some u') by (clear - Hu; induction Hu as [|a b u u' [-> _] Hu IH]; [reflexivity|cbn; rewrite IH; reflexivity]).
      rewrite X, all_some_map. apply update_analytic_id.
    - intros b b' [-> _]. reflexivity.
    - intros b b' [-> T]. split; [reflexivity|]. apply copy_trackable, T.
    - split; reflexivity.
    - clear - Hl. induction Hl; cbn; constructor; auto.
  Qed.
End Runs.

(** ** The adjusted step is not adjusted again *)
Lemma int_part_IZR n : Int_part (IZR n) = n.
Proof.
  pose proof (base_Int_part (IZR n)) as [H1 H2]. apply le_IZR in H1.
  assert (H3 : IZR (Int_part (IZR n)) > IZR (n - 1)) by (rewrite minus_IZR; lra). apply lt_IZR in H3. lia.
Qed.
Lemma adjust_twice T o : 0 < T -> 0 < o_dt o -> Model_RZ.adjust_dt T (Model_RZ.adjust_dt T o) = Model_RZ.adjust_dt T o.
Proof.
  intros HT Hd. unfold Model_RZ.adjust_dt. destruct (o_even o) eqn:E; [|rewrite E; reflexivity].
  cbn [o_even o_dt o_box o_init o_t o_np o_laser o_arrays o_zero].
  set (n := - IZR (Int_part (- (T / o_dt o)))).
  assert (Hq : 0 < T / o_dt o) by (apply Rdiv_lt_0_compat; assumption).
  assert (Hn : 0 < n). { unfold n. pose proof (proj1 (base_Int_part (- (T / o_dt o)))). lra. }
  assert (X : T / (T / n) = n) by (field; lra).
  assert (Y : - IZR (Int_part (- (T / (T / n)))) = n).
  { rewrite X. unfold n. rewrite Ropp_involutive, int_part_IZR. reflexivity. }
  rewrite Y. reflexivity.
Qed.
Lemma adjust_wakes_twice T fields : 0 < T -> (forall env pl o, In (Wake env pl o) fields -> 0 < o_dt o) ->
  adjust_wakes T (adjust_wakes T fields) = adjust_wakes T fields.
Proof.
  intros HT. induction fields as [|[env pl o|c] r IH]; intros H; [reflexivity| |]; cbn.
  - rewrite adjust_twice, IH; [reflexivity| |exact HT|apply (H env pl); left; reflexivity].
    intros e p q Hq. apply (H e p). right. exact Hq.
  - rewrite IH; [reflexivity|]. intros e p q Hq. apply (H e p). right. exact Hq.
Qed.
