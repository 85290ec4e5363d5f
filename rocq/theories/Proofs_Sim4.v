(** A push of a bunch of a simulation: what it does to particles and attributes. *)
From Coq Require Import QArith Reals Qreals String List Arith Lia Lra.
From Coquelicot Require Import Coquelicot.
From Verif Require Import Model_Push Spec_Push Proofs_Push Model_Interp Model_Tracker Model_Run Model_RZ
  Model_Bunch Spec_Bunch Proofs_Bunch Model_Sim Spec_Sim Proofs_Sim3.
Import ListNotations.
Open Scope R_scope.

Definition acts (hb : tracked) (fields : list efield) : option (list efield) :=
  match z_injection (snd hb) with
  | None => Some fields
  | Some z => match amax (map xi (parts hb)) with
              | None => None
              | Some m => if Rlt_dec (m + prop_distance (snd hb)) z then Some [] else Some fields
              end
  end.
Definition push1 (pusher : string) (fs : list efield) (q m t dt : R) : part -> option part :=
  if String.eqb pusher "rk4" then rk4_1 fs (q / (m * c_SI)) t dt
  else if String.eqb pusher "boris" then boris1 fs (q / (m * c_SI)) t dt
  else fun _ => None.
Definition knownb (pusher : string) : bool := orb (String.eqb pusher "rk4") (String.eqb pusher "boris").
(** The attributes after a push. *)
Definition moved_on (b b' : bunch) (d : R) : Prop :=
  b_tags b' = b_tags b /\ prop_distance b' = prop_distance b + d /\ t_flight b' = t_flight b /\
  z_injection b' = z_injection b /\ x_ref b' = x_ref b /\ theta_ref b' = theta_ref b /\
  b_name b' = b_name b /\ q_species b' = q_species b /\ m_species b' = m_species b.

Lemma fld_length h b : Spec_Bunch.fits h b -> length (field_arrays (length (rd h (b_x b))) b) = length (rd h (b_x b)).
Proof.
  intros [F _]. unfold field_arrays. destruct (b_fld b) eqn:E; [apply F; reflexivity|apply repeat_length].
Qed.
Definition pushed (pusher : string) (fields : list efield) (hb : tracked) (t dt : R) : option (list part) :=
  match acts hb fields with
  | None => None
  | Some fs => if knownb pusher
               then travo (push1 pusher fs (q_species (snd hb)) (m_species (snd hb)) t dt) (parts hb) else None
  end.
Lemma push_cases pusher fields hb t dt : sound hb ->
  match push_bunch pusher fields hb t dt with
  | Some hb' => pushed pusher fields hb t dt = Some (parts hb') /\ sound hb' /\
      weights hb' = weights hb /\ moved_on (snd hb) (snd hb') (dt * c_SI)
  | None => pushed pusher fields hb t dt = None
  end.
Proof.
  destruct hb as [h b]. intros [V F]. cbn [fst snd] in V, F.
  pose proof (arrays_of_particles h b V) as (_ & _ & AX & _).
  unfold push_bunch, pushed. fold (parts (h, b)).
  assert (EA : match z_injection b with
      | Some z => match amax (rd h (b_xi b)) with
                  | Some m => if Rlt_dec (m + prop_distance b) z then Some [] else Some fields
                  | None => None end
      | None => Some fields end = acts (h, b) fields).
  { unfold acts, parts. cbn [fst snd]. rewrite AX. reflexivity. }
  rewrite EA. destruct (acts (h, b) fields) as [fs|]; [|reflexivity]. cbn [snd].
  assert (LP : length (parts (h, b)) = length (rd h (b_x b))) by apply particles_length.
  pose proof (fld_length h b F) as LF.
  unfold knownb, push1. destruct (String.eqb pusher "rk4") eqn:E1; cbn [orb].
  - destruct (rk4_arrays _ b) as [[co d] k].
    pose proof (rk4_pt (q_species b) (m_species b) fs t dt (parts (h, b))
      (mkrk co d k (field_arrays (length (rd h (b_x b))) b))) as P. cbn [Model_Push.r_fld] in P.
    specialize (P ltac:(lia)). change (particles h b) with (parts (h, b)).
    destruct (rk4 _ _ _ _ _ _ _) as [[l' a]|e]; [|exact P].
    destruct P as (P & L1 & L2 & L3 & L4). pose proof (travo_length _ _ _ P) as Ll.
    pose proof (write_read h b l' V) as (W1 & W2 & _ & _).
    pose proof (valid_write h b l' V ltac:(lia)) as (V' & VL).
    split; [rewrite P; f_equal; symmetry; exact W1|].
    split; [|split; [exact W2|repeat split]].
    split; [exact V'|]. split.
    + intros f Hf. cbn in Hf. injection Hf as <-.
      change (length (Model_Push.r_fld a) = length (rd (write_particles h b l') (b_x b))). rewrite VL. lia.
    + intros c0 d0 k0 Hc. cbn in Hc. injection Hc as <- <- <-.
      change (length (r_coord a) = length (rd (write_particles h b l') (b_x b)) /\
        length (r_push a) = length (rd (write_particles h b l') (b_x b)) /\
        length (r_k a) = length (rd (write_particles h b l') (b_x b))).
      rewrite VL. lia.
  - destruct (String.eqb pusher "boris") eqn:E2; [|reflexivity].
    pose proof (boris_pt (q_species b) (m_species b) fs t dt (parts (h, b))
      (field_arrays (length (rd h (b_x b))) b) ltac:(lia)) as P. change (particles h b) with (parts (h, b)).
    cbv zeta. destruct (boris _ _ _ _ _ _ _) as [[l' f']|e]; [|exact P].
    destruct P as (P & L1). pose proof (travo_length _ _ _ P) as Ll.
    pose proof (write_read h b l' V) as (W1 & W2 & _ & _).
    pose proof (valid_write h b l' V ltac:(lia)) as (V' & VL).
    split; [rewrite P; f_equal; symmetry; exact W1|].
    split; [|split; [exact W2|repeat split]].
    split; [exact V'|]. split.
    + intros f Hf. cbn in Hf. injection Hf as <-.
      change (length f' = length (rd (write_particles h b l') (b_x b))). rewrite VL. lia.
    + intros c0 d0 k0 Hc. cbn in Hc. destruct F as [_ F2]. specialize (F2 _ _ _ Hc).
      change (length c0 = length (rd (write_particles h b l') (b_x b)) /\
        length d0 = length (rd (write_particles h b l') (b_x b)) /\
        length k0 = length (rd (write_particles h b l') (b_x b))).
      rewrite VL. lia.
Qed.

(** Copies. *)
Definition copy_attributes (b b' : bunch) : Prop :=
  b_tags b' = None /\ prop_distance b' = prop_distance b /\ t_flight b' = 0 /\
  z_injection b' = None /\ x_ref b' = x_ref b /\ theta_ref b' = theta_ref b /\
  b_name b' = b_name b /\ q_species b' = q_species b /\ m_species b' = m_species b.
Lemma copy_sound hb : sound hb ->
  sound (copy_tracked hb) /\ parts (copy_tracked hb) = parts hb /\ weights (copy_tracked hb) = weights hb /\
  copy_attributes (snd hb) (snd (copy_tracked hb)).
Proof.
  destruct hb as [h b]. intros [V F]. cbn [fst snd] in V, F. unfold copy_tracked. cbn [fst snd].
  destruct (copy h 0 b) as [[h' c] n'] eqn:E. cbn [fst snd].
  pose proof (copy_contents _ _ _ _ _ _ E) as C. unfold contents in C. injection C as C1 C2.
  assert (A : b_fld c = None /\ b_rk c = None /\ copy_attributes b c).
  { unfold copy, alloc in E. cbn in E. injection E as <- <- <-. repeat split. }
  destruct A as (A1 & A2 & A3).
  split; [|split; [exact C1|split; [exact C2|exact A3]]].
  split; cbn [fst snd]; [|split; [intros f; rewrite A1; discriminate|intros u v w; rewrite A2; discriminate]].
  destruct (copy_fresh _ _ _ _ _ _ E) as (_ & _ & R1 & R2). split; [exact R2|]. split; [intros a Ha; apply R1, Ha|].
  pose proof (copy_arrays _ _ _ _ _ _ E) as CA. destruct V as (_ & _ & VL).
  assert (G : forall a, In a (footprint c) -> length (rd h' a) = length (rd h (b_x b))).
  { intros a Ha. assert (Hi : In (rd h' a) (map (rd h) (footprint b))) by (rewrite <- CA; apply in_map, Ha).
    apply in_map_iff in Hi as (a0 & <- & Ha0). apply VL, Ha0. }
  intros a Ha. rewrite (G a Ha). symmetry. apply G. left. reflexivity.
Qed.
