(** C50, C51, C54, C83, C84: generation, files and analysis of bunches. *)
From Coq Require Import Reals ZArith String List Lia Lra.
Import ListNotations.
From Verif Require Import Model_Gen Spec_Gen Proofs_Gen Proofs_Gen2.
Open Scope R_scope.

Section Generators.
  Variable rng : Type.
  Variables (normal trunc : nat -> rng -> list R * rng) (light : R).
  Variable matched_beta : R -> option R -> option R -> outcome R.
  Notation from_twiss := (get_gaussian_bunch_from_twiss rng normal trunc light).
  Notation from_size := (get_gaussian_bunch_from_size rng normal trunc light).
  Notation matched := (get_matched_bunch rng normal trunc light matched_beta).

  (** C50: whatever the random numbers, the three generators return the charge asked for, spread
      equally over the particles. *)
  Theorem C50_twiss : forall P a_x a_y be_x be_y s b s', (1 <= int_of (g_npart P))%Z -> g_q P <> 0 ->
    from_twiss P a_x a_y be_x be_y s = Done (b, s') -> carries P b.
  Proof. intros P a_x a_y be_x be_y s b s' H1 H2 H. exact (charge_total rng normal trunc light P a_x a_y be_x be_y s b s' H H1 H2). Qed.
  Theorem C50_size : forall P s_x s_y s b s', (1 <= int_of (g_npart P))%Z -> g_q P <> 0 ->
    from_size P s_x s_y s = Done (b, s') -> carries P b.
  Proof. intros P s_x s_y s b s' H1 H2 H. exact (C50_twiss P 0 0 _ _ s b s' H1 H2 H). Qed.
  Theorem C50_matched : forall P n_p k_x s b s', (1 <= int_of (g_npart P))%Z -> g_q P <> 0 ->
    matched P n_p k_x s = Done (b, s') -> carries P b.
  Proof.
    intros P n_p k_x s b s' H1 H2 H. unfold get_matched_bunch in H.
    destruct (matched_beta (g_ene P) (option_map (fun n => n * 1e-6) n_p) k_x) as [be | e]; [| discriminate].
    exact (C50_twiss P 0 0 be be s b s' H1 H2 H).
  Qed.
  (** The number asked for is cut towards zero. *)
  Theorem C50_number : forall x, (0 <= x -> IZR (int_of x) <= x < IZR (int_of x) + 1) /\
    (x < 0 -> IZR (int_of x) - 1 < x <= IZR (int_of x)).
  Proof. exact int_of_spec. Qed.
  (** All arrays have that many entries. *)
  Theorem C50_counts : forall P a_x a_y be_x be_y s b s', gives normal -> gives trunc ->
    from_twiss P a_x a_y be_x be_y s = Done (b, s') ->
    let n := Z.to_nat (int_of (g_npart P)) in
    length (b_w b) = n /\ length (b_x b) = n /\ length (b_y b) = n /\ length (b_xi b) = n /\
    length (b_px b) = n /\ length (b_py b) = n /\ length (b_pz b) = n /\ b_prop b = 0.
  Proof. exact (counts rng normal trunc light). Qed.
  (** A bunch is returned exactly for a number, duration and spread that are not negative. *)
  Theorem C50_when : forall P a_x a_y be_x be_y s, 0 < light -> 0 < g_ene P ->
    let ok := (0 <= int_of (g_npart P))%Z /\ 0 <= g_st P /\ 0 <= g_enesp P in
    (ok -> exists b s', from_twiss P a_x a_y be_x be_y s = Done (b, s')) /\
    (~ ok -> from_twiss P a_x a_y be_x be_y s = Raised ValueError).
  Proof. exact (when_done rng normal trunc light). Qed.

  (** C51: sizes and Twiss parameters with these sizes give the same bunch. *)
  Theorem C51_same : forall P s_x s_y b_x b_y s, 0 < g_enx P -> 0 < g_eny P -> 0 < g_ene P ->
    0 <= s_x -> 0 <= s_y -> 0 <= b_x -> 0 <= b_y ->
    sqrt (g_enx P / g_ene P * b_x) = s_x -> sqrt (g_eny P / g_ene P * b_y) = s_y ->
    from_size P s_x s_y s = from_twiss P 0 0 b_x b_y s.
  Proof. exact (size_twiss rng normal trunc light). Qed.
  Theorem C51_inverse : forall P b_x b_y s, 0 < g_enx P -> 0 < g_eny P -> 0 < g_ene P -> 0 <= b_x -> 0 <= b_y ->
    from_twiss P 0 0 b_x b_y s
    = from_size P (sqrt (g_enx P / g_ene P * b_x)) (sqrt (g_eny P / g_ene P * b_y)) s.
  Proof.
    intros P b_x b_y s H1 H2 H3 H4 H5. symmetry.
    apply size_twiss; auto; apply sqrt_pos.
  Qed.
  Theorem C51_sizes : forall P s_x s_y s b s', 0 < g_enx P -> 0 < g_eny P -> 0 < g_ene P ->
    0 <= s_x -> 0 <= s_y -> from_size P s_x s_y s = Done (b, s') ->
    exists d, drawn normal trunc (Z.to_nat (int_of (g_npart P))) s d s' /\
      b_x b = map (fun u => s_x * u + g_xoff P) (r_ux d) /\ b_y b = map (fun u => s_y * u + g_yoff P) (r_uy d).
  Proof. exact (size_positions rng normal trunc light). Qed.

  (** C83: each particle is a linear image of its random numbers with the Twiss parameters asked
      for ... *)
  Theorem C83_particles : forall P a_x a_y be_x be_y s b s', gives normal -> gives trunc ->
    0 < g_enx P -> 0 < g_eny P -> 0 < g_ene P -> 0 < be_x -> 0 < be_y ->
    from_twiss P a_x a_y be_x be_y s = Done (b, s') ->
    exists d, drawn normal trunc (Z.to_nat (int_of (g_npart P))) s d s' /\
    forall i, (i < Z.to_nat (int_of (g_npart P)))%nat ->
      nth i (b_xi b) 0 = g_xic P + g_st P * 1e-15 * light * nth i (r_t d) 0 /\
      nth i (b_pz b) 0 = g_ene P * (1 + g_enesp P / 100 * nth i (r_z d) 0) /\
      (nth i (b_pz b) 0 <> 0 ->
       made_of (g_enx P / g_ene P) a_x be_x (g_xoff P) (g_thx P * g_ene P) (b_x b) (b_px b) (b_pz b) (r_ux d) (r_vx d) i /\
       made_of (g_eny P / g_ene P) a_y be_y (g_yoff P) (g_thy P * g_ene P) (b_y b) (b_py b) (b_pz b) (r_uy d) (r_vy d) i).
  Proof. exact (particles rng normal trunc light). Qed.
  (** ... so that normal numbers with exact moments give exactly the centroid, pointing, Twiss
      parameters and emittance asked for; in general the emittance is multiplied by that of the
      random numbers. *)
  Theorem C83_twiss : forall P a_x a_y be_x be_y s b s', gives normal -> gives trunc -> sensible P ->
    0 < be_x -> 0 < be_y -> from_twiss P a_x a_y be_x be_y s = Done (b, s') ->
    List.Forall (fun p => p <> 0) (b_pz b) ->
    exists d, drawn normal trunc (Z.to_nat (int_of (g_npart P))) s d s' /\
    (standard (r_ux d) (r_vx d) ->
      let x := b_x b in let xp := slopes_of (g_thx P * g_ene P) (b_px b) (b_pz b) in
      mean x = g_xoff P /\ mean xp = 0 /\ has_twiss x xp (g_enx P / g_ene P) a_x be_x) /\
    (standard (r_uy d) (r_vy d) ->
      let y := b_y b in let yp := slopes_of (g_thy P * g_ene P) (b_py b) (b_pz b) in
      mean y = g_yoff P /\ mean yp = 0 /\ has_twiss y yp (g_eny P / g_ene P) a_y be_y) /\
    (let x := b_x b in let xp := slopes_of (g_thx P * g_ene P) (b_px b) (b_pz b) in
      covariance x x * covariance xp xp - covariance x xp ^ 2
      = (g_enx P / g_ene P) ^ 2 * (covariance (r_ux d) (r_ux d) * covariance (r_vx d) (r_vx d)
          - covariance (r_ux d) (r_vx d) ^ 2)) /\
    (let y := b_y b in let yp := slopes_of (g_thy P * g_ene P) (b_py b) (b_pz b) in
      covariance y y * covariance yp yp - covariance y yp ^ 2
      = (g_eny P / g_ene P) ^ 2 * (covariance (r_uy d) (r_uy d) * covariance (r_vy d) (r_vy d)
          - covariance (r_uy d) (r_vy d) ^ 2)).
  Proof. exact (moments rng normal trunc light). Qed.
  (** No particle is further than three rms lengths from the centre. *)
  Theorem C83_length : forall P a_x a_y be_x be_y s b s',
    (forall n s, List.Forall (fun t => -3 <= t <= 3) (fst (trunc n s))) ->
    from_twiss P a_x a_y be_x be_y s = Done (b, s') ->
    List.Forall (fun xi => Rabs (xi - g_xic P) <= 3 * (g_st P * 1e-15 * light)) (b_xi b).
  Proof. exact (within_three rng normal trunc light). Qed.
  (** A matched bunch has the matched beta function of a plasma whose density is given in 1/m^3, or
      of a focusing gradient; under this focusing its sizes, divergences and emittance stay. *)
  Theorem C83_matched : forall P n k_x be s, matched_beta (g_ene P) (Some n) k_x = Done be ->
    matched P (Some (n * 1e6)) k_x s = from_twiss P 0 0 be be s.
  Proof.
    intros P n k_x be s H. unfold get_matched_bunch. cbn [option_map].
    replace (n * 1e6 * 1e-6) with n by (field_simplify; lra). rewrite H. reflexivity.
  Qed.
  Theorem C83_gradient : forall P k be s, matched_beta (g_ene P) None (Some k) = Done be ->
    matched P None (Some k) s = from_twiss P 0 0 be be s.
  Proof. intros P k be s H. unfold get_matched_bunch. cbn [option_map]. rewrite H. reflexivity. Qed.
  Theorem C83_unmatched : forall P n_p k_x e s, matched_beta (g_ene P) (option_map (fun n => n * 1e-6) n_p) k_x = Raised e ->
    matched P n_p k_x s = Raised e.
  Proof. intros P n_p k_x e s H. unfold get_matched_bunch. rewrite H. reflexivity. Qed.
End Generators.
Theorem C83_stays : forall x xp em b ph, length x = length xp -> (0 < length x)%nat -> 0 < b ->
  has_twiss x xp em 0 b -> has_twiss (fst (rotate b ph x xp)) (snd (rotate b ph x xp)) em 0 b.
Proof. exact matched_stays. Qed.
(** Not vacuous: four particles with exact moments. *)
Definition four (n : nat) (s : nat) : list R * nat :=
  (firstn n (match s with 0%nat | 2%nat | 5%nat => [1; 1; -1; -1] | _ => [1; -1; 1; -1] end ++ repeat 0 n), S s).
Example C83_example : gives four /\ standard [1; 1; -1; -1] [1; -1; 1; -1] /\
  exists P b s', sensible P /\ get_gaussian_bunch_from_twiss nat four four 3e8 P 1 0 2 3 0%nat = Done (b, s') /\
    List.Forall (fun p => p <> 0) (b_pz b) /\ has_twiss (b_x b) (slopes_of 0 (b_px b) (b_pz b)) (1 / 100) 1 2.
Proof.
  assert (G : gives four).
  { intros n s. unfold four. cbn [fst]. rewrite firstn_length, app_length, repeat_length.
    destruct s as [| [| [| [| [| [|]]]]]]; cbn [length]; lia. }
  assert (S : standard [1; 1; -1; -1] [1; -1; 1; -1])
    by (unfold standard, mean2, mean; cbn; repeat split; field).
  split; [exact G |]. split; [exact S |].
  set (P := mkp 1 1 100 0 1 0 30 4 0 0 0 0 None (-1) 1).
  assert (I : int_of (g_npart P) = 4%Z).
  { cbn. pose proof (proj1 (int_of_spec 4) ltac:(lra)) as K.
    assert (A : (int_of 4 < 5)%Z) by (apply lt_IZR; lra). assert (B : (3 < int_of 4)%Z) by (apply lt_IZR; lra). lia. }
  assert (SP : sensible P) by (constructor; [cbn; lra .. | rewrite I; lia | cbn; lra]).
  exists P.
  set (d := mkdraws [1; 1; -1; -1] [1; -1; 1; -1] [1; 1; -1; -1] [1; -1; 1; -1] [1; -1; 1; -1] [1; 1; -1; -1]).
  assert (D : drawn four four (Z.to_nat (int_of (g_npart P))) 0%nat d 6%nat).
  { rewrite I. exists 1%nat, 2%nat, 3%nat, 4%nat, 5%nat. cbn. auto 7. }
  pose proof (twiss_drawn nat four four 3e8 P 1 0 2 3 0%nat d 6%nat D ltac:(rewrite I; lia) ltac:(cbn; lra) ltac:(cbn; lra)) as T.
  assert (F : List.Forall (fun p => p <> 0) (b_pz (result_of 3e8 P 1 0 2 3 d))) by (cbn; repeat constructor; lra).
  exists (result_of 3e8 P 1 0 2 3 d), 6%nat. split; [exact SP |]. split; [exact T |]. split; [exact F |].
  destruct (C83_twiss nat four four 3e8 P 1 0 2 3 0%nat _ _ G G SP ltac:(lra) ltac:(lra) T F) as (d' & D' & H & _).
  assert (E : r_ux d' = r_ux d /\ r_vx d' = r_vx d).
  { destruct D as (s1 & s2 & ? & ? & ? & A1 & A2 & _). destruct D' as (t1 & t2 & ? & ? & ? & B1 & B2 & _).
    rewrite A1 in B1. assert (r_ux d' = r_ux d) by congruence. assert (t1 = s1) by congruence. subst t1.
    rewrite A2 in B2. split; congruence. }
  destruct E as [E1 E2]. rewrite E1, E2 in H. destruct (H S) as (_ & _ & K). 
  assert (Z : g_thx P * g_ene P = 0) by (cbn; ring). rewrite Z in K. exact K.
Qed.

Section Files.
  Variables (path disk : Type).
  Variable save : distribution -> path -> string -> option string -> disk -> outcome disk.
  Variable read : path -> string -> option string -> disk -> outcome distribution.
  Variable species : path -> disk -> list string.
  Notation get := (get_from_file path disk read species).
  Notation put := (save_bunch_to_file path disk save).

  (** C54: without a species, a file with exactly one species is read as if it had been named; any
      other file raises ValueError. *)
  Theorem C54_one : forall p pres nm d sp, species p d = [sp] ->
    get p "openpmd" pres nm None d = get p "openpmd" pres nm (Some sp) d.
  Proof. intros p pres nm d sp H. rewrite get_unnamed, H. reflexivity. Qed.
  Theorem C54_others : forall p pres nm d, length (species p d) <> 1%nat ->
    get p "openpmd" pres nm None d = Raised ValueError.
  Proof.
    intros p pres nm d H. rewrite get_unnamed. destruct (species p d) as [| s [| t l]]; [reflexivity | | reflexivity].
    exfalso. apply H. reflexivity.
  Qed.
  (** A species that is given is the one read; other formats have no species; a total weight of zero
      raises ZeroDivisionError. *)
  Theorem C54_read : forall p f pres nm sp d D, read p f (if String.eqb f "openpmd" then Some sp else None) d = Done D ->
    fold_right Rplus 0 (d_w D) <> 0 -> exists b, get p f pres nm (Some sp) d = Done b /\
      b_name b = match nm with Some n => Some n | None => if String.eqb f "openpmd" then Some sp else None end /\
      b_w b = d_w D /\ b_x b = d_x D /\ b_y b = d_y D /\ b_px b = d_px D /\ b_py b = d_py D /\ b_pz b = d_pz D /\
      b_q b = d_q D /\ b_m b = d_m D.
  Proof.
    intros p f pres nm sp d D H W. rewrite get_named by (right; discriminate). rewrite H, average_ok by assumption.
    eexists. split; [reflexivity |]. cbn. destruct nm; auto 12.
  Qed.
  Theorem C54_fails : forall p f pres nm sp d e, read p f (if String.eqb f "openpmd" then Some sp else None) d = Raised e ->
    get p f pres nm (Some sp) d = Raised e.
  Proof. intros p f pres nm sp d e H. rewrite get_named by (right; discriminate). rewrite H. reflexivity. Qed.
  Theorem C54_other_format : forall p f pres nm sp d, f <> "openpmd"%string ->
    get p f pres nm sp d = get p f pres nm None d /\
    forall b, get p f pres nm sp d = Done b -> b_name b = nm.
  Proof.
    intros p f pres nm sp d H.
    split; [rewrite !get_named by (left; assumption); destruct (String.eqb_spec f "openpmd") as [C | _]; [contradiction | reflexivity] |].
    intros b. rewrite get_named by (left; assumption). destruct (String.eqb_spec f "openpmd") as [C | _]; [contradiction |].
    destruct (read p f None d) as [D |]; [| discriminate]. destruct (average (d_z D) (d_w D)); [| discriminate].
    intro E. match type of E with Done ?m = _ => assert (b = m) as -> by congruence end. cbn. destruct nm; reflexivity.
  Qed.
  (** The bunch is centred: its weighted mean position is zero and it is only shifted; on demand the
      shift is kept as distance travelled, so that absolute positions are those of the file. *)
  Theorem C54_centred : forall p f pres nm sp d b, get p f pres nm sp d = Done b ->
    length (b_xi b) = length (b_w b) -> weighted_mean (b_xi b) (b_w b) = 0.
  Proof.
    intros p f pres nm sp d b H L. destruct (get_ok _ _ _ _ _ _ _ _ _ _ _ H) as (D & _ & E1 & _ & _ & _ & _ & _ & _ & _ & E2 & _ & W).
    rewrite E1, E2 in *. apply centred; [rewrite map_length in L; exact L | exact W].
  Qed.
  Theorem C54_positions : forall p f nm sp d b pres, get p f pres nm sp d = Done b ->
    exists D s m, read p f s d = Done D /\ m = weighted_mean (d_z D) (d_w D) /\
      b_prop b = (if pres then m else 0) /\ map (fun x => x + m) (b_xi b) = d_z D.
  Proof.
    intros p f nm sp d b pres H. destruct (get_ok _ _ _ _ _ _ _ _ _ _ _ H) as (D & [s E0] & E1 & _ & _ & _ & _ & _ & _ & _ & E2 & E3 & W).
    exists D, s, (weighted_mean (d_z D) (d_w D)). split; [exact E0 |]. split; [reflexivity |]. split; [exact E3 |].
    rewrite E2, map_map. transitivity (map (fun x => x) (d_z D)); [apply map_ext; intro; ring | apply map_id].
  Qed.
  (** A saved and re-read bunch has the same particles up to centring, and its name if no other is
      given (openPMD). *)
  Theorem C54_round_trip : forall b nm f p sp d d' pres n', faithful save read species ->
    put b nm f p sp d = Done d' -> fold_right Rplus 0 (b_w b) <> 0 ->
    get p f pres n' None d' = Done (mkb (b_w b) (b_x b) (b_y b)
      (map (fun z => z - weighted_mean (b_xi b) (b_w b)) (b_xi b)) (b_px b) (b_py b) (b_pz b)
      (match n' with Some _ => n' | None =>
         if String.eqb f "openpmd" then Some (match sp with Some s => s | None => nm end) else None end)
      (b_q b) (b_m b) (if pres then weighted_mean (b_xi b) (b_w b) else 0)).
  Proof. exact (round_trip path disk save read species). Qed.
  Theorem C54_centred_bunch : forall b nm p d d' pres, faithful save read species ->
    put b nm "openpmd" p None d = Done d' -> fold_right Rplus 0 (b_w b) <> 0 -> weighted_mean (b_xi b) (b_w b) = 0 ->
    get p "openpmd" pres None None d' = Done (mkb (b_w b) (b_x b) (b_y b) (b_xi b) (b_px b) (b_py b) (b_pz b)
      (Some nm) (b_q b) (b_m b) 0).
  Proof.
    intros b nm p d d' pres F H W M. rewrite (C54_round_trip b nm "openpmd" p None d d' pres None F H W), M. cbn [String.eqb].
    replace (map (fun z => z - 0) (b_xi b)) with (b_xi b)
      by (rewrite <- (map_id (b_xi b)) at 1; apply map_ext; intro; ring). destruct pres; reflexivity.
  Qed.
End Files.
(** A file of one distribution is such a library. *)
Definition one_file := option (distribution * string * option string).
Definition one_save (D : distribution) (p : unit) (f : string) (s : option string) (d : one_file) : outcome one_file := Done (Some (D, f, s)).
Definition one_read (p : unit) (f : string) (s : option string) (d : one_file) : outcome distribution :=
  match d with
  | Some (D, f', s') => if String.eqb f f' then
      match s, s' with Some a, Some b => if String.eqb a b then Done D else Raised ValueError | None, None => Done D
      | _, _ => Raised ValueError end else Raised ValueError
  | None => Raised ValueError
  end.
Definition one_species (p : unit) (d : one_file) : list string :=
  match d with Some (_, _, Some s) => [s] | _ => [] end.
Example C54_example : faithful one_save one_read one_species /\
  get_from_file unit one_file one_read one_species tt "openpmd" false None None None = Raised ValueError /\
  fold_right Rplus 0 [1; 3] <> 0 /\ weighted_mean [2; 6] [1; 3] = 5.
Proof.
  split.
  - intros D p f s d d' H. assert (d' = Some (D, f, s)) by (unfold one_save in H; congruence). subst d'. split.
    + unfold one_read. rewrite String.eqb_refl. destruct s as [s |]; [rewrite String.eqb_refl |]; reflexivity.
    + intros sp ->. reflexivity.
  - split; [reflexivity |]. split; [cbn; lra |]. unfold weighted_mean. cbn. lra.
Qed.
(** The distance travelled is not stored: it does not survive the round trip. *)
Theorem C54_distance_refuted : exists b d', b_prop b = 7 /\
  save_bunch_to_file unit one_file one_save b "b" "openpmd" tt None None = Done d' /\
  (exists c, get_from_file unit one_file one_read one_species tt "openpmd" true None None d' = Done c /\ b_prop c = 0).
Proof.
  exists (mkb [1] [0] [0] [0] [0] [0] [1] None 1 1 7). eexists. split; [reflexivity |]. split; [reflexivity |].
  exists (mkb [1] [0] [0] [0] [0] [0] [1] (Some "b"%string) 1 1 0). split; [| reflexivity].
  unfold get_from_file. cbn. unfold average. cbn. destruct (Req_EM_T (1 + 0) 0) as [C | _]; [lra |].
  replace ((0 * 1 + 0) / (1 + 0)) with 0 by field. replace (0 - 0) with 0 by ring. reflexivity.
Qed.

Section Analysis.
  Variable slicing : Type.
  Variable tw : list R -> list R -> list R -> list R -> list R -> R * R * R.
  Variables (me re : list R -> list R -> list R -> list R -> R).
  Variable se : list R -> list R -> list R -> list R -> list R -> slicing -> R.
  Variable em : list R -> list R -> list R -> list R -> list R -> R.
  Variable sem : list R -> list R -> list R -> list R -> list R -> list R -> slicing -> R.
  Variables (rl rs : list R -> list R -> R).
  Variable pc : list R -> list R -> slicing -> R.
  Notation analyze := (analyze_bunch slicing tw me re se em sem rl rs pc).
  Notation analyze_list := (analyze_bunch_list slicing tw me re se em sem rl rs pc).

  (** C84: the analysis of a list of bunches is that of each of them, key by key. *)
  Theorem C84_list : forall l sl D, analyze_list l sl = Done D -> forall i b, nth_error l i = Some b ->
    exists A, analyze b sl = Done A /\ forall k, lookup k A = option_map (fun v => nth i v 0) (lookup k D).
  Proof. exact (list_ok slicing tw me re se em sem rl rs pc). Qed.
  Theorem C84_lengths : forall l sl D, analyze_list l sl = Done D -> forall k v, lookup k D = Some v -> length v = length l.
  Proof. exact (list_keys slicing tw me re se em sem rl rs pc). Qed.
  (** What the keys mean. Charges weigh like the weights of the particles. *)
  Theorem C84_keys : forall b sl, total_charge b <> 0 ->
    let q := map (fun w => w * b_q b) (b_w b) in
    let ene := me (b_px b) (b_py b) (b_pz b) q in
    let twx := tw (b_x b) (b_px b) (b_pz b) (b_py b) q in
    let twy := tw (b_y b) (b_py b) (b_pz b) (b_px b) q in
    exists A, analyze b sl = Done A /\
      lookup "prop_dist" A = Some (b_prop b) /\ lookup "q_tot" A = Some (total_charge b) /\
      lookup "x_avg" A = Some (weighted_mean (b_x b) (b_w b)) /\ lookup "y_avg" A = Some (weighted_mean (b_y b) (b_w b)) /\
      lookup "theta_x" A = Some (weighted_mean (b_px b) (b_w b) / ene) /\
      lookup "theta_y" A = Some (weighted_mean (b_py b) (b_w b) / ene) /\
      lookup "sigma_x" A = Some (rs (b_x b) q) /\ lookup "sigma_y" A = Some (rs (b_y b) q) /\
      lookup "sigma_z" A = Some (rl (b_xi b) q) /\
      lookup "alpha_x" A = Some (fst (fst twx)) /\ lookup "beta_x" A = Some (snd (fst twx)) /\ lookup "gamma_x" A = Some (snd twx) /\
      lookup "alpha_y" A = Some (fst (fst twy)) /\ lookup "beta_y" A = Some (snd (fst twy)) /\ lookup "gamma_y" A = Some (snd twy) /\
      lookup "emitt_x" A = Some (em (b_x b) (b_px b) (b_py b) (b_pz b) q) /\
      lookup "emitt_y" A = Some (em (b_y b) (b_py b) (b_px b) (b_pz b) q) /\
      lookup "avg_slice_emitt_x" A = Some (sem (b_xi b) (b_x b) (b_px b) (b_py b) (b_pz b) q sl) /\
      lookup "avg_slice_emitt_y" A = Some (sem (b_xi b) (b_y b) (b_py b) (b_px b) (b_pz b) q sl) /\
      lookup "avg_ene" A = Some ene /\ lookup "rel_ene_spread" A = Some (re (b_px b) (b_py b) (b_pz b) q) /\
      lookup "avg_slice_rel_ene_spread" A = Some (se (b_xi b) (b_px b) (b_py b) (b_pz b) q sl) /\
      lookup "i_peak" A = Some (pc (b_xi b) q sl).
  Proof.
    intros b sl H q ene twx twy. unfold analyze_bunch, params_of, get_distribution_parameters.
    change (charges b) with q. fold twx twy ene. destruct twx as [[a1 a2] a3]. destruct twy as [[c1 c2] c3].
    assert (Hq : fold_right Rplus 0 q <> 0) by (change q with (charges b); rewrite charges_sum; exact H).
    rewrite !average_ok by exact Hq. eexists. split; [reflexivity |]. cbn [nth lookup store_bunch_parameters_into_dict fst snd].
    change q with (charges b). rewrite !charge_mean by exact H. unfold sum. rewrite charges_sum.
    cbn. auto 30.
  Qed.
  (** It fails exactly for a bunch without charge. *)
  Theorem C84_fails : forall b sl, total_charge b = 0 -> analyze b sl = Raised ZeroDivisionError.
  Proof. intros b sl H. unfold analyze_bunch. rewrite params_fail by exact H. reflexivity. Qed.
  Theorem C84_list_done : forall l sl, (forall b, In b l -> total_charge b <> 0) <-> exists D, analyze_list l sl = Done D.
  Proof.
    intros l sl. split.
    - intro H. destruct (all_done slicing tw me re se em sem rl rs pc l sl H) as [rows E].
      unfold analyze_bunch_list. rewrite E. eexists. reflexivity.
    - intros [D H] b Hb C. destruct (In_nth_error _ _ Hb) as [i Hi].
      destruct (C84_list l sl D H i b Hi) as (A & HA & _). rewrite (C84_fails b sl C) in HA. discriminate.
  Qed.
End Analysis.

Print Assumptions C50_twiss.
Print Assumptions C50_size.
Print Assumptions C50_matched.
Print Assumptions C50_number.
Print Assumptions C50_counts.
Print Assumptions C50_when.
Print Assumptions C51_same.
Print Assumptions C51_inverse.
Print Assumptions C51_sizes.
Print Assumptions C83_particles.
Print Assumptions C83_twiss.
Print Assumptions C83_length.
Print Assumptions C83_matched.
Print Assumptions C83_gradient.
Print Assumptions C83_unmatched.
Print Assumptions C83_stays.
Print Assumptions C54_one.
Print Assumptions C54_others.
Print Assumptions C54_read.
Print Assumptions C54_fails.
Print Assumptions C54_other_format.
Print Assumptions C54_centred.
Print Assumptions C54_positions.
Print Assumptions C54_round_trip.
Print Assumptions C54_centred_bunch.
Print Assumptions C54_distance_refuted.
Print Assumptions C84_list.
Print Assumptions C84_lengths.
Print Assumptions C84_keys.
Print Assumptions C84_fails.
Print Assumptions C84_list_done.
