(** Two-particle scatterings: src/scatteraction.cc (all of it except the transverse distances, which are in
    CollideModel.v), and random::expo, random::power of src/include/smash/random.h. Doubles are exact reals; random draws
    and what Pythia returns are arguments. Without potentials: total_momentum_of_outgoing_particles
    (action.cc:160-188) is then the sum of the incoming momenta. *)
From Coq Require Import ZArith Reals List Bool.
From Verif Require Import Base VecModel MotionModel.
Import ListNotations.
Open Scope R_scope.

(** ** Random numbers *)
(** random::uniform, random.h:87-90, for the canonical number [u] *)
Definition uniform (lo hi u : R) : R := lo + (hi - lo) * u.
(** the logarithm of the smallest normalised double, random.h:168 *)
Definition a_min : R := ln (/ 2 ^ 1022).
(** random::expo, random.h:165-181: one round of the loop (a number outside the range is rejected) *)
Definition expo_round (A hi lo u : R) : option R :=
  let r1 := exp (A * hi) in
  let r2 := if Rlt_dec a_min (A * lo) then exp (A * lo) else 0 in
  let x := ln (uniform r1 r2 u) / A in
  if Rle_dec x hi then if Rlt_dec lo x then Some x else None else None.
Fixpoint expo_loop (A hi lo : R) (us : list R) : res R :=
  match us with
  | [] => UB UB_no_progress
  | u :: us' => match expo_round A hi lo u with Some x => Ok x | None => expo_loop A hi lo us' end
  end.
(** with the assertion of line 170; [us] are the numbers drawn (too few: the loop goes on) *)
Definition expo (A hi lo : R) (us : list R) : res R :=
  if Rlt_dec 0 A then if Rle_dec lo hi then if Rlt_dec a_min (A * hi) then expo_loop A hi lo us
  else UB UB_assert else UB UB_assert else UB UB_assert.
(** std::pow of a number that is not negative; 0 to a negative power is infinite *)
Definition pow (x y : R) : res R :=
  if Req_EM_T x 0 then if Rlt_dec 0 y then Ok 0 else UB UB_div_zero else Ok (Rpower x y).
(** sgn, random.h:188-192 *)
Definition sgn (x : R) : R := if Rlt_dec 0 x then 1 else if Rlt_dec x 0 then -1 else 0.
(** random::power, random.h:202-214 (bounds of the same sign; for the first branch bounds that are not 0) *)
Definition power (n xmin xmax u : R) : res R :=
  let n1 := n + 1 in
  if Rlt_dec (Rabs n1) (/ 1000) then r <- pow (xmax / xmin) u ;; Ok (xmin * r)
  else if (if Rle_dec 0 xmin then if Rlt_dec 0 xmax then true else false else false) then
    a <- pow xmin n1 ;; b <- pow xmax n1 ;; pow (uniform a b u) (1 / n1)
  else
    a <- pow (Rabs xmin) n1 ;; b <- pow (Rabs xmax) n1 ;; r <- pow (uniform a b u) (1 / n1) ;; Ok (sgn xmin * r).

(** ** Angular distributions *)
(** nucleon_mass, constants.h:62 *)
Definition nucleon_mass : R := 938 / 1000.
(** high_energy_bpp, scatteraction.cc:438-441 *)
Definition high_energy_bpp (plab : R) : R := 76 / 10 + 66 / 100 * ln (s_from_plab plab nucleon_mass nucleon_mass).
(** Cugnon_bpp, scatteraction.cc:455-462 *)
Definition Cugnon_bpp (plab : R) : R :=
  if Rlt_dec plab 2 then 55 / 10 * plab ^ 8 / (77 / 10 + plab ^ 8)
  else Rmin (high_energy_bpp plab) (5334 / 1000 + 67 / 100 * (plab - 2)).
(** Cugnon_bnp, scatteraction.cc:474-484 *)
Definition Cugnon_bnp (plab : R) : R :=
  if Rlt_dec plab (225 / 1000) then 0
  else if Rlt_dec plab (6 / 10) then 1653 / 100 * (plab - 225 / 1000)
  else if Rlt_dec plab (16 / 10) then - (163 / 100) * plab + 716 / 100
  else Cugnon_bpp plab.

(** what the code asks about a particle species (pdgcode.h, particletype.h): nucleon, Delta(1232), N* or Delta*, antiparticle
    sign, charge *)
Record kind := Kind { k_nucleon : bool; k_delta : bool; k_star : bool; k_sign : Z; k_charge : Z }.
(** the numbers drawn: for expo, for power, for the flip, for the azimuth, for the cosine of an isotropic direction *)
Record adraws := ADraws { d_expo : list R; d_power : R; d_flip : R; d_phi : R; d_cos : R }.

(** slope and forward-backward coefficient of elastic scattering, scatteraction.cc:524-555; [el] Elastic *)
Definition elastic_s (nn : bool) (s m1 m2 : R) : R :=
  if nn then s
  else let p := pCM_from_s s m1 m2 in 4 * sqrt (p * p + nucleon_mass * nucleon_mass).
Definition is_pn (nn : bool) (a b : kind) : bool :=
  nn && (k_sign a =? k_sign b)%Z && (Z.abs (k_charge a + k_charge b) =? 1)%Z.
Definition elastic_slope (pn : bool) (plab : R) : R * R :=
  if pn then (Rmax (Cugnon_bnp plab) really_small, if Rlt_dec plab (8 / 10) then 1 else 64 / 100 / (plab * plab))
  else (Rmax (Cugnon_bpp plab) really_small, 1).
(** the exponent of NN -> N R, scatteraction.cc:585-586 *)
Definition resonance_index (m : R) : R :=
  146434 / 100000 + m * (580311 / 100000 + m * (- (689358 / 100000) + m * (194302 / 100000))).
(** mirror t in the middle of its range if the draw says so *)
Definition flip (b : bool) (t0 t1 t : R) : R := if b then t0 + t1 - t else t.
(** The squared momentum transfer, scatteraction.cc:516-607; None: isotropic. [ins] kinds of the incoming, [oa] and [ob] of
    the outgoing particles, [s] Mandelstam s, [m1] [m2] effective masses of the incoming particles, [ma] the first mass
    of the final state, (t0, t1) the range of t. *)
Definition sample_t (el isotropic : bool) (ia ib oa ob : kind) (s m1 m2 ma t0 t1 : R) (d : adraws) : res (option R) :=
  let nn := k_nucleon ia && k_nucleon ib in
  if el && negb isotropic then
    plab <- plab_from_s1 (elastic_s nn s m1 m2) nucleon_mass ;;
    let '(bb, a) := elastic_slope (is_pn nn oa ob) plab in
    t <- expo bb t0 t1 (d_expo d) ;;
    Ok (Some (flip (rltb (1 / (1 + a)) (d_flip d)) t0 t1 t))
  else if nn && k_delta oa && k_nucleon ob && (k_sign oa =? k_sign ob)%Z && negb isotropic then
    plab <- plab_from_s1 s nucleon_mass ;;
    t <- expo (Rmax (Cugnon_bpp plab) really_small) t0 t1 (d_expo d) ;;
    Ok (Some (flip (rltb (1 / 2) (d_flip d)) t0 t1 t))
  else if nn && k_nucleon ob && negb isotropic && k_star oa then
    let a := resonance_index ma in
    t <- (if Rlt_dec a 30 then power (- a) t0 t1 (d_power d) else Ok t0) ;;
    Ok (Some (flip (rltb (1 / 2) (d_flip d)) t0 t1 t))
  else Ok None.
(** the angles, scatteraction.cc:561-562, 579-580, 597-598, 601; distribute_isotropically, angles.h:199-203 *)
Definition angles_of (t : option R) (t0 t1 : R) (d : adraws) : res angles :=
  match t with
  | Some t => if Req_EM_T t1 t0 then UB UB_div_zero
              else set_costheta (1 - 2 * (t - t0) / (t1 - t0)) (set_phi (2 * PI * d_phi d) (Ang 0 0))
  | None => Ok (Ang (twopi * d_phi d) (uniform (-1) 1 (d_cos d)))
  end.
(** an incoming particle: kind, momentum, pole mass; effective_mass, particledata.cc:25-33 *)
Definition effective_mass (pole : R) (p : vec4) : R := if Rlt_dec pole really_small then pole else sqrt (sqr4 p).
(** sample_angles, scatteraction.cc:486-617, for processes that are not strings: momenta in the centre-of-mass frame; [p1]
    and [p2] are the incoming momenta, [ecm] kinetic_energy_cm *)
Definition scatter_angles (el isotropic : bool) (ia ib oa ob : kind) (p1 p2 : vec4) (m1 m2 ma mb ecm : R) (d : adraws)
  : res (vec4 * vec4) :=
  '(t0, t1) <- get_t_range ecm m1 m2 ma mb ;;
  t <- sample_t el isotropic ia ib oa ob (sqr4 (add4 p1 p2)) m1 m2 ma t0 t1 d ;;
  ang <- angles_of t t0 t1 d ;;
  let pcm := threevec (boost (velocity (add4 p1 p2)) p1) in
  Ok (sample_angles ecm ma mb (rotate_z_axis_to pcm (direction ang))).

(** ** The final state *)
(** ProcessType, processbranch.h:39-90 *)
Inductive ptype := PNone | Elastic | TwoToOne | TwoToTwo | TwoToThree | TwoToFour | TwoToFive | Decay | Wall | Thermalization
  | Fluidization | FluidizationNoRemoval | Bremsstrahlung | ThreeMesonsToOne | ThreeToTwo | FourToTwo | FiveToTwo
  | SoftAX | SoftXB | SoftDD | SoftAnnihilation | SoftND | StringHard | FailedString | Freeforall.
(** a particle: species, id, position, momentum, spin vector, perturbative weight, core flag *)
Record sp := SP { s_type : Z; s_id : Z; s_pos : vec4; s_mom : vec4; s_spin : vec4; s_weight : R; s_core : bool }.
Definition with_mom (q : vec4) (p : sp) : sp := SP (s_type p) (s_id p) (s_pos p) q (s_spin p) (s_weight p) (s_core p).
Definition with_pos (x : vec4) (p : sp) : sp := SP (s_type p) (s_id p) x (s_mom p) (s_spin p) (s_weight p) (s_core p).
Definition with_spin (x : vec4) (p : sp) : sp := SP (s_type p) (s_id p) (s_pos p) (s_mom p) x (s_weight p) (s_core p).
Definition with_weight (w : R) (p : sp) : sp := SP (s_type p) (s_id p) (s_pos p) (s_mom p) (s_spin p) w (s_core p).
Definition fluidize (p : sp) : sp := SP (s_type p) (s_id p) (s_pos p) (s_mom p) (s_spin p) (s_weight p) true.
(** a particle made from its type only (ParticleData(type), particledata.h): id -1, at the origin *)
Definition fresh (t : Z) : sp := SP t (-1) zero4 zero4 zero4 1 false.

(** random numbers of one final state: angles, rest-frame spins for the outgoing particles, masses of a two-body final state,
    numbers for more than two bodies, the outcomes of the tries to form a string and of the fallback process, the
    final states they have when they succeed *)
Record fdraws := FDraws { f_angles : adraws; f_spins : list vec3; f_masses : R * R;
  f_mb : list R; f_dirs : list vec3; f_try : nat -> bool; f_try2 : nat -> bool; f_final : list sp; f_final2 : list sp }.
(** what is known about the species: kind, pole mass, heavy flavour, stable, baryon number *)
Record world := World { kind_of : Z -> kind; pole : Z -> R; heavy : Z -> bool; stable : Z -> bool; baryon : Z -> Z }.

(** set_unpolarized_spin_vector for all outgoing particles, action.cc (see MotionModel.v); [on]: spin interactions enabled *)
Definition unpolarize (on : bool) (ss : list vec3) (l : list sp) : list sp :=
  if on then map (fun '(p, s) => with_spin (unpolarized_spin (s_mom p) s) p) (combine l (ss ++ repeat (V3 0 0 0) (length l))) else l.
(** elastic_scattering, scatteraction.cc:619-627; [el] is false for a failed string *)
Definition elastic_scattering (w : world) (el isotropic : bool) (a b : sp) (d : adraws) : res (list sp) :=
  let m1 := effective_mass (pole w (s_type a)) (s_mom a) in
  let m2 := effective_mass (pole w (s_type b)) (s_mom b) in
  let ka := kind_of w (s_type a) in let kb := kind_of w (s_type b) in
  '(qa, qb) <- scatter_angles el isotropic ka kb ka kb (s_mom a) (s_mom b) m1 m2 m1 m2 (sqrt (sqr4 (add4 (s_mom a) (s_mom b)))) d ;;
  Ok [with_mom qa a; with_mom qb b].
(** inelastic_scattering, scatteraction.cc:629-636, for the masses drawn by sample_masses (formation: MotionModel.v) *)
Definition inelastic_scattering (w : world) (isotropic : bool) (a b : sp) (ta tb : Z) (f : fdraws) : res (list sp) :=
  let m1 := effective_mass (pole w (s_type a)) (s_mom a) in
  let m2 := effective_mass (pole w (s_type b)) (s_mom b) in
  '(qa, qb) <- scatter_angles false isotropic (kind_of w (s_type a)) (kind_of w (s_type b)) (kind_of w ta) (kind_of w tb)
    (s_mom a) (s_mom b) m1 m2 (fst (f_masses f)) (snd (f_masses f)) (sqrt (sqr4 (add4 (s_mom a) (s_mom b)))) (f_angles f) ;;
  Ok [with_mom qa (fresh ta); with_mom qb (fresh tb)].
(** two_to_many_scattering, scatteraction.cc:638-647: sample_manybody_phasespace, action.cc:449-478 *)
Definition two_to_many (w : world) (a b : sp) (out : list Z) (f : fdraws) : res (list sp) :=
  if (length out <? 3)%nat || negb (forallb (stable w) out) then Throw E_invalid_argument else
  qs <- manybody (sqrt (sqr4 (add4 (s_mom a) (s_mom b)))) (map (pole w) out) (f_mb f) (f_dirs f) ;;
  Ok (map (fun '(t, q) => with_mom q (fresh t)) (combine out qs)).
(** resonance_formation, scatteraction.cc:649-672 *)
Definition resonance_formation (a b : sp) (out : list Z) : res (list sp) :=
  match out with
  | [t] => Ok [with_mom (V4 (sqrt (sqrt (sqr4 (add4 (s_mom a) (s_mom b))) * sqrt (sqr4 (add4 (s_mom a) (s_mom b))) + 0 * 0 + 0 * 0 + 0 * 0)) 0 0 0) (fresh t)]
  | _ => Throw E_other
  end.
(** one loop of tries, scatteraction.cc:698-729, 755-762: the number of tries made and whether the last one succeeded *)
Fixpoint tries (fuel : nat) (i : nat) (ok : nat -> bool) : nat * bool :=
  match fuel with
  | O => (i, false)
  | S fuel' => if ok i then (S i, true) else tries fuel' (S i) ok
  end.
Definition ntry_max : nat := Z.to_nat 10000.
(** string_excitation, scatteraction.cc:690-786: the process it ends up with and the particles *)
Definition string_excitation (w : world) (isotropic : bool) (pt : ptype) (a b : sp) (f : fdraws) : res (ptype * list sp) :=
  let '(ntry, success) := tries ntry_max 0 (f_try f) in
  if (ntry =? ntry_max)%nat then
    let bbar := negb (baryon w (s_type a) =? 0)%Z && (baryon w (s_type a) =? - baryon w (s_type b))%Z in
    let '(_, success2) := tries ntry_max 0 (f_try2 f) in
    if success2 then Ok (if bbar then SoftAnnihilation else SoftDD, f_final2 f)
    else l <- elastic_scattering w false isotropic a b (f_angles f) ;; Ok (FailedString, l)
  else Ok (pt, f_final f).
(** spin_interaction, scatteraction.cc:795-862, as reached from generate_final_state: only the first of its two cases can occur *)
Definition spin_interaction (on : bool) (pt : ptype) (l : list sp) : list sp :=
  match on, pt with
  | true, Elastic => map (fun p => with_spin (boost (velocity (s_mom p)) (s_spin p)) p) l
  | _, _ => l
  end.
(** string_spin_interaction, scatteraction.cc:864-900; [pt] the process the string ended up with *)
Definition string_spin (on : bool) (pt : ptype) (a b : sp) (ss : list vec3) (l : list sp) : list sp :=
  if on then
    match pt with
    | SoftAX | SoftXB =>
      match rev l with
      | [] => l
      | lastp :: r => unpolarize true ss (rev r) ++
          [with_spin (boost (velocity (s_mom lastp)) (s_spin (match pt with SoftAX => a | _ => b end))) lastp]
      end
    | _ => unpolarize true ss l
    end
  else l.
(** the particles in the centre-of-mass frame and the process, scatteraction.cc:74-109 *)
Definition final_cm (w : world) (on isotropic : bool) (pt : ptype) (out : list Z) (a b : sp) (f : fdraws) : res (ptype * list sp) :=
  match pt with
  | Elastic => l <- elastic_scattering w true isotropic a b (f_angles f) ;; Ok (Elastic, spin_interaction on Elastic l)
  | TwoToOne => l <- resonance_formation a b out ;; Ok (TwoToOne, unpolarize on (f_spins f) l)
  | TwoToTwo =>
    match out with
    | [ta; tb] => l <- inelastic_scattering w isotropic a b ta tb f ;; Ok (TwoToTwo, spin_interaction on TwoToTwo (unpolarize on (f_spins f) l))
    | _ => UB UB_assert
    end
  | TwoToThree | TwoToFour | TwoToFive => l <- two_to_many w a b out f ;; Ok (pt, unpolarize on (f_spins f) l)
  | SoftAX | SoftXB | SoftDD | SoftAnnihilation | SoftND | StringHard =>
    '(pt', l) <- string_excitation w isotropic pt a b f ;; Ok (pt', string_spin on pt' a b (f_spins f) l)
  | _ => Throw E_other
  end.
(** generate_final_state, scatteraction.cc:57-137, for the chosen process [pt] with the species [out]; [middle] is the
    interaction point. The result is the process recorded and the outgoing particles. *)
Definition generate_final_state (w : world) (on isotropic : bool) (pt : ptype) (out : list Z) (middle : vec4) (a b : sp) (f : fdraws)
  : res (ptype * list sp) :=
  '(pt', l) <- final_cm w on isotropic pt out a b f ;;
  let v := neg3 (velocity (add4 (s_mom a) (s_mom b))) in
  let core := s_core a || s_core b in
  Ok (pt', map (fun p =>
    let p := with_mom (boost v (s_mom p)) p in
    match pt with
    | Elastic => p
    | _ =>
      let p := with_pos middle p in
      let p := if core then fluidize p else p in
      if heavy w (s_type p) then with_weight (1 * s_weight a * s_weight b) p else p
    end) l).

(** ** The processes of an action *)
(** collision_channels_, sum_of_partial_cross_sections_, were_processes_added_; [total] is
    parametrized_total_cross_section_, None if the total is not parametrised *)
Record action (B : Type) := Act { channels : list (B * R); wsum : R; added : bool; total : option R }.
Arguments Act {B}. Arguments channels {B}. Arguments wsum {B}. Arguments added {B}. Arguments total {B}.
(** the constructor, scatteraction.cc:28-45, after set_parametrized_total_cross_section, scatteraction.cc:307-322 *)
Definition new_action {B} (t : option R) : action B := Act [] 0 false t.
(** add_collision, add_collisions, scatteraction.cc:47-55; add_process, add_processes, action.h:140-165 *)
Definition add_collision {B} (p : B * R) (x : action B) : action B :=
  if Rlt_dec 0 (snd p) then Act (channels x ++ [p]) (wsum x + snd p) (added x) (total x) else x.
Definition add_collisions {B} (l : list (B * R)) (x : action B) : action B := fold_left (fun x p => add_collision p x) l x.
(** what CrossSections answers, and the choices of the user: the list of processes, whether strings are added with a probability,
    that probability, the high-energy total, the string processes for a given cross section, the
    pseudoresonance, whether 2 -> 1 is enabled, the elastic process *)
Record offers (B : Type) := Offers { o_list : list (B * R); o_prob : bool; o_strprob : R; o_high : R; o_strings : R -> list (B * R);
  o_pseudo : option B; o_two_to_one : bool; o_elastic : B }.
Arguments Offers {B}. Arguments o_list {B}. Arguments o_prob {B}. Arguments o_strprob {B}. Arguments o_high {B}.
Arguments o_strings {B}. Arguments o_pseudo {B}. Arguments o_two_to_one {B}. Arguments o_elastic {B}.
(** rescale_outgoing_branches, scatteraction.cc:201-237 (the warning is not modelled) *)
Definition rescale {B} (el : B) (x : action B) : res (action B) :=
  if added x then
    match total x with
    | None => UB UB_assert
    | Some t =>
      if Rlt_dec (wsum x) really_small then Ok (add_collision (el, t) x)
      else let reweight := t / wsum x in
           Ok (Act (map (fun c => (fst c, snd c * reweight)) (channels x)) (wsum x) (added x) (total x))
    end
  else Throw E_logic.
(** add_all_scatterings, scatteraction.cc:139-199 *)
Definition add_all_scatterings {B} (o : offers B) (x : action B) : res (action B) :=
  if added x then Throw E_logic
  else
    let x := Act (channels x) (wsum x) true (total x) in
    let x := add_collisions (o_list o) x in
    let x := if negb (o_prob o) && rltb 0 (o_strprob o) then
               let diff := o_high o - wsum x in
               if Rlt_dec 0 diff then add_collisions (o_strings o diff) x else x
             else x in
    let x := match o_pseudo o with
             | Some r =>
               if o_two_to_one o then
                 let gap := (match total x with Some t => t | None => o_high o end) - wsum x in
                 if Rlt_dec really_small gap then add_collision (r, gap) x else x
               else x
             | None => x
             end in
    match total x with Some _ => rescale (o_elastic o) x | None => Ok x end.
(** cross_section, scatteraction.h:197-202; get_total_weight, get_partial_weight, scatteraction.cc:324-333 ([fa], [fb] the
    xsec_scaling_factors, [w] the weight of the chosen process) *)
Definition cross_section {B} (x : action B) : R := match total x with Some t => t | None => wsum x end.
Definition get_total_weight {B} (fa fb : R) (x : action B) : R := wsum x * fa * fb.
Definition get_partial_weight (fa fb w : R) : R := w * fa * fb.
(** choose_channel, action.h:416-435, as called in scatteraction.cc:60-67; [u] canonical *)
Fixpoint choose_from {B} (x acc : R) (l : list (B * R)) : res (B * R) :=
  match l with
  | [] => UB UB_assert
  | c :: r => let acc := acc + snd c in if Rle_dec x acc then Ok c else choose_from x acc r
  end.
Definition choose {B} (u : R) (x : action B) : res (B * R) := choose_from (uniform 0 (cross_section x) u) 0 (channels x).

(** ** Pseudoresonances *)
Inductive method := NoPseudo | Largest | Closest | LargestFromUnstable | ClosestFromUnstable.
(** StringTransitionParameters as far as used: sqrts_add_lower, sqrts_range_Npi.first, sqrts_range_NN.first, pipi_offset, KN_offset *)
Record transition := Trans { add_lower : R; range_Npi : R; range_NN : R; pipi_offset : R; KN_offset : R }.
(** an incoming species: nucleon, pion, kaon, stable *)
Record pkind := PKind { p_nucleon : bool; p_pion : bool; p_kaon : bool; p_stable : bool }.
Definition pion_mass : R := 138 / 1000.
(** string_offset, scatteraction.cc:246-264 *)
Definition string_offset (t : transition) (a b : pkind) : R :=
  if (p_nucleon a && p_pion b) || (p_pion a && p_nucleon b) then range_Npi t - pion_mass - nucleon_mass
  else if p_nucleon a && p_nucleon b then range_NN t - 2 * nucleon_mass
  else if p_pion a && p_pion b then pipi_offset t
  else if (p_nucleon a && p_kaon b) || (p_kaon a && p_nucleon b) then KN_offset t
  else / 2 * add_lower t.
(** std::max_element and std::min_element by a number: the first best *)
Fixpoint max_by {B} (f : B -> R) (b : B) (l : list B) : B :=
  match l with [] => b | x :: r => max_by f (if Rlt_dec (f b) (f x) then x else b) r end.
Fixpoint min_by {B} (f : B -> R) (b : B) (l : list B) : B :=
  match l with [] => b | x :: r => min_by f (if Rlt_dec (f x) (f b) then x else b) r end.
(** try_find_pseudoresonance, scatteraction.cc:239-305: [cand] the possible resonances, [m1] [m2] effective masses *)
Definition find_pseudo {B} (mass : B -> R) (meth : method) (t : transition) (a b : pkind) (m1 m2 sqrts : R) (cand : list B) : option B :=
  if Rlt_dec sqrts (m1 + m2 + string_offset t a b) then None
  else
    match meth with
    | NoPseudo => None
    | _ =>
      if (match meth with LargestFromUnstable | ClosestFromUnstable => p_stable a && p_stable b | _ => false end) then None
      else match cand with
           | [] => None
           | c :: r =>
             match meth with
             | Largest | LargestFromUnstable => Some (max_by mass c r)
             | _ => Some (min_by (fun x => Rabs (mass x - sqrts)) c r)
             end
           end
    end.
