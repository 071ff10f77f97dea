(** Direct photons from binary collisions: src/scatteractionphoton.cc, src/bremsstrahlungaction.cc. Doubles are exact
    reals, random draws are arguments. The tables and formulas of the cross sections themselves (crosssectionsphoton.cc,
    the BREMS_ tables and their interpolation) are parameters. Without potentials the total momentum of the outgoing
    particles is that of the incoming ones. Spins are left out (they are set by
    assign_unpolarized_spin_vector_to_outgoing_particles, see MotionModel.v). *)
From Coq Require Import ZArith Reals List Bool.
From Verif Require Import Base VecModel MotionModel ScatModel.
Import ListNotations.
Open Scope R_scope.

(** ** Which pairs radiate *)
(** pdgcode_constants.h:25, 73-77, 94-98 *)
Definition pi_p : Z := 529.    (* 0x211 *)
Definition pi_z : Z := 273.    (* 0x111 *)
Definition pi_m : Z := -529.
Definition rho_p : Z := 531.   (* 0x213 *)
Definition rho_z : Z := 275.   (* 0x113 *)
Definition rho_m : Z := -531.
Definition photon : Z := 34.   (* 0x22 *)
(** is_pion, pdgcode.h:471-474 *)
Definition is_pion (c : Z) : bool := ((c =? pi_z) || (c =? pi_p) || (c =? pi_m))%Z.
(** pack, pdgcode_constants.h:136-140: two 32-bit codes in 64 bits *)
Definition pack (x y : Z) : Z := Z.lor (Z.shiftl (x mod 2 ^ 32) 32) (y mod 2 ^ 32).
(** ReactionType, scatteractionphoton.h:115-127 *)
Inductive reaction := no_reaction | pi_z_pi_p_rho_p | pi_z_pi_m_rho_m | pi_p_rho_z_pi_p | pi_m_rho_z_pi_m | pi_m_rho_p_pi_z
  | pi_p_rho_m_pi_z | pi_z_rho_p_pi_p | pi_z_rho_m_pi_m | pi_p_pi_m_rho_z | pi_z_rho_z_pi_z.
(** the first entry of a table with this key *)
Fixpoint lookup {A} (k : Z) (d : A) (l : list (Z * A)) : A :=
  match l with [] => d | (k', a) :: r => if (k =? k')%Z then a else lookup k d r end.
(** photon_reaction_type, scatteractionphoton.cc:38-90; [l] codes of the incoming particles *)
Definition photon_table : list (Z * reaction) :=
  [(pack pi_p pi_z, pi_z_pi_p_rho_p); (pack pi_z pi_p, pi_z_pi_p_rho_p); (pack pi_m pi_z, pi_z_pi_m_rho_m);
   (pack pi_z pi_m, pi_z_pi_m_rho_m); (pack pi_p rho_z, pi_p_rho_z_pi_p); (pack pi_m rho_z, pi_m_rho_z_pi_m);
   (pack pi_m rho_p, pi_m_rho_p_pi_z); (pack pi_p rho_m, pi_p_rho_m_pi_z); (pack pi_z rho_p, pi_z_rho_p_pi_p);
   (pack pi_z rho_m, pi_z_rho_m_pi_m); (pack pi_p pi_m, pi_p_pi_m_rho_z); (pack pi_m pi_p, pi_p_pi_m_rho_z);
   (pack pi_z rho_z, pi_z_rho_z_pi_z)].
Definition photon_reaction_type (l : list Z) : reaction :=
  match l with
  | [a; b] => let '(a, b) := if is_pion a then (a, b) else (b, a) in lookup (pack a b) no_reaction photon_table
  | _ => no_reaction
  end.
(** outgoing_hadron_type, scatteractionphoton.cc:104-157; None: a pointer to nothing *)
Definition outgoing_hadron_type (r : reaction) : option Z :=
  match r with
  | pi_z_pi_p_rho_p => Some rho_p
  | pi_z_pi_m_rho_m => Some rho_m
  | pi_p_pi_m_rho_z => Some rho_z
  | pi_p_rho_z_pi_p | pi_z_rho_p_pi_p => Some pi_p
  | pi_m_rho_z_pi_m | pi_z_rho_m_pi_m => Some pi_m
  | pi_m_rho_p_pi_z | pi_p_rho_m_pi_z | pi_z_rho_z_pi_z => Some pi_z
  | no_reaction => None
  end.
(** is_kinematically_possible, scatteractionphoton.cc:159-196, with default_mediator_ = SUM (scatteractionphoton.h:223), for
    which the conditions of lines 167-181 are false; [stable], [mass], [min_spectral] of a species *)
Record species := Species { stable : Z -> bool; pole_mass : Z -> R; min_spectral : Z -> R; min_kinematic : Z -> R }.
Definition is_kinematically_possible (w : species) (sqrts : R) (l : list Z) : bool :=
  match outgoing_hadron_type (photon_reaction_type l) with
  | None => false
  | Some h => if stable w h then negb (rltb sqrts (pole_mass w h)) else negb (rltb sqrts (min_spectral w h + really_small))
  end.
(** sample_out_hadron_mass, scatteractionphoton.cc:301-316; [m] the mass sample_resonance_mass returns (dereferencing the
    pointer to nothing is undefined) *)
Definition sample_out_hadron_mass (w : species) (sqrts : R) (h : option Z) (m : R) : res R :=
  match h with
  | None => UB UB_oob
  | Some h => if Rle_dec sqrts (min_kinematic w h) then Throw E_other else Ok (if stable w h then pole_mass w h else m)
  end.

(** ** Hadron and photon *)
(** cosine of the polar angle, scatteractionphoton.cc:239-242, and the clamp of lines 246-256 *)
Definition photon_cos (s sqrts m1 m2 m_out pcm_in t : R) : res R :=
  if Req_EM_T (pcm_in * (s - m_out * m_out) / sqrts) 0 then UB UB_div_zero
  else
    let c := (t - m2 * m2 + 5 / 10 * (s + m2 * m2 - m1 * m1) * (s - m_out * m_out) / s) / (pcm_in * (s - m_out * m_out) / sqrts) in
    let c := if Rlt_dec 1 c then 1 else c in
    Ok (if Rlt_dec c (-1) then -1 else c).
(** The momenta of hadron and photon and the t drawn, scatteractionphoton.cc:216-270; [p1] momentum of the pion, [p2] of the other
    particle (they are swapped if necessary, lines 219-221), effective masses [m1] and [m2], canonical numbers [ut] and [uphi] *)
Definition photon_final (p1 p2 : vec4) (m1 m2 m_out ut uphi : R) : res (R * vec4 * vec4) :=
  let total := add4 p1 p2 in
  let s := sqr4 total in
  let sqrts := sqrt s in
  '(tmin, tmax) <- get_t_range sqrts m1 m2 m_out 0 ;;
  let t := uniform tmax tmin ut in
  c <- photon_cos s sqrts m1 m2 m_out (pCM sqrts m1 m2) t ;;
  ang <- set_costheta c (set_phi (uniform 0 twopi uphi) (Ang 0 0)) ;;
  let '(h, g) := sample_angles sqrts m_out 0 (direction ang) in
  let v := neg3 (velocity total) in
  Ok (t, boost v h, boost v g).

(** cut_off, crosssectionsphoton.cc:55-60 *)
Definition cut_off (x : R) : R := if Rlt_dec 200 x then 200 else x.
(** form_factor_pion, form_factor_omega, scatteractionphoton.cc:642-665 *)
Definition t_pion (e : R) : R :=
  345096 / 10000 * Rpower e (737 / 1000) - 67557 / 1000 * Rpower e (7584 / 10000) + 32858 / 1000 * Rpower e (7806 / 10000).
Definition t_omega (e : R) : R :=
  - (61595 / 1000) * Rpower e (9979 / 10000) + 28592 / 1000 * Rpower e (11579 / 10000) + 37738 / 1000 * Rpower e (9317 / 10000)
  - 5282 / 1000 * Rpower e (13686 / 10000).
Definition dipole (t : R) : R := let ff := 2 * 1 / (2 * 1 - t) in ff * ff.
Definition form_factor_pion (e : R) : R := dipole (t_pion e).
Definition form_factor_omega (e : R) : R := dipole (t_omega e).
(** which part of a cross section: the pion-mediated one, the omega-mediated one, all of it *)
Inductive mediator := SUM | PION | OMEGA.
(** total_cross_section, scatteractionphoton.cc:356-443, once the collision branch exists; [raw] the value of the formula *)
Definition total_cross_section (created : bool) (raw : R) : R :=
  if Req_EM_T raw 0 then if created then 0 else 1 / 100 else if Rlt_dec raw 0 then 1 / 10 else raw.
(** diff_cross_section, scatteractionphoton.cc:516-575 *)
Definition diff_cross_section (raw : R) : R := if Rlt_dec raw 0 then 1 / 100 else raw.
(** total_cross_section_w_ff and diff_cross_section_w_ff, scatteractionphoton.cc:445-514, 577-640: the same combination of form
    factors; [xs] the cross section for a mediator *)
Definition with_form_factors (r : reaction) (e : R) (xs : mediator -> R) : res R :=
  match r with
  | pi_m_rho_p_pi_z | pi_p_rho_m_pi_z | pi_z_rho_m_pi_m | pi_z_rho_p_pi_p =>
      Ok (cut_off (form_factor_pion e ^ 4 * xs PION + form_factor_omega e ^ 4 * xs OMEGA))
  | pi_z_pi_p_rho_p | pi_z_pi_m_rho_m | pi_p_rho_z_pi_p | pi_m_rho_z_pi_m | pi_p_pi_m_rho_z =>
      Ok (cut_off (form_factor_pion e ^ 4 * xs SUM))
  | pi_z_rho_z_pi_z => Ok (cut_off (form_factor_omega e ^ 4 * xs SUM))
  | no_reaction => Throw E_runtime
  end.
(** The weight of a photon, scatteractionphoton.cc:272-290: [n] fractional photons, [had] hadronic cross section, [fa] and [fb]
    cross section scaling factors, [e] energy of the photon, [diff] and [total] the formulas of the cross sections *)
Definition photon_weight (r : reaction) (n : Z) (had fa fb e t tmin tmax : R) (diff : mediator -> R -> R) (total : mediator -> R) : res R :=
  w <- (if (1 <? n)%Z then
          x <- with_form_factors r e (fun m => diff_cross_section (diff m t)) ;; Ok (x * (tmin - tmax) / (IZR n * had))
        else
          x <- with_form_factors r e (fun m => total_cross_section true (total m)) ;; Ok (x / had)) ;;
  Ok (w * (fa * fb)).
(** generate_final_state, scatteractionphoton.cc:198-296: [branches] photon processes must be 1 *)
Definition photon_state (branches : nat) (r : reaction) (n : Z) (had fa fb : R) (p1 p2 : vec4) (m1 m2 m_out ut uphi : R)
  (diff : mediator -> R -> R) (total : mediator -> R) : res (vec4 * vec4 * R) :=
  if Nat.eqb branches 1 then
    '(tmin, tmax) <- get_t_range (sqrt (sqr4 (add4 p1 p2))) m1 m2 m_out 0 ;;
    '(t, h, g) <- photon_final p1 p2 m1 m2 m_out ut uphi ;;
    w <- photon_weight r n had fa fb (y0 g) t tmin tmax diff total ;;
    Ok (h, g, w)
  else Throw E_runtime.

(** ** Bremsstrahlung *)
(** ReactionType, bremsstrahlungaction.h:108-116; bremsstrahlung_reaction_type, bremsstrahlungaction.cc:29-62 *)
Inductive breaction := no_brems | b_pi_z_pi_m | b_pi_z_pi_p | b_pi_p_pi_m | b_pi_m_pi_m | b_pi_p_pi_p | b_pi_z_pi_z.
Definition brems_table : list (Z * breaction) :=
  [(pack pi_z pi_m, b_pi_z_pi_m); (pack pi_m pi_z, b_pi_z_pi_m); (pack pi_z pi_p, b_pi_z_pi_p); (pack pi_p pi_z, b_pi_z_pi_p);
   (pack pi_m pi_p, b_pi_p_pi_m); (pack pi_p pi_m, b_pi_p_pi_m); (pack pi_m pi_m, b_pi_m_pi_m); (pack pi_p pi_p, b_pi_p_pi_p);
   (pack pi_z pi_z, b_pi_z_pi_z)].
Definition bremsstrahlung_reaction_type (l : list Z) : breaction :=
  match l with [a; b] => lookup (pack a b) no_brems brems_table | _ => no_brems end.
(** the five sets of tables: pi+ pi- -> pi+ pi-, equal charges, one pi0, pi+ pi- -> pi0 pi0, pi0 pi0 -> pi+ pi- (each with a photon) *)
Inductive bchannel := Opp | Same | Mixed | To_pi0 | From_pi0.
(** bremsstrahlungaction.cc:211, 212, 248, 262 *)
Definition positive (x : R) : R := if Rle_dec x 0 then really_small else x.
(** brems_cross_sections, bremsstrahlungaction.cc:180-276: final state (without the photon) and cross section;
    [x] the tables of total cross sections at the energy of the collision, [u] canonical *)
Definition brems_cross_sections (x : bchannel -> R) (a b : Z) (u : R) : res ((Z * Z) * R) :=
  match bremsstrahlung_reaction_type [a; b] with
  | b_pi_p_pi_m =>
      let s1 := positive (x Opp) in let s2 := positive (x To_pi0) in
      choose_from (uniform 0 (s1 + s2) u) 0 [((a, b), s1); ((pi_z, pi_z), s2)]
  | b_pi_m_pi_m | b_pi_p_pi_p => Ok ((a, b), positive (x Same))
  | b_pi_z_pi_m | b_pi_z_pi_p => Ok ((a, b), positive (x Mixed))
  | b_pi_z_pi_z => Ok ((pi_p, pi_m), positive (x From_pi0))
  | no_brems => Throw E_runtime
  end.
(** the range of the photon momentum and the momentum drawn, bremsstrahlungaction.cc:97-112: (k, range) *)
Definition k_min : R := 1 / 1000.
Definition k_max (sqrts ma mb : R) : R := (sqrts * sqrts - 2 * ma * 2 * mb) / (2 * sqrts).
Definition draw_k (sqrts ma mb u : R) : R * R :=
  if Rlt_dec (k_max sqrts ma mb - k_min) 0 then (0, 0) else (uniform k_min (k_max sqrts ma mb) u, k_max sqrts ma mb - k_min).
(** sample_3body_phasespace, bremsstrahlungaction.cc:146-170 (m_c: the photon's mass 0); [phi] and [dir] the azimuth of the
    photon and the isotropic direction of the pions *)
Definition sample_3body (sqrts ma mb k th uphi : R) (dir : vec3) : res (vec4 * vec4 * vec4) :=
  let e_ab := sqrts - 0 - k in
  let pcm := pCM sqrts e_ab 0 in
  let pcm_pions := pCM e_ab ma mb in
  ang <- set_costheta (cos th) (set_phi (uniform 0 twopi uphi) (Ang 0 0)) ;;
  let n := direction ang in
  let beta := div3 (scale3 pcm n) (sqrt (pcm * pcm + e_ab * e_ab)) in
  Ok (boost beta (on_shell ma (scale3 pcm_pions dir)), boost beta (on_shell mb (scale3 (- pcm_pions) dir)), on_shell 0 (scale3 pcm n)).
(** brems_diff_cross_sections, bremsstrahlungaction.cc:278-326: which tables, given the first outgoing particle; negative values *)
Definition brems_diff_table (r : breaction) (first : Z) : res bchannel :=
  match r with
  | b_pi_p_pi_m => Ok (if (first =? pi_z)%Z then To_pi0 else Opp)
  | b_pi_p_pi_p | b_pi_m_pi_m => Ok Same
  | b_pi_z_pi_p | b_pi_z_pi_m => Ok Mixed
  | b_pi_z_pi_z => Ok From_pi0
  | no_brems => Throw E_runtime
  end.
Definition not_negative (x : R) : R := if Rlt_dec x 0 then really_small else x.
(** the weight, bremsstrahlungaction.cc:118-130 *)
Definition brems_weight (n : Z) (had fa fb range dk dth : R) : R :=
  sqrt (not_negative dth * (PI - 0) * (not_negative dk * range)) / (IZR n * had) * (fa * fb).
(** generate_final_state, bremsstrahlungaction.cc:76-144: momenta of the two pions and the photon, and the weight; [dsk] and [dsth]
    the interpolated differential cross sections of the reaction *)
Definition brems_state (branches : nat) (n : Z) (had fa fb : R) (p1 p2 : vec4) (ma mb uk uth uphi : R) (dir : vec3)
  (dsk dsth : R -> R) : res (vec4 * vec4 * vec4 * R) :=
  if Nat.eqb branches 1 then
    let total := add4 p1 p2 in
    let sqrts := sqrt (sqr4 total) in
    let '(k, range) := draw_k sqrts ma mb uk in
    let th := uniform 0 PI uth in
    '(qa, qb, g) <- sample_3body sqrts ma mb k th uphi dir ;;
    let w := brems_weight n had fa fb range (dsk k) (dsth th) in
    let v := neg3 (velocity total) in
    Ok (boost v qa, boost v qb, boost v g, w)
  else Throw E_runtime.
