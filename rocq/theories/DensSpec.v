(** Specification of densities (C122): smeared currents, their derivatives and what an observer in another frame sees. *)
From Coq Require Import ZArith Reals List Bool.
From Verif Require Import Base VecModel DensModel WoodsSaxon.
Import ListNotations.
Open Scope R_scope.

(** a particle with a causal momentum and positive energy *)
Definition physical (p : dpart) : Prop := 0 < y0 (d_mom p) /\ 0 <= dot4 (d_mom p) (d_mom p).
Definition mass (p : dpart) : R := sqrt (dot4 (d_mom p) (d_mom p)).
(** the charge with which a particle counts: none for spectators if they are excluded, for neutral and for massless
    particles *)
Definition amount (par : density_parameters) (d : density_type) (p : dpart) : R :=
  if only_participants par && (d_collisions p =? 0)%Z then 0
  else if Rlt_dec (Rabs (density_factor (d_type p) d)) really_small then 0
  else if Rlt_dec (mass p) really_small then 0 else density_factor (d_type p) d.
(** squared distance of a point to the particle in the particle's rest frame *)
Definition rest_distance2 (p : dpart) (r : vec3) : R :=
  let x := sub3 (d_pos p) r in dot3 x x + (dot3 (threevec (d_mom p)) x / mass p) * (dot3 (threevec (d_mom p)) x / mass p).
(** the Gaussian in this distance, cut off, with the Lorentz factor of the contraction *)
Definition profile (par : density_parameters) (p : dpart) (r : vec3) : R :=
  if Rle_dec (rest_distance2 p r) (r_cut_sqr par)
  then y0 (d_mom p) / mass p * exp (- rest_distance2 p r * two_sig_sqr_inv par) else 0.
Fixpoint sum4 (g : dpart -> vec4) (ps : list dpart) : vec4 :=
  match ps with [] => zero4 | p :: r => add4 (g p) (sum4 g r) end.
(** the current of one particle at [r] *)
Definition particle_current par d (r : vec3) (p : dpart) : vec4 :=
  scale4 (norm_factor_sf par * amount par d p * profile par p r) (mk4 1 (velocity (d_mom p))).
(** the length of a four-vector *)
Definition length4 (a : vec4) : R := sqrt (dot4 a a).
Definition positive_current par d r (p : dpart) : vec4 := if Rlt_dec 0 (amount par d p) then particle_current par d r p else zero4.
Definition negative_current par d r (p : dpart) : vec4 := if Rlt_dec 0 (amount par d p) then zero4 else particle_current par d r p.

(** straight motion for a time [t] *)
Definition drift (t : R) (p : dpart) : dpart :=
  DP (d_type p) (add3 (d_pos p) (scale3 t (velocity (d_mom p)))) (d_mom p) (d_collisions p).
(** components *)
Inductive component : (vec4 -> R) -> Prop := comp0 : component y0 | comp1 : component y1 | comp2 : component y2 | comp3 : component y3.
(** the current found at a point *)
Definition j_at par d (r : vec3) (ps : list dpart) : vec4 :=
  match current_eckart r ps par d false true with Ok c => jmu c | _ => zero4 end.

(** a particle on its straight world line: a time and the particle at that time *)
Definition line := (R * dpart)%type.
Definition at_time (t : R) (l : line) : dpart := drift (t - fst l) (snd l).
(** as seen by an observer moving with velocity [v] *)
Definition seen_moving (v : vec3) (l : line) : line :=
  let x := boost v (mk4 (fst l) (d_pos (snd l))) in
  (y0 x, DP (d_type (snd l)) (threevec x) (boost v (d_mom (snd l))) (d_collisions (snd l))).

(** the type of the antiparticle *)
Definition anti (t : dtype) : dtype :=
  DT (hadron t) (baryon t) (nucleus t) (pion t) (- baryon_number t) (- charge t) (- strangeness t) (isospin t) (- isospin3 t).
Definition anti_particle (p : dpart) : dpart := DP (anti (d_type p)) (d_pos p) (d_mom p) (d_collisions p).
(** the densities that change sign for antimatter *)
Definition net_density (d : density_type) : Prop := d <> Hadron /\ d <> Pion.

(** the error function, up to [a]: twice the integral of a Gaussian over the square root of pi *)
Definition is_erf (erf : R -> R) (a : R) : Prop :=
  erf 0 = 0 /\ forall x, 0 <= x <= a -> derivable_pt_lim erf x (2 / sqrt PI * exp (- x * x)).
