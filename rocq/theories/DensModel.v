(** Model of the densities on which potentials and thermodynamic output are built:
    /repo/src/density.cc and /repo/src/include/smash/density.h.  Doubles are exact real numbers. *)
From Coq Require Import ZArith Reals List Bool.
From Verif Require Import Base VecModel.
Import ListNotations.
Open Scope R_scope.

Definition scale4 (k : R) (a : vec4) := V4 (y0 a * k) (y1 a * k) (y2 a * k) (y3 a * k).
(** FourVector::abs, fourvector.h:464-472 *)
Definition abs4 (a : vec4) : res R :=
  if Rlt_dec (- really_small) (sqr4 a) then Ok (sqrt (Rabs (sqr4 a))) else Throw E_runtime.

(** ** Particles: what the functions below ask a particle for.  The isospins are the integers ParticleType stores,
    twice the physical value. *)
Record dtype := DT { hadron : bool; baryon : bool; nucleus : bool; pion : bool;
  baryon_number : Z; charge : Z; strangeness : Z; isospin : Z; isospin3 : Z }.
Record dpart := DP { d_type : dtype; d_pos : vec3; d_mom : vec4; d_collisions : Z }.
(** ParticleType::isospin3_rel, particletype.h:180-183 *)
Definition isospin3_rel (t : dtype) : R := if (isospin t =? 0)%Z then 0 else IZR (isospin3 t) / IZR (isospin t).
(** DensityType, density.h / forwarddeclarations.h *)
Inductive density_type := DNone | Hadron | Baryon | BaryonicIsospin | Pion | Isospin3_tot | Charge | Strangeness.
(** density_factor, density.cc:17-36 *)
Definition density_factor (t : dtype) (d : density_type) : R :=
  match d with
  | Hadron => if hadron t then 1 else 0
  | Baryon => IZR (baryon_number t)
  | BaryonicIsospin => if baryon t || nucleus t then isospin3_rel t else 0
  | Pion => if pion t then 1 else 0
  | Isospin3_tot => if hadron t then IZR (isospin3 t) else 0
  | Charge => IZR (charge t)
  | Strangeness => IZR (strangeness t)
  | DNone => 0
  end.

(** ** DensityParameters, density.h:96-180 *)
(** smearing_factor_norm, density.h:60-63 *)
Definition smearing_factor_norm (two_sigma_sqr : R) : R := let tmp := two_sigma_sqr * PI in tmp * sqrt tmp.
(** smearing_factor_rcut_correction, density.h:84-87; [erf] is std::erf *)
Definition smearing_factor_rcut_correction (erf : R -> R) (rcut_in_sigma : R) : R :=
  let x := rcut_in_sigma / sqrt 2 in - 2 / sqrt PI * x * exp (- x * x) + erf x.
Record density_parameters := DPar { r_cut : R; r_cut_sqr : R; two_sig_sqr_inv : R; norm_factor_sf : R; only_participants : bool }.
(** the constructor, density.h:104-123 *)
Definition make_parameters (erf : R -> R) (sigma cutoff_in_sigma : R) (ntest nensembles : Z) (op : bool) : density_parameters :=
  let rc := cutoff_in_sigma * sigma in
  let two_sig_sqr := 2 * sigma * sigma in
  let norm := smearing_factor_norm two_sig_sqr in
  let corr_factor := smearing_factor_rcut_correction erf cutoff_in_sigma in
  DPar rc (rc * rc) (1 / two_sig_sqr) (1 / (norm * IZR ntest * IZR nensembles * corr_factor)) op.

(** ** unnormalized_smearing_factor, density.cc:38-64 *)
Definition smearing_factor (r : vec3) (p : vec4) (m_inv : R) (par : density_parameters) (grad : bool) : R * vec3 :=
  let r_sqr := sqr3 r in
  if Rlt_dec (r_cut_sqr par) r_sqr then (0, V3 0 0 0)
  else
    let u := scale4 m_inv p in
    let u_r := dot3 r (threevec u) in
    let r_rest_sqr := r_sqr + u_r * u_r in
    if Rlt_dec (r_cut_sqr par) r_rest_sqr then (0, V3 0 0 0)
    else
      let sf := exp (- r_rest_sqr * two_sig_sqr_inv par) * y0 u in
      (sf, if grad then scale3 2 (scale3 (two_sig_sqr_inv par) (scale3 sf (add3 r (scale3 u_r (threevec u))))) else V3 0 0 0).

(** ** current_eckart, density.cc:67-173 *)
(** the sums of the loop over the particles: jmu_pos, jmu_neg and djmu_dxnu[0..3] *)
Record sums := Sums { jpos : vec4; jneg : vec4; dj0 : vec4; dj1 : vec4; dj2 : vec4; dj3 : vec4 }.
Definition no_sums := Sums zero4 zero4 zero4 zero4 zero4 zero4.
(** density.cc:118-124, the loop over k: the k-th spatial derivative and the part of the time derivative *)
Definition add_derivatives (tmp : vec4) (d : R) (g : vec3) (s : sums) : sums :=
  Sums (jpos s) (jneg s)
    (sub4 (sub4 (sub4 (dj0 s) (scale4 (/ d) (scale4 (y1 tmp) (scale4 (x1 g) tmp))))
       (scale4 (/ d) (scale4 (y2 tmp) (scale4 (x2 g) tmp)))) (scale4 (/ d) (scale4 (y3 tmp) (scale4 (x3 g) tmp))))
    (add4 (dj1 s) (scale4 (x1 g) tmp)) (add4 (dj2 s) (scale4 (x2 g) tmp)) (add4 (dj3 s) (scale4 (x3 g) tmp)).
(** one turn of the loop, density.cc:86-126 *)
Definition add_to_current (r : vec3) (par : density_parameters) (d : density_type) (grad smearing : bool)
    (s : sums) (p : dpart) : res sums :=
  if only_participants par && (d_collisions p =? 0)%Z then Ok s
  else
    let f := density_factor (d_type p) d in
    if Rlt_dec (Rabs f) really_small then Ok s
    else
      m <- abs4 (d_mom p) ;;
      if Rlt_dec m really_small then Ok s
      else
        let sfg := smearing_factor (sub3 (d_pos p) r) (d_mom p) (1 / m) par grad in
        let tmp := scale4 (f / y0 (d_mom p)) (d_mom p) in
        let c := if smearing then scale4 (fst sfg) tmp else tmp in
        let s1 := if Rlt_dec 0 f
                  then Sums (add4 (jpos s) c) (jneg s) (dj0 s) (dj1 s) (dj2 s) (dj3 s)
                  else Sums (jpos s) (add4 (jneg s) c) (dj0 s) (dj1 s) (dj2 s) (dj3 s) in
        Ok (if grad then add_derivatives tmp f (snd sfg) s1 else s1).
Record current := Cur { rho : R; jmu : vec4; grad_j0 : vec3; curl_vecj : vec3;
  djmu_dt : vec4; djmu_dx : vec4; djmu_dy : vec4; djmu_dz : vec4 }.
(** density.cc:128-172 *)
Definition curl (dx dy dz : vec4) : vec3 := V3 (y3 dy - y2 dz) (y1 dz - y3 dx) (y2 dx - y1 dy).
Definition finish_current (par : density_parameters) (grad smearing : bool) (s : sums) : res current :=
  let n := norm_factor_sf par in
  apos <- abs4 (jpos s) ;; aneg <- abs4 (jneg s) ;;
  let pick v := if grad then scale4 n v else zero4 in
  let jp := if smearing then scale4 n (jpos s) else jpos s in
  let jn := if smearing then scale4 n (jneg s) else jneg s in
  Ok (Cur ((apos - aneg) * n) (add4 jp jn)
        (if grad then V3 (0 + y0 (dj1 s) * n) (0 + y0 (dj2 s) * n) (0 + y0 (dj3 s) * n) else V3 0 0 0)
        (if grad then scale3 n (curl (dj1 s) (dj2 s) (dj3 s)) else V3 0 0 0)
        (pick (dj0 s)) (pick (dj1 s)) (pick (dj2 s)) (pick (dj3 s))).
Definition current_eckart (r : vec3) (ps : list dpart) (par : density_parameters) (d : density_type) (grad smearing : bool) : res current :=
  s <- foldM (add_to_current r par d grad smearing) no_sums ps ;; finish_current par grad smearing s.

(** ** One node of the density lattice *)
(** add_particle and add_particle_for_derivatives, density.h:236-262; the velocity is that of the momentum *)
Definition add_particle (p : dpart) (w : R) (s : sums) : sums :=
  let v := mk4 1 (velocity (d_mom p)) in
  if Rlt_dec 0 w then Sums (add4 (jpos s) (scale4 w v)) (jneg s) (dj0 s) (dj1 s) (dj2 s) (dj3 s)
  else Sums (jpos s) (add4 (jneg s) (scale4 w v)) (dj0 s) (dj1 s) (dj2 s) (dj3 s).
Definition add_particle_for_derivatives (p : dpart) (f : R) (g : vec3) (s : sums) : sums :=
  let v := mk4 1 (velocity (d_mom p)) in
  Sums (jpos s) (jneg s)
    (sub4 (sub4 (sub4 (dj0 s) (scale4 (y1 v) (scale4 (x1 g) (scale4 f v)))) (scale4 (y2 v) (scale4 (x2 g) (scale4 f v))))
       (scale4 (y3 v) (scale4 (x3 g) (scale4 f v))))
    (add4 (dj1 s) (scale4 (x1 g) (scale4 f v))) (add4 (dj2 s) (scale4 (x2 g) (scale4 f v))) (add4 (dj3 s) (scale4 (x3 g) (scale4 f v))).
(** iterate_in_cube, lattice.h:627-654, reaches exactly the nodes of this half-open cube (LatticeProps.v, C22) *)
Definition in_cube (pos : vec3) (rc : R) (c : vec3) : bool :=
  let ok a b := if Rle_dec (a - rc) b then if Rlt_dec b (a + rc) then true else false else false in
  ok (x1 pos) (x1 c) && ok (x2 pos) (x2 c) && ok (x3 pos) (x3 c).
(** update_lattice_with_list_of_particles with covariant Gaussian smearing and derivatives, density.h:519-575, as
    seen by the node with centre [c] *)
Definition add_to_node (c : vec3) (par : density_parameters) (d : density_type) (grad : bool) (s : sums) (p : dpart) : res sums :=
  if only_participants par && (d_collisions p =? 0)%Z then Ok s
  else
    let f := density_factor (d_type p) d in
    if Rlt_dec (Rabs f) really_small then Ok s
    else
      m <- abs4 (d_mom p) ;;
      if Rlt_dec m really_small then Ok s
      else if in_cube (d_pos p) (r_cut par) c then
        let sf := smearing_factor (sub3 (d_pos p) c) (d_mom p) (1 / m) par grad in
        Ok (add_particle_for_derivatives p f (scale3 (norm_factor_sf par) (snd sf))
              (add_particle p (fst sf * (f * norm_factor_sf par)) s))
      else Ok s.
(** update_lattice_accumulating_ensembles, density.h:629-645: the lists of all ensembles, one after the other *)
Definition node_sums (c : vec3) (par : density_parameters) (d : density_type) (grad : bool) (ensembles : list (list dpart)) : res sums :=
  foldM (fun s ps => foldM (add_to_node c par d grad) s ps) no_sums ensembles.
(** rho(), jmu_net(), grad_j0(), curl_vecj(), dvecj_dt(), density.h:274-340, with the default norm_factor 1 *)
Definition node_rho (s : sums) : res R := a <- abs4 (jpos s) ;; b <- abs4 (jneg s) ;; Ok ((a - b) * 1).
Definition jmu_net (s : sums) : vec4 := add4 (jpos s) (jneg s).
Definition node_grad_j0 (s : sums) : vec3 := V3 (y0 (dj1 s) * 1) (y0 (dj2 s) * 1) (y0 (dj3 s) * 1).
Definition node_curl (s : sums) : vec3 := scale3 1 (curl (dj1 s) (dj2 s) (dj3 s)).
Definition node_dvecj_dt (s : sums) : vec3 := scale3 1 (threevec (dj0 s)).
(** the derivative of the rest-frame density, density.cc:241-281 and potentials.cc:311-335: [rho] the density,
    [dj] the derivative of the current; very_small_double is constants.h:44 *)
Definition very_small_double : R := / 10 ^ 15.
Definition rest_density_derivative (r : R) (j dj : vec4) : R :=
  let sgn := if Rlt_dec 0 r then 1 else -1 in
  let r' := if Rlt_dec (Rabs r) very_small_double then sgn * very_small_double else r in
  1 / r' * (y0 j * y0 dj - y1 j * y1 dj - y2 j * y2 dj - y3 j * y3 dj).
