(** Model of the mean-field potentials and of the change of momenta by their forces: /repo/src/potentials.cc,
    /repo/src/include/smash/potentials.h, update_momenta in /repo/src/propagation.cc and the Coulomb part of
    update_potentials in /repo/src/include/smash/experiment.h.  Doubles are exact real numbers; [None] stands for a
    value that is not a finite number (std::pow of a negative number or a division by zero). *)
From Coq Require Import ZArith Reals List Bool.
From Verif Require Import Base VecModel DensModel WidthModel.
Import ListNotations.
Open Scope R_scope.

Definition obind {A B} (x : option A) (f : A -> option B) : option B := match x with Some a => f a | None => None end.
Definition zero3 := V3 0 0 0.
(** constants.h:38, 52 *)
Definition mev_to_gev : R := / 1000.
Definition nuclear_density : R := 168 / 1000.
(** std::pow with an exponent that is no integer or a base that is not negative *)
Definition cpow (x y : R) : option R :=
  if Rlt_dec 0 x then Some (Rpower x y)
  else if Rlt_dec x 0 then None
  else if Rlt_dec 0 y then Some 0 else if Rlt_dec y 0 then None else Some 1.
(** [rhoB > 0 ? 1 : -1], potentials.cc:77, 109, 179, 216 *)
Definition sgn (x : R) : R := if Rlt_dec 0 x then 1 else -1.

(** ** Parameters, potentials.h:511-603; the coefficients of the VDF potential in GeV *)
Record pot := Pot { use_skyrme : bool; skyrme_a : R; skyrme_b : R; skyrme_tau : R;
  use_symmetry : bool; symmetry_S_pot : R; symmetry_gamma : option R;
  use_vdf : bool; saturation_density : R; vdf_terms : list (R * R);
  use_momentum_dependence : bool; mom_C : R; mom_Lambda : R;
  use_coulomb : bool; outside_lattice : bool; param : density_parameters }.
(** the terms of the VDF potential from the configuration, potentials.cc:48-67 *)
Definition read_vdf_terms (coeffs powers : list R) : res (list (R * R)) :=
  if negb (Nat.eqb (length coeffs) (length powers)) then Throw E_invalid_argument
  else mapM (fun cp => if Rlt_dec (snd cp) 0 then Throw E_invalid_argument else Ok (fst cp * mev_to_gev, snd cp)) (combine coeffs powers).

(** ** Potentials *)
(** skyrme_pot, potentials.cc:73-83 *)
Definition skyrme_pot (A B tau rho : R) : option R :=
  let tmp := rho / nuclear_density in
  obind (cpow (Rabs tmp) tau) (fun q => Some (mev_to_gev * sgn tmp * (A * Rabs tmp + B * q))).
(** symmetry_S, potentials.cc:85-92 *)
Definition symmetry_S (P : pot) (rhoB : R) : option R :=
  match symmetry_gamma P with
  | Some g => obind (cpow (rhoB / nuclear_density) (2 / 3)) (fun a => obind (cpow (rhoB / nuclear_density) g)
      (fun b => Some (123 / 10 * a + 20 * b)))
  | None => Some 0
  end.
(** symmetry_pot, potentials.cc:93-102 *)
Definition divide (a b : R) : option R := if Req_EM_T b 0 then None else Some (a / b).
Definition symmetry_pot (P : pot) (rhoI rhoB : R) : option R :=
  let p := mev_to_gev * 2 * symmetry_S_pot P * rhoI / nuclear_density in
  match symmetry_gamma P with
  | Some _ => obind (symmetry_S P rhoB) (fun s => obind (divide (mev_to_gev * s * rhoI * rhoI) (rhoB * rhoB)) (fun q => Some (p + q)))
  | None => Some p
  end.
(** the factors F_1 and F_2 of the VDF potential without the sign, potentials.cc:115-122, 186-203 *)
Definition clamp (a : R) : R := if Rlt_dec a very_small_double then very_small_double else a.
Fixpoint sum_terms (f : R -> R -> R) (l : list (R * R)) : R := match l with [] => 0 | (c, b) :: r => f c b + sum_terms f r end.
Definition F2 (P : pot) (a : R) : R :=
  sum_terms (fun c b => c * Rpower a (b - 2) / Rpower (saturation_density P) (b - 1)) (vdf_terms P).
Definition F1 (P : pot) (a : R) : R :=
  sum_terms (fun c b => c * (b - 2) * Rpower a (b - 3) / Rpower (saturation_density P) (b - 1)) (vdf_terms P).
(** vdf_pot, potentials.cc:104-126 *)
Definition vdf_pot (P : pot) (rhoB : R) (j : vec4) : vec4 := scale4 (F2 P (clamp (Rabs rhoB)) * sgn rhoB) j.
(** force_scale, potentials.cc:163-170 *)
Definition force_scale (t : dtype) : R * R :=
  (IZR (3 - Z.abs (strangeness t)) / 3 * IZR (baryon_number t), IZR (baryon_number t)).
Definition affected (t : dtype) : bool := baryon t || nucleus t.
(** potential, potentials.cc:128-161 *)
Definition lift {A} (x : res A) : option A := match x with Ok a => Some a | _ => None end.
Definition potential (P : pot) (r : vec3) (ps : list dpart) (t : dtype) : option R :=
  if negb (affected t) then Some 0
  else
    obind (lift (current_eckart r ps (param P) Baryon false true)) (fun cB =>
    obind (if use_skyrme P then obind (skyrme_pot (skyrme_a P) (skyrme_b P) (skyrme_tau P) (rho cB)) (fun u => Some (fst (force_scale t) * u)) else Some 0) (fun a =>
    obind (if use_symmetry P then
        obind (lift (current_eckart r ps (param P) BaryonicIsospin false true)) (fun cI =>
        obind (symmetry_pot P (rho cI) (rho cB)) (fun u => Some (snd (force_scale t) * (u * isospin3_rel t)))) else Some 0) (fun b =>
    Some (0 + a + b + (if use_vdf P then fst (force_scale t) * y0 (vdf_pot P (rho cB) (jmu cB)) else 0))))).

(** ** Forces: electric and magnetic component *)
Definition force := (vec3 * vec3)%type.
Definition no_force : force := (zero3, zero3).
(** skyrme_force, potentials.cc:172-190 *)
Definition skyrme_force (P : pot) (rhoB : R) (grad_j0 dj_dt curl_j : vec3) : option force :=
  if use_skyrme P then
    obind (cpow (Rabs rhoB / nuclear_density) (skyrme_tau P - 1)) (fun q =>
      let dV := sgn rhoB * (skyrme_a P + skyrme_b P * skyrme_tau P * q) * mev_to_gev / nuclear_density in
      Some (sub3 zero3 (scale3 dV (add3 grad_j0 dj_dt)), add3 zero3 (scale3 dV curl_j)))
  else Some no_force.
(** dVsym_drhoI3, dVsym_drhoB, potentials.cc:263-289 *)
Definition dVsym_drhoI3 (P : pot) (rhoB rhoI : R) : option R :=
  let term1 := 2 * symmetry_S_pot P / nuclear_density in
  match symmetry_gamma P with
  | Some _ => obind (symmetry_S P rhoB) (fun s => obind (divide (2 * rhoI * s) (rhoB * rhoB)) (fun t2 => Some (mev_to_gev * (term1 + t2))))
  | None => Some (mev_to_gev * term1)
  end.
Definition dVsym_drhoB (P : pot) (rhoB rhoI : R) : option R :=
  match symmetry_gamma P with
  | Some g =>
      let x := rhoB / nuclear_density in
      obind (cpow x (- 1 / 3)) (fun a => obind (cpow x g) (fun b => obind (symmetry_S P rhoB) (fun s =>
      obind (divide (20 * g * b) rhoB) (fun t1b => obind (divide (- 2 * s) rhoB) (fun t2 =>
      divide (mev_to_gev * (82 / 10 * a / nuclear_density + t1b + t2) * rhoI * rhoI) (rhoB * rhoB))))))
  | None => Some 0
  end.
(** symmetry_force, potentials.cc:192-208 *)
Definition symmetry_force (P : pot) (rhoI : R) (gI dI cI : vec3) (rhoB : R) (gB dB cB : vec3) : option force :=
  if use_symmetry P then
    obind (dVsym_drhoI3 P rhoB rhoI) (fun a => obind (dVsym_drhoB P rhoB rhoI) (fun b =>
      Some (sub3 zero3 (add3 (scale3 a (add3 gI dI)) (scale3 b (add3 gB dB))), add3 zero3 (add3 (scale3 a cI) (scale3 b cB)))))
  else Some no_force.
(** vdf_force from derivatives of the current, potentials.cc:210-248 *)
Definition vdf_force (P : pot) (rhoB drho_dt : R) (grad_rho grad_rho_cross_j : vec3) (j0 : R) (grad_j0 j dj_dt curl_j : vec3) : force :=
  let a := clamp (Rabs rhoB) in
  if use_vdf P then
    let f1 := F1 P a * sgn rhoB in
    let f2 := F2 P a * sgn rhoB in
    (sub3 zero3 (add3 (scale3 f1 (add3 (scale3 j0 grad_rho) (scale3 drho_dt j))) (scale3 f2 (add3 grad_j0 dj_dt))),
     add3 zero3 (add3 (scale3 f1 grad_rho_cross_j) (scale3 f2 curl_j)))
  else no_force.
(** vdf_force from derivatives of the field, potentials.cc:250-261 *)
Definition vdf_force_direct (P : pot) (grad_A0 dA_dt curl_A : vec3) : force :=
  if use_vdf P then (sub3 zero3 (add3 grad_A0 dA_dt), add3 zero3 curl_A) else no_force.
(** all_forces, potentials.cc:291-346 *)
Definition all_forces (P : pot) (r : vec3) (ps : list dpart) : option (force * force) :=
  obind (lift (current_eckart r ps (param P) Baryon true true)) (fun cB =>
  obind (if use_skyrme P then skyrme_force P (rho cB) (grad_j0 cB) (threevec (djmu_dt cB)) (curl_vecj cB) else Some no_force) (fun fs =>
  obind (if use_symmetry P then
      obind (lift (current_eckart r ps (param P) BaryonicIsospin true true)) (fun cI =>
      symmetry_force P (rho cI) (grad_j0 cI) (threevec (djmu_dt cI)) (curl_vecj cI)
        (rho cB) (grad_j0 cB) (threevec (djmu_dt cB)) (curl_vecj cB)) else Some no_force) (fun fi =>
  Some (if use_vdf P then
      let rhoB := if Rlt_dec (Rabs (rho cB)) very_small_double then sgn (rho cB) * very_small_double else rho cB in
      let d v := rest_density_derivative (rho cB) (jmu cB) v in
      let grad := V3 (d (djmu_dx cB)) (d (djmu_dy cB)) (d (djmu_dz cB)) in
      vdf_force P rhoB (d (djmu_dt cB)) grad (cross3 grad (threevec (jmu cB))) (y0 (jmu cB)) (grad_j0 cB)
        (threevec (jmu cB)) (threevec (djmu_dt cB)) (curl_vecj cB)
    else fs, fi)))).

(** ** The momentum-dependent potential *)
(** std::cbrt for numbers that are not negative *)
Definition cbrt (x : R) : R := if Rlt_dec 0 x then Rpower x (1 / 3) else 0.
(** momentum_dependent_part, potentials.h:722-759 *)
Definition fermi_momentum (rho : R) : R := cbrt (6 * PI * PI * rho / 4).
Definition momentum_dependent_part (momentum rho C L : R) : R :=
  let pF := fermi_momentum rho in
  let p := momentum / hbarc in
  if Rlt_dec p really_small then
    mev_to_gev * 4 * C / (PI * PI * nuclear_density) * (L * L * pF - L ^ 3 * atan (pF / L))
  else
    let t0 := 2 * 4 * C * PI * L ^ 3 / ((2 * PI) ^ 3 * nuclear_density) in
    let t1 := (pF * pF + L * L - p * p) / (2 * p * L) in
    let t2 := (p + pF) ^ 2 + L * L in
    let t3 := (p - pF) ^ 2 + L * L in
    mev_to_gev * (t0 * (t1 * ln (t2 / t3) + 2 * pF / L - 2 * (atan ((p + pF) / L) - atan ((p - pF) / L)))).
(** root_eq_potentials, potentials.h:672-704 *)
Definition root_equation (P : pot) (p : vec3) (j : vec4) (m : R) (E : R) : res R :=
  rho_LRF <- abs4 j ;;
  let beta := if Rlt_dec really_small (y0 j) then div3 (threevec j) (y0 j) else zero3 in
  let pmu := mk4 E p in
  let pLRF := if Rlt_dec really_small (abs3 beta) then boost beta pmu else pmu in
  let q := abs3 (threevec pLRF) in
  match skyrme_pot (skyrme_a P) (skyrme_b P) (skyrme_tau P) rho_LRF with
  | Some u =>
      let EL := sqrt (m * m + q * q) + u + momentum_dependent_part q rho_LRF (mom_C P) (mom_Lambda P) in
      Ok (E * E - sqr3 p - (EL * EL - q * q))
  | None => Throw E_other
  end.
(** calculation_frame_energy, potentials.h:112-193.  [try a b] is what the root solver finds between a and b, [coin]
    the random numbers of the scan; [fuel] bounds the scan in the model only *)
Fixpoint scan (try : R -> R -> option R) (coin : nat -> bool) (lo hi : R) (fuel : nat) (a b : R) : res R :=
  match fuel with
  | O => UB UB_no_progress
  | S n =>
      match try a b with
      | Some x => Ok x
      | None =>
          let right := if Rlt_dec b hi then true else false in
          let left := if Rlt_dec lo a then true else false in
          match left, right with
          | false, false => Throw E_runtime
          | false, true => scan try coin lo hi n a (b + 1 / 10)
          | true, false => scan try coin lo hi n (a - 1 / 10) b
          | true, true => if coin n then scan try coin lo hi n a (b + 1 / 10) else scan try coin lo hi n (a - 1 / 10) b
          end
      end
  end.
Fixpoint try_widths (try : R -> R -> option R) (g : R) (ws : list R) : option R :=
  match ws with [] => None | w :: r => match try (g - w) (g + w) with Some x => Some x | None => try_widths try g r end end.
Definition calculation_frame_energy (try : R -> R -> option R) (coin : nat -> bool) (p : vec3) (m : R) (fuel : nat) : res R :=
  let g := sqrt (m * m + dot3 p p) in
  match try_widths try g [5 / 100; 5 / 10; 5; 50] with
  | Some x => Ok x
  | None => scan try coin (g - 100) (g + 100) fuel (g - 1 / 10) (g + 1 / 10)
  end.
(** single_particle_energy_gradient, potentials.h:62-110; [jB] is the lattice of the baryon current with its cell
    sizes, [energy p j m] the energy found by the function above *)
Definition current_lattice := ((R * R * R) * (vec3 -> option vec4))%type.
Definition current_near (P : pot) (jB : option current_lattice) (ps : list dpart) (x : vec3) : res (option vec4) :=
  match match jB with Some l => snd l x | None => None end with
  | Some j => Ok (Some j)
  | None => if outside_lattice P then c <- current_eckart x ps (param P) Baryon false true ;; Ok (Some (jmu c)) else Ok None
  end.
Definition energy_gradient (P : pot) (energy : vec3 -> vec4 -> R -> res R) (jB : option current_lattice)
    (x p : vec3) (m : R) (ps : list dpart) : res vec3 :=
  let '(dx, dy, dz) := match jB with Some l => fst l | None => (1 / 10, 1 / 10, 1 / 10) end in
  let slope (e : vec3) (h : R) (k : R -> res vec3) : res vec3 :=
    l <- current_near P jB ps (sub3 x (scale3 h e)) ;;
    match l with None => Ok zero3 | Some jl =>
      r <- current_near P jB ps (add3 x (scale3 h e)) ;;
      match r with None => Ok zero3 | Some jr =>
        er <- energy p jr m ;; el <- energy p jl m ;; k ((er - el) / (2 * h))
      end
    end in
  slope (V3 1 0 0) dx (fun a => slope (V3 0 1 0) dy (fun b => slope (V3 0 0 1) dz (fun c => Ok (V3 a b c)))).

(** ** update_momenta, propagation.cc:131-228 *)
(** a particle with its pole mass and its identity *)
Record mpart := MP { m_id : Z; m_pole : R; m_part : dpart }.
(** effective_mass, particledata.cc:25-33 *)
Definition effective_mass (p : mpart) : res R := if Rlt_dec (m_pole p) really_small then Ok (m_pole p) else abs4 (d_mom (m_part p)).
(** set_4momentum(mass, threevector), particledata.h:187-189 *)
Definition set_momentum (p : mpart) (m : R) (k : vec3) : mpart :=
  let d := m_part p in MP (m_id p) (m_pole p) (DP (d_type d) (d_pos d) (mk4 (sqrt (m * m + dot3 k k)) k) (d_collisions d)).
(** a lattice of forces; value_at, lattice.h:554-568, gives a default value outside *)
Definition lattice := option (vec3 -> option force).
Definition value_at (l : vec3 -> option force) (r : vec3) : bool * force :=
  match l r with Some f => (true, f) | None => (false, no_force) end.
(** constants.h:99-102 *)
Definition fine_structure : R := 72973525698 / 10 ^ 13.
Definition elementary_charge : R := sqrt (fine_structure * 4 * PI).
(** the variables that live as long as the loop: FB, FI3, EM_fields and the smallest time scale ([None]: infinite) *)
Record carried := Car { c_FB : force; c_FI3 : force; c_EM : force; c_scale : option R }.
(** E + v x B *)
Definition lorentz (f : force) (v : vec3) : vec3 := add3 (fst f) (cross3 v (snd f)).
Definition to_res {A} (x : option A) : res A := match x with Some a => Ok a | None => Throw E_other end.
(** the lookup of propagation.cc:168-174: whether the lattices can be used, and the variables afterwards *)
Definition lookup (on : bool) (l : lattice) (r : vec3) (ok : bool) (f : force) : bool * force :=
  if ok then if on then match l with Some v => value_at v r | None => (false, f) end else (true, f) else (false, f).
(** one turn of the loop, propagation.cc:157-215.  [gradient x p m] is single_particle_energy_gradient *)
Definition kick (P : pot) (dt : R) (plist : list dpart) (gradient : vec3 -> vec3 -> R -> res vec3)
    (FB_lat FI3_lat EM_lat : lattice) (s : carried) (p : mpart) : res (carried * mpart) :=
  let d := m_part p in
  let t := d_type d in
  if negb (affected t) then Ok (s, p)
  else
    let scale := force_scale t in
    let r := d_pos d in
    let has (l : lattice) := match l with Some _ => true | None => false end in
    let possibly := (if use_skyrme P then has FB_lat else true) && (if use_vdf P then has FB_lat else true) &&
                    (if use_symmetry P then has FI3_lat else true) in
    let '(u1, f1) := lookup (use_skyrme P) FB_lat r possibly (c_FB s) in
    let '(u2, f2) := lookup (use_vdf P) FB_lat r u1 f1 in
    let '(use, i1) := lookup (use_symmetry P) FI3_lat r u2 (c_FI3 s) in
    if negb use && negb (outside_lattice P) then Ok (Car f2 i1 (c_EM s) (c_scale s), p)
    else
      let FB := if negb (use_skyrme P) && negb (use_vdf P) then no_force else f2 in
      let FI := if negb (use_symmetry P) then no_force else i1 in
      '(FB', FI') <- (if negb use then to_res (all_forces P r plist) else Ok (FB, FI)) ;;
      let v := velocity (d_mom d) in
      m <- effective_mass p ;;
      let iso := scale3 (snd scale * isospin3_rel t) (lorentz FI' v) in
      F <- (if use_momentum_dependence P then
              g <- gradient r (threevec (d_mom d)) m ;; Ok (add3 (scale3 (fst scale) (neg3 g)) iso)
            else Ok (add3 (scale3 (fst scale) (lorentz FB' v)) iso)) ;;
      '(EM, F') <- (if use_coulomb P then
              match EM_lat with
              | None => UB UB_oob
              | Some l => let '(ok, em) := value_at l r in
                  Ok (em, if ok then add3 F (scale3 (hbarc * IZR (charge t) * elementary_charge) (lorentz em v)) else F)
              end else Ok (c_EM s, F)) ;;
      let q := set_momentum p m (add3 (threevec (d_mom d)) (scale3 dt F')) in
      let fa := abs3 F' in
      let sc := if Rlt_dec fa really_small then c_scale s
                else let ts := y0 (d_mom (m_part q)) / fa in
                     match c_scale s with Some x => if Rlt_dec ts x then Some ts else Some x | None => Some ts end in
      Ok (Car FB' FI' EM sc, q).
(** a loop that carries variables from one element to the next *)
Fixpoint loop {S A} (f : S -> A -> res (S * A)) (s : S) (l : list A) : res (S * list A) :=
  match l with
  | [] => Ok (s, [])
  | a :: r => '(s1, b) <- f s a ;; '(s2, r') <- loop f s1 r ;; Ok (s2, b :: r')
  end.
(** the whole function; its second result is whether it warns that the time step is too large *)
Definition update_momenta (P : pot) (dt : R) (energy : vec3 -> vec4 -> R -> res R) (jB : option current_lattice)
    (FB_lat FI3_lat EM_lat : lattice) (ensembles : list (list mpart)) : res (list (list mpart) * bool) :=
  let plist := map m_part (concat ensembles) in
  let gradient x p m := energy_gradient P energy jB x p m plist in
  '(s, out) <- loop (fun s ps => loop (kick P dt plist gradient FB_lat FI3_lat EM_lat) s ps)
      (Car no_force no_force no_force None) ensembles ;;
  Ok (out, match c_scale s with Some x => if Rlt_dec (1 / 10 * x) dt then true else false | None => false end).

(** ** Coulomb fields, potentials.h:302-351 and lattice.h:667-677: the sum over the cells of the cube; [cells] are the
    centres with the charge density (rest frame) and the current *)
Definition E_field_integrand (pos : vec3) (rho : R) (point : vec3) : vec3 :=
  let dr := sub3 point pos in
  if Rlt_dec (abs3 dr) really_small then zero3 else div3 (scale3 (elementary_charge * rho) dr) (abs3 dr ^ 3).
Definition B_field_integrand (pos : vec3) (j : vec3) (point : vec3) : vec3 :=
  let dr := sub3 point pos in
  if Rlt_dec (abs3 dr) really_small then zero3 else div3 (scale3 elementary_charge (cross3 j dr)) (abs3 dr ^ 3).
Definition fields_at (cells : list (vec3 * R * vec3)) (rcut volume : R) (point : vec3) : force :=
  fold_left (fun (f : force) c => let '(pos, rho, j) := c in
      if in_cube point rcut pos
      then (add3 (fst f) (scale3 volume (E_field_integrand pos rho point)), add3 (snd f) (scale3 volume (B_field_integrand pos j point)))
      else f) cells no_force.
