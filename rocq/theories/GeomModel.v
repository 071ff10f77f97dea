(** Shapes and orientations of nuclei and the impact parameter: /repo/src/deformednucleus.cc, /repo/src/alphaclusterednucleus.cc,
    /repo/src/nucleus.cc (orientation), /repo/src/collidermodus.cc (impact parameter).  Doubles are exact real numbers, random
    draws are arguments. *)
From Coq Require Import ZArith Reals List Bool.
From Verif Require Import Base VecModel NucleusModel InterpModel.
Import ListNotations.
Open Scope R_scope.

(** ** Deformed nuclei *)
(** y_l_m, deformednucleus.cc:206-224 *)
Definition y_l_m (l m : Z) (cosx phi : R) : res R :=
  if ((l =? 2) && (m =? 0))%Z then Ok (1 / 4 * sqrt (5 / PI) * (3 * (cosx * cosx) - 1))
  else if ((l =? 2) && (m =? 2))%Z then Ok (1 / 4 * sqrt (15 / (2 * PI)) * (1 - cosx * cosx) * cos (2 * phi))
  else if ((l =? 3) && (m =? 0))%Z then Ok (1 / 4 * sqrt (7 / PI) * (5 * cosx * (cosx * cosx) - 3 * cosx))
  else if ((l =? 4) && (m =? 0))%Z then
    Ok (3 / 16 * sqrt (1 / PI) * (35 * (cosx * cosx) * (cosx * cosx) - 30 * (cosx * cosx) + 3))
  else Throw E_domain.
(** the parameters, nucleus.h and deformednucleus.h *)
Record deformed := Def { f_radius : R; f_diff : R; f_rho0 : R; beta2 : R; beta3 : R; beta4 : R; gam : R }.
(** the radius of the surface in nucleon_density, deformednucleus.cc:226-239 *)
Definition surface (N : deformed) (cosx phi : R) : res R :=
  y20 <- y_l_m 2 0 cosx phi ;; y22 <- y_l_m 2 2 cosx phi ;; y30 <- y_l_m 3 0 cosx phi ;; y40 <- y_l_m 4 0 cosx phi ;;
  Ok (f_radius N * (1 + beta2 N * (cos (gam N) * y20 + sqrt 2 * sin (gam N) * y22) + beta3 N * y30 + beta4 N * y40)).
Definition deformed_density (N : deformed) (r cosx phi : R) : res R :=
  s <- surface N cosx phi ;; Ok (f_rho0 N / (1 + exp ((r - s) / f_diff N))).
(** distribute_nucleon, deformednucleus.cc:52-73: one turn of the loop with its four draws; None: another turn *)
Definition radius_max (N : deformed) : R := f_radius N / f_diff N + f_radius N * f_diff N.
Definition deformed_round (N : deformed) (u_phi u_cos u_r u : R) : res (option vec3) :=
  let phi := 2 * PI * u_phi in
  let cosx := -1 + 2 * u_cos in
  let a_radius := radius_max N * cube_root u_r in
  d <- deformed_density N a_radius cosx phi ;;
  Ok (if Rlt_dec (d / f_rho0 N) u then None
      else Some (scale3 a_radius (V3 (sqrt (1 - cosx * cosx) * cos phi) (sqrt (1 - cosx * cosx) * sin phi) cosx))).
(** set_deformation_parameters_automatic, deformednucleus.cc:75-162: beta_2 and beta_4 *)
Definition automatic (A charge : Z) : res (R * R) :=
  let only (z : Z) (b : R * R) : res (R * R) := if (charge =? z)%Z then Ok b else Throw E_domain in
  if (A =? 238)%Z then only 92%Z (28 / 100, 93 / 1000)
  else if (A =? 208)%Z then only 82%Z (0, 0)
  else if (A =? 197)%Z then only 79%Z (- 131 / 1000, - 31 / 1000)
  else if (A =? 129)%Z then only 54%Z (162 / 1000, - 3 / 1000)
  else if (A =? 63)%Z then only 29%Z (162 / 1000, - 6 / 1000)
  else if (A =? 96)%Z then if (charge =? 40)%Z then Ok (0, 0) else if (charge =? 44)%Z then Ok (158 / 1000, 0) else Throw E_domain
  else Throw E_domain.

(** ** Orientation *)
(** set_orientation_from_config, nucleus.cc:364-393: whether to rotate randomly, and the angles theta, phi, psi
    (the keys have the default 0) *)
Definition read_orientation (random : bool) (theta phi psi : option R) : res (bool * (R * R * R)) :=
  let given (x : option R) := match x with Some _ => true | None => false end in
  let value (x : option R) := match x with Some a => a | None => 0 end in
  if random && (given theta || given phi || given psi) then Throw E_domain
  else Ok (random, (value theta, value phi, value psi)).
(** random_euler_angles, nucleus.cc:547-552: phi, theta, psi *)
Definition random_euler_angles (u v w : R) : R * R * R := (2 * PI * u, acos (2 * v - 1), 2 * PI * w).

(** ** Alpha clusters *)
(** the vertices, alphaclusterednucleus.h:71-75, and scale_tetrahedron_vertex_positions, alphaclusterednucleus.cc:75-80 *)
Definition vertices : list vec3 :=
  [V3 1 0 0; V3 (- 1 / 3) (sqrt 8 / 3) 0; V3 (- 1 / 3) (- sqrt 8 / 6) (sqrt 24 / 6); V3 (- 1 / 3) (- sqrt 8 / 6) (- sqrt 24 / 6)].
Definition scale_vertices (side : R) : list vec3 :=
  map (fun p => scale3 side (div3 (scale3 (sqrt 6) (div3 p (abs3 p))) 4)) vertices.
(** the constructor, alphaclusterednucleus.cc:22-63: diffusiveness and radius *)
Definition alpha_parameters (A charge : Z) : res (R * R) := if ((A =? 16) && (charge =? 8))%Z then Ok (322 / 1000, 1676 / 1000) else Throw E_domain.
(** distribute_nucleon, alphaclusterednucleus.cc:65-73, for one nucleon after the other; [xs] are the positions
    drawn around the origin, [i] is the index, an int *)
Fixpoint alpha_positions (verts : list vec3) (i : Z) (xs : list vec3) : res (list vec3 * Z) :=
  match xs with
  | [] => Ok ([], i)
  | x :: r =>
      match nth_error verts (Z.to_nat (wrap 64 i mod Z.of_nat (length verts))) with
      | None => UB UB_oob
      | Some v => if (2 ^ 31 - 1 <=? i)%Z then UB UB_signed_overflow
          else '(ys, j) <- alpha_positions verts (i + 1) r ;; Ok (add3 x v :: ys, j)
      end
  end.

(** ** Impact parameter *)
Inductive sampling := Quadratic | Custom | Uniform.
Record impact_config := IC { ic_value : option R; ic_sample : option sampling; ic_values : option (list R); ic_yields : option (list R);
  ic_range : option (R * R); ic_max : option R }.
Record impact_state := IS { i_sampling : sampling; i_min : R; i_max : R; i_interp : option data_linear; i_yield_max : R }.
Definition take_key {A} (x : option A) : res A := match x with Some a => Ok a | None => Throw E_invalid_argument end.
(** std::min_element and std::max_element of a list that is not empty *)
Definition min_of (a : R) (l : list R) : R := fold_left (fun m x => if Rlt_dec x m then x else m) l a.
Definition max_of (a : R) (l : list R) : R := fold_left (fun m x => if Rlt_dec m x then x else m) l a.
(** the constructor, collidermodus.cc:232-278 *)
Definition read_impact (c : impact_config) : res impact_state :=
  match ic_value c with
  | Some v => Ok (IS Quadratic v v None 0)
  | None =>
      st <- (match ic_sample c with
             | Some Custom =>
                 match ic_values c, ic_yields c with
                 | None, None => Throw E_invalid_argument
                 | _, _ =>
                     xs <- take_key (ic_values c) ;; ys <- take_key (ic_yields c) ;;
                     if negb (Nat.eqb (length xs) (length ys)) then Throw E_invalid_argument
                     else d <- make_data_linear xs ys ;;
                       Ok (IS Custom (min_of (hd 0 xs) xs) (max_of (hd 0 xs) xs) (Some d) (max_of (hd 0 ys) ys))
                 end
             | Some s => Ok (IS s 0 0 None 0)
             | None => Ok (IS Quadratic 0 0 None 0)
             end) ;;
      let st1 := match ic_range c with Some (a, b) => IS (i_sampling st) a b (i_interp st) (i_yield_max st) | None => st end in
      Ok (match ic_max c with Some b => IS (i_sampling st1) 0 b (i_interp st1) (i_yield_max st1) | None => st1 end)
  end.
(** sample_impact, collidermodus.cc:594-623.  One turn of the loop for custom sampling; None: another turn.  A
    probability 0/0 fails the assertion *)
Definition custom_round (st : impact_state) (u v : R) : res (option R) :=
  match i_interp st with
  | None => UB UB_assert
  | Some d =>
      let b := i_min st + (i_max st - i_min st) * u in
      y <- eval_data_linear d b ;;
      if Req_EM_T (i_yield_max st) 0 then UB UB_assert
      else if Rlt_dec (y / i_yield_max st) 1 then Ok (if Rlt_dec (y / i_yield_max st) v then None else Some b)
      else UB UB_assert
  end.
(** the other two cases *)
Definition quadratic_impact (st : impact_state) (u : R) : R :=
  sqrt (i_min st * i_min st + u * (i_max st * i_max st - i_min st * i_min st)).
Definition uniform_impact (st : impact_state) (u : R) : R := i_min st + (i_max st - i_min st) * u.
