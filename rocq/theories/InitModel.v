(** Model of the initial conditions of the box and of the sphere: BoxModus::initial_conditions,
    /repo/src/boxmodus.cc:107-228, and SphereModus::initial_conditions, /repo/src/spheremodus.cc:153-314.
    Doubles are exact reals. Random draws are arguments: per particle, the mass drawn from its thermal
    distribution, the radial momentum returned by the sampler of distributions.cc, the direction, and the
    numbers the position is made from. Spin vectors are not modelled except for the reference through which they
    are set (end of the file); logging is not modelled. *)
From Coq Require Import ZArith Reals List Bool.
From Verif Require Import Base VecModel MotionModel CollideModel NucleusModel ParticlesModel.
Import ListNotations.
Open Scope R_scope.

(** the fields of ParticleData that are set here *)
Record ini := Ini { i_pdg : Z; i_pos : vec4; i_mom : vec4; i_form : R }.

(** ** Particles of the configuration *)
(** the loop over init_multipl_, boxmodus.cc:142-147 and spheremodus.cc:189-194. The product is an int; create
    takes a size_t, so that a negative product becomes a number larger than the memory (see
    ParticlesModel.create_n, which leaves the array) *)
Fixpoint configured (mult : list (Z * Z)) (test : Z) : res (list Z) :=
  match mult with
  | [] => Ok []
  | (pdg, n) :: r =>
      c <- sint (n * test) ;;
      if (c <? 0)%Z then UB UB_oob
      else rest <- configured r test ;; Ok (repeat pdg (Z.to_nat c) ++ rest)
  end.
(** the loop over average_multipl_, boxmodus.cc:132-137 and spheremodus.cc:176-180; the second component is what
    random::poisson returned *)
Fixpoint thermal (mult : list (Z * Z)) : list Z :=
  match mult with [] => [] | (pdg, n) :: r => repeat pdg (Z.to_nat n) ++ thermal r end.

(** how momenta are drawn, boxmodus.cc:154-179, spheremodus.cc:207-240. The non-equilibrium distributions of
    the sphere (IC_ES, IC_1M, IC_2M, IC_Massive) take the pole mass, as [FixedMass] does. *)
Inductive momenta := Peaked | Thermal (widths : bool) | FixedMass | Quantum.
(** QuantumSampling is constructed from init_multipl_, boxmodus.cc:151 and spheremodus.cc:197; sample
    dereferences what find returns, quantumsampling.cc:252-256 *)
Definition quantum_sample (init_multipl : list (Z * Z)) (pdg : Z) (drawn : R) : res R :=
  match find (fun e => (fst e =? pdg)%Z) init_multipl with Some _ => Ok drawn | None => UB UB_oob end.
Definition mass_and_momentum (how : momenta) (T : R) (init_multipl : list (Z * Z)) (pdg : Z) (pole drawn_mass drawn_p : R)
  : res (R * R) :=
  match how with
  | Peaked => Ok (pole, 3 * T)
  | Thermal widths => Ok (if widths then drawn_mass else pole, drawn_p)
  | FixedMass => Ok (pole, drawn_p)
  | Quantum => p <- quantum_sample init_multipl pdg drawn_p ;; Ok (pole, p)
  end.

(** what is drawn for a particle *)
Record draw := Draw { d_mass : R; d_p : R; d_dir : angles; d_u : vec3; d_posdir : angles }.
(** sum of the four-momenta, boxmodus.cc:184, spheremodus.cc:246 *)
Definition sum_mom (acc : vec4) (l : list ini) : vec4 := fold_left (fun s i => add4 s (i_mom i)) l acc.
(** the loop that removes the total momentum, boxmodus.cc:195-204, spheremodus.cc:274-282 *)
Definition recentre1 (tot : vec4) (n : nat) (i : ini) : res ini :=
  m <- abs4 (i_mom i) ;;
  Ok (Ini (i_pdg i) (i_pos i) (on_shell m (sub3 (threevec (i_mom i)) (div3 (threevec tot) (INR n)))) (i_form i)).
Definition recentre (tot : vec4) (l : list ini) : res (list ini) := mapM (recentre1 tot (length l)) l.

(** ** Box *)
(** [b_mass] is the mass of each species, [b_jet] the jet particle and its momentum *)
Record box := Box { b_length : R; b_T : R; b_start : R; b_how : momenta; b_mass : Z -> R;
  b_init : list (Z * Z); b_jet : option (Z * R) }.
(** the loop over the particles, boxmodus.cc:153-192; uniform_length() is length times a number in [0, 1) *)
Definition box_one (b : box) (pd : Z * draw) : res ini :=
  let '(pdg, d) := pd in
  '(m, p) <- mass_and_momentum (b_how b) (b_T b) (b_init b) pdg (b_mass b pdg) (d_mass d) (d_p d) ;;
  Ok (Ini pdg (mk4 (b_start b) (scale3 (b_length b) (d_u d))) (on_shell m (scale3 p (direction (d_dir d)))) (b_start b)).
(** boxmodus.cc:207-216 *)
Definition box_jet (b : box) : list ini :=
  match b_jet b with
  | None => []
  | Some (pdg, p) => [Ini pdg (mk4 (b_start b) (V3 0 0 0)) (on_shell (b_mass b pdg) (V3 p 0 0)) (b_start b)]
  end.
(** boxmodus.cc:107-228, given the species that were created *)
Definition box_init (b : box) (species : list Z) (draws : list draw) : res (list ini) :=
  l <- mapM (box_one b) (combine species draws) ;;
  l' <- recentre (sum_mom zero4 l) l ;;
  Ok (l' ++ box_jet b).

(** ** Sphere *)
(** a jet: the particle, its antiparticle (itself if it has none), the momentum, the position, whether there is a
    second particle going back, and the distance of the two *)
Record jet := Jet { j_pdg : Z; j_anti : Z; j_mom : R; j_pos : vec3; j_back : bool; j_sep : R }.
Record sphere := Sphere { s_radius : R; s_T : R; s_start : R; s_how : momenta; s_mass : Z -> R;
  s_init : list (Z * Z); s_u0 : R; s_n : R; s_jet : option jet }.
(** the checks of the constructor, spheremodus.cc:80-98 (the one on the jet keys is not modelled) *)
Definition sphere_check (s : sphere) : res unit :=
  if Rlt_dec 1 (s_u0 s) then Throw E_invalid_argument
  else if Rle_dec (s_T s) 0 then Throw E_invalid_argument
  else if Rlt_dec (s_n s) 0 then Throw E_invalid_argument
  else Ok tt.
(** spheremodus.cc:201-255; the first of the three uniform numbers is used *)
Definition sphere_one (s : sphere) (pd : Z * draw) : res ini :=
  let '(pdg, d) := pd in
  '(m, p) <- mass_and_momentum (s_how s) (s_T s) (s_init s) pdg (s_mass s pdg) (d_mass d) (d_p d) ;;
  Ok (Ini pdg (mk4 (s_start s) (scale3 (cube_root (x1 (d_u d)) * s_radius s) (direction (d_posdir d))))
       (on_shell m (scale3 p (direction (d_dir d)))) (s_start s)).
(** std::pow for a base that is not negative *)
Definition cpow (x y : R) : R := if Req_EM_T x 0 then (if Req_EM_T y 0 then 1 else 0) else Rpower x y.
(** the boost of one particle, spheremodus.cc:261-268; dividing by the radius 0 is an error of its own *)
Definition flow_velocity (s : sphere) (x : vec4) : res vec3 :=
  let r := sqrt (sqr3 (threevec x)) in
  if Req_EM_T r 0 then UB UB_div_zero
  else Ok (scale3 (cpow (r / s_radius s) (s_n s)) (scale3 (- 1 * s_u0 s) (div3 (threevec x) r))).
Definition flow1 (s : sphere) (i : ini) : res ini :=
  v <- flow_velocity s (i_pos i) ;; Ok (Ini (i_pdg i) (i_pos i) (boost v (i_mom i)) (i_form i)).
(** spheremodus.cc:260-271: the boosted momenta are added to momentum_total, which holds the sum of the momenta
    before the boost *)
Definition flow (s : sphere) (tot : vec4) (l : list ini) : res (vec4 * list ini) :=
  if Rlt_dec 0 (s_u0 s) then l' <- mapM (flow1 s) l ;; Ok (sum_mom tot l', l') else Ok (tot, l).
(** spheremodus.cc:285-303 *)
Definition sphere_jet (s : sphere) : list ini :=
  match s_jet s with
  | None => []
  | Some j =>
      let disp := V3 ((if j_back j then j_sep j else 0) / 2) 0 0 in
      Ini (j_pdg j) (mk4 (s_start s) (add3 (j_pos j) disp)) (on_shell (s_mass s (j_pdg j)) (V3 (j_mom j) 0 0)) (s_start s) ::
      (if j_back j then
         [Ini (j_anti j) (mk4 (s_start s) (sub3 (j_pos j) disp)) (on_shell (s_mass s (j_anti j)) (V3 (- j_mom j) 0 0)) (s_start s)]
       else [])
  end.
(** spheremodus.cc:153-314, given the species that were created *)
Definition sphere_init (s : sphere) (species : list Z) (draws : list draw) : res (list ini) :=
  l <- mapM (sphere_one s) (combine species draws) ;;
  '(tot, l1) <- flow s (sum_mom zero4 l) l ;;
  l2 <- recentre tot l1 ;;
  Ok (l2 ++ sphere_jet s).

(** ** The reference to the jet particle *)
(** spheremodus.cc:286-307 on the particle list: create returns a reference into the array; the second create may
    replace the array (ParticlesModel.ensure_capacity), after which writing through the first reference, done when
    spin interactions are on, is undefined *)
Definition sphere_jet_list (spin : bool) (j : jet) (st : pstate) : res pstate :=
  '(st1, _) <- create1 st (j_pdg j) ;;
  if j_back j then
    '(st2, _) <- create1 st1 (j_anti j) ;;
    if (spin && negb (capacity st2 =? capacity st1)%Z)%bool then UB UB_oob else Ok st2
  else Ok st1.
