(** Preparing a nucleus: src/nucleus.cc, src/include/smash/nucleus.h, src/customnucleus.cc.
    Doubles are exact reals, random draws are arguments (canonical() in [0, 1)). *)
From Coq Require Import ZArith Reals List Bool.
From Verif Require Import Base VecModel MotionModel WidthModel.
Import ListNotations.
Open Scope R_scope.

(** The particles of a nucleus: species (PDG code), pole mass, position, momentum. *)
Definition proton : Z := 2212.
Definition neutron : Z := 2112.
Record nucleon := Nuc { npdg : Z; nmass : R; npos : vec4; nmom : vec4 }.
Definition set_npos (x : vec4) (n : nucleon) := Nuc (npdg n) (nmass n) x (nmom n).
Definition set_nmom (p : vec4) (n : nucleon) := Nuc (npdg n) (nmass n) (npos n) p.
Definition is_nucleon (n : nucleon) : bool := ((npdg n =? proton) || (npdg n =? neutron))%Z.

(** fill_from_list, nucleus.cc:506-518. The product of the int and the size_t is computed in size_t
    (64 bits); the counter is an unsigned int (32 bits), with a larger bound the loop never ends.
    [mass] is the pole mass of the type. *)
Fixpoint fill_from_list (mass : Z -> R) (l : list (Z * Z)) (testparticles : Z) : res (list nucleon) :=
  match l with
  | [] => Ok []
  | (pdg, n) :: r =>
    let bound := wrap 64 (n * testparticles) in
    if (2 ^ 32 <=? bound)%Z then UB UB_no_progress else
    rest <- fill_from_list mass r testparticles ;;
    Ok (repeat (Nuc pdg (mass pdg) zero4 (V4 (mass pdg) 0 0 0)) (Z.to_nat bound) ++ rest)
  end.
(** number_of_particles, number_of_protons, nucleus.h:159-197 (testparticles_ is not 0) *)
Definition multiple (count t : Z) : res Z :=
  let q := (count / t)%Z in if (wrap 64 (q * t) =? count)%Z then Ok q else Throw E_other.
Definition number_of_particles (ps : list nucleon) (t : Z) : res Z := multiple (Z.of_nat (length ps)) t.
Definition number_of_protons (ps : list nucleon) (t : Z) : res Z :=
  multiple (Z.of_nat (length (filter (fun n => (npdg n =? proton)%Z) ps))) t.

(** center, nucleus.cc:538-545, align_center, nucleus.h:217-222 *)
Definition sum_pos (ps : list nucleon) : vec4 := fold_left (fun s n => add4 s (npos n)) ps zero4.
Definition div4 (a : vec4) (k : R) : vec4 := V4 (y0 a / k) (y1 a / k) (y2 a / k) (y3 a / k).
Definition center (ps : list nucleon) : vec4 := div4 (sum_pos ps) (INR (length ps)).
Definition align_center (ps : list nucleon) : list nucleon :=
  let c := center ps in map (fun n => set_npos (sub4 (npos n) c) n) ps.
(** rotate, nucleus.cc:395-413; the angles are those of the configuration or the drawn ones *)
Definition nonzero_angle (phi theta psi : R) : bool :=
  if Req_EM_T phi 0 then if Req_EM_T theta 0 then if Req_EM_T psi 0 then false else true else true else true.
Definition nrotate (phi theta psi : R) (ps : list nucleon) : list nucleon :=
  if nonzero_angle phi theta psi
  then map (fun n => set_npos (mk4 (y0 (npos n)) (rotate phi theta psi (threevec (npos n)))) n) ps
  else ps.
(** arrange_nucleons, nucleus.cc:289-304; [xs] are the positions returned by distribute_nucleon *)
Definition arrange (xs : list vec3) (phi theta psi : R) (ps : list nucleon) : list nucleon :=
  nrotate phi theta psi
    (align_center (map (fun nx => Nuc (npdg (fst nx)) (nmass (fst nx)) (mk4 0 (snd nx)) (on_shell (nmass (fst nx)) (V3 0 0 0))) (combine ps xs))).

(** generate_fermi_momenta, nucleus.cc:415-474. [rho] is nucleon_density at the position of a particle, [u] and
    [dir] are the draw and the direction for each particle. pow(x, 1/3) of a non-negative x. *)
Definition cube_root (x : R) : R := if Rle_dec x 0 then 0 else Rpower x (1 / 3).
Definition count_pdg (c : Z) (ps : list nucleon) : nat := length (filter (fun n => (npdg n =? c)%Z) ps).
Definition fermi_draw (rho : nucleon -> R) (ps : list nucleon) (n : nucleon) (ud : R * vec3) : vec3 :=
  let A := INR (count_pdg neutron ps + count_pdg proton ps) in
  let r := rho n * INR (if (npdg n =? proton)%Z then count_pdg proton ps else count_pdg neutron ps) / A in
  scale3 (hbarc * cube_root (3 * PI * PI * r * fst ud)) (snd ud).
(** first loop: momenta drawn and their sum *)
Definition fermi_first (rho : nucleon -> R) (ps : list nucleon) (draws : list (R * vec3)) : list nucleon :=
  map (fun nd => if is_nucleon (fst nd) then set_nmom (mk4 (y0 (nmom (fst nd))) (fermi_draw rho ps (fst nd) (snd nd))) (fst nd) else fst nd) (combine ps draws).
Definition sum_drawn (rho : nucleon -> R) (ps : list nucleon) (draws : list (R * vec3)) : vec3 :=
  fold_left (fun s nd => if is_nucleon (fst nd) then add3 s (fermi_draw rho ps (fst nd) (snd nd)) else s) (combine ps draws) (V3 0 0 0).
Definition generate_fermi (rho : nucleon -> R) (draws : list (R * vec3)) (ps : list nucleon) : list nucleon :=
  let A := (count_pdg neutron ps + count_pdg proton ps)%nat in
  let ps1 := fermi_first rho ps draws in
  if (A =? 0)%nat then ps1 else
  let c := div3 (sum_drawn rho ps draws) (INR A) in
  map (fun n => if is_nucleon n then set_nmom (on_shell (nmass n) (sub3 (threevec (nmom n)) c)) n else n) ps1.

(** boost, nucleus.cc:476-504 *)
Definition boost_one (beta : R) (n : nucleon) : nucleon :=
  let one_over_gamma := sqrt (1 - beta * beta) in
  let g := 1 / one_over_gamma in
  let x := npos n in let p := nmom n in
  Nuc (npdg n) (nmass n) (V4 (y0 x) (y1 x) (y2 x) (y3 x * one_over_gamma))
    (on_shell (nmass n) (V3 (y1 p) (y2 p) (g * (beta * y0 p + y3 p)))).
Definition nboost (beta : R) (ps : list nucleon) : list nucleon := map (boost_one beta) ps.
(** shift, nucleus.cc:520-530 (the formation time is not modelled) *)
Definition shift (z x t : R) (ps : list nucleon) : list nucleon :=
  map (fun n => set_npos (V4 t (y1 (npos n) + x) (y2 (npos n)) (y3 (npos n) + z)) n) ps.

(** ** distribute_nucleon, nucleus.cc:239-283 *)
(** -log of a draw; None is the infinity for the draw 0 *)
Definition neg_log (u : R) : option R := if Req_EM_T u 0 then None else Some (- ln u).
Definition oplus (a b : option R) : option R := match a, b with Some x, Some y => Some (x + y) | _, _ => None end.
(** one round of the loop: [which] is the number drawn between -1 and ranges234, [u] the further draws.
    The result t, None for infinity *)
Definition ws_t (rs which : R) (u1 u2 u3 : R) : option R :=
  let p2 := 3 / rs in let p3 := 2 * p2 / rs in
  if Rlt_dec which 0 then Some (rs * (cube_root u1 - 1)) else
  let t := neg_log u1 in
  if Rle_dec p2 which
  then let t := oplus t (neg_log u2) in if Rle_dec (p2 + p3) which then oplus t (neg_log u3) else t
  else t.
(** the upper end of the range for [which] *)
Definition ranges234 (rs : R) : R := 3 / rs + 2 * (3 / rs) / rs + 1 * (2 * (3 / rs) / rs) / rs.
(** accepted unless the draw exceeds 1/(1 + exp(-|t|)) *)
Definition ws_accept (t : option R) (u : R) : bool :=
  if Rlt_dec (match t with Some t => 1 / (1 + exp (- Rabs t)) | None => 1 end) u then false else true.
(** the radius from t; None is infinity *)
Definition ws_radius (radius diffusiveness : R) (t : option R) : option R :=
  match t with Some t => Some ((t + radius / diffusiveness) * diffusiveness) | None => None end.
(** hard sphere, nucleus.cc:244-246 *)
Definition hard_sphere (radius u : R) : R := radius * cube_root u.

(** ** Reading the nucleons of a custom nucleus, customnucleus.cc:177-215 *)
(** A file: its lines and whether the last one ends with a newline. Stream state: number of the next line
    and eofbit. *)
Record cfile (A : Type) := CFile { clines : list A; newline : bool }.
Arguments CFile {A}. Arguments clines {A}. Arguments newline {A}.
(** std::getline on a stream that has not failed: the line read (None: nothing was extracted, the string is
    empty) and the new state. Reading the last line without a newline sets eofbit, reading beyond it too. *)
Definition getline {A} (f : cfile A) (pos : nat) : option A * nat * bool :=
  match nth_error (clines f) pos with
  | None => (None, pos, true)
  | Some l => (Some l, S pos, (S pos =? length (clines f))%nat && negb (newline f))
  end.
(** One round of the loop: getline, and at the end of the file back to the beginning. A stream left with
    eofbit by the second getline fails at the next getline without extracting anything, with eof() true,
    which has the same effect as reading beyond the end. *)
Definition next_line {A} (f : cfile A) (pos : nat) (eof : bool) : option A * nat * bool :=
  let '(l, pos', e) := if eof then (None, pos, true) else getline f pos in
  if e then getline f 0 else (l, pos', e).
(** the nucleon of a line: its charge (column isospin) and the rest; [parse] None: the line cannot be read *)
Fixpoint read_lines {A B} (parse : A -> option (Z * B)) (f : cfile A) (n : nat) (pos : nat) (eof : bool) : res (list (Z * B) * nat * bool) :=
  match n with
  | O => Ok ([], pos, eof)
  | S n' =>
    let '(l, pos', e) := next_line f pos eof in
    match l with
    | None => Throw E_runtime
    | Some x =>
      match parse x with
      | None => Throw E_runtime
      | Some v => '(rest, p, e') <- read_lines parse f n' pos' e ;; Ok (v :: rest, p, e')
      end
    end
  end.
Definition readfile {A B} (parse : A -> option (Z * B)) (f : cfile A) (protons neutrons : nat) (pos : nat) (eof : bool) : res (list (Z * B) * nat * bool) :=
  '(l, p, e) <- read_lines parse f (protons + neutrons) pos eof ;;
  if ((length (filter (fun v => (fst v =? 1)%Z) l) =? protons)%nat && (length (filter (fun v => (fst v =? 0)%Z) l) =? neutrons)%nat)
  then Ok (l, p, e) else Throw E_runtime.
