(** Particle output: src/include/smash/outputformatter.h, src/binaryoutput.cc,
    src/include/smash/binaryoutput.h.

    A particle is given by the values its accessors return: integers as they are, doubles
    by their 64-bit memory image.  Files are byte sequences (little-endian machine); a
    failing fwrite is not modelled. *)
From Coq Require Import ZArith Ascii String List Bool Lia.
From Verif Require Import Base Bytes NumModel TextModel.
Import ListNotations.
Open Scope list_scope.
Open Scope Z_scope.

(** what the getters read, outputformatter.h:213-345 *)
Inductive field :=
| Pos0 | Pos1 | Pos2 | Pos3 | EffectiveMass | Mom0 | Mom1 | Mom2 | Mom3
| PdgDecimal | Id | Charge | CollisionsPerParticle | FormationTime | XsecScalingFactor
| IdProcess | ProcessType | TimeLastCollision | Mother1 | Mother2 | BaryonNumber
| Strangeness | Spin0 | Spin1 | Spin2 | Spin3 | HyperbolicTime | SpatialRapidity
| TransverseMass | Rapidity | PerturbativeWeight.
Definition particle := field -> Z.

(** which method of the converter a getter calls, on what *)
Inductive getter :=
| as_integer (f : field) | as_zero | as_double (f : field) | as_precise_double (f : field).

(** the chain of comparisons in the constructor, outputformatter.h:212-345; None: no branch
    taken, hence no getter added *)
Definition getter_of (q : string) : option getter :=
  if String.eqb q "t" then Some (as_double Pos0)
  else if String.eqb q "x" then Some (as_double Pos1)
  else if String.eqb q "y" then Some (as_double Pos2)
  else if String.eqb q "z" then Some (as_double Pos3)
  else if String.eqb q "mass" then Some (as_double EffectiveMass)
  else if String.eqb q "p0" then Some (as_precise_double Mom0)
  else if String.eqb q "px" then Some (as_precise_double Mom1)
  else if String.eqb q "py" then Some (as_precise_double Mom2)
  else if String.eqb q "pz" then Some (as_precise_double Mom3)
  else if String.eqb q "pdg" then Some (as_integer PdgDecimal)
  else if String.eqb q "ID" || String.eqb q "id" then Some (as_integer Id)
  else if String.eqb q "charge" then Some (as_integer Charge)
  else if String.eqb q "ncoll" then Some (as_integer CollisionsPerParticle)
  else if String.eqb q "form_time" then Some (as_double FormationTime)
  else if String.eqb q "xsecfac" then Some (as_double XsecScalingFactor)
  else if String.eqb q "proc_id_origin" then Some (as_integer IdProcess)
  else if String.eqb q "proc_type_origin" then Some (as_integer ProcessType)
  else if String.eqb q "time_last_coll" then Some (as_double TimeLastCollision)
  else if String.eqb q "pdg_mother1" then Some (as_integer Mother1)
  else if String.eqb q "pdg_mother2" then Some (as_integer Mother2)
  else if String.eqb q "baryon_number" then Some (as_integer BaryonNumber)
  else if String.eqb q "strangeness" then Some (as_integer Strangeness)
  else if String.eqb q "spin0" then Some (as_double Spin0)
  else if String.eqb q "spinx" then Some (as_double Spin1)
  else if String.eqb q "spiny" then Some (as_double Spin2)
  else if String.eqb q "spinz" then Some (as_double Spin3)
  else if String.eqb q "0" then Some as_zero
  else if String.eqb q "tau" then Some (as_double HyperbolicTime)
  else if String.eqb q "eta" || String.eqb q "eta_s" then Some (as_double SpatialRapidity)
  else if String.eqb q "mt" then Some (as_double TransverseMass)
  else if String.eqb q "Rap" || String.eqb q "y_rap" then Some (as_double Rapidity)
  else if String.eqb q "perturbative_weight" then Some (as_double PerturbativeWeight)
  else None.

(** units_, outputformatter.h:533-568 *)
Definition units : list (string * string) :=
  [("t", "fm"); ("x", "fm"); ("y", "fm"); ("z", "fm"); ("mass", "GeV"); ("p0", "GeV");
   ("px", "GeV"); ("py", "GeV"); ("pz", "GeV"); ("pdg", "none"); ("ID", "none");
   ("id", "none"); ("charge", "e"); ("ncoll", "none"); ("form_time", "fm");
   ("xsecfac", "none"); ("proc_id_origin", "none"); ("proc_type_origin", "none");
   ("time_last_coll", "fm"); ("pdg_mother1", "none"); ("pdg_mother2", "none");
   ("baryon_number", "none"); ("strangeness", "none"); ("0", "0"); ("tau", "fm");
   ("eta", "none"); ("eta_s", "none"); ("mt", "GeV"); ("Rap", "none"); ("y_rap", "none");
   ("spin0", "none"); ("spinx", "none"); ("spiny", "none"); ("spinz", "none");
   ("perturbative_weight", "none")]%string.
(** aliases_, outputformatter.h:571-572 *)
Definition aliases : list (string * string) := [("ID", "id"); ("eta_s", "eta"); ("y_rap", "Rap")]%string.

Definition given (qs : list string) (q : string) : bool := existsb (String.eqb q) qs.

(** validate_quantities, outputformatter.h:575-614; all four exceptions derive from
    std::invalid_argument *)
Definition validate (qs : list string) : res unit :=
  match qs with
  | [] => Throw E_invalid_argument
  | _ =>
    if existsb (fun q => Nat.ltb 1 (count_occ string_dec qs q)) qs then Throw E_invalid_argument
    else if existsb (fun q => negb (existsb (fun u => String.eqb (fst u) q) units)) qs
         then Throw E_invalid_argument
    else if existsb (fun a => given qs (fst a) && given qs (snd a)) aliases
         then Throw E_invalid_argument
    else Ok tt
  end.

(** OutputFormatter: the getters pushed by the constructor *)
Fixpoint getters (qs : list string) : list getter :=
  match qs with
  | [] => []
  | q :: t => match getter_of q with Some g => g :: getters t | None => getters t end
  end.
Definition make_formatter (qs : list string) : res (list getter) :=
  _ <- validate qs ;; Ok (getters qs).

(** ToBinary, outputformatter.h:125-166: memcpy of a 4-byte int or an 8-byte double *)
Definition to_binary (g : getter) (p : particle) : list Z :=
  match g with
  | as_integer f => le 4 (u32 (p f))
  | as_zero => le 4 0
  | as_double f => le 8 (p f)
  | as_precise_double f => le 8 (p f)
  end.
(** append_to_buffer for ToBinary (no separator, no end of line), outputformatter.h:628-643 *)
Definition binary_line (gs : list getter) (p : particle) : list Z := flat_map (fun g => to_binary g p) gs.

(** append_to_buffer for ToASCII, outputformatter.h:628-643: [show] is what the converter
    makes of a value; separator ' ', end of line '\n' *)
Fixpoint ascii_fields (show : getter -> particle -> text) (first : bool) (gs : list getter) (p : particle) : text :=
  match gs with
  | [] => []
  | g :: t => (if first then [] else [SPACE]) ++ show g p ++ ascii_fields show false t p
  end.
Definition ascii_line (show : getter -> particle -> text) (gs : list getter) (p : particle) : text :=
  ascii_fields show true gs p ++ [NEWLINE].

(** compute_single_size, outputformatter.h:362-383 *)
Definition binary_size (gs : list getter) (p : particle) : Z :=
  match gs with [] => 0 | _ => fold_left (fun s g => s + Z.of_nat (length (to_binary g p))) gs 0 end.
Definition ascii_size (show : getter -> particle -> text) (gs : list getter) (p : particle) : Z :=
  match gs with
  | [] => 0
  | _ => fold_left (fun s g => s + Z.of_nat (length (show g p))) gs 0 + (Z.of_nat (length gs) - 1) + 1
  end.

(** write_in_chunk_impl, outputformatter.h:695-745: the list of buffers handed to [write].
    [line] is single_particle_data, [size] is compute_single_size.  The product
    size() * bytes_per_particle is a size_t. *)
Fixpoint chunks (line : particle -> list Z) (max : Z) (ps : list particle) (buffer : list Z) (current : Z)
  : list (list Z) :=
  match ps with
  | [] => match buffer with [] => [] | _ => [buffer] end
  | p :: t =>
    let l := line p in
    let n := Z.of_nat (length l) in
    if max <? current + n then buffer :: chunks line max t l n
    else chunks line max t (buffer ++ l) (current + n)
  end.
Definition write_in_chunk (line : particle -> list Z) (size : particle -> Z) (max : Z) (ps : list particle)
  : res (list (list Z)) :=
  match ps with
  | [] => Ok []
  | p0 :: _ =>
    let bytes := size p0 in
    if max <? 2 * bytes then Throw E_runtime
    else if u64 (Z.of_nat (length ps) * bytes) <=? max then Ok [flat_map line ps]
    else Ok (chunks line max ps [] 0)
  end.

(** the default of max_buffer_bytes, outputformatter.h:698 *)
Definition MAX_BUFFER : Z := 1000000000.

(** OutputDefaultQuantities, outputparameters.h:305-331 *)
Definition oscar2013 : list string :=
  ["t"; "x"; "y"; "z"; "mass"; "p0"; "px"; "py"; "pz"; "pdg"; "ID"; "charge"]%string.
Definition oscar2013extended : list string :=
  ["t"; "x"; "y"; "z"; "mass"; "p0"; "px"; "py"; "pz"; "pdg"; "ID"; "charge"; "ncoll"; "form_time";
   "xsecfac"; "proc_id_origin"; "proc_type_origin"; "time_last_coll"; "pdg_mother1"; "pdg_mother2";
   "baryon_number"; "strangeness"]%string.

(** write(size_t), binaryoutput.h:109 *)
Definition write_size (n : nat) : res (list Z) :=
  x <- cast_int uint64 uint32 (Z.of_nat n) ;; Ok (le 4 x).
(** write(const std::string&), binaryoutput.cc:233-237 *)
Definition write_string (s : text) : res (list Z) :=
  x <- cast_int uint64 uint32 (Z.of_nat (length s)) ;; Ok (le 4 x ++ s).
(** write(int32_t) *)
Definition write_int32 (x : Z) : list Z := le 4 (u32 x).

(** BinaryOutputBase constructor, binaryoutput.cc:202-223 (format_version_ = 10,
    format_custom_ = 2, binaryoutput.h:132-134); [version] is SMASH_VERSION *)
Definition format_variant (qs : list string) : Z :=
  if list_eq_dec string_dec qs oscar2013 then 0
  else if list_eq_dec string_dec qs oscar2013extended then 1
  else 2.
Definition open_output (qs : list string) (version : text) : res (list getter * list Z) :=
  gs <- make_formatter qs ;;
  match qs with
  | [] => Throw E_invalid_argument
  | _ =>
    v <- write_string version ;;
    Ok (gs, [83; 77; 83; 72] ++ le 2 10 ++ le 2 (format_variant qs) ++ v)
  end.

(** write(Particles), write(ParticleList), binaryoutput.cc:247-257 *)
Definition write_particles (gs : list getter) (ps : list particle) : res (list Z) :=
  cs <- write_in_chunk (binary_line gs) (binary_size gs) MAX_BUFFER ps ;; Ok (concat cs).

(** EventLabel and EventInfo, as far as they are written *)
Record label := mkLabel { event_number : Z; ensemble_number : Z }.
Record info := mkInfo { impact_parameter : Z; empty_event : bool }.

(** the 'p' block, binaryoutput.cc:276-280 (and four more copies of it) *)
Definition p_block (gs : list getter) (l : label) (ps : list particle) : res (list Z) :=
  n <- write_size (length ps) ;;
  d <- write_particles gs ps ;;
  Ok ([112] ++ write_int32 (event_number l) ++ write_int32 (ensemble_number l) ++ n ++ d).
(** the 'f' block, binaryoutput.cc:295-302 *)
Definition f_block (l : label) (i : info) : list Z :=
  [102] ++ write_int32 (event_number l) ++ write_int32 (ensemble_number l) ++
  le 8 (impact_parameter i) ++ [if empty_event i then 1 else 0].

(** what an Action tells the outputs *)
Record action := mkAction {
  incoming : list particle; outgoing : list particle;
  total_weight : Z; partial_weight : Z; process_type : Z }.
(** the 'i' block, BinaryOutputCollisions::at_interaction, binaryoutput.cc:308-323 *)
Definition i_block (gs : list getter) (a : action) (density : Z) : res (list Z) :=
  nin <- write_size (length (incoming a)) ;;
  nout <- write_size (length (outgoing a)) ;;
  din <- write_particles gs (incoming a) ;;
  dout <- write_particles gs (outgoing a) ;;
  Ok ([105] ++ nin ++ nout ++ le 8 density ++ le 8 (total_weight a) ++ le 8 (partial_weight a) ++
      le 4 (u32 (process_type a)) ++ din ++ dout).

(** the calls an output receives *)
Inductive call :=
| at_eventstart (ps : list particle) (l : label)
| at_eventend (ps : list particle) (l : label) (i : info)
| at_interaction (a : action) (density : Z)
| at_intermediate_time (ps : list particle) (l : label).

Inductive only_final := OnlyFinalYes | OnlyFinalNo | IfNotEmpty.

(** BinaryOutputCollisions, binaryoutput.cc:271-323.  The class does not override
    at_intermediate_time (the base class does nothing). *)
Definition collisions_output (print_start_end : bool) (gs : list getter) (c : call) : res (list Z) :=
  match c with
  | at_eventstart ps l => if print_start_end then p_block gs l ps else Ok []
  | at_eventend ps l i =>
      d <- (if print_start_end then p_block gs l ps else Ok []) ;; Ok (d ++ f_block l i)
  | at_interaction a density => i_block gs a density
  | at_intermediate_time _ _ => Ok []
  end.

(** BinaryOutputParticles, binaryoutput.cc:332-387; no at_interaction *)
Definition particles_output (only : only_final) (gs : list getter) (c : call) : res (list Z) :=
  match c with
  | at_eventstart ps l => match only with OnlyFinalNo => p_block gs l ps | _ => Ok [] end
  | at_eventend ps l i =>
      d <- (if empty_event i && match only with IfNotEmpty => true | _ => false end
            then Ok [] else p_block gs l ps) ;;
      Ok (d ++ f_block l i)
  | at_interaction _ _ => Ok []
  | at_intermediate_time ps l => match only with OnlyFinalNo => p_block gs l ps | _ => Ok [] end
  end.

(** BinaryOutputInitialConditions, binaryoutput.cc:394-427; Fluidization = 8 and
    FluidizationNoRemoval = 21 (processbranch.h:61-63) *)
Definition fluid (t : Z) : bool := (t =? 8) || (t =? 21).
Definition ic_output (gs : list getter) (c : call) : res (list Z) :=
  match c with
  | at_eventend _ l i => Ok (f_block l i)
  | at_interaction a _ =>
      if fluid (process_type a) then
        n <- write_size (length (incoming a)) ;;
        d <- write_particles gs (incoming a) ;;
        Ok ([112] ++ n ++ d)
      else Ok []
  | _ => Ok []
  end.

(** the file after a sequence of calls *)
Definition write_file (qs : list string) (version : text)
    (out : list getter -> call -> res (list Z)) (calls : list call) : res (list Z) :=
  '(gs, h) <- open_output qs version ;;
  bs <- mapM (out gs) calls ;;
  Ok (h ++ concat bs).
