(** The documented binary format (doxypage_output_binary, binaryoutput.cc:47-200) as a reader,
    and the documented table of quantities (oscaroutput.cc:695-822). *)
From Coq Require Import ZArith Ascii String List Bool Lia.
From Verif Require Import Base Bytes TextModel OutModel.
Import ListNotations.
Open Scope list_scope.
Open Scope Z_scope.

(** ** table of quantities: name, whether an int32_t (else a double), meaning *)
Inductive meaning := Value (f : field) | AlwaysZero.
Definition table : list (string * (bool * meaning)) :=
  [("t", (false, Value Pos0)); ("x", (false, Value Pos1)); ("y", (false, Value Pos2));
   ("z", (false, Value Pos3)); ("mass", (false, Value EffectiveMass));
   ("p0", (false, Value Mom0)); ("px", (false, Value Mom1)); ("py", (false, Value Mom2));
   ("pz", (false, Value Mom3)); ("pdg", (true, Value PdgDecimal)); ("ID", (true, Value Id));
   ("id", (true, Value Id)); ("charge", (true, Value Charge));
   ("ncoll", (true, Value CollisionsPerParticle)); ("form_time", (false, Value FormationTime));
   ("xsecfac", (false, Value XsecScalingFactor)); ("proc_id_origin", (true, Value IdProcess));
   ("proc_type_origin", (true, Value ProcessType));
   ("time_last_coll", (false, Value TimeLastCollision)); ("pdg_mother1", (true, Value Mother1));
   ("pdg_mother2", (true, Value Mother2)); ("baryon_number", (true, Value BaryonNumber));
   ("strangeness", (true, Value Strangeness)); ("0", (true, AlwaysZero));
   ("tau", (false, Value HyperbolicTime)); ("eta", (false, Value SpatialRapidity));
   ("eta_s", (false, Value SpatialRapidity)); ("mt", (false, Value TransverseMass));
   ("Rap", (false, Value Rapidity)); ("y_rap", (false, Value Rapidity));
   ("spin0", (false, Value Spin0)); ("spinx", (false, Value Spin1)); ("spiny", (false, Value Spin2));
   ("spinz", (false, Value Spin3)); ("perturbative_weight", (false, Value PerturbativeWeight))]%string.

Fixpoint lookup (q : string) (t : list (string * (bool * meaning))) : option (bool * meaning) :=
  match t with
  | [] => None
  | (n, x) :: r => if string_dec n q then Some x else lookup q r
  end.
Definition known (q : string) : Prop := exists x, lookup q table = Some x.
Definition synonyms (a b : string) : Prop :=
  a <> b /\ exists i m, lookup a table = Some (i, m) /\ lookup b table = Some (i, m).
(** the value a column of a particle line must have *)
Definition column (q : string) (p : particle) : Z :=
  match lookup q table with
  | Some (_, Value f) => p f
  | _ => 0
  end.
Definition row (qs : list string) (p : particle) : list Z := map (fun q => column q p) qs.

(** values as the accessors of a particle return them: 32-bit integers, 64-bit images *)
Definition fits_table (p : particle) : Prop :=
  forall q i f, lookup q table = Some (i, Value f) ->
    if i : bool then - 2 ^ 31 <= p f < 2 ^ 31 else 0 <= p f < 2 ^ 64.

(** ** reader *)
Definition bytes (n : nat) (b : list Z) : option (list Z * list Z) :=
  if Nat.leb n (length b) then Some (firstn n b, skipn n b) else None.
Definition bind {A B} (x : option (A * list Z)) (f : A -> list Z -> option B) : option B :=
  match x with Some (a, r) => f a r | None => None end.
Notation "'let*' ( a , r ) := x 'in' k" := (bind x (fun a r => k)) (at level 200, a name, r name).

Definition r_unsigned (n : nat) (b : list Z) : option (Z * list Z) :=
  let* (w, r) := bytes n b in Some (of_le w, r).
Definition r_int32 (b : list Z) : option (Z * list Z) :=
  let* (w, r) := r_unsigned 4 b in Some (if w <? 2 ^ 31 then w else w - 2 ^ 32, r).
Definition r_double (b : list Z) : option (Z * list Z) := r_unsigned 8 b.

Fixpoint r_row (qs : list string) (b : list Z) : option (list Z * list Z) :=
  match qs with
  | [] => Some ([], b)
  | q :: t =>
    match lookup q table with
    | None => None
    | Some (i, _) =>
      let* (v, r) := (if i : bool then r_int32 b else r_double b) in
      let* (vs, r') := r_row t r in
      Some (v :: vs, r')
    end
  end.
Fixpoint r_rows (qs : list string) (n : nat) (b : list Z) : option (list (list Z) * list Z) :=
  match n with
  | O => Some ([], b)
  | S m =>
    let* (v, r) := r_row qs b in
    let* (vs, r') := r_rows qs m r in
    Some (v :: vs, r')
  end.

Inductive block :=
| Particles (event ensemble : Z) (rows : list (list Z))
| Interaction (density weight partial type : Z) (rows_in rows_out : list (list Z))
| End (event ensemble impact : Z) (empty : Z).

(** one block, starting with its letter p, i or f *)
Definition r_block (qs : list string) (b : list Z) : option (block * list Z) :=
  match b with
  | 112 :: r =>
    let* (ev, r) := r_int32 r in
    let* (en, r) := r_int32 r in
    let* (n, r) := r_unsigned 4 r in
    let* (rows, r) := r_rows qs (Z.to_nat n) r in
    Some (Particles ev en rows, r)
  | 105 :: r =>
    let* (nin, r) := r_unsigned 4 r in
    let* (nout, r) := r_unsigned 4 r in
    let* (d, r) := r_double r in
    let* (w, r) := r_double r in
    let* (pw, r) := r_double r in
    let* (ty, r) := r_unsigned 4 r in
    let* (rin, r) := r_rows qs (Z.to_nat nin) r in
    let* (rout, r) := r_rows qs (Z.to_nat nout) r in
    Some (Interaction d w pw ty rin rout, r)
  | 102 :: r =>
    let* (ev, r) := r_int32 r in
    let* (en, r) := r_int32 r in
    let* (ip, r) := r_double r in
    let* (e, r) := r_unsigned 1 r in
    Some (End ev en ip e, r)
  | _ => None
  end.
(** the blocks of an initial-conditions file as they are in the file: a particle block
    without event and ensemble number (given here as 0), or the end of an event *)
Definition r_ic_block (qs : list string) (b : list Z) : option (block * list Z) :=
  match b with
  | 112 :: r =>
    let* (n, r) := r_unsigned 4 r in
    let* (rows, r) := r_rows qs (Z.to_nat n) r in
    Some (Particles 0 0 rows, r)
  | 102 :: _ => r_block qs b
  | _ => None
  end.
Fixpoint r_blocks (fuel : nat) (rb : list Z -> option (block * list Z)) (b : list Z) : option (list block) :=
  match b, fuel with
  | [], _ => Some []
  | _, O => None
  | _, S f => let* (x, r) := rb b in
              match r_blocks f rb r with Some xs => Some (x :: xs) | None => None end
  end.

Record file := mkFile { version : Z; variant : Z; smash_version : list Z; blocks : list block }.
Definition read_with (rb : list Z -> option (block * list Z)) (b : list Z) : option file :=
  let* (magic, r) := bytes 4 b in
  if list_eq_dec Z.eq_dec magic [83; 77; 83; 72] then
    let* (v, r) := r_unsigned 2 r in
    let* (va, r) := r_unsigned 2 r in
    let* (n, r) := r_unsigned 4 r in
    let* (s, r) := bytes (Z.to_nat n) r in
    match r_blocks (length r) rb r with
    | Some xs => Some (mkFile v va s xs)
    | None => None
    end
  else None.
Definition read_file (qs : list string) : list Z -> option file := read_with (r_block qs).
Definition read_ic_file (qs : list string) : list Z -> option file := read_with (r_ic_block qs).

(** ** what each output is documented to contain *)
Definition end_block (l : label) (i : info) : block :=
  End (event_number l) (ensemble_number l) (impact_parameter i) (if empty_event i then 1 else 0).
Definition particle_block (qs : list string) (l : label) (ps : list particle) : block :=
  Particles (event_number l) (ensemble_number l) (map (row qs) ps).
Definition interaction_block (qs : list string) (a : action) (density : Z) : block :=
  Interaction density (total_weight a) (partial_weight a) (process_type a)
    (map (row qs) (incoming a)) (map (row qs) (outgoing a)).

(** collisions: every interaction and every event end; with the option also the particles at
    start and end *)
Definition collisions_blocks (print_start_end : bool) (qs : list string) (c : call) : list block :=
  match c with
  | at_eventstart ps l => if print_start_end then [particle_block qs l ps] else []
  | at_eventend ps l i => (if print_start_end then [particle_block qs l ps] else []) ++ [end_block l i]
  | at_interaction a d => [interaction_block qs a d]
  | at_intermediate_time _ _ => []
  end.
(** particles: final particles (not for empty events if only non-empty ones are asked for),
    all times if not only the final ones are asked for, and every event end *)
Definition particles_blocks (only : only_final) (qs : list string) (c : call) : list block :=
  match c, only with
  | at_eventstart ps l, OnlyFinalNo => [particle_block qs l ps]
  | at_intermediate_time ps l, OnlyFinalNo => [particle_block qs l ps]
  | at_eventend ps l i, IfNotEmpty =>
      (if empty_event i then [] else [particle_block qs l ps]) ++ [end_block l i]
  | at_eventend ps l i, _ => [particle_block qs l ps; end_block l i]
  | _, _ => []
  end.

(** calls whose data fit the types of the C++ interface *)
Definition small (ps : list particle) : Prop := Z.of_nat (length ps) < 2 ^ 32 /\ Forall fits_table ps.
Definition fits_label (l : label) : Prop :=
  - 2 ^ 31 <= event_number l < 2 ^ 31 /\ - 2 ^ 31 <= ensemble_number l < 2 ^ 31.
Definition fits_call (c : call) : Prop :=
  match c with
  | at_eventstart ps l => small ps /\ fits_label l
  | at_eventend ps l i => small ps /\ fits_label l /\ 0 <= impact_parameter i < 2 ^ 64
  | at_interaction a d => small (incoming a) /\ small (outgoing a) /\ 0 <= d < 2 ^ 64 /\
      0 <= total_weight a < 2 ^ 64 /\ 0 <= partial_weight a < 2 ^ 64 /\ 0 <= process_type a < 2 ^ 32
  | at_intermediate_time ps l => small ps /\ fits_label l
  end.

(** the initial-conditions file: one block per removal of particles by fluidization
    (process types 8 and 21), one at the end of each event *)
Definition ic_blocks (qs : list string) (c : call) : list block :=
  match c with
  | at_eventend _ l i => [end_block l i]
  | at_interaction a _ =>
      if (process_type a =? 8) || (process_type a =? 21) then [Particles 0 0 (map (row qs) (incoming a))] else []
  | _ => []
  end.
