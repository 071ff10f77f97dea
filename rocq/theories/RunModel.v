(** The loop over events (experiment.h: Experiment::run and what it calls):
    counting events and non-empty ensembles, the blocks every output sees, and the
    chain of random seeds (random.h, random.cc).  What happens inside an event is an
    argument: the labels of the incoming particles of the performed actions and the
    number of intermediate outputs. *)
From Coq Require Import ZArith List Bool Reals.
Import ListNotations.
From Flocq Require Import Core.
From Verif Require Import Base Flt.
Open Scope Z_scope.

(** ** Seeds *)

(** random::generate_63bit_seed, random.cc:21-30: two 32-bit random words [hi], [lo]. *)
Definition seed_63 (hi lo : Z) : Z := Z.shiftr (Z.lor (u64 (Z.shiftl hi 32)) lo) 1.
(** experiment.h:1984 and smash.cc:645-649: a negative Randomseed is replaced. *)
Definition start_seed (configured hi lo : Z) : Z :=
  if configured <? 0 then seed_63 hi lo else configured.

Definition int64_min : Z := - 2 ^ 63.
(** experiment.h:2070-2074: [engine seed j] is the j-th number (uint64) the engine
    gives after being seeded; conversion to int64_t, INT64_MIN is skipped. *)
Fixpoint first_not_min (fuel : nat) (stream : nat -> Z) (j : nat) : res Z :=
  match fuel with
  | O => UB UB_no_progress
  | S f => let r := to_signed 64 (stream j) in
           if r =? int64_min then first_not_min f stream (S j) else Ok r
  end.
Definition next_seed (fuel : nat) (engine : Z -> nat -> Z) (seed : Z) : res Z :=
  r <- first_not_min fuel (engine seed) 0 ;;
  sint64 (Z.abs r).

(** ** Empty events *)

(** particledata.h:21-26 *)
Inductive label := Projectile | Target | Nobody.
(** experiment.h:2300-2315, for one performed action of ensemble [i]. *)
Definition mark (collider : bool) (flags : list bool) (a : nat * list label) : list bool :=
  let '(i, incoming) := a in
  if collider then
    let count_projectile := length (filter (fun l => match l with Projectile => true | _ => false end) incoming) in
    let count_target := length (filter (fun l => match l with Target => true | _ => false end) incoming) in
    if (0 <? Z.of_nat count_target) && (0 <? Z.of_nat count_projectile)
    then upd i true flags else flags
  else flags.

(** ** Counting *)

Inductive counting := FixedNumber (nevents : Z) | MinimumNonEmpty (number max_events : Z).

(** experiment.h:961-962: ceil(double(max_ensembles) / n_ensembles) as int; a
    division by zero ensembles gives an infinity (or NaN), which numeric_cast
    refuses. *)
Definition max_events_of (max_ensembles n_ensembles : Z) : res Z :=
  if n_ensembles =? 0 then Throw E_domain else
  let c := Zceil (fdiv (of_int max_ensembles) (of_int n_ensembles)) in
  if in_i32 c then Ok c else Throw E_domain.

(** experiment.h:948-963: exactly one of the two sections must be given. *)
Definition choose_counting (nevents : option Z) (min_nonempty : option (Z * Z)) (n_ensembles : Z) : res counting :=
  match nevents, min_nonempty with
  | Some n, None => Ok (FixedNumber n)
  | None, Some (number, max_ensembles) =>
      m <- max_events_of max_ensembles n_ensembles ;;
      Ok (MinimumNonEmpty number m)
  | _, _ => Throw E_invalid_argument
  end.

(** Experiment::is_finished, experiment.h:3221-3244; the product in the warning is
    an int. *)
Definition is_finished (c : counting) (n_ens event nonempty : Z) : res bool :=
  match c with
  | FixedNumber n => Ok (n <=? event)
  | MinimumNonEmpty number max_events =>
      if number <=? nonempty then Ok true
      else if max_events <=? event then _ <- sint (event * n_ens) ;; Ok true
      else Ok false
  end.

(** Experiment::count_nonempty_ensembles, experiment.h:3212-3218 *)
Definition count_nonempty (flags : list bool) (nonempty : Z) : Z :=
  fold_left (fun k f => if (f : bool) then k + 1 else k) flags nonempty.

(** ** Outputs *)

(** The calls an output gets: at_eventstart / at_intermediate_time / at_eventend of
    one ensemble, with EventInfo::empty_event, and those for all ensembles
    together (thermodynamic output). *)
Inductive call :=
  | Start (event : Z) (ens : nat) (empty : bool)
  | StartAll (event : Z)
  | Intermediate (event : Z) (ens : nat) (empty : bool)
  | IntermediateAll (event : Z)
  | End (event : Z) (ens : nat) (empty : bool)
  | EndAll (event : Z).

(** special outputs (dileptons, photons, initial conditions) get no intermediate
    output, experiment.h:2824-2827 *)
Record output := Output { special : bool }.

Definition per_ensemble (k : nat -> bool -> call) (flags : list bool) : list call :=
  map (fun i => k i (negb (nth i flags false))) (seq 0 (length flags)).

(** experiment.h:2188-2197 *)
Definition event_start (outs : list output) (event : Z) (flags : list bool) : list (nat * call) :=
  flat_map (fun o => map (pair o) (per_ensemble (Start event) flags ++ [StartAll event]))
           (seq 0 (length outs)).
(** experiment.h:2820-2842; [skip]: a box before its equilibration time *)
Definition intermediate (outs : list output) (skip : bool) (event : Z) (flags : list bool) : list (nat * call) :=
  if skip then [] else
  flat_map (fun o => if special (nth o outs (Output false)) then []
              else map (pair o) (per_ensemble (Intermediate event) flags ++ [IntermediateAll event]))
           (seq 0 (length outs)).
(** experiment.h:3180-3189 *)
Definition event_end (outs : list output) (event : Z) (flags : list bool) : list (nat * call) :=
  flat_map (fun o => map (pair o) (per_ensemble (End event) flags ++ [EndAll event]))
           (seq 0 (length outs)).

(** What happens in an event, in order. *)
Inductive happening := Performed (a : nat * list label) | OutputTime (skip : bool).

Definition step (collider : bool) (outs : list output) (event : Z) (s : list bool * list (nat * call)) (h : happening)
  : list bool * list (nat * call) :=
  let '(flags, tr) := s in
  match h with
  | Performed a => (mark collider flags a, tr)
  | OutputTime skip => (flags, tr ++ intermediate outs skip event flags)
  end.

(** one turn of the loop of Experiment::run, experiment.h:3254-3267 (flags reset at
    2150) *)
Definition one_event (collider : bool) (outs : list output) (n_ens : nat) (event : Z) (hs : list happening)
  : list bool * list (nat * call) :=
  let flags0 := repeat false n_ens in
  let '(flags, tr) := fold_left (step collider outs event) hs (flags0, event_start outs event flags0) in
  (flags, tr ++ event_end outs event flags).

(** Experiment::run, experiment.h:3251-3268; [events] gives what happens for the
    seed of the event; result: number of events, non-empty ensembles, trace. *)
Fixpoint run_loop (fuel : nat) (c : counting) (collider : bool) (outs : list output) (n_ens : nat)
    (next : Z -> res Z) (events : Z -> list happening) (event nonempty seed : Z) (tr : list (nat * call))
  : res (Z * Z * list (nat * call)) :=
  match fuel with
  | O => UB UB_no_progress
  | S f =>
      fin <- is_finished c (Z.of_nat n_ens) event nonempty ;;
      if (fin : bool) then Ok (event, nonempty, tr) else
      seed' <- next seed ;;
      let '(flags, t) := one_event collider outs n_ens event (events seed) in
      event' <- sint (event + 1) ;;
      run_loop f c collider outs n_ens next events event' (count_nonempty flags nonempty) seed' (tr ++ t)
  end.
Definition run (fuel : nat) c collider outs n_ens next events seed :=
  run_loop fuel c collider outs n_ens next events 0 0 seed [].
