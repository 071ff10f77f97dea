(** Model of actions and of the event loop:
    /repo/src/action.cc (is_valid, update_incoming, perform, check_conservation) and
    /repo/src/include/smash/experiment.h (perform_action, run_time_evolution_timestepless,
    run_time_evolution), on top of the particle container (ParticlesModel.v), the
    scheduler (ActionsModel.v) and the quantum numbers (QnModel.v).

    Simplifications.  One ensemble.  Times are integers standing for any totally ordered,
    NaN-free set of doubles.  What the finders find, which final state an action draws,
    whether it is Pauli blocked, how a position is advanced and how potentials and
    expansion change momenta are arbitrary functions (record [env]); since their argument
    is the whole world including its log, which grows with every event, this covers every
    random choice.  Thermalization, fluidization lattices, dileptons, photons, densities,
    counters used only for messages, and adding or removing particles at the start of
    run_time_evolution are left out. *)
From Coq Require Import ZArith Reals List Bool.
From Verif Require Import Base QnModel ActionsModel ParticlesModel.
Import ListNotations.
Open Scope Z_scope.

(** ProcessType, processbranch.h:39-123; only the distinctions the modelled code makes.
    PString: StringSoft* (is_string_soft_process, processbranch.cc:18-24) and StringHard. *)
Inductive ptype := PElastic | PWall | PFluidNoRemoval | PDecay | PString | PFreeforall
                 | POther (code : Z).

(** An action object: process type before the final state is drawn, incoming particles,
    and generate_final_state as a function of the (updated) incoming particles: [None] is
    StochasticBelowEnergyThreshold, otherwise the process type and the outgoing list. *)
Record acontent := AC { ac_type : ptype; ac_in : list pdata;
                        ac_final : list pdata -> option (ptype * list pdata) }.

Inductive event :=
| EvMove (t : Z)                                   (* all particles propagated to t *)
| EvPerform (t : Z) (ty : ptype) (idp : Z) (ins outs : list pdata)
| EvDiscard                                        (* action skipped *)
| EvOutput (t : Z) (shown : list pdata).           (* intermediate output *)

(** The parts of Experiment that the loop reads and writes.  An [action] of the queue
    refers to its object by its position in [w_store]; [w_labk], [w_outk] count the ticks
    of labclock and outputclock; the log is newest first. *)
Record world := World {
  w_parts : pstate; w_queue : list action; w_store : list acontent; w_inter : Z;
  w_labk : nat; w_outk : nat; w_log : list event }.
Definition with_parts st w := World st (w_queue w) (w_store w) (w_inter w) (w_labk w) (w_outk w) (w_log w).
Definition with_queue q w := World (w_parts w) q (w_store w) (w_inter w) (w_labk w) (w_outk w) (w_log w).
Definition with_store s w := World (w_parts w) (w_queue w) s (w_inter w) (w_labk w) (w_outk w) (w_log w).
Definition with_inter n w := World (w_parts w) (w_queue w) (w_store w) n (w_labk w) (w_outk w) (w_log w).
Definition tick_lab w := World (w_parts w) (w_queue w) (w_store w) (w_inter w) (S (w_labk w)) (w_outk w) (w_log w).
Definition tick_out w := World (w_parts w) (w_queue w) (w_store w) (w_inter w) (w_labk w) (S (w_outk w)) (w_log w).
Definition note ev w := World (w_parts w) (w_queue w) (w_store w) (w_inter w) (w_labk w) (w_outk w) (ev :: w_log w).

Record env := Env {
  e_ints : Z -> Z * Z * Z * Z * Z * Z;   (* charge, isospin3, strangeness, charmness, bottomness, baryon number of a type *)
  e_mom : list Z -> four;                (* momentum() *)
  e_stable : Z -> bool;                  (* ParticleType::is_stable *)
  e_core : payload -> bool;              (* ParticleData::is_core *)
  e_time : list Z -> Z;                  (* position().x0() *)
  e_move : Z -> payload -> list Z;       (* new words after propagating to a time *)
  e_kick : world -> payload -> list Z;   (* potentials and expansion, end of a time step *)
  e_pot : bool;                          (* UB_lat_pointer or UI3_lat_pointer set *)
  e_check : bool;                        (* no potentials, strings, expansion, IC *)
  e_initial : qnum;                      (* conserved_initial_ *)
  e_pauli : world -> list pdata -> list pdata -> bool;
  e_find_cell : world -> list (Z * acontent);
  e_find_new : world -> list pdata -> list (Z * acontent);
  e_end : Z;                             (* end_time_ *)
  e_lab : nat -> Z;                      (* labclock, as compared by operator< *)
  e_lab_next : nat -> Z;                 (* labclock->next_time() *)
  e_out : nat -> Z;                      (* outputclock->current_time() *)
  e_out_next : nat -> Z }.               (* outputclock->next_time() *)

(** What QuantumNumbers::add_values reads from a particle. *)
Definition contrib (e : env) (p : pdata) : contribution :=
  let '(c, i3, s, ch, bt, b) := e_ints e (pl_type (p_pl p)) in
  Qnum (e_mom e (pl_rest (p_pl p))) c i3 s ch bt b.

(** ** Action *)

(** Action::is_valid, action.cc:29-33 (all_of stops at the first invalid one) *)
Fixpoint action_valid (st : pstate) (ins : list pdata) : res bool :=
  match ins with
  | [] => Ok true
  | c :: t => v <- is_valid_r st c ;; if v : bool then action_valid st t else Ok false
  end.
(** Particles::lookup, particles.h:141-145; Action::update_incoming, action.cc:62-66 *)
Definition lookup (st : pstate) (c : pdata) : res pdata :=
  _ <- assert_valid st c ;; slot st (p_index c).
Definition update_incoming (st : pstate) (ins : list pdata) : res (list pdata) :=
  mapM (lookup st) ins.

(** ParticleData::set_history sets id_process (its other fields are part of the words the
    final state brings along); action.cc:128-136 *)
Definition keeps_history (ty : ptype) : bool :=
  match ty with PWall | PFluidNoRemoval => true | _ => false end.
Definition stamp (ty : ptype) (idp : Z) (p : pdata) : pdata :=
  if keeps_history ty then p
  else {| p_id := p_id p; p_index := p_index p; p_hole := p_hole p;
          p_pl := {| pl_type := pl_type (p_pl p); pl_idproc := idp; pl_rest := pl_rest (p_pl p) |} |}.
(** action.cc:141-143 *)
Definition replaces (ty : ptype) : bool :=
  match ty with PElastic | PWall | PFluidNoRemoval => false | _ => true end.

(** Action::check_conservation, action.cc:484-536 *)
Definition check_conservation (e : env) (ty : ptype) (ins outs : list pdata) : res unit :=
  before <- of_list (map (contrib e) ins) ;;
  after <- of_list (map (contrib e) outs) ;;
  if q_eqb before after then Ok tt
  else match ty with
       | PString => Ok tt
       | PDecay => match ins with
                   | [] => UB UB_oob
                   | p :: _ => if e_stable e (pl_type (p_pl p)) then Ok tt else Throw E_runtime
                   end
       | PFreeforall => Ok tt
       | _ => Throw E_runtime
       end.

(** Action::perform, action.cc:125-158 *)
Definition perform (e : env) (st : pstate) (ty : ptype) (idp : Z) (ins outs : list pdata)
  : res (pstate * list pdata) :=
  if idp =? 0 then UB UB_assert
  else
    '(st', outs') <- update st ins (map (stamp ty idp) outs) (replaces ty) ;;
    _ <- (if e_pot e then Ok tt else check_conservation e ty ins outs') ;;
    Ok (st', outs').

(** ** Experiment::perform_action, experiment.h:2258-2350 *)

(** core/corona restrictions, experiment.h:2270-2288 *)
Definition core_stops (e : env) (ty : ptype) (ins : list pdata) : bool :=
  existsb (fun p => e_core e (p_pl p)) ins &&
  match ty with
  | PFluidNoRemoval => true
  | PElastic => false
  | _ => negb (forallb (fun p => e_core e (p_pl p)) ins)
  end.

(** More than 2^29 particles created in one event: the model stops with E_other (the
    process would have run out of memory; see C01 for what the container does then). *)
Definition MAX_PARTICLES : Z := 2 ^ 29.

Definition perform_action (e : env) (w : world) (ac : acontent) (t : Z)
  : res (world * option (list pdata)) :=
  v <- action_valid (w_parts w) (ac_in ac) ;;
  if negb v then Ok (note EvDiscard w, None)
  else if core_stops e (ac_type ac) (ac_in ac) then Ok (note EvDiscard w, None)
  else match ac_final ac (ac_in ac) with
       | None => Ok (note EvDiscard w, None)
       | Some (ty, outs) =>
         if e_pauli e w (ac_in ac) outs then Ok (note EvDiscard w, None)
         else if MAX_PARTICLES <? id_max (w_parts w) + 1 + Z.of_nat (length outs) then Throw E_other
         else
           let idp := u32 (w_inter w + 1) in
           '(st', outs') <- perform e (w_parts w) ty idp (ac_in ac) outs ;;
           Ok (note (EvPerform t ty idp (ac_in ac) outs') (with_inter (u64 (w_inter w + 1)) (with_parts st' w)),
               Some outs')
       end.

(** ** Propagation *)

(** [for (ParticleData &data : *particles) data.set_...]: every particle in iteration
    order gets new words; type and history stay. *)
Definition move_kth (f : payload -> res (list Z)) (st : pstate) (k : nat) : res pstate :=
  l <- iterate st ;;
  match nth_error l k with
  | None => Ok st
  | Some c => r <- f (p_pl c) ;; write_kth st k (pl_idproc (p_pl c)) r
  end.
Definition for_each (f : payload -> res (list Z)) (st : pstate) : res pstate :=
  l <- iterate st ;; foldM (move_kth f) st (seq 0 (length l)).
(** propagate_straight_line, propagation.cc:42-84: asserts that no particle is later than
    the target time. *)
Definition propagate (e : env) (to : Z) (st : pstate) : res pstate :=
  for_each (fun p => if to <? e_time e (pl_rest p) then UB UB_assert else Ok (e_move e to p)) st.

(** Actions::insert(ActionList&&) for freshly found actions *)
Definition insert_found (w : world) (found : list (Z * acontent)) : world :=
  let n := Z.of_nat (length (w_store w)) in
  let acts := map (fun '(k, (t, _)) => Action (n + Z.of_nat k) t) (combine (seq 0 (length found)) found) in
  with_queue (ActionsModel.insert_all (w_queue w) acts)
    (with_store (w_store w ++ map snd found) w).

(** check_interactions_total, experiment.h:2695-2700 *)
Definition UINT32_MAX : Z := 2 ^ 32 - 1.

(** ** run_time_evolution_timestepless, experiment.h:2703-2765.  The number of iterations
    of the while loop is bounded by [fuel]; running out of it is UB_no_progress. *)
Fixpoint action_loop (fuel : nat) (e : env) (tend : Z) (w : world) : res world :=
  match fuel with
  | O => UB UB_no_progress
  | S f =>
    if ActionsModel.is_empty (w_queue w) then Ok w
    else
      t0 <- earliest_time (w_queue w) ;;
      if tend <? t0 then Ok w
      else
        '(a, q) <- pop (w_queue w) ;;
        let w := with_queue q w in
        match nth_error (w_store w) (Z.to_nat (a_id a)) with
        | None => UB UB_oob
        | Some ac =>
          v <- action_valid (w_parts w) (ac_in ac) ;;
          if negb v then action_loop f e tend (note EvDiscard w)
          else
            st1 <- propagate e (a_time a) (w_parts w) ;;
            let w := note (EvMove (a_time a)) (with_parts st1 w) in
            ins <- update_incoming st1 (ac_in ac) ;;
            '(w, r) <- perform_action e w (AC (ac_type ac) ins (ac_final ac)) (a_time a) ;;
            match r with
            | None => action_loop f e tend w
            | Some outs =>
              let w := insert_found w (e_find_new e w outs) in
              if UINT32_MAX <=? w_inter w then Throw E_runtime
              else action_loop f e tend w
            end
        end
  end.
Definition timestepless (fuel : nat) (e : env) (tend : Z) (w : world) : res world :=
  w <- action_loop fuel e tend w ;;
  st <- propagate e tend (w_parts w) ;;
  Ok (note (EvMove tend) (with_parts st w)).

(** ** run_time_evolution, experiment.h:2453-2675 *)

(** The output loop inside a time step, experiment.h:2612-2620. *)
Fixpoint output_loop (fuel : nat) (e : env) (tstep : Z) (w : world) : res world :=
  match fuel with
  | O => UB UB_no_progress
  | S f =>
    if e_out_next e (w_outk w) <? tstep then
      w <- timestepless fuel e (e_out_next e (w_outk w)) w ;;
      let w := tick_out w in
      l <- iterate (w_parts w) ;;
      output_loop f e tstep (note (EvOutput (e_out e (w_outk w)) l) w)
    else Ok w
  end.
(** One time step, experiment.h:2556-2657. *)
Definition time_step (fuel : nat) (e : env) (w : world) : res world :=
  let w := insert_found (with_queue [] w) (e_find_cell e w) in
  let tstep := e_lab_next e (w_labk w) in
  w <- output_loop fuel e tstep w ;;
  w <- timestepless fuel e tstep w ;;
  st <- for_each (fun p => Ok (e_kick e w p)) (w_parts w) ;;
  let w := tick_lab (with_parts st w) in
  if e_check e then
    l <- iterate (w_parts w) ;;
    now <- of_list (map (contrib e) l) ;;
    match report_deviations (e_initial e) now with [] => Ok w | _ => Throw E_runtime end
  else Ok w.
Fixpoint step_loop (fuel : nat) (e : env) (t_end : Z) (w : world) : res world :=
  match fuel with
  | O => UB UB_no_progress
  | S f =>
    if e_lab e (w_labk w) <? t_end
    then w <- time_step fuel e w ;; step_loop f e t_end w
    else Ok w
  end.
Definition run_time_evolution (fuel : nat) (e : env) (t_end : Z) (w : world) : res world :=
  if e_end e <? t_end then Throw E_logic
  else w <- step_loop fuel e t_end w ;; Ok (tick_out w).
