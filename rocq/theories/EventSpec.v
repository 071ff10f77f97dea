(** What is required of the physics (finders, final states, propagation) and what the
    event log of a run must look like; used in the statements of EventProps.v. *)
From Coq Require Import ZArith List Bool.
From Verif Require Import Base QnModel QnProps ParticlesModel ParticlesSpec EventModel.
Import ListNotations.
Open Scope Z_scope.

(** A copy of the same particle, which has not interacted in between. *)
Definition same_state (c d : pdata) : Prop :=
  p_id c = p_id d /\ p_index c = p_index d /\ pl_idproc (p_pl c) = pl_idproc (p_pl d).
Definition at_time (e : env) (t : Z) (p : pdata) : Prop := e_time e (pl_rest (p_pl p)) = t.

(** ** Requirements on the physics *)

(** Drawing the final state at time [t]: outgoing particles start at [t]; wall crossings and
    elastic scatterings do not change particle species; wall crossings and fluidization
    without removal return the particle with its history; a decay has an incoming particle. *)
Definition final_state_ok (e : env) (t : Z) (ac : acontent) : Prop :=
  forall ins ty outs, Forall2 same_state (ac_in ac) ins -> Forall (at_time e t) ins ->
    ac_final ac ins = Some (ty, outs) ->
    Forall (at_time e t) outs /\
    (replaces ty = false -> Forall2 (fun i o => pl_type (p_pl i) = pl_type (p_pl o)) ins outs) /\
    (keeps_history ty = true -> Forall2 (fun i o => pl_idproc (p_pl i) = pl_idproc (p_pl o)) ins outs) /\
    (ty = PDecay -> ins <> []).
(** A found action: not in the past, its incoming particles are copies of different
    particles of the container. *)
Definition found_ok (e : env) (st : pstate) (now : Z) (f : Z * acontent) : Prop :=
  let '(t, ac) := f in
  now <= t /\ (exists l, iterate st = Ok l /\ Forall (fun c => In c l) (ac_in ac)) /\
  distinct (ac_in ac) /\ final_state_ok e t ac.
Definition ev_time (ev : event) : option Z :=
  match ev with EvMove t | EvPerform t _ _ _ _ | EvOutput t _ => Some t | EvDiscard => None end.
(** time of the newest timed event of a log *)
Fixpoint log_time (log : list event) : Z :=
  match log with
  | [] => 0
  | ev :: r => match ev_time ev with Some t => t | None => log_time r end
  end.
Record physics_ok (e : env) : Prop := {
  ph_move : forall t p, e_time e (e_move e t p) = t;
  ph_kick : forall w p, e_time e (e_kick e w p) = e_time e (pl_rest p);
  ph_cell : forall w, Forall (found_ok e (w_parts w) (e_lab e (w_labk w))) (e_find_cell e w);
  ph_new : forall w outs, Forall (found_ok e (w_parts w) (log_time (w_log w))) (e_find_new e w outs) }.

(** The clocks (the theorems of ClockProps.v): output times do not decrease; the end of a
    time step is not before its beginning, and is the beginning of the next one while the
    end time is not reached. *)
Record clocks_ok (e : env) (t_end : Z) : Prop := {
  ck_out : forall k, e_out e (S k) = e_out_next e k;
  ck_mono : forall k, e_out_next e k <= e_out_next e (S k);
  ck_lab : forall k, e_lab e k < t_end -> e_lab e k <= e_lab_next e k;
  ck_next : forall k, e_lab e k < t_end -> e_lab e (S k) < t_end -> e_lab e (S k) = e_lab_next e k }.

(** ** The log of a run (newest event first) *)
Definition time_ordered (log : list event) : Prop :=
  forall l1 a l2 b l3 ta tb, log = l1 ++ a :: l2 ++ b :: l3 ->
    ev_time a = Some ta -> ev_time b = Some tb -> tb <= ta.
Definition times_within (lo hi : Z) (log : list event) : Prop :=
  forall ev t, In ev log -> ev_time ev = Some t -> lo <= t <= hi.
(** Sum of an additive number over particles; change of it by the performed actions. *)
Definition total (g : Z -> Z) (l : list pdata) : Z := fold_right (fun d a => g (pl_type (p_pl d)) + a) 0 l.
Definition ev_change (g : Z -> Z) (ev : event) : Z :=
  match ev with EvPerform _ _ _ ins outs => total g outs - total g ins | _ => 0 end.
Definition log_change (g : Z -> Z) (log : list event) : Z := fold_right (fun ev a => ev_change g ev + a) 0 log.
(** Output times of the log, oldest first. *)
Definition output_times (log : list event) : list Z :=
  rev (flat_map (fun ev => match ev with EvOutput t _ => [t] | _ => [] end) log).
(** (id, process id) of the particles that were changed by performed actions. *)
Definition used_up (log : list event) : list (Z * Z) :=
  flat_map (fun ev => match ev with
                      | EvPerform _ ty _ ins _ => if keeps_history ty then []
                          else map (fun c => (p_id c, pl_idproc (p_pl c))) ins
                      | _ => []
                      end) log.
(** State in which run_time_evolution is called: a container with at most 2^29 ids handed
    out, no particle later than [now], process ids up to the number of interactions. *)
Record start_ok (e : env) (now : Z) (w : world) : Prop := {
  so_hist : exists ops b seen, history ops (w_parts w) b seen /\ within_limits ops;
  so_time : forall l c, iterate (w_parts w) = Ok l -> In c l -> e_time e (pl_rest (p_pl c)) <= now;
  so_idp : forall l c, iterate (w_parts w) = Ok l -> In c l -> pl_idproc (p_pl c) <= w_inter w;
  so_inter : 0 <= w_inter w < 2 ^ 32 - 1;
  so_log : w_log w = [] }.
