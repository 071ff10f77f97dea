(** Finding and choosing decays: src/decayactionsfinder.cc, src/decayaction.cc,
    src/particletype.cc, src/include/smash/action.h, src/include/smash/experiment.h.
    Doubles are exact reals, random draws are arguments (a draw is a number in (0, 1] for
    random::canonical_nonzero and in [0, 1) for random::uniform). No potentials: the energy available to a
    decay is the mass of the particle (pot_pointer == nullptr, no UB and UI3 lattices). *)
From Coq Require Import ZArith Reals List Bool.
From Verif Require Import Base VecModel MotionModel WidthModel.
Import ListNotations.
Open Scope R_scope.

(** random::exponential, random.h:148-153 *)
Definition exponential (u lambda : R) : R := - ln u / lambda.
(** ParticleData::inverse_gamma, particledata.h:335-337 *)
Definition inverse_gamma (p : particle) : R := sqrt (1 - sqr3 (threevec (mom p)) / (y0 (mom p) * y0 (mom p))).
(** WhichDecaymodes, particletype.h; wanted_decaymode, particletype.cc:472-488 *)
Inductive which := All | Hadronic | Dileptons.
Definition wanted (wh : which) (d : mode) : bool :=
  match wh with All => true | Hadronic => negb (dilepton d) | Dileptons => dilepton d end.
(** get_partial_widths, particletype.cc:490-532: the modes with a positive width and their widths *)
Definition get_partial_widths (t : ptype) (p : vec4) (wh : which) : list (mode * R) :=
  let m := sqrt (sqr4 p) in
  map (fun d => (d, partial_width t m d))
      (filter (fun d => rltb 0 (partial_width t m d) && wanted wh d) (tmodes t)).
(** total_weight, processbranch.h:236-243 *)
Definition total_weight (l : list (mode * R)) : R := fold_left (fun s d => s + snd d) l 0.

(** the members of DecayActionsFinder (decayactionsfinder.h:79-97) and the power of formation *)
Record dfinder := DFinder { life : R; decay_initial : bool; final_decays : bool; non_strong : bool; power : R }.
(** find_actions_in_cell, decayactionsfinder.cc:20-72: what happens to one particle of the list; [u] is
    the draw. Some (time, channels) is the action created. *)
Definition find_one (f : dfinder) (dt : R) (t : ptype) (p : particle) (u : R) : option (R * list (mode * R)) :=
  if is_stable t then None else
  if negb (decay_initial f) && (ncoll p =? 0)%Z then None else
  let processes := get_partial_widths t (mom p) Hadronic in
  let width := total_weight processes in
  if negb (rltb 0 width) then None else
  let decay_time := life f * exponential u (1 / hbarc * inverse_gamma p * width) in
  let decay_time := if rltb (xsec_scaling_factor (power f) p 0) 1 then decay_time + (form_time p - y0 (pos p)) else decay_time in
  if rltb decay_time dt then Some (decay_time, processes) else None.

(** Action::add_processes, action.h:157-168: total weight and channels of an action *)
Definition add_processes (l : list (mode * R)) : list (mode * R) * R :=
  fold_left (fun acc d => if rltb 0 (snd d) then (fst acc ++ [d], snd acc + snd d) else acc) l ([], 0).
(** choose_channel, action.h:416-435; [x] is the number drawn by random::uniform(0., total_weight).
    std::abort ends the program as a failed assertion does. *)
Fixpoint choose_from (x sum : R) (l : list (mode * R)) : res (mode * R) :=
  match l with
  | [] => UB UB_assert
  | d :: r => let sum := sum + snd d in if Rle_dec x sum then Ok d else choose_from x sum r
  end.
Definition choose_channel (x : R) (l : list (mode * R)) : res (mode * R) := choose_from x 0 l.

(** ** Decays at the end of the event *)
(** a particle of the final state: its type (an index into the table of types) and its momentum *)
Record fpart := FPart { pty : nat; pmom : vec4 }.
(** find_final_actions, decayactionsfinder.cc:74-95: whether a decay is created for the particle *)
Definition finds_final (f : dfinder) (t : ptype) : bool :=
  final_decays f && negb (negb (non_strong f) && is_stable t) && negb (match tmodes t with [] => true | _ => false end).
(** What the random numbers decide about one decay: the draw of the channel and the momenta of the daughters
    (sample_2body_phasespace / sample_manybody_phasespace, see FinalModel for the two-body kinematics). *)
Record draw := Draw { u_channel : R; d_momenta : list vec4 }.
(** sample_outgoing_particles and generate_final_state, decayaction.cc:35-75, 77-98: choose a mode of the
    action, give its daughters the momenta; more than three daughters or fewer than two are refused. *)
Definition decay (tab : nat -> ptype) (p : fpart) (dr : draw) : res (list fpart) :=
  let '(channels, total) := add_processes (get_partial_widths (tab (pty p)) (pmom p) All) in
  ch <- choose_channel (u_channel dr * total) channels ;;
  let out := daughters (fst ch) in
  if ((length out =? 2)%nat || (length out =? 3)%nat)%bool
  then Ok (map (fun x => FPart (fst x) (snd x)) (combine out (d_momenta dr)))
  else Throw E_runtime.
(** One pass of the loop of do_final_interactions over one ensemble, experiment.h:3025-3048: every particle
    found is replaced by its daughters. Each action concerns another particle of the list, so all are valid
    when performed; the order of the particles afterwards is not that of the code. [dr i] is the draw for the
    i-th particle. Returns the particles and the number of actions performed. *)
Fixpoint pass (f : dfinder) (tab : nat -> ptype) (dr : nat -> draw) (i : nat) (ps : list fpart) : res (list fpart * nat) :=
  match ps with
  | [] => Ok ([], 0%nat)
  | p :: r =>
    if finds_final f (tab (pty p))
    then out <- decay tab p (dr i) ;; '(rest, n) <- pass f tab dr (S i) r ;; Ok (out ++ rest, S n)
    else '(rest, n) <- pass f tab dr (S i) r ;; Ok (p :: rest, n)
  end.
(** the loop, experiment.h:3025-3055, for one ensemble: at most [fuel] passes; None if it has not ended
    by then. [dr k] are the draws of the k-th pass. *)
Fixpoint final_loop (f : dfinder) (tab : nat -> ptype) (dr : nat -> nat -> draw) (k fuel : nat) (ps : list fpart) : option (res (list fpart)) :=
  match fuel with
  | O => None
  | S fuel' =>
    match pass f tab (dr k) 0 ps with
    | Ok (ps', n) => if (n =? 0)%nat then Some (Ok ps') else final_loop f tab dr (S k) fuel' ps'
    | Throw e => Some (Throw e)
    | UB b => Some (UB b)
    end
  end.
