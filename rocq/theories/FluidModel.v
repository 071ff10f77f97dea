(** Dynamic fluidization: which particles become part of the fluid ("core"),
    when, from which density, and what happens to core and corona particles at
    the end of an event.
    Simplifications of this module: doubles are reals; the energy density at a
    particle's place (tensor lattice and Landau frame, see TensorModel) is an
    argument; spin and names are left out. *)
From Coq Require Import ZArith List Bool Reals.
Import ListNotations.
From Verif Require Import Base VecModel ActionsModel.
Open Scope Z_scope.

(** ProcessType, src/include/smash/processbranch.h:39-88 *)
Inductive proc :=
| PNone | PElastic | PTwoToOne | PTwoToTwo | PTwoToThree | PTwoToFour | PTwoToFive
| PDecay | PWall | PThermalization | PFluidization | PFluidizationNoRemoval
| PBremsstrahlung | PThreeMesonsToOne | PThreeToTwo | PFourToTwo | PFiveToTwo
| PSoftAX | PSoftXB | PSoftDD | PSoftAnnihilation | PSoftNonDiff | PStringHard
| PFailedString | PFreeforall.

(** The parts of ParticleData used here, src/include/smash/particledata.h:
    id_, history_.id_process, type, position_, momentum_, formation_time_,
    begin_formation_time_, initial_xsec_scaling_factor_, core_,
    history_.collisions_per_particle, history_.time_last_collision,
    history_.process_type, perturbative_weight_. *)
Record part := P {
  f_id : Z; f_idproc : Z; f_type : Z; f_pos : vec4; f_mom : vec4;
  f_form : R; f_begin : R; f_scal : R; f_core : bool;
  f_ncoll : Z; f_tlast : R; f_proc : proc; f_weight : R }.

(** fluidize(), particledata.h:400 *)
Definition fluidize (p : part) : part :=
  P (f_id p) (f_idproc p) (f_type p) (f_pos p) (f_mom p) (f_form p) (f_begin p) (f_scal p) true
    (f_ncoll p) (f_tlast p) (f_proc p) (f_weight p).
(** set_formation_time, particledata.h:264-272 (the time of the last collision
    is not NaN here) *)
Definition set_form (t : R) (p : part) : part :=
  P (f_id p) (f_idproc p) (f_type p) (f_pos p) (f_mom p) t t (f_scal p) (f_core p)
    (f_ncoll p) (f_tlast p) (f_proc p) (f_weight p).
(** set_4position, particledata.h *)
Definition set_pos (x : vec4) (p : part) : part :=
  P (f_id p) (f_idproc p) (f_type p) x (f_mom p) (f_form p) (f_begin p) (f_scal p) (f_core p)
    (f_ncoll p) (f_tlast p) (f_proc p) (f_weight p).
(** set_history as called by Action::perform, src/particledata.cc:35-48,
    src/action.cc:131-139 (parents left out) *)
Definition stamp (n : Z) (ty : proc) (t : R) (p : part) : part :=
  P (f_id p) n (f_type p) (f_pos p) (f_mom p) (f_form p) (f_begin p) (f_scal p) (f_core p)
    (f_ncoll p + 1) t ty (f_weight p).
(** a particle copied into the list gets a new id, src/particles.cc:44-64 *)
Definition with_id (i : Z) (p : part) : part :=
  P i (f_idproc p) (f_type p) (f_pos p) (f_mom p) (f_form p) (f_begin p) (f_scal p) (f_core p)
    (f_ncoll p) (f_tlast p) (f_proc p) (f_weight p).

(** Settings, InitialConditionParameters as stored by the finder,
    src/include/smash/dynamicfluidfinder.h:47-61; the five bits of
    FluidizableProcessesBitSet, forwarddeclarations.h:338-346. *)
Record settings := Settings {
  min_time : R; max_time : R; fraction : R; threshold : R; kernel0 : R;
  from_elastic : bool; from_decay : bool; from_inelastic : bool;
  from_soft : bool; from_hard : bool; delay_elastic : bool }.

(** is_string_soft_process, src/processbranch.cc:18-24 *)
Definition is_soft (ty : proc) : bool :=
  match ty with
  | PSoftAX | PSoftXB | PSoftDD | PSoftAnnihilation | PSoftNonDiff => true
  | _ => false
  end.

(** is_process_fluidizable, src/dynamicfluidfinder.cc:77-110 *)
Definition process_fluidizable (s : settings) (ty : proc) (ncoll : Z) : bool :=
  if is_soft ty then from_soft s
  else match ty with
  | PElastic => if (ncoll =? 1) && delay_elastic s then false else from_elastic s
  | PDecay => from_decay s
  | PTwoToOne | PTwoToTwo | PTwoToThree | PTwoToFour | PTwoToFive
  | PThreeMesonsToOne | PThreeToTwo | PFourToTwo | PFiveToTwo => from_inelastic s
  | PStringHard => from_hard s
  | _ => false
  end.

(** background_.count(id) ? background_.at(id) : 0,
    src/dynamicfluidfinder.cc:62-63 *)
Fixpoint background_of (b : list (Z * R)) (id : Z) : R :=
  match b with
  | [] => 0%R
  | (i, e) :: t => if i =? id then e else background_of t id
  end.

(** above_threshold, src/dynamicfluidfinder.cc:54-75.  [density] is the Landau
    frame energy density at a place, None outside the lattice; [pole] the pole
    mass of a type. *)
Definition above_threshold (s : settings) (density : vec3 -> option R) (b : list (Z * R))
    (pole : Z -> R) (p : part) : bool :=
  match density (threevec (f_pos p)) with
  | None => false
  | Some e => negb (rltb (e + background_of b (f_id p))
                         (threshold s + pole (f_type p) * kernel0 s))
  end.

(** The time at which a particle may fluidize,
    src/dynamicfluidfinder.cc:35-37 *)
Definition fluidization_time (s : settings) (p : part) : R :=
  (f_begin p + fraction s * (f_form p - f_begin p))%R.

(** find_actions_in_cell, src/dynamicfluidfinder.cc:19-52: the particles found,
    each with its time until fluidization.  [scaling p] is
    xsec_scaling_factor() (MotionModel). *)
Fixpoint find_in_cell (s : settings) density b pole (scaling : part -> R) (dt : R)
    (l : list part) : list (part * R) :=
  match l with
  | [] => []
  | p :: t =>
    let t0 := y0 (f_pos p) in
    let t_end := (t0 + dt)%R in
    if rltb t_end (min_time s) || rltb (max_time s) t0 then []   (* break *)
    else if f_core p then find_in_cell s density b pole scaling dt t
    else if negb (rltb (fluidization_time s p) t_end) then find_in_cell s density b pole scaling dt t
    else if negb (process_fluidizable s (f_proc p) (f_ncoll p)) then find_in_cell s density b pole scaling dt t
    else if above_threshold s density b pole p then
      (p, if negb (rltb really_small (1 - scaling p)) then 0%R
          else Rmax (fluidization_time s p - t0) 0)
      :: find_in_cell s density b pole scaling dt t
    else find_in_cell s density b pole scaling dt t
  end.

(** FluidizationAction::generate_final_state, src/fluidizationaction.cc:19-32 *)
Definition fluidization_final (remove : bool) (ins : list part) : res (list part) :=
  match ins with
  | [p] => Ok (if remove then [] else [fluidize p])
  | _ => UB UB_assert
  end.

(** FluidizationAction::check_conservation, src/fluidizationaction.cc:34-55;
    [qn_differ] is the comparison of quantum numbers (QnModel). *)
Definition fluidization_check (remove : bool) (qn_differ : list part -> list part -> bool)
    (ins outs : list part) : res unit :=
  if remove then match outs with [] => Ok tt | _ => Throw E_runtime end
  else if qn_differ ins outs then Throw E_runtime
  else match outs with [] => Throw E_runtime | _ => Ok tt end.

(** The lattice of energy densities: half its side, and the time of the
    particles it was last filled from (None: never). *)
Record fluid_lattice := FL { side : R; filled : option R }.
(** Its construction, src/collidermodus.cc:340-347 *)
Definition fresh_lattice (s : settings) : fluid_lattice := FL (Rmax (min_time s) 40) None.
(** build_fluidization_lattice, src/collidermodus.cc:691-717, called at the
    beginning of every time step, src/include/smash/experiment.h:2564-2567. *)
Definition build_lattice (s : settings) (t : R) (l : fluid_lattice) : fluid_lattice :=
  if rltb t (min_time s) || rltb (max_time s) t then l
  else FL (if rltb (side l) t then side l + 5 else side l)%R (Some t).

(** * The end of an event *)

(** The actions that occur: FreeforallAction with an empty list on one side
    (src/include/smash/freeforallaction.h), DecayAction with its daughters. *)
Inductive fact := Remove (p : part) | Add (p : part) | Decay (p : part) (daughters : list part).

(** time_of_execution of these actions: the absolute time given
    (src/dynamicfluidfinder.cc:123, 148-151), or the particle's time plus 0
    (src/decayactionsfinder.cc:88) *)
Definition time_of (a : fact) : R :=
  match a with
  | Remove p => y0 (f_pos p)
  | Add p => y0 (f_pos p)
  | Decay p _ => y0 (f_pos p)
  end.

(** Action::is_valid, src/action.cc:29-33, and Particles::is_valid,
    src/include/smash/particles.h:120-131, with the list of particles for the
    array. *)
Definition present (st : list part) (p : part) : bool :=
  existsb (fun q => (f_id q =? f_id p) && (f_idproc q =? f_idproc p)) st.

(** the particles, the next id, and the number of interactions so far *)
Record final_state := FS { parts : list part; next_id : Z; inter : Z }.

(** taking a particle out of the list *)
Definition without (p : part) (st : list part) : list part :=
  filter (fun q => negb (f_id q =? f_id p)) st.
(** putting particles in *)
Fixpoint put_in (n : Z) (ps : list part) : list part :=
  match ps with [] => [] | p :: t => with_id n p :: put_in (n + 1) t end.

(** What an action leaves: FreeforallAction::generate_final_state
    (src/include/smash/freeforallaction.h:62-72) moves an added particle to the
    time of the action - which is its own here - and sets its formation time;
    DecayAction::generate_final_state (src/decayaction.cc:77-99) hands on the
    core flag and sets the formation time. *)
Definition outgoing (a : fact) : list part :=
  match a with
  | Remove _ => []
  | Add p =>
    let t := y0 (f_pos p) in
    [set_pos (add4 (f_pos p) (V4 (1 * (time_of a - t)) (x1 (velocity (f_mom p)) * (time_of a - t))
                                 (x2 (velocity (f_mom p)) * (time_of a - t))
                                 (x3 (velocity (f_mom p)) * (time_of a - t)))%R)
             (set_form t p)]
  | Decay p ds =>
    map (fun d => let d' := set_form (time_of a) d in if f_core p then fluidize d' else d') ds
  end.
Definition proc_of (a : fact) : proc := match a with Decay _ _ => PDecay | _ => PFreeforall end.
Definition incoming (a : fact) : list part :=
  match a with Remove p => [p] | Add _ => [] | Decay p _ => [p] end.

(** Experiment::perform_action, src/include/smash/experiment.h:2259-2325, for
    these actions (a single incoming particle is "all core" if it is core, and
    none of them is Pauli blocked here), with Action::perform
    (src/action.cc:128-158).  [action.perform] removes the incoming and inserts
    the outgoing particles (src/particles.cc, Particles::update with
    replace).  Conservation is not enforced for Freeforall
    (src/action.cc:522-527). *)
Definition perform (s : final_state) (a : fact) : final_state :=
  if forallb (present (parts s)) (incoming a) then
    let outs := map (stamp (inter s + 1) (proc_of a) (time_of a)) (outgoing a) in
    let rest := fold_right without (parts s) (incoming a) in
    FS (rest ++ put_in (next_id s) outs) (next_id s + Z.of_nat (length outs)) (inter s + 1)
  else s.

(** The copy of a corona particle that is added, src/dynamicfluidfinder.cc:131-147.
    A newly constructed ParticleData has id -1, no history and weight 1. *)
Definition corona_copy (p : part) : part :=
  let t := y0 (f_pos p) in
  let corona_time := (f_tlast p + 1 / 100)%R in
  let r := sub3 (threevec (f_pos p)) (scale3 (t - corona_time) (velocity (f_mom p))) in
  P (-1) 0 (f_type p) (mk4 corona_time r) (f_mom p) t t 0 false 0 t PNone 1.

(** Is the particle moved back?  src/dynamicfluidfinder.cc:131-139 *)
Definition moved_back (p : part) : bool :=
  negb (f_ncoll p =? 0) && negb (if Req_EM_T (y0 (f_pos p)) (f_tlast p) then true else false).

(** DynamicFluidizationFinder::find_final_actions,
    src/dynamicfluidfinder.cc:112-160 *)
Definition fluid_final_actions (st : list part) : list fact :=
  if existsb f_core st
  then flat_map (fun p => if f_core p then [Remove p] else []) st
  else flat_map (fun p => if moved_back p then [Remove p; Add (corona_copy p)] else []) st.

(** One pass of Experiment::do_final_interactions over one ensemble,
    src/include/smash/experiment.h:3028-3047.  [decays] is what the finder of
    decays returns (src/decayactionsfinder.cc:77-97; it is asked first);
    [order] the order in which the queue hands the actions out. *)
Definition final_pass (decays : list part -> list fact) (order : list fact -> list fact)
    (s : final_state) : list fact * final_state :=
  let found := decays (parts s) ++ fluid_final_actions (parts s) in
  (found, fold_left perform (order found) s).

(** The loop, src/include/smash/experiment.h:3025-3055: at most [fuel] passes;
    None if it has not ended by then. *)
Fixpoint final_loop (fuel : nat) decays (order : nat -> list fact -> list fact)
    (s : final_state) : option (res final_state) :=
  match fuel with
  | O => None
  | S f =>
    let '(found, s') := final_pass decays (order f) s in
    let performed := inter s <? inter s' in
    if negb performed && match found with [] => false | _ => true end then Some (Throw E_runtime)
    else if performed then final_loop f decays order s' else Some (Ok s')
  end.
