(** The initial-conditions output for vHLLE: src/icoutput.cc. The formatted line of a particle is a value of type [A]; the three header
    lines written by the constructor (icoutput.cc:102-114), which do not depend on the run, are left out. Real numbers stand for double;
    the one NaN that can occur, the proper time of a particle outside the light cone, is [None]. *)
From Coq Require Import ZArith Reals List Bool.
From Verif Require Import Base.
Import ListNotations.
Open Scope Z_scope.

Section Ic.
Context {A : Type}.
(** what at_interaction reads of a particle: its line, the number of its collisions, time and z coordinate *)
Record icp := ICP { q_data : A; q_hits : Z; q_t : R; q_z : R }.
(** lines of the file; numbers are event and ensemble *)
Inductive line := L_start (ev ens : Z) | L_end (ev ens : Z) | L_row (a : A).
(** the object, icoutput.h:83-96: IC_proper_time_ and what is in the file *)
Record ic := IC { c_tau : option R; c_file : list line }.
(** calls; [n] is EventInfo::n_ensembles, [fluid]: the process is Fluidization or FluidizationNoRemoval *)
Inductive call := C_start (n ev ens : Z) | C_end (n ev ens : Z) | C_time | C_inter (fluid : bool) (ins : list icp).

(** icoutput.h:89 *)
Definition ic_init : ic := IC (Some (-1)%R) [].
(** constants.h:41 *)
Definition small : R := (/ 1000000)%R.
(** FourVector::tau, fourvector.h:478-480, through ParticleData::hyperbolic_time, particledata.h:404: NaN for a negative argument of sqrt *)
Definition proper_time (p : icp) : option R :=
  let d := (q_t p * q_t p - q_z p * q_z p)%R in if Rlt_dec d 0 then None else Some (sqrt d).
(** comparison a < b of doubles: false when one is NaN *)
Definition lt (a b : option R) : bool := match a, b with Some x, Some y => if Rlt_dec x y then true else false | _, _ => false end.
Definition minus (a b : option R) : option R := match a, b with Some x, Some y => Some (x - y)%R | _, _ => None end.
Definition write (s : ic) (l : line) : ic := IC (c_tau s) (c_file s ++ [l]).
(** at_eventstart, icoutput.cc:118-126 *)
Definition at_eventstart (s : ic) (n ev ens : Z) : ic * res unit :=
  if negb (n =? 1) then (s, Throw E_logic) else (write s (L_start ev ens), Ok tt).
(** at_eventend, icoutput.cc:128-137 *)
Definition at_eventend (s : ic) (n ev ens : Z) : ic * res unit :=
  if negb (n =? 1) then (s, Throw E_logic) else (write s (L_end ev ens), Ok tt).
(** at_interaction, icoutput.cc:146-173: the line is written before the proper time is looked at *)
Definition at_interaction (s : ic) (fluid : bool) (ins : list icp) : ic * res unit :=
  if negb fluid then (s, UB UB_assert)
  else match ins with
  | [p] =>
      let s := if q_hits p =? 0 then s else write s (L_row (q_data p)) in
      if lt (c_tau s) (Some 0%R) then (IC (proper_time p) (c_file s), Ok tt)
      else if negb (lt (minus (proper_time p) (c_tau s)) (Some small)) then (s, Throw E_runtime)
      else (s, Ok tt)
  | _ => (s, UB UB_assert)
  end.
(** the interface; at_intermediate_time, icoutput.cc:139-144, does nothing *)
Definition step (s : ic) (c : call) : ic * res unit :=
  match c with
  | C_start n ev ens => at_eventstart s n ev ens
  | C_end n ev ens => at_eventend s n ev ens
  | C_time => (s, Ok tt)
  | C_inter fluid ins => at_interaction s fluid ins
  end.
(** the calls of a run, one after the other, up to the first that fails; the file keeps what was written *)
Fixpoint run (s : ic) (h : list call) : ic * res unit :=
  match h with
  | [] => (s, Ok tt)
  | c :: h => match step s c with (s, Ok _) => run s h | r => r end
  end.
End Ic.
Arguments icp : clear implicits.
Arguments line : clear implicits.
Arguments ic : clear implicits.
Arguments call : clear implicits.
