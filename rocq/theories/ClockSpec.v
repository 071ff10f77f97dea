(** Vocabulary for the clock properties. *)
From Coq Require Import ZArith Reals List.
From Flocq Require Import Core.
From Verif Require Import Base Flt ClockModel.
Import ListNotations.
Open Scope Z_scope.

(** The clock after [n] times [++clock]. *)
Fixpoint ticks (n : nat) (c : uclock) : res uclock :=
  match n with O => Ok c | S k => c' <- tick c ;; ticks k c' end.
Fixpoint c_ticks (n : nat) (c : cclock) : res cclock :=
  match n with O => Ok c | S k => c' <- c_tick c ;; c_ticks k c' end.

(** [shows c t next dur]: what a user reads off the clock. *)
Definition shows (c : uclock) (t next dur : R) : Prop :=
  current_time c = Ok t /\ next_time c = Ok next /\ timestep_duration c = Ok dur.

(** A time within +-5*10^8 fm of zero, in micro-fm. *)
Definition moderate (n : Z) : Prop := Z.abs n <= 2 ^ 49.

Fixpoint zsum (l : list Z) : Z := match l with [] => 0 | x :: t => x + zsum t end.
