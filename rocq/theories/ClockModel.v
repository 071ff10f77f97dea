(** Model of /repo/src/include/smash/clock.h.  Doubles are rounded reals (Flt.v);
    NaN and infinities are not represented.  int64 arithmetic is checked: overflow is
    UB. *)
From Coq Require Import ZArith Reals List Bool.
From Flocq Require Import Core.
From Verif Require Import Base Flt.
Import ListNotations.
Open Scope Z_scope.

(** ** Clock::operator++ and += (clock.h:119-143), on the counter *)
Definition counter_incr (c : Z) : res Z :=
  if INT64_MAX - 1 <=? c then Throw E_overflow else sint64 (c + 1).
Definition counter_add (c n : Z) : res Z :=
  lim <- sint64 (INT64_MAX - n) ;;
  if lim <=? c then Throw E_overflow else sint64 (c + n).

(** ** UniformClock *)

(** resolution, to_double, from_double: clock.h:223, 385, 387 *)
Definition to_double : R := fl (1 / 1000000).
Definition from_double : R := fdiv 1 to_double.

(** convert(double): clock.h:390-392, numeric_cast.h:71-98 (a value outside int64 is
    undefined behaviour in the static_cast). *)
Definition convert_to (x : R) : res Z :=
  let n := cround (fmul x from_double) in
  if in_i64 n then Ok n else UB UB_float_cast.
(** convert(Representation): clock.h:394 *)
Definition to_time (n : Z) : R := fmul (of_int n) to_double.

Record uclock := UClock { u_counter : Z; u_dt : Z; u_reset : Z; u_end : Z }.

(** UniformClock(double, double, double), clock.h:236-249 *)
Definition make_uclock (time dt time_end : R) : res uclock :=
  d <- convert_to dt ;;
  t <- convert_to time ;;
  e <- convert_to time_end ;;
  if Rle_bool dt 0 then Throw E_range
  else if e <=? t then Throw E_range
  else Ok (UClock 0 d t e).

(** present_internal_time, clock.h:379-381: internal units and as double *)
Definition present_units (c : uclock) : res Z :=
  m <- sint64 (u_dt c * u_counter c) ;; sint64 (u_reset c + m).
Definition present_internal_time (c : uclock) : res R :=
  p <- present_units c ;; Ok (to_time p).

(** current_time, clock.h:252-260 *)
Definition current_time (c : uclock) : res R :=
  t <- present_internal_time c ;;
  n <- convert_to t ;;
  if u_end c <? n then Ok (to_time (u_end c)) else Ok t.

(** next_time, clock.h:268-280 *)
Definition next_time (c : uclock) : res R :=
  m <- sint64 (u_counter c * u_dt c) ;;
  lim <- sint64 (INT64_MAX - u_dt c) ;;
  if lim <=? m then Throw E_overflow
  else
    c1 <- sint64 (u_counter c + 1) ;;
    m1 <- sint64 (u_dt c * c1) ;;
    n <- sint64 (u_reset c + m1) ;;
    if u_end c <? n then Ok (to_time (u_end c)) else Ok (to_time n).

(** timestep_duration, clock.h:286-298 *)
Definition timestep_duration (c : uclock) : res R :=
  t <- present_internal_time c ;;
  n <- convert_to t ;;
  if u_end c <? n then Ok 0%R
  else s <- sint64 (n + u_dt c) ;;
       if u_end c <? s then d <- sint64 (u_end c - n) ;; Ok (to_time d)
       else Ok (to_time (u_dt c)).

(** set_timestep_duration, clock.h:304-312 *)
Definition set_timestep_duration (c : uclock) (dt : R) : res uclock :=
  if Rle_bool dt 0 then Throw E_range
  else
    m <- sint64 (u_dt c * u_counter c) ;;
    r <- sint64 (u_reset c + m) ;;
    d <- convert_to dt ;;
    Ok (UClock 0 d r (u_end c)).

(** reset, clock.h:321-336.  Division by a zero interval is reported as UB_div_zero
    (the double division itself would give inf or NaN, which is not represented). *)
Definition reset_target (c : uclock) (start_time : R) (is_output_clock : bool) : res R :=
  if is_output_clock
  then if Req_bool (to_time (u_dt c)) 0 then UB UB_div_zero
       else Ok (fmul (IZR (cfloor (fdiv start_time (to_time (u_dt c))))) (to_time (u_dt c)))
  else Ok start_time.
Definition reset (c : uclock) (start_time : R) (is_output_clock : bool) : res uclock :=
  t <- reset_target c start_time is_output_clock ;;
  _ <- current_time c ;;
  r <- convert_to t ;;
  Ok (UClock 0 (u_dt c) r (u_end c)).

(** operator++ and operator+= of UniformClock, clock.h:346-371 *)
Definition tick (c : uclock) : res uclock :=
  k <- counter_incr (u_counter c) ;; Ok (UClock k (u_dt c) (u_reset c) (u_end c)).
Definition tick_n (c : uclock) (n : Z) : res uclock :=
  k <- counter_add (u_counter c) n ;; Ok (UClock k (u_dt c) (u_reset c) (u_end c)).
Definition advance (c : uclock) (big : R) : res uclock :=
  if Rlt_bool big 0 then Throw E_range
  else d <- convert_to big ;; r <- sint64 (u_reset c + d) ;;
       Ok (UClock (u_counter c) (u_dt c) r (u_end c)).

(** ** CustomClock, clock.h:405-500 *)
Record cclock := CClock { c_counter : Z; c_times : list R; c_start : R }.

(** std::sort on doubles: any sorting algorithm gives the same list of values. *)
Fixpoint insert_time (x : R) (l : list R) : list R :=
  match l with
  | [] => [x]
  | y :: t => if Rle_bool x y then x :: l else y :: insert_time x t
  end.
Fixpoint sort_times (l : list R) : list R :=
  match l with [] => [] | x :: t => insert_time x (sort_times t) end.

Definition make_cclock (times : list R) : cclock := CClock (-1) (sort_times times) 0.

(** std::vector::at with the counter converted to size_t *)
Definition time_at (l : list R) (i : Z) : res R :=
  if i <? 0 then Throw E_out_of_range
  else match nth_error l (Z.to_nat i) with Some t => Ok t | None => Throw E_out_of_range end.

Definition c_current_time (c : cclock) : res R :=
  if c_counter c =? -1 then Ok (c_start c)
  else if c_counter c <? -1 then Throw E_runtime
  else time_at (c_times c) (c_counter c).
Definition c_next_time (c : cclock) : res R :=
  i <- sint64 (c_counter c + 1) ;; time_at (c_times c) i.
Definition c_timestep_duration (c : cclock) : res R :=
  n <- c_next_time c ;; t <- c_current_time c ;; Ok (fsub n t).
Definition c_reset (c : cclock) (start_time : R) : cclock :=
  CClock (-1) (c_times c) start_time.
Definition c_remove_times_in_past (c : cclock) (start_time : R) : cclock :=
  CClock (c_counter c) (filter (fun t => negb (Rle_bool t start_time)) (c_times c)) (c_start c).
Definition c_tick (c : cclock) : res cclock :=
  k <- counter_incr (c_counter c) ;; Ok (CClock k (c_times c) (c_start c)).

(** Per-event preparation of the output clock, experiment.h:2132-2135. *)
Definition c_begin_event (c : cclock) (start_time : R) : cclock :=
  c_remove_times_in_past (c_reset c start_time) start_time.
