(** Model of small numeric helpers:
    /repo/src/include/smash/numeric_cast.h, algorithms.h (enforce_periodic_boundaries),
    average.h, and the choice of a channel (action.h:141-148, 157-168, 415-435;
    processbranch.h:236-243). *)
From Coq Require Import ZArith Reals List Bool.
From Flocq Require Import Core.
From Verif Require Import Base Flt.
Import ListNotations.
Open Scope Z_scope.

(** ** numeric_cast, numeric_cast.h:73-100 *)

(** An integral type: number of bits and std::is_signed. *)
Record ity := Ity { bits : Z; sgn : bool }.
Definition int32 := Ity 32 true.
Definition uint32 := Ity 32 false.
Definition int64 := Ity 64 true.
Definition uint64 := Ity 64 false.
Definition lowest (t : ity) : Z := if sgn t then - 2 ^ (bits t - 1) else 0.
Definition highest (t : ity) : Z := if sgn t then 2 ^ (bits t - 1) - 1 else 2 ^ bits t - 1.
Definition fits (t : ity) (x : Z) : bool := (lowest t <=? x) && (x <=? highest t).
(** static_cast between integral types: modulo 2^bits (C++20, and all compilers before) *)
Definition wrap (t : ity) (x : Z) : Z := if sgn t then to_signed (bits t) x else x mod 2 ^ bits t.
Definition cast_int (from to : ity) (x : Z) : res Z :=
  let y := wrap to x in
  if negb (wrap from y =? x) ||
     (xorb (sgn from) (sgn to) && xorb (y <? 0) (x <? 0))
  then Throw E_domain else Ok y.

(** static_cast of a double to an integral type: truncation, undefined if the result does
    not fit.  A NaN (undefined as well) is not modelled. *)
Definition trunc_to (t : ity) (x : R) : res Z :=
  if fits t (Ztrunc x) then Ok (Ztrunc x) else UB UB_float_cast.
Definition neg (x : R) : bool := if Rlt_dec x 0 then true else false.
(** From = double (signed), To integral *)
Definition cast_from_double (to : ity) (x : R) : res Z :=
  y <- trunc_to to x ;;
  if negb (Req_bool (of_int y) x) || (negb (sgn to) && xorb (y <? 0) (neg x))
  then Throw E_domain else Ok y.
(** From integral, To = double *)
Definition cast_to_double (from : ity) (x : Z) : res R :=
  let y := of_int x in
  back <- trunc_to from y ;;
  if negb (back =? x) || (negb (sgn from) && xorb (neg y) (x <? 0))
  then Throw E_domain else Ok y.

Open Scope R_scope.

(** ** enforce_periodic_boundaries, algorithms.h:52-68; [plus], [minus] are the additions of
    the value type *)
Definition wrap1 (plus minus : R -> R -> R) (length x : R) : R * bool :=
  if Rlt_dec x 0 then (plus x length, true)
  else if Rle_dec length x then (minus x length, true)
  else (x, false).
Fixpoint enforce (plus minus : R -> R -> R) (length : R) (xs : list R) : list R * bool :=
  match xs with
  | [] => ([], false)
  | x :: r => let '(x', b) := wrap1 plus minus length x in
              let '(r', b') := enforce plus minus length r in (x' :: r', b || b')
  end.

(** ** Average, average.h:25-57 (exact reals) *)
Record average := Avg { avg : R; num : nat }.
Definition avg_new : average := Avg 0 0.
Definition avg_add (a : average) (x : R) : average :=
  Avg ((avg a * INR (num a) + x) / (INR (num a) + 1)) (S (num a)).

(** dedup_avg, average.h:70-106.  [loop] is the body for the remaining (x, y), with the
    previous element, the running average and the results so far. *)
Fixpoint dedup_loop (prev last : R) (a : average) (xs ys nx ny : list R) : list R * list R :=
  match xs, ys with
  | x :: xs', y :: ys' =>
    if Req_EM_T x prev then dedup_loop prev x (avg_add a y) xs' ys' nx ny
    else dedup_loop x x (avg_add avg_new y) xs' ys' (nx ++ [last]) (ny ++ [avg a])
  | _, _ => (nx ++ [last], ny ++ [avg a])
  end.
Definition dedup_avg (xs ys : list R) : res (list R * list R) :=
  if negb (Nat.eqb (length xs) (length ys)) then Throw E_runtime
  else match xs with
       | [] => Throw E_runtime
       | x0 :: _ => Ok (dedup_loop x0 x0 avg_new xs ys [] [])
       end.

(** ** Channels.  A branch is its weight and an identity. *)
Definition branch := (R * nat)%type.
(** add_process, action.h:141-148 *)
Definition add_process (plus : R -> R -> R) (p : branch) (st : list branch * R) : list branch * R :=
  if Rlt_dec 0 (fst p) then (fst st ++ [p], plus (snd st) (fst p)) else st.
(** add_processes, action.h:157-168 *)
Definition add_processes (plus : R -> R -> R) (pv : list branch) (st : list branch * R) : list branch * R :=
  fold_left (fun st p => add_process plus p st) pv st.
(** total_weight, processbranch.h:236-243 *)
Definition total_weight (plus : R -> R -> R) (l : list branch) : R :=
  fold_left (fun s p => plus s (fst p)) l 0.
(** choose_channel, action.h:415-435, for the drawn number [r]; running past the end is
    std::abort *)
Fixpoint choose_from (plus : R -> R -> R) (sum r : R) (l : list branch) : option branch :=
  match l with
  | [] => None
  | p :: t => let sum := plus sum (fst p) in
              if Rle_dec r sum then Some p else choose_from plus sum r t
  end.
Definition choose_channel (plus : R -> R -> R) (l : list branch) (r : R) : option branch :=
  choose_from plus 0 r l.
