(** Interpolation: src/include/smash/interpolation.h and src/interpolation.cc.

    Numbers are reals (exact arithmetic); the template is used with T = double only.
    GSL's cubic spline is a parameter [spline]. *)
From Coq Require Import Reals List Bool Arith Lia.
From Verif Require Import Base Search VecModel.
Import ListNotations.
Open Scope R_scope.

(** InterpolateLinear, interpolation.h:34-54 *)
Record linear := mkLinear { slope : R; yintercept : R }.
(** constructor, interpolation.h:92-96 *)
Definition make_linear (x0 y0 x1 y1 : R) : res linear :=
  if Req_EM_T x0 x1 then UB UB_assert
  else let s := (y1 - y0) / (x1 - x0) in Ok (mkLinear s (y0 - s * x0)).
(** operator(), interpolation.h:99-101 *)
Definition apply_linear (f : linear) (x : R) : R := slope f * x + yintercept f.

(** interpolate_trilinear, interpolation.h:126-133 *)
Definition interpolate_trilinear (ax ay az f1 f2 f3 f4 f5 f6 f7 f8 : R) : R :=
  az * (ax * (ay * f8 + (1 - ay) * f6) + (1 - ax) * (ay * f7 + (1 - ay) * f5)) +
  (1 - az) * (ax * (ay * f4 + (1 - ay) * f2) + (1 - ax) * (ay * f3 + (1 - ay) * f1)).

(** generate_sort_permutation, interpolation.h:147-153, for compare = (<).  std::sort is an
    insertion sort here; the order it gives to equal values is never observed by the callers,
    which reject duplicates. *)
Fixpoint insert_index (v : list R) (i : nat) (p : list nat) : list nat :=
  match p with
  | [] => [i]
  | j :: t => if rltb (nth j v 0) (nth i v 0) then j :: insert_index v i t else i :: p
  end.
Definition sort_permutation (v : list R) : list nat :=
  fold_right (insert_index v) [] (seq 0 (length v)).
(** apply_permutation, interpolation.h:164-170; reading past the end of v is undefined *)
Definition apply_permutation (v : list R) (p : list nat) : res (list R) :=
  mapM (fun i => match nth_error v i with Some x => Ok x | None => UB UB_oob end) p.

(** check_duplicates, interpolation.h:183-192: std::adjacent_find *)
Fixpoint adjacent_find (x : list R) : bool :=
  match x with
  | a :: ((b :: _) as t) => if Req_EM_T a b then true else adjacent_find t
  | _ => false
  end.
Definition check_duplicates (x : list R) : res unit :=
  if adjacent_find x then Throw E_runtime else Ok tt.

(** InterpolateDataLinear, interpolation.h:62-89 *)
Record data_linear := mkData { xs : list R; fs : list linear }.
(** the loop, interpolation.h:205-208: one line per pair of consecutive sorted points *)
Fixpoint pieces (x y : list R) : res (list linear) :=
  match x, y with
  | a :: ((b :: _) as x'), c :: ((d :: _) as y') =>
      f <- make_linear a c b d ;; t <- pieces x' y' ;; Ok (f :: t)
  | _, _ => Ok []
  end.
(** constructor, interpolation.h:195-209.  For n = 0, [n - 1] is SIZE_MAX and
    [f_.reserve(n - 1)] throws std::length_error. *)
Definition make_data_linear (x y : list R) : res data_linear :=
  if negb (Nat.eqb (length x) (length y)) then UB UB_assert else
  let p := sort_permutation x in
  x' <- apply_permutation x p ;;
  _ <- check_duplicates x' ;;
  y' <- apply_permutation y p ;;
  if Nat.eqb (length x) 0 then Throw E_length else
  f <- pieces x' y' ;;
  Ok (mkData x' f).

(** find_index, interpolation.h:230-237: std::lower_bound *)
Definition find_index (v : list R) (x : R) : nat :=
  let it := partition_point (length v) (pos_test v (fun a => rltb a x)) in
  if Nat.eqb it 0 then 0%nat else (it - 1)%nat.

(** operator(), interpolation.h:240-249.  With no piece at all [f_.size() - 1] is SIZE_MAX. *)
Definition eval_data_linear (d : data_linear) (x0 : R) : res R :=
  let i := find_index (xs d) x0 in
  let i' := if Nat.leb (length (fs d)) i then (length (fs d) - 1)%nat else i in
  match nth_error (fs d) i' with
  | Some f => Ok (apply_linear f x0)
  | None => UB UB_oob
  end.

(** InterpolateDataSpline, interpolation.cc:14-38 (GSL objects: the sorted data) *)
Record data_spline := mkSpline { first_x : R; last_x : R; first_y : R; last_y : R; knots : list (R * R) }.
Definition make_data_spline (x y : list R) : res data_spline :=
  if negb (Nat.eqb (length y) (length x)) then Throw E_runtime
  else if (length x <? 3)%nat then Throw E_runtime else
  let p := sort_permutation x in
  x' <- apply_permutation x p ;;
  y' <- apply_permutation y p ;;
  _ <- check_duplicates x' ;;
  Ok (mkSpline (hd 0 x') (last x' 0) (hd 0 y') (last y' 0) (combine x' y')).
(** operator(), interpolation.cc:45-55 *)
Definition eval_data_spline (spline : list (R * R) -> R -> R) (d : data_spline) (xi : R) : R :=
  if rltb xi (first_x d) then first_y d
  else if rltb (last_x d) xi then last_y d
  else spline (knots d) xi.
