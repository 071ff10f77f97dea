(** Model of the one-dimensional lookup tables: src/tabulation.cc and
    src/include/smash/tabulation.h.

    Doubles: the numerical part (constructor, look-ups) is over the real numbers, i.e.
    rounding, overflow and NaN are not modelled; the file part treats a double as its
    64-bit pattern. *)
From Coq Require Import ZArith Reals List Bool Lia Lra.
From Flocq Require Import Core.
From Verif Require Import Base Bytes.
Import ListNotations.

(** tabulation.h:140-151, data members; D is the type standing for double *)
Record tab (D : Type) := Tab { values : list D; x_min : D; x_max : D; inv_dx : D }.
Arguments Tab {D} _ _ _ _.
Arguments values {D} _.
Arguments x_min {D} _.
Arguments x_max {D} _.
Arguments inv_dx {D} _.

(** tabulation.h:57-59: is_empty *)
Definition is_empty {D} (t : tab D) : bool := match values t with [] => true | _ => false end.

(** * Numerical part *)
Section Numeric.
Open Scope R_scope.

(** tabulation.cc:14-26: constructor.  num is a size_t; [num / range] is a double
    division.  (num + 1 wrapping to 0 for num = SIZE_MAX is left out: no such table can
    be allocated.) *)
Definition make (x0 range : R) (num : nat) (f : R -> R) : res (tab R) :=
  if Nat.ltb num 2 then Throw E_runtime
  else let dx := range / INR num in
       Ok (Tab (map (fun i => f (x0 + INR i * dx)) (seq 0 (S num)))
               x0 (x0 + range) (INR num / range)).

(** conversion double -> N-bit unsigned: truncation, undefined outside (-1, 2^N) *)
Definition to_unsigned (bits : Z) (x : R) : res Z :=
  let n := Ztrunc x in
  if (0 <=? n)%Z && (n <? 2 ^ bits)%Z then Ok n else UB UB_float_cast.

(** numeric_cast.h:73-97 for From = double, To = unsigned int: the static_cast (undefined
    out of range), then the comparison of the value cast back *)
Definition numeric_cast_uint (x : R) : res Z :=
  n <- to_unsigned 32 x ;;
  if Req_EM_T (IZR n) x then Ok n else Throw E_domain.

(** vector::operator[] / back() *)
Definition get (v : list R) (i : Z) : res R :=
  if (i <? 0)%Z then UB UB_oob else
  match nth_error v (Z.to_nat i) with Some x => Ok x | None => UB UB_oob end.
Definition back (v : list R) : res R := get v (Z.of_nat (length v) - 1).

(** tabulation.cc:28-39 *)
Definition get_value_step (t : tab R) (x : R) : res R :=
  if Rlt_dec x (x_min t) then Ok 0
  else
    n <- numeric_cast_uint (IZR (Zfloor ((x - x_min t) * inv_dx t + 1 / 2))) ;;
    if (Z.of_nat (length (values t)) <=? n)%Z then back (values t) else get (values t) n.

(** tabulation.h:25-30 *)
Inductive extrapolation := ExZero | ExConst | ExLinear.

(** tabulation.cc:41-57; [values_.size() - 2] is computed in size_t *)
Definition get_value_linear (t : tab R) (x : R) (e : extrapolation) : res R :=
  if Rlt_dec x (x_min t) then Ok 0
  else match e, Rlt_dec (x_max t) x with
       | ExZero, left _ => Ok 0
       | ExConst, left _ => back (values t)
       | _, _ =>
         let index := (x - x_min t) * inv_dx t in
         i <- to_unsigned 64 index ;;
         let n := Z.min i (u64 (Z.of_nat (length (values t)) - 2)) in
         let r := index - IZR n in
         v0 <- get (values t) n ;;
         v1 <- get (values t) (n + 1) ;;
         Ok (v0 + (v1 - v0) * r)
       end.
End Numeric.

(** * File format *)

(** tabulation.cc:65-67, 85-91, 111-117, 143-147, 161-167: what [write] puts into the
    stream.  The hash is 32 bytes, doubles and the size are 8-byte words. *)
Definition write (t : tab Z) (hash : list Z) : list Z :=
  hash ++ le 8 (x_min t) ++ le 8 (x_max t) ++ le 8 (inv_dx t)
       ++ le 8 (Z.of_nat (length (values t))) ++ flat_map (le 8) (values t).

(** std::ifstream: the bytes not read yet and whether the stream is still good *)
Record stream := Stream { rest : list Z; good : bool }.

(** istream::read(dest, n) where dest holds the n bytes [old]: a bad stream delivers
    nothing; a short read overwrites only what is there and sets eofbit|failbit *)
Definition sread (s : stream) (old : list Z) : list Z * stream :=
  if good s
  then (firstn (length old) (rest s) ++ skipn (length (rest s)) old,
        Stream (skipn (length old) (rest s)) (length old <=? length (rest s))%nat)
  else (old, s).

(** Uninitialised memory: the bytes that the local variables of sread_hash (32),
    sread_double (8 each) and sread_size (8) happen to hold. *)
Record garbage := Garbage { g_hash : list Z; g_min : list Z; g_max : list Z; g_inv : list Z; g_size : list Z }.
Definition garbage_ok (g : garbage) : Prop :=
  length (g_hash g) = 32%nat /\ length (g_min g) = 8%nat /\ length (g_max g) = 8%nat /\
  length (g_inv g) = 8%nat /\ length (g_size g) = 8%nat.

(** tabulation.cc:100-107, 125-131: sread_size and sread_vector.  resize(n) throws
    length_error/bad_alloc if n elements cannot be allocated ([max] elements can). *)
Definition sread_vector (max : Z) (g : garbage) (s : stream) : res (list Z) :=
  let '(b, s) := sread s (g_size g) in
  let n := of_le b in
  if max <? n then Throw E_length
  else let '(v, _) := sread s (repeat 0 (8 * Z.to_nat n)) in
       Ok (words 8 (Z.to_nat n) v).

Definition hash_eqb (a b : list Z) : bool := if list_eq_dec Z.eq_dec a b then true else false.

(** tabulation.cc:169-180 *)
Definition from_file (max : Z) (g : garbage) (content hash : list Z) : res (tab Z) :=
  let s := Stream content true in
  let '(h, s) := sread s (g_hash g) in
  if negb (hash_eqb hash h) then Ok (Tab [] 0 0 0)
  else
    let '(b1, s) := sread s (g_min g) in
    let '(b2, s) := sread s (g_max g) in
    let '(b3, s) := sread s (g_inv g) in
    v <- sread_vector max g s ;;
    Ok (Tab v (of_le b1) (of_le b2) (of_le b3)).
