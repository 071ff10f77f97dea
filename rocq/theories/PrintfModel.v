(** Model of the conversion of numbers to text: ToASCII, /repo/src/include/smash/outputformatter.h:31-99, with the
    conversion %g of the C library (ISO C, 7.21.6.1) worked out exactly on the value of the double: correctly rounded
    decimal digits, trailing zeros removed. Integers go through std::to_string ([PdgModel.to_string]). *)
From Coq Require Import ZArith List Bool.
From Verif Require Import Base TextModel PdgModel.
Import ListNotations.
Open Scope Z_scope.

(** the value of a double from its 64-bit image: sign, numerator and denominator; None for infinities and NaNs *)
Definition double_of (bits : Z) : option (bool * Z * Z) :=
  let neg := 2 ^ 63 <=? bits in
  let ex := (bits / 2 ^ 52) mod 2 ^ 11 in
  let fr := bits mod 2 ^ 52 in
  if ex =? 2047 then None
  else
    let m := if ex =? 0 then fr else fr + 2 ^ 52 in
    let s := (if ex =? 0 then 1 else ex) - 1075 in
    Some (neg, if 0 <=? s then m * 2 ^ s else m, if 0 <=? s then 1 else 2 ^ (- s)).

(** number of decimal digits of n; 0 for 0 *)
Fixpoint ndig_loop (fuel : nat) (n : Z) : Z :=
  match fuel with O => 0 | S f => if n <=? 0 then 0 else 1 + ndig_loop f (n / 10) end.
Definition ndig (n : Z) : Z := ndig_loop (S (Z.to_nat (Z.log2 n))) n.
(** the decimal exponent X of n / d: 10^X <= n/d < 10^(X+1) *)
Definition exponent10 (n d : Z) : Z := if d <=? n then ndig (n / d) - 1 else - ndig ((d - 1) / n).
(** a / b rounded to the nearest integer, ties to even *)
Definition round_even (a b : Z) : Z :=
  let q := a / b in let r := a mod b in
  if 2 * r <? b then q else if b <? 2 * r then q + 1 else if Z.even q then q else q + 1.
(** the P significant digits as an integer, and the exponent after rounding *)
Definition significant (P n d : Z) : Z * Z :=
  let x := exponent10 n d in
  let k := P - 1 - x in
  let q := if 0 <=? k then round_even (n * 10 ^ k) d else round_even n (d * 10 ^ (- k)) in
  if q =? 10 ^ P then (10 ^ (P - 1), x + 1) else (q, x).
(** the last [k] decimal digits of n, most significant first *)
Fixpoint digits_n (k : nat) (n : Z) : list Z :=
  match k with O => [] | S k' => digits_n k' (n / 10) ++ [n mod 10] end.
(** trailing zeros removed *)
Fixpoint strip (l : list Z) : list Z :=
  match l with
  | [] => []
  | x :: t => match strip t with [] => if x =? 0 then [] else [x] | t' => x :: t' end
  end.
Definition chars (l : list Z) : text := map (Z.add 48) l.
Definition fraction (l : list Z) : text := match strip l with [] => [] | l' => 46 :: chars l' end.
(** the exponent: a sign and at least two digits *)
Definition exponent_text (x : Z) : text :=
  101 :: (if x <? 0 then 45 else 43) ::
  (if Z.abs x <? 100 then chars (digits_n 2 (Z.abs x)) else chars (digits_n 3 (Z.abs x))).
(** %.Pg of a positive value *)
Definition g_positive (P n d : Z) : text :=
  let '(q, x) := significant P n d in
  let ds := digits_n (Z.to_nat P) q in
  if (x <? -4) || (P <=? x) then chars (firstn 1 ds) ++ fraction (skipn 1 ds) ++ exponent_text x
  else if 0 <=? x then chars (firstn (Z.to_nat (x + 1)) ds) ++ fraction (skipn (Z.to_nat (x + 1)) ds)
  else 48 :: fraction (repeat 0 (Z.to_nat (- x - 1)) ++ ds).
(** %.Pg: "inf" and "nan" with an optional sign (their text is not modelled further) *)
Definition printf_g (P bits : Z) : text :=
  match double_of bits with
  | None => (if 2 ^ 63 <=? bits then [45] else []) ++ (if bits mod 2 ^ 52 =? 0 then [105; 110; 102] else [110; 97; 110])
  | Some (neg, n, d) => (if neg then [45] else []) ++ (if n =? 0 then [48] else g_positive P n d)
  end.

(** as_double, outputformatter.h:63-70, and as_precise_double, 86-93. The assertion that the text fits in the buffer is
    an outcome of its own; if it is compiled out, the last character of the text is lost and a null character is
    written in its place. *)
Definition into_buffer (size : Z) (t : text) : res text := if Z.of_nat (length t) <? size then Ok t else UB UB_assert.
Definition show_double (bits : Z) : res text := into_buffer 13 (printf_g 6 bits).
Definition show_precise (bits : Z) : res text := into_buffer 16 (printf_g 9 bits).
