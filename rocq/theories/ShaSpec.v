(** SHA-256 as defined by FIPS 180-4, for messages that are a whole number of bytes.
    Section numbers refer to the standard. *)
From Coq Require Import ZArith List.
Import ListNotations.
Open Scope Z_scope.

Definition word (x : Z) : Prop := 0 <= x < 2 ^ 32.
Definition byte (x : Z) : Prop := 0 <= x < 2 ^ 8.
Definition add32 (x y : Z) : Z := (x + y) mod 2 ^ 32.

(** 2.2.2, 3.2: operations on 32-bit words *)
Definition Not (x : Z) : Z := 2 ^ 32 - 1 - x.
Definition SHR (n x : Z) : Z := x / 2 ^ n.
Definition ROTR (n x : Z) : Z := x / 2 ^ n + (x mod 2 ^ n) * 2 ^ (32 - n).
(** 4.1.2 *)
Definition Ch (x y z : Z) : Z := Z.lxor (Z.land x y) (Z.land (Not x) z).
Definition Maj (x y z : Z) : Z := Z.lxor (Z.lxor (Z.land x y) (Z.land x z)) (Z.land y z).
Definition Sigma0 (x : Z) : Z := Z.lxor (Z.lxor (ROTR 2 x) (ROTR 13 x)) (ROTR 22 x).
Definition Sigma1 (x : Z) : Z := Z.lxor (Z.lxor (ROTR 6 x) (ROTR 11 x)) (ROTR 25 x).
Definition sigma0 (x : Z) : Z := Z.lxor (Z.lxor (ROTR 7 x) (ROTR 18 x)) (SHR 3 x).
Definition sigma1 (x : Z) : Z := Z.lxor (Z.lxor (ROTR 17 x) (ROTR 19 x)) (SHR 10 x).

(** 4.2.2, 5.3.3: the constants are the first 32 bits of the fractional parts of the cube
    roots (square roots) of the first 64 (8) primes *)
Definition is_prime (n : Z) : bool :=
  (2 <=? n) && forallb (fun d => negb (n mod d =? 0)) (map Z.of_nat (seq 2 (Z.to_nat n - 2))).
Definition primes : list Z := filter is_prime (map Z.of_nat (seq 0 312)).
(** [first_bits e p k]: k consists of the first 32 fractional bits of the e-th root of p *)
Definition first_bits (e p k : Z) : Prop :=
  0 <= k < 2 ^ 32 /\ exists r, 0 <= r /\ k = r mod 2 ^ 32 /\ r ^ e <= p * 2 ^ (32 * e) < (r + 1) ^ e.

(** 5.1.1 padding: a 1 bit, the least number of zero bits that makes the length a multiple
    of 512 after the 64-bit message length *)
Fixpoint be (n : nat) (x : Z) : list Z :=      (* n bytes, most significant first *)
  match n with O => [] | S n => x / 2 ^ (8 * Z.of_nat n) mod 2 ^ 8 :: be n x end.
Definition pad (m : list Z) : list Z :=
  let l := Z.of_nat (length m) in
  m ++ [128] ++ repeat 0 (Z.to_nat ((55 - l) mod 64)) ++ be 8 (8 * l).
(** 5.2.1 parsing into 512-bit blocks of sixteen words *)
Fixpoint blocks (n : nat) (l : list Z) : list (list Z) :=
  match n with O => [] | S n => firstn 64 l :: blocks n (skipn 64 l) end.
Definition word_of (b : list Z) (i : nat) : Z :=
  nth (4 * i) b 0 * 2 ^ 24 + nth (4 * i + 1) b 0 * 2 ^ 16 + nth (4 * i + 2) b 0 * 2 ^ 8 + nth (4 * i + 3) b 0.
Definition words (b : list Z) : list Z := map (word_of b) (seq 0 16).
(** 6.2.2 step 1: message schedule *)
Definition extend (W : list Z) : list Z :=
  let t := length W in
  let w i := nth (t - i) W 0 in
  W ++ [add32 (add32 (add32 (sigma1 (w 2%nat)) (w 7%nat)) (sigma0 (w 15%nat))) (w 16%nat)].
Definition schedule (b : list Z) : list Z := Nat.iter 48 extend (words b).
(** steps 2 and 3; [Kc] are the constants K *)
Definition step (Kc W : list Z) (v : Z * Z * Z * Z * Z * Z * Z * Z) (t : nat) : Z * Z * Z * Z * Z * Z * Z * Z :=
  let '(a, b, c, d, e, f, g, h) := v in
  let T1 := add32 (add32 (add32 (add32 h (Sigma1 e)) (Ch e f g)) (nth t Kc 0)) (nth t W 0) in
  let T2 := add32 (Sigma0 a) (Maj a b c) in
  (add32 T1 T2, a, b, c, add32 d T1, e, f, g).
(** step 4 *)
Definition compress (Kc H : list Z) (b : list Z) : list Z :=
  let h i := nth i H 0 in
  let '(a', b', c', d', e', f', g', h') :=
    fold_left (step Kc (schedule b)) (seq 0 64)
      (h 0%nat, h 1%nat, h 2%nat, h 3%nat, h 4%nat, h 5%nat, h 6%nat, h 7%nat) in
  [add32 a' (h 0%nat); add32 b' (h 1%nat); add32 c' (h 2%nat); add32 d' (h 3%nat);
   add32 e' (h 4%nat); add32 f' (h 5%nat); add32 g' (h 6%nat); add32 h' (h 7%nat)].
(** 6.2; [H0] is the initial hash value *)
Definition sha256 (Kc H0 m : list Z) : list Z :=
  let p := pad m in
  flat_map (be 4) (fold_left (compress Kc) (blocks (length p / 64) p) H0).
