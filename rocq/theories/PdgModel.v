(** Model of PdgCode: /repo/src/include/smash/pdgcode.h, /repo/src/pdgcode.cc.
    A PdgCode is its 32-bit word (union member dump_, pdgcode.h:914-996,
    little-endian bit-field layout). *)
From Coq Require Import ZArith List Bool Ascii String.
From Verif Require Import Base.
Import ListNotations.
Open Scope Z_scope.
Open Scope bool_scope.

Definition pdg := Z.

(** bits [pos, pos+len) of a word *)
Definition field (pos len w : Z) : Z := (w / 2 ^ pos) mod 2 ^ len.

(** digits_ view, pdgcode.h:919-952 *)
Definition n_J (w : pdg) := field 0 4 w.
Definition n_q3 (w : pdg) := field 4 4 w.
Definition n_q2 (w : pdg) := field 8 4 w.
Definition n_q1 (w : pdg) := field 12 4 w.
Definition n_L (w : pdg) := field 16 4 w.
Definition n_R (w : pdg) := field 20 4 w.
Definition n_n (w : pdg) := field 24 4 w.
Definition pad (w : pdg) := field 28 2 w.
Definition nucleus_bit (w : pdg) := field 30 1 w.
Definition anti_bit (w : pdg) := field 31 1 w.
(** nucleus_ view, pdgcode.h:977-995 *)
Definition nuc_L (w : pdg) := field 0 6 w.
Definition nuc_Z (w : pdg) := field 6 10 w.
Definition nuc_A (w : pdg) := field 16 10 w.
Definition nuc_I (w : pdg) := field 26 4 w.

(** Writing the bit-fields (values are truncated to the width of the field). *)
Definition pack_digits (anti nucl p n r l q1 q2 q3 j : Z) : pdg :=
  (j mod 2 ^ 4) + (q3 mod 2 ^ 4) * 2 ^ 4 + (q2 mod 2 ^ 4) * 2 ^ 8 + (q1 mod 2 ^ 4) * 2 ^ 12
  + (l mod 2 ^ 4) * 2 ^ 16 + (r mod 2 ^ 4) * 2 ^ 20 + (n mod 2 ^ 4) * 2 ^ 24
  + (p mod 2 ^ 2) * 2 ^ 28 + (nucl mod 2) * 2 ^ 30 + (anti mod 2) * 2 ^ 31.
Definition pack_nucleus (anti l z a i : Z) : pdg :=
  (l mod 2 ^ 6) + (z mod 2 ^ 10) * 2 ^ 6 + (a mod 2 ^ 10) * 2 ^ 16 + (i mod 2 ^ 4) * 2 ^ 26
  + 2 ^ 30 + (anti mod 2) * 2 ^ 31.

(** Accessors. *)
Definition is_anti (w : pdg) : bool := anti_bit w =? 1.
Definition is_nucleus (w : pdg) : bool := nucleus_bit w =? 1.        (* pdgcode.h:361-364 *)
Definition asign (w : pdg) : Z := if is_anti w then -1 else 1.       (* pdgcode.h:719-721 *)
Definition is_hadron (w : pdg) : bool :=                             (* pdgcode.h:367-369 *)
  negb (n_q3 w =? 0) && negb (n_q2 w =? 0) && negb (is_nucleus w).
Definition is_lepton (w : pdg) : bool :=                             (* pdgcode.h:372-375 *)
  (n_q1 w =? 0) && (n_q2 w =? 0) && (n_q3 w =? 1) && negb (is_nucleus w).
Definition baryon_number (w : pdg) : Z :=                            (* pdgcode.h:388-396 *)
  if is_nucleus w then nuc_A w * asign w
  else if negb (is_hadron w) || (n_q1 w =? 0) then 0 else asign w.
Definition is_baryon (w : pdg) : bool := is_hadron w && negb (n_q1 w =? 0). (* 398 *)
Definition is_meson (w : pdg) : bool := is_hadron w && (n_q1 w =? 0).       (* 401 *)

(** dump() masks with 0x8fffffff, pdgcode.h:313-316; ucode() with 0x0fffffff, 1002. *)
Definition ucode (w : pdg) : Z := w mod 2 ^ 28.
Definition dump (w : pdg) : Z := ucode w + anti_bit w * 2 ^ 31.

(** has_antiparticle, pdgcode.h:504-513 *)
Definition has_antiparticle (w : pdg) : bool :=
  if is_nucleus w then true
  else if is_hadron w
       then negb (baryon_number w =? 0) || negb (n_q2 w =? n_q3 w)
       else n_q3 w =? 1.

(** net_quark_number, pdgcode.cc:31-86 *)
Definition b2z (b : bool) : Z := if b then 1 else 0.
Definition net_quark_number (w : pdg) (q : Z) : res Z :=
  if (q <? 1) || (6 <? q) then Throw E_invalid_argument
  else if is_nucleus w then
    let Np := nuc_Z w in
    let Nn := nuc_A w - nuc_Z w - nuc_L w in
    let NL := nuc_L w in
    Ok (if q =? 1 then (2 * Nn + Np + NL) * asign w
        else if q =? 2 then (Nn + 2 * Np + NL) * asign w
        else if q =? 3 then NL * asign w
        else 0)
  else if negb (is_hadron w) || (negb (n_q1 w =? q) && negb (n_q2 w =? q) && negb (n_q3 w =? q))
  then Ok 0
  else if negb (baryon_number w =? 0)
  then Ok (asign w * (b2z (n_q1 w =? q) + b2z (n_q2 w =? q) + b2z (n_q3 w =? q)))
  else if (n_q3 w =? q) && (n_q2 w =? q) then Ok 0
  else
    let other := if n_q2 w =? q then n_q3 w else n_q2 w in
    if other <? q
    then Ok ((if q mod 2 =? 0 then 1 else -1) * asign w)
    else Ok ((if other mod 2 =? 0 then -1 else 1) * asign w).

(** For the getters that call it with a constant flavour the exception cannot
    occur; [nq] is the value. *)
Definition nq (w : pdg) (q : Z) : Z :=
  match net_quark_number w q with Ok v => v | _ => 0 end.

Definition isospin3 (w : pdg) : Z := nq w 2 - nq w 1.       (* pdgcode.h:520-524 *)
Definition strangeness (w : pdg) : Z := - nq w 3.           (* 611 *)
Definition charmness (w : pdg) : Z := nq w 4.               (* 618 *)
Definition bottomness (w : pdg) : Z := - nq w 5.            (* 625 *)

(** charge, pdgcode.h:635-665; [Z.quot] is C++ integer division. *)
Definition charge3 (w : pdg) : Z :=
  - nq w 1 + 2 * nq w 2 - nq w 3 + 2 * nq w 4 - nq w 5 + 2 * nq w 6.
Definition charge (w : pdg) : Z :=
  if is_hadron w || is_nucleus w then Z.quot (charge3 w) 3
  else if n_q3 w =? 1 then -1 * (n_J w mod 2) * asign w
  else if w mod 2 ^ 16 =? 36 (* 0x24 *) then asign w
  else 0.

(** spin, pdgcode.h:676-710 *)
Definition spin (w : pdg) : res Z :=
  if is_nucleus w then
    if nuc_A w =? 2 then Ok 2
    else if nuc_A w =? 3 then Ok 1
    else if nuc_A w =? 4 then Ok 0
    else Throw E_runtime
  else if is_hadron w then Ok (if n_J w =? 0 then 0 else n_J w - 1)
  else Ok (n_q3 w).

(** quark_content, pdgcode.h:739-775 *)
Definition quark_content (w : pdg) : list Z :=
  if is_hadron w then
    if negb (n_q1 w =? 0) then
      if is_anti w then [- n_q1 w; - n_q2 w; - n_q3 w] else [n_q1 w; n_q2 w; n_q3 w]
    else
      let '(a, b) :=
        if n_q2 w =? n_q3 w then (n_q2 w, - n_q3 w)
        else if is_anti w then (- n_q2 w, n_q3 w) else (n_q2 w, - n_q3 w) in
      if negb (n_q2 w =? n_q3 w) && (n_q2 w mod 2 =? 1) then [0; - a; - b] else [0; a; b]
  else [0; 0; 0].

(** get_antiparticle, pdgcode.h:329-333 *)
Definition get_antiparticle (w : pdg) : pdg :=
  if is_anti w then w - 2 ^ 31 else w + 2 ^ 31.

(** operator< and ==, pdgcode.h:799-808 *)
Definition pdg_lt (a b : pdg) : bool := a <? b.
Definition pdg_eq (a b : pdg) : bool := a =? b.

(** check(), pdgcode.h:284-310.  The error text is not modelled. *)
Definition check (w : pdg) : res unit :=
  let bad_spin :=
    if is_hadron w then
      if baryon_number w =? 0
      then (n_J w mod 2 =? 0) && negb (dump w =? 304 (* 0x130 *)) && negb (dump w =? 784 (* 0x310 *))
      else negb (n_J w mod 2 =? 0) || (n_J w =? 0)
    else (n_J w =? 0) && negb (dump w =? 0) in
  if bad_spin then Throw E_invalid_pdg
  else if is_anti w && negb (has_antiparticle w) then Throw E_invalid_pdg
  else Ok tt.

(** test_code, pdgcode.h:250-274: true when some digit is offending.  (n_J_ is a
    4-bit field, so its test never fails.) *)
Definition test_code_fails (w : pdg) : bool :=
  (9 <? n_n w) || (9 <? n_R w) || (9 <? n_L w) ||
  (6 <? n_q1 w) || (6 <? n_q2 w) || (6 <? n_q3 w) || (15 <? n_J w).

(** set_fields, pdgcode.h:1153-1165 *)
Definition set_fields (anti : Z) (abscode : Z) : res pdg :=
  let w := abscode mod 2 ^ 28 + anti * 2 ^ 31 in
  if test_code_fails w then Throw E_invalid_pdg
  else _ <- check w ;; Ok w.

(** PdgCode(int32_t), pdgcode.h:143-150 *)
Definition of_int32 (c : Z) : res pdg :=
  if c <? 0 then n <- sint (- c) ;; set_fields 1 n else set_fields 0 c.
(** PdgCode(uint32_t), pdgcode.h:155-159 *)
Definition of_uint32 (c : Z) : res pdg := set_fields (field 31 1 c) c.

(** Strings are lists of character codes. *)
Definition str (s : string) : list Z :=
  map (fun c => Z.of_nat (nat_of_ascii c)) (list_ascii_of_string s).

(** get_digit_from_char, pdgcode.h:1010-1025 *)
Definition digit_of_char (c : Z) : res Z :=
  if (48 <=? c) && (c <=? 57) then Ok (c - 48)
  else if (65 <=? c) && (c <=? 70) then Ok (c - 65 + 10)
  else if (97 <=? c) && (c <=? 102) then Ok (c - 97 + 10)
  else Throw E_invalid_pdg.

(** k-th digit from the last, 0 if the string is shorter *)
Definition dig (ds : list Z) (k : nat) : Z := nth k (rev ds) 0.

(** set_from_string, pdgcode.h:1048-1142.  Every failure throws the same exception
    class, so the order of the individual tests is not modelled. *)
Definition set_from_string (s : list Z) : res pdg :=
  match s with
  | [] => Throw E_invalid_pdg
  | c0 :: t =>
      let anti := if c0 =? 45 (* '-' *) then 1 else 0 in
      let body := if (c0 =? 45) || (c0 =? 43 (* '+' *)) then t else s in
      if Nat.eqb (List.length body) 10 then
        match body with
        | x :: y :: ds =>
            if (x =? 49) && (y =? 48) then
              d <- mapM digit_of_char ds ;;
              let g k := nth k d 0 in
              Ok (pack_nucleus anti (g 0%nat)
                    (100 * g 1%nat + 10 * g 2%nat + g 3%nat)
                    (100 * g 4%nat + 10 * g 5%nat + g 6%nat) (g 7%nat))
            else Throw E_invalid_pdg
        | _ => Throw E_invalid_pdg
        end
      else if Nat.ltb 8 (List.length body) then Throw E_invalid_pdg
      else if Nat.eqb (List.length body) 0 then Throw E_invalid_pdg
      else
        d <- mapM digit_of_char body ;;
        if (6 <? dig d 3) || (6 <? dig d 2) || (6 <? dig d 1) then Throw E_invalid_pdg
        else
          let w := pack_digits anti 0 0 (dig d 6) (dig d 5) (dig d 4) (dig d 3) (dig d 2)
                     (dig d 1) (dig d 7 + dig d 0) in
          _ <- check w ;; Ok w
  end.

(** get_decimal, pdgcode.h:837-854 (all operands are promoted to int and stay in
    range, see [get_decimal_range]) *)
Definition get_decimal (w : pdg) : Z :=
  if is_nucleus w then
    asign w * (nuc_I w + 10 * nuc_A w + 10000 * nuc_Z w + 10000000 * nuc_L w + 1000000000)
  else
    let n1 := if 9 <? n_J w then n_J w - 9 else 0 in
    let n2 := if 9 <? n_J w then 9 else n_J w in
    asign w * (n2 + n_q3 w * 10 + n_q2 w * 100 + n_q1 w * 1000 + n_L w * 10000
               + n_R w * 100000 + n_n w * 1000000 + n1 * 10000000).

(** Decimal digits of a non-negative number (std::to_string, operator<<). *)
Fixpoint dec_digits (fuel : nat) (n : Z) : list Z :=
  match fuel with
  | O => []
  | S f => if n <? 10 then [n] else dec_digits f (n / 10) ++ [n mod 10]
  end.
Definition to_string (x : Z) : list Z :=
  if x <? 0 then 45 :: map (Z.add 48) (dec_digits 20 (- x))
  else map (Z.add 48) (dec_digits 20 x).

(** string(), pdgcode.h:322-326 *)
Definition pdg_string (w : pdg) : list Z := to_string (get_decimal w).

(** from_decimal, pdgcode.h:339-352.  The loop runs on ints with C++ division and
    remainder; overflow of [tmp *= 16] or [hex_pdg] is UB. *)
Fixpoint hex_loop (fuel : nat) (a hex tmp : Z) : res Z :=
  match fuel with
  | O => UB UB_no_progress
  | S f =>
      if a =? 0 then Ok hex
      else h <- sint (hex + Z.rem a 10 * tmp) ;;
           t <- sint (tmp * 16) ;;
           hex_loop f (Z.quot a 10) h t
  end.
Definition from_decimal (x : Z) : res pdg :=
  m <- sint (Z.abs x) ;;
  if 10000000 <? m then set_from_string (to_string x)
  else h <- hex_loop 20 x 0 1 ;; of_int32 h.

(** PdgCode(T) for 64-bit integers, pdgcode.h:216-229: via the hexadecimal
    string. *)
Fixpoint hex_digits (fuel : nat) (n : Z) : list Z :=
  match fuel with
  | O => []
  | S f => if n <? 16 then [n] else hex_digits f (n / 16) ++ [n mod 16]
  end.
Definition hex_char (d : Z) : Z := if d <? 10 then 48 + d else 87 + d.
Definition of_int64 (x : Z) : res pdg :=
  if x <? 0 then n <- sint64 (- x) ;; set_from_string (45 :: map hex_char (hex_digits 20 n))
  else set_from_string (43 :: map hex_char (hex_digits 20 x)).

(** operator>>, pdgcode.cc:14-29, on the word already read: a failure yields code 0
    and sets the fail bit (second component true). *)
Definition read_code (s : list Z) : pdg * bool :=
  match set_from_string s with Ok w => (w, false) | _ => (0, true) end.

(** contains_enough_valence_quarks, pdgcode.cc:92-106 *)
Definition contains_enough_valence_quarks (w : pdg) (v : Z) : res bool :=
  if is_meson w then Ok ((v =? 1) || (v =? -1))
  else if is_baryon w then
    if baryon_number w =? 1 then Ok ((v =? 1) || (v =? 2))
    else if baryon_number w =? -1 then Ok ((v =? -1) || (v =? -2))
    else Throw E_runtime
  else Throw E_runtime.
