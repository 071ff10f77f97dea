(** Independent vocabulary for the PDG-code properties: the Monte-Carlo numbering
    scheme as a user knows it, with no reference to the 32-bit packing. *)
From Coq Require Import ZArith List Bool.
From Verif Require Import Base.
Import ListNotations.
Open Scope Z_scope.

(** ** Quark model *)

(** Electric charge of a quark flavour (d u s c b t = 1..6) in units of e/3. *)
Definition quark_charge3 (f : Z) : Z := if Z.even f then 2 else -1.
Definition flavours : list Z := [1; 2; 3; 4; 5; 6].
Definition zsum (l : list Z) : Z := fold_right Z.add 0 l.

(** Net number of quarks of flavour [f] in a list of signed constituents
    (f = quark, -f = antiquark, 0 = no constituent). *)
Definition net_count (f : Z) (l : list Z) : Z :=
  zsum (map (fun x => if x =? f then 1 else if x =? - f then -1 else 0) l).

(** ** Decimal notation *)

(** Value of a string of decimal digit characters. *)
Definition dec_value (s : list Z) : Z := fold_left (fun v c => 10 * v + (c - 48)) s 0.
Definition is_dec_char (c : Z) : Prop := 48 <= c <= 57.
Definition is_hex_char (c : Z) : Prop := 48 <= c <= 57 \/ 65 <= c <= 70 \/ 97 <= c <= 102.
(** The characters after an optional sign. *)
Definition unsigned_part (s : list Z) : list Z :=
  match s with c :: t => if (c =? 45) || (c =? 43) then t else s | [] => [] end%bool.

(** Value of a list of hexadecimal digits. *)
Definition hex_value (ds : list Z) : Z := fold_left (fun v d => 16 * v + d) ds 0.

(** ** Physical codes *)

(** What a code says about a particle that is not a nucleus. *)
Record digits := Digits {
  d_anti : bool; d_n : Z; d_R : Z; d_L : Z; d_q1 : Z; d_q2 : Z; d_q3 : Z; d_J : Z }.

Definition in09 (x : Z) : Prop := 0 <= x <= 9.
Definition in06 (x : Z) : Prop := 0 <= x <= 6.

Definition d_code (d : digits) : Z :=   (* digits below the antiparticle sign, radix 16 *)
  hex_value [d_n d; d_R d; d_L d; d_q1 d; d_q2 d; d_q3 d; d_J d].

Inductive kind := KMeson | KBaryon | KOther.
Definition kind_of (d : digits) : kind :=
  if (d_q3 d =? 0) || (d_q2 d =? 0) then KOther
  else if d_q1 d =? 0 then KMeson else KBaryon.

(** Is there a distinct antiparticle?  Baryons: always.  Mesons: unless quark and
    antiquark have the same flavour.  Others: the (anti)lepton row. *)
Definition has_anti (d : digits) : bool :=
  match kind_of d with
  | KBaryon => true
  | KMeson => negb (d_q2 d =? d_q3 d)
  | KOther => d_q3 d =? 1
  end.

(** The last digit is 2J+1: odd for mesons (0 only for K0_L = 130, K0_S = 310,
    which are particles without sign), even and nonzero for baryons, nonzero
    otherwise (except for the code 0 that means "invalid"). *)
Definition spin_ok (d : digits) : Prop :=
  match kind_of d with
  | KMeson => Z.odd (d_J d) = true
              \/ (d_anti d = false /\ (d_code d = 0x130 \/ d_code d = 0x310))
  | KBaryon => Z.even (d_J d) = true /\ d_J d <> 0
  | KOther => d_J d <> 0 \/ (d_anti d = false /\ d_code d = 0)
  end.

Definition physical (d : digits) : Prop :=
  spin_ok d /\ (d_anti d = true -> has_anti d = true).

Definition digits_ok (d : digits) : Prop :=
  in09 (d_n d) /\ in09 (d_R d) /\ in09 (d_L d)
  /\ in06 (d_q1 d) /\ in06 (d_q2 d) /\ in06 (d_q3 d) /\ 0 <= d_J d <= 15.

(** Decimal PDG number of a particle: 2J+1 above 9 is split over the first and the
    last of eight digits. *)
Definition d_decimal (d : digits) : Z :=
  (if d_anti d then -1 else 1) *
  (dec_value (map (Z.add 48) [d_n d; d_R d; d_L d; d_q1 d; d_q2 d; d_q3 d; Z.min 9 (d_J d)])
   + Z.max 0 (d_J d - 9) * 10 ^ 7).

(** ** Nuclei: +-10LZZZAAAI *)
Record nucleus := Nucleus { c_anti : bool; c_L : Z; c_Z : Z; c_A : Z; c_I : Z }.
Definition nucleus_ok (c : nucleus) : Prop :=
  in09 (c_L c) /\ 0 <= c_Z c <= 999 /\ 0 <= c_A c <= 999 /\ in09 (c_I c).
Definition c_decimal (c : nucleus) : Z :=
  (if c_anti c then -1 else 1) * (10 ^ 9 + c_L c * 10 ^ 7 + c_Z c * 10 ^ 4 + c_A c * 10 + c_I c).
