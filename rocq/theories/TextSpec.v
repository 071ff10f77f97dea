(** Vocabulary of the claims about text, independent of how the functions are written. *)
From Coq Require Import ZArith List Bool Lia.
From Verif Require Import Base TextModel.
Import ListNotations.

(** the text consisting of the given fields, each followed by the delimiter *)
Fixpoint terminated (d : Z) (v : list text) : text :=
  match v with
  | [] => []
  | x :: t => x ++ d :: terminated d t
  end.

(** the text consisting of the given fields with the delimiter between them *)
Fixpoint separated (d : text) (v : list text) : text :=
  match v with
  | [] => []
  | [x] => x
  | x :: t => x ++ d ++ separated d t
  end.

(** [v] is the list of fields of [s]: no field contains the delimiter, and writing
    every field followed by a delimiter gives s, up to a delimiter missing at the very end *)
Definition fields_of (d : Z) (s : text) (v : list text) : Prop :=
  Forall (fun x => ~ In d x) v /\
  (terminated d v = s \/ (s <> [] /\ last s d <> d /\ terminated d v = s ++ [d])).

(** white space as trim understands it: blank, tab, newline, carriage return *)
Definition white (c : Z) : Prop := c = 32 \/ c = 9 \/ c = 10 \/ c = 13.
(** blank as line_parser understands it *)
Definition blank (c : Z) : Prop := c = 32 \/ c = 9.

(** [t] is [s] without the white space around it *)
Definition stripped (s t : text) : Prop :=
  exists a b, s = a ++ t ++ b /\ Forall white a /\ Forall white b /\
    (forall c u, t = c :: u -> ~ white c) /\ (forall c u, t = u ++ [c] -> ~ white c).

(** [t] is the part of [s] before the first '#' *)
Definition uncommented (s t : text) : Prop :=
  ~ In 35 t /\ (s = t \/ exists r, s = t ++ 35 :: r).

(** number of positions a UTF-8 text takes on the screen: continuation bytes (and the two
    bytes of the combining characters with lead byte 0xCC or 0xCD) take none *)
Definition wf_char (c : text) : Prop :=
  exists lead conts, c = lead :: conts /\
    Forall (fun b => 128 <= b < 192) conts /\
    ((0 <= lead < 128 /\ length conts = 0%nat) \/
     (192 <= lead < 224 /\ length conts = 1%nat) \/
     (224 <= lead < 240 /\ length conts = 2%nat) \/
     (240 <= lead < 248 /\ length conts = 3%nat)).
Definition combining (c : text) : bool :=
  match c with b :: _ => (b =? 0xCC) || (b =? 0xCD) | [] => false end.
Definition positions (cs : list text) : Z :=
  Z.of_nat (length (filter (fun c => negb (combining c)) cs)).

(** [p] occurs in [s] *)
Definition occurs (p s : text) : Prop := exists a b, s = a ++ p ++ b.
