(** Vocabulary of the lattice properties, independent of the lattice code. *)
From Coq Require Import ZArith Reals List Bool.
From Verif Require Import Base GridModel GridSpec LatticeModel.
Import ListNotations.
Open Scope Z_scope.

(** A lattice whose storage matches its dimensions (what the constructor establishes). *)
Definition usable {T} (L : lat T) : Prop :=
  1 <= cx (la_n L) /\ 1 <= cy (la_n L) /\ 1 <= cz (la_n L) /\
  Z.of_nat (length (la_store L)) = cx (la_n L) * cy (la_n L) * cz (la_n L) /\
  cx (la_n L) * cy (la_n L) * cz (la_n L) <= INT_MAX.
Definition extended {T} (L : lat T) : Prop :=
  (0 < rx (la_len L) /\ 0 < ry (la_len L) /\ 0 < rz (la_len L))%R.

(** Coordinate [i + d] in a row of [n] cells: wraps around if periodic, otherwise
    stays at [i] if that would leave the row. *)
Definition moved (per : bool) (n i d : Z) : Z :=
  if (0 <=? i + d) && (i + d <? n) then i + d else if per then (i + d) mod n else i.

(** The cell that [c] is an image of in a periodic lattice. *)
Definition folded (n c : c3) : c3 := (cx c mod cx n, cy c mod cy n, cz c mod cz n).

(** [q] in the half-open box of half sizes [r] around [p] *)
Definition in_rect (p r q : r3) : Prop :=
  (rx p - rx r <= rx q < rx p + rx r /\ ry p - ry r <= ry q < ry p + ry r /\
   rz p - rz r <= rz q < rz p + rz r)%R.

(** the point lies in the (half-open) cell *)
Definition in_cell_box {T} (L : lat T) (c : c3) (p : r3) : Prop :=
  let s := cell_size L in let m := center L c in
  (rx m - rx s / 2 <= rx p < rx m + rx s / 2 /\ ry m - ry s / 2 <= ry p < ry m + ry s / 2 /\
   rz m - rz s / 2 <= rz p < rz m + rz s / 2)%R.

(** value stored for a cell, addressed by its coordinates *)
Definition value_of {T} (L : lat T) (c : c3) (v : T) : Prop :=
  exists i, index1d L c = Ok i /\ nth_error (la_store L) (Z.to_nat i) = Some v.

(** sum of a list of numbers *)
Definition total (l : list R) : R := fold_right Rplus 0%R l.

(** Difference quotient in one direction between the neighbours [r] (right) and [l]
    (left): two cells apart, or one at an open border. *)
Definition spacing (per : bool) (n i : Z) (s : R) : R :=
  if per || ((0 <? i) && (i <? n - 1)) then (2 * s)%R else s.
