(** Vocabulary of the grid properties, independent of the grid code. *)
From Coq Require Import ZArith Reals List Bool.
From Verif Require Import Base GridModel.
Import ListNotations.

(** Two particles closer than [d] in every coordinate. *)
Definition close (d : R) (p q : gpart) : Prop :=
  (Rabs (g_x p - g_x q) < d /\ Rabs (g_y p - g_y q) < d /\ Rabs (g_z p - g_z q) < d)%R.

(** The image of [p] displaced by [w] box lengths [L] is closer than [d] (one value
    per direction) to [q] in every coordinate. *)
Definition close_image (d L : r3) (w : c3) (p q : gpart) : Prop :=
  (Rabs (g_x p + IZR (cx w) * rx L - g_x q) < rx d /\
   Rabs (g_y p + IZR (cy w) * ry L - g_y q) < ry d /\
   Rabs (g_z p + IZR (cz w) * rz L - g_z q) < rz d)%R.

Definition opposite (w : c3) : c3 := ((- cx w)%Z, (- cy w)%Z, (- cz w)%Z).
Definition no_shift : c3 := (0, 0, 0)%Z.

Definition offer_eq_dec : forall a b : offer, {a = b} + {a <> b}.
Proof. unfold offer, c3. repeat decide equality. Defined.
Definition call_eq_dec : forall a b : call, {a = b} + {a <> b}.
Proof. unfold c3. repeat decide equality. Defined.

(** How often the unordered pair {image of p by w, q} (equivalently {p, image of q by
    -w}) is offered to the collision finder. *)
Definition times_offered (os : list offer) (w : c3) (p q : gpart) : nat :=
  (count_occ offer_eq_dec os (g_id p, w, g_id q) +
   count_occ offer_eq_dec os (g_id q, opposite w, g_id p))%nat.

(** Particle lies in the box. *)
Definition within (mn L : r3) (p : gpart) : Prop :=
  (rx mn <= g_x p <= rx mn + rx L /\ ry mn <= g_y p <= ry mn + ry L /\
   rz mn <= g_z p <= rz mn + rz L)%R.

(** Cells of an n.x * n.y * n.z grid and adjacency. *)
Definition is_cell (n c : c3) : Prop :=
  (0 <= cx c < cx n /\ 0 <= cy c < cy n /\ 0 <= cz c < cz n)%Z.
Definition adjacent (a b : c3) : Prop :=
  a <> b /\ (Z.abs (cx a - cx b) <= 1 /\ Z.abs (cy a - cy b) <= 1 /\ Z.abs (cz a - cz b) <= 1)%Z.
(** cell [a] seen [w] periods away *)
Definition periodic_image (n a w : c3) : c3 :=
  (cx a + cx w * cx n, cy a + cy w * cy n, cz a + cz w * cz n)%Z.
