(** Little-endian memory images of fixed-width words: what [ostream::write] /
    [fwrite] of an object of n bytes puts into a file on the platforms SMASH supports
    (x86-64, arm64: both little-endian), and what reading it back yields. *)
From Coq Require Import ZArith List Lia.
From Verif Require Import Base.
Import ListNotations.

(** the n bytes of the unsigned word x, least significant first *)
Fixpoint le (n : nat) (x : Z) : list Z :=
  match n with
  | O => []
  | S n' => x mod 256 :: le n' (x / 256)
  end.

(** the word whose memory image is the given bytes *)
Fixpoint of_le (b : list Z) : Z :=
  match b with
  | [] => 0
  | x :: t => x + 256 * of_le t
  end.

Definition is_byte (x : Z) : Prop := 0 <= x < 256.

Lemma le_length n x : length (le n x) = n.
Proof. revert x; induction n; intros; simpl; auto. Qed.

Lemma le_bytes n x : Forall is_byte (le n x).
Proof.
  revert x; induction n; intros; [constructor|]. cbn [le]. constructor; auto.
  unfold is_byte. apply Z.mod_pos_bound. lia.
Qed.

Lemma of_le_le n x : 0 <= x < 256 ^ Z.of_nat n -> of_le (le n x) = x.
Proof.
  revert x; induction n as [|n IH]; intros x H.
  - cbn in *. lia.
  - cbn [le of_le]. rewrite IH.
    + pose proof (Z_div_mod_eq_full x 256). lia.
    + rewrite Nat2Z.inj_succ, Z.pow_succ_r in H by lia. split.
      * apply Z.div_pos; lia.
      * apply Z.div_lt_upper_bound; lia.
Qed.

Lemma of_le_bound b : Forall is_byte b -> 0 <= of_le b < 256 ^ Z.of_nat (length b).
Proof.
  induction 1 as [|x t Hx _ IH]; [cbn; lia|].
  cbn [of_le length]. rewrite Nat2Z.inj_succ, Z.pow_succ_r by lia. unfold is_byte in Hx. lia.
Qed.

Lemma le_of_le b : Forall is_byte b -> le (length b) (of_le b) = b.
Proof.
  induction 1 as [|x t Hx Ht IH]; [reflexivity|].
  cbn [of_le length le]. unfold is_byte in Hx. pose proof (of_le_bound _ Ht).
  assert (M : (x + 256 * of_le t) mod 256 = x)
    by (rewrite (Z.mul_comm 256), Z.mod_add by lia; apply Z.mod_small; lia).
  assert (D : (x + 256 * of_le t) / 256 = of_le t)
    by (rewrite (Z.mul_comm 256), Z.div_add by lia; rewrite Z.div_small by lia; lia).
  rewrite M, D, IH. reflexivity.
Qed.

Lemma le_inj n x y : 0 <= x < 256 ^ Z.of_nat n -> 0 <= y < 256 ^ Z.of_nat n -> le n x = le n y -> x = y.
Proof. intros Hx Hy E. rewrite <- (of_le_le n x), <- (of_le_le n y), E; auto. Qed.

(** consecutive words of n bytes each *)
Fixpoint words (n : nat) (k : nat) (b : list Z) : list Z :=
  match k with
  | O => []
  | S k' => of_le (firstn n b) :: words n k' (skipn n b)
  end.

Lemma words_flat n l tail :
  Forall (fun x => 0 <= x < 256 ^ Z.of_nat n) l ->
  words n (length l) (flat_map (le n) l ++ tail) = l.
Proof.
  induction 1 as [|x t Hx _ IH]; [reflexivity|].
  cbn [length words flat_map]. rewrite <- app_assoc.
  rewrite firstn_app, le_length, Nat.sub_diag. cbn [firstn].
  rewrite firstn_all2 by (rewrite le_length; lia). rewrite app_nil_r.
  rewrite skipn_app, le_length, Nat.sub_diag. cbn [skipn].
  rewrite skipn_all2 by (rewrite le_length; lia). cbn [app].
  rewrite of_le_le, IH by auto. reflexivity.
Qed.
