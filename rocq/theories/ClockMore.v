(** Further clock proofs: user-level ranges, resets, concrete doubles. *)
From Coq Require Import ZArith Reals List Bool Lia Lra Psatz Sorting.Permutation Sorting.Sorted.
From Flocq Require Import Core.
From Verif Require Import Base Flt ClockModel ClockSpec ClockProofs.
Import ListNotations.
Open Scope R_scope.

Lemma bpow_pos_IZR e : (0 <= e)%Z -> bpow radix2 e = IZR (2 ^ e).
Proof. intros. symmetry. now apply (IZR_Zpower radix2). Qed.
Lemma bpow_neg_IZR e : (0 <= e)%Z -> bpow radix2 (- e) = / IZR (2 ^ e).
Proof. intros. rewrite bpow_opp. now rewrite bpow_pos_IZR. Qed.

(** comparing rationals: turns bpow into integers and lets lra finish *)
Ltac bnorm :=
  repeat match goal with
  | |- context [bpow radix2 ?e] =>
      let v := eval vm_compute in e in
      match v with
      | Z0 => change (bpow radix2 e) with 1
      | Zpos ?p => replace (bpow radix2 e) with (IZR (2 ^ Zpos p)) by (symmetry; exact (bpow_pos_IZR (Zpos p) ltac:(lia)));
          let w := eval vm_compute in (2 ^ Zpos p)%Z in change (2 ^ Zpos p)%Z with w
      | Zneg ?p => replace (bpow radix2 e) with (/ IZR (2 ^ Zpos p)) by (symmetry; exact (bpow_neg_IZR (Zpos p) ltac:(lia)));
          let w := eval vm_compute in (2 ^ Zpos p)%Z in change (2 ^ Zpos p)%Z with w
      end
  end.
Ltac fl_calc M E := rewrite (fl_at _ M E); [ | lia | bnorm; lra | bnorm; apply Rabs_def1; lra ].

Lemma to_double_exact : to_double = 4722366482869645 * / 4722366482869645213696.
Proof. unfold to_double. fl_calc 4722366482869645%Z (-72)%Z. bnorm. lra. Qed.
Lemma from_double_exact : from_double = 1000000.
Proof.
  unfold from_double, fdiv. rewrite to_double_exact.
  replace (1 / (4722366482869645 * / 4722366482869645213696)) with (4722366482869645213696 / 4722366482869645) by (field; lra).
  fl_calc 8589934592000000%Z (-33)%Z. bnorm. lra.
Qed.

Lemma Znearest_IZR c n : Znearest c (IZR n) = n.
Proof. apply Zrnd_IZR; auto with typeclass_instances. Qed.
Lemma Znearest_le c x y : x <= y -> (Znearest c x <= Znearest c y)%Z.
Proof. apply Zrnd_le; auto with typeclass_instances. Qed.

(** Conversion of a double to internal units: nearest micro-fm, up to rounding. *)
Lemma convert_to_spec x : Rabs x <= 500000000 ->
  exists n, convert_to x = Ok n /\ (Z.abs n <= 2 ^ 49)%Z /\ Rabs (x - IZR n / 1000000) <= / 1000000 * (6 / 10).
Proof.
  intros H. unfold convert_to, fmul. rewrite from_double_exact.
  set (y := fl (x * 1000000)). set (n := cround y).
  assert (D : Rabs (y - IZR n) <= / 2) by (apply Znearest_half).
  assert (Y : Rabs (y - x * 1000000) <= 6 / 100).
  { destruct (Rle_lt_dec (/ 2 ^ 1022) (Rabs (x * 1000000))) as [G|G].
    - destruct (fl_rel _ G) as (e & He & E). unfold y. rewrite E.
      replace (x * 1000000 * (1 + e) - x * 1000000) with (x * 1000000 * e) by ring.
      rewrite !Rabs_mult, (Rabs_pos_eq 1000000) by lra.
      apply Rle_trans with (500000000 * 1000000 * u).
      + apply Rmult_le_compat; auto using Rabs_pos. apply Rmult_le_pos; auto using Rabs_pos; lra. nra.
      + unfold u. replace (2 ^ 53) with 9007199254740992. lra. symmetry. exact (pow_IZR 2 53).
    - (* tiny values: the rounding is between -2^-1022 and 2^-1022 *)
      assert (T : is_double (/ 2 ^ 1022)).
      { unfold is_double. replace (/ 2 ^ 1022) with (bpow radix2 (-1022)).
        - apply generic_format_bpow. unfold fexp, FLT_exp. lia.
        - change (-1022)%Z with (Z.opp 1022). rewrite bpow_neg_IZR by lia. f_equal. symmetry; exact (pow_IZR 2 1022). }
      assert (T' : is_double (- / 2 ^ 1022)) by (apply generic_format_opp; exact T).
      apply Rabs_def2 in G.
      assert (A : y <= / 2 ^ 1022). { rewrite <- (fl_id _ T). apply fl_mono. lra. }
      assert (B : - / 2 ^ 1022 <= y). { rewrite <- (fl_id _ T'). apply fl_mono. lra. }
      pose proof tiny_small. apply Rabs_le. lra. }
  apply Rabs_le_inv in H, D, Y.
  assert (N : (Z.abs n <= 2 ^ 49)%Z).
  { apply Z.abs_le. split; apply le_IZR.
    - change (IZR (- 2 ^ 49)) with (-562949953421312). lra.
    - change (IZR (2 ^ 49)) with 562949953421312. lra. }
  exists n. splits.
  - replace (in_i64 n) with true; auto. symmetry. unfold in_i64, INT64_MIN, INT64_MAX. lia.
  - exact N.
  - apply Rabs_le. lra.
Qed.

Lemma convert_to_pos x n : / 1000000 <= x -> convert_to x = Ok n -> (1 <= n)%Z.
Proof.
  intros H. unfold convert_to, fmul. rewrite from_double_exact.
  destruct (in_i64 _); [|discriminate]. intros [= <-].
  assert (1 <= fl (x * 1000000)).
  { apply Rle_trans with (fl 1). right. symmetry. apply fl_id. apply (int_double 1). lia. apply fl_mono. lra. }
  unfold cround. apply Z.le_trans with (ZnearestA 1).
  - change 1 with (IZR 1). rewrite Znearest_IZR. lia.
  - apply Znearest_le. exact H0. 
Qed.
Lemma convert_to_tiny x : 0 <= x -> x <= 4 / 10000000 -> convert_to x = Ok 0%Z.
Proof.
  intros H H1. unfold convert_to, fmul. rewrite from_double_exact.
  assert (0 <= fl (x * 1000000)). { rewrite <- fl_0. apply fl_mono. lra. }
  assert (fl (x * 1000000) <= 0.45).
  { apply Rle_trans with (fl 0.4). apply fl_mono. lra.
    fl_calc 7205759403792794%Z (-54)%Z. bnorm. lra. }
  replace (cround (fl (x * 1000000))) with 0%Z. reflexivity.
  symmetry. unfold cround. apply Znearest_imp. rewrite Rminus_0_r. rewrite Rabs_pos_eq by lra. lra.
Qed.

(** ** Output clock reset *)
Lemma floor_fl x k : (Z.abs k < 2 ^ 52)%Z -> IZR k <= x -> x + Rabs x * u < IZR k + 1 -> / 2 ^ 1022 <= Rabs x \/ k = 0%Z ->
  cfloor (fl x) = k.
Proof.
  intros K L U T. unfold cfloor. apply Zfloor_imp. rewrite plus_IZR.
  split.
  - rewrite <- (fl_id (IZR k)) by (apply int_double; lia). now apply fl_mono.
  - destruct (Rle_lt_dec (/ 2 ^ 1022) (Rabs x)) as [G|G].
    + destruct (fl_rel x G) as (e & He & E). rewrite E.
      assert (x * e <= Rabs x * u).
      { apply Rle_trans with (Rabs (x * e)). apply Rle_abs. rewrite Rabs_mult. apply Rmult_le_compat_l; auto using Rabs_pos. }
      lra.
    + destruct T as [T| ->]. lra.
      apply Rle_lt_trans with (fl (/ 2)).
      * apply fl_mono. apply Rabs_def2 in G. pose proof tiny_small. lra.
      * fl_calc 4503599627370496%Z (-53)%Z. bnorm. lra.
Qed.

(** times of the output clock: k intervals of d micro-fm *)
Lemma convert_multiple k d : (0 < d <= 2 ^ 49)%Z -> (Z.abs (k * d) <= 2 ^ 49)%Z ->
  convert_to (fmul (IZR k) (to_time d)) = Ok (k * d)%Z.
Proof.
  intros D K. destruct (Z.eq_dec k 0) as [->|N].
  { unfold fmul. rewrite Rmult_0_l, fl_0. unfold convert_to, fmul. rewrite Rmult_0_l, fl_0.
    unfold cround. change 0 with (IZR 0). rewrite Znearest_IZR. reflexivity. }
  destruct (to_time_spec d) as (e & He & E); [lia|]. destruct to_double_spec as (e0 & He0 & E0).
  apply abs_bound in He, He0. pose proof u_small. pose proof u_pos.
  assert (KD : 1 <= Rabs (IZR (k * d))). { rewrite <- abs_IZR. apply IZR_le. nia. }
  assert (KD2 : Rabs (IZR (k * d)) <= 562949953421312). { rewrite <- abs_IZR. apply (IZR_le _ (2 ^ 49)). lia. }
  set (q := (1 + e0) * (1 + e)).
  assert (Q : Rabs (q - 1) <= 2.1 * u).
  { unfold q. replace ((1 + e0) * (1 + e) - 1) with (e0 + e + e0 * e) by ring. apply Rabs_le. split; nra. }
  apply Rabs_le_inv in Q.
  assert (P : IZR k * to_time d = IZR (k * d) / 1000000 * q). { rewrite E, E0, mult_IZR. unfold q. field. }
  assert (PQ : Rabs (IZR (k * d) / 1000000 * q) >= / 2000000).
  { unfold Rdiv. rewrite !Rabs_mult, (Rabs_pos_eq (/ 1000000)), (Rabs_pos_eq q) by lra. nra. }
  pose proof tiny_small.
  destruct (fl_rel (IZR k * to_time d)) as (e1 & He1 & E1). { rewrite P. lra. }
  apply abs_bound in He1.
  unfold convert_to, fmul. rewrite from_double_exact, E1, P.
  destruct (fl_rel (IZR (k * d) / 1000000 * q * (1 + e1) * 1000000)) as (e2 & He2 & E2).
  { rewrite !Rabs_mult, (Rabs_pos_eq 1000000), (Rabs_pos_eq (1 + e1)) by lra. rewrite <- Rabs_mult. nra. }
  apply abs_bound in He2. rewrite E2.
  replace (cround _) with (k * d)%Z.
  { replace (in_i64 (k * d)) with true; auto. symmetry. unfold in_i64, INT64_MIN, INT64_MAX. lia. }
  symmetry. unfold cround. apply Znearest_imp.
  replace (IZR (k * d) / 1000000 * q * (1 + e1) * 1000000 * (1 + e2) - IZR (k * d)) with (IZR (k * d) * (q * (1 + e1) * (1 + e2) - 1)) by field.
  rewrite Rabs_mult.
  assert (X : Rabs (q * (1 + e1) - 1) <= 3.2 * u). { apply Rabs_le. split; nra. }
  apply Rabs_le_inv in X. set (q1 := q * (1 + e1)) in *.
  assert (Y : Rabs (q1 * (1 + e2) - 1) <= 4.3 * u). { apply Rabs_le. split; nra. }
  apply Rle_lt_trans with (562949953421312 * (4.3 * u)).
  - apply Rmult_le_compat; auto using Rabs_pos.
  - unfold u. replace (2 ^ 53) with 9007199254740992. lra. symmetry. exact (pow_IZR 2 53).
Qed.

Lemma to_time_190000 : to_time 190000 = 6845471433603154 * / 36028797018963968.
Proof.
  unfold to_time, fmul. rewrite fl_int by lia. rewrite to_double_exact.
  fl_calc 6845471433603154%Z (-55)%Z. bnorm. lra.
Qed.
