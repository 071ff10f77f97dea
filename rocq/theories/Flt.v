(** IEEE binary64 arithmetic as rounded real arithmetic (Flocq): a double is a real
    number, every operation rounds its exact result to nearest-even in the format
    FLT(-1074, 53).  Overflow to infinity and NaN are not represented; a module that
    uses these definitions says so and keeps its values in range. *)
From Coq Require Import ZArith Reals Lia Lra Psatz.
From Flocq Require Import Core Relative.
Open Scope R_scope.

Definition fexp := FLT_exp (-1074) 53.
Definition fl (x : R) : R := round radix2 fexp ZnearestE x.
Definition is_double (x : R) : Prop := generic_format radix2 fexp x.
(** C++ operations on doubles *)
Definition fadd (x y : R) : R := fl (x + y).
Definition fsub (x y : R) : R := fl (x - y).
Definition fmul (x y : R) : R := fl (x * y).
Definition fdiv (x y : R) : R := fl (x / y).
(** conversion from a 64-bit integer *)
Definition of_int (n : Z) : R := fl (IZR n).
(** std::round: to the nearest integer, ties away from zero; std::floor *)
Definition cround (x : R) : Z := ZnearestA x.
Definition cfloor (x : R) : Z := Zfloor x.

#[export] Instance fexp_valid : Valid_exp fexp.
Proof. unfold fexp. apply FLT_exp_valid. unfold Prec_gt_0. lia. Qed.

Lemma fl_mono x y : x <= y -> fl x <= fl y.
Proof. intros. unfold fl. apply round_le; auto with typeclass_instances. Qed.
Lemma fl_0 : fl 0 = 0.
Proof. unfold fl. apply round_0; auto with typeclass_instances. Qed.
Lemma fl_double x : is_double (fl x).
Proof. unfold is_double, fl. apply generic_format_round; auto with typeclass_instances. Qed.
Lemma fl_id x : is_double x -> fl x = x.
Proof. unfold is_double, fl. intros. apply round_generic; auto with typeclass_instances. Qed.

Lemma int_double n : (Z.abs n <= 2 ^ 53)%Z -> is_double (IZR n).
Proof.
  intros H. unfold is_double, fexp.
  destruct (Z.eq_dec (Z.abs n) (2 ^ 53)) as [E|NE].
  - (* +-2^53 *)
    apply generic_format_FLT.
    destruct (Z.abs_spec n) as [[_ A]|[_ A]]; rewrite A in E.
    + exists (Float radix2 1 53); [|cbn; lia|cbn; lia]. rewrite E. unfold F2R. cbn [Fnum Fexp].
      rewrite <- IZR_Zpower by lia. rewrite <- mult_IZR. reflexivity.
    + exists (Float radix2 (-1) 53); [|cbn; lia|cbn; lia]. replace n with (- 2 ^ 53)%Z by lia.
      unfold F2R. cbn [Fnum Fexp].
      rewrite <- IZR_Zpower by lia. rewrite <- mult_IZR. reflexivity.
  - apply generic_format_FLT. exists (Float radix2 n 0).
    + unfold F2R; cbn. lra.
    + cbn. lia.
    + cbn. lia.
Qed.
Lemma fl_int n : (Z.abs n <= 2 ^ 53)%Z -> of_int n = IZR n.
Proof. intros. apply fl_id. now apply int_double. Qed.

(** relative error *)
Definition u := / 2 ^ 53.
Lemma u_pos : 0 < u.
Proof. unfold u. apply Rinv_0_lt_compat. apply pow_lt. lra. Qed.

Lemma fl_rel x : / 2 ^ 1022 <= Rabs x -> exists e, Rabs e <= u /\ fl x = x * (1 + e).
Proof.
  intros H.
  destruct (relative_error_N_FLT_ex radix2 (-1074) 53 ltac:(unfold Prec_gt_0; lia) (fun n => negb (Z.even n)) x) as (e & He & E).
  { change (-1074 + 53 - 1)%Z with (Z.opp 1022). rewrite bpow_opp.
    replace (bpow radix2 1022) with (2 ^ 1022). exact H.
    rewrite <- IZR_Zpower by lia. exact (pow_IZR 2 1022). }
  exists e. split.
  - apply Rle_trans with (1 := He). unfold u.
    change (- (53) + 1)%Z with (Z.opp 52). rewrite bpow_opp.
    replace (bpow radix2 52) with (2 ^ 52).
    + replace (2 ^ 53) with (2 * 2 ^ 52) by (simpl; lra). rewrite Rinv_mult. lra.
    + rewrite <- IZR_Zpower by lia. exact (pow_IZR 2 52).
  - exact E.
Qed.

(** Evaluating a rounding at a concrete point. *)
Lemma fl_at x m e : (-1074 <= e)%Z -> bpow radix2 (e + 52) <= x < bpow radix2 (e + 53) ->
  Rabs (x * bpow radix2 (- e) - IZR m) < / 2 -> fl x = IZR m * bpow radix2 e.
Proof.
  intros He [Lo Hi] Hm.
  assert (P : 0 < x) by (pose proof (bpow_gt_0 radix2 (e + 52)); lra).
  assert (M : mag radix2 x = (e + 53)%Z :> Z).
  { apply mag_unique_pos. replace (e + 53 - 1)%Z with (e + 52)%Z by lia. auto. }
  assert (C : cexp radix2 fexp x = e).
  { unfold cexp, fexp, FLT_exp. rewrite M. lia. }
  unfold fl, round, F2R, scaled_mantissa. cbn [Fnum Fexp]. rewrite C. do 2 f_equal.
  apply Znearest_imp. exact Hm.
Qed.
