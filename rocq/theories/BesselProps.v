(** Bessel sampler: src/random.cc:32-97, src/include/smash/random.h:429-432.  Reals are exact;
    random draws are arguments. *)
From Coq Require Import ZArith Reals List Lia Lra Psatz.
From Flocq Require Import Core.
From Verif Require Import Base Flt NumModel.
Import ListNotations.
Open Scope R_scope.

Definition negligible : R := / 10 ^ 12.
(** the do-while loop, random.cc:56-63: the pushed weights, None if it has not ended after
    [fuel] rounds *)
Fixpoint weights_from (fuel : nat) (a : R) (N i : nat) (wi : R) : option (list R) :=
  match fuel with
  | O => None
  | S n =>
    let wi' := wi * (/ 4 * a * a / INR (i + 1) / INR (N + i + 1)) in
    if Rlt_dec negligible wi'
    then match weights_from n a N (i + 1) wi' with Some l => Some (wi :: l) | None => None end
    else Some [wi]
  end.
Definition weights (fuel : nat) (a : R) (N : nat) := weights_from fuel a N 0 1.

(** r_(n, a), random.cc:82-92 *)
Fixpoint r_loop (i : nat) (n : nat) (a res : R) : R :=
  match i with O => res | S k => r_loop k n a (1 / (1 / a * 2 * (INR n + INR i) + res)) end.
Definition r_ (n : nat) (a : R) : R := r_loop 200 n a 0.

(** sample(), random.cc:74-80.  [draw] is the value of normal(mu, sigma) or of dist_().
    The constructor stores abs(fixed_difference), which is undefined for the least int. *)
Definition bessel_sample (large : bool) (diff : Z) (draw : R) : res (Z * Z) :=
  N <- sint (Z.abs diff) ;;
  small <- cast_from_double int32 (IZR (if large then cround draw else cfloor draw)) ;;
  big <- sint (small + N) ;;
  Ok (if (0 <=? diff)%Z then (big, small) else (small, big)).

(** C62: whatever is drawn, a returned pair has exactly the requested difference. *)
Theorem sampled_difference large diff draw n1 n2 : (INT_MIN < diff <= INT_MAX)%Z ->
  bessel_sample large diff draw = Ok (n1, n2) -> (n1 - n2 = diff)%Z.
Proof.
  intros D. unfold bessel_sample. unfold sint at 1. destruct (in_i32 (Z.abs diff)); [|discriminate]. cbn [rbind].
  destruct (cast_from_double _ _) as [s| |]; try discriminate. cbn [rbind]. unfold sint. destruct (in_i32 _); [|discriminate]. cbn [rbind].
  destruct (Z.leb_spec 0 diff); intros E; injection E as <- <-; lia.
Qed.
Print Assumptions sampled_difference.

Lemma int_double z : (Z.abs z <= 2 ^ 53)%Z -> of_int z = IZR z.
Proof.
  intros H. unfold of_int. apply fl_id. replace (IZR z) with (F2R (Float radix2 z 0)) by (unfold F2R; cbn; ring).
  destruct (Z.eq_dec (Z.abs z) (2 ^ 53)) as [E|N].
  - destruct (Z.abs_eq_or_opp z) as [E'|E']; rewrite E' in E.
    + subst z. replace (F2R (Float radix2 (2 ^ 53) 0)) with (bpow radix2 53) by (unfold F2R; cbn; lra).
      apply generic_format_bpow. unfold fexp, FLT_exp. lia.
    + assert (z = - 2 ^ 53)%Z by lia. subst z. replace (F2R (Float radix2 (- 2 ^ 53) 0)) with (- bpow radix2 53) by (unfold F2R; cbn; lra).
      apply generic_format_opp, generic_format_bpow. unfold fexp, FLT_exp. lia.
  - apply generic_format_FLT. exists (Float radix2 z 0); [reflexivity|cbn; lia|cbn; lia].
Qed.
Lemma cast_int_ok z : (Z.abs z < 2 ^ 31)%Z -> cast_from_double int32 (IZR z) = Ok z.
Proof.
  intros H. unfold cast_from_double, trunc_to. rewrite Ztrunc_IZR. unfold fits, lowest, highest, int32. cbn [sgn bits].
  rewrite (proj2 (Z.leb_le _ _)), (proj2 (Z.leb_le _ _)) by (change (2 ^ (32 - 1))%Z with (2 ^ 31)%Z; lia). cbn [andb rbind].
  rewrite int_double by lia. rewrite Req_bool_true by reflexivity. cbn [negb orb]. reflexivity.
Qed.

(** ... and for draws and differences below 2^30 a pair is returned. *)
Theorem sampled_pair_exists large diff draw : (Z.abs diff < 2 ^ 30)%Z -> Rabs draw < 2 ^ 30 - 1 ->
  exists n1 n2, bessel_sample large diff draw = Ok (n1, n2).
Proof.
  intros D H. unfold bessel_sample. unfold sint at 1. unfold in_i32, INT_MIN, INT_MAX.
  rewrite (proj2 (Z.leb_le _ _)), (proj2 (Z.leb_le _ _)) by lia. cbn [andb rbind].
  set (z := if large then cround draw else cfloor draw).
  assert (Z1 : Rabs (IZR z - draw) <= 1).
  { unfold z, cround, cfloor. destruct large.
    - pose proof (Znearest_half (Z.leb 0) draw) as Q. rewrite Rabs_minus_sym. eapply Rle_trans; [apply Q|lra].
    - pose proof (Zfloor_lb draw). pose proof (Zfloor_ub draw). apply Rabs_le. lra. }
  assert (Zb : (Z.abs z < 2 ^ 30)%Z).
  { apply lt_IZR. rewrite abs_IZR. assert (Rabs (IZR z) <= Rabs (IZR z - draw) + Rabs draw).
    { replace (IZR z) with ((IZR z - draw) + draw) at 1 by ring. apply Rabs_triang. }
    change (IZR (2 ^ 30)) with 1073741824. cbn [pow] in H. lra. }
  rewrite cast_int_ok by lia. cbn [rbind]. unfold sint, in_i32, INT_MIN, INT_MAX.
  rewrite (proj2 (Z.leb_le _ _)), (proj2 (Z.leb_le _ _)) by lia. cbn [andb rbind].
  destruct (0 <=? diff)%Z; eauto.
Qed.
Print Assumptions sampled_pair_exists.
Example sample_example : exists n1 n2, bessel_sample true (-3) (17 / 2) = Ok (n1, n2) /\ (n1 - n2 = -3)%Z.
Proof.
  destruct (sampled_pair_exists true (-3) (17 / 2)) as (n1 & n2 & E); [lia|rewrite Rabs_right; cbn; lra|].
  exists n1, n2. split; [exact E|]. eapply sampled_difference; [|exact E]. unfold INT_MIN, INT_MAX. lia.
Qed.

(** C90 is refuted in part: a Gaussian draw below -1/2 makes a multiplicity negative. *)
Theorem negative_multiplicity_refuted : exists draw n1 n2, bessel_sample true 0 draw = Ok (n1, n2) /\ (n2 < 0)%Z.
Proof.
  exists (-2), (-2)%Z, (-2)%Z. split; [|lia]. unfold bessel_sample. change (sint (Z.abs 0)) with (Ok 0%Z). cbn [rbind].
  unfold cround. assert (Q : ZnearestA (-2) = (-2)%Z) by (apply (Zrnd_IZR ZnearestA)). rewrite Q. rewrite cast_int_ok by lia. reflexivity.
Qed.
Print Assumptions negative_multiplicity_refuted.

(** ** the weights of the direct method *)
(** *** specification: the Bessel distribution, up to normalisation *)
Definition bessel_weight (a : R) (N i : nat) : R :=
  (a / 2) ^ (2 * i) * INR (fact N) / (INR (fact i) * INR (fact (N + i))).

Lemma bessel_weight_0 a N : bessel_weight a N 0 = 1.
Proof. unfold bessel_weight. rewrite Nat.add_0_r. cbn. field. apply INR_fact_neq_0. Qed.
Lemma bessel_weight_S a N i : bessel_weight a N (S i) = bessel_weight a N i * (/ 4 * a * a / INR (i + 1) / INR (N + i + 1)).
Proof.
  unfold bessel_weight. replace (N + S i)%nat with (S (N + i)) by lia. rewrite !fact_simpl, !mult_INR.
  replace (2 * S i)%nat with (2 * i + 2)%nat by lia. rewrite pow_add. replace (i + 1)%nat with (S i) by lia. replace (N + i + 1)%nat with (S (N + i)) by lia.
  field. repeat split; try apply INR_fact_neq_0; apply not_0_INR; lia.
Qed.
Lemma bessel_weight_nonneg a N i : 0 <= bessel_weight a N i.
Proof.
  unfold bessel_weight. apply Rmult_le_pos.
  - apply Rmult_le_pos; [|apply pos_INR]. rewrite pow_mult. apply pow_le. nra.
  - left. apply Rinv_0_lt_compat. apply Rmult_lt_0_compat; apply INR_fact_lt_0.
Qed.

Lemma weights_from_spec fuel a N : forall i l, weights_from fuel a N i (bessel_weight a N i) = Some l ->
  (1 <= length l)%nat /\ l = map (bessel_weight a N) (seq i (length l)) /\
  (forall k, (i < k < i + length l)%nat -> negligible < bessel_weight a N k) /\ bessel_weight a N (i + length l) <= negligible.
Proof.
  induction fuel as [|n IH]; intros i l; cbn [weights_from]; [discriminate|]. rewrite <- bessel_weight_S.
  destruct (Rlt_dec _ _) as [L|L].
  - replace (S i) with (i + 1)%nat in * by lia. destruct (weights_from n a N (i + 1) _) as [t|] eqn:E; [|discriminate].
    intros H. assert (H' : l = bessel_weight a N i :: t) by congruence. subst l. destruct (IH _ _ E) as (A & B & C & D).
    cbn [length]. split; [lia|]. split; [cbn [seq map]; f_equal; replace (S i) with (i + 1)%nat by lia; exact B|]. split.
    + intros k K. destruct (Nat.eq_dec k (i + 1)) as [-> |]; [exact L|apply C; lia].
    + replace (i + S (length t))%nat with (i + 1 + length t)%nat by lia. exact D.
  - intros H. assert (H' : l = [bessel_weight a N i]) by congruence. subst l. cbn [length seq map].
    split; [lia|]. split; [reflexivity|]. split; [intros; lia|]. replace (i + 1)%nat with (S i) by lia. lra.
Qed.
Lemma weights_from_ends a N m : forall i, (i < m)%nat -> bessel_weight a N m <= negligible ->
  exists l, weights_from (m - i) a N i (bessel_weight a N i) = Some l.
Proof.
  intros i I E. remember (m - i)%nat as d eqn:Ed. revert i I Ed. induction d as [|d IH]; intros i I Ed; [lia|]. cbn [weights_from].
  rewrite <- bessel_weight_S. destruct (Rlt_dec _ _) as [L|L]; [|eauto].
  assert (S i <> m) by (intros Q; rewrite Q in L; lra). replace (i + 1)%nat with (S i) by lia.
  destruct (IH (S i)) as (l & ->); [lia|lia|]. eauto.
Qed.

(** C90: the loop that tabulates the distribution ends, and tabulates exactly the Bessel
    distribution up to the first negligible entry. *)
Theorem bessel_weights_exact a N : exists fuel l, weights fuel a N = Some l /\ (1 <= length l)%nat /\
  l = map (bessel_weight a N) (seq 0 (length l)) /\
  (forall k, (0 < k < length l)%nat -> negligible < bessel_weight a N k) /\ bessel_weight a N (length l) <= negligible.
Proof.
  assert (T : exists m, (0 < m)%nat /\ bessel_weight a N m <= negligible).
  { destruct (cv_speed_pow_fact ((a / 2) ^ 2) negligible) as (m & M).
    { unfold negligible. apply Rinv_0_lt_compat. apply pow_lt. lra. }
    exists (S m). split; [lia|]. specialize (M (S m) ltac:(lia)). unfold R_dist in M. rewrite Rminus_0_r in M.
    eapply Rle_trans; [|left; exact M]. eapply Rle_trans; [|apply Rle_abs]. unfold bessel_weight. rewrite <- pow_mult.
    pose proof (INR_fact_lt_0 (S m)). pose proof (INR_fact_lt_0 N). pose proof (INR_fact_lt_0 (N + S m)).
    assert (F : INR (fact N) <= INR (fact (N + S m))) by (apply le_INR, fact_le; lia).
    set (x := (a / 2) ^ (2 * S m)). assert (X : 0 <= x) by (unfold x; rewrite pow_mult; apply pow_le; nra). clearbody x.
    unfold Rdiv. rewrite Rinv_mult.
    replace (x * INR (fact N) * (/ INR (fact (S m)) * / INR (fact (N + S m)))) with (x * / INR (fact (S m)) * (INR (fact N) / INR (fact (N + S m)))) by (unfold Rdiv; ring).
    rewrite <- (Rmult_1_r (x * / INR (fact (S m)))) at 2. apply Rmult_le_compat_l.
    - apply Rmult_le_pos; [exact X|left; apply Rinv_0_lt_compat; assumption].
    - apply (Rmult_le_reg_r (INR (fact (N + S m)))); [assumption|]. unfold Rdiv. rewrite Rmult_assoc, Rinv_l by lra. lra. }
  destruct T as (m & M0 & M). destruct (weights_from_ends a N m 0 M0 M) as (l & E). rewrite Nat.sub_0_r, bessel_weight_0 in E.
  exists m, l. unfold weights. split; [exact E|]. rewrite <- (bessel_weight_0 a N) in E. apply (weights_from_spec _ _ _ _ _ E).
Qed.
Print Assumptions bessel_weights_exact.

(** ** the mean of the Gaussian method *)
Lemma r_bound a n : 0 < a -> forall k r, 0 <= r -> 0 <= r_loop (2 * k) n a r <= r + (INR k * (2 * INR n) + 2 * (INR k * (INR k + 1))) / a.
Proof.
  intros A. induction k as [|k IH]; intros r R0.
  - cbn. lra.
  - replace (2 * S k)%nat with (S (S (2 * k))) by lia. cbn [r_loop].
    set (e1 := 1 / a * 2 * (INR n + INR (S (S (2 * k))))). set (e2 := 1 / a * 2 * (INR n + INR (S (2 * k)))).
    assert (Ia : 0 < 1 / a) by (apply Rdiv_lt_0_compat; lra).
    assert (E1 : 0 < e1) by (unfold e1; pose proof (pos_INR n); rewrite S_INR; pose proof (pos_INR (S (2 * k))); apply Rmult_lt_0_compat; lra).
    assert (E2 : 0 < e2) by (unfold e2; pose proof (pos_INR n); rewrite S_INR; pose proof (pos_INR (2 * k)); apply Rmult_lt_0_compat; lra).
    assert (B : 0 < e1 + r) by lra.
    set (r1 := 1 / (e1 + r)). assert (P1 : 0 < r1) by (unfold r1; apply Rdiv_lt_0_compat; lra).
    set (r2 := 1 / (e2 + r1)). assert (P2 : 0 < r2) by (unfold r2; apply Rdiv_lt_0_compat; lra).
    assert (L : r2 <= e1 + r).
    { unfold r2. apply (Rmult_le_reg_r (e2 + r1)); [lra|]. unfold Rdiv. rewrite Rmult_1_l, Rinv_l by lra.
      assert (r1 * (e1 + r) = 1) by (unfold r1; field; lra). nra. }
    destruct (IH r2 ltac:(lra)) as [H1 H2]. split; [exact H1|]. eapply Rle_trans; [exact H2|].
    unfold e1 in L. rewrite !S_INR, mult_INR in L. rewrite S_INR. change (INR 2) with 2 in L.
    assert (Q : (INR k * (2 * INR n) + 2 * (INR k * (INR k + 1))) / a + 1 / a * 2 * (INR n + (2 * INR k + 1 + 1)) =
      ((INR k + 1) * (2 * INR n) + 2 * ((INR k + 1) * (INR k + 1 + 1))) / a) by (field; lra).
    lra.
Qed.

(** C90 is refuted for the Gaussian method: with 200 terms the continued fraction is far from
    its limit when the mean is large; for two Poisson means of 500000 (a = 10^6) the ratio is
    below 0.03 although it must lie above 0.99, and with it the mean multiplicity. *)
Theorem bessel_ratio_refuted : let a := 1000000 in
  r_ 0 a < 3 / 100 /\ 99 / 100 < a / (sqrt (a * a + (0 + 1) * (0 + 1)) + 0 + 1).
Proof.
  intros a. split.
  - unfold r_. pose proof (r_bound a 0 ltac:(unfold a; lra) 100 0 ltac:(lra)) as [_ H]. replace (2 * 100)%nat with 200%nat in H by lia.
    eapply Rle_lt_trans; [exact H|]. unfold a. replace (INR 100) with 100 by (rewrite INR_IZR_INZ; reflexivity). cbn [INR]. lra.
  - assert (S : sqrt (a * a + (0 + 1) * (0 + 1)) <= a + 1) by (apply Rsqr_incr_0_var; [|unfold a; lra]; unfold Rsqr; rewrite sqrt_sqrt; unfold a; lra).
    apply (Rmult_lt_reg_r (sqrt (a * a + (0 + 1) * (0 + 1)) + 0 + 1)).
    { pose proof (sqrt_pos (a * a + (0 + 1) * (0 + 1))). lra. }
    unfold Rdiv at 2. rewrite (Rmult_assoc a), Rinv_l by (pose proof (sqrt_pos (a * a + (0 + 1) * (0 + 1))); lra). unfold a in *. lra.
Qed.
Print Assumptions bessel_ratio_refuted.
