(** Proofs about the clocks: rounding round trip, ticks, resets, custom times. *)
From Coq Require Import ZArith Reals List Bool Lia Lra Psatz Sorting.Permutation Sorting.Sorted.
From Flocq Require Import Core.
From Verif Require Import Base Flt ClockModel.
Import ListNotations.
Open Scope R_scope.

Lemma u_small : u <= / 1000000000.
Proof.
  unfold u. apply Rinv_le_contravar. lra.
  replace (2 ^ 53) with (IZR (2 ^ 53)) by (symmetry; exact (pow_IZR 2 53)).
  apply IZR_le. lia.
Qed.
Lemma tiny_small : / 2 ^ 1022 <= / 10000000000.
Proof.
  apply Rinv_le_contravar. lra.
  replace (2 ^ 1022) with (IZR (2 ^ 1022)) by (symmetry; exact (pow_IZR 2 1022)).
  apply IZR_le. now vm_compute.
Qed.
Lemma abs_bound e : Rabs e <= u -> - u <= e <= u.
Proof. intros. apply Rabs_le_inv. exact H. Qed.

Lemma to_double_spec : exists e, Rabs e <= u /\ to_double = / 1000000 * (1 + e).
Proof.
  unfold to_double. destruct (fl_rel (1 / 1000000)) as (e & He & E).
  - pose proof tiny_small. rewrite Rabs_pos_eq by lra. lra.
  - exists e. split; auto. rewrite E. f_equal. lra.
Qed.
Lemma to_double_bounds : / 1000001 < to_double < / 999999.
Proof.
  destruct to_double_spec as (e & He & ->). apply abs_bound in He. pose proof u_small. lra.
Qed.
Lemma from_double_spec : exists e, Rabs e <= u /\ from_double = / to_double * (1 + e).
Proof.
  unfold from_double, fdiv. pose proof to_double_bounds.
  assert (999999 < / to_double).
  { rewrite <- (Rinv_inv 999999). apply Rinv_lt_contravar; [|lra]. apply Rmult_lt_0_compat; lra. }
  destruct (fl_rel (1 / to_double)) as (e & He & E).
  - pose proof tiny_small. rewrite Rabs_pos_eq by lra. lra.
  - exists e. split; auto. rewrite E. f_equal. lra.
Qed.

Lemma to_time_spec n : (Z.abs n <= 2 ^ 53)%Z -> exists e, Rabs e <= u /\ to_time n = IZR n * to_double * (1 + e).
Proof.
  intros H. unfold to_time, fmul. rewrite fl_int by auto.
  destruct (Z.eq_dec n 0) as [->|N].
  - exists 0. rewrite Rabs_R0. split. left; apply u_pos. rewrite Rmult_0_l, fl_0. lra.
  - destruct (fl_rel (IZR n * to_double)) as (e & He & E).
    + rewrite Rabs_mult. pose proof to_double_bounds. rewrite (Rabs_pos_eq to_double) by lra.
      assert (1 <= Rabs (IZR n)). { rewrite <- abs_IZR. apply IZR_le. lia. }
      pose proof tiny_small. nra.
    + exists e. auto.
Qed.

(** the reported time is the exact multiple of a micro-fm up to two rounding errors *)
Lemma to_time_accurate n : (Z.abs n <= 2 ^ 53)%Z -> Rabs (to_time n - IZR n / 1000000) <= Rabs (IZR n / 1000000) * (3 * u).
Proof.
  intros H. destruct (to_time_spec n H) as (e & He & ->). destruct to_double_spec as (e1 & He1 & ->).
  replace (IZR n * (/ 1000000 * (1 + e1)) * (1 + e) - IZR n / 1000000) with (IZR n / 1000000 * (e1 + e + e1 * e)) by (field).
  rewrite Rabs_mult. apply Rmult_le_compat_l. apply Rabs_pos.
  apply abs_bound in He, He1. pose proof u_small. pose proof u_pos.
  apply Rabs_le. split; nra.
Qed.

Lemma convert_to_time_R n : (Z.abs n <= 2 ^ 50)%Z -> Rabs (fmul (to_time n) from_double - IZR n) < 1 / 2.
Proof.
  intros H. destruct (Z.eq_dec n 0) as [->|N].
  { unfold to_time, of_int, fmul. rewrite fl_0, Rmult_0_l, fl_0, Rmult_0_l, fl_0. rewrite Rminus_0_r, Rabs_R0. lra. }
  destruct (to_time_spec n) as (e & He & E). lia.
  destruct from_double_spec as (e1 & He1 & E1).
  pose proof to_double_bounds as B.
  assert (P : to_time n * from_double = IZR n * ((1 + e) * (1 + e1))). { rewrite E, E1. field. lra. }
  apply abs_bound in He, He1. pose proof u_small. pose proof u_pos.
  assert (1 <= Rabs (IZR n)). { rewrite <- abs_IZR. apply IZR_le. lia. }
  assert (Q : / 2 <= (1 + e) * (1 + e1)) by nra.
  destruct (fl_rel (to_time n * from_double)) as (e2 & He2 & E2).
  - rewrite P, Rabs_mult, (Rabs_pos_eq ((1 + e) * (1 + e1))) by lra. pose proof tiny_small. nra.
  - unfold fmul at 1. rewrite E2, P. apply abs_bound in He2.
    replace (IZR n * ((1 + e) * (1 + e1)) * (1 + e2) - IZR n) with (IZR n * ((1 + e) * (1 + e1) * (1 + e2) - 1)) by ring.
    rewrite Rabs_mult.
    assert (Rabs (IZR n) <= IZR (2 ^ 50)). { rewrite <- abs_IZR. apply IZR_le. lia. }
    assert (Rabs ((1 + e) * (1 + e1) * (1 + e2) - 1) <= 3.5 * u).
    { assert (X : Rabs ((1 + e) * (1 + e1) - 1) <= 2.1 * u).
      { replace ((1 + e) * (1 + e1) - 1) with (e + e1 + e * e1) by ring. apply Rabs_le. split; nra. }
      apply Rabs_le_inv in X. set (q := (1 + e) * (1 + e1)) in *. apply Rabs_le. split; nra. }
    apply Rle_lt_trans with (IZR (2 ^ 50) * (3.5 * u)).
    + apply Rmult_le_compat; auto using Rabs_pos.
    + unfold u. replace (2 ^ 53) with (8 * IZR (2 ^ 50)).
      * assert (0 < IZR (2 ^ 50)) by (apply IZR_lt; lia). rewrite Rinv_mult.
        replace (IZR (2 ^ 50) * (3.5 * (/ 8 * / IZR (2 ^ 50)))) with (3.5 / 8) by (field; lra). lra.
      * rewrite <- mult_IZR. symmetry. exact (pow_IZR 2 53).
Qed.

Lemma convert_to_time n : (Z.abs n <= 2 ^ 50)%Z -> convert_to (to_time n) = Ok n.
Proof.
  intros H. unfold convert_to.
  assert (E : cround (fmul (to_time n) from_double) = n).
  { unfold cround. apply Znearest_imp. pose proof (convert_to_time_R n H). lra. }
  rewrite E. replace (in_i64 n) with true; auto. symmetry. unfold in_i64, INT64_MIN, INT64_MAX. lia.
Qed.

Lemma from_double_pos : 0 < from_double.
Proof.
  destruct from_double_spec as (e & He & ->). pose proof to_double_bounds as B.
  apply abs_bound in He. pose proof u_small. apply Rmult_lt_0_compat; [|lra]. apply Rinv_0_lt_compat. lra.
Qed.
Lemma to_time_mono a b : (a <= b)%Z -> to_time a <= to_time b.
Proof.
  intros. unfold to_time, fmul, of_int. apply fl_mono. apply Rmult_le_compat_r.
  pose proof to_double_bounds; lra. apply fl_mono. now apply IZR_le.
Qed.
Lemma to_time_inj a b : (Z.abs a <= 2 ^ 50)%Z -> (Z.abs b <= 2 ^ 50)%Z -> to_time a = to_time b -> a = b.
Proof.
  intros Ha Hb E. pose proof (convert_to_time a Ha) as A. rewrite E, convert_to_time in A by auto. congruence.
Qed.
Lemma to_time_strict a b : (Z.abs a <= 2 ^ 50)%Z -> (Z.abs b <= 2 ^ 50)%Z -> (a < b)%Z -> to_time a < to_time b.
Proof.
  intros Ha Hb L. destruct (to_time_mono a b) as [|E]; auto. lia. apply to_time_inj in E; lia.
Qed.

(** ** Ticking *)
From Verif Require Import ClockSpec.
Open Scope Z_scope.

Lemma counter_incr_spec c : INT64_MIN <= c <= INT64_MAX ->
  counter_incr c = if c <? INT64_MAX - 1 then Ok (c + 1) else Throw E_overflow.
Proof.
  intros H. unfold counter_incr, sint64, in_i64. unfold INT64_MIN, INT64_MAX in *.
  destruct (Z.leb_spec (2 ^ 63 - 1 - 1) c); destruct (Z.ltb_spec c (2 ^ 63 - 1 - 1)); try lia; auto.
  replace ((- 2 ^ 63 <=? c + 1) && (c + 1 <=? 2 ^ 63 - 1)) with true; auto. symmetry. lia.
Qed.

Lemma ticks_spec n c : 0 <= u_counter c -> u_counter c + Z.of_nat n < INT64_MAX ->
  ticks n c = Ok (UClock (u_counter c + Z.of_nat n) (u_dt c) (u_reset c) (u_end c)).
Proof.
  revert c; induction n as [|n IH]; intros [k d r e] H L; cbn [ticks u_counter u_dt u_reset u_end] in *.
  - now rewrite Z.add_0_r.
  - unfold tick. cbn [u_counter u_dt u_reset u_end].
    rewrite counter_incr_spec by (unfold INT64_MIN, INT64_MAX in *; lia).
    replace (k <? INT64_MAX - 1) with true by lia. cbn [rbind].
    rewrite IH; cbn [u_counter u_dt u_reset u_end]; [|lia|lia]. do 2 f_equal. lia.
Qed.

Lemma sint64_ok n : Z.abs n <= 2 ^ 62 -> sint64 n = Ok n.
Proof.
  intros. unfold sint64, in_i64, INT64_MIN, INT64_MAX. replace ((- 2 ^ 63 <=? n) && (n <=? 2 ^ 63 - 1)) with true; auto. symmetry. lia.
Qed.

(** what the clock shows at counter [k] when the present internal time is in range *)
Lemma current_at k d r e : Z.abs r <= 2 ^ 49 -> Z.abs e <= 2 ^ 49 -> 0 <= d * k -> Z.abs (r + d * k) <= 2 ^ 50 ->
  current_time (UClock k d r e) = Ok (to_time (Z.min (r + d * k) e)).
Proof.
  intros R E D P. unfold current_time, present_internal_time, present_units. cbn [u_counter u_dt u_reset u_end].
  rewrite sint64_ok by lia. cbn [rbind]. rewrite sint64_ok by lia. cbn [rbind].
  rewrite convert_to_time by lia. cbn [rbind]. destruct (Z.ltb_spec e (r + d * k)); do 2 f_equal; lia.
Qed.
Lemma duration_at k d r e : Z.abs r <= 2 ^ 49 -> Z.abs e <= 2 ^ 49 -> 0 < d <= 2 ^ 49 -> 0 <= d * k -> Z.abs (r + d * k) <= 2 ^ 50 ->
  timestep_duration (UClock k d r e) = Ok (to_time (Z.min (r + d * (k + 1)) e - Z.min (r + d * k) e)).
Proof.
  intros R E D0 D P. unfold timestep_duration, present_internal_time, present_units. cbn [u_counter u_dt u_reset u_end].
  rewrite sint64_ok by lia. cbn [rbind]. rewrite sint64_ok by lia. cbn [rbind].
  rewrite convert_to_time by lia. cbn [rbind].
  replace (d * (k + 1)) with (d * k + d) by ring. set (m := d * k) in *.
  destruct (Z.ltb_spec e (r + m)).
  - replace (Z.min (r + (m + d)) e - Z.min (r + m) e) with 0 by lia.
    unfold to_time, of_int, fmul. now rewrite fl_0, Rmult_0_l, fl_0.
  - rewrite sint64_ok by lia. cbn [rbind]. destruct (Z.ltb_spec e (r + m + d)).
    + rewrite sint64_ok by lia. cbn [rbind]. do 2 f_equal. lia.
    + do 2 f_equal. lia.
Qed.
Lemma next_at k d r e : Z.abs r <= 2 ^ 49 -> Z.abs e <= 2 ^ 49 -> 0 < d <= 2 ^ 49 -> 0 <= d * k -> 0 <= k <= 2 ^ 51 -> Z.abs (r + d * k) <= 2 ^ 50 ->
  next_time (UClock k d r e) = Ok (to_time (Z.min (r + d * (k + 1)) e)).
Proof.
  intros R E D0 D K P. unfold next_time. cbn [u_counter u_dt u_reset u_end].
  rewrite (Z.mul_comm k d).
  rewrite sint64_ok by lia. cbn [rbind]. unfold sint64 at 1.
  replace (in_i64 (INT64_MAX - d)) with true by (unfold in_i64, INT64_MAX, INT64_MIN; lia). cbn [rbind].
  replace (INT64_MAX - d <=? d * k) with false by (unfold INT64_MAX; lia).
  rewrite (sint64_ok (k + 1)) by lia. cbn [rbind]. replace (d * (k + 1)) with (d * k + d) by ring.
  rewrite sint64_ok by lia. cbn [rbind]. rewrite sint64_ok by lia. cbn [rbind].
  destruct (Z.ltb_spec e (r + (d * k + d))); do 2 f_equal; lia.
Qed.

(** number of steps from [r] to [e] *)
Definition steps_needed (d r e : Z) : Z := (e - r + d - 1) / d.
Lemma steps_needed_spec d r e : 0 < d -> r < e ->
  let n := steps_needed d r e in 1 <= n /\ r + d * (n - 1) < e <= r + d * n.
Proof.
  intros D L n. unfold n, steps_needed.
  pose proof (Z.div_mod (e - r + d - 1) d ltac:(lia)) as Q. pose proof (Z.mod_pos_bound (e - r + d - 1) d D).
  set (q := (e - r + d - 1) / d) in *. clearbody q. nia.
Qed.

Lemma shows_at k d r e : moderate r -> moderate e -> 0 < d <= 2 ^ 49 -> r < e -> 0 <= k <= steps_needed d r e ->
  shows (UClock k d r e) (to_time (Z.min (r + d * k) e)) (to_time (Z.min (r + d * (k + 1)) e))
        (to_time (Z.min (r + d * (k + 1)) e - Z.min (r + d * k) e)).
Proof.
  unfold moderate. intros R E D L K. destruct (steps_needed_spec d r e) as (N1 & N2 & N3); [lia|lia|].
  set (n := steps_needed d r e) in *. clearbody n.
  assert (A : d * k <= d * n) by nia. assert (B : 0 <= d * k) by nia. assert (C : d * (n - 1) = d * n - d) by ring.
  assert (K' : 0 <= k <= 2 ^ 51) by nia.
  unfold shows; splits.
  - apply current_at; lia.
  - apply next_at; lia.
  - apply duration_at; lia.
Qed.

Lemma zsum_telescope f n : zsum (map (fun i => f (S i) - f i) (seq 0 n)) = f n - f 0%nat.
Proof.
  enough (G : forall a, zsum (map (fun i => f (S i) - f i) (seq a n)) = f (a + n)%nat - f a) by apply (G 0%nat).
  induction n; intros; cbn [seq map zsum].
  - replace (a + 0)%nat with a by lia. lia.
  - rewrite IHn. replace (S a + n)%nat with (a + S n)%nat by lia. lia.
Qed.

(** ** Custom clock *)
Lemma insert_perm x l : Permutation (insert_time x l) (x :: l).
Proof.
  induction l as [|y t IH]; cbn; auto. destruct (Rle_bool x y); auto.
  rewrite IH. apply perm_swap.
Qed.
Lemma sort_perm l : Permutation (sort_times l) l.
Proof. induction l; cbn; auto. now rewrite insert_perm, IHl. Qed.
Lemma insert_sorted x l : StronglySorted Rle l -> StronglySorted Rle (insert_time x l).
Proof.
  induction l as [|y t IH]; cbn; intros H.
  - repeat constructor.
  - inversion H; subst. destruct (Rle_bool_spec x y).
    + constructor; auto. constructor; auto. eapply Forall_impl; [|eassumption]. intros; cbn in *; lra.
    + constructor; auto. eapply Permutation_Forall. symmetry; apply insert_perm. constructor; auto. lra.
Qed.
Lemma sort_sorted l : StronglySorted Rle (sort_times l).
Proof. induction l; cbn. constructor. now apply insert_sorted. Qed.
Lemma filter_sorted p l : StronglySorted Rle l -> StronglySorted Rle (filter p l).
Proof.
  induction 1; cbn. constructor. destruct (p a); auto. constructor; auto.
  rewrite Forall_forall in *. intros y Hy. apply filter_In in Hy. apply H0. tauto.
Qed.
Lemma filter_perm {A} (p : A -> bool) l l' : Permutation l l' -> Permutation (filter p l) (filter p l').
Proof.
  induction 1; cbn; auto.
  - destruct (p x); auto.
  - destruct (p x), (p y); auto. constructor.
  - etransitivity; eauto.
Qed.
Lemma filter_filter {A} (p q : A -> bool) l : filter p (filter q l) = filter (fun x => q x && p x) l.
Proof.
  induction l; cbn; auto. destruct (q a); cbn; rewrite ?IHl; auto.
Qed.

Lemma c_ticks_spec n c : -1 <= c_counter c -> c_counter c + Z.of_nat n < INT64_MAX ->
  c_ticks n c = Ok (CClock (c_counter c + Z.of_nat n) (c_times c) (c_start c)).
Proof.
  revert c; induction n as [|n IH]; intros [k l s] H L; cbn [c_ticks c_counter c_times c_start] in *.
  - now rewrite Z.add_0_r.
  - unfold c_tick. cbn [c_counter c_times c_start].
    rewrite counter_incr_spec by (unfold INT64_MIN, INT64_MAX in *; lia).
    replace (k <? INT64_MAX - 1) with true by lia. cbn [rbind].
    rewrite IH; cbn [c_counter c_times c_start]; [|lia|lia]. do 2 f_equal. lia.
Qed.
