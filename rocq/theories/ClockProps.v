(** C13-C16: the clocks. *)
From Coq Require Import ZArith Reals List Bool Lia Lra Psatz Sorting.Permutation Sorting.Sorted.
From Flocq Require Import Core.
From Verif Require Import Base Flt ClockModel ClockSpec ClockProofs ClockMore.
Import ListNotations.
Open Scope R_scope.

(** * C13 *)

(** The reported times mean what they say: [to_time n] is n micro-fm up to 3 rounding
    units. *)
Theorem reported_time_accurate n : (Z.abs n <= 2 ^ 53)%Z ->
  Rabs (to_time n - IZR n / 1000000) <= Rabs (IZR n / 1000000) * (3 / 2 ^ 53).
Proof. intros. exact (to_time_accurate n H). Qed.
Print Assumptions reported_time_accurate.

(** Every sensible start/step/end is accepted. *)
Theorem uniform_clock_accepts start dt fin :
  Rabs start <= 500000000 -> Rabs fin <= 500000000 -> 0 < dt <= 500000000 -> start + 2 / 1000000 <= fin ->
  exists c, make_uclock start dt fin = Ok c.
Proof.
  intros S F D L. unfold make_uclock.
  destruct (convert_to_spec dt) as (d & -> & Hd & Ed). { rewrite Rabs_pos_eq; lra. }
  destruct (convert_to_spec start) as (s & -> & Hs & Es); auto.
  destruct (convert_to_spec fin) as (e & -> & He & Ee); auto. cbn [rbind].
  rewrite Rle_bool_false by lra.
  apply Rabs_le_inv in Es, Ee.
  assert (s < e)%Z by (apply lt_IZR; lra).
  replace (e <=? s)%Z with false by lia. eauto.
Qed.
Print Assumptions uniform_clock_accepts.

(** A non-positive step or a run that does not end after its start is rejected. *)
Theorem uniform_clock_rejects start dt fin :
  Rabs start <= 500000000 -> Rabs fin <= 500000000 -> Rabs dt <= 500000000 -> dt <= 0 \/ fin <= start ->
  make_uclock start dt fin = Throw E_range.
Proof.
  intros S F D H. unfold make_uclock.
  destruct (convert_to_spec dt D) as (d & -> & _).
  destruct (convert_to_spec start S) as (s & Es & _). destruct (convert_to_spec fin F) as (e & Ee & _).
  rewrite Es, Ee. cbn [rbind]. destruct (Rle_bool_spec dt 0); auto. destruct H as [H|H]; [lra|].
  replace (e <=? s)%Z with true; auto. symmetry. apply Z.leb_le.
  unfold convert_to in Es, Ee. destruct (in_i64 (cround (fmul start from_double))); [|discriminate].
  destruct (in_i64 (cround (fmul fin from_double))); [|discriminate].
  assert (A : s = cround (fmul start from_double)) by congruence. assert (B : e = cround (fmul fin from_double)) by congruence.
  subst s e. apply Znearest_le. apply fl_mono. apply Rmult_le_compat_r; auto. left; apply from_double_pos.
Qed.
Print Assumptions uniform_clock_rejects.

(** From the first tick to the end: there is a number N of steps and times t(0..N) in
    micro-fm, starting at the start time and ending at the end time (both to better than
    one micro-fm), such that before tick i the clock shows time t(i), next time t(i+1)
    and duration t(i+1)-t(i) > 0, all durations but the last are the requested step, the
    last one is not longer, the durations add up to end minus start, and the times
    shown, as doubles, increase strictly up to the end time and never beyond. *)
Theorem uniform_clock_partitions_run start dt fin c :
  Rabs start <= 500000000 -> Rabs fin <= 500000000 -> / 1000000 <= dt <= 500000000 ->
  make_uclock start dt fin = Ok c ->
  exists (N : nat) (t : nat -> Z) (step : Z),
    (1 <= N)%nat /\
    Rabs (start - IZR (t 0%nat) / 1000000) < / 1000000 /\
    Rabs (fin - IZR (t N) / 1000000) < / 1000000 /\
    Rabs (dt - IZR step / 1000000) < / 1000000 /\
    (forall i, (i <= N)%nat -> exists ci, ticks i c = Ok ci /\ current_time ci = Ok (to_time (t i)) /\
       to_time (t i) <= to_time (t N) /\
       ((i < N)%nat ->
          next_time ci = Ok (to_time (t (S i))) /\
          timestep_duration ci = Ok (to_time (t (S i) - t i)) /\
          to_time (t i) < to_time (t (S i)) /\
          (0 < t (S i) - t i <= step)%Z /\
          ((S i < N)%nat -> (t (S i) - t i = step)%Z))) /\
    zsum (map (fun i => (t (S i) - t i)%Z) (seq 0 N)) = (t N - t 0%nat)%Z.
Proof.
  intros S F D. unfold make_uclock.
  destruct (convert_to_spec dt) as (d & Cd & Hd & Ed). { rewrite Rabs_pos_eq; lra. }
  destruct (convert_to_spec start) as (s & -> & Hs & Es); auto.
  destruct (convert_to_spec fin) as (e & -> & He & Ee); auto.
  pose proof (convert_to_pos dt d ltac:(lra) Cd) as Pd.
  rewrite Cd. cbn [rbind]. rewrite Rle_bool_false by lra.
  destruct (Z.leb_spec e s) as [|L]; [discriminate|]. intros [= <-].
  destruct (steps_needed_spec d s e ltac:(lia) L) as (N1 & N2 & N3).
  set (n := steps_needed d s e) in *.
  exists (Z.to_nat n), (fun i => Z.min (s + d * Z.of_nat i) e), d.
  assert (En : Z.min (s + d * Z.of_nat (Z.to_nat n)) e = e) by lia.
  assert (E0 : Z.min (s + d * Z.of_nat 0) e = s) by lia.
  splits.
  - lia.
  - rewrite E0. lra.
  - rewrite En. lra.
  - lra.
  - intros i Hi. assert (Ki : (0 <= Z.of_nat i <= n)%Z) by lia.
    exists (UClock (Z.of_nat i) d s e).
    assert (nd : (n < 2 ^ 51)%Z) by nia.
    rewrite ticks_spec; cbn [u_counter u_dt u_reset u_end]; [|lia|unfold INT64_MAX; lia].
    destruct (shows_at (Z.of_nat i) d s e) as (A & B & C); unfold moderate; try lia.
    splits; auto.
    + rewrite En. apply to_time_mono. lia.
    + intros Hi'. replace (Z.of_nat (Datatypes.S i)) with (Z.of_nat i + 1)%Z by lia.
      assert (Mi : (d * Z.of_nat i <= d * (n - 1))%Z) by nia.
      assert (P0 : (0 <= d * Z.of_nat i)%Z) by nia.
      replace (d * (Z.of_nat i + 1))%Z with (d * Z.of_nat i + d)%Z in * by ring.
      set (m := (d * Z.of_nat i)%Z) in *.
      splits; auto; try lia.
      * apply to_time_strict; lia.
      * intros Hi''. assert (Mi2 : (m + d <= d * (n - 1))%Z) by (subst m; nia). lia.
  - apply (zsum_telescope (fun i => Z.min (s + d * Z.of_nat i) e)).
Qed.
Print Assumptions uniform_clock_partitions_run.

(** The hypotheses are met by start 0, step 0.5, end 1.25 (which is not a multiple). *)
Example uniform_clock_partitions_run_ex : exists c, make_uclock 0 (1/2) (5/4) = Ok c.
Proof. apply uniform_clock_accepts; try (rewrite Rabs_pos_eq); lra. Qed.

(** Finding: the constructor accepts a positive step below half a micro-fm, and such a
    clock never advances, however often it is ticked. *)
Theorem tiny_step_never_advances_refuted : forall dt, 0 < dt <= 4 / 10000000 ->
  exists c, make_uclock 0 dt 1 = Ok c /\
  forall n c', (Z.of_nat n < 2 ^ 62)%Z -> ticks n c = Ok c' -> current_time c' = Ok 0.
Proof.
  intros dt D. exists (UClock 0 0 0 1000000). split.
  - unfold make_uclock. rewrite (convert_to_tiny dt) by lra. rewrite (convert_to_tiny 0) by lra.
    replace (convert_to 1) with (Ok (A := Z) 1000000%Z).
    + cbn [rbind]. rewrite Rle_bool_false by lra. reflexivity.
    + unfold convert_to, fmul. rewrite from_double_exact.
      replace (fl (1 * 1000000)) with (IZR 1000000). unfold cround. now rewrite Znearest_IZR.
      rewrite fl_id. lra. rewrite Rmult_1_l. apply (int_double 1000000). lia.
  - intros n c' Hn. rewrite ticks_spec; cbn [u_counter u_dt u_reset u_end]; [|lia|unfold INT64_MAX; lia].
    intros [= <-]. rewrite current_at by lia. cbn [Z.mul]. replace (Z.min (0 + 0) 1000000) with 0%Z by lia.
    unfold to_time, of_int, fmul. now rewrite fl_0, Rmult_0_l, fl_0.
Qed.
Print Assumptions tiny_step_never_advances_refuted.

(** * C14 *)
Open Scope Z_scope.

(** ++ : for every 64-bit counter, either the exact successor or overflow_error. *)
Theorem tick_exact_or_throws c : (INT64_MIN <= u_counter c <= INT64_MAX) ->
  (u_counter c < INT64_MAX - 1 /\
     tick c = Ok (UClock (u_counter c + 1) (u_dt c) (u_reset c) (u_end c))) \/
  (INT64_MAX - 1 <= u_counter c /\ tick c = Throw E_overflow).
Proof.
  intros H. unfold tick. rewrite counter_incr_spec by auto.
  destruct (Z.ltb_spec (u_counter c) (INT64_MAX - 1)); [left|right]; auto.
Qed.
Print Assumptions tick_exact_or_throws.
(** += n with n >= 0: the exact sum (below the maximum) or overflow_error. *)
Theorem tick_n_exact_or_throws c n : (INT64_MIN <= u_counter c <= INT64_MAX) -> (0 <= n <= INT64_MAX) ->
  (u_counter c + n < INT64_MAX /\
     tick_n c n = Ok (UClock (u_counter c + n) (u_dt c) (u_reset c) (u_end c))) \/
  (INT64_MAX <= u_counter c + n /\ tick_n c n = Throw E_overflow).
Proof.
  intros H Hn. unfold tick_n, counter_add, sint64.
  replace (in_i64 (INT64_MAX - n)) with true by (unfold in_i64, INT64_MIN, INT64_MAX in *; lia).
  cbn [rbind]. destruct (Z.leb_spec (INT64_MAX - n) (u_counter c)).
  - right. split; [lia|reflexivity].
  - left. split. lia. replace (in_i64 (u_counter c + n)) with true by (unfold in_i64, INT64_MIN, INT64_MAX in *; lia).
    reflexivity.
Qed.
Print Assumptions tick_n_exact_or_throws.
Example tick_n_ex : tick_n (UClock 5 1 0 10) 7 = Ok (UClock 12 1 0 10) /\
  tick_n (UClock (INT64_MAX - 7) 1 0 10) 7 = Throw E_overflow /\
  tick (UClock (INT64_MAX - 1) 1 0 10) = Throw E_overflow.
Proof. repeat split. Qed.
(** Finding: with a negative n the guard itself overflows. *)
Theorem tick_back_guard_overflows_refuted c n : INT64_MIN < n < 0 -> tick_n c n = UB UB_signed_overflow.
Proof.
  intros H. unfold tick_n, counter_add, sint64. replace (in_i64 (INT64_MAX - n)) with false. reflexivity.
  symmetry. unfold in_i64, INT64_MIN, INT64_MAX in *. lia.
Qed.
Print Assumptions tick_back_guard_overflows_refuted.

(** next_time: whenever it returns, the value is the true (unbounded-integer) next time
    cut at the end time, and the counter really was one tick away from it. *)
Theorem next_time_never_wraps c t : next_time c = Ok t ->
  t = to_time (Z.min (u_reset c + u_dt c * (u_counter c + 1)) (u_end c)).
Proof.
  unfold next_time, sint64.
  destruct (in_i64 (u_counter c * u_dt c)); [|discriminate]. cbn [rbind].
  destruct (in_i64 (INT64_MAX - u_dt c)); [|discriminate]. cbn [rbind].
  destruct (_ <=? _); [discriminate|].
  destruct (in_i64 (u_counter c + 1)); [|discriminate]. cbn [rbind].
  destruct (in_i64 (u_dt c * (u_counter c + 1))); [|discriminate]. cbn [rbind].
  destruct (in_i64 (u_reset c + u_dt c * (u_counter c + 1))); [|discriminate]. cbn [rbind].
  destruct (Z.ltb_spec (u_end c) (u_reset c + u_dt c * (u_counter c + 1))); intros [= <-]; f_equal; lia.
Qed.
Print Assumptions next_time_never_wraps.
(** It is defined (returns or throws) as long as the elapsed time fits in 62 bits. *)
Theorem next_time_defined c : Z.abs (u_reset c) <= 2 ^ 61 -> 0 <= u_counter c < INT64_MAX -> 0 <= u_dt c <= 2 ^ 61 ->
  u_counter c * u_dt c <= 2 ^ 61 -> exists t, next_time c = Ok t.
Proof.
  intros R K D P. unfold next_time, sint64. unfold INT64_MAX in K.
  assert (0 <= u_counter c * u_dt c) by nia. assert (0 <= u_dt c * (u_counter c + 1) <= 2 ^ 61 + 2 ^ 61) by nia.
  repeat match goal with |- context [in_i64 ?x] => replace (in_i64 x) with true by (unfold in_i64, INT64_MIN, INT64_MAX; lia); cbn [rbind] end.
  replace (INT64_MAX - u_dt c <=? u_counter c * u_dt c) with false by (unfold INT64_MAX; lia).
  repeat match goal with |- context [in_i64 ?x] => replace (in_i64 x) with true by (unfold in_i64, INT64_MIN, INT64_MAX; lia); cbn [rbind] end.
  match goal with |- context [if ?b then _ else _] => destruct b end; eauto.
Qed.
Print Assumptions next_time_defined.
Example next_time_defined_ex : next_time (UClock 3 1000000 0 10000000) = Ok (to_time 4000000).
Proof. reflexivity. Qed.

(** Finding: the overflow guard of next_time can itself overflow (product), and does not
    look at the reset time (sum).  The first clock is UniformClock(0, 2^42 fm, 1 fm) up to
    rounding of the step, ticked twice. *)
Theorem next_time_guard_overflows_refuted :
  next_time (UClock 2 (2 ^ 62) 0 1000000) = UB UB_signed_overflow /\
  next_time (UClock 0 (2 ^ 62) (2 ^ 62) INT64_MAX) = UB UB_signed_overflow.
Proof. split; reflexivity. Qed.
Print Assumptions next_time_guard_overflows_refuted.

(** * C15 *)

(** Changing the step: same current time, and later ticks are spaced by the new step. *)
Theorem set_timestep_keeps_time c dt c' : set_timestep_duration c dt = Ok c' ->
  current_time c' = current_time c /\
  (moderate (u_reset c') -> moderate (u_end c') -> forall d, convert_to dt = Ok d -> forall n,
     0 <= d * Z.of_nat n -> Z.abs (u_reset c' + d * Z.of_nat n) <= 2 ^ 50 -> Z.of_nat n < INT64_MAX ->
     exists cn, ticks n c' = Ok cn /\
       current_time cn = Ok (to_time (Z.min (u_reset c' + d * Z.of_nat n) (u_end c)))).
Proof.
  unfold set_timestep_duration. destruct (Rle_bool dt 0); [discriminate|].
  destruct (sint64 (u_dt c * u_counter c)) as [m| |] eqn:M; cbn [rbind]; try discriminate.
  destruct (sint64 (u_reset c + m)) as [r| |] eqn:R; cbn [rbind]; try discriminate.
  destruct (convert_to dt) as [d| |] eqn:D; cbn [rbind]; try discriminate. intros [= <-].
  cbn [u_counter u_dt u_reset u_end]. split.
  - unfold current_time, present_internal_time, present_units. cbn [u_counter u_dt u_reset u_end].
    rewrite M. cbn [rbind]. rewrite R. cbn [rbind]. rewrite Z.mul_0_r.
    change (sint64 0) with (Ok (A := Z) 0). cbn [rbind]. rewrite Z.add_0_r.
    assert (R' : sint64 r = Ok r).
    { unfold sint64 in R |- *. destruct (in_i64 (u_reset c + m)) eqn:I; [|discriminate]. injection R as <-. now rewrite I. }
    now rewrite R'.
  - intros Hr He d' [= <-] n P A N. unfold moderate in *.
    rewrite ticks_spec; cbn [u_counter u_dt u_reset u_end]; [|lia|lia].
    eexists; split; [reflexivity|]. rewrite Z.add_0_l. apply current_at; auto.
Qed.
Print Assumptions set_timestep_keeps_time.
(** It fails only for a non-positive step (range_error) or out of the internal range. *)
Theorem set_timestep_succeeds c dt : (0 < dt <= 500000000)%R ->
  Z.abs (u_dt c * u_counter c) <= 2 ^ 61 -> Z.abs (u_reset c) <= 2 ^ 61 ->
  exists c', set_timestep_duration c dt = Ok c'.
Proof.
  intros D A B. unfold set_timestep_duration. rewrite Rle_bool_false by lra.
  rewrite sint64_ok by lia. cbn [rbind]. rewrite sint64_ok by lia. cbn [rbind].
  destruct (convert_to_spec dt) as (d & -> & _). { rewrite Rabs_pos_eq; lra. } cbn [rbind]. eauto.
Qed.
Theorem set_timestep_rejects c dt : (dt <= 0)%R -> set_timestep_duration c dt = Throw E_range.
Proof. intros. unfold set_timestep_duration. now rewrite Rle_bool_true. Qed.
Print Assumptions set_timestep_succeeds.
Example set_timestep_ex : exists c', set_timestep_duration (UClock 3 1000000 0 10000000) (1/2) = Ok c'.
Proof. apply set_timestep_succeeds; cbn [u_dt u_counter u_reset]; try lia. lra. Qed.

(** Simulation clock: reset(t) puts the clock at t, with no ticks made, if t is a time
    the clock can show (a multiple of a micro-fm) not after the end. *)
Theorem reset_restarts_at c n c' : Z.abs n <= 2 ^ 49 -> moderate (u_end c) -> n <= u_end c ->
  reset c (to_time n) false = Ok c' ->
  current_time c' = Ok (to_time n) /\ u_counter c' = 0 /\ u_dt c' = u_dt c /\ u_end c' = u_end c.
Proof.
  intros A E L. unfold reset. cbn [reset_target rbind].
  destruct (current_time c); try discriminate. cbn [rbind].
  rewrite convert_to_time by lia. cbn [rbind]. intros [= <-]. cbn [u_counter u_dt u_reset u_end].
  splits; auto. unfold moderate in *. rewrite current_at by lia. rewrite Z.mul_0_r, Z.add_0_r. do 2 f_equal. lia.
Qed.
Print Assumptions reset_restarts_at.
(** For any other t it restarts within a micro-fm of t. *)
Theorem reset_restarts_near c t c' : (Rabs t <= 500000000)%R -> moderate (u_end c) ->
  reset c t false = Ok c' -> exists n, (Rabs (t - IZR n / 1000000) < / 1000000)%R /\
  current_time c' = Ok (to_time (Z.min n (u_end c))) /\ u_counter c' = 0.
Proof.
  intros A E. unfold reset. cbn [reset_target rbind].
  destruct (current_time c); try discriminate. cbn [rbind].
  destruct (convert_to_spec t A) as (n & -> & B & C). cbn [rbind]. intros [= <-]. cbn [u_counter u_dt u_reset u_end].
  exists n. splits; auto. lra. unfold moderate in *. rewrite current_at by lia. rewrite Z.mul_0_r, Z.add_0_r. reflexivity.
Qed.
Print Assumptions reset_restarts_near.

(** Output clock: it restarts at the k-th multiple of the interval D, where k is the
    largest integer with k*D <= t -- unless t is within two rounding errors below a
    multiple, see the finding after this theorem. *)
Theorem output_reset_at_multiple_partial c t k c' :
  0 < u_dt c <= 2 ^ 49 -> Z.abs (k * u_dt c) <= 2 ^ 49 -> moderate (u_end c) ->
  let D := to_time (u_dt c) in
  (IZR k * D <= t)%R -> (t + Rabs t * / 2 ^ 53 < (IZR k + 1) * D)%R -> (/ 2 ^ 900 <= Rabs t \/ t = 0)%R ->
  reset c t true = Ok c' ->
  u_counter c' = 0 /\ current_time c' = Ok (to_time (Z.min (k * u_dt c) (u_end c))).
Proof.
  intros Dd Kd E D L U T.
  assert (DP : (0 < D)%R). { unfold D. replace 0%R with (to_time 0). apply to_time_strict; lia. unfold to_time, of_int, fmul. now rewrite fl_0, Rmult_0_l, fl_0. }
  unfold reset, reset_target. fold D. rewrite Req_bool_false by lra. cbn [rbind].
  destruct (current_time c); try discriminate. cbn [rbind].
  assert (F : cfloor (fdiv t D) = k).
  { unfold fdiv. apply floor_fl.
    - nia.
    - apply Rmult_le_reg_r with D; auto. unfold Rdiv. rewrite Rmult_assoc, Rinv_l, Rmult_1_r; lra.
    - unfold Rdiv. rewrite Rabs_mult, (Rabs_pos_eq (/ D)) by (left; now apply Rinv_0_lt_compat).
      apply Rmult_lt_reg_r with D; auto. unfold u.
      replace ((t * / D + Rabs t * / D * / 2 ^ 53) * D)%R with (t + Rabs t * / 2 ^ 53)%R by (generalize (/ 2 ^ 53)%R; intros; field; lra).
      lra.
    - destruct T as [T|T].
      + left. unfold Rdiv. rewrite Rabs_mult, (Rabs_pos_eq (/ D)) by (left; now apply Rinv_0_lt_compat).
        apply Rle_trans with (/ 2 ^ 900 * / D)%R.
        * assert (DU : (D <= IZR (2 ^ 49))%R).
          { unfold D. destruct (to_time_spec (u_dt c)) as (e & He & ->). lia.
            pose proof to_double_bounds. apply abs_bound in He. pose proof u_small.
            assert (IZR (u_dt c) <= IZR (2 ^ 49))%R by (apply IZR_le; lia).
            assert (0 < IZR (u_dt c))%R by (apply IZR_lt; lia).
            apply Rle_trans with (IZR (2 ^ 49) * (/ 999999 * 2))%R.
            - rewrite Rmult_assoc. apply Rmult_le_compat; try lra. apply Rmult_le_pos; lra. apply Rmult_le_compat; lra.
            - lra. }
          rewrite <- Rinv_mult. apply Rinv_le_contravar.
          { apply Rmult_lt_0_compat; auto. apply pow_lt; lra. }
          apply Rle_trans with (2 ^ 900 * IZR (2 ^ 49))%R.
          { apply Rmult_le_compat_l; auto. left. apply pow_lt. lra. }
          replace (IZR (2 ^ 49)) with (2 ^ 49)%R by exact (pow_IZR 2 49). rewrite <- pow_add.
          apply Rle_pow; [lra|lia].
        * apply Rmult_le_compat_r; auto. left. now apply Rinv_0_lt_compat.
      + right. subst t. rewrite Rabs_R0, Rmult_0_l, Rplus_0_l in U.
        assert (K1 : (0 < IZR k + 1)%R) by (destruct (Rle_or_lt (IZR k + 1) 0); [nra|auto]).
        assert (K2 : (IZR k <= 0)%R) by (destruct (Rle_or_lt (IZR k) 0); [auto|nra]).
        apply le_IZR in K2. rewrite <- plus_IZR in K1. apply lt_IZR in K1. lia. }
  rewrite F. unfold D. rewrite convert_multiple by lia. cbn [rbind]. intros [= <-].
  cbn [u_counter u_dt u_reset u_end]. split; auto. unfold moderate in *.
  rewrite current_at by lia. now rewrite Z.mul_0_r, Z.add_0_r.
Qed.
Print Assumptions output_reset_at_multiple_partial.

(** The hypotheses are met by t = 2.5, D = 1, k = 2. *)
Example output_reset_ex : let D := to_time 1000000 in
  (IZR 2 * D <= 5/2)%R /\ (5/2 + Rabs (5/2) * / 2 ^ 53 < (IZR 2 + 1) * D)%R /\
  exists c', reset (UClock 0 1000000 0 10000000) (5/2) true = Ok c'.
Proof.
  assert (D1 : to_time 1000000 = 1%R).
  { unfold to_time, fmul. rewrite fl_int by lia. rewrite to_double_exact.
    fl_calc 9007199254740992%Z (-53)%Z. bnorm. lra. }
  assert (F : cfloor (fdiv (5/2) 1) = 2%Z).
  { unfold fdiv. fl_calc 5629499534213120%Z (-51)%Z. unfold cfloor. apply Zfloor_imp. bnorm. rewrite plus_IZR. lra. }
  cbn zeta. rewrite D1. splits.
  - lra.
  - rewrite Rabs_pos_eq by lra. replace (2 ^ 53)%R with 9007199254740992%R by (symmetry; exact (pow_IZR 2 53)). lra.
  - unfold reset, reset_target. cbn [u_dt u_end u_counter u_reset]. rewrite D1. rewrite Req_bool_false by lra.
    cbn [rbind]. rewrite current_at by lia. cbn [rbind]. rewrite F.
    replace (fmul 2 1) with (fmul (IZR 2) (to_time 1000000)) by (now rewrite D1). rewrite convert_multiple by lia. cbn [rbind]. eauto.
Qed.

(** Finding: a run starting at 0.57 fm with output interval 0.19 fm (0.57 = 3 * 0.19)
    resets the output clock to 0.38 fm, one interval early, because 0.57/0.19 rounds to
    2.9999999999999996 (clock.h:325). *)
Theorem output_reset_one_interval_early_refuted :
  exists c c', make_uclock 0 (fl (19/100)) 10 = Ok c /\ reset c (fl (57/100)) true = Ok c' /\
    current_time c' = Ok (to_time 380000) /\ (to_time 570000 <= fl (57/100))%R.
Proof.
  assert (C19 : convert_to (fl (19/100)) = Ok 190000).
  { fl_calc 6845471433603154%Z (-55)%Z. unfold convert_to, fmul. rewrite from_double_exact.
    match goal with |- context [fl ?x] => replace (fl x) with 190000%R end.
    - unfold cround. now rewrite Znearest_IZR.
    - fl_calc 6528350289920000%Z (-35)%Z. bnorm. lra. }
  assert (C0 : convert_to 0 = Ok 0). { apply convert_to_tiny; lra. }
  assert (C10 : convert_to 10 = Ok 10000000).
  { unfold convert_to, fmul. rewrite from_double_exact.
    replace (fl (10 * 1000000)) with (IZR 10000000). unfold cround. now rewrite Znearest_IZR.
    rewrite fl_id. lra. replace (10 * 1000000)%R with (IZR 10000000) by lra. apply (int_double 10000000). lia. }
  exists (UClock 0 190000 0 10000000), (UClock 0 190000 380000 10000000). splits.
  - unfold make_uclock. rewrite C19, C0, C10. cbn [rbind]. rewrite Rle_bool_false. reflexivity.
    fl_calc 6845471433603154%Z (-55)%Z. bnorm. lra.
  - unfold reset, reset_target. cbn [u_dt u_end u_counter u_reset]. rewrite Req_bool_false.
    2:{ rewrite to_time_190000. lra. }
    cbn [rbind]. rewrite current_at by lia. cbn [rbind].
    assert (F : cfloor (fdiv (fl (57/100)) (to_time 190000)) = 2%Z).
    { rewrite to_time_190000. fl_calc 5134103575202365%Z (-53)%Z. unfold fdiv.
      match goal with |- context [fl ?x] => set (q := x) end.
      assert (Q : q = (5134103575202365 * 4 / 6845471433603154)%R). { unfold q. bnorm. field. }
      rewrite Q. fl_calc 6755399441055743%Z (-51)%Z. unfold cfloor. apply Zfloor_imp. bnorm. rewrite plus_IZR. lra. }
    rewrite F. rewrite convert_multiple by lia. reflexivity.
  - rewrite current_at by lia. reflexivity.
  - unfold to_time, fmul. rewrite fl_int by lia. rewrite to_double_exact.
    fl_calc 5134103575202365%Z (-53)%Z. fl_calc 5134103575202365%Z (-53)%Z. lra.
Qed.
Print Assumptions output_reset_one_interval_early_refuted.

(** * C16 *)

(** One event: after reset and removal of past times, the clock shows t0, then the
    listed times after t0 in order, then throws out_of_range. *)
Theorem custom_clock_visits_in_order ts t0 :
  Z.of_nat (length ts) < 2 ^ 60 ->
  let c := c_begin_event (make_cclock ts) t0 in
  exists visited : list R,
    StronglySorted Rle visited /\
    Permutation visited (filter (fun t => negb (Rle_bool t t0)) ts) /\
    c_current_time c = Ok t0 /\
    forall i : nat, Z.of_nat i < 2 ^ 61 ->
      exists ci, c_ticks i c = Ok ci /\
        c_next_time ci = match nth_error visited i with Some t => Ok t | None => Throw E_out_of_range end /\
        forall cj, c_tick ci = Ok cj -> c_current_time cj = c_next_time ci.
Proof.
  intros L c. exists (filter (fun t => negb (Rle_bool t t0)) (sort_times ts)).
  splits.
  - apply filter_sorted, sort_sorted.
  - apply filter_perm, sort_perm.
  - reflexivity.
  - intros i Hi. unfold c, c_begin_event, c_remove_times_in_past, c_reset, make_cclock. cbn [c_times c_counter c_start].
    rewrite c_ticks_spec; cbn [c_times c_counter c_start]; [|lia|unfold INT64_MAX; lia].
    eexists; split; [reflexivity|].
    assert (N : c_next_time (CClock (-1 + Z.of_nat i) (filter (fun t => negb (Rle_bool t t0)) (sort_times ts)) t0) =
      match nth_error (filter (fun t => negb (Rle_bool t t0)) (sort_times ts)) i with Some t => Ok t | None => Throw E_out_of_range end).
    { unfold c_next_time. cbn [c_times c_counter c_start]. rewrite sint64_ok by lia. cbn [rbind]. unfold time_at.
      replace (-1 + Z.of_nat i + 1) with (Z.of_nat i) by lia. replace (Z.of_nat i <? 0) with false by lia. now rewrite Nat2Z.id. }
    split; [exact N|].
    intros cj. unfold c_tick. cbn [c_times c_counter c_start].
    rewrite counter_incr_spec by (unfold INT64_MIN, INT64_MAX; lia).
    replace (-1 + Z.of_nat i <? INT64_MAX - 1) with true by (unfold INT64_MAX; lia). cbn [rbind]. intros Ecj.
    assert (Ecj' : cj = CClock (-1 + Z.of_nat i + 1) (filter (fun t => negb (Rle_bool t t0)) (sort_times ts)) t0) by congruence.
    subst cj. unfold c_current_time, c_next_time. cbn [c_times c_counter c_start].
    rewrite sint64_ok by lia. cbn [rbind].
    replace (-1 + Z.of_nat i + 1 =? -1) with false by lia. replace (-1 + Z.of_nat i + 1 <? -1) with false by lia. reflexivity.
Qed.
Print Assumptions custom_clock_visits_in_order.
Example custom_clock_ex : c_next_time (c_begin_event (make_cclock [3; 1; 2]%R) 1) = Ok 2%R.
Proof.
  unfold make_cclock. cbn [sort_times insert_time].
  rewrite (Rle_bool_true 1 2) by lra. cbn [insert_time]. rewrite (Rle_bool_false 3 1) by lra. rewrite (Rle_bool_false 3 2) by lra.
  unfold c_begin_event, c_remove_times_in_past, c_reset. cbn [c_times c_counter c_start filter].
  rewrite (Rle_bool_true 1 1) by lra. rewrite (Rle_bool_false 2 1) by lra. rewrite (Rle_bool_false 3 1) by lra. reflexivity.
Qed.

(** A clock that was never reset starts at 0 before its first listed time. *)
Theorem custom_clock_fresh ts :
  c_current_time (make_cclock ts) = Ok 0%R /\
  c_next_time (make_cclock ts) =
    match sort_times ts with [] => Throw E_out_of_range | t :: _ => Ok t end.
Proof. split; [reflexivity|]. unfold make_cclock, c_next_time. cbn. now destruct (sort_times ts). Qed.
Print Assumptions custom_clock_fresh.

(** Several events with one clock (as the experiment does): times removed for one event
    stay removed for all later events. *)
Theorem custom_times_after_events ts starts t0 :
  c_times (c_begin_event (fold_left c_begin_event starts (make_cclock ts)) t0) =
  filter (fun t => forallb (fun s => negb (Rle_bool t s)) (starts ++ [t0])) (sort_times ts).
Proof.
  assert (G : forall c, c_times (fold_left c_begin_event starts c) = filter (fun t => forallb (fun s => negb (Rle_bool t s)) starts) (c_times c)).
  { induction starts as [|s l IH]; intros; cbn [fold_left forallb].
    - symmetry. clear. induction (c_times c); cbn; congruence.
    - rewrite IH. unfold c_begin_event at 1, c_remove_times_in_past, c_reset. cbn [c_times]. apply filter_filter. }
  unfold c_begin_event at 1, c_remove_times_in_past, c_reset. cbn [c_times]. rewrite G. unfold make_cclock. cbn [c_times].
  rewrite filter_filter. apply filter_ext. intros t. rewrite forallb_app. cbn [forallb]. now rewrite andb_true_r.
Qed.
Print Assumptions custom_times_after_events.
(** Finding: so a second event starting earlier than the first misses output times. *)
Theorem custom_times_lost_in_later_event_refuted :
  let c := c_begin_event (c_begin_event (make_cclock [1; 10]%R) 5) 0 in
  c_current_time c = Ok 0%R /\ c_next_time c = Ok 10%R /\
  c_next_time (c_begin_event (make_cclock [1; 10]%R) 0) = Ok 1%R.
Proof.
  unfold make_cclock. cbn [sort_times insert_time]. rewrite (Rle_bool_true 1 10) by lra.
  unfold c_begin_event, c_remove_times_in_past, c_reset. cbn [c_times c_counter c_start filter].
  rewrite (Rle_bool_true 1 5), (Rle_bool_false 10 5), (Rle_bool_false 1 0) by lra. cbn [negb].
  cbn [filter]. rewrite (Rle_bool_false 10 0) by lra. cbn [negb]. splits; reflexivity.
Qed.
Print Assumptions custom_times_lost_in_later_event_refuted.
