(** Angular distributions of two-particle scatterings (C125). *)
From Coq Require Import ZArith Reals List Bool Lra Lia Psatz.
From Verif Require Import Base VecModel VecProps KinProps MotionModel FinalProps WoodsSaxon DistProps DistMore ScatModel.
Import ListNotations.
Open Scope R_scope.

(** ** The exponential and power laws *)
(** the probability that one round of the sampler gives a number with the property Q *)
Definition drawn (round : R -> option R) (Q : R -> Prop) (u : R) : Prop := exists x, round u = Some x /\ Q x.
Lemma exp_le a b : a <= b <-> exp a <= exp b.
Proof.
  split; intros H.
  - destruct (Req_dec a b) as [->|N]; [lra|]. left. apply exp_increasing. lra.
  - destruct (Rle_dec a b); auto. exfalso. assert (exp b < exp a) by (apply exp_increasing; lra). lra.
Qed.
Lemma exp_mono a b : a <= b -> exp a <= exp b.
Proof. apply exp_le. Qed.
Lemma exp_back a b : exp a <= exp b -> a <= b.
Proof. apply exp_le. Qed.
Lemma div_le x A y : 0 < A -> (x / A <= y <-> x <= A * y).
Proof.
  intros A0. split; intros H.
  - apply (Rmult_le_compat_r A) in H; [|lra]. unfold Rdiv in H. rewrite Rmult_assoc, Rinv_l in H by lra. lra.
  - apply (Rmult_le_reg_r A); auto. unfold Rdiv. rewrite Rmult_assoc, Rinv_l by lra. lra.
Qed.
Lemma div_lt x A y : 0 < A -> (y < x / A <-> A * y < x).
Proof. intros A0. pose proof (div_le x A y A0). split; intros H1; apply Rnot_le_lt; intros H2; apply H in H2; lra. Qed.
Lemma ln_le_exp r y : 0 < r -> (ln r <= y <-> r <= exp y).
Proof. intros R0. rewrite (exp_le (ln r) y), exp_ln by auto. tauto. Qed.
Lemma lt_ln_exp r y : 0 < r -> (y < ln r <-> exp y < r).
Proof. intros R0. pose proof (ln_le_exp r y R0). split; intros H1; apply Rnot_le_lt; intros H2; apply H in H2; lra. Qed.
Section expo.
  Variables (A hi lo : R).
  Hypothesis (A0 : 0 < A) (LH : lo < hi).
  Let r1 := exp (A * hi).
  Let r2 := if Rlt_dec a_min (A * lo) then exp (A * lo) else 0.
  Lemma r2_range : 0 <= r2 /\ r2 <= exp (A * lo) /\ exp (A * lo) < r1 /\ 0 < r1.
  Proof.
    pose proof (exp_pos (A * lo)). pose proof (exp_pos (A * hi)). assert (exp (A * lo) < r1) by (apply exp_increasing; nra).
    unfold r2. destruct (Rlt_dec _ _); unfold r1 in *; lra.
  Qed.
  Lemma round_cases u : 0 < u < 1 -> let e := r1 + (r2 - r1) * u in 0 < e < r1 /\
    ((exp (A * lo) < e /\ exists x, expo_round A hi lo u = Some x /\ lo < x <= hi /\ exp (A * x) = e) \/ (e <= exp (A * lo) /\ expo_round A hi lo u = None)).
  Proof.
    intros U e. destruct r2_range as (P1 & P2 & P3 & P4).
    assert (E0 : 0 < e) by (unfold e; nra). assert (E1 : e < r1) by (unfold e; nra). split; [lra|].
    unfold expo_round. fold r1 r2. unfold uniform. fold e.
    assert (L1 : ln e / A <= hi) by (apply div_le; auto; apply ln_le_exp; auto; fold r1; lra).
    destruct (Rle_dec _ _); [|lra].
    destruct (Rlt_dec lo (ln e / A)) as [L|L].
    - left. pose proof L as L'. apply div_lt in L'; auto. apply lt_ln_exp in L'; auto. split; auto. exists (ln e / A). splits; auto.
      replace (A * (ln e / A)) with (ln e) by (field; lra). now apply exp_ln.
    - right. split; auto. apply Rnot_lt_le. intros C. apply L. apply div_lt; auto. apply lt_ln_exp; auto.
  Qed.
  (** fraction of the draws below X and above Y *)
  Lemma below X : lo <= X <= hi -> prob1 (drawn (expo_round A hi lo) (fun x => x <= X)) ((exp (A * X) - exp (A * lo)) / (r1 - r2)).
  Proof.
    intros HX. destruct r2_range as (P1 & P2 & P3 & P4). assert (D : 0 < r1 - r2) by lra.
    assert (EX : exp (A * lo) <= exp (A * X) <= r1) by (unfold r1; split; apply exp_mono; nra).
    assert (FR : forall z, (r1 - z) / (r1 - r2) * (r1 - r2) = r1 - z) by (intros; field; lra).
    exists ((r1 - exp (A * X)) / (r1 - r2)), ((r1 - exp (A * lo)) / (r1 - r2)). splits.
    - apply Rmult_le_pos; [lra|]. left. apply Rinv_0_lt_compat. lra.
    - apply Rmult_le_compat_r; [left; apply Rinv_0_lt_compat; lra|lra].
    - apply div_le; lra.
    - field. lra.
    - intros u U. destruct (round_cases u U) as ((E0 & E1) & C).
      assert (K1 : forall z, z / (r1 - r2) < u -> z < u * (r1 - r2)). { intros z Hz. apply (Rmult_lt_compat_r (r1 - r2)) in Hz; auto. unfold Rdiv in Hz. rewrite Rmult_assoc, Rinv_l in Hz; lra. }
      assert (K2 : forall z, u < z / (r1 - r2) -> u * (r1 - r2) < z). { intros z Hz. apply (Rmult_lt_compat_r (r1 - r2)) in Hz; auto. unfold Rdiv in Hz. rewrite Rmult_assoc, Rinv_l in Hz; lra. }
      split.
      + intros (U1 & U2). apply K1 in U1. apply K2 in U2. destruct C as [(_ & x & E & _ & EE)|(C & _)]; [|lra].
        exists x. split; auto. assert (exp (A * x) <= exp (A * X)) as L by (rewrite EE; lra). apply exp_back in L. nra.
      + intros [U1|U1] (x & E & L); destruct C as [(C & x' & E' & _ & EE)|(_ & C)]; try congruence;
          assert (x' = x) as -> by congruence; assert (exp (A * x) <= exp (A * X)) as L' by (apply exp_mono; nra); [apply K2 in U1|apply K1 in U1]; lra.
  Qed.
  Lemma above Y : lo <= Y <= hi -> prob1 (drawn (expo_round A hi lo) (fun x => Y <= x)) ((r1 - exp (A * Y)) / (r1 - r2)).
  Proof.
    intros HX. destruct r2_range as (P1 & P2 & P3 & P4). assert (D : 0 < r1 - r2) by lra.
    assert (EX : exp (A * lo) <= exp (A * Y) <= r1) by (unfold r1; split; apply exp_mono; nra).
    exists 0, ((r1 - exp (A * Y)) / (r1 - r2)). splits; try lra.
    - apply Rmult_le_pos; [lra|]. left. apply Rinv_0_lt_compat. lra.
    - apply div_le; lra.
    - intros u U. destruct (round_cases u U) as ((E0 & E1) & C).
      assert (K1 : forall z, z / (r1 - r2) < u -> z < u * (r1 - r2)). { intros z Hz. apply (Rmult_lt_compat_r (r1 - r2)) in Hz; auto. unfold Rdiv in Hz. rewrite Rmult_assoc, Rinv_l in Hz; lra. }
      assert (K2 : forall z, u < z / (r1 - r2) -> u * (r1 - r2) < z). { intros z Hz. apply (Rmult_lt_compat_r (r1 - r2)) in Hz; auto. unfold Rdiv in Hz. rewrite Rmult_assoc, Rinv_l in Hz; lra. }
      split.
      + intros (U1 & U2). apply K2 in U2. destruct C as [(_ & x & E & _ & EE)|(C & _)]; [|lra].
        exists x. split; auto. assert (exp (A * Y) <= exp (A * x)) as L by (rewrite EE; lra). apply exp_back in L. nra.
      + intros [U1|U1] (x & E & L); [lra|]; destruct C as [(C & x' & E' & _ & EE)|(_ & C)]; try congruence;
          assert (x' = x) as -> by congruence; assert (exp (A * Y) <= exp (A * x)) as L' by (apply exp_mono; nra); apply K1 in U1; lra.
  Qed.
End expo.
Lemma exp_integral A a b : 0 < A -> a <= b -> integral (fun x => exp (A * x)) a b ((exp (A * b) - exp (A * a)) / A).
Proof.
  intros A0 AB. apply integral_eq with (exp (A * b) / A - exp (A * a) / A); [field; lra|].
  apply (integral_antiderivative (fun x => exp (A * x)) (fun x => exp (A * x) / A)); auto.
  - intros x _. apply d_eq with ((exp (A * x) * A) * / A + exp (A * x) * 0); [field; lra|].
    unfold Rdiv. apply (d_times (fun t => exp (A * t)) (fun _ => / A)); [|apply d_const].
    apply (derivable_pt_lim_comp (fun t => A * t) exp); [|apply derivable_pt_lim_exp]. apply d_eq with (0 * x + A * 1); [ring|]. apply (d_times (fun _ => A) (fun t => t)); [apply d_const|apply d_id].
  - intros x _. apply cont_exp. apply cont_mult; [apply cont_c|apply cont_id].
Qed.
Lemma exp_mirror A m a b : 0 < A -> a <= b -> integral (fun x => exp (A * (m - x))) a b ((exp (A * (m - a)) - exp (A * (m - b))) / A).
Proof.
  intros A0 AB. apply integral_eq with (- exp (A * (m - b)) / A - - exp (A * (m - a)) / A); [field; lra|].
  apply (integral_antiderivative (fun x => exp (A * (m - x))) (fun x => - exp (A * (m - x)) / A)); auto.
  - intros x _. apply d_eq with ((- (exp (A * (m - x)) * - A)) * / A + - exp (A * (m - x)) * 0); [field; lra|].
    unfold Rdiv. apply (d_times (fun t => - exp (A * (m - t))) (fun _ => / A)); [|apply d_const].
    apply (derivable_pt_lim_opp (fun t => exp (A * (m - t)))).
    apply (derivable_pt_lim_comp (fun t => A * (m - t)) exp); [|apply derivable_pt_lim_exp]. apply d_eq with (0 * (m - x) + A * (0 - 1)); [ring|].
    apply (d_times (fun _ => A) (fun t => m - t)); [apply d_const|]. apply (derivable_pt_lim_minus (fun _ => m) (fun t => t)); [apply d_const|apply d_id].
  - intros x _. apply cont_exp. apply cont_mult; [apply cont_c|]. apply cont_minus; [apply cont_c|apply cont_id].
Qed.

(** The numbers of the exponential sampler: what is returned is the first accepted number, and among the accepted ones the
    probability of a range is proportional to the integral of exp(A x) over it, also where the lower end of the range underflows. *)
Theorem exponential_law A hi lo : 0 < A -> lo < hi -> a_min < A * hi ->
  (forall us x, expo A hi lo us = Ok x <-> exists before u after, us = before ++ u :: after /\ Forall (fun v => expo_round A hi lo v = None) before /\ expo_round A hi lo u = Some x) /\
  (forall u x, expo_round A hi lo u = Some x -> lo < x <= hi) /\
  exists c, 0 < c /\ forall X M, lo <= X <= hi -> integral (fun x => exp (A * x)) lo X M -> prob1 (drawn (expo_round A hi lo) (fun x => x <= X)) (c * M).
Proof.
  intros A0 LH AM. splits.
  - intros us x. unfold expo. destruct (Rlt_dec 0 A); [|lra]. destruct (Rle_dec lo hi); [|lra]. destruct (Rlt_dec a_min (A * hi)); [|lra]. split.
    + induction us as [|u us IH]; cbn [expo_loop]; [discriminate|]. destruct (expo_round A hi lo u) as [y|] eqn:E.
      * intros [= ->]. exists [], u, us. auto.
      * intros H. destruct (IH H) as (be & v & af & -> & F & Ev). exists (u :: be), v, af. splits; auto.
    + intros (be & u & af & -> & F & E). induction be as [|v be IH]; cbn [app expo_loop]; [now rewrite E|]. inversion F as [|? ? Hv Hb]; subst. rewrite Hv. auto.
  - intros u x. unfold expo_round. cbv zeta. set (z := ln _ / A). destruct (Rle_dec z hi); [|discriminate]. destruct (Rlt_dec lo z); [|discriminate]. intros [= <-]. lra.
  - destruct (r2_range A hi lo A0 LH) as (P1 & P2 & P3 & P4). set (r2 := if Rlt_dec a_min (A * lo) then exp (A * lo) else 0) in *.
    exists (A / (exp (A * hi) - r2)). split; [apply Rdiv_lt_0_compat; lra|]. intros X M HX I.
    rewrite (integral_unique _ _ _ _ _ I (exp_integral A lo X A0 ltac:(lra))).
    replace (A / (exp (A * hi) - r2) * ((exp (A * X) - exp (A * lo)) / A)) with ((exp (A * X) - exp (A * lo)) / (exp (A * hi) - r2)) by (field; lra).
    apply below; auto.
Qed.
Print Assumptions exponential_law.

(** With the mirroring: the probability of a range of t is proportional to the integral of exp(A t) + a exp(A (hi + lo - t)). *)
Theorem mirrored_law A hi lo a : 0 < A -> lo < hi -> 0 < a ->
  exists c, 0 < c /\ forall X M, lo <= X <= hi -> integral (fun t => exp (A * t) + a * exp (A * (hi + lo - t))) lo X M ->
    prob2 (fun u v => drawn (expo_round A hi lo) (fun t => flip (rltb (1 / (1 + a)) v) hi lo t <= X) u) (c * M).
Proof.
  intros A0 LH A1. destruct (r2_range A hi lo A0 LH) as (P1 & P2 & P3 & P4). set (r2 := if Rlt_dec a_min (A * lo) then exp (A * lo) else 0) in *.
  exists (A / (exp (A * hi) - r2) / (1 + a)). split; [apply Rdiv_lt_0_compat; [apply Rdiv_lt_0_compat|]; lra|]. intros X M HX I.
  set (q := 1 / (1 + a)). assert (Q : 0 < q < 1). { unfold q. split; [apply Rdiv_lt_0_compat; lra|]. apply (Rmult_lt_reg_r (1 + a)); [lra|]. unfold Rdiv. rewrite Rmult_assoc, Rinv_l; lra. }
  set (m1 := (exp (A * X) - exp (A * lo)) / (exp (A * hi) - r2)). set (m2 := (exp (A * hi) - exp (A * (hi + lo - X))) / (exp (A * hi) - r2)).
  exists (fun v => if Rle_dec v q then m1 else m2). split.
  - intros v V. destruct (Rle_dec v q) as [L|L].
    + apply prob1_ext with (2 := below A hi lo A0 LH X HX). intros u U. unfold drawn. rewrite (proj2 (rltb_false q v)) by lra. cbn [flip]. tauto.
    + apply prob1_ext with (2 := above A hi lo A0 LH (hi + lo - X) ltac:(lra)). intros u U. unfold drawn. rewrite (proj2 (rltb_spec q v)) by lra. cbn [flip].
      split; intros (x & E & H); exists x; (split; [auto|lra]).
  - apply integral_eq with (m1 * (q - 0) + m2 * (1 - q)).
    + assert (EM : M = (exp (A * X) - exp (A * lo)) / A + 1 * (a * ((exp (A * (hi + lo - lo)) - exp (A * (hi + lo - X))) / A))).
      { apply (integral_unique _ _ _ _ _ I). apply integral_ext with (fun t => exp (A * t) + 1 * (a * exp (A * (hi + lo - t)))); [lra|intros; ring|].
        apply integral_eq with ((exp (A * X) - exp (A * lo)) / A + a * ((exp (A * (hi + lo - lo)) - exp (A * (hi + lo - X))) / A)); [ring|].
        apply integral_plus; [apply exp_integral; lra|]. apply integral_scale. apply exp_mirror; lra. }
      rewrite EM. replace (hi + lo - lo) with hi by ring. unfold m1, m2, q. field. lra.
    + apply (integral_glue _ (fun _ => m1) (fun _ => m2) 0 q 1); [lra|..].
      * intros x Hx. destruct (Rle_dec x q); lra.
      * intros x Hx. destruct (Rle_dec x q); lra.
      * apply integral_const.
      * apply integral_const.
Qed.
Print Assumptions mirrored_law.

Lemma rpower_sign x y p : 0 < x -> 0 < y -> x < y -> (0 < p -> Rpower x p < Rpower y p) /\ (p < 0 -> Rpower y p < Rpower x p).
Proof. intros X Y L. pose proof (ln_increasing x y X L). split; intros P; unfold Rpower; apply exp_increasing; nra. Qed.
Lemma power_value n t0 t1 u : t1 < t0 < 0 -> / 1000 <= Rabs (n + 1) -> 0 <= u <= 1 ->
  let E := Rpower (- t0) (n + 1) + (Rpower (- t1) (n + 1) - Rpower (- t0) (n + 1)) * u in
  0 < E /\ power n t0 t1 u = Ok (- Rpower E (1 / (n + 1))).
Proof.
  intros T N U E. pose proof (exp_pos ((n + 1) * ln (- t0))) as PA. pose proof (exp_pos ((n + 1) * ln (- t1))) as PB.
  change (exp ((n + 1) * ln (- t0))) with (Rpower (- t0) (n + 1)) in PA. change (exp ((n + 1) * ln (- t1))) with (Rpower (- t1) (n + 1)) in PB.
  assert (E0 : 0 < E).
  { unfold E. destruct (Req_dec u 1) as [->|U1]; [lra|]. assert (0 < Rpower (- t0) (n + 1) * (1 - u)) by nra. assert (0 <= Rpower (- t1) (n + 1) * u) by nra. lra. }
  split; auto. unfold power. destruct (Rlt_dec (Rabs (n + 1)) (/ 1000)); [lra|]. destruct (Rle_dec 0 t0); [lra|].
  unfold pow. rewrite !Rabs_left by lra. destruct (Req_EM_T (- t0) 0); [lra|]. cbn [rbind]. destruct (Req_EM_T (- t1) 0); [lra|]. cbn [rbind].
  unfold uniform. fold E. destruct (Req_EM_T E 0); [lra|]. cbn [rbind]. unfold sgn. destruct (Rlt_dec 0 t0); [lra|]. destruct (Rlt_dec t0 0); [|lra]. f_equal. ring.
Qed.
Section power.
  Variables (n t0 t1 : R).
  Hypothesis (T : t1 < t0 < 0) (N : / 1000 <= Rabs (n + 1)).
  Let n1 := n + 1.
  Let P t := Rpower (- t) n1.
  Lemma PP : forall t, 0 < P t.
  Proof. intros. apply exp_pos. Qed.
  Lemma N0 : n1 <> 0.
  Proof. intros Z. unfold n1 in Z. rewrite Z, Rabs_R0 in N. lra. Qed.
  Lemma MON : forall a b, a < b < 0 -> 0 < n1 * (P a - P b).
  Proof.
    intros a b AB. destruct (rpower_sign (- b) (- a) n1 ltac:(lra) ltac:(lra) ltac:(lra)) as [K1 K2]. fold (P a) (P b) in *. pose proof N0.
    destruct (Rlt_dec 0 n1) as [Q|Q]; [specialize (K1 Q); nra|]. assert (n1 < 0) as Q' by lra. specialize (K2 Q'). nra.
  Qed.
  Lemma INV E X : 0 < E -> X < 0 -> (- Rpower E (1 / n1) <= X <-> 0 <= n1 * (E - P X)) /\ (- Rpower E (1 / n1) < X <-> 0 < n1 * (E - P X)).
  Proof.
    intros E0 X0. pose proof N0 as NZ. pose proof (PP X) as PX. assert (LP : ln (P X) = n1 * ln (- X)) by (unfold P, Rpower; apply ln_exp).
    assert (S2 : n1 * (ln E - ln (P X)) = (n1 * n1) * (1 / n1 * ln E - ln (- X))) by (rewrite LP; field; auto). assert (Q : 0 < n1 * n1) by nra.
    assert (S1 : (- Rpower E (1 / n1) <= X <-> ln (- X) <= 1 / n1 * ln E) /\ (- Rpower E (1 / n1) < X <-> ln (- X) < 1 / n1 * ln E)).
    { unfold Rpower. pose proof (exp_le (ln (- X)) (1 / n1 * ln E)) as L1. pose proof (exp_le (1 / n1 * ln E) (ln (- X))) as L2. rewrite exp_ln in L1, L2 by lra.
      split; [split; [intros; apply L1; lra|intros H; apply L1 in H; lra]|]. split; intros H; apply Rnot_le_lt; intros C; [apply L2 in C; lra|]. assert (1 / n1 * ln E <= ln (- X)) by (apply L2; lra). lra. }
    assert (S3 : (ln (- X) <= 1 / n1 * ln E <-> 0 <= n1 * (ln E - ln (P X))) /\ (ln (- X) < 1 / n1 * ln E <-> 0 < n1 * (ln E - ln (P X)))).
    { rewrite S2. split; split; intros; nra. }
    destruct S1 as (S1 & S1'), S3 as (S3 & S3'). rewrite S1, S1', S3, S3'.
    pose proof (ln_increasing E (P X) E0) as L1. pose proof (ln_increasing (P X) E PX) as L2.
    destruct (Rtotal_order E (P X)) as [C|[C|C]].
    - specialize (L1 C). split; split; intros; destruct (Rlt_dec 0 n1); nra.
    - rewrite C. split; lra.
    - specialize (L2 C). split; split; intros; destruct (Rlt_dec 0 n1); nra.
  Qed.
  Lemma cont_power x : x < 0 -> continuity_pt (fun t => Rpower (- t) n) x.
  Proof.
    intros Hx. apply derivable_continuous_pt. exists (n * Rpower (- x) (n - 1) * - (1)).
    apply (derivable_pt_lim_comp (fun t => - t) (fun y => Rpower y n)); [apply (derivable_pt_lim_opp id x 1), derivable_pt_lim_id|]. apply derivable_pt_lim_power. lra.
  Qed.
  Lemma power_int a b : a <= b < 0 -> integral (fun t => Rpower (- t) n) a b ((P a - P b) / n1).
  Proof.
    intros AB. pose proof N0 as NZ. apply integral_eq with ((- P b / n1) - (- P a / n1)); [field; auto|].
    apply (integral_antiderivative (fun t => Rpower (- t) n) (fun t => - P t / n1)); [lra| |].
    - intros x Hx. apply d_eq with (- (n1 * Rpower (- x) (n1 - 1) * - (1)) * / n1 + - P x * 0); [replace (n1 - 1) with n by (unfold n1; ring); field; auto|].
      unfold Rdiv. apply (d_times (fun t => - P t) (fun _ => / n1)); [|apply d_const]. apply (derivable_pt_lim_opp P).
      apply (derivable_pt_lim_comp (fun t => - t) (fun y => Rpower y n1)); [apply (derivable_pt_lim_opp id x 1), derivable_pt_lim_id|]. apply derivable_pt_lim_power. lra.
    - intros x Hx. apply cont_power. lra.
  Qed.
  Lemma power_mirror_int a b : t1 <= a <= b -> b <= t0 -> integral (fun t => Rpower (- (t0 + t1 - t)) n) a b ((P (t0 + t1 - b) - P (t0 + t1 - a)) / n1).
  Proof.
    intros AB B0. pose proof N0 as NZ. apply integral_eq with (P (t0 + t1 - b) / n1 - P (t0 + t1 - a) / n1); [field; auto|].
    apply (integral_antiderivative (fun t => Rpower (- (t0 + t1 - t)) n) (fun t => P (t0 + t1 - t) / n1)); [lra| |].
    - intros x Hx. apply d_eq with ((n1 * Rpower (- (t0 + t1 - x)) (n1 - 1) * (1)) * / n1 + P (t0 + t1 - x) * 0); [replace (n1 - 1) with n by (unfold n1; ring); field; auto|].
      unfold Rdiv. apply (d_times (fun t => P (t0 + t1 - t)) (fun _ => / n1)); [|apply d_const].
      apply (derivable_pt_lim_comp (fun t => - (t0 + t1 - t)) (fun y => Rpower y n1)); [|apply derivable_pt_lim_power; lra].
      apply d_eq with (- (0 - 1)); [ring|]. apply (derivable_pt_lim_opp (fun t => t0 + t1 - t)). apply (derivable_pt_lim_minus (fct_cte (t0 + t1)) id); [apply derivable_pt_lim_const|apply derivable_pt_lim_id].
    - intros x Hx. apply (continuity_pt_comp (fun t => t0 + t1 - t) (fun t => Rpower (- t) n)); [|apply cont_power; lra].
      apply (continuity_pt_minus (fct_cte (t0 + t1)) id); [apply continuity_pt_const; now intros ? ?|apply derivable_continuous_pt, derivable_pt_id].
  Qed.
  Lemma power_threshold : exists c, 0 < c /\ forall X M, t1 <= X <= t0 -> integral (fun t => Rpower (- t) n) t1 X M ->
    exists th, 0 <= th <= 1 /\ c * M = 1 - th /\ forall u, 0 < u < 1 -> exists t, power n t0 t1 u = Ok t /\ t1 <= t <= t0 /\ (u < th -> X < t) /\ (th < u -> t < X).
  Proof.
    pose proof N0 as NZ. assert (D : 0 < n1 * (P t1 - P t0)) by (apply MON; lra). assert (D0 : P t1 - P t0 <> 0) by nra.
    exists (n1 / (P t1 - P t0)). split.
    { replace (n1 / (P t1 - P t0)) with (n1 * (P t1 - P t0) / ((P t1 - P t0) * (P t1 - P t0))) by (field; auto). apply Rdiv_lt_0_compat; auto. nra. }
    intros X M HX I. assert (IM : M = (P t1 - P X) / n1) by (apply (integral_unique _ _ _ _ _ I), power_int; lra).
    assert (DIFF : 0 <= n1 * (P t1 - P X) /\ 0 <= n1 * (P X - P t0)).
    { split; [destruct (Req_dec t1 X) as [->|]; [nra|apply Rlt_le, MON; lra]|destruct (Req_dec t0 X) as [->|]; [nra|apply Rlt_le, MON; lra]]. }
    destruct DIFF as (D1 & D2). set (th := (P X - P t0) / (P t1 - P t0)).
    assert (TH : th * (P t1 - P t0) = P X - P t0) by (unfold th; field; auto).
    assert (TR : 0 <= th <= 1).
    { split; apply Rnot_lt_le; intros C.
      - assert (n1 * (P X - P t0) < 0); [rewrite <- TH|lra]. replace (n1 * (th * (P t1 - P t0))) with (th * (n1 * (P t1 - P t0))) by ring. nra.
      - assert (n1 * (P t1 - P X) < 0); [|lra]. replace (P t1 - P X) with ((P t1 - P t0) - th * (P t1 - P t0)) by (rewrite TH; ring).
        replace (n1 * (P t1 - P t0 - th * (P t1 - P t0))) with ((1 - th) * (n1 * (P t1 - P t0))) by ring. nra. }
    exists th. splits; try lra.
    - rewrite IM. unfold th. field. auto.
    - intros u U. destruct (power_value n t0 t1 u T N ltac:(lra)) as (E0 & PV). fold n1 in E0, PV. fold (P t0) (P t1) in E0, PV. set (E := P t0 + (P t1 - P t0) * u) in *.
      exists (- Rpower E (1 / n1)). split; auto.
      assert (KEY : n1 * (E - P X) = (u - th) * (n1 * (P t1 - P t0))). { replace (P X) with (P t0 + th * (P t1 - P t0)) by (rewrite TH; ring). unfold E. ring. }
      destruct (INV E X E0 ltac:(lra)) as (I1 & I2). destruct (INV E t0 E0 ltac:(lra)) as (J1 & _). destruct (INV E t1 E0 ltac:(lra)) as (_ & J2). rewrite KEY in I1, I2.
      splits.
      + apply Rnot_lt_le. intros C. apply J2 in C. unfold E in C. nra.
      + apply J1. unfold E. replace (n1 * (P t0 + (P t1 - P t0) * u - P t0)) with (n1 * (P t1 - P t0) * u) by ring. nra.
      + intros U1. apply Rnot_le_lt. intros C. apply I1 in C. nra.
      + intros U1. apply I2. nra.
  Qed.
End power.
(** The power law for negative bounds: every draw gives a number in the range, and the probability of a range is the fraction
    of the integral of |t|^n, unless n is closer than 1/1000 to -1. *)
Theorem power_law n t0 t1 : t1 < t0 < 0 -> / 1000 <= Rabs (n + 1) ->
  (forall u, 0 < u < 1 -> exists t, power n t0 t1 u = Ok t /\ t1 <= t <= t0) /\
  exists c, 0 < c /\ forall X M, t1 <= X <= t0 -> integral (fun t => Rpower (- t) n) t1 X M ->
    prob1 (fun u => exists t, power n t0 t1 u = Ok t /\ t <= X) (c * M).
Proof.
  intros T N. destruct (power_threshold n t0 t1 T N) as (c & C0 & H). split.
  - intros u U. destruct (H t0 _ ltac:(lra) (power_int n N t1 t0 ltac:(lra))) as (th & _ & _ & K). destruct (K u U) as (t & PT & RT & _). eauto.
  - exists c. split; auto. intros X M HX I. destruct (H X M HX I) as (th & TH & E & K).
    exists th, 1. splits; try lra. intros u U. destruct (K u U) as (t & PT & RT & A & B). split.
    + intros (U1 & _). exists t. split; auto. specialize (B U1). lra.
    + intros [U1|U1] (t' & E' & L); [|lra]. assert (t' = t) as -> by congruence. specialize (A U1). lra.
Qed.
Print Assumptions power_law.
(** Mirrored: the integral of |t|^n + |t0 + t1 - t|^n. *)
Theorem mirrored_power_law n t0 t1 : t1 < t0 < 0 -> / 1000 <= Rabs (n + 1) ->
  exists c, 0 < c /\ forall X M, t1 <= X <= t0 -> integral (fun t => Rpower (- t) n + Rpower (- (t0 + t1 - t)) n) t1 X M ->
    prob2 (fun u v => exists t, power n t0 t1 u = Ok t /\ flip (rltb (1 / 2) v) t0 t1 t <= X) (c * M).
Proof.
  intros T N. destruct (power_threshold n t0 t1 T N) as (c & C0 & H). exists (c / 2). split; [lra|]. intros X M HX I.
  set (Y := t0 + t1 - X). assert (HY : t1 <= Y <= t0) by (unfold Y; lra).
  destruct (H X _ HX (power_int n N t1 X ltac:(lra))) as (th & TH & E & K).
  destruct (H Y _ HY (power_int n N t1 Y ltac:(lra))) as (th2 & TH2 & E2 & K2).
  destruct (H t0 _ ltac:(lra) (power_int n N t1 t0 ltac:(lra))) as (th3 & TH3 & E3 & K3).
  assert (Z3 : th3 = 0).
  { destruct (Req_dec th3 0) as [|NE]; auto. destruct (K3 (th3 / 2) ltac:(lra)) as (t & _ & R & A & _). specialize (A ltac:(lra)). lra. }
  exists (fun v => if Rle_dec v (1 / 2) then 1 - th else th2). split.
  - intros v V. destruct (Rle_dec v (1 / 2)) as [L|L].
    + rewrite (proj2 (rltb_false (1 / 2) v)) by lra. cbn [flip]. exists th, 1. splits; try lra. intros u U. destruct (K u U) as (t & PT & RT & A & B). split.
      * intros (U1 & _). exists t. split; auto. specialize (B U1). lra.
      * intros [U1|U1] (t' & E' & L'); [|lra]. assert (t' = t) as -> by congruence. specialize (A U1). lra.
    + rewrite (proj2 (rltb_spec (1 / 2) v)) by lra. cbn [flip]. exists 0, th2. splits; try lra. intros u U. destruct (K2 u U) as (t & PT & RT & A & B). split.
      * intros (_ & U1). exists t. split; auto. specialize (A U1). unfold Y in *. lra.
      * intros [U1|U1] (t' & E' & L'); [lra|]. assert (t' = t) as -> by congruence. specialize (B U1). unfold Y in *. lra.
  - apply integral_eq with ((1 - th) * (1 / 2 - 0) + th2 * (1 - 1 / 2)).
    + assert (EM : M = (Rpower (- t1) (n + 1) - Rpower (- X) (n + 1)) / (n + 1) + (Rpower (- Y) (n + 1) - Rpower (- t0) (n + 1)) / (n + 1)).
      { apply (integral_unique _ _ _ _ _ I). apply integral_ext with (fun t => Rpower (- t) n + 1 * Rpower (- (t0 + t1 - t)) n); [lra|intros; ring|].
        apply integral_plus; [apply power_int; auto; lra|]. pose proof (power_mirror_int n t0 t1 T N t1 X ltac:(lra) ltac:(lra)) as PM. replace (t0 + t1 - t1) with t0 in PM by ring. exact PM. }
      set (A1 := Rpower (- t1) (n + 1)) in *. set (AX := Rpower (- X) (n + 1)) in *. set (AY := Rpower (- Y) (n + 1)) in *. set (A0 := Rpower (- t0) (n + 1)) in *.
      assert (NZ : n + 1 <> 0) by (intros Q; rewrite Q, Rabs_R0 in N; lra).
      rewrite EM. replace (c / 2 * ((A1 - AX) / (n + 1) + (AY - A0) / (n + 1))) with ((c * ((A1 - AX) / (n + 1)) + (c * ((A1 - A0) / (n + 1)) - c * ((A1 - AY) / (n + 1)))) / 2) by (field; auto).
      rewrite E, E2, E3, Z3. field.
    + apply (integral_glue _ (fun _ => 1 - th) (fun _ => th2) 0 (1 / 2) 1); [lra|..].
      * intros x Hx. destruct (Rle_dec x (1 / 2)); lra.
      * intros x Hx. destruct (Rle_dec x (1 / 2)); lra.
      * apply integral_const.
      * apply integral_const.
Qed.
Print Assumptions mirrored_power_law.
