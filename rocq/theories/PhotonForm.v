(** Form factors of direct photons. *)
From Coq Require Import ZArith Reals List Bool Lia Lra Psatz.
From Verif Require Import Base VecModel VecProps MotionModel KinProps FinalProps ScatModel ScatAngle ScatFinal PhotonModel PhotonKin PhotonBrems PhotonWeight.
Import ListNotations.
Open Scope R_scope.
Local Notation energy := KinProps.energy.

(** a hadronic form factor: between 0 and 1 as long as the squared momentum transfer is not positive, and falling with its size *)
Theorem dipole_range t t' : t <= t' <= 0 -> 0 < dipole t <= dipole t' /\ dipole t' <= 1 /\ dipole 0 = 1.
Proof.
  intros (A & B). unfold dipole. replace (2 * 1) with 2 by ring.
  assert (X : forall s, s <= 0 -> 0 < 2 / (2 - s) <= 1). { intros s S. split; [apply Rmult_lt_0_compat; [lra|apply Rinv_0_lt_compat; lra]|]. apply Rmult_le_reg_r with (2 - s); [lra|]. replace (2 / (2 - s) * (2 - s)) with 2 by (field; lra). lra. }
  assert (Y : 2 / (2 - t) <= 2 / (2 - t')). { apply Rmult_le_compat_l; [lra|]. apply Rinv_le_contravar; lra. }
  pose proof (X t ltac:(lra)). pose proof (X t' B). splits; nra || (try field).
Qed.
Print Assumptions dipole_range.
Lemma dipole_above t : 0 < t < 2 -> 1 < dipole t.
Proof.
  intros T. unfold dipole. replace (2 * 1) with 2 by ring. assert (1 < 2 / (2 - t)). { apply Rmult_lt_reg_r with (2 - t); [lra|]. replace (2 / (2 - t) * (2 - t)) with 2 by (field; lra). lra. } nra.
Qed.
Lemma dipole_below t : t < 0 -> 0 <= dipole t < 1.
Proof.
  intros T. unfold dipole. replace (2 * 1) with 2 by ring. assert (0 < 2 / (2 - t) < 1).
  { split; [apply Rmult_lt_0_compat; [lra|apply Rinv_0_lt_compat; lra]|]. apply Rmult_lt_reg_r with (2 - t); [lra|]. replace (2 / (2 - t) * (2 - t)) with 2 by (field; lra). lra. } nra.
Qed.
Lemma exp_mul16 x : exp (16 * x) = exp x ^ 16.
Proof. replace (16 * x) with (INR 16 * x) by (cbn; ring). symmetry. rewrite <- (exp_ln (exp x ^ 16)) by (apply pow_lt, exp_pos). rewrite ln_pow by apply exp_pos. now rewrite ln_exp. Qed.
Lemma pow16_le a b : 0 <= a <= b -> a ^ 16 <= b ^ 16.
Proof. intros H. apply pow_incr. auto. Qed.
Lemma rpower_exp x y : Rpower (exp x) y = exp (x * y).
Proof. unfold Rpower. rewrite ln_exp. f_equal. ring. Qed.
(** The fit of the average momentum transfer is negative at 1 GeV but positive at e^4 GeV (55 GeV), where the factor is above 1. *)
Lemma t_pion_one : t_pion 1 < 0.
Proof. unfold t_pion. assert (X : forall y, Rpower 1 y = 1) by (intros; unfold Rpower; rewrite ln_1, Rmult_0_r; apply exp_0). rewrite !X. lra. Qed.
Lemma exp_low : 917 / 1000 + 72 / 100000 <= exp (- (856 / 10000)) <= 918 / 1000 + 3 / 10000.
Proof.
  replace (- (856 / 10000)) with (16 * (- (535 / 100000))) by field. rewrite exp_mul16. split.
  - apply Rle_trans with ((1 + - (535 / 100000)) ^ 16); [cbn [pow]; lra|]. apply pow16_le. split; [lra|apply exp_ineq1_le].
  - assert (E : exp (- (535 / 100000)) <= / (1 + 535 / 100000)). { rewrite exp_Ropp. apply Rinv_le_contravar; [lra|]. apply exp_ineq1_le. }
    apply Rle_trans with ((/ (1 + 535 / 100000)) ^ 16); [apply pow16_le; split; auto; left; apply exp_pos|]. replace (/ (1 + 535 / 100000)) with (100000 / 100535) by field. cbn [pow]. lra.
Qed.
Lemma exp_high : 10925 / 10000 <= exp (888 / 10000) <= 10932 / 10000.
Proof.
  replace (888 / 10000) with (16 * (555 / 100000)) by field. rewrite exp_mul16. split.
  - apply Rle_trans with ((1 + 555 / 100000) ^ 16); [cbn [pow]; lra|]. apply pow16_le. split; [lra|apply exp_ineq1_le].
  - assert (E : exp (555 / 100000) <= / (1 + - (555 / 100000))).
    { rewrite <- (Ropp_involutive (555 / 100000)) at 1. rewrite exp_Ropp. apply Rinv_le_contravar; [lra|]. apply exp_ineq1_le. }
    apply Rle_trans with ((/ (1 + - (555 / 100000))) ^ 16); [apply pow16_le; split; auto; left; apply exp_pos|]. replace (/ (1 + - (555 / 100000))) with (100000 / 99445) by field. cbn [pow]. lra.
Qed.
Lemma t_pion_far : 0 < t_pion (exp 4) < 2.
Proof.
  unfold t_pion. rewrite !rpower_exp.
  replace (4 * (737 / 1000)) with (4 * (7584 / 10000) + - (856 / 10000)) by field. replace (4 * (7806 / 10000)) with (4 * (7584 / 10000) + 888 / 10000) by field.
  rewrite !exp_plus. set (b := exp (4 * (7584 / 10000))). pose proof exp_low as L. pose proof exp_high as H. set (x := exp (- (856 / 10000))) in *. set (y := exp (888 / 10000)) in *.
  assert (B0 : 0 < b) by apply exp_pos.
  assert (B1 : b <= 29).
  { unfold b. replace (4 * (7584 / 10000)) with (1 + 1 + 1 + 336 / 10000) by field. rewrite !exp_plus. pose proof exp_le_3 as E3. pose proof (exp_pos 1).
    assert (E4 : exp (336 / 10000) <= 104 / 100).
    { rewrite <- (Ropp_involutive (336 / 10000)). rewrite exp_Ropp. apply Rle_trans with (/ (1 + - (336 / 10000))); [apply Rinv_le_contravar; [lra|apply exp_ineq1_le]|]. replace (/ (1 + - (336 / 10000))) with (10000 / 9664) by field. lra. }
    pose proof (exp_pos (336 / 10000)). assert (exp 1 * exp 1 <= 9) by nra. assert (exp 1 * exp 1 * exp 1 <= 27) by nra. nra. }
  replace (345096 / 10000 * (b * x) - 67557 / 1000 * b + 32858 / 1000 * (b * y)) with (b * (345096 / 10000 * x - 67557 / 1000 + 32858 / 1000 * y)) by ring.
  assert (C : 0 < 345096 / 10000 * x - 67557 / 1000 + 32858 / 1000 * y < 2 / 29) by lra. split; [apply Rmult_lt_0_compat; lra|]. nra.
Qed.
(** so the form factor is above 1 for photons of high energy, although it describes a suppression *)
Theorem form_factor_at_most_one_refuted : form_factor_pion 1 < 1 /\ 1 < form_factor_pion (exp 4).
Proof. split; [apply dipole_below, t_pion_one|apply dipole_above, t_pion_far]. Qed.
Print Assumptions form_factor_at_most_one_refuted.

(** ** The frame *)
(** two particles of mass 4 that collide along z with momenta +-3 in their centre-of-mass frame, seen from a frame in which
    everything that moves along +z has L times the energy *)
Definition fast1 (L : R) : vec4 := V4 (4 * L + / L) 0 0 (4 * L - / L).
Definition fast2 (L : R) : vec4 := V4 (L + 4 * / L) 0 0 (L - 4 * / L).
Lemma fast_sum L : 0 < L -> add4 (fast1 L) (fast2 L) = V4 (5 * (L + / L)) 0 0 (5 * (L - / L)).
Proof. intros H. unfold add4, fast1, fast2. cbn [y0 y1 y2 y3]. f_equal; ring. Qed.
Lemma fast_cm L : 0 < L -> cm_energy (fast1 L) (fast2 L) = 10.
Proof.
  intros H. unfold cm_energy. rewrite fast_sum by auto. unfold minkowski. cbn [y0 y1 y2 y3]. transitivity (sqrt (10 * 10)); [f_equal; field; lra|apply sqrt_square; lra].
Qed.
Lemma fast_incoming L : 0 < L -> incoming 4 4 (fast1 L) (fast2 L).
Proof.
  intros H. assert (I : 0 < / L) by now apply Rinv_0_lt_compat. unfold incoming. rewrite fast_sum by auto. unfold shell, minkowski, fast1, fast2. cbn [y0 y1 y2 y3].
  assert (X : L * / L = 1) by (field; lra). splits; try lra; nra.
Qed.
Lemma fast_gamma L : 0 < L -> let v := neg3 (velocity (add4 (fast1 L) (fast2 L))) in v = V3 0 0 (- ((L - / L) / (L + / L))) /\ gamma v = (L + / L) / 2.
Proof.
  intros H v. assert (I : 0 < / L) by now apply Rinv_0_lt_compat. assert (X : L * / L = 1) by (field; lra).
  assert (V : v = V3 0 0 (- ((L - / L) / (L + / L)))).
  { unfold v. rewrite fast_sum by auto. unfold neg3, velocity, div3, scale3, threevec. cbn [x1 x2 x3 y0 y1 y2 y3]. f_equal; field; nra. }
  split; auto. assert (S : 1 - speed2 v = 4 / ((L + / L) * (L + / L))).
  { rewrite V. unfold speed2. cbn [x1 x2 x3]. transitivity ((4 * (L * / L)) / ((L + / L) * (L + / L))); [field; nra|]. rewrite X. field. nra. }
  assert (P : 0 < 4 / ((L + / L) * (L + / L))) by (apply Rmult_lt_0_compat; [lra|apply Rinv_0_lt_compat; nra]).
  destruct (gamma_eq v ltac:(lra)) as (G & GG). rewrite S in GG.
  assert (G2 : gamma v * gamma v = (L + / L) / 2 * ((L + / L) / 2)).
  { apply Rmult_eq_reg_r with (4 / ((L + / L) * (L + / L))); [|lra]. rewrite GG. field. nra. }
  apply Rsqr_inj; [lra|lra|exact G2].
Qed.
Lemma fast_photon L : 0 < L -> exists t0 t1 h g, get_t_range 10 4 4 (sqrt 80) 0 = Ok (t0, t1) /\ t0 - t1 = 12 /\
  photon_final (fast1 L) (fast2 L) 4 4 (sqrt 80) 0 0 = Ok (t1, h, g) /\ y0 g = L.
Proof.
  intros H. assert (S80 : sqrt 80 * sqrt 80 = 80) by (apply sqrt_sqrt; lra). assert (S0 : 0 <= sqrt 80) by apply sqrt_pos. assert (S1 : sqrt 80 < 10) by nra.
  destruct (photon_steps (fast1 L) (fast2 L) 4 4 (sqrt 80) 0 0 (fast_incoming L H) S0) as (t0 & t1 & ang & TR & TT & V & TB & CT & PH & E); try rewrite fast_cm by auto; try lra; try (unfold draw; lra).
  rewrite fast_cm in TR, E by auto.
  assert (P1 : pCM 10 4 4 = 3). { symmetry. apply (pCM_is_two_body_momentum 10 4 4); try lra. unfold energy. replace (4 * 4 + 3 * 3) with (5 * 5) by ring. rewrite sqrt_square; lra. }
  assert (P2 : pCM 10 (sqrt 80) 0 = 1) by (rewrite pcm_photon by lra; rewrite S80; field).
  destruct (range_exists 10 4 4 (sqrt 80)) as (a0 & a1 & AR & AD). assert (a0 = t0 /\ a1 = t1) as (-> & ->) by (split; congruence). rewrite P1, P2 in AD.
  destruct (fast_gamma L H) as (V3E & GA). set (v := neg3 (velocity (add4 (fast1 L) (fast2 L)))) in *.
  assert (D : direction ang = V3 0 0 (-1)). { unfold direction, sintheta. rewrite CT. replace (1 - (2 * 0 - 1) * (2 * 0 - 1)) with 0 by ring. rewrite sqrt_0. f_equal; ring. }
  rewrite P2, D in E. replace (uniform t1 t0 0) with t1 in E by (unfold uniform; ring). exists t0, t1. eexists _, _. split; [exact TR|]. split; [lra|]. split; [exact E|].
  unfold boost, mk4. cbn [y0]. rewrite GA, V3E. unfold on_shell, mk4, scale3, neg3, dot3, threevec. cbn [x1 x2 x3 y0 y1 y2 y3].
  replace (0 * 0 + (- (0) * 1 * (- (0) * 1) + - (0) * 1 * (- (0) * 1) + - -1 * 1 * (- -1 * 1))) with (1 * 1) by ring. rewrite sqrt_square by lra.
  assert (I : 0 < / L) by now apply Rinv_0_lt_compat. field. assert (L * / L = 1) by (field; lra). nra.
Qed.
(** The weight of a photon depends on the frame: in two frames that differ by a boost along z, with the same random numbers, the
    same cross sections and the same masses, the photon has different weights. The form factor is evaluated at the energy the photon has
    in the frame of the computation. *)
Theorem photon_weight_invariant_refuted : exists p1 p2 p1' p2' h g w h' g' w',
  incoming 4 4 p1 p2 /\ incoming 4 4 p1' p2' /\ minkowski p1 p2 = minkowski p1' p2' /\
  photon_state 1 pi_p_pi_m_rho_z 2 1 1 1 p1 p2 4 4 (sqrt 80) 0 0 (fun _ _ => 1) (fun _ => 1) = Ok (h, g, w) /\
  photon_state 1 pi_p_pi_m_rho_z 2 1 1 1 p1' p2' 4 4 (sqrt 80) 0 0 (fun _ _ => 1) (fun _ => 1) = Ok (h', g', w') /\ w < w'.
Proof.
  assert (Y : forall L, 0 < L -> exists h g, photon_state 1 pi_p_pi_m_rho_z 2 1 1 1 (fast1 L) (fast2 L) 4 4 (sqrt 80) 0 0 (fun _ _ => 1) (fun _ => 1) = Ok (h, g, 6 * cut_off (form_factor_pion L ^ 4))).
  { intros L H. destruct (fast_photon L H) as (t0 & t1 & h & g & TR & DT & E & G). exists h, g. unfold photon_state. cbn [Nat.eqb]. rewrite cm_sqrt, fast_cm by auto. rewrite TR. cbn [rbind]. rewrite E. cbn [rbind].
    unfold photon_weight. cbn [Z.ltb Z.compare with_form_factors rbind]. rewrite G. cbn [Pos.compare Pos.compare_cont]. cbn [rbind]. unfold diff_cross_section. destruct (Rlt_dec 1 0); [lra|]. rewrite DT. rewrite Rmult_1_r.
    change (1 <? 2)%Z with true. cbn [rbind]. do 2 f_equal. field. }
  destruct (Y 1 Rlt_0_1) as (h & g & E1). destruct (Y (exp 4) (exp_pos 4)) as (h' & g' & E2).
  exists (fast1 1), (fast2 1), (fast1 (exp 4)), (fast2 (exp 4)), h, g. eexists. exists h', g'. eexists.
  split; [apply fast_incoming; lra|]. split; [apply fast_incoming, exp_pos|]. split.
  - pose proof (exp_pos 4). unfold minkowski, fast1, fast2. cbn [y0 y1 y2 y3]. field. lra.
  - split; [exact E1|]. split; [exact E2|]. destruct form_factor_at_most_one_refuted as (F1 & F2). assert (F0 : 0 <= form_factor_pion 1) by apply dipole_pos.
    assert (A : form_factor_pion 1 ^ 4 < 1). { set (f := form_factor_pion 1) in *. assert (f * f < 1) by nra. assert (0 <= f * f) by nra. replace (f ^ 4) with (f * f * (f * f)) by ring. nra. }
    assert (B : 1 < form_factor_pion (exp 4) ^ 4). { set (f := form_factor_pion (exp 4)) in *. assert (1 < f * f) by nra. replace (f ^ 4) with (f * f * (f * f)) by ring. nra. }
    unfold cut_off. destruct (Rlt_dec 200 (form_factor_pion 1 ^ 4)); [lra|]. destruct (Rlt_dec 200 (form_factor_pion (exp 4) ^ 4)); lra.
Qed.
Print Assumptions photon_weight_invariant_refuted.
