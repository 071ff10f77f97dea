(** C46 (kinematics), C72 (directions), C73 (comparison of four-vectors).
    Exact real arithmetic. *)
From Coq Require Import ZArith Reals List Bool Lia Lra Psatz.
From Flocq Require Import Core.
From Verif Require Import Base VecModel VecProps.
Import ListNotations.
Open Scope R_scope.

Lemma rltb_spec x y : rltb x y = true <-> x < y.
Proof. unfold rltb. destruct (Rlt_dec x y); split; auto; discriminate. Qed.
Lemma rltb_false x y : rltb x y = false <-> y <= x.
Proof. unfold rltb. destruct (Rlt_dec x y); split; auto; try discriminate; lra. Qed.

(** ** C46 *)
(** Energy of a particle of mass m and momentum p. *)
Definition energy (m p : R) : R := sqrt (m * m + p * p).
Lemma energy_sq m p : energy m p * energy m p = m * m + p * p.
Proof. apply sqrt_sqrt. nra. Qed.
Lemma energy_pos m p : 0 <= energy m p.
Proof. apply sqrt_pos. Qed.
Lemma energy_ge m p : 0 <= m -> m <= energy m p.
Proof. intros. pose proof (energy_sq m p). pose proof (energy_pos m p). nra. Qed.
Lemma sq_inj a b : 0 <= a -> 0 <= b -> a * a = b * b -> a = b.
Proof. intros. nra. Qed.
Lemma energy_is m p e : 0 <= e -> e * e = m * m + p * p -> energy m p = e.
Proof. intros H E. apply sq_inj; auto using energy_pos. rewrite energy_sq. auto. Qed.

Lemma pcm2_factor sqrts ma mb : sqrts <> 0 ->
  pCM_sqr sqrts ma mb = (sqrts * sqrts - (ma + mb) * (ma + mb)) * (sqrts * sqrts - (ma - mb) * (ma - mb)) / (4 * (sqrts * sqrts)).
Proof. intros. unfold pCM_sqr, pCM_sqr_from_s. field. auto. Qed.
Lemma pcm2_nonneg sqrts ma mb : 0 <= ma -> 0 <= mb -> 0 < sqrts -> ma + mb <= sqrts -> 0 <= pCM_sqr sqrts ma mb.
Proof.
  intros A B S T. rewrite pcm2_factor by lra. apply Rmult_le_pos; [apply Rmult_le_pos; nra|]. left. apply Rinv_0_lt_compat. nra.
Qed.
Lemma pcm_sq sqrts ma mb : 0 <= ma -> 0 <= mb -> 0 < sqrts -> ma + mb <= sqrts ->
  0 <= pCM sqrts ma mb /\ pCM sqrts ma mb * pCM sqrts ma mb = pCM_sqr sqrts ma mb.
Proof.
  intros A B S T. pose proof (pcm2_nonneg _ _ _ A B S T) as P. unfold pCM, pCM_from_s. fold (pCM_sqr sqrts ma mb).
  destruct (Rlt_dec 0 (pCM_sqr sqrts ma mb)).
  - split; [apply sqrt_pos|]. apply sqrt_sqrt. lra.
  - split; lra.
Qed.
(** Energies of the two particles in their centre-of-mass frame *)
Lemma pcm_energies sqrts ma mb : 0 <= ma -> 0 <= mb -> 0 < sqrts -> ma + mb <= sqrts ->
  energy ma (pCM sqrts ma mb) = (sqrts * sqrts + ma * ma - mb * mb) / (2 * sqrts) /\
  energy mb (pCM sqrts ma mb) = (sqrts * sqrts + mb * mb - ma * ma) / (2 * sqrts).
Proof.
  intros A B S T. destruct (pcm_sq _ _ _ A B S T) as [P Q].
  split; apply energy_is; try rewrite Q, pcm2_factor by lra; try (field; lra);
    (apply Rmult_le_pos; [nra|left; apply Rinv_0_lt_compat; lra]).
Qed.
(** pCM is the momentum for which the two particles have energy sqrt(s), and the only one. *)
Theorem pCM_is_two_body_momentum sqrts ma mb : 0 <= ma -> 0 <= mb -> 0 < sqrts -> ma + mb <= sqrts ->
  0 <= pCM sqrts ma mb /\ energy ma (pCM sqrts ma mb) + energy mb (pCM sqrts ma mb) = sqrts /\
  (forall p, 0 <= p -> energy ma p + energy mb p = sqrts -> p = pCM sqrts ma mb).
Proof.
  intros A B S T. destruct (pcm_sq _ _ _ A B S T) as [P Q]. destruct (pcm_energies _ _ _ A B S T) as [E1 E2].
  assert (SUM : energy ma (pCM sqrts ma mb) + energy mb (pCM sqrts ma mb) = sqrts) by (rewrite E1, E2; field; lra).
  splits; auto. intros p HP HE. apply sq_inj; auto. rewrite Q, pcm2_factor by lra.
  pose proof (energy_sq ma p) as Sa. pose proof (energy_sq mb p) as Sb.
  assert (EA : energy ma p = (sqrts * sqrts + ma * ma - mb * mb) / (2 * sqrts)).
  { apply Rmult_eq_reg_r with (2 * sqrts); [|lra]. unfold Rdiv. rewrite Rmult_assoc, Rinv_l, Rmult_1_r by lra.
    assert (EB : energy mb p = sqrts - energy ma p) by lra. rewrite EB in Sb. nra. }
  assert (PP : p * p = energy ma p * energy ma p - ma * ma) by lra. rewrite PP, EA. field. lra.
Qed.
Print Assumptions pCM_is_two_body_momentum.
Example pCM_example : pCM 5 0 0 = 5 / 2.
Proof.
  unfold pCM, pCM_from_s, pCM_sqr_from_s. replace ((5 * 5 + 0 * 0 - 0 * 0) * (5 * 5 + 0 * 0 - 0 * 0) * (/ 4 / (5 * 5)) - 0 * 0) with (5 / 2 * (5 / 2)) by field.
  destruct (Rlt_dec 0 (5 / 2 * (5 / 2))); [|lra]. apply sqrt_square. lra.
Qed.
(** Below the threshold it is 0 only down to the difference of the masses; below that the
    function gives a momentum for a state that does not exist. *)
Theorem pCM_zero_below_threshold_refuted : exists sqrts ma mb,
  0 <= ma /\ 0 <= mb /\ 0 < sqrts < ma + mb /\ 0 < pCM sqrts ma mb.
Proof.
  exists 1, 3, 1. splits; try lra. unfold pCM, pCM_from_s, pCM_sqr_from_s.
  destruct (Rlt_dec 0 ((1 * 1 + 3 * 3 - 1 * 1) * (1 * 1 + 3 * 3 - 1 * 1) * (/ 4 / (1 * 1)) - 3 * 3)); [apply sqrt_lt_R0; auto|lra].
Qed.
Theorem pCM_zero_between sqrts ma mb : 0 <= ma -> 0 <= mb -> Rabs (ma - mb) <= sqrts <= ma + mb -> 0 < sqrts -> pCM sqrts ma mb = 0.
Proof.
  intros A B [L U] S. unfold pCM, pCM_from_s. fold (pCM_sqr sqrts ma mb).
  destruct (Rlt_dec 0 (pCM_sqr sqrts ma mb)) as [C|C]; auto. exfalso. rewrite pcm2_factor in C by lra.
  assert (X : (sqrts * sqrts - (ma + mb) * (ma + mb)) * (sqrts * sqrts - (ma - mb) * (ma - mb)) / (4 * (sqrts * sqrts)) <= 0).
  { assert (D : 0 <= sqrts * sqrts - (ma - mb) * (ma - mb)).
    { replace ((ma - mb) * (ma - mb)) with (Rabs (ma - mb) * Rabs (ma - mb)) by (rewrite <- Rabs_mult; apply Rabs_pos_eq; apply Rle_0_sqr).
      pose proof (Rabs_pos (ma - mb)). nra. }
    assert (I : 0 < / (4 * (sqrts * sqrts))) by (apply Rinv_0_lt_compat; nra).
    assert (N : (sqrts * sqrts - (ma + mb) * (ma + mb)) * (sqrts * sqrts - (ma - mb) * (ma - mb)) <= 0).
    { assert (sqrts * sqrts - (ma + mb) * (ma + mb) <= 0) by nra. nra. }
    unfold Rdiv. nra. }
  lra.
Qed.
Print Assumptions pCM_zero_between.

(** Invariant mass squared of two particles moving along z *)
Definition invariant (e1 p1 e2 p2 : R) : R := minkowski (add4 (V4 e1 0 0 p1) (V4 e2 0 0 p2)) (add4 (V4 e1 0 0 p1) (V4 e2 0 0 p2)).
Lemma invariant_eq e1 p1 e2 p2 : invariant e1 p1 e2 p2 = (e1 + e2) * (e1 + e2) - (p1 + p2) * (p1 + p2).
Proof. unfold invariant, minkowski, add4. cbn [y0 y1 y2 y3]. ring. Qed.
(** Fixed target: projectile of momentum p on a target at rest *)
Theorem fixed_target_s p mp mt : 0 <= mp -> 0 <= mt ->
  s_from_plab p mp mt = invariant (energy mp p) p mt 0 /\
  s_from_Etot (energy mp p) mp mt = invariant (energy mp p) p mt 0 /\
  s_from_Ekin (energy mp p - mp) mp mt = invariant (energy mp p) p mt 0.
Proof.
  intros A B. rewrite invariant_eq. pose proof (energy_sq mp p) as E. unfold s_from_plab, s_from_Ekin, s_from_Etot.
  fold (energy mp p). splits; nra.
Qed.
Print Assumptions fixed_target_s.
(** Two beams: projectile of momentum pp, target of momentum -pt *)
Theorem two_beams_s_Etot pp pt mp mt : 0 <= pp -> 0 <= pt ->
  s_from_Etot2 (energy mp pp) (energy mt pt) mp mt = invariant (energy mp pp) pp (energy mt pt) (- pt).
Proof.
  intros A B. rewrite invariant_eq. unfold s_from_Etot2. rewrite !energy_sq.
  replace (mp * mp + pp * pp - mp * mp) with (pp * pp) by ring. replace (mt * mt + pt * pt - mt * mt) with (pt * pt) by ring.
  rewrite !sqrt_square by auto. ring.
Qed.
Print Assumptions two_beams_s_Etot.
(** From kinetic energies it is right for equal masses ... *)
Theorem two_beams_s_Ekin_partial pp pt m : 0 <= pp -> 0 <= pt ->
  s_from_Ekin2 (energy m pp - m) (energy m pt - m) m m = invariant (energy m pp) pp (energy m pt) (- pt).
Proof.
  intros A B. unfold s_from_Ekin2. replace (energy m pp - m + m) with (energy m pp) by ring. replace (energy m pt - m + m) with (energy m pt) by ring.
  now apply two_beams_s_Etot.
Qed.
Print Assumptions two_beams_s_Ekin_partial.
(** ... and wrong otherwise: the target mass is added to the kinetic energy of the projectile. *)
Theorem two_beams_s_Ekin_refuted : exists pp pt mp mt, 0 <= pp /\ 0 <= pt /\ 0 < mp /\ 0 < mt /\
  s_from_Ekin2 (energy mp pp - mp) (energy mt pt - mt) mp mt <> invariant (energy mp pp) pp (energy mt pt) (- pt).
Proof.
  exists 0, 0, 1, 2. splits; try lra. rewrite invariant_eq. unfold s_from_Ekin2, s_from_Etot2.
  rewrite (energy_is 1 0 1), (energy_is 2 0 2) by lra.
  replace ((1 - 1 + 2) * (1 - 1 + 2) - 1 * 1) with 3 by ring. replace ((2 - 2 + 2) * (2 - 2 + 2) - 2 * 2) with 0 by ring. rewrite sqrt_0.
  replace ((1 - 1 + 2 + (2 - 2 + 2)) ^ 2 - (sqrt 3 - 0) ^ 2) with (16 - sqrt 3 * sqrt 3) by ring. rewrite sqrt_sqrt by lra. lra.
Qed.
Print Assumptions two_beams_s_Ekin_refuted.
(** From momenta the result is the invariant mass for beams whose momenta differ as much as
    the masses do, in particular for equal beams of equal particles, ... *)
Theorem two_beams_s_plab_partial pp pt mp mt : 0 <= pp -> 0 <= pt -> 0 <= mp -> 0 <= mt ->
  s_from_plab2 pp pt mp mt = invariant (energy mp pp) pp (energy mt pt) (- pt) <->
  (pp - pt) * (pp - pt) = (mp - mt) * (mp - mt).
Proof.
  intros A B C D. rewrite invariant_eq. unfold s_from_plab2, s_from_Etot2. fold (energy mp pp). fold (energy mt pt). rewrite !energy_sq.
  replace (mp * mp + pp * pp - pp * pp) with (mp * mp) by ring. replace (mt * mt + pt * pt - pt * pt) with (mt * mt) by ring.
  rewrite !sqrt_square by auto. split; intros; nra.
Qed.
Print Assumptions two_beams_s_plab_partial.
(** ... and not in general: momenta are passed on as masses. *)
Theorem two_beams_s_plab_refuted : exists pp pt mp mt, 0 <= pp /\ 0 <= pt /\ 0 < mp /\ 0 < mt /\
  s_from_plab2 pp pt mp mt <> invariant (energy mp pp) pp (energy mt pt) (- pt).
Proof. exists 2, 1, 1, 1. splits; try lra. rewrite two_beams_s_plab_partial by lra. lra. Qed.
Print Assumptions two_beams_s_plab_refuted.

(** plab_from_s and s_from_plab are inverse. *)
Theorem plab_of_s_of_plab p mp mt : 0 <= p -> 0 <= mp -> 0 < mt -> plab_from_s (s_from_plab p mp mt) mp mt = Ok p.
Proof.
  intros P A B. pose proof (energy_ge mp p A) as G. pose proof (energy_sq mp p) as Q.
  unfold plab_from_s, s_from_plab. fold (energy mp p).
  replace ((mp * mp + mt * mt + 2 * mt * energy mp p - (mp + mt) * (mp + mt)) * (mp * mp + mt * mt + 2 * mt * energy mp p - (mp - mt) * (mp - mt)))
    with (2 * mt * p * (2 * mt * p)) by nra.
  rewrite (proj2 (rltb_false _ _)) by nra. rewrite (proj2 (rltb_false _ _)) by nra. rewrite sqrt_square by nra. f_equal. field. lra.
Qed.
Print Assumptions plab_of_s_of_plab.
Theorem s_of_plab_of_s s mp mt p : 0 <= mp -> 0 < mt -> plab_from_s s mp mt = Ok p -> 0 <= p /\ s_from_plab p mp mt = s.
Proof.
  intros A B H. unfold plab_from_s in H. destruct (rltb s ((mp + mt) * (mp + mt))) eqn:L; [discriminate|]. apply rltb_false in L.
  destruct (rltb _ 0) eqn:L2; [discriminate|]. apply rltb_false in L2. injection H as <-.
  assert (I : 0 < / (2 * mt)) by (apply Rinv_0_lt_compat; lra). split.
  - apply Rmult_le_pos; [apply sqrt_pos|lra].
  - set (r := (s - (mp + mt) * (mp + mt)) * (s - (mp - mt) * (mp - mt))) in *.
    unfold s_from_plab. fold (energy mp (sqrt r / (2 * mt))). rewrite (energy_is mp (sqrt r / (2 * mt)) ((s - mp * mp - mt * mt) / (2 * mt))).
    + field. lra.
    + apply Rmult_le_pos; [nra|lra].
    + replace (sqrt r / (2 * mt) * (sqrt r / (2 * mt))) with (sqrt r * sqrt r / (4 * mt * mt)) by (field; lra). rewrite sqrt_sqrt by auto. subst r. field. lra.
Qed.
Print Assumptions s_of_plab_of_s.
Theorem plab_from_s_one_mass s m : plab_from_s1 s m = plab_from_s s m m.
Proof.
  unfold plab_from_s1, plab_from_s. replace ((m + m) * (m + m)) with (2 * m * (2 * m)) by ring.
  replace ((s - 2 * m * (2 * m)) * (s - (m - m) * (m - m))) with (s * (s - 4 * m * m)) by ring. reflexivity.
Qed.

(** Velocities of the collider frames: with them the invariant mass squared is s. *)
Definition gam (v : R) : R := / sqrt (1 - v * v).
Lemma gam_sq v : v * v < 1 -> gam v * gam v * (1 - v * v) = 1.
Proof. intros H. unfold gam. assert (P : 0 < 1 - v * v) by lra. pose proof (sqrt_lt_R0 _ P). rewrite <- (sqrt_sqrt (1 - v * v)) at 3 by lra. field. lra. Qed.
Theorem center_of_velocity_gives_s s ma mb : 0 < ma -> 0 < mb -> (ma + mb) * (ma + mb) <= s ->
  let v := center_of_velocity_v s ma mb in
  0 <= v < 1 /\ invariant (gam v * ma) (gam v * v * ma) (gam v * mb) (- (gam v * v * mb)) = s.
Proof.
  intros A B H v. assert (D : 0 < s - (ma - mb) * (ma - mb)) by nra.
  assert (N : 0 <= (s - (ma + mb) * (ma + mb)) / (s - (ma - mb) * (ma - mb))) by (apply Rmult_le_pos; [lra|left; now apply Rinv_0_lt_compat]).
  assert (VV : v * v = (s - (ma + mb) * (ma + mb)) / (s - (ma - mb) * (ma - mb))) by (apply sqrt_sqrt; auto).
  assert (V0 : 0 <= v) by apply sqrt_pos.
  assert (L : v * v < 1).
  { rewrite VV. apply Rmult_lt_reg_r with (s - (ma - mb) * (ma - mb)); auto. unfold Rdiv. rewrite Rmult_assoc, Rinv_l by lra. nra. }
  split; [split; auto; nra|]. rewrite invariant_eq. pose proof (gam_sq v L) as G.
  replace ((gam v * ma + gam v * mb) * (gam v * ma + gam v * mb) - (gam v * v * ma + - (gam v * v * mb)) * (gam v * v * ma + - (gam v * v * mb)))
    with (gam v * gam v * ((ma + mb) * (ma + mb) - v * v * ((ma - mb) * (ma - mb)))) by ring.
  assert (GI : gam v * gam v = (s - (ma - mb) * (ma - mb)) / (4 * ma * mb)).
  { apply Rmult_eq_reg_r with (1 - v * v); [|lra]. rewrite G, VV. field. split; [lra|split; lra]. }
  rewrite GI, VV. field. lra.
Qed.
Print Assumptions center_of_velocity_gives_s.
Theorem fixed_target_velocity_gives_s s ma mb : 0 < ma -> 0 < mb -> (ma + mb) * (ma + mb) <= s ->
  let v := fixed_target_projectile_v s ma mb in
  0 <= v < 1 /\ invariant (gam v * ma) (gam v * v * ma) mb 0 = s.
Proof.
  intros A B H v. assert (D : 0 < s - ma * ma - mb * mb) by nra.
  set (i := 2 * ma * mb / (s - ma * ma - mb * mb)) in *.
  assert (I : 0 < i <= 1).
  { split; [apply Rdiv_lt_0_compat; nra|]. unfold i. apply Rmult_le_reg_r with (s - ma * ma - mb * mb); auto. unfold Rdiv. rewrite Rmult_assoc, Rinv_l by lra. nra. }
  assert (VV : v * v = 1 - i * i) by (apply sqrt_sqrt; nra). assert (V0 : 0 <= v) by apply sqrt_pos.
  assert (L : v * v < 1) by nra. split; [split; auto; nra|]. rewrite invariant_eq. pose proof (gam_sq v L) as G.
  assert (GI : gam v = / i).
  { apply sq_inj; [left; apply Rinv_0_lt_compat, sqrt_lt_R0; lra|left; apply Rinv_0_lt_compat; lra|].
    apply Rmult_eq_reg_r with (1 - v * v); [|lra]. rewrite G, VV. field. lra. }
  replace ((gam v * ma + mb) * (gam v * ma + mb) - (gam v * v * ma + 0) * (gam v * v * ma + 0)) with (gam v * gam v * (1 - v * v) * (ma * ma) + mb * mb + 2 * gam v * ma * mb) by ring.
  rewrite G, GI. unfold i. field. split; [lra|split; lra].
Qed.
Print Assumptions fixed_target_velocity_gives_s.

(** get_t_range: never fails, and the squared momentum transfer of a scattering by any angle
    lies between t_max and t_min, which are reached at 0 and 180 degrees. *)
Theorem t_range_is_exact sqrts m1 m2 m3 m4 : 0 <= m1 -> 0 <= m2 -> 0 <= m3 -> 0 <= m4 -> 0 < sqrts -> m1 + m2 <= sqrts -> m3 + m4 <= sqrts ->
  exists t_min t_max, get_t_range sqrts m1 m2 m3 m4 = Ok (t_min, t_max) /\
  let pi := pCM sqrts m1 m2 in let pf := pCM sqrts m3 m4 in
  let transfer a := sub4 (V4 (energy m1 pi) 0 0 pi) (V4 (energy m3 pf) (pf * sin a) 0 (pf * cos a)) in
  (forall a, t_max <= minkowski (transfer a) (transfer a) <= t_min) /\
  minkowski (transfer 0) (transfer 0) = t_min /\ minkowski (transfer PI) (transfer PI) = t_max.
Proof.
  intros A1 A2 A3 A4 S T1 T2. destruct (pcm_energies _ _ _ A1 A2 S T1) as [E1 _]. destruct (pcm_energies _ _ _ A3 A4 S T2) as [E3 _].
  destruct (pcm_sq _ _ _ A1 A2 S T1) as [P1 _]. destruct (pcm_sq _ _ _ A3 A4 S T2) as [P3 _].
  unfold get_t_range. rewrite E1, E3. set (pi := pCM sqrts m1 m2) in *. set (pf := pCM sqrts m3 m4) in *.
  assert (PP : 0 <= pi * pf) by nra.
  destruct (Rle_dec _ _) as [L|L]; [|exfalso; apply L; nra].
  eexists _, _. split; [reflexivity|]. cbv zeta.
  assert (TR : forall a, minkowski (sub4 (V4 ((sqrts * sqrts + m1 * m1 - m2 * m2) / (2 * sqrts)) 0 0 pi) (V4 ((sqrts * sqrts + m3 * m3 - m4 * m4) / (2 * sqrts)) (pf * sin a) 0 (pf * cos a)))
    (sub4 (V4 ((sqrts * sqrts + m1 * m1 - m2 * m2) / (2 * sqrts)) 0 0 pi) (V4 ((sqrts * sqrts + m3 * m3 - m4 * m4) / (2 * sqrts)) (pf * sin a) 0 (pf * cos a)))
    = (m1 * m1 - m2 * m2 - m3 * m3 + m4 * m4) / (2 * sqrts) * ((m1 * m1 - m2 * m2 - m3 * m3 + m4 * m4) / (2 * sqrts)) - pi * pi - pf * pf + 2 * (pi * pf) * cos a).
  { intros a. unfold minkowski, sub4. cbn [y0 y1 y2 y3].
    replace ((sqrts * sqrts + m1 * m1 - m2 * m2) / (2 * sqrts) - (sqrts * sqrts + m3 * m3 - m4 * m4) / (2 * sqrts)) with ((m1 * m1 - m2 * m2 - m3 * m3 + m4 * m4) / (2 * sqrts)) by (field; lra).
    set (q := (m1 * m1 - m2 * m2 - m3 * m3 + m4 * m4) / (2 * sqrts)).
    replace (q * q - ((0 - pf * sin a) * (0 - pf * sin a) + (0 - 0) * (0 - 0) + (pi - pf * cos a) * (pi - pf * cos a)))
      with (q * q - pf * pf * (sin a * sin a + cos a * cos a) - pi * pi + 2 * (pi * pf) * cos a) by ring.
    rewrite sc. ring. }
  splits.
  - intros a. rewrite TR. pose proof (COS_bound a). nra.
  - rewrite TR, cos_0. ring.
  - rewrite TR, cos_PI. ring.
Qed.
Print Assumptions t_range_is_exact.

(** ** C72: directions *)
Lemma floor_twopi p : 0 <= p - twopi * IZR (Zfloor (p / twopi)) < twopi.
Proof.
  assert (T : 0 < twopi) by (unfold twopi; pose proof PI_RGT_0; lra).
  pose proof (Zfloor_lb (p / twopi)) as L. pose proof (Zfloor_ub (p / twopi)) as U.
  assert (E : p = twopi * (p / twopi)) by (field; lra). split; rewrite E at 1; nra.
Qed.
(** A valid direction: azimuth in [0, 2 pi), cosine in [-1, 1]. *)
Definition valid (a : angles) : Prop := 0 <= phi a < 2 * PI /\ -1 <= costheta a <= 1.
Lemma cos_sin_period t k : cos (t - 2 * PI * IZR k) = cos t /\ sin (t - 2 * PI * IZR k) = sin t.
Proof.
  destruct (Z_le_gt_dec 0 k) as [H|H].
  - pose proof (cos_period (t - 2 * PI * IZR k) (Z.to_nat k)) as C. pose proof (sin_period (t - 2 * PI * IZR k) (Z.to_nat k)) as S.
    rewrite INR_IZR_INZ, Z2Nat.id in C, S by auto. rewrite <- C, <- S. split; f_equal; ring.
  - pose proof (cos_period t (Z.to_nat (- k))) as C. pose proof (sin_period t (Z.to_nat (- k))) as S.
    rewrite INR_IZR_INZ, Z2Nat.id in C, S by lia. rewrite <- C, <- S. rewrite opp_IZR. split; f_equal; ring.
Qed.
Theorem set_phi_spec p a :
  0 <= phi (set_phi p a) < 2 * PI /\ cos (phi (set_phi p a)) = cos p /\ sin (phi (set_phi p a)) = sin p /\ costheta (set_phi p a) = costheta a.
Proof.
  unfold set_phi. cbn [phi costheta]. destruct (rltb p 0) eqn:N; [|destruct (Rle_dec twopi p) as [L|L]]; cbn [orb].
  - destruct (cos_sin_period p (Zfloor (p / twopi))). pose proof (floor_twopi p). unfold twopi in *. splits; auto; apply H1.
  - destruct (cos_sin_period p (Zfloor (p / twopi))). pose proof (floor_twopi p). unfold twopi in *. splits; auto; apply H1.
  - apply rltb_false in N. unfold twopi in *. splits; auto; lra.
Qed.
Print Assumptions set_phi_spec.
Theorem set_costheta_spec c a :
  (-1 - really_small <= c <= 1 + really_small ->
   exists a', set_costheta c a = Ok a' /\ phi a' = phi a /\ costheta a' = Rmax (-1) (Rmin 1 c)) /\
  (c < -1 - really_small \/ 1 + really_small < c -> set_costheta c a = Throw E_invalid_argument).
Proof.
  assert (RS : 0 < really_small) by (unfold really_small; lra). unfold set_costheta. split.
  - intros [L U]. rewrite (proj2 (rltb_false _ _) L), (proj2 (rltb_false _ _) U). cbn [orb]. eexists. split; [reflexivity|]. cbn [phi costheta]. split; auto.
    destruct (rltb c (-1)) eqn:E1.
    + apply rltb_spec in E1. rewrite Rmin_right, Rmax_left by lra. reflexivity.
    + apply rltb_false in E1. destruct (rltb 1 c) eqn:E2.
      * apply rltb_spec in E2. rewrite Rmin_left, Rmax_right by lra. reflexivity.
      * apply rltb_false in E2. rewrite Rmin_right, Rmax_right by lra. reflexivity.
  - intros [H|H]; rewrite (proj2 (rltb_spec _ _) H); [reflexivity|]. destruct (rltb c _); reflexivity.
Qed.
Print Assumptions set_costheta_spec.
Theorem direction_is_unit a : valid a -> inner (direction a) (direction a) = 1.
Proof.
  intros [_ C]. unfold inner, direction. cbn [x1 x2 x3].
  replace (sintheta a * cos (phi a) * (sintheta a * cos (phi a)) + sintheta a * sin (phi a) * (sintheta a * sin (phi a)) + costheta a * costheta a)
    with (sintheta a * sintheta a * (sin (phi a) * sin (phi a) + cos (phi a) * cos (phi a)) + costheta a * costheta a) by ring.
  rewrite sc. unfold sintheta. rewrite sqrt_sqrt by nra. ring.
Qed.
Print Assumptions direction_is_unit.
Lemma set_theta_ok t a : 0 <= t <= PI -> set_theta t a = Ok (Ang (phi a) (cos t)).
Proof.
  intros T. unfold set_theta, set_costheta. assert (RS : 0 < really_small) by (unfold really_small; lra). pose proof (COS_bound t) as [L U].
  rewrite !(proj2 (rltb_false _ _)) by lra. reflexivity.
Qed.
Lemma sin_acos' c : -1 <= c <= 1 -> sin (acos c) = sqrt (1 - c * c).
Proof. intros. rewrite sin_acos by auto. reflexivity. Qed.
Lemma sqrt_cos t : 0 <= t <= PI -> sqrt (1 - cos t * cos t) = sin t.
Proof. intros. rewrite <- sc. apply sqrt_square. apply sin_ge_0; lra. Qed.
(** add_to_theta moves the direction by delta along its meridian, over the poles if need be,
    and tells whether it went over a pole.  [south a] is the unit vector along the meridian. *)
Definition south (a : angles) : vec3 := V3 (cos (theta a) * cos (phi a)) (cos (theta a) * sin (phi a)) (- sin (theta a)).
Theorem add_to_theta_moves_along_meridian delta a : valid a -> - PI <= delta <= PI ->
  exists a' crossed, add_to_theta delta a = Ok (a', crossed) /\ valid a' /\
    direction a' = add3 (scale3 (cos delta) (direction a)) (scale3 (sin delta) (south a)) /\
    south a' = scale3 (if crossed then - 1 else 1) (add3 (scale3 (- sin delta) (direction a)) (scale3 (cos delta) (south a))) /\
    (crossed = true <-> ~ 0 <= theta a + delta <= PI).
Proof.
  intros [Vp Vc] D. pose proof PI_RGT_0 as PP.
  assert (T : 0 <= theta a <= PI) by (unfold theta; apply acos_bound).
  assert (CT : cos (theta a) = costheta a) by (unfold theta; apply cos_acos; auto).
  assert (ST : sin (theta a) = sintheta a) by (unfold theta; rewrite sin_acos by auto; reflexivity).
  assert (GEN : forall a', costheta a' = cos (theta a + delta) ->
     sintheta a' * cos (phi a') = sin (theta a + delta) * cos (phi a) -> sintheta a' * sin (phi a') = sin (theta a + delta) * sin (phi a) ->
     direction a' = add3 (scale3 (cos delta) (direction a)) (scale3 (sin delta) (south a))).
  { intros a' E1 E2 E3. unfold direction at 1. rewrite E2, E3, E1, sin_plus, cos_plus. unfold add3, scale3, direction, south. cbn [x1 x2 x3].
    rewrite <- ST, <- CT. f_equal; ring. }
  assert (SOU : forall a' (k : R) t, costheta a' = cos t -> 0 <= t <= PI -> cos t = cos (theta a + delta) -> sin t = k * sin (theta a + delta) -> k = 1 \/ k = - 1 ->
     cos (phi a') = k * cos (phi a) -> sin (phi a') = k * sin (phi a) ->
     south a' = scale3 k (add3 (scale3 (- sin delta) (direction a)) (scale3 (cos delta) (south a)))).
  { intros a' k t E1 TT E2 E3 K E4 E5. unfold south at 1.
    assert (TH : theta a' = t) by (unfold theta; rewrite E1; apply acos_cos; auto). rewrite TH, E2, E3, E4, E5, cos_plus, sin_plus.
    unfold add3, scale3, direction, south. cbn [x1 x2 x3]. rewrite <- ST, <- CT. f_equal; ring. }
  unfold add_to_theta. rewrite !(proj2 (rltb_false _ _)) by lra. cbn [orb].
  rewrite (Rplus_comm delta).
  destruct (rltb PI (theta a + delta)) eqn:U; [|apply rltb_false in U; destruct (rltb (theta a + delta) 0) eqn:L].
  - apply rltb_spec in U. rewrite set_theta_ok by (unfold twopi; lra). cbn [rbind phi].
    eexists _, true. split; [reflexivity|].
    destruct (set_phi_spec (phi a + PI) (Ang (phi a) (cos (twopi - (theta a + delta))))) as (F1 & F2 & F3 & F4). cbn [costheta] in F4.
    assert (CC : cos (twopi - (theta a + delta)) = cos (theta a + delta)).
    { destruct (cos_sin_period (- (theta a + delta)) (-1)) as [H _]. rewrite cos_neg in H. rewrite <- H. f_equal. unfold twopi. ring. }
    splits.
    + split; auto. rewrite F4. apply COS_bound.
    + apply GEN; [congruence| |]; unfold sintheta; rewrite F4, ?F2, ?F3, sqrt_cos by (unfold twopi; lra); rewrite ?neg_cos, ?neg_sin.
      * assert (SS : sin (twopi - (theta a + delta)) = - sin (theta a + delta)).
        { destruct (cos_sin_period (- (theta a + delta)) (-1)) as [_ H]. rewrite sin_neg in H. rewrite <- H. f_equal. unfold twopi. ring. }
        rewrite SS. ring.
      * assert (SS : sin (twopi - (theta a + delta)) = - sin (theta a + delta)).
        { destruct (cos_sin_period (- (theta a + delta)) (-1)) as [_ H]. rewrite sin_neg in H. rewrite <- H. f_equal. unfold twopi. ring. }
        rewrite SS. ring.
    + apply (SOU _ (- 1) (twopi - (theta a + delta))); rewrite ?F2, ?F3, ?neg_cos, ?neg_sin; auto; try (unfold twopi; lra); try ring.
      destruct (cos_sin_period (- (theta a + delta)) (-1)) as [_ H]. rewrite sin_neg in H. replace (- 1 * sin (theta a + delta)) with (- sin (theta a + delta)) by ring. rewrite <- H. f_equal. unfold twopi. ring.
    + split; auto. intros _. lra.
  - apply rltb_spec in L. rewrite set_theta_ok by lra. cbn [rbind phi].
    eexists _, true. split; [reflexivity|].
    destruct (set_phi_spec (phi a + PI) (Ang (phi a) (cos (- (theta a + delta))))) as (F1 & F2 & F3 & F4). cbn [costheta] in F4.
    splits.
    + split; auto. rewrite F4. apply COS_bound.
    + apply GEN; [rewrite F4; apply cos_neg| |]; unfold sintheta; rewrite F4, ?F2, ?F3, sqrt_cos by lra; rewrite sin_neg, ?neg_cos, ?neg_sin; ring.
    + apply (SOU _ (- 1) (- (theta a + delta))); rewrite ?F2, ?F3, ?neg_cos, ?neg_sin, ?cos_neg, ?sin_neg; auto; lra.
    + split; auto. intros _. lra.
  - apply rltb_false in L. rewrite set_theta_ok by lra. cbn [rbind].
    eexists _, false. split; [reflexivity|]. splits.
    + split; auto. cbn [costheta]. apply COS_bound.
    + apply GEN; cbn [costheta phi]; auto; unfold sintheta; cbn [costheta]; rewrite sqrt_cos by lra; reflexivity.
    + apply (SOU _ 1 (theta a + delta)); cbn [costheta phi]; auto; try lra.
    + split; [discriminate|]. intros H. exfalso. apply H. lra.
Qed.
Print Assumptions add_to_theta_moves_along_meridian.
Theorem add_to_theta_rejects delta a : delta < - PI \/ PI < delta -> add_to_theta delta a = Throw E_invalid_argument.
Proof. intros [H|H]; unfold add_to_theta; rewrite (proj2 (rltb_spec _ _) H); [reflexivity|]. destruct (rltb delta (- PI)); reflexivity. Qed.
(** Doing a step over a pole and the same step back with the flag returned gives the old
    direction and "not reversed". *)
Theorem add_to_theta_there_and_back delta a : valid a -> - PI <= delta <= PI ->
  exists a' f, add_to_theta_rev delta false a = Ok (a', f) /\
  exists a'' f', add_to_theta_rev (- delta) f a' = Ok (a'', f') /\ direction a'' = direction a.
Proof.
  intros V D. destruct (add_to_theta_moves_along_meridian delta a V D) as (a' & c & E & V' & DIR & SOU & CR).
  exists a', c. unfold add_to_theta_rev. rewrite Rmult_1_l, E. cbn [rbind]. rewrite xorb_false_r. split; [reflexivity|].
  destruct (add_to_theta_moves_along_meridian ((if c then - 1 else 1) * - delta) a' V') as (a'' & c' & E' & _ & DIR' & _); [destruct c; lra|].
  exists a'', (xorb c' c). rewrite E'. cbn [rbind]. split; [reflexivity|]. rewrite DIR', SOU, DIR.
  replace (cos ((if c then - 1 else 1) * - delta)) with (cos delta).
  2: { destruct c; [f_equal; ring|]. rewrite Rmult_1_l, cos_neg. reflexivity. }
  replace (sin ((if c then - 1 else 1) * - delta)) with (- (if c then - 1 else 1) * sin delta).
  2: { destruct c; [replace (- 1 * - delta) with delta by ring; ring|]. rewrite Rmult_1_l, sin_neg. ring. }
  assert (SC : forall x, (sin delta * sin delta + cos delta * cos delta) * x = x) by (intros x; rewrite sc; ring).
  apply vec3_eq; unfold add3, scale3; cbn [x1 x2 x3]; [rewrite <- (SC (x1 (direction a))) at 3|rewrite <- (SC (x2 (direction a))) at 3|rewrite <- (SC (x3 (direction a))) at 3]; destruct c; ring.
Qed.
Print Assumptions add_to_theta_there_and_back.
Example valid_example : valid (Ang 0 0) /\ direction (Ang 0 0) = V3 1 0 0.
Proof.
  split; [unfold valid; cbn; pose proof PI_RGT_0; lra|]. unfold direction, sintheta. cbn [phi costheta]. rewrite cos_0, sin_0.
  replace (1 - 0 * 0) with 1 by ring. rewrite sqrt_1. f_equal; ring.
Qed.

(** ** C73: comparisons *)
Theorem less_is_componentwise a b : lt4 a b = true <-> y0 a < y0 b /\ y1 a < y1 b /\ y2 a < y2 b /\ y3 a < y3 b.
Proof. unfold lt4. rewrite !andb_true_iff, !rltb_spec. tauto. Qed.
Theorem greater_is_componentwise a b : gt4 a b = true <-> y0 a > y0 b /\ y1 a > y1 b /\ y2 a > y2 b /\ y3 a > y3 b.
Proof. unfold gt4. rewrite less_is_componentwise. unfold Rgt. tauto. Qed.
(** a <= b does not say that every component is below or equal; only the converse holds. *)
Theorem less_equal_componentwise_partial a b : y0 a <= y0 b /\ y1 a <= y1 b /\ y2 a <= y2 b /\ y3 a <= y3 b -> le4 a b = true.
Proof. intros H. unfold le4, gt4, lt4. rewrite (proj2 (rltb_false (y0 b) (y0 a))) by tauto. reflexivity. Qed.
Theorem less_equal_componentwise_refuted : exists a b, le4 a b = true /\ y1 a > y1 b /\ y2 a > y2 b /\ y3 a > y3 b /\ le4 b a = true.
Proof.
  exists (V4 0 1 1 1), (V4 0 0 0 0). unfold le4, gt4, lt4. cbn [y0 y1 y2 y3]. rewrite (proj2 (rltb_false 0 0)) by lra. cbn. splits; auto; lra.
Qed.
Print Assumptions less_is_componentwise.
Print Assumptions less_equal_componentwise_refuted.
