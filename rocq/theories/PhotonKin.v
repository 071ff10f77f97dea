(** Momenta of direct photons. *)
From Coq Require Import ZArith Reals List Bool Lia Lra Psatz.
From Verif Require Import Base VecModel VecProps MotionModel KinProps FinalProps ScatModel ScatAngle ScatFinal PhotonModel.
Import ListNotations.
Open Scope R_scope.
Local Notation energy := KinProps.energy.

(** ** Hadron and photon *)
Definition draw (u : R) : Prop := 0 <= u < 1.
Lemma cm_sqr p1 p2 : incoming 0 0 p1 p2 \/ 0 < minkowski (add4 p1 p2) (add4 p1 p2) -> cm_energy p1 p2 * cm_energy p1 p2 = minkowski (add4 p1 p2) (add4 p1 p2).
Proof. intros H. unfold cm_energy. apply sqrt_sqrt. destruct H as [(_ & _ & _ & _ & _ & M)|M]; lra. Qed.
Lemma pcm_photon M m : 0 <= m -> 0 < M -> m <= M -> pCM M m 0 = (M * M - m * m) / (2 * M).
Proof.
  intros A B C. destruct (pCM_is_two_body_momentum M m 0) as (P & _ & U); try lra. symmetry. apply U.
  - apply Rmult_le_pos; [nra|left; apply Rinv_0_lt_compat; lra].
  - set (k := (M * M - m * m) / (2 * M)). assert (K : 0 <= k) by (apply Rmult_le_pos; [nra|left; apply Rinv_0_lt_compat; lra]).
    unfold energy. replace (0 * 0 + k * k) with (k * k) by ring. rewrite sqrt_square by auto.
    replace (m * m + k * k) with ((M - k) * (M - k)) by (unfold k; field; lra). rewrite sqrt_square; [ring|]. unfold k.
    replace (M - (M * M - m * m) / (2 * M)) with ((M * M + m * m) / (2 * M)) by (field; lra). apply Rmult_le_pos; [nra|left; apply Rinv_0_lt_compat; lra].
Qed.
Lemma range_exists M m1 m2 m : exists t0 t1, get_t_range M m1 m2 m 0 = Ok (t0, t1) /\ t0 - t1 = 4 * pCM M m1 m2 * pCM M m 0.
Proof.
  unfold get_t_range. destruct (Rle_dec _ _) as [L|L].
  - eexists _, _. split; [reflexivity|]. ring.
  - exfalso. apply L. assert (forall a b, 0 <= pCM a b 0) by (intros; unfold pCM, pCM_from_s; destruct (Rlt_dec _ _); [apply sqrt_pos|lra]).
    assert (forall a b c, 0 <= pCM a b c) by (intros; unfold pCM, pCM_from_s; destruct (Rlt_dec _ _); [apply sqrt_pos|lra]).
    pose proof (H M m). pose proof (H0 M m1 m2). nra.
Qed.
(** what the code computes: the drawn t lies in its range, and the cosine of the polar angle is linear in t, from -1 to 1 *)
Lemma photon_steps p1 p2 m1 m2 m ut uphi : incoming m1 m2 p1 p2 -> 0 <= m -> m < cm_energy p1 p2 -> m1 + m2 < cm_energy p1 p2 -> draw ut -> draw uphi ->
  exists t0 t1 ang, get_t_range (cm_energy p1 p2) m1 m2 m 0 = Ok (t0, t1) /\ t1 < t0 /\ valid ang /\
  let t := uniform t1 t0 ut in
  t1 <= t < t0 /\ costheta ang = 2 * ut - 1 /\ phi ang = twopi * uphi /\
  photon_final p1 p2 m1 m2 m ut uphi = Ok (t, boost (neg3 (velocity (add4 p1 p2))) (on_shell m (scale3 (pCM (cm_energy p1 p2) m 0) (direction ang))),
    boost (neg3 (velocity (add4 p1 p2))) (on_shell 0 (scale3 (pCM (cm_energy p1 p2) m 0) (neg3 (direction ang))))).
Proof.
  intros I M0 ML TL U1 U2. destruct (cm_momentum _ _ _ _ I) as (_ & _ & _ & EC). pose proof I as (M1 & M2 & _ & _ & _ & MM).
  set (W := cm_energy p1 p2) in *. assert (WW : W * W = minkowski (add4 p1 p2) (add4 p1 p2)) by (apply cm_sqr; auto).
  destruct (range_exists W m1 m2 m) as (t0 & t1 & TR & DT).
  assert (PF : pCM W m 0 = (W * W - m * m) / (2 * W)) by (apply pcm_photon; lra).
  assert (PF0 : 0 < pCM W m 0). { rewrite PF. apply Rmult_lt_0_compat; [nra|apply Rinv_0_lt_compat; lra]. }
  assert (PI0 : 0 < pCM W m1 m2).
  { destruct (pCM_is_two_body_momentum W m1 m2 M1 M2 EC) as (P0 & PE & _); [lra|]. destruct P0 as [|P0]; auto. exfalso. rewrite <- P0 in PE. unfold energy in PE.
    replace (m1 * m1 + 0 * 0) with (m1 * m1) in PE by ring. replace (m2 * m2 + 0 * 0) with (m2 * m2) in PE by ring. rewrite !sqrt_square in PE by auto. lra. }
  assert (TT : t1 < t0) by nra. unfold draw in *.
  set (t := uniform t1 t0 ut). assert (TB : t1 <= t < t0) by (unfold t, uniform; nra).
  assert (E0 : t0 = (energy m1 (pCM W m1 m2) - energy m (pCM W m 0)) * (energy m1 (pCM W m1 m2) - energy m (pCM W m 0)) - (pCM W m1 m2 - pCM W m 0) * (pCM W m1 m2 - pCM W m 0)).
  { destruct (edges_eq p1 p2 m1 m2 m 0 t0 t1 I M0 (Rle_refl 0)) as (E & _); auto. fold W. lra. }
  destruct (pcm_energies W m1 m2 M1 M2 EC) as (EI & _); [lra|]. destruct (pcm_energies W m 0 M0 (Rle_refl 0) EC) as (EF & _); [lra|].
  pose proof (energy_sq m1 (pCM W m1 m2)) as SI. pose proof (energy_sq m (pCM W m 0)) as SF.
  assert (CO : photon_cos (W * W) W m1 m2 m (pCM W m1 m2) t = Ok (2 * ut - 1)).
  { unfold photon_cos. assert (D : pCM W m1 m2 * (W * W - m * m) / W = 2 * (pCM W m1 m2 * pCM W m 0)) by (rewrite PF; field; lra). rewrite D.
    destruct (Req_EM_T _ 0) as [Z0|Z0]; [nra|].
    assert (NUM : t - m2 * m2 + 5 / 10 * (W * W + m2 * m2 - m1 * m1) * (W * W - m * m) / (W * W) = (2 * ut - 1) * (2 * (pCM W m1 m2 * pCM W m 0))).
    { replace t with (t0 - (1 - ut) * (4 * pCM W m1 m2 * pCM W m 0)) by (rewrite <- DT; unfold t, uniform; ring). rewrite E0.
      replace ((energy m1 (pCM W m1 m2) - energy m (pCM W m 0)) * (energy m1 (pCM W m1 m2) - energy m (pCM W m 0)))
        with (m1 * m1 + pCM W m1 m2 * pCM W m1 m2 + (m * m + pCM W m 0 * pCM W m 0) - 2 * energy m1 (pCM W m1 m2) * energy m (pCM W m 0)) by nra.
      rewrite EI, EF. replace (5 / 10 * (W * W + m2 * m2 - m1 * m1) * (W * W - m * m) / (W * W)) with ((W * W + m2 * m2 - m1 * m1) / W * pCM W m 0) by (rewrite PF; field; lra).
      assert (Y : m * m = W * W - 2 * W * pCM W m 0) by (rewrite PF; field; lra). rewrite Y. field. lra. }
    rewrite NUM. replace ((2 * ut - 1) * (2 * (pCM W m1 m2 * pCM W m 0)) / (2 * (pCM W m1 m2 * pCM W m 0))) with (2 * ut - 1) by (field; nra).
    destruct (Rlt_dec 1 (2 * ut - 1)); [lra|]. destruct (Rlt_dec (2 * ut - 1) (-1)); [lra|]. reflexivity. }
  destruct (set_costheta_spec (2 * ut - 1) (set_phi (uniform 0 twopi uphi) (Ang 0 0))) as (SC & _). destruct SC as (ang & SA & PH & CT); [unfold really_small; lra|].
  assert (CT' : costheta ang = 2 * ut - 1) by (rewrite CT, Rmin_right, Rmax_right; lra).
  assert (PH' : phi ang = twopi * uphi).
  { rewrite PH. unfold set_phi, uniform. cbn [phi]. assert (B : 0 <= 0 + (twopi - 0) * uphi < twopi) by (unfold twopi; pose proof PI_RGT_0; nra).
    unfold rltb. destruct (Rlt_dec _ 0); [lra|]. destruct (Rle_dec twopi _); [lra|]. cbn [orb]. ring. }
  exists t0, t1, ang. split; [auto|]. split; [auto|]. split; [eapply set_valid; exact SA|]. cbv zeta. fold t. split; [auto|]. split; [auto|]. split; [auto|].
  unfold photon_final. rewrite sqr_mink. fold (cm_energy p1 p2). fold W. rewrite TR. cbn [rbind]. fold t. rewrite <- WW, CO. cbn [rbind]. rewrite SA. cbn [rbind]. reflexivity.
Qed.

(** Whatever the random numbers: the outgoing hadron and the photon are on their mass shells and carry the total momentum of the pair. *)
Theorem photon_final_state p1 p2 m1 m2 m ut uphi : incoming m1 m2 p1 p2 -> 0 <= m -> m < cm_energy p1 p2 -> m1 + m2 < cm_energy p1 p2 -> draw ut -> draw uphi ->
  exists t h g, photon_final p1 p2 m1 m2 m ut uphi = Ok (t, h, g) /\ add4 h g = add4 p1 p2 /\ shell m h /\ shell 0 g /\
  exists t0 t1, t_edges p1 p2 m1 m2 m 0 t0 t1 /\ t = t1 + (t0 - t1) * ut /\ t1 <= t < t0.
Proof.
  intros I M0 ML TL U1 U2. destruct (photon_steps _ _ _ _ _ _ _ I M0 ML TL U1 U2) as (t0 & t1 & ang & TR & TT & V & TB & _ & _ & E). destruct (cm_momentum _ _ _ _ I) as (_ & _ & _ & EC).
  eexists _, _, _. split; [exact E|].
  assert (U : unit (direction ang)) by now apply direction_is_unit.
  pose proof (two_body_final_state (cm_energy p1 p2) m 0 _ M0 (Rle_refl 0) EC ltac:(lra) U) as TB2. unfold sample_angles in TB2. destruct TB2 as (S & SA & SB).
  pose proof I as (_ & _ & _ & _ & E0 & MM).
  destruct (boost2 p1 p2 _ _ m 0 E0 MM S SA SB) as (B1 & C1 & C2).
  split; [exact B1|split; [exact C1|split; [exact C2|]]].
  exists t0, t1. split; [exact TR|]. split; [reflexivity|]. exact TB.
Qed.
Print Assumptions photon_final_state.

(** The momentum transfer between the second particle and the photon is the t drawn if the pion moves along the z axis in
    the centre-of-mass frame. In general it is not: the direction is used as it is, without turning it to the direction of the
    collision (photon_transfer_refuted). *)
Theorem photon_transfer_partial p1 p2 m1 m2 m ut uphi q t h g : incoming m1 m2 p1 p2 -> 0 <= m -> m < cm_energy p1 p2 -> m1 + m2 < cm_energy p1 p2 -> draw ut -> draw uphi ->
  in_cm p1 p2 = V4 (y0 (in_cm p1 p2)) 0 0 q -> 0 <= q -> photon_final p1 p2 m1 m2 m ut uphi = Ok (t, h, g) ->
  minkowski (sub4 p1 h) (sub4 p1 h) = t /\ minkowski (sub4 p2 g) (sub4 p2 g) = t.
Proof.
  intros I M0 ML TL U1 U2 AX Q0 H. destruct (photon_final_state _ _ _ _ _ _ _ I M0 ML TL U1 U2) as (t' & h' & g' & H' & S & SH & SG & _).
  assert (t' = t /\ h' = h /\ g' = g) as (-> & -> & ->) by (split; [|split]; congruence).
  enough (T : minkowski (sub4 p1 h) (sub4 p1 h) = t).
  { split; auto. rewrite <- T. assert (X : sub4 p2 g = sub4 h p1).
    { destruct p1 as [a0 a1 a2 a3], p2 as [b0 b1 b2 b3], h as [c0 c1 c2 c3], g as [d0 d1 d2 d3]. unfold add4, sub4 in *. cbn [y0 y1 y2 y3] in *. injection S as S0 S1 S2 S3. f_equal; lra. }
    rewrite X. unfold minkowski, sub4. cbn [y0 y1 y2 y3]. ring. }
  destruct (photon_steps _ _ _ _ _ _ _ I M0 ML TL U1 U2) as (t0 & t1 & ang & TR & TT & V & TB & CT & _ & E). rewrite H in E.
  destruct (cm_momentum _ _ _ _ I) as (SQ & PQ & T1 & EC). pose proof I as (M1 & M2 & S1 & S2 & E0 & MM).
  destruct (edges_eq p1 p2 m1 m2 m 0 t0 t1 I M0 (Rle_refl 0)) as (EQ & DT); [lra|exact TR|].
  set (W := cm_energy p1 p2) in *. set (pi := pCM W m1 m2) in *. set (pf := pCM W m 0) in *.
  set (v := neg3 (velocity (add4 p1 p2))) in *. set (hc := on_shell m (scale3 pf (direction ang))) in *.
  assert (EH : h = boost v hc) by congruence. assert (ET : t = uniform t1 t0 ut) by congruence.
  destruct (boost_to_rest_frame _ E0 MM) as (SV & _).
  assert (SV' : speed2 v < 1) by (unfold v, speed2, neg3 in *; cbn [x1 x2 x3] in *; lra).
  assert (EP : p1 = boost v (in_cm p1 p2)) by (unfold v, in_cm; symmetry; now apply boost_inverse).
  assert (SB : sub4 p1 h = boost v (sub4 (in_cm p1 p2) hc)).
  { rewrite EH. rewrite EP at 1. set (a := in_cm p1 p2). clearbody a hc v. apply vec4_eq; unfold sub4, boost, mk4, sub3, scale3, dot3, threevec; cbn [y0 y1 y2 y3 x1 x2 x3]; ring. }
  rewrite SB, boost_preserves_product by auto.
  assert (QP : q = pi). { rewrite <- PQ, AX. unfold inner, threevec. cbn [x1 x2 x3 y1 y2 y3]. replace (0 * 0 + 0 * 0 + q * q) with (q * q) by ring. now rewrite sqrt_square. }
  assert (U : unit (direction ang)) by now apply direction_is_unit.
  assert (Y0 : y0 (in_cm p1 p2) = energy m1 pi). { rewrite (energy_of m1 _ SQ). f_equal. exact PQ. }
  assert (HC : hc = V4 (energy m pf) (x1 (direction ang) * pf) (x2 (direction ang) * pf) (costheta ang * pf)).
  { unfold hc, on_shell. rewrite dot_scale by auto. unfold mk4, scale3, energy. cbn [x1 x2 x3]. reflexivity. }
  rewrite AX, HC, Y0, QP. unfold minkowski, sub4. cbn [y0 y1 y2 y3]. unfold unit, inner in U. 
  assert (U3 : x3 (direction ang) = costheta ang) by reflexivity. rewrite U3 in U.
  pose proof (energy_sq m1 pi) as SI. pose proof (energy_sq m pf) as SF.
  rewrite ET. replace (uniform t1 t0 ut) with (t0 - (1 - ut) * (4 * pi * pf)) by (rewrite <- DT; unfold uniform; ring). rewrite EQ, CT.
  rewrite CT in U. set (a := x1 (direction ang)) in *. set (b := x2 (direction ang)) in *.
  assert (A : a * a = 1 - (2 * ut - 1) * (2 * ut - 1) - b * b) by lra. apply Rminus_diag_uniq.
  transitivity (pf * pf * (1 - (2 * ut - 1) * (2 * ut - 1) - b * b - a * a)); [ring|rewrite A; ring].
Qed.
Print Assumptions photon_transfer_partial.
