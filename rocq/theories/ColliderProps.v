(** Beam energies, frames and start positions of a collision (C79, C80). *)
From Coq Require Import ZArith Reals List Bool Lra Lia.
From Verif Require Import Base VecModel VecProps KinProps MotionModel MotionProps.
Import ListNotations.
Open Scope R_scope.

(** ** C79 *)
(** What an input says about the momenta per nucleon along the beam: pa of the projectile
    (forwards) and pb of the target (backwards). *)
Definition describes (ma mb : R) (i : energy_input) (pa pb : R) : Prop :=
  0 <= pa /\ 0 <= pb /\
  match i with
  | SqrtSNN e => 0 < e /\ e * e = invariant (energy ma pa) pa (energy mb pb) (- pb)
  | ETot e => e = energy ma pa /\ pb = 0
  | EKin e => e = energy ma pa - ma /\ pb = 0
  | PLab p => p = pa /\ pb = 0
  | ETot2 e1 e2 => e1 = energy ma pa /\ e2 = energy mb pb
  | EKin2 e1 e2 => e1 = energy ma pa - ma /\ e2 = energy mb pb - mb
  | PLab2 p1 p2 => p1 = pa /\ p2 = pb
  end.
(** The squared collision energies of the nuclei (np and nt nucleons) and of a nucleon pair. *)
Definition s_nuclei (np nt : nat) (ma mb pa pb : R) : R :=
  invariant (INR np * energy ma pa) (INR np * pa) (INR nt * energy mb pb) (- (INR nt * pb)).
Definition s_pair (ma mb pa pb : R) : R := invariant (energy ma pa) pa (energy mb pb) (- pb).

Lemma energy_scale n m p : 0 <= n -> energy (n * m) (n * p) = n * energy m p.
Proof. intros N. apply energy_is; [apply Rmult_le_pos; auto using energy_pos|]. pose proof (energy_sq m p). nra. Qed.
Lemma energy_0 m : 0 <= m -> energy m 0 = m.
Proof. intros. apply energy_is; lra. Qed.
Lemma s_pair_eq ma mb pa pb : s_pair ma mb pa pb = ma * ma + mb * mb + 2 * (energy ma pa * energy mb pb + pa * pb).
Proof. unfold s_pair. rewrite invariant_eq. pose proof (energy_sq ma pa). pose proof (energy_sq mb pb). nra. Qed.
Lemma s_pair_pos ma mb pa pb : 0 <= pa -> 0 <= pb -> 0 <= s_pair ma mb pa pb.
Proof. intros. rewrite s_pair_eq. pose proof (energy_pos ma pa). pose proof (energy_pos mb pb). nra. Qed.
Lemma s_nuclei_pair np nt ma mb pa pb : s_nuclei np nt ma mb pa pb = s_pair (INR np * ma) (INR nt * mb) (INR np * pa) (INR nt * pb).
Proof. unfold s_nuclei, s_pair. now rewrite !energy_scale by apply pos_INR. Qed.
Lemma inr_pos n : (0 < n)%nat -> 0 < INR n. Proof. intros. now apply lt_0_INR. Qed.

(** Except for kinetic energies, momenta and (for the nucleon pair) total energies of two beams,
    the energies are the ones of the described beams. *)
Theorem beam_energy_partial np nt ma mb i pa pb : (0 < np)%nat -> (0 < nt)%nat -> 0 < ma -> 0 < mb ->
  describes ma mb i pa pb -> match i with SqrtSNN e => ma + mb < e | _ => True end ->
  match i with EKin2 _ _ | PLab2 _ _ => False | _ => True end ->
  exists s snn, collision_energy np nt (INR np * ma) (INR nt * mb) i = Ok (s, snn) /\ s = s_nuclei np nt ma mb pa pb /\
  (match i with ETot2 _ _ => False | _ => True end -> 0 <= snn /\ snn * snn = s_pair ma mb pa pb).
Proof.
  intros NP NT MA MB (PA & PB & D) TH OK. apply inr_pos in NP. apply inr_pos in NT.
  unfold collision_energy. replace (INR np * ma / INR np) with ma by (field; lra). replace (INR nt * mb / INR nt) with mb by (field; lra).
  assert (SQ : forall x, 0 <= x -> 0 <= sqrt x /\ sqrt x * sqrt x = x) by (intros; split; [apply sqrt_pos|now apply sqrt_sqrt]).
  assert (EA : ma <= energy ma pa) by (apply energy_ge; lra). assert (EB : mb <= energy mb pb) by (apply energy_ge; lra).
  rewrite s_nuclei_pair.
  destruct i as [e|e|e|p|e1 e2|e1 e2|p1 p2]; try contradiction.
  - destruct D as [E0 D]. destruct (Rle_dec e (ma + mb)); [lra|]. do 2 eexists. splits; [reflexivity| |].
    + change (invariant (energy ma pa) pa (energy mb pb) (- pb)) with (s_pair ma mb pa pb) in D. rewrite s_pair_eq in D.
      rewrite D, s_pair_eq, !energy_scale by lra. field. lra.
    + intros _. split; [lra|exact D].
  - destruct D as [-> ->]. destruct (Rlt_dec _ 0); [lra|]. do 2 eexists. splits; [reflexivity| |].
    + replace (energy ma pa * INR np) with (energy (INR np * ma) (INR np * pa)) by (rewrite energy_scale by lra; ring).
      destruct (fixed_target_s (INR np * pa) (INR np * ma) (INR nt * mb)) as (_ & E & _); try nra. rewrite E.
      unfold s_pair. rewrite Rmult_0_r, energy_0 by nra. f_equal. ring.
    + intros _. destruct (fixed_target_s pa ma mb) as (_ & E & _); try lra. rewrite E. 
      replace (invariant (energy ma pa) pa mb 0) with (s_pair ma mb pa 0) by (unfold s_pair; rewrite energy_0 by lra; f_equal; ring). apply SQ, s_pair_pos; lra.
  - destruct D as [-> ->]. destruct (Rlt_dec _ 0); [lra|]. do 2 eexists. splits; [reflexivity| |].
    + replace ((energy ma pa - ma) * INR np) with (energy (INR np * ma) (INR np * pa) - INR np * ma) by (rewrite energy_scale by lra; ring).
      destruct (fixed_target_s (INR np * pa) (INR np * ma) (INR nt * mb)) as (_ & _ & E); try nra. rewrite E.
      unfold s_pair. rewrite Rmult_0_r, energy_0 by nra. f_equal. ring.
    + intros _. destruct (fixed_target_s pa ma mb) as (_ & _ & E); try lra. rewrite E.
      replace (invariant (energy ma pa) pa mb 0) with (s_pair ma mb pa 0) by (unfold s_pair; rewrite energy_0 by lra; f_equal; ring). apply SQ, s_pair_pos; lra.
  - destruct D as [-> ->]. destruct (Rlt_dec _ 0); [lra|]. do 2 eexists. splits; [reflexivity| |].
    + replace (pa * INR np) with (INR np * pa) by ring. destruct (fixed_target_s (INR np * pa) (INR np * ma) (INR nt * mb)) as (E & _); try nra. rewrite E.
      unfold s_pair. rewrite Rmult_0_r, energy_0 by nra. f_equal. ring.
    + intros _. destruct (fixed_target_s pa ma mb) as (E & _); try lra. rewrite E.
      replace (invariant (energy ma pa) pa mb 0) with (s_pair ma mb pa 0) by (unfold s_pair; rewrite energy_0 by lra; f_equal; ring). apply SQ, s_pair_pos; lra.
  - destruct D as [-> ->]. rewrite !(proj2 (rltb_false _ _)) by lra. cbn [orb]. do 2 eexists. splits; [reflexivity| |intros []].
    replace (energy ma pa * INR np) with (energy (INR np * ma) (INR np * pa)) by (rewrite energy_scale by lra; ring).
    replace (energy mb pb * INR nt) with (energy (INR nt * mb) (INR nt * pb)) by (rewrite energy_scale by lra; ring).
    rewrite two_beams_s_Etot by nra. reflexivity.
Qed.
Print Assumptions beam_energy_partial.
Example beam_energy_example : describes 1 1 (ETot 2) (sqrt 3) 0.
Proof.
  unfold describes. pose proof (sqrt_pos 3). pose proof (sqrt_sqrt 3 ltac:(lra)). splits; try lra. symmetry. apply energy_is; lra.
Qed.

(** Total energies of two beams: the nucleon-pair energy is computed as if they were kinetic. *)
Theorem beam_energy_two_totals_refuted : exists pa pb s snn,
  describes 1 1 (ETot2 1 1) pa pb /\ collision_energy 1 1 1 1 (ETot2 1 1) = Ok (s, snn) /\ snn * snn <> s_pair 1 1 pa pb.
Proof.
  exists 0, 0. unfold collision_energy. rewrite !(proj2 (rltb_false _ _)) by lra. cbn [orb]. do 2 eexists. splits; [|reflexivity|].
  - unfold describes. rewrite energy_0 by lra. lra.
  - rewrite s_pair_eq, energy_0 by lra. rewrite sqrt_sqrt.
    + unfold s_from_Ekin2, s_from_Etot2. cbn [INR]. lra.
    + unfold s_from_Ekin2, s_from_Etot2. cbn [INR]. lra.
Qed.
Print Assumptions beam_energy_two_totals_refuted.
(** Kinetic energies of two beams: wrong for nuclei of different mass (a carbon nucleus hit by a
    proton, both at rest, is enough). *)
Theorem beam_energy_two_kinetic_refuted : exists s snn,
  describes 1 1 (EKin2 0 0) 0 0 /\ collision_energy 1 12 (INR 1 * 1) (INR 12 * 1) (EKin2 0 0) = Ok (s, snn) /\ s <> s_nuclei 1 12 1 1 0 0.
Proof.
  unfold collision_energy. rewrite !(proj2 (rltb_false _ _)) by lra. cbn [orb]. do 2 eexists. splits; [|reflexivity|].
  - unfold describes. rewrite energy_0 by lra. lra.
  - assert (T : INR 12 = 12) by (cbn; lra). rewrite s_nuclei_pair, s_pair_eq, T. cbn [INR]. rewrite !Rmult_0_r, !energy_0 by lra.
    unfold s_from_Ekin2, s_from_Etot2. replace ((0 * 12 + 12 * 1) * (0 * 12 + 12 * 1) - 12 * 1 * (12 * 1)) with 0 by ring. rewrite sqrt_0.
    replace ((0 * 1 + 12 * 1) * (0 * 1 + 12 * 1) - 1 * 1 * (1 * 1)) with 143 by ring. pose proof (sqrt_sqrt 143 ltac:(lra)). nra.
Qed.
Print Assumptions beam_energy_two_kinetic_refuted.
Theorem beam_energy_two_momenta_refuted : exists s snn,
  describes 1 1 (PLab2 2 1) 2 1 /\ collision_energy 1 1 (INR 1 * 1) (INR 1 * 1) (PLab2 2 1) = Ok (s, snn) /\ s <> s_nuclei 1 1 1 1 2 1.
Proof.
  unfold collision_energy. rewrite !(proj2 (rltb_false _ _)) by lra. cbn [orb]. do 2 eexists. splits; [|reflexivity|].
  - unfold describes. lra.
  - rewrite s_nuclei_pair. cbn [INR]. rewrite !Rmult_1_l, !Rmult_1_r. unfold s_pair. rewrite two_beams_s_plab_partial by lra. lra.
Qed.
Print Assumptions beam_energy_two_momenta_refuted.
(** An energy below the mass is accepted: no momenta have it. *)
Theorem beam_energy_below_mass_refuted : exists e s snn, collision_energy 1 1 1 1 (ETot e) = Ok (s, snn) /\ s < (1 + 1) * (1 + 1) /\
  forall pa pb, ~ describes 1 1 (ETot e) pa pb.
Proof.
  exists 0. unfold collision_energy. destruct (Rlt_dec 0 0); [lra|]. do 2 eexists. splits; [reflexivity| |].
  - unfold s_from_Etot. lra.
  - intros pa pb (_ & _ & E & _). pose proof (energy_ge 1 pa ltac:(lra)). lra.
Qed.
(** Exactly one input must be given. *)
Theorem one_energy_input_needed np nt mp mt is r : one_energy_input np nt mp mt is = Ok r -> exists i, is = [i] /\ collision_energy np nt mp mt i = Ok r.
Proof.
  unfold one_energy_input. destruct is as [|i [|j is]]; cbn [mapM].
  - cbn [rbind]. discriminate.
  - destruct (collision_energy np nt mp mt i) as [x| |] eqn:E; cbn [rbind]; try discriminate. intros H. exists i. rewrite E. split; [reflexivity|exact H].
  - destruct (collision_energy np nt mp mt i) as [x| |]; cbn [rbind]; try discriminate.
    destruct (collision_energy np nt mp mt j) as [y| |]; cbn [rbind]; try discriminate.
    destruct (mapM _ is); cbn [rbind]; discriminate.
Qed.
Print Assumptions one_energy_input_needed.

(** ** C80 *)
Lemma velocity_of_momentum m p : 0 < m -> let v := p / energy m p in v * v < 1 /\ gam v * m = energy m p /\ gam v * v * m = p.
Proof.
  intros M v. pose proof (energy_sq m p) as Q. pose proof (energy_ge m p ltac:(lra)) as G. unfold v.
  assert (E : 1 - p / energy m p * (p / energy m p) = (m / energy m p) * (m / energy m p)) by (apply (Rmult_eq_reg_r (energy m p * energy m p)); [field_simplify; nra|nra]).
  assert (P : 0 < m / energy m p) by (apply Rmult_lt_0_compat; [auto|apply Rinv_0_lt_compat; lra]).
  split; [nra|]. unfold gam. rewrite E, sqrt_square by lra. split; field; lra.
Qed.
(** In every frame the velocities give the collision energy; the target is at rest, the
    velocities or the momenta are opposite. *)
Theorem frame_velocities f s ma mb : 0 < ma -> 0 < mb -> (ma + mb) * (ma + mb) <= s ->
  let '(va, vb) := get_velocities f s ma mb in
  0 <= va < 1 /\ -1 < vb <= 0 /\
  invariant (gam va * ma) (gam va * va * ma) (gam vb * mb) (gam vb * vb * mb) = s /\
  match f with CenterOfVelocity => vb = - va | CenterOfMass => gam va * va * ma + gam vb * vb * mb = 0 | FixedTarget => vb = 0 end.
Proof.
  intros A B T. destruct f; cbn [get_velocities].
  - destruct (center_of_velocity_gives_s s ma mb A B T) as [V I]. set (v := center_of_velocity_v s ma mb) in *.
    assert (G : gam (- v) = gam v) by (unfold gam; now rewrite Rmult_opp_opp). rewrite G. splits; try lra.
    rewrite <- I. f_equal; ring.
  - set (p := pCM_from_s s ma mb). assert (SP : 0 < s) by nra. assert (SS : sqrt s * sqrt s = s) by (apply sqrt_sqrt; lra).
    assert (S0 : 0 < sqrt s) by now apply sqrt_lt_R0. assert (ST : ma + mb <= sqrt s) by nra.
    assert (PE : p = pCM (sqrt s) ma mb) by (unfold p, pCM; now rewrite SS).
    destruct (pCM_is_two_body_momentum (sqrt s) ma mb) as (P0 & E & _); try lra. rewrite <- PE in *.
    fold (energy ma p). fold (energy mb p). destruct (velocity_of_momentum ma p A) as (V1 & V2 & V3).
    destruct (velocity_of_momentum mb (- p) B) as (W1 & W2 & W3).
    assert (EN : energy mb (- p) = energy mb p) by (unfold energy; now rewrite Rmult_opp_opp). rewrite EN in *.
    assert (IA : 0 < / energy ma p) by (apply Rinv_0_lt_compat; pose proof (energy_ge ma p); lra).
    assert (IB : 0 < / energy mb p) by (apply Rinv_0_lt_compat; pose proof (energy_ge mb p); lra).
    rewrite V2, V3, W2, W3. assert (0 <= p / energy ma p) by (apply Rmult_le_pos; lra). assert (- p / energy mb p <= 0) by (unfold Rdiv; nra).
    splits; try nra. rewrite invariant_eq, E. nra.
  - destruct (fixed_target_velocity_gives_s s ma mb A B T) as [V I]. splits; try lra.
    replace (gam 0 * mb) with mb by (unfold gam; rewrite Rmult_0_l, Rminus_0_r, sqrt_1; field).
    replace (gam 0 * 0 * mb) with 0 by ring. exact I.
Qed.
Print Assumptions frame_velocities.
Example frame_example : (1 + 1) * (1 + 1) <= 5. Proof. lra. Qed.
(** The contracted spheres of radii ra and rb touch at t = 0: then the front of each of them is
    at z = 0; the simulation starts dz before (or at) that time with the fronts apart. *)
Theorem nuclei_touch_at_zero va vb ra rb dz : 0 < va < 1 -> -1 < vb <= 0 -> 0 <= dz ->
  let '(t, zp, zt) := start va vb ra rb dz in
  let front_p u := zp + sqrt (1 - va * va) * ra + va * (u - t) in
  let front_t u := zt - sqrt (1 - vb * vb) * rb + vb * (u - t) in
  front_p 0 = 0 /\ front_t 0 = 0 /\ t <= 0 /\ front_p t = - dz /\ front_p t <= front_t t.
Proof.
  intros A B D. unfold start. cbv zeta. rewrite (Rabs_pos_eq va) by lra.
  assert (I : 0 < / va) by (apply Rinv_0_lt_compat; lra).
  assert (E : Rabs (vb / va) = - vb / va) by (rewrite Rabs_left1; [unfold Rdiv; ring|unfold Rdiv; nra]). rewrite E.
  splits; try (field; lra).
  - unfold Rdiv. nra.
  - unfold Rdiv. assert (0 <= dz * (- vb * / va)) by (apply Rmult_le_pos; nra). lra.
Qed.
Print Assumptions nuclei_touch_at_zero.
(** Kinetic energy 0 is accepted, but then the projectile has no velocity and the start time
    (a division by it) does not exist. *)
Theorem zero_kinetic_energy_refuted : exists s snn, collision_energy 1 1 1 1 (EKin 0) = Ok (s, snn) /\
  forall f, fst (get_velocities f s 1 1) = 0.
Proof.
  unfold collision_energy. destruct (Rlt_dec 0 0); [lra|]. do 2 eexists. split; [reflexivity|].
  assert (E : s_from_Ekin (0 * INR 1) 1 1 = 4) by (unfold s_from_Ekin, s_from_Etot; cbn [INR]; ring). rewrite E.
  intros []; cbn [get_velocities fst].
  - unfold center_of_velocity_v. replace ((4 - (1 + 1) * (1 + 1)) / (4 - (1 - 1) * (1 - 1))) with 0 by field. apply sqrt_0.
  - unfold pCM_from_s, pCM_sqr_from_s. destruct (Rlt_dec 0 _) as [C|C]; [exfalso; lra|]. unfold Rdiv. ring.
  - unfold fixed_target_projectile_v. replace (1 - 2 * 1 * 1 / (4 - 1 * 1 - 1 * 1) * (2 * 1 * 1 / (4 - 1 * 1 - 1 * 1))) with 0 by field. apply sqrt_0.
Qed.
Print Assumptions zero_kinetic_energy_refuted.
