(** Kinematics and angular distributions of two-particle scatterings (C125). *)
From Coq Require Import ZArith Reals List Bool Lra Lia Psatz.
From Verif Require Import Base VecModel VecProps KinProps MotionModel FinalProps WoodsSaxon DistProps DistMore ScatModel ScatProps.
Import ListNotations.
Open Scope R_scope.

Local Notation energy := KinProps.energy.
Lemma roty_inner t a b : inner (rotate_around_y t a) (rotate_around_y t b) = inner a b.
Proof.
  unfold inner, rotate_around_y. cbn [x1 x2 x3].
  replace ((cos t * x1 a + sin t * x3 a) * (cos t * x1 b + sin t * x3 b) + x2 a * x2 b + (- sin t * x1 a + cos t * x3 a) * (- sin t * x1 b + cos t * x3 b))
    with ((sin t * sin t + cos t * cos t) * (x1 a * x1 b + x3 a * x3 b) + x2 a * x2 b) by ring. rewrite sc. ring.
Qed.
Lemma rotz_to_inner r a b : inner (rotate_z_axis_to r a) (rotate_z_axis_to r b) = inner a b.
Proof. unfold rotate_z_axis_to. now rewrite rotz_inner, roty_inner. Qed.
(** the direction of r as rotate_z_axis_to needs it *)
Definition well_directed (r : vec3) : Prop :=
  r <> V3 0 0 0 /\ ((x1 r = 0 /\ x2 r = 0) \/ really_small <= Rabs (x1 r) \/ really_small <= Rabs (x2 r)).
Lemma polar_angle r ang : well_directed r -> inner r (rotate_z_axis_to r (direction ang)) = sqrt (inner r r) * costheta ang.
Proof.
  intros (N & C). transitivity (inner (rotate_z_axis_to r (V3 0 0 (sqrt (inner r r)))) (rotate_z_axis_to r (direction ang))); [now rewrite (rotate_z_axis_to_direction r N C)|].
  rewrite rotz_to_inner. unfold inner, direction. cbn [x1 x2 x3]. ring.
Qed.
Lemma sqr_mink p : sqr4 p = minkowski p p.
Proof. unfold sqr4, minkowski. ring. Qed.

(** two real incoming particles with some energy, and final-state masses it suffices for *)
Definition incoming (m1 m2 : R) (p1 p2 : vec4) : Prop :=
  0 <= m1 /\ 0 <= m2 /\ shell m1 p1 /\ shell m2 p2 /\ 0 < y0 (add4 p1 p2) /\ 0 < minkowski (add4 p1 p2) (add4 p1 p2).
(** energy and first momentum in the centre-of-mass frame *)
Definition cm_energy (p1 p2 : vec4) : R := sqrt (minkowski (add4 p1 p2) (add4 p1 p2)).
Definition in_cm (p1 p2 : vec4) : vec4 := boost (velocity (add4 p1 p2)) p1.

Lemma energy_of m p : shell m p -> y0 p = energy m (sqrt (inner (threevec p) (threevec p))).
Proof.
  intros (M & E). unfold energy. assert (I0 : 0 <= inner (threevec p) (threevec p)) by (unfold inner; nra). rewrite sqrt_sqrt by auto.
  symmetry. apply sqrt_lem_1; [|auto|].
  - unfold inner, threevec in *. cbn [x1 x2 x3] in *. nra.
  - unfold minkowski in M. unfold inner, threevec. cbn [x1 x2 x3]. lra.
Qed.
Lemma cm_momentum m1 m2 p1 p2 : incoming m1 m2 p1 p2 ->
  let q := in_cm p1 p2 in shell m1 q /\ sqrt (inner (threevec q) (threevec q)) = pCM (cm_energy p1 p2) m1 m2 /\ m1 + m2 <= cm_energy p1 p2 /\ 0 < cm_energy p1 p2.
Proof.
  intros (M1 & M2 & S1 & S2 & E & MM) q. destruct (boost_to_rest_frame _ E MM) as (V & B). fold (cm_energy p1 p2) in B.
  assert (EC : 0 < cm_energy p1 p2) by now apply sqrt_lt_R0.
  assert (SQ : shell m1 q) by now apply boost_shell. assert (SR : shell m2 (boost (velocity (add4 p1 p2)) p2)) by now apply boost_shell.
  rewrite boost_add in B. fold (in_cm p1 p2) in B. fold q in B. set (r := boost (velocity (add4 p1 p2)) p2) in *.
  assert (IR : inner (threevec r) (threevec r) = inner (threevec q) (threevec q)).
  { destruct q as [q0 q1 q2 q3], r as [r0 r1 r2 r3]. unfold add4 in B. cbn [y0 y1 y2 y3] in B. injection B as B0 B1 B2 B3. unfold inner, threevec. cbn [x1 x2 x3 y1 y2 y3].
    assert (r1 = - q1) as -> by lra. assert (r2 = - q2) as -> by lra. assert (r3 = - q3) as -> by lra. ring. }
  pose proof (energy_of m1 q SQ) as E1. pose proof (energy_of m2 r SR) as E2. rewrite IR in E2.
  set (p := sqrt (inner (threevec q) (threevec q))) in *. assert (P0 : 0 <= p) by apply sqrt_pos.
  assert (SUM : energy m1 p + energy m2 p = cm_energy p1 p2). { rewrite <- E1, <- E2. apply (f_equal y0) in B. exact B. }
  assert (T : m1 + m2 <= cm_energy p1 p2) by (pose proof (KinProps.energy_ge m1 p M1); pose proof (KinProps.energy_ge m2 p M2); lra).
  destruct (pCM_is_two_body_momentum (cm_energy p1 p2) m1 m2 M1 M2 EC T) as (_ & _ & UN). split; [exact SQ|]. split; [apply UN; auto|]. split; auto.
Qed.
Lemma set_valid c p a : set_costheta c (set_phi p (Ang 0 0)) = Ok a -> valid a.
Proof.
  intros H. destruct (set_phi_spec p (Ang 0 0)) as (F & _). destruct (set_costheta_spec c (set_phi p (Ang 0 0))) as (S1 & S2).
  assert (C : -1 - really_small <= c <= 1 + really_small). { split; apply Rnot_lt_le; intros L; rewrite S2 in H by lra; discriminate. }
  destruct (S1 C) as (a' & E & P & Q). assert (a' = a) as -> by congruence. unfold valid. rewrite P, Q. split; auto. split; [apply Rmax_l|]. apply Rmax_lub; [lra|apply Rmin_l].
Qed.
Lemma angles_valid t t0 t1 d a : 0 <= d_phi d < 1 -> 0 <= d_cos d <= 1 -> angles_of t t0 t1 d = Ok a -> valid a.
Proof.
  intros F C. destruct t as [t|]; cbn [angles_of].
  - destruct (Req_EM_T t1 t0); [discriminate|]. apply set_valid.
  - intros H. assert (a = Ang (twopi * d_phi d) (uniform (-1) 1 (d_cos d))) as -> by congruence. unfold valid, twopi, uniform. cbn [phi costheta]. pose proof PI_RGT_0. split; split; nra.
Qed.

(** Whatever the process and the random numbers: the two outgoing particles have the masses asked for, opposite momenta in the
    centre-of-mass frame, and together the energy of the collision. *)
Theorem scattering_conserves el iso ia ib oa ob p1 p2 m1 m2 ma mb d pa pb :
  incoming m1 m2 p1 p2 -> 0 <= ma -> 0 <= mb -> ma + mb <= cm_energy p1 p2 -> 0 <= d_phi d < 1 -> 0 <= d_cos d <= 1 ->
  scatter_angles el iso ia ib oa ob p1 p2 m1 m2 ma mb (cm_energy p1 p2) d = Ok (pa, pb) ->
  add4 pa pb = V4 (cm_energy p1 p2) 0 0 0 /\ shell ma pa /\ shell mb pb.
Proof.
  intros I A B T F C. unfold scatter_angles. destruct (cm_momentum _ _ _ _ I) as (_ & _ & _ & EC).
  destruct (get_t_range _ _ _ _ _) as [[t0 t1]| |]; [|discriminate|discriminate]. cbn [rbind].
  destruct (sample_t _ _ _ _ _ _ _ _ _ _ _ _ _) as [t| |]; [|discriminate|discriminate]. cbn [rbind].
  destruct (angles_of t t0 t1 d) as [ang| |] eqn:AO; [|discriminate|discriminate]. cbn [rbind].
  intros H. apply angles_valid in AO; auto.
  assert (U : unit (rotate_z_axis_to (threevec (boost (velocity (add4 p1 p2)) p1)) (direction ang))) by (unfold unit; rewrite rotz_to_inner; now apply direction_is_unit).
  pose proof (two_body_final_state (cm_energy p1 p2) ma mb _ A B EC T U) as TB.
  assert (E : sample_angles (cm_energy p1 p2) ma mb (rotate_z_axis_to (threevec (boost (velocity (add4 p1 p2)) p1)) (direction ang)) = (pa, pb)) by congruence.
  rewrite E in TB. exact TB.
Qed.
Print Assumptions scattering_conserves.

(** the range of the momentum transfer *)
Definition t_edges (p1 p2 : vec4) (m1 m2 ma mb t0 t1 : R) : Prop := get_t_range (cm_energy p1 p2) m1 m2 ma mb = Ok (t0, t1).
Lemma edges_eq p1 p2 m1 m2 ma mb t0 t1 : incoming m1 m2 p1 p2 -> 0 <= ma -> 0 <= mb -> ma + mb <= cm_energy p1 p2 -> t_edges p1 p2 m1 m2 ma mb t0 t1 ->
  let pi := pCM (cm_energy p1 p2) m1 m2 in let pf := pCM (cm_energy p1 p2) ma mb in
  t0 = (energy m1 pi - energy ma pf) * (energy m1 pi - energy ma pf) - (pi - pf) * (pi - pf) /\ t0 - t1 = 4 * pi * pf.
Proof.
  intros I A B T H pi pf. destruct (cm_momentum _ _ _ _ I) as (_ & _ & T1 & EC). destruct I as (M1 & M2 & _).
  destruct (pcm_energies _ _ _ M1 M2 EC T1) as (E1 & _). destruct (pcm_energies _ _ _ A B EC T) as (E2 & _). fold pi in E1. fold pf in E2.
  unfold t_edges, get_t_range in H. fold pi pf in H. destruct (Rle_dec _ _); [|discriminate].
  assert (H1 : t0 = (m1 * m1 - m2 * m2 - ma * ma + mb * mb) / (2 * cm_energy p1 p2) * ((m1 * m1 - m2 * m2 - ma * ma + mb * mb) / (2 * cm_energy p1 p2)) - (pi - pf) * (pi - pf)) by congruence.
  assert (H2 : t1 = (m1 * m1 - m2 * m2 - ma * ma + mb * mb) / (2 * cm_energy p1 p2) * ((m1 * m1 - m2 * m2 - ma * ma + mb * mb) / (2 * cm_energy p1 p2)) - (pi + pf) * (pi + pf)) by congruence.
  split; [|rewrite H1, H2; ring]. rewrite H1. f_equal. rewrite E1, E2. field. lra.
Qed.

(** The momentum transfer of the final state is the one drawn: (q - pa)^2 = t for the momentum q of the first incoming particle in
    the centre-of-mass frame; in the isotropic case the cosine of the angle to q is the one drawn. *)
Theorem transfer_is_the_drawn_one el iso ia ib oa ob p1 p2 m1 m2 ma mb d t0 t1 t :
  incoming m1 m2 p1 p2 -> 0 <= ma -> 0 <= mb -> ma + mb <= cm_energy p1 p2 -> 0 <= d_phi d < 1 -> 0 <= d_cos d <= 1 ->
  t_edges p1 p2 m1 m2 ma mb t0 t1 -> t1 < t0 -> well_directed (threevec (in_cm p1 p2)) ->
  sample_t el iso ia ib oa ob (minkowski (add4 p1 p2) (add4 p1 p2)) m1 m2 ma t0 t1 d = Ok t ->
  (forall x, t = Some x -> t1 <= x <= t0) ->
  exists pa pb, scatter_angles el iso ia ib oa ob p1 p2 m1 m2 ma mb (cm_energy p1 p2) d = Ok (pa, pb) /\
  match t with
  | Some t => minkowski (sub4 (in_cm p1 p2) pa) (sub4 (in_cm p1 p2) pa) = t
  | None => inner (threevec (in_cm p1 p2)) (threevec pa) = (2 * d_cos d - 1) * (pCM (cm_energy p1 p2) m1 m2 * pCM (cm_energy p1 p2) ma mb)
  end.
Proof.
  intros I A B T F C TE TT W ST RG. destruct (edges_eq _ _ _ _ _ _ _ _ I A B T TE) as (EQ0 & EQ1). destruct (cm_momentum _ _ _ _ I) as (SQ & PQ & T1 & EC).
  set (pi := pCM (cm_energy p1 p2) m1 m2) in *. set (pf := pCM (cm_energy p1 p2) ma mb) in *. set (q := in_cm p1 p2) in *.
  unfold scatter_angles. unfold t_edges in TE. rewrite TE. cbn [rbind]. rewrite sqr_mink, ST. cbn [rbind]. change (boost (velocity (add4 p1 p2)) p1) with q.
  assert (AO : exists ang, angles_of t t0 t1 d = Ok ang /\ costheta ang = match t with Some x => 1 - 2 * (x - t0) / (t1 - t0) | None => 2 * d_cos d - 1 end).
  { destruct t as [x|]; cbn [angles_of].
    - destruct (Req_EM_T t1 t0); [lra|]. specialize (RG x eq_refl). set (c := 1 - 2 * (x - t0) / (t1 - t0)).
      assert (CB : -1 <= c <= 1).
      { assert (0 <= (x - t0) / (t1 - t0) <= 1). { replace ((x - t0) / (t1 - t0)) with ((t0 - x) / (t0 - t1)) by (field; lra). split; [apply Rmult_le_pos; [lra|left; apply Rinv_0_lt_compat; lra]|]. apply div_le; lra. }
        unfold c. replace (2 * (x - t0) / (t1 - t0)) with (2 * ((x - t0) / (t1 - t0))) by (field; lra). lra. }
      destruct (set_costheta_spec c (set_phi (2 * PI * d_phi d) (Ang 0 0))) as (S1 & _). destruct S1 as (a' & E & _ & Q); [unfold really_small; lra|].
      exists a'. split; auto. rewrite Q, Rmin_right, Rmax_right; lra.
    - eexists. split; [reflexivity|]. cbn [costheta]. unfold uniform. ring. }
  destruct AO as (ang & -> & CT). cbn [rbind]. unfold sample_angles. fold pf.
  set (u := rotate_z_axis_to (threevec q) (direction ang)). eexists _, _. split; [reflexivity|].
  assert (PA : inner (threevec q) u = pi * costheta ang). { unfold u. rewrite polar_angle by auto. now rewrite PQ. }
  assert (IQ : inner (threevec (on_shell ma (scale3 pf u))) (threevec q) = pf * (pi * costheta ang)).
  { rewrite <- PA. unfold inner, on_shell, mk4, threevec, scale3. cbn [x1 x2 x3 y1 y2 y3]. ring. }
  destruct t as [t|].
  - assert (VA : valid ang \/ True) by auto.
    assert (UU : unit u). { unfold unit, u. rewrite rotz_to_inner. unfold inner, direction. cbn [x1 x2 x3].
      assert (CB : -1 <= costheta ang <= 1). { rewrite CT. specialize (RG t eq_refl). assert (0 <= (t - t0) / (t1 - t0) <= 1). { replace ((t - t0) / (t1 - t0)) with ((t0 - t) / (t0 - t1)) by (field; lra). split; [apply Rmult_le_pos; [lra|left; apply Rinv_0_lt_compat; lra]|]. apply div_le; lra. }
        replace (2 * (t - t0) / (t1 - t0)) with (2 * ((t - t0) / (t1 - t0))) by (field; lra). lra. }
      replace (sintheta ang * cos (phi ang) * (sintheta ang * cos (phi ang)) + sintheta ang * sin (phi ang) * (sintheta ang * sin (phi ang)) + costheta ang * costheta ang)
        with (sintheta ang * sintheta ang * (sin (phi ang) * sin (phi ang) + cos (phi ang) * cos (phi ang)) + costheta ang * costheta ang) by ring.
      rewrite sc. unfold sintheta. rewrite sqrt_sqrt by nra. ring. }
    pose proof (dot_scale pf u UU) as DS.
    assert (E1 : y0 q = energy m1 pi) by (rewrite <- PQ; now apply energy_of).
    assert (E2 : y0 (on_shell ma (scale3 pf u)) = energy ma pf) by (unfold on_shell, mk4, energy; cbn [y0]; now rewrite DS).
    assert (QQ : inner (threevec q) (threevec q) = pi * pi). { rewrite <- PQ. symmetry. apply sqrt_sqrt. unfold inner. nra. }
    set (a := on_shell ma (scale3 pf u)) in *.
    assert (AA : inner (threevec a) (threevec a) = pf * pf) by exact DS.
    transitivity ((y0 q - y0 a) * (y0 q - y0 a) - (inner (threevec q) (threevec q) + inner (threevec a) (threevec a) - 2 * inner (threevec a) (threevec q))).
    { unfold minkowski, sub4, inner, threevec. cbn [x1 x2 x3 y0 y1 y2 y3]. ring. }
    rewrite QQ, AA, IQ, E1, E2, CT.
    replace ((energy m1 pi - energy ma pf) * (energy m1 pi - energy ma pf)) with (t0 + (pi - pf) * (pi - pf)) by (rewrite EQ0; ring).
    assert (NZ : t1 - t0 <> 0) by lra. replace (t1 - t0) with (- (4 * pi * pf)) in NZ |- * by (rewrite <- EQ1; ring). field. split; intros Z; rewrite Z in NZ; lra.
  - rewrite CT in IQ. unfold inner in *. cbn [x1 x2 x3 y1 y2 y3] in *. lra.
Qed.
Print Assumptions transfer_is_the_drawn_one.
