(** Bremsstrahlung of two pions: momenta. *)
From Coq Require Import ZArith Reals List Bool Lia Lra Psatz.
From Verif Require Import Base VecModel VecProps MotionModel KinProps FinalProps ScatModel ScatAngle ScatFinal PhotonModel PhotonKin.
Import ListNotations.
Open Scope R_scope.
Local Notation energy := KinProps.energy.

(** The t of the final state is not the one drawn when the collision is along x instead of z: two particles of mass 4 and momenta
    +-3 along x, a hadron of mass 6. The smallest t is drawn; the momentum transfer is far from it. *)
Theorem photon_transfer_refuted : exists p1 p2 t h g, incoming 4 4 p1 p2 /\ 6 < cm_energy p1 p2 /\ 4 + 4 < cm_energy p1 p2 /\
  photon_final p1 p2 4 4 6 0 0 = Ok (t, h, g) /\ minkowski (sub4 p1 h) (sub4 p1 h) <> t.
Proof.
  set (p1 := V4 5 3 0 0). set (p2 := V4 5 (-3) 0 0).
  assert (CM : cm_energy p1 p2 = 10). { unfold cm_energy, minkowski, add4, p1, p2. cbn [y0 y1 y2 y3]. transitivity (sqrt (10 * 10)); [f_equal; ring|apply sqrt_square; lra]. }
  assert (I : incoming 4 4 p1 p2). { unfold incoming, shell, minkowski, add4, p1, p2. cbn [y0 y1 y2 y3]. splits; lra. }
  destruct (photon_steps p1 p2 4 4 6 0 0 I) as (t0 & t1 & ang & TR & TT & V & TB & CT & PH & E); try (rewrite CM); try lra; try (unfold draw; lra).
  exists p1, p2. eexists _, _, _. split; [exact I|]. rewrite CM. split; [lra|]. split; [lra|]. split; [exact E|].
  destruct (edges_eq p1 p2 4 4 6 0 t0 t1 I) as (EQ & DT); try lra; [exact TR|]. rewrite CM in EQ, DT |- *.
  assert (P1 : pCM 10 4 4 = 3).
  { symmetry. apply (pCM_is_two_body_momentum 10 4 4); try lra. unfold energy. replace (4 * 4 + 3 * 3) with (5 * 5) by ring. rewrite sqrt_square; lra. }
  assert (P2 : pCM 10 6 0 = 16 / 5) by (rewrite pcm_photon; lra).
  assert (E1 : energy 4 3 = 5) by (unfold energy; replace (4 * 4 + 3 * 3) with (5 * 5) by ring; apply sqrt_square; lra).
  assert (E2 : energy 6 (16 / 5) = 34 / 5) by (unfold energy; replace (6 * 6 + 16 / 5 * (16 / 5)) with (34 / 5 * (34 / 5)) by field; apply sqrt_square; lra).
  rewrite P1, P2, E1, E2 in *.
  assert (D : direction ang = V3 0 0 (-1)).
  { unfold direction, sintheta. rewrite CT. replace (1 - (2 * 0 - 1) * (2 * 0 - 1)) with 0 by ring. rewrite sqrt_0. f_equal; ring. }
  assert (VV : neg3 (velocity (add4 p1 p2)) = V3 0 0 0) by (unfold neg3, velocity, add4, p1, p2, div3, scale3, threevec; cbn [y0 y1 y2 y3 x1 x2 x3]; f_equal; field).
  rewrite VV, boost_none, D. unfold on_shell, mk4, scale3, dot3, sub4, minkowski, p1, uniform. cbn [x1 x2 x3 y0 y1 y2 y3].
  replace (6 * 6 + (0 * (16 / 5) * (0 * (16 / 5)) + 0 * (16 / 5) * (0 * (16 / 5)) + -1 * (16 / 5) * (-1 * (16 / 5)))) with (34 / 5 * (34 / 5)) by field.
  rewrite sqrt_square by lra. lra.
Qed.
Print Assumptions photon_transfer_refuted.
Example photon_along_z : let p1 := V4 5 0 0 3 in let p2 := V4 5 0 0 (-3) in incoming 4 4 p1 p2 /\ in_cm p1 p2 = V4 5 0 0 3 /\ cm_energy p1 p2 = 10.
Proof.
  intros p1 p2. split; [unfold incoming, shell, minkowski, add4, p1, p2; cbn [y0 y1 y2 y3]; splits; lra|]. split.
  - unfold in_cm. replace (velocity (add4 p1 p2)) with (V3 0 0 0); [apply boost_none|]. unfold velocity, add4, p1, p2, div3, scale3, threevec. cbn [y0 y1 y2 y3 x1 x2 x3]. f_equal; field.
  - unfold cm_energy, minkowski, add4, p1, p2. cbn [y0 y1 y2 y3]. transitivity (sqrt (10 * 10)); [f_equal; ring|apply sqrt_square; lra].
Qed.

(** ** Two pions and a photon *)
(** the momentum drawn leaves enough energy for two pions of the same mass *)
Lemma k_bounds W m u : 0 < W -> 0 <= m -> 2 * m <= W -> draw u ->
  let '(k, range) := draw_k W m m u in 0 <= k /\ 2 * m <= W - k /\ 0 < W - k /\ 0 <= range /\ (0 < range -> 1 / 1000 <= k).
Proof.
  intros A B C U. unfold draw_k, draw in *. assert (KM : k_max W m m = (W * W - 4 * m * m) / (2 * W)) by (unfold k_max; field; lra).
  destruct (Rlt_dec _ 0) as [L|L]; [splits; lra|]. set (K := k_max W m m) in *. unfold uniform, k_min in *. assert (KK : 1 / 1000 <= 1 / 1000 + (K - 1 / 1000) * u <= K) by nra.
  assert (X : 2 * m <= W - K).
  { rewrite KM. replace (W - (W * W - 4 * m * m) / (2 * W)) with ((W * W + 4 * m * m) / (2 * W)) by (field; lra). apply Rmult_le_reg_r with (2 * W); [lra|].
    replace ((W * W + 4 * m * m) / (2 * W) * (2 * W)) with (W * W + 4 * m * m) by (field; lra). pose proof (Rle_0_sqr (W - 2 * m)). unfold Rsqr in *. lra. }
  assert (Y : 0 < W - K).
  { rewrite KM. replace (W - (W * W - 4 * m * m) / (2 * W)) with ((W * W + 4 * m * m) / (2 * W)) by (field; lra). apply Rmult_lt_0_compat; [nra|apply Rinv_0_lt_compat; lra]. }
  splits; lra.
Qed.
(** In the centre-of-mass frame, for any masses that fit into what the photon leaves: the state is at rest with the energy of the
    collision, the particles are on their shells, and the photon has the polar angle drawn. *)
Theorem three_body W ma mb k th uphi dir : 0 < W -> 0 <= ma -> 0 <= mb -> 0 <= k -> ma + mb <= W - k -> 0 < W - k -> draw uphi -> unit dir ->
  exists qa qb g, sample_3body W ma mb k th uphi dir = Ok (qa, qb, g) /\
  add4 (add4 qa qb) g = V4 W 0 0 0 /\ shell ma qa /\ shell mb qb /\ shell 0 g /\ y0 g = k - k * k / (2 * W) /\ y3 g = y0 g * cos th.
Proof.
  intros A MA MB K T E U D. unfold sample_3body. replace (W - 0 - k) with (W - k) by ring. set (e := W - k) in *.
  assert (P : pCM W e 0 = k - k * k / (2 * W)). { rewrite pcm_photon by (unfold e in *; lra). unfold e. field. lra. }
  set (pcm := pCM W e 0) in *. set (pp := pCM e ma mb).
  destruct (set_costheta_spec (cos th) (set_phi (uniform 0 twopi uphi) (Ang 0 0))) as (SC & _). destruct SC as (ang & SA & _ & CT).
  { pose proof (COS_bound th). unfold really_small. lra. }
  rewrite SA. cbn [rbind]. assert (V : valid ang) by (eapply set_valid; exact SA). set (n := direction ang). assert (N : unit n) by now apply direction_is_unit.
  assert (P0 : 0 <= pcm). { unfold pcm, pCM, pCM_from_s. destruct (Rlt_dec _ _); [apply sqrt_pos|lra]. }
  assert (EP : sqrt (pcm * pcm + e * e) = W - pcm).
  { replace (pcm * pcm + e * e) with ((W - pcm) * (W - pcm)) by (rewrite P; unfold e; field; lra). apply sqrt_square. rewrite P.
    replace (W - (k - k * k / (2 * W))) with ((W * W + (W - k) * (W - k)) / (2 * W)) by (field; lra). apply Rmult_le_pos; [nra|left; apply Rinv_0_lt_compat; lra]. }
  assert (EP0 : 0 < W - pcm). { rewrite <- EP. apply sqrt_lt_R0. nra. }
  rewrite EP. set (Q := mk4 (W - pcm) (scale3 (- pcm) n)).
  assert (QQ : minkowski Q Q = e * e).
  { unfold Q, mk4, scale3, minkowski. cbn [x1 x2 x3 y0 y1 y2 y3]. unfold unit, inner in N.
    transitivity ((W - pcm) * (W - pcm) - pcm * pcm * (x1 n * x1 n + x2 n * x2 n + x3 n * x3 n)); [ring|]. rewrite N, P. unfold e. field. lra. }
  assert (BETA : div3 (scale3 pcm n) (W - pcm) = neg3 (velocity Q)).
  { unfold neg3, velocity, Q, mk4, div3, scale3, threevec. cbn [x1 x2 x3 y0 y1 y2 y3]. f_equal; field; lra. }
  rewrite BETA. eexists _, _, _. split; [reflexivity|].
  pose proof (two_body_final_state e ma mb dir MA MB E T D) as TB. unfold sample_angles in TB. fold pp in TB. destruct TB as (S & S1 & S2).
  replace (scale3 pp (neg3 dir)) with (scale3 (- pp) dir) in S, S2 by (symmetry; apply scale_neg).
  destruct (boosted_final_state Q [on_shell ma (scale3 pp dir); on_shell mb (scale3 (- pp) dir)] [ma; mb]) as (B1 & B2).
  { exact EP0. } { rewrite QQ. nra. }
  { rewrite QQ, sqrt_square by lra. rewrite <- S. cbn [sum4 fold_right]. apply vec4_eq; unfold add4, zero4; cbn [y0 y1 y2 y3]; ring. }
  { auto. }
  cbn [map] in B1, B2. inversion_clear B2 as [|? ? ? ? C1 B3]. inversion_clear B3 as [|? ? ? ? C2 _].
  assert (G : on_shell 0 (scale3 pcm n) = mk4 pcm (scale3 pcm n)).
  { unfold on_shell. rewrite dot_scale by auto. f_equal. replace (0 * 0 + pcm * pcm) with (pcm * pcm) by ring. now apply sqrt_square. }
  assert (GS : shell 0 (on_shell 0 (scale3 pcm n))) by (unfold on_shell; rewrite dot_scale by auto; now apply shell_scale).
  split; [|splits; auto].
  - assert (B1' : add4 (boost (neg3 (velocity Q)) (on_shell ma (scale3 pp dir))) (boost (neg3 (velocity Q)) (on_shell mb (scale3 (- pp) dir))) = Q).
    { etransitivity; [|exact B1]. cbn [sum4 fold_right]. apply vec4_eq; unfold add4, zero4; cbn [y0 y1 y2 y3]; ring. }
    rewrite B1', G. unfold Q. apply vec4_eq; unfold add4, mk4, scale3; cbn [x1 x2 x3 y0 y1 y2 y3]; ring.
  - rewrite G. exact P.
  - rewrite G. unfold mk4, scale3. cbn [y0 y3 x3]. assert (X3 : x3 n = cos th); [|rewrite X3; ring].
    unfold n, direction. cbn [x3]. rewrite CT. pose proof (COS_bound th). rewrite Rmin_right, Rmax_right; lra.
Qed.
Print Assumptions three_body.
(** Two pions of the same mass: whatever the random numbers, the final state carries the total momentum of the pair that collided,
    with all three particles on their mass shells. *)
Theorem brems_final_state n had fa fb p1 p2 m1 m2 m uk uth uphi dir dsk dsth : incoming m1 m2 p1 p2 -> 0 <= m -> 2 * m <= cm_energy p1 p2 ->
  draw uk -> draw uphi -> unit dir ->
  exists qa qb g w, brems_state 1 n had fa fb p1 p2 m m uk uth uphi dir dsk dsth = Ok (qa, qb, g, w) /\
  add4 (add4 qa qb) g = add4 p1 p2 /\ shell m qa /\ shell m qb /\ shell 0 g.
Proof.
  intros I M T U1 U2 D. destruct (cm_momentum _ _ _ _ I) as (_ & _ & _ & EC). pose proof I as (_ & _ & _ & _ & E0 & MM).
  unfold brems_state. cbn [Nat.eqb]. rewrite cm_sqrt. pose proof (k_bounds _ m uk EC M T U1) as KB. destruct (draw_k _ m m uk) as [k range] eqn:DK. destruct KB as (K0 & K1 & K2 & _).
  destruct (three_body (cm_energy p1 p2) m m k (uniform 0 PI uth) uphi dir EC M M K0 ltac:(lra) K2 U2 D) as (qa & qb & g & E & S & SA & SB & SG & _).
  rewrite E. cbn [rbind]. eexists _, _, _, _. split; [reflexivity|].
  destruct (boosted_final_state (add4 p1 p2) [qa; qb; g] [m; m; 0] E0 MM) as (B1 & B2).
  - fold (cm_energy p1 p2). rewrite <- S. cbn [sum4 fold_right]. apply vec4_eq; unfold add4, zero4; cbn [y0 y1 y2 y3]; ring.
  - auto.
  - cbn [map] in B1, B2. inversion_clear B2 as [|? ? ? ? C1 B3]. inversion_clear B3 as [|? ? ? ? C2 B4]. inversion_clear B4 as [|? ? ? ? C3 _]. split; [|splits; auto].
    etransitivity; [|exact B1]. cbn [sum4 fold_right]. apply vec4_eq; unfold add4, zero4; cbn [y0 y1 y2 y3]; ring.
Qed.
Print Assumptions brems_final_state.
Theorem one_process_only branches n had fa fb p1 p2 m1 m2 m r uk uth uphi dir dsk dsth diff total : branches <> 1%nat ->
  brems_state branches n had fa fb p1 p2 m1 m2 uk uth uphi dir dsk dsth = Throw E_runtime /\
  photon_state branches r n had fa fb p1 p2 m1 m2 m uk uphi diff total = Throw E_runtime.
Proof. intros H. apply Nat.eqb_neq in H. unfold brems_state, photon_state. rewrite H. auto. Qed.
Print Assumptions one_process_only.
(** The photon does not have the momentum k that was drawn (and for which the differential cross section is looked up): the pion pair
    is given the energy that is left as its mass, so the photon has k - k^2 / (2 sqrt(s)). *)
Theorem brems_momentum_is_k_refuted W m k th uphi dir : 0 < W -> 0 <= m -> 2 * m <= W - k -> 0 < k < W -> draw uphi -> unit dir ->
  exists qa qb g, sample_3body W m m k th uphi dir = Ok (qa, qb, g) /\ y0 g = k - k * k / (2 * W) /\ y0 g < k.
Proof.
  intros A M T K U D. destruct (three_body W m m k th uphi dir A M M) as (qa & qb & g & E & _ & _ & _ & _ & G & _); try lra; auto.
  exists qa, qb, g. splits; auto. rewrite G. assert (0 < k * k / (2 * W)) by (apply Rmult_lt_0_compat; [nra|apply Rinv_0_lt_compat; lra]). lra.
Qed.
Print Assumptions brems_momentum_is_k_refuted.
Example brems_case : exists p1 p2, incoming 4 4 p1 p2 /\ 2 * 4 <= cm_energy p1 p2 /\ draw (/ 2) /\ unit (V3 0 0 1).
Proof.
  exists (V4 5 0 0 3), (V4 5 0 0 (-3)). destruct photon_along_z as (I & _ & C). split; [exact I|]. rewrite C. unfold draw, unit, inner. cbn [x1 x2 x3]. splits; lra.
Qed.
