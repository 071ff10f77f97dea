(** The momentum transfer of two-particle scatterings: range and distribution (C125). *)
From Coq Require Import ZArith Reals List Bool Lra Lia Psatz.
From Verif Require Import Base VecModel VecProps KinProps MotionModel FinalProps WoodsSaxon DistProps DistMore ScatModel ScatProps ScatAngle.
Import ListNotations.
Open Scope R_scope.

(** nucleons, and which process it is *)
Definition nucleons (a b : kind) : Prop := k_nucleon a = true /\ k_nucleon b = true.
(** proton and neutron, or antiproton and antineutron: same sign, and charges that add up to 1 or -1 *)
Definition proton_neutron (a b : kind) : Prop := nucleons a b /\ k_sign a = k_sign b /\ (k_charge a + k_charge b = 1 \/ k_charge a + k_charge b = -1)%Z.
(** slope and forward-backward weight of Cugnon et al. for a laboratory momentum *)
Definition cugnon (pn : Prop) (plab b a : R) : Prop :=
  (pn -> b = Rmax (Cugnon_bnp plab) (/ 1000000) /\ (plab < 8 / 10 -> a = 1) /\ (8 / 10 <= plab -> a = 64 / 100 / (plab * plab))) /\
  (~ pn -> b = Rmax (Cugnon_bpp plab) (/ 1000000) /\ a = 1).
(** [P t] for the momentum transfer that one round of the generator gives, if it gives one *)
Definition transfer (r : res (option R)) (Q : R -> Prop) : Prop := exists t, r = Ok (Some t) /\ Q t.

Lemma expo_one A hi lo u t : 0 < A -> lo < hi -> a_min < A * hi -> expo A hi lo [u] = Ok t <-> expo_round A hi lo u = Some t.
Proof.
  intros A0 LH AM. unfold expo. destruct (Rlt_dec 0 A); [|lra]. destruct (Rle_dec lo hi); [|lra]. destruct (Rlt_dec a_min (A * hi)); [|lra]. cbn [expo_loop].
  destruct (expo_round A hi lo u) as [x|]; split; congruence.
Qed.
Lemma slope_of pn plab b a : cugnon (pn = true) plab b a -> elastic_slope pn plab = (b, a) /\ 0 < b /\ (0 <= plab -> 0 < a).
Proof.
  intros (C1 & C2). unfold elastic_slope, really_small. destruct pn.
  - destruct (C1 eq_refl) as (-> & A1 & A2). splits.
    + f_equal. destruct (Rlt_dec plab (8 / 10)); [rewrite A1|rewrite A2]; auto; lra.
    + pose proof (Rmax_r (Cugnon_bnp plab) (/ 1000000)). lra.
    + intros P. destruct (Rlt_dec plab (8 / 10)); [rewrite A1 by auto; lra|]. rewrite A2 by lra. apply Rdiv_lt_0_compat; nra.
  - destruct (C2 ltac:(discriminate)) as (-> & ->). splits; auto; [|lra]. pose proof (Rmax_r (Cugnon_bpp plab) (/ 1000000)). lra.
Qed.
Lemma pn_spec nn a b : nn = k_nucleon a && k_nucleon b -> is_pn nn a b = true <-> proton_neutron a b.
Proof.
  intros ->. unfold is_pn, proton_neutron, nucleons. rewrite !andb_true_iff, !Z.eqb_eq. split; intros H; splits; try tauto; destruct H as (H1 & H2); lia.
Qed.
Lemma cugnon_iff (p q : Prop) plab b a : (p <-> q) -> cugnon p plab b a -> cugnon q plab b a.
Proof. intros E (C1 & C2). split; intros H; [apply C1|apply C2]; tauto. Qed.

(** The incoming and outgoing pair of an elastic process are the same; so are their kinds. *)
(** Elastic scattering of two nucleons: the momentum transfer has the density exp(b t) + a exp(b (t0 + t1 - t)), with b and a
    for the laboratory momentum of the collision (fixed target, both of nucleon mass). [u] is the number of the round of the
    exponential generator that is accepted, [v] the one for the flip. *)
Theorem nucleon_elastic_law ia ib plab b a m1 m2 ma t0 t1 w f g :
  nucleons ia ib -> 0 <= plab -> cugnon (proton_neutron ia ib) plab b a -> t1 < t0 -> a_min < b * t0 ->
  exists c, 0 < c /\ forall X M, t1 <= X <= t0 -> integral (fun t => exp (b * t) + a * exp (b * (t0 + t1 - t))) t1 X M ->
    prob2 (fun u v => transfer (sample_t true false ia ib ia ib (s_from_plab plab nucleon_mass nucleon_mass) m1 m2 ma t0 t1 (ADraws [u] w v f g)) (fun t => t <= X)) (c * M).
Proof.
  intros NN P0 C T AM. assert (NNB : k_nucleon ia && k_nucleon ib = true) by (destruct NN as (-> & ->); auto).
  destruct (slope_of (is_pn true ia ib) plab b a) as (SL & B0 & A0). { apply cugnon_iff with (2 := C). symmetry. apply pn_spec. auto. }
  specialize (A0 P0). destruct (mirrored_law b t0 t1 a B0 T A0) as (c & C0 & H). exists c. split; auto. intros X M HX I. specialize (H X M HX I).
  assert (EXT : forall u v, drawn (expo_round b t0 t1) (fun t => flip (rltb (1 / (1 + a)) v) t0 t1 t <= X) u <->
    transfer (sample_t true false ia ib ia ib (s_from_plab plab nucleon_mass nucleon_mass) m1 m2 ma t0 t1 (ADraws [u] w v f g)) (fun t => t <= X)).
  { intros u v. unfold sample_t, transfer. rewrite NNB. cbn [negb andb elastic_s d_expo d_flip]. rewrite plab_from_s_one_mass, plab_of_s_of_plab by (unfold nucleon_mass; lra). cbn [rbind].
    rewrite SL. pose proof (fun t => expo_one b t0 t1 u t B0 T AM) as EO. split.
    - intros (t & E & Q). apply EO in E. rewrite E. cbn [rbind]. eexists. split; [reflexivity|auto].
    - intros (t & E & Q). destruct (expo b t0 t1 [u]) as [x| |] eqn:EX; [|discriminate|discriminate]. cbn [rbind] in E. apply expo_one in EX; auto. exists x. split; auto.
      assert (t = flip (rltb (1 / (1 + a)) v) t0 t1 x) as -> by congruence. auto. }
  destruct H as (h & H1 & H2). exists h. split; auto. intros v V. apply prob1_ext with (2 := H1 v V). intros u U. apply EXT || (symmetry; apply EXT).
Qed.
Print Assumptions nucleon_elastic_law.
(** Two nucleons to a Delta and a nucleon (same particle or antiparticle sign): the density of elastic pp scattering,
    exp(b t) + exp(b (t0 + t1 - t)). *)
Theorem delta_law ia ib oa ob plab b m1 m2 ma t0 t1 w f g :
  nucleons ia ib -> k_delta oa = true -> k_nucleon ob = true -> k_sign oa = k_sign ob -> 0 <= plab -> b = Rmax (Cugnon_bpp plab) (/ 1000000) ->
  t1 < t0 -> a_min < b * t0 ->
  exists c, 0 < c /\ forall X M, t1 <= X <= t0 -> integral (fun t => exp (b * t) + 1 * exp (b * (t0 + t1 - t))) t1 X M ->
    prob2 (fun u v => transfer (sample_t false false ia ib oa ob (s_from_plab plab nucleon_mass nucleon_mass) m1 m2 ma t0 t1 (ADraws [u] w v f g)) (fun t => t <= X)) (c * M).
Proof.
  intros (N1 & N2) KD KN KS P0 EB T AM. assert (B0 : 0 < b) by (rewrite EB; pose proof (Rmax_r (Cugnon_bpp plab) (/ 1000000)); lra).
  destruct (mirrored_law b t0 t1 1 B0 T ltac:(lra)) as (c & C0 & H). exists c. split; auto. intros X M HX I. specialize (H X M HX I).
  destruct H as (h & H1 & H2). exists h. split; auto. intros v V. apply prob1_ext with (2 := H1 v V). intros u U.
  unfold sample_t, transfer. rewrite N1, N2, KD, KN, KS, Z.eqb_refl. cbn [negb andb d_expo d_flip]. rewrite plab_from_s_one_mass, plab_of_s_of_plab by (unfold nucleon_mass; lra). cbn [rbind].
  unfold really_small. rewrite <- EB. pose proof (fun t => expo_one b t0 t1 u t B0 T AM) as EO. replace (1 + 1) with 2 by ring. split.
  - intros (t & E & Q). apply EO in E. rewrite E. cbn [rbind]. eexists. split; [reflexivity|auto].
  - intros (t & E & Q). destruct (expo b t0 t1 [u]) as [x| |] eqn:EX; [|discriminate|discriminate]. cbn [rbind] in E. apply expo_one in EX; auto. exists x. split; auto.
    assert (t = flip (rltb (1 / 2) v) t0 t1 x) as -> by congruence. auto.
Qed.
Print Assumptions delta_law.
(** the exponent of the HADES fit as a polynomial in the mass of the resonance *)
Definition hades_index (m : R) : R := 1.46434 + 5.80311 * m - 6.89358 * m ^ 2 + 1.94302 * m ^ 3.
(** Two nucleons to an excited nucleon or Delta and a nucleon: the density is |t|^-a + |t0 + t1 - t|^-a if the index is below
    30, and only the two edges of the range, equally likely, otherwise. *)
Theorem resonance_law ia ib oa ob s m1 m2 ma t0 t1 e f g :
  nucleons ia ib -> k_delta oa = false -> k_star oa = true -> k_nucleon ob = true -> t1 < t0 < 0 -> / 1000 <= Rabs (1 - hades_index ma) ->
  (hades_index ma < 30 ->
   exists c, 0 < c /\ forall X M, t1 <= X <= t0 -> integral (fun t => Rpower (- t) (- hades_index ma) + Rpower (- (t0 + t1 - t)) (- hades_index ma)) t1 X M ->
    prob2 (fun u v => transfer (sample_t false false ia ib oa ob s m1 m2 ma t0 t1 (ADraws e u v f g)) (fun t => t <= X)) (c * M)) /\
  (30 <= hades_index ma -> forall u v, sample_t false false ia ib oa ob s m1 m2 ma t0 t1 (ADraws e u v f g) = Ok (Some (if Rlt_dec (1 / 2) v then t1 else t0))).
Proof.
  intros (N1 & N2) KD KS KN T NI. assert (HI : resonance_index ma = hades_index ma) by (unfold resonance_index, hades_index; lra).
  assert (SM : forall u v, sample_t false false ia ib oa ob s m1 m2 ma t0 t1 (ADraws e u v f g) =
    (t <- (if Rlt_dec (hades_index ma) 30 then power (- hades_index ma) t0 t1 u else Ok t0) ;; Ok (Some (flip (rltb (1 / 2) v) t0 t1 t)))).
  { intros. unfold sample_t. rewrite N1, N2, KD, KS, KN, HI. reflexivity. }
  split.
  - intros L. destruct (mirrored_power_law (- hades_index ma) t0 t1 T) as (c & C0 & H). { replace (- hades_index ma + 1) with (1 - hades_index ma) by ring. auto. }
    exists c. split; auto. intros X M HX I. destruct (H X M HX I) as (h & H1 & H2). exists h. split; auto. intros v V. apply prob1_ext with (2 := H1 v V). intros u U.
    symmetry. unfold transfer. rewrite SM. destruct (Rlt_dec (hades_index ma) 30); [|lra]. split.
    + intros (t & E & Q). destruct (power _ _ _ _) as [x| |]; [|discriminate|discriminate]. cbn [rbind] in E. exists x. split; auto. assert (t = flip (rltb (1 / 2) v) t0 t1 x) as -> by congruence. auto.
    + intros (t & E & Q). rewrite E. cbn [rbind]. eauto.
  - intros L u v. rewrite SM. destruct (Rlt_dec (hades_index ma) 30); [lra|]. cbn [rbind]. destruct (Rlt_dec (1 / 2) v).
    + rewrite (proj2 (rltb_spec _ _)) by auto. cbn [flip]. do 2 f_equal. ring.
    + rewrite (proj2 (rltb_false _ _)) by lra. reflexivity.
Qed.
Print Assumptions resonance_law.
(** Everything else, and everything if the user asks for it, is isotropic: then the cosine of the angle is uniform. *)
Theorem otherwise_isotropic el iso ia ib oa ob s m1 m2 ma t0 t1 d :
  iso = true \/ (el = false /\ (~ nucleons ia ib \/ k_nucleon ob = false \/ (k_star oa = false /\ (k_delta oa = false \/ k_sign oa <> k_sign ob)))) ->
  sample_t el iso ia ib oa ob s m1 m2 ma t0 t1 d = Ok None.
Proof.
  intros [->|(-> & H)]; unfold sample_t.
  - rewrite !andb_false_r. reflexivity.
  - cbn [andb]. unfold nucleons in H. destruct (k_nucleon ia), (k_nucleon ib), (k_nucleon ob), (k_star oa), (k_delta oa), (Z.eqb_spec (k_sign oa) (k_sign ob)), iso; cbn [andb negb]; try reflexivity; exfalso; intuition congruence.
Qed.
Print Assumptions otherwise_isotropic.

(** Every momentum transfer drawn is one that is possible. *)
Theorem transfer_in_range el iso ia ib oa ob s m1 m2 ma t0 t1 d t : t1 < t0 -> 0 < d_power d < 1 -> (t0 < 0 \/ el = true \/ k_star oa = false) ->
  sample_t el iso ia ib oa ob s m1 m2 ma t0 t1 d = Ok (Some t) -> t1 <= t <= t0.
Proof.
  intros T U Q. assert (EX : forall A us x, expo A t0 t1 us = Ok x -> t1 < x <= t0).
  { intros A us x. unfold expo. destruct (Rlt_dec 0 A) as [A0|]; [|discriminate]. destruct (Rle_dec t1 t0); [|discriminate]. destruct (Rlt_dec a_min (A * t0)) as [AM|] eqn:AE; [|discriminate].
    intros H. destruct (exponential_law A t0 t1 A0 T AM) as (L1 & L2 & _). specialize (L1 us x). unfold expo in L1. destruct (Rlt_dec 0 A); [|lra]. destruct (Rle_dec t1 t0); [|lra]. destruct (Rlt_dec a_min (A * t0)); [|lra].
    apply L1 in H as (_ & u & _ & _ & _ & H). exact (L2 u x H). }
  assert (FL : forall b x, t1 <= x <= t0 -> t1 <= flip b t0 t1 x <= t0) by (intros [|]; cbn [flip]; intros; lra).
  unfold sample_t. destruct (el && negb iso) eqn:E1.
  - destruct (plab_from_s1 _ _) as [pl| |]; [|discriminate|discriminate]. cbn [rbind]. destruct (elastic_slope _ _) as (bb & a). destruct (expo _ _ _ _) as [x| |] eqn:E; [|discriminate|discriminate]. cbn [rbind].
    intros H. apply EX in E. assert (t = flip (rltb (1 / (1 + a)) (d_flip d)) t0 t1 x) as -> by congruence. apply FL. lra.
  - match goal with |- (if ?c then _ else _) = _ -> _ => destruct c eqn:E2 end.
    + destruct (plab_from_s1 _ _) as [pl| |]; [|discriminate|discriminate]. cbn [rbind]. destruct (expo _ _ _ _) as [x| |] eqn:E; [|discriminate|discriminate]. cbn [rbind].
      intros H. apply EX in E. assert (t = flip (rltb (1 / 2) (d_flip d)) t0 t1 x) as -> by congruence. apply FL. lra.
    + match goal with |- (if ?c then _ else _) = _ -> _ => destruct c eqn:E3; [|discriminate] end. intros H.
      assert (KS : k_star oa = true) by (apply andb_true_iff in E3; tauto). assert (IS : iso = false) by (destruct iso; auto; rewrite andb_false_r in E3; discriminate).
      assert (T0 : t0 < 0). { destruct Q as [Q|[Q|Q]]; auto; [|congruence]. rewrite Q, IS in E1. discriminate. }
      assert (PR : forall n x, power n t0 t1 (d_power d) = Ok x -> t1 <= x <= t0).
      { intros n x PW. destruct (Rle_dec (/ 1000) (Rabs (n + 1))) as [L|L].
        - destruct (power_law n t0 t1 (conj T T0) L) as (K & _). destruct (K _ U) as (y & E & R). assert (y = x) as -> by congruence. auto.
        - unfold power in PW. destruct (Rlt_dec (Rabs (n + 1)) (/ 1000)); [|lra]. unfold pow in PW.
          assert (R1 : 1 < t1 / t0). { apply (Rmult_lt_reg_r (- t0)); [lra|]. replace (t1 / t0 * - t0) with (- t1) by (field; lra). lra. }
          destruct (Req_EM_T (t1 / t0) 0); [lra|]. cbn [rbind] in PW. assert (x = t0 * Rpower (t1 / t0) (d_power d)) as -> by congruence.
          assert (B1 : 1 <= Rpower (t1 / t0) (d_power d)). { rewrite <- (Rpower_O (t1 / t0)) by lra. apply Rle_Rpower; lra. }
          assert (B2 : Rpower (t1 / t0) (d_power d) <= t1 / t0). { rewrite <- (Rpower_1 (t1 / t0)) at 2 by lra. apply Rle_Rpower; lra. }
          assert (E : t1 = t0 * (t1 / t0)) by (field; lra). split; [rewrite E at 1|]; nra. }
      destruct (Rlt_dec (resonance_index ma) 30).
      * destruct (power _ _ _ _) as [x| |] eqn:E; [|discriminate|discriminate]. cbn [rbind] in H. apply PR in E. assert (t = flip (rltb (1 / 2) (d_flip d)) t0 t1 x) as -> by congruence. now apply FL.
      * cbn [rbind] in H. assert (t = flip (rltb (1 / 2) (d_flip d)) t0 t1 t0) as -> by congruence. apply FL. lra.
Qed.
Print Assumptions transfer_in_range.

(** The comment in the code: for other pairs s is chosen such that two nucleons have the original centre-of-mass momentum. It
    is not: the code takes 4 sqrt(p^2 + m^2) instead of 4 (p^2 + m^2). *)
Theorem equivalent_momentum_refuted :
  ~ (forall s m1 m2, 0 < m1 -> 0 < m2 -> (m1 + m2) * (m1 + m2) < s ->
     pCM_from_s (elastic_s false s m1 m2) nucleon_mass nucleon_mass = pCM_from_s s m1 m2).
Proof.
  intros H. specialize (H 100 3 4 ltac:(lra) ltac:(lra) ltac:(lra)). unfold elastic_s in H. set (p := pCM_from_s 100 3 4) in *.
  assert (PV : p * p = (100 + 9 - 16) * (100 + 9 - 16) / 400 - 9).
  { unfold p, pCM_from_s, pCM_sqr_from_s. destruct (Rlt_dec _ _) as [L|L]; [rewrite sqrt_sqrt by lra; field|exfalso; apply L; lra]. }
  assert (PP : 3 < p). { apply Rnot_le_lt. intros C. assert (0 <= p) by (unfold p, pCM_from_s; destruct (Rlt_dec _ _); [apply sqrt_pos|lra]). nra. }
  set (e := sqrt (p * p + nucleon_mass * nucleon_mass)) in *. assert (E2 : e * e = p * p + nucleon_mass * nucleon_mass) by (apply sqrt_sqrt; unfold nucleon_mass; nra).
  assert (E0 : 1 < e). { assert (0 <= e) by apply sqrt_pos. unfold nucleon_mass in E2. nra. }
  assert (K : p * p = e - nucleon_mass * nucleon_mass).
  { rewrite <- H. unfold pCM_from_s, pCM_sqr_from_s. destruct (Rlt_dec _ _) as [L|L]; [rewrite sqrt_sqrt by lra; field; lra|].
    exfalso. unfold pCM_from_s, pCM_sqr_from_s in H. destruct (Rlt_dec _ _); [contradiction|]. lra. }
  nra.
Qed.
Print Assumptions equivalent_momentum_refuted.
(** It has the original momentum exactly when p^2 + m^2 is 1 GeV^2. *)
Theorem equivalent_momentum_only_at_one s m1 m2 : let p := pCM_from_s s m1 m2 in
  0 < p -> (pCM_from_s (elastic_s false s m1 m2) nucleon_mass nucleon_mass = p <-> p * p + nucleon_mass * nucleon_mass = 1).
Proof.
  intros p P0. unfold elastic_s. fold p. set (e := sqrt (p * p + nucleon_mass * nucleon_mass)). assert (E2 : e * e = p * p + nucleon_mass * nucleon_mass) by (apply sqrt_sqrt; unfold nucleon_mass; nra).
  assert (E0 : 0 < e). { apply sqrt_lt_R0. unfold nucleon_mass. nra. }
  assert (Q : pCM_sqr_from_s (4 * e) nucleon_mass nucleon_mass = e - nucleon_mass * nucleon_mass) by (unfold pCM_sqr_from_s; field; lra).
  split; intros H.
  - unfold pCM_from_s in H. rewrite Q in H. destruct (Rlt_dec 0 (e - nucleon_mass * nucleon_mass)) as [L|L]; [|lra].
    assert (K : p * p = e - nucleon_mass * nucleon_mass) by (rewrite <- H; apply sqrt_sqrt; lra). assert (e * e = e) by lra. assert (e = 1) by nra. nra.
  - assert (e = 1) by nra. unfold pCM_from_s. rewrite Q. destruct (Rlt_dec 0 (e - nucleon_mass * nucleon_mass)) as [L|L]; [|exfalso; unfold nucleon_mass in L; lra].
    replace (e - nucleon_mass * nucleon_mass) with (p * p) by lra. apply sqrt_square. lra.
Qed.
Print Assumptions equivalent_momentum_only_at_one.
Lemma a_min_neg : a_min < 0.
Proof. unfold a_min. rewrite <- ln_1. apply ln_increasing; [apply Rinv_0_lt_compat, pow_lt; lra|]. rewrite <- Rinv_1. apply Rinv_1_lt_contravar; [lra|]. apply Rlt_pow_R1; [lra|lia]. Qed.
(** Every collision ends: not so at the threshold, where the range of t is a single point; no number is accepted there,
    whatever is drawn. *)
Theorem threshold_terminates_refuted : forall ia ib oa ob s m1 m2 ma t0 plab us w v f g,
  nucleons ia ib -> 0 <= plab -> s = s_from_plab plab nucleon_mass nucleon_mass -> t0 = 0 ->
  sample_t true false ia ib oa ob s m1 m2 ma t0 t0 (ADraws us w v f g) = UB UB_no_progress.
Proof.
  intros ia ib oa ob s m1 m2 ma t0 plab us w v f g (N1 & N2) P0 -> ->. pose proof a_min_neg as AM. unfold sample_t. rewrite N1, N2. cbn [negb andb elastic_s d_expo]. rewrite plab_from_s_one_mass, plab_of_s_of_plab by (unfold nucleon_mass; lra). cbn [rbind].
  destruct (elastic_slope (is_pn true oa ob) plab) as (b & a) eqn:SL. assert (B0 : 0 < b).
  { unfold elastic_slope, really_small in SL. destruct (is_pn true oa ob).
    - assert (b = Rmax (Cugnon_bnp plab) (/ 1000000)) as -> by congruence. pose proof (Rmax_r (Cugnon_bnp plab) (/ 1000000)). lra.
    - assert (b = Rmax (Cugnon_bpp plab) (/ 1000000)) as -> by congruence. pose proof (Rmax_r (Cugnon_bpp plab) (/ 1000000)). lra. }
  unfold expo. destruct (Rlt_dec 0 b); [|lra]. destruct (Rle_dec 0 0); [|lra]. destruct (Rlt_dec a_min (b * 0)) as [L|L]; [|exfalso; apply L; rewrite Rmult_0_r; auto].
  assert (EL : expo_loop b 0 0 us = UB UB_no_progress).
  { clear. induction us as [|u us IH]; auto. cbn [expo_loop]. unfold expo_round. set (x := ln _ / b). destruct (Rle_dec x 0); auto. destruct (Rlt_dec 0 x); auto. lra. }
  rewrite EL. reflexivity.
Qed.
Print Assumptions threshold_terminates_refuted.

(** Two protons at a laboratory momentum of 3 GeV with -2 <= t <= 0 meet the hypotheses of the elastic law; a proton and a
    neutron have the other slope. *)
Definition proton : kind := Kind true false false 1 1.
Definition neutron : kind := Kind true false false 1 0.
Example elastic_example : nucleons proton proton /\ ~ proton_neutron proton proton /\ proton_neutron proton neutron /\
  exists b, cugnon (proton_neutron proton proton) 3 b 1 /\ -2 < 0 /\ a_min < b * 0.
Proof.
  assert (NP : ~ proton_neutron proton proton) by (unfold proton_neutron, proton; cbn; intros (_ & _ & [C|C]); discriminate).
  splits.
  - split; reflexivity.
  - exact NP.
  - split; [split; reflexivity|]. split; [reflexivity|left; reflexivity].
  - eexists. splits; [split; [intros C; contradiction|auto]|lra|rewrite Rmult_0_r; apply a_min_neg].
Qed.
Example resonance_example : / 1000 <= Rabs (1 - hades_index 1.44) /\ hades_index 1.44 < 30 /\ 30 <= hades_index 4.
Proof. unfold hades_index. splits; try lra. rewrite Rabs_left by lra. lra. Qed.

(** The slopes, in GeV^-2 for momenta in GeV: the parametrisation of Cugnon et al. and the fit at high energies. *)
Theorem cugnon_slopes p : 0 <= p ->
  (p < 2 -> Cugnon_bpp p * (7.7 + p ^ 8) = 5.5 * p ^ 8) /\
  (2 <= p -> (Cugnon_bpp p = 5.334 + 0.67 * (p - 2) \/ Cugnon_bpp p = 7.6 + 0.66 * ln (s_from_plab p 0.938 0.938)) /\
             Cugnon_bpp p <= 5.334 + 0.67 * (p - 2) /\ Cugnon_bpp p <= 7.6 + 0.66 * ln (s_from_plab p 0.938 0.938)) /\
  (p < 0.225 -> Cugnon_bnp p = 0) /\ (0.225 <= p < 0.6 -> Cugnon_bnp p = 16.53 * (p - 0.225)) /\
  (0.6 <= p < 1.6 -> Cugnon_bnp p = 7.16 - 1.63 * p) /\ (1.6 <= p -> Cugnon_bnp p = Cugnon_bpp p).
Proof.
  intros P. assert (P8 : 0 <= p ^ 8) by (apply pow_le; auto). unfold Cugnon_bnp, Cugnon_bpp, high_energy_bpp, nucleon_mass. splits.
  - intros L. destruct (Rlt_dec p 2); [|lra]. replace 7.7 with (77 / 10) by lra. replace 5.5 with (55 / 10) by lra. set (q := p ^ 8) in *. unfold Rdiv at 1. rewrite Rmult_assoc, Rinv_l by lra. ring.
  - intros L. destruct (Rlt_dec p 2); [lra|]. replace 0.938 with (938 / 1000) by lra. set (h := ln _). pose proof (Rmin_l (76 / 10 + 66 / 100 * h) (5334 / 1000 + 67 / 100 * (p - 2))). pose proof (Rmin_r (76 / 10 + 66 / 100 * h) (5334 / 1000 + 67 / 100 * (p - 2))).
    splits; try lra. unfold Rmin. destruct (Rle_dec _ _); [right|left]; lra.
  - intros L. destruct (Rlt_dec p (225 / 1000)); lra.
  - intros L. destruct (Rlt_dec p (225 / 1000)); [lra|]. destruct (Rlt_dec p (6 / 10)); lra.
  - intros L. destruct (Rlt_dec p (225 / 1000)); [lra|]. destruct (Rlt_dec p (6 / 10)); [lra|]. destruct (Rlt_dec p (16 / 10)); lra.
  - intros L. destruct (Rlt_dec p (225 / 1000)); [lra|]. destruct (Rlt_dec p (6 / 10)); [lra|]. destruct (Rlt_dec p (16 / 10)); lra.
Qed.
Print Assumptions cugnon_slopes.
(** The parametrised slope does not jump: not so at 0.6 GeV for proton and neutron. *)
Theorem slope_continuous_refuted : ~ (forall p, 0 < p -> continuity_pt Cugnon_bnp p).
Proof.
  intros H. specialize (H 0.6 ltac:(lra) (1 / 1000) ltac:(lra)). destruct H as (alp & A0 & H). set (d := Rmin (alp / 2) (1 / 100000)).
  assert (D : 0 < d <= 1 / 100000 /\ d < alp) by (unfold d; pose proof (Rmin_l (alp / 2) (1 / 100000)); pose proof (Rmin_r (alp / 2) (1 / 100000)); splits; try lra; apply Rmin_glb_lt; lra).
  specialize (H (0.6 - d)). cbn in H. unfold R_dist in H. assert (Q : Rabs (Cugnon_bnp (0.6 - d) - Cugnon_bnp 0.6) < 1 / 1000).
  { apply H. split; [split; [exact I|lra]|]. replace (0.6 - d - 0.6) with (- d) by lra. rewrite Rabs_Ropp, Rabs_pos_eq; lra. }
  destruct (cugnon_slopes (0.6 - d) ltac:(lra)) as (_ & _ & _ & C1 & _ & _). destruct (cugnon_slopes 0.6 ltac:(lra)) as (_ & _ & _ & _ & C2 & _).
  rewrite C1, C2 in Q by lra. apply Rabs_def2 in Q. lra.
Qed.
Print Assumptions slope_continuous_refuted.
