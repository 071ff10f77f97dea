(** C95 (which pairs collide), C96 (every pair and tuple is checked once). Exact real arithmetic. *)
From Coq Require Import ZArith Reals List Bool Lia Lra Psatz.
From Verif Require Import Base VecModel MotionModel CollideModel VecProps KinProps FinalProps CollideProps.
Import ListNotations.
Open Scope R_scope.

(** ** C95: the decision *)
(** Specification: nucleons of one nucleus that have not interacted yet do not collide with each other. *)
Definition banned (f : finder) (a b : body) : Prop :=
  within_nucleus f = false /\ (side a = Projectile /\ side b = Projectile \/ side a = Target /\ side b = Target) /\
  ncoll (prt a) = 0%Z /\ ncoll (prt b) = 0%Z.
(** the last action of both was the same *)
Definition just_collided (a b : body) : Prop := (0 < proc a)%Z /\ proc a = proc b.
(** the cross section in fm^2 that a pair of test particles has: 1 mb is 0.1 fm^2 *)
Definition pair_area (f : finder) (sigma t : R) (a b : body) : R :=
  sigma / 10 / IZR (ntest f) * xsec_scaling_factor (power f) (prt a) t * xsec_scaling_factor (power f) (prt b) t.

Lemma side_eqb_spec x y : side_eqb x y = true <-> x = y.
Proof. destruct x, y; cbn; split; congruence. Qed.
Definition banb (f : finder) (a b : body) : bool :=
  negb (within_nucleus f)
     && (side_eqb (side a) Projectile && side_eqb (side b) Projectile || side_eqb (side a) Target && side_eqb (side b) Target)
     && ((ncoll (prt a) =? 0)%Z && (ncoll (prt b) =? 0)%Z).
Lemma banb_spec f a b : banb f a b = true <-> banned f a b.
Proof.
  unfold banb, banned. rewrite !andb_true_iff, orb_true_iff, !andb_true_iff, !side_eqb_spec, negb_true_iff, !Z.eqb_eq. tauto.
Qed.
Lemma factor_bounds w p t : forming p -> 0 <= xsec_scaling_factor w p t <= 1.
Proof.
  intros F. destruct (scaling_factor_grows w p (y0 (pos p) + t) _ F (Rle_refl _)) as (B & _). unfold factor_at in B.
  replace (y0 (pos p) + t - y0 (pos p)) with t in B by ring. destruct F as [S _]. lra.
Qed.
(** Distance as used by the criterion. *)
Definition distance2 (f : finder) (a b : particle) : res R :=
  match crit f with
  | Geometric => Ok (transverse_distance_sqr (pos a) (mom a) (pos b) (mom b))
  | Covariant => cov_transverse_distance_sqr (pos a) (mom a) (pos b) (mom b)
  | Stochastic => Ok 0
  end.
Lemma check_two_eq f beam dt vol u v sigma a b : (0 <= bid a)%Z -> (0 <= bid b)%Z ->
  check_two f beam dt vol u v sigma a b =
  if banb f a b then Ok None else
  if is_stochastic (crit f) && rltb vol really_small then Ok None else
  t <- collision_time f beam (prt a) (prt b) dt u ;;
  if rltb t 0 || negb (rltb t dt) then Ok None else
  d2 <- distance2 f (prt a) (prt b) ;;
  if negb (is_stochastic (crit f)) && negb (rltb d2 (max_transverse_distance_sqr f)) then Ok None else
  if is_stochastic (crit f) then
    vrel <- relative_velocity (prt a) (prt b) ;;
    (if rltb 1 (pair_area f sigma t a b * vrel * dt / vol) && negb (only_warn f) then Throw E_runtime
    else if rltb (pair_area f sigma t a b * vrel * dt / vol) v then Ok None
    else Ok (Some t))
  else
    if (0 <? proc a)%Z && (proc a =? proc b)%Z then Ok None
    else if negb (rltb d2 (pair_area f sigma t a b * / PI)) then Ok None
    else Ok (Some t).
Proof.
  intros A B. unfold check_two. cbv zeta. unfold bid in *.
  replace (pid (prt a) <? 0)%Z with false by (symmetry; apply Z.ltb_ge; auto).
  replace (pid (prt b) <? 0)%Z with false by (symmetry; apply Z.ltb_ge; auto).
  cbn [orb]. rewrite andb_false_r. fold (banb f a b). fold (distance2 f (prt a) (prt b)). unfold pair_area, fm2_mb. reflexivity.
Qed.
Lemma cut_harmless f sigma t a b d2 : (0 < ntest f)%Z -> 0 <= sigma <= max_xs f -> forming (prt a) -> forming (prt b) ->
  d2 < pair_area f sigma t a b * / PI -> d2 < max_transverse_distance_sqr f.
Proof.
  intros N S A B D. eapply Rlt_le_trans; [exact D|]. unfold max_transverse_distance_sqr, pair_area, fm2_mb.
  pose proof (factor_bounds (power f) _ t A) as FA. pose proof (factor_bounds (power f) _ t B) as FB.
  set (fa := xsec_scaling_factor _ (prt a) t) in *. set (fb := xsec_scaling_factor _ (prt b) t) in *.
  pose proof PI_RGT_0 as P. apply Rmult_le_compat_r; [left; apply Rinv_0_lt_compat; lra|].
  assert (I : 0 < / IZR (ntest f)) by (apply Rinv_0_lt_compat, IZR_lt; lia).
  unfold Rdiv. set (i := / IZR (ntest f)) in *. set (k := sigma * / 10 * i).
  assert (0 <= k) by (subst k; apply Rmult_le_pos; lra).
  assert (k * fa <= k) by nra. assert (0 <= k * fa) by nra. assert (k * fa * fb <= k * fa) by nra.
  assert (k <= max_xs f * i * / 10) by (subst k; nra). lra.
Qed.
(** A pair collides, by the geometric or the covariant criterion, exactly if the collision is allowed, falls
    into the time step, is not one between particles that just left the same collision, and their distance is
    below that given by the cross section: pi d^2 < sigma. The quick rejection of distant pairs changes
    nothing as long as cross sections stay below the configured maximum. *)
Theorem geometric_decision f beam dt vol u v sigma a b T d2 : crit f <> Stochastic ->
  (0 <= bid a)%Z -> (0 <= bid b)%Z -> (0 < ntest f)%Z -> 0 <= sigma <= max_xs f -> forming (prt a) -> forming (prt b) ->
  collision_time f beam (prt a) (prt b) dt u = Ok T -> distance2 f (prt a) (prt b) = Ok d2 ->
  (~ banned f a b /\ 0 <= T < dt /\ ~ just_collided a b /\ PI * d2 < pair_area f sigma T a b /\
   check_two f beam dt vol u v sigma a b = Ok (Some T)) \/
  (~ (~ banned f a b /\ 0 <= T < dt /\ ~ just_collided a b /\ PI * d2 < pair_area f sigma T a b) /\
   check_two f beam dt vol u v sigma a b = Ok None).
Proof.
  intros C IA IB N S FA FB HT HD. rewrite check_two_eq by auto. rewrite HT, HD. cbn [rbind].
  assert (IS : is_stochastic (crit f) = false) by (destruct (crit f); auto; congruence). rewrite IS. cbn [andb negb].
  destruct (banb f a b) eqn:BB; [apply banb_spec in BB; right; tauto|].
  assert (NB : ~ banned f a b) by (rewrite <- banb_spec; congruence).
  destruct (rltb T 0) eqn:T0; cbn [orb]; [apply rltb_spec in T0; right; split; [intros (_ & K & _); lra|reflexivity]|].
  apply rltb_false in T0. destruct (rltb T dt) eqn:T1; cbn [negb]; [|apply rltb_false in T1; right; split; [intros (_ & K & _); lra|reflexivity]].
  apply rltb_spec in T1. pose proof PI_RGT_0 as P.
  assert (Q : d2 < pair_area f sigma T a b * / PI <-> PI * d2 < pair_area f sigma T a b).
  { split; intros H.
    - apply (Rmult_lt_compat_l PI) in H; auto. replace (PI * (pair_area f sigma T a b * / PI)) with (pair_area f sigma T a b) in H by (field; lra). exact H.
    - apply (Rmult_lt_reg_l PI); auto. replace (PI * (pair_area f sigma T a b * / PI)) with (pair_area f sigma T a b) by (field; lra). exact H. }
  destruct (rltb d2 (max_transverse_distance_sqr f)) eqn:M; cbn [negb].
  2: { apply rltb_false in M. right. split; [|reflexivity]. intros (_ & _ & _ & K). apply Q in K. pose proof (cut_harmless f sigma T a b d2 N S FA FB K). lra. }
  destruct ((0 <? proc a)%Z && (proc a =? proc b)%Z) eqn:J.
  { right. split; [|reflexivity]. intros (_ & _ & K & _). apply K. unfold just_collided.
    apply andb_true_iff in J. destruct J as [J1 J2]. apply Z.ltb_lt in J1. apply Z.eqb_eq in J2. auto. }
  assert (NJ : ~ just_collided a b).
  { intros [J1 J2]. apply Z.ltb_lt in J1. apply Z.eqb_eq in J2. rewrite J1, J2 in J. discriminate. }
  destruct (rltb d2 (pair_area f sigma T a b * / PI)) eqn:D; cbn [negb].
  - apply rltb_spec in D. left. splits; auto. apply Q; auto.
  - apply rltb_false in D. right. split; [|reflexivity]. intros (_ & _ & _ & K). apply Q in K. lra.
Qed.
Print Assumptions geometric_decision.
(** With a cross section above the configured maximum a pair can overlap and yet be dropped. *)
Theorem above_maximum_dropped_refuted : exists f beam dt vol u v sigma a b,
  crit f = Covariant /\ ~ banned f a b /\ ~ just_collided a b /\ max_xs f < sigma /\
  collision_time f beam (prt a) (prt b) dt u = Ok (5 / 3) /\ 5 / 3 < dt /\ distance2 f (prt a) (prt b) = Ok 4 /\
  PI * 4 < pair_area f sigma (5 / 3) a b /\ check_two f beam dt vol u v sigma a b = Ok None.
Proof.
  set (pa := Part (V4 0 0 0 (-1)) (V4 5 0 0 3) 4 0 0 0 0 1). set (pb := Part (V4 0 2 0 1) (V4 5 0 0 (-3)) 4 1 0 0 0 1).
  set (f := Finder Covariant 1 true false 0 40).
  exists f, [], 2, 0, 0, 0, 200, (Body pa 0 Nothing false), (Body pb 0 Nothing false).
  assert (T : collision_time f [] pa pb 2 0 = Ok (5 / 3)).
  { destruct covariant_time_example as (_ & _ & E). unfold collision_time, finding_momentum. cbn [crit f pid pa pb length Z.of_nat ncoll]. cbn -[covariant_time].
    rewrite E. reflexivity. }
  assert (D : distance2 f pa pb = Ok 4) by (destruct transverse_example as (_ & _ & _ & E); exact E).
  assert (SF : forall p, p = pa \/ p = pb -> xsec_scaling_factor 0 p (5 / 3) = 1).
  { intros p [-> | ->]; unfold xsec_scaling_factor; cbn -[Rle_dec Rlt_dec]; destruct (Rle_dec 0 0); try lra; destruct (Rlt_dec _ _); lra. }
  pose proof PI_4. pose proof PI_RGT_0. pose proof PI2_3_2 as PL. unfold PI2 in PL. 
  splits; auto.
  - intros [K _]. discriminate.
  - intros [K _]. cbn in K. lia.
  - cbn. lra.
  - lra.
  - unfold pair_area. cbn [ntest f power prt]. rewrite !SF by auto. lra.
  - rewrite check_two_eq by (cbn; lia). cbn [prt]. rewrite T, D. cbn [rbind]. unfold banb. cbn [within_nucleus f negb andb crit is_stochastic].
    destruct (rltb (5 / 3) 0) eqn:R0; [reflexivity|]. destruct (rltb (5 / 3) 2) eqn:R1; [|reflexivity]. cbn [orb negb].
    destruct (rltb 4 (max_transverse_distance_sqr f)) eqn:R2; [|reflexivity]. exfalso. apply rltb_spec in R2.
    unfold max_transverse_distance_sqr, fm2_mb in R2. cbn [max_xs ntest f] in R2.
    apply (Rmult_lt_compat_r PI) in R2; auto. replace (40 / 1 * / 10 * / PI * PI) with 4 in R2 by (field; lra). lra.
Qed.
Print Assumptions above_maximum_dropped_refuted.

(** ** The stochastic criterion *)
(** the masses used are those of the momenta *)
Definition on_shell_data (p : particle) : Prop :=
  0 < y0 (mom p) /\ 0 <= minkowski (mom p) (mom p) /\
  (pole_mass p < really_small -> 0 <= pole_mass p /\ pole_mass p * pole_mass p = minkowski (mom p) (mom p)).
Definition vel (p : vec4) : vec3 := moved (V4 0 0 0 0) p 1.
Definition cross_sqr (a b : vec3) : R :=
  (x2 a * x3 b - x3 a * x2 b) ^ 2 + (x3 a * x1 b - x1 a * x3 b) ^ 2 + (x1 a * x2 b - x2 a * x1 b) ^ 2.
Lemma sqr4_mink p : sqr4 p = minkowski p p.
Proof. unfold sqr4, minkowski. ring. Qed.
Lemma effective_mass_ok p : on_shell_data p -> exists m, effective_mass p = Ok m /\ m * m = minkowski (mom p) (mom p).
Proof.
  intros (E & M & L). unfold effective_mass, abs4. rewrite sqr4_mink. destruct (Rlt_dec _ _) as [K|K].
  - eexists. split; [reflexivity|]. apply L; auto.
  - destruct (Rlt_dec _ _) as [Q|Q]; [|unfold really_small in Q; lra]. eexists. split; [reflexivity|].
    rewrite Rabs_right by lra. apply sqrt_sqrt; auto.
Qed.
Lemma gram_nonneg pa pb : 0 < y0 pa -> 0 < y0 pb -> 0 <= minkowski pa pa -> 0 <= gram pa pb.
Proof.
  intros A B M. set (wx := y0 pa * y1 pb - y0 pb * y1 pa). set (wy := y0 pa * y2 pb - y0 pb * y2 pa). set (wz := y0 pa * y3 pb - y0 pb * y3 pa).
  set (A2 := y1 pa * y1 pa + y2 pa * y2 pa + y3 pa * y3 pa). set (w2 := wx * wx + wy * wy + wz * wz).
  set (c2 := (y1 pa * y2 pb - y2 pa * y1 pb) ^ 2 + (y1 pa * y3 pb - y3 pa * y1 pb) ^ 2 + (y2 pa * y3 pb - y3 pa * y2 pb) ^ 2).
  assert (G : gram pa pb = w2 - c2) by (subst w2 wx wy wz c2; unfold gram, minkowski; ring).
  assert (K : y0 pa * y0 pa * c2 = A2 * w2 - (y1 pa * wx + y2 pa * wy + y3 pa * wz) ^ 2) by (subst A2 w2 wx wy wz c2; ring).
  assert (W : 0 <= w2) by (subst w2; pose proof (Rle_0_sqr wx); pose proof (Rle_0_sqr wy); pose proof (Rle_0_sqr wz); unfold Rsqr in *; lra).
  assert (AA : A2 <= y0 pa * y0 pa) by (subst A2; unfold minkowski in M; lra).
  rewrite G. set (q := y1 pa * wx + y2 pa * wy + y3 pa * wz) in *. pose proof (Rle_0_sqr q) as Q. unfold Rsqr in Q.
  assert (L : A2 * w2 <= y0 pa * y0 pa * w2) by (apply Rmult_le_compat_r; auto).
  assert (0 <= y0 pa * y0 pa * (w2 - c2)) by (replace (q ^ 2) with (q * q) in K by ring; lra).
  destruct (Rle_lt_dec 0 (w2 - c2)); auto. exfalso. assert (0 < y0 pa * y0 pa) by nra. nra.
Qed.
(** The relative velocity is the Møller velocity: v^2 = |va - vb|^2 - |va x vb|^2. *)
Theorem relative_velocity_is_moller a b : on_shell_data a -> on_shell_data b ->
  exists w, relative_velocity a b = Ok w /\ 0 <= w /\
    w * w = dist2 (vel (mom a)) (vel (mom b)) - cross_sqr (vel (mom a)) (vel (mom b)).
Proof.
  intros OA OB. destruct (effective_mass_ok a OA) as (m1 & E1 & M1). destruct (effective_mass_ok b OB) as (m2 & E2 & M2).
  destruct OA as (A & MA & _). destruct OB as (B & MB & _).
  unfold relative_velocity. rewrite E1, E2. cbn [rbind]. eexists. split; [reflexivity|].
  rewrite M1, M2, add4_zero, sqr4_mink.
  pose proof (gram_nonneg _ _ A B MA) as G.
  assert (L : lambda_tilde (minkowski (add4 (mom a) (mom b)) (add4 (mom a) (mom b))) (minkowski (mom a) (mom a)) (minkowski (mom b) (mom b)) = 4 * gram (mom a) (mom b)).
  { unfold lambda_tilde. match goal with |- (if Rlt_dec ?e 0 then _ else _) = _ => replace e with (4 * gram (mom a) (mom b)) end.
    - destruct (Rlt_dec _ _); [lra|reflexivity].
    - unfold gram, minkowski, add4. cbn [y0 y1 y2 y3]. ring. }
  rewrite L. assert (EE : 0 < 2 * y0 (mom a) * y0 (mom b)) by (apply Rmult_lt_0_compat; lra). split.
  - apply Rmult_le_pos; [apply sqrt_pos|left; apply Rinv_0_lt_compat; auto].
  - pose proof (sqrt_sqrt (4 * gram (mom a) (mom b)) ltac:(lra)) as Q.
    transitivity (sqrt (4 * gram (mom a) (mom b)) * sqrt (4 * gram (mom a) (mom b)) / (4 * (y0 (mom a) * y0 (mom b)) ^ 2)); [field; lra|].
    rewrite Q. unfold gram, minkowski, dist2, cross_sqr, vel, moved. cbn [x1 x2 x3 y0 y1 y2 y3]. field. lra.
Qed.
Print Assumptions relative_velocity_is_moller.
(** A pair in a cell collides by the stochastic criterion exactly if allowed and a uniform draw does not exceed
    sigma v_rel dt / V, at a uniformly drawn time of the step. A value above 1 is an error, unless only a
    warning is wanted. *)
Definition pair_probability (f : finder) (sigma dt vol t w : R) (a b : body) : R := pair_area f sigma t a b * w * dt / vol.
Theorem stochastic_decision f beam dt vol u v sigma a b w : crit f = Stochastic ->
  (0 <= bid a)%Z -> (0 <= bid b)%Z -> 0 < dt -> 0 <= u < 1 -> relative_velocity (prt a) (prt b) = Ok w ->
  let P := pair_probability f sigma dt vol (dt * u) w a b in
  (banned f a b \/ vol < really_small -> check_two f beam dt vol u v sigma a b = Ok None) /\
  (~ banned f a b -> really_small <= vol ->
     (1 < P /\ only_warn f = false -> check_two f beam dt vol u v sigma a b = Throw E_runtime) /\
     (P <= 1 \/ only_warn f = true ->
        check_two f beam dt vol u v sigma a b = if Rle_dec v P then Ok (Some (dt * u)) else Ok None)).
Proof.
  intros C IA IB D U W P. rewrite check_two_eq by auto. rewrite C. cbn [is_stochastic andb negb].
  unfold collision_time, distance2. rewrite C, W. cbn [rbind]. fold (pair_probability f sigma dt vol (dt * u) w a b). fold P.
  split.
  - intros [K|K]; [apply banb_spec in K; rewrite K; reflexivity|]. destruct (banb f a b); [reflexivity|].
    replace (rltb vol really_small) with true by (symmetry; apply rltb_spec; auto). reflexivity.
  - intros NB V. replace (banb f a b) with false by (symmetry; apply not_true_is_false; rewrite banb_spec; auto).
    replace (rltb vol really_small) with false by (symmetry; apply rltb_false; auto).
    replace (rltb (dt * u) 0) with false by (symmetry; apply rltb_false; apply Rmult_le_pos; lra).
    replace (rltb (dt * u) dt) with true by (symmetry; apply rltb_spec; nra). cbn [orb negb].
    split.
    + intros [K O]. rewrite O. replace (rltb 1 P) with true by (symmetry; apply rltb_spec; auto). reflexivity.
    + intros K. assert (Z : rltb 1 P && negb (only_warn f) = false).
      { destruct K as [K|K]; [|rewrite K; apply andb_false_r]. replace (rltb 1 P) with false by (symmetry; apply rltb_false; auto). reflexivity. }
      rewrite Z. destruct (Rle_dec v P) as [L|L].
      * replace (rltb P v) with false by (symmetry; apply rltb_false; auto). reflexivity.
      * replace (rltb P v) with true by (symmetry; apply rltb_spec; lra). reflexivity.
Qed.
Print Assumptions stochastic_decision.
(** The draw may be 0, so that a pair without any cross section is taken to collide. *)
Theorem stochastic_zero_cross_section_refuted : exists f beam dt vol u v a b,
  crit f = Stochastic /\ 0 <= v < 1 /\ check_two f beam dt vol u v 0 a b = Ok (Some (dt * u)).
Proof.
  set (pa := Part (V4 0 0 0 (-1)) (V4 5 0 0 3) 4 0 0 0 0 1). set (pb := Part (V4 0 2 0 1) (V4 5 0 0 (-3)) 4 1 0 0 0 1).
  set (f := Finder Stochastic 1 true false 0 40).
  exists f, [], 1, 1, 0, 0, (Body pa 0 Nothing false), (Body pb 0 Nothing false).
  split; [reflexivity|]. split; [lra|].
  assert (OA : on_shell_data pa) by (unfold on_shell_data, minkowski, really_small; cbn; splits; lra).
  assert (OB : on_shell_data pb) by (unfold on_shell_data, minkowski, really_small; cbn; splits; lra).
  destruct (relative_velocity_is_moller pa pb OA OB) as (w & W & _).
  destruct (stochastic_decision f [] 1 1 0 0 0 (Body pa 0 Nothing false) (Body pb 0 Nothing false) w) as [_ S]; try (cbn; lia); try lra; auto.
  assert (Z : pair_probability f 0 1 1 (1 * 0) w (Body pa 0 Nothing false) (Body pb 0 Nothing false) = 0) by (unfold pair_probability, pair_area, Rdiv; ring).
  rewrite Z in S. destruct S as [_ S].
  - intros [K _]. discriminate.
  - unfold really_small. lra.
  - rewrite S by (left; lra). destruct (Rle_dec 0 0); [reflexivity|lra].
Qed.
Print Assumptions stochastic_zero_cross_section_refuted.

(** ** The decision does not depend on the order of the pair *)
Lemma sub3_sqr_sym a b : sqr3 (sub3 b a) = sqr3 (sub3 a b).
Proof. unfold sqr3, dot3, sub3. cbn [x1 x2 x3]. ring. Qed.
Lemma geometric_time_sym xa pa xb pb : geometric_time xb pb xa pa = geometric_time xa pa xb pb.
Proof.
  unfold geometric_time. set (d := sub3 (scale3 (y0 pb) (threevec pa)) (scale3 (y0 pa) (threevec pb))).
  set (d' := sub3 (scale3 (y0 pa) (threevec pb)) (scale3 (y0 pb) (threevec pa))).
  cbv zeta. replace (sqr3 d') with (sqr3 d) by (subst d d'; apply sub3_sqr_sym).
  replace (dot3 (sub3 (threevec xb) (threevec xa)) d') with (dot3 (sub3 (threevec xa) (threevec xb)) d)
    by (subst d d'; unfold dot3, sub3, scale3; cbn [x1 x2 x3]; ring).
  rewrite (Rmult_comm (y0 pb)). reflexivity.
Qed.
Lemma add4_comm a b : add4 a b = add4 b a.
Proof. unfold add4. f_equal; ring. Qed.
Lemma transverse_sym xa pa xb pb : transverse_distance_sqr xb pb xa pa = transverse_distance_sqr xa pa xb pb.
Proof.
  unfold transverse_distance_sqr. rewrite !add4_zero, (add4_comm pb pa). cbv zeta. set (v := velocity _).
  set (A := threevec (boost v xa)). set (B := threevec (boost v xb)). set (P := threevec (boost v pa)). set (Q := threevec (boost v pb)).
  rewrite (sub3_sqr_sym P Q), (sub3_sqr_sym A B).
  replace (dot3 (sub3 B A) (sub3 Q P)) with (dot3 (sub3 A B) (sub3 P Q)) by (unfold dot3, sub3; cbn [x1 x2 x3]; ring). reflexivity.
Qed.
Lemma cov_transverse_sym xa pa xb pb : cov_transverse_distance_sqr xb pb xa pa = cov_transverse_distance_sqr xa pa xb pb.
Proof.
  unfold cov_transverse_distance_sqr. cbv zeta. rewrite (sub3_sqr_sym (threevec pa)).
  replace (sqr4 (sub4 xb xa)) with (sqr4 (sub4 xa xb)) by (unfold sqr4, sub4; cbn [y0 y1 y2 y3]; ring).
  destruct (Rlt_dec _ _); [reflexivity|].
  replace (covariant_denominator pb pa) with (covariant_denominator pa pb) by (unfold covariant_denominator, dot4; ring).
  destruct (Req_EM_T _ _); [reflexivity|].
  match goal with |- Ok (if Rlt_dec 0 ?e then _ else _) = Ok (if Rlt_dec 0 ?g then _ else _) => replace e with g; [reflexivity|] end.
  f_equal. f_equal. unfold sqr4, dot4, sub4. cbn [y0 y1 y2 y3]. ring.
Qed.
Lemma relative_velocity_sym a b : (forall c, relative_velocity a b = Ok c <-> relative_velocity b a = Ok c).
Proof.
  intros c. unfold relative_velocity. rewrite !add4_zero, (add4_comm (mom b)).
  destruct (effective_mass a) as [m1| |]; destruct (effective_mass b) as [m2| |]; cbn [rbind]; try (split; discriminate).
  replace (lambda_tilde (sqr4 (add4 (mom a) (mom b))) (m2 * m2) (m1 * m1)) with (lambda_tilde (sqr4 (add4 (mom a) (mom b))) (m1 * m1) (m2 * m2)).
  2: { unfold lambda_tilde. set (s := sqr4 _).
       replace ((s - m2 * m2 - m1 * m1) * (s - m2 * m2 - m1 * m1) - 4 * (m2 * m2) * (m1 * m1)) with ((s - m1 * m1 - m2 * m2) * (s - m1 * m1 - m2 * m2) - 4 * (m1 * m1) * (m2 * m2)) by ring. reflexivity. }
  replace (2 * y0 (mom b) * y0 (mom a)) with (2 * y0 (mom a) * y0 (mom b)) by ring. tauto.
Qed.
Theorem decision_symmetric f beam dt vol u v sigma a b o : 
  check_two f beam dt vol u v sigma a b = Ok o <-> check_two f beam dt vol u v sigma b a = Ok o.
Proof.
  assert (I : forall f beam dt vol u v sigma a b, check_two f beam dt vol u v sigma a b = Ok o -> check_two f beam dt vol u v sigma b a = Ok o).
  { clear. intros f beam dt vol u v sigma a b. unfold check_two. cbv zeta.
    rewrite (orb_comm (pid (prt b) <? 0)%Z).
    destruct (negb (within_nucleus f) && ((pid (prt a) <? 0)%Z || (pid (prt b) <? 0)%Z)); [discriminate|].
    rewrite (andb_comm (side_eqb (side b) Projectile)), (andb_comm (side_eqb (side b) Target)), (andb_comm (ncoll (prt b) =? 0)%Z).
    destruct (negb (within_nucleus f) && _ && _); [auto|].
    destruct (is_stochastic (crit f) && rltb vol really_small); [auto|].
    assert (T : collision_time f beam (prt b) (prt a) dt u = collision_time f beam (prt a) (prt b) dt u).
    { unfold collision_time. rewrite (orb_comm (pid (prt b) <? 0)%Z). 
      rewrite (geometric_time_sym (pos (prt a)) (finding_momentum beam (prt a))), (covariant_time_symmetric (pos (prt a)) (finding_momentum beam (prt a))). reflexivity. }
    rewrite T. destruct (collision_time f beam (prt a) (prt b) dt u) as [t| |]; cbn [rbind]; try discriminate.
    destruct (rltb t 0 || negb (rltb t dt)); [auto|].
    rewrite (transverse_sym (pos (prt a)) (mom (prt a)) (pos (prt b))), (cov_transverse_sym (pos (prt a)) (mom (prt a)) (pos (prt b))).
    match goal with |- rbind ?d _ = _ -> _ => destruct d as [d2| |]; cbn [rbind]; try discriminate end.
    destruct (negb (is_stochastic (crit f)) && negb (rltb d2 (max_transverse_distance_sqr f))); [auto|].
    replace (sigma * fm2_mb / IZR (ntest f) * xsec_scaling_factor (power f) (prt b) t * xsec_scaling_factor (power f) (prt a) t)
      with (sigma * fm2_mb / IZR (ntest f) * xsec_scaling_factor (power f) (prt a) t * xsec_scaling_factor (power f) (prt b) t) by ring.
    destruct (is_stochastic (crit f)).
    - destruct (relative_velocity (prt a) (prt b)) as [w| |] eqn:W; cbn [rbind]; try discriminate.
      apply relative_velocity_sym in W. rewrite W. cbn [rbind]. auto.
    - assert (J : ((0 <? proc b)%Z && (proc b =? proc a)%Z) = ((0 <? proc a)%Z && (proc a =? proc b)%Z)).
      { destruct (Z.eqb_spec (proc a) (proc b)) as [E|E]; [rewrite E, Z.eqb_refl; reflexivity|].
        rewrite andb_false_r. replace (proc b =? proc a)%Z with false by (symmetry; apply Z.eqb_neq; auto). apply andb_false_r. }
      rewrite J. auto. }
  split; apply I.
Qed.
Print Assumptions decision_symmetric.
(** Two particles of mass 4 GeV passing at a distance of 2 fm collide if their cross section is 200 mb. *)
Example decision_example :
  let pa := Part (V4 0 0 0 (-1)) (V4 5 0 0 3) 4 0 0 0 0 1 in let pb := Part (V4 0 2 0 1) (V4 5 0 0 (-3)) 4 1 0 0 0 1 in
  let f := Finder Covariant 1 true false 0 200 in
  let a := Body pa 0 Nothing false in let b := Body pb 0 Nothing false in
  forming pa /\ forming pb /\ check_two f [] 2 0 0 0 200 a b = Ok (Some (5 / 3)).
Proof.
  intros pa pb f a b.
  assert (FA : forming pa) by (unfold forming; cbn; lra). assert (FB : forming pb) by (unfold forming; cbn; lra). splits; auto.
  assert (T : collision_time f [] pa pb 2 0 = Ok (5 / 3)).
  { destruct covariant_time_example as (_ & _ & E). unfold collision_time, finding_momentum. cbn -[covariant_time]. rewrite E. reflexivity. }
  assert (D : distance2 f pa pb = Ok 4) by (destruct transverse_example as (_ & _ & _ & E); exact E).
  assert (SF : forall p, p = pa \/ p = pb -> xsec_scaling_factor 0 p (5 / 3) = 1).
  { intros p [-> | ->]; unfold xsec_scaling_factor; cbn -[Rle_dec Rlt_dec]; destruct (Rle_dec 0 0); try lra; destruct (Rlt_dec _ _); lra. }
  destruct (geometric_decision f [] 2 0 0 0 200 a b (5 / 3) 4) as [(_ & _ & _ & _ & E)|[N _]]; auto; try (cbn; lia); try (cbn; lra); try (cbn; discriminate).
  exfalso. apply N. splits; try lra.
  - intros [K _]. discriminate.
  - intros [K _]. cbn in K. lia.
  - pose proof PI_4. unfold pair_area. cbn [ntest f power prt a b]. rewrite !SF by auto. lra.
Qed.

(** ** C96: every pair, triple, quadruple and quintuple is checked once *)
(** Specification: the tuples to be checked within a cell. They are listed in the order of the ids. *)
Fixpoint ascending (l : list body) : Prop :=
  match l with a :: (b :: _) as r => (bid a < bid b)%Z /\ ascending r | _ => True end.
Definition to_check (m : multi) (l c : list body) : Prop :=
  ascending c /\ incl c l /\
  (length c = 2%nat \/ length c = 3%nat /\ (m3to1 m = true \/ d3to2 m = true) \/
   length c = 4%nat /\ a4to2 m = true \/ length c = 5%nat /\ nn5to2 m = true /\ Forall (fun p => pion p = true) c).
(** checking the tuples of a list one after the other *)
Definition check_all {S} (offer : list body -> S -> S) (cs : list (list body)) (s : S) : S :=
  fold_left (fun s c => offer c s) cs s.

Lemma check_all_app S (offer : list body -> S -> S) a b s : check_all offer (a ++ b) s = check_all offer b (check_all offer a s).
Proof. apply fold_left_app. Qed.
Lemma loop_flat S (offer : list body -> S -> S) (g : body -> list (list body)) (f : body -> S -> S) l s :
  (forall p s, f p s = check_all offer (g p) s) -> loop l f s = check_all offer (flat_map g l) s.
Proof.
  intros H. revert s. induction l as [|p l IH]; intros s; [reflexivity|]. cbn [flat_map]. rewrite check_all_app.
  unfold loop in *. cbn [fold_left]. rewrite IH, H. reflexivity.
Qed.
Definition guard (b : bool) (c : list body) : list (list body) := if b then [c] else [].
Lemma guard_check S (offer : list body -> S -> S) (b : bool) c s : (if b then offer c s else s) = check_all offer (guard b c) s.
Proof. destruct b; reflexivity. Qed.
Definition quints (m : multi) l p1 p2 p3 p4 : list (list body) :=
  if nn5to2 m && (5 <=? length l)%nat then
    flat_map (fun p5 => guard (((bid p1 <? bid p2)%Z && (bid p2 <? bid p3)%Z && (bid p3 <? bid p4)%Z && (bid p4 <? bid p5)%Z)
                 && (pion p1 && pion p2 && pion p3 && pion p4 && pion p5)) [p1; p2; p3; p4; p5]) l else [].
Definition quads (m : multi) l p1 p2 p3 : list (list body) :=
  flat_map (fun p4 => guard (a4to2 m && ((bid p1 <? bid p2)%Z && (bid p2 <? bid p3)%Z && (bid p3 <? bid p4)%Z)) [p1; p2; p3; p4]
     ++ quints m l p1 p2 p3 p4) l.
Definition triples (m : multi) l p1 p2 : list (list body) :=
  if any_multi m then flat_map (fun p3 => guard ((d3to2 m || m3to1 m) && ((bid p1 <? bid p2)%Z && (bid p2 <? bid p3)%Z)) [p1; p2; p3]
     ++ quads m l p1 p2 p3) l else [].
Definition pairs (m : multi) l p1 : list (list body) :=
  flat_map (fun p2 => guard (bid p1 <? bid p2)%Z [p1; p2] ++ triples m l p1 p2) l.
Lemma in_cell_eq S m (offer : list body -> S -> S) l s : find_in_cell m offer l s = check_all offer (flat_map (pairs m l) l) s.
Proof.
  unfold find_in_cell. apply loop_flat. intros p1 s1. apply loop_flat. clear s. intros p2 s. cbv zeta.
  rewrite check_all_app, <- guard_check. match goal with |- _ = check_all offer _ ?e => generalize e end. intros s'. unfold triples.
  destruct (any_multi m); [|reflexivity]. apply loop_flat. clear. intros p3 s. cbv zeta.
  rewrite check_all_app, <- guard_check. match goal with |- _ = check_all offer _ ?e => generalize e end. intros s'. apply loop_flat. clear. intros p4 s. cbv zeta.
  rewrite check_all_app, <- guard_check. match goal with |- _ = check_all offer _ ?e => generalize e end. intros s'. unfold quints.
  destruct (nn5to2 m && (5 <=? length l)%nat); [|reflexivity]. apply loop_flat. intros p5 s0. apply guard_check.
Qed.
Lemma in_guard b c x : In x (guard b c) <-> b = true /\ x = c.
Proof. destruct b; cbn; split; [intros [H|[]]; auto|intros [_ H]; auto|intros []|intros [H _]; discriminate]. Qed.
Lemma NoDup_guard b c : NoDup (guard b c).
Proof. destruct b; repeat constructor. intros []. Qed.
Lemma NoDup_app_disj A (a b : list A) : NoDup a -> NoDup b -> (forall x, In x a -> In x b -> False) -> NoDup (a ++ b).
Proof.
  induction a as [|x a IH]; cbn; intros HA HB D; auto. inversion HA; subst. constructor.
  - rewrite in_app_iff. intros [K|K]; [contradiction|]. apply (D x); auto.
  - apply IH; auto. intros y K L. apply (D y); auto.
Qed.
Lemma NoDup_flat_map' A B (f : A -> list B) l : NoDup l -> (forall a, In a l -> NoDup (f a)) ->
  (forall a a' b, In b (f a) -> In b (f a') -> a = a') -> NoDup (flat_map f l).
Proof.
  induction l as [|x l IH]; cbn; intros N H D; [constructor|]. inversion N; subst. apply NoDup_app_disj; auto.
  intros b K L. apply in_flat_map in L. destruct L as (y & Y & L). pose proof (D _ _ _ K L). subst. contradiction.
Qed.
Lemma in_quints m l p1 p2 p3 p4 c : In c (quints m l p1 p2 p3 p4) <->
  exists p5, c = [p1; p2; p3; p4; p5] /\ In p5 l /\ nn5to2 m = true /\ (5 <= length l)%nat /\
    (bid p1 < bid p2 < bid p3)%Z /\ (bid p3 < bid p4 < bid p5)%Z /\ Forall (fun p => pion p = true) c.
Proof.
  unfold quints. destruct (nn5to2 m); cbn [andb]; [|split; [intros []|intros (p & _ & _ & K & _); discriminate]].
  destruct (Nat.leb_spec 5 (length l)); [|split; [intros []|intros (p & _ & _ & _ & K & _); lia]].
  rewrite in_flat_map. split.
  - intros (p5 & I & K). apply in_guard in K. destruct K as [K ->]. exists p5. rewrite !andb_true_iff, !Z.ltb_lt in K.
    splits; try tauto. repeat (constructor; [tauto|]). constructor.
  - intros (p5 & -> & I & _ & _ & A & B & F). exists p5. split; auto. apply in_guard. rewrite !andb_true_iff, !Z.ltb_lt.
    inversion F as [|? ? F1 G1]; subst. inversion G1 as [|? ? F2 G2]; subst. inversion G2 as [|? ? F3 G3]; subst. inversion G3 as [|? ? F4 G4]; subst.
    inversion G4 as [|? ? F5 G5]; subst. splits; auto; lia.
Qed.
Lemma in_quads m l p1 p2 p3 c : In c (quads m l p1 p2 p3) <->
  (exists p4, c = [p1; p2; p3; p4] /\ In p4 l /\ a4to2 m = true /\ (bid p1 < bid p2 < bid p3)%Z /\ (bid p3 < bid p4)%Z) \/
  (exists p4, In p4 l /\ In c (quints m l p1 p2 p3 p4)).
Proof.
  unfold quads. rewrite in_flat_map. split.
  - intros (p4 & I & K). apply in_app_iff in K. destruct K as [K|K]; [|right; eauto].
    apply in_guard in K. destruct K as [K ->]. rewrite !andb_true_iff, !Z.ltb_lt in K. left. exists p4. splits; tauto.
  - intros [(p4 & -> & I & M & A & B)|(p4 & I & K)]; exists p4; split; auto; apply in_app_iff; [left|auto].
    apply in_guard. rewrite !andb_true_iff, !Z.ltb_lt. splits; auto; lia.
Qed.
Lemma in_triples m l p1 p2 c : In c (triples m l p1 p2) <->
  any_multi m = true /\
  ((exists p3, c = [p1; p2; p3] /\ In p3 l /\ (m3to1 m = true \/ d3to2 m = true) /\ (bid p1 < bid p2 < bid p3)%Z) \/
   (exists p3, In p3 l /\ In c (quads m l p1 p2 p3))).
Proof.
  unfold triples. destruct (any_multi m); [|split; [intros []|intros [K _]; discriminate]].
  rewrite in_flat_map. split.
  - intros (p3 & I & K). split; auto. apply in_app_iff in K. destruct K as [K|K]; [|right; eauto].
    apply in_guard in K. destruct K as [K ->]. rewrite !andb_true_iff, orb_true_iff, !Z.ltb_lt in K. left. exists p3. splits; tauto.
  - intros (_ & [(p3 & -> & I & M & A)|(p3 & I & K)]); exists p3; split; auto; apply in_app_iff; [left|auto].
    apply in_guard. rewrite !andb_true_iff, orb_true_iff, !Z.ltb_lt. splits; auto; try tauto; lia.
Qed.
Lemma in_pairs m l p1 c : In c (pairs m l p1) <->
  (exists p2, c = [p1; p2] /\ In p2 l /\ (bid p1 < bid p2)%Z) \/ (exists p2, In p2 l /\ In c (triples m l p1 p2)).
Proof.
  unfold pairs. rewrite in_flat_map. split.
  - intros (p2 & I & K). apply in_app_iff in K. destruct K as [K|K]; [|right; eauto].
    apply in_guard in K. destruct K as [K ->]. rewrite Z.ltb_lt in K. left. exists p2. splits; tauto.
  - intros [(p2 & -> & I & A)|(p2 & I & K)]; exists p2; split; auto; apply in_app_iff; [left|auto]. apply in_guard. rewrite Z.ltb_lt. auto.
Qed.
(** shapes of the tuples: their beginning *)
Lemma quints_shape m l p1 p2 p3 p4 c : In c (quints m l p1 p2 p3 p4) -> firstn 4 c = [p1; p2; p3; p4] /\ length c = 5%nat.
Proof. rewrite in_quints. intros (p5 & -> & _). auto. Qed.
Lemma quads_shape m l p1 p2 p3 c : In c (quads m l p1 p2 p3) -> firstn 3 c = [p1; p2; p3] /\ (4 <= length c)%nat.
Proof.
  rewrite in_quads. intros [(p4 & -> & _)|(p4 & _ & K)]; [cbn; auto|]. apply quints_shape in K. destruct K as [K L]. rewrite L. split; [|lia].
  apply (f_equal (firstn 3)) in K. rewrite firstn_firstn in K. exact K.
Qed.
Lemma triples_shape m l p1 p2 c : In c (triples m l p1 p2) -> firstn 2 c = [p1; p2] /\ (3 <= length c)%nat.
Proof.
  rewrite in_triples. intros (_ & [(p4 & -> & _)|(p4 & _ & K)]); [cbn; auto|]. apply quads_shape in K. destruct K as [K L]. split; [|lia].
  apply (f_equal (firstn 2)) in K. rewrite firstn_firstn in K. exact K.
Qed.
Lemma pairs_shape m l p1 c : In c (pairs m l p1) -> firstn 1 c = [p1].
Proof.
  rewrite in_pairs. intros [(p4 & -> & _)|(p4 & _ & K)]; [cbn; auto|]. apply triples_shape in K. destruct K as [K L].
  apply (f_equal (firstn 1)) in K. rewrite firstn_firstn in K. exact K.
Qed.
Lemma quints_nodup m l p1 p2 p3 p4 : NoDup l -> NoDup (quints m l p1 p2 p3 p4).
Proof.
  intros N. unfold quints. destruct (_ && _); [|constructor]. apply NoDup_flat_map'; auto.
  - intros. apply NoDup_guard.
  - intros a a' b A B. apply in_guard in A, B. destruct A as [_ ->]. destruct B as [_ B]. congruence.
Qed.
Lemma quads_nodup m l p1 p2 p3 : NoDup l -> NoDup (quads m l p1 p2 p3).
Proof.
  intros N. unfold quads. apply NoDup_flat_map'; auto.
  - intros p4 _. apply NoDup_app_disj; [apply NoDup_guard|apply quints_nodup; auto|].
    intros x A B. apply in_guard in A. destruct A as [_ ->]. apply quints_shape in B. destruct B as [_ B]. discriminate.
  - intros a a' b A B. apply in_app_iff in A, B.
    assert (Q : forall q, In b (guard (a4to2 m && ((bid p1 <? bid p2)%Z && (bid p2 <? bid p3)%Z && (bid p3 <? bid q)%Z)) [p1; p2; p3; q]) \/ In b (quints m l p1 p2 p3 q) -> firstn 4 b = [p1; p2; p3; q]).
    { intros q [K|K]; [apply in_guard in K; destruct K as [_ ->]; reflexivity|apply quints_shape in K; tauto]. }
    apply Q in A, B. congruence.
Qed.
Lemma triples_nodup m l p1 p2 : NoDup l -> NoDup (triples m l p1 p2).
Proof.
  intros N. unfold triples. destruct (any_multi m); [|constructor]. apply NoDup_flat_map'; auto.
  - intros p3 _. apply NoDup_app_disj; [apply NoDup_guard|apply quads_nodup; auto|].
    intros x A B. apply in_guard in A. destruct A as [_ ->]. apply quads_shape in B. destruct B as [_ B]. cbn in B. lia.
  - intros a a' b A B. apply in_app_iff in A, B.
    assert (Q : forall q, In b (guard ((d3to2 m || m3to1 m) && ((bid p1 <? bid p2)%Z && (bid p2 <? bid q)%Z)) [p1; p2; q]) \/ In b (quads m l p1 p2 q) -> firstn 3 b = [p1; p2; q]).
    { intros q [K|K]; [apply in_guard in K; destruct K as [_ ->]; reflexivity|apply quads_shape in K; tauto]. }
    apply Q in A, B. congruence.
Qed.
Lemma pairs_nodup m l p1 : NoDup l -> NoDup (pairs m l p1).
Proof.
  intros N. unfold pairs. apply NoDup_flat_map'; auto.
  - intros p3 _. apply NoDup_app_disj; [apply NoDup_guard|apply triples_nodup; auto|].
    intros x A B. apply in_guard in A. destruct A as [_ ->]. apply triples_shape in B. destruct B as [_ B]. cbn in B. lia.
  - intros a a' b A B. apply in_app_iff in A, B.
    assert (Q : forall q, In b (guard (bid p1 <? bid q)%Z [p1; q]) \/ In b (triples m l p1 q) -> firstn 2 b = [p1; q]).
    { intros q [K|K]; [apply in_guard in K; destruct K as [_ ->]; reflexivity|apply triples_shape in K; tauto]. }
    apply Q in A, B. congruence.
Qed.
Lemma NoDup_of_map A B (f : A -> B) l : NoDup (map f l) -> NoDup l.
Proof.
  induction l as [|x l IH]; cbn; intros N; constructor; inversion N; subst; auto. intros K. apply H1. apply in_map; auto.
Qed.
Lemma cell_tuples m l c : In c (flat_map (pairs m l) l) <-> to_check m l c.
Proof.
  rewrite in_flat_map. unfold to_check. split.
  - intros (p1 & I1 & K). apply in_pairs in K. destruct K as [(p2 & -> & I2 & L)|(p2 & I2 & K)].
    { splits; cbn; auto. intros x [<-|[<-|[]]]; auto. }
    apply in_triples in K. destruct K as (_ & [(p3 & -> & I3 & M & L)|(p3 & I3 & K)]).
    { splits; cbn; auto; try lia. intros x [<-|[<-|[<-|[]]]]; auto. }
    apply in_quads in K. destruct K as [(p4 & -> & I4 & M & L & L')|(p4 & I4 & K)].
    { splits; cbn; auto; try lia. intros x [<-|[<-|[<-|[<-|[]]]]]; auto. }
    apply in_quints in K. destruct K as (p5 & -> & I5 & M & _ & L & L' & F).
    splits; try (cbn; lia). intros x [<-|[<-|[<-|[<-|[<-|[]]]]]]; auto. right. right. right. cbn. auto.
  - intros (A & I & K).
    destruct c as [|p1 [|p2 c]]; try (cbn in K; lia). exists p1. split; [apply I; cbn; auto|]. apply in_pairs.
    destruct A as [A1 A]. destruct c as [|p3 c]; [left; exists p2; splits; auto; apply I; cbn; auto|].
    right. exists p2. split; [apply I; cbn; auto|]. apply in_triples.
    assert (M : any_multi m = true).
    { unfold any_multi. rewrite !orb_true_iff. destruct K as [K|[K|[K|K]]]; [cbn in K; lia| | |]; tauto. }
    split; auto. destruct A as [A2 A]. destruct c as [|p4 c].
    { left. exists p3. splits; auto; try lia; [apply I; cbn; auto|]. destruct K as [K|[K|[K|K]]]; cbn in K; try tauto; lia. }
    right. exists p3. split; [apply I; cbn; auto|]. apply in_quads. destruct A as [A3 A]. destruct c as [|p5 c].
    { left. exists p4. splits; auto; try lia; [apply I; cbn; auto 6|]. destruct K as [K|[K|[K|K]]]; cbn in K; try tauto; lia. }
    right. exists p4. split; [apply I; cbn; auto 6|]. apply in_quints. destruct A as [A4 A].
    assert (c = []) by (destruct c; auto; cbn in K; lia). subst c. exists p5.
    splits; auto; try lia; [apply I; cbn; auto 7| | |].
    + destruct K as [K|[K|[K|K]]]; cbn in K; try tauto; lia.
    + assert (N : NoDup [p1; p2; p3; p4; p5]).
      { apply (NoDup_of_map _ _ bid). cbn. repeat constructor; cbn; lia. }
      exact (NoDup_incl_length N I).
    + destruct K as [K|[K|[K|K]]]; cbn in K; try tauto; lia.
Qed.
Lemma NoDup_app_l A (a b : list A) : NoDup (a ++ b) -> NoDup a.
Proof. induction a as [|x a IH]; cbn; intros N; constructor; inversion N; subst; auto. intros K. apply H1. apply in_app_iff; auto. Qed.
Lemma NoDup_app_r A (a b : list A) : NoDup (a ++ b) -> NoDup b.
Proof. induction a as [|x a IH]; cbn; intros N; auto. inversion N; subst; auto. Qed.
(** Within a cell: the tuples with distinct members are all checked, each once, in some order, and nothing
    else is. *)
Theorem cell_checks_every_tuple_once S m (offer : list body -> S -> S) l s : NoDup (map bid l) ->
  exists cs, NoDup cs /\ (forall c, In c cs <-> to_check m l c) /\ find_in_cell m offer l s = check_all offer cs s.
Proof.
  intros N. apply NoDup_of_map in N. exists (flat_map (pairs m l) l). splits.
  - apply NoDup_flat_map'; auto; [intros; apply pairs_nodup; auto|]. intros a a' b A B. apply pairs_shape in A, B. congruence.
  - intros c. apply cell_tuples.
  - apply in_cell_eq.
Qed.
Print Assumptions cell_checks_every_tuple_once.
(** In words for pairs: two different particles of a cell are in exactly one of the tuples of length two. *)
Theorem cell_pair_once m l p q : NoDup (map bid l) -> In p l -> In q l -> p <> q ->
  (to_check m l [p; q] \/ to_check m l [q; p]) /\ ~ (to_check m l [p; q] /\ to_check m l [q; p]).
Proof.
  intros N P Q D. assert (I : bid p <> bid q).
  { intros E. apply D. clear - N P Q E. induction l as [|x l IH]; [contradiction|]. cbn in N. inversion N; subst.
    destruct P as [->|P]; destruct Q as [->|Q]; auto; exfalso; apply H1; [rewrite E|rewrite <- E]; apply in_map; auto. }
  split.
  - destruct (Z.lt_total (bid p) (bid q)) as [L|[L|L]]; [left|contradiction|right]; unfold to_check; cbn; splits; auto; intros x [<-|[<-|[]]]; auto.
  - intros [[[A _] _] [[B _] _]]. lia.
Qed.
(** Between cells, and for new particles: every pair with one particle in each list, once. *)
Theorem neighbors_check_every_pair_once S c (offer : list body -> S -> S) search neighbors s :
  NoDup (map bid (search ++ neighbors)) -> c <> Stochastic ->
  neighbors_assertions c search neighbors = true /\
  exists cs, NoDup cs /\ (forall x, In x cs <-> exists p q, x = [p; q] /\ In p search /\ In q neighbors) /\
    find_with_neighbors c offer search neighbors s = check_all offer cs s.
Proof.
  intros N C. rewrite map_app in N.
  assert (D : forall p q, In p search -> In q neighbors -> bid p <> bid q).
  { intros p q P Q E. apply in_split in P. destruct P as (a & b & ->). rewrite map_app in N. cbn in N. rewrite <- app_assoc in N. cbn in N.
    apply NoDup_remove_2 in N. apply N. rewrite !in_app_iff. right. right. rewrite E. apply in_map; auto. }
  assert (N1 : NoDup search) by (apply (NoDup_of_map _ _ bid); eapply NoDup_app_l; exact N).
  assert (N2 : NoDup neighbors) by (apply (NoDup_of_map _ _ bid); eapply NoDup_app_r; exact N).
  assert (IS : is_stochastic c = false) by (destruct c; auto; congruence). split.
  - unfold neighbors_assertions. rewrite IS. cbn [orb]. apply forallb_forall. intros p P. apply forallb_forall. intros q Q.
    apply negb_true_iff, Z.eqb_neq. auto.
  - exists (flat_map (fun p => flat_map (fun q => [[p; q]]) neighbors) search). splits.
    + apply NoDup_flat_map'; auto.
      * intros p _. apply NoDup_flat_map'; auto; [intros; repeat constructor; intros []|]. cbn. intros a a' b [<-|[]] [E|[]]. congruence.
      * intros a a' b A B. apply in_flat_map in A, B. cbn in A, B. destruct A as (x & _ & [<-|[]]). destruct B as (y & _ & [B|[]]). congruence.
    + intros x. split.
      * intros H. apply in_flat_map in H. destruct H as (p & P & H). apply in_flat_map in H. destruct H as (q & Q & [<-|[]]). eauto.
      * intros (p & q & -> & P & Q). apply in_flat_map. exists p. split; auto. apply in_flat_map. exists q. cbn. auto.
    + unfold find_with_neighbors. rewrite IS. apply loop_flat. intros p s0. apply loop_flat. reflexivity.
Qed.
Print Assumptions neighbors_check_every_pair_once.
(** After an action: its outgoing particles are checked against all others, each pair once, but not against
    each other. *)
Theorem surrounding_check_every_pair_once S c (offer : list body -> S -> S) search surrounding s :
  NoDup (map bid search) -> NoDup (map bid surrounding) -> c <> Stochastic ->
  exists cs, NoDup cs /\
    (forall x, In x cs <-> exists p q, x = [p; q] /\ In p search /\ In q surrounding /\ ~ In (bid q) (map bid search)) /\
    find_with_surrounding c offer search surrounding s = check_all offer cs s.
Proof.
  intros N1 N2 C. apply NoDup_of_map in N2. pose proof (NoDup_of_map _ _ _ _ N1) as N1'.
  assert (IS : is_stochastic c = false) by (destruct c; auto; congruence).
  assert (EX : forall q, existsb (fun p => (bid p =? bid q)%Z) search = true <-> In (bid q) (map bid search)).
  { intros q. rewrite existsb_exists, in_map_iff. split; intros (x & A & B); exists x; rewrite Z.eqb_eq in *; auto. }
  exists (flat_map (fun q => if existsb (fun p => (bid p =? bid q)%Z) search then [] else flat_map (fun p => [[p; q]]) search) surrounding). splits.
  - apply NoDup_flat_map'; auto.
    + intros q _. destruct (existsb _ _); [constructor|]. apply NoDup_flat_map'; auto; [intros; repeat constructor; intros []|]. cbn. intros a a' b [<-|[]] [E|[]]. congruence.
    + intros a a' b A B. destruct (existsb (fun p => (bid p =? bid a)%Z) search); [contradiction|]. destruct (existsb (fun p => (bid p =? bid a')%Z) search); [contradiction|].
      apply in_flat_map in A, B. cbn in A, B. destruct A as (x & _ & [<-|[]]). destruct B as (y & _ & [B|[]]). congruence.
  - intros x. split.
    + intros H. apply in_flat_map in H. destruct H as (q & Q & H). destruct (existsb _ _) eqn:E; [contradiction|].
    apply in_flat_map in H. destruct H as (p & P & [<-|[]]). exists p, q. splits; auto. rewrite <- EX. congruence.
    + intros (p & q & -> & P & Q & E). apply in_flat_map. exists q. split; auto.
    rewrite <- EX in E. apply not_true_is_false in E. rewrite E. apply in_flat_map. exists p. cbn. auto.
  - unfold find_with_surrounding. rewrite IS. apply loop_flat. intros q s0. destruct (existsb _ _); [reflexivity|]. apply loop_flat. reflexivity.
Qed.
Print Assumptions surrounding_check_every_pair_once.
Example cell_example :
  let p n := Body (Part zero4 (V4 5 0 0 3) 4 n 0 0 0 1) 0 Nothing true in
  NoDup (map bid [p 3%Z; p 1%Z; p 2%Z]) /\
  find_in_cell (Multi true false true false) (fun c s => s ++ [map bid c]) [p 3%Z; p 1%Z; p 2%Z] [] = [[1; 3]; [1; 2]; [1; 2; 3]; [2; 3]]%Z.
Proof. cbn. split; [|reflexivity]. repeat constructor; cbn; lia. Qed.

(** ** C92 for the motion as it is propagated *)
(** Nucleons that have not interacted yet move with the beam. The collision time takes that into account: two
    particles propagated until the collision time are closer than propagated to any other later time. *)
Lemma motion_finding beam p : motion_velocity beam p = velocity (finding_momentum beam p).
Proof. unfold motion_velocity, finding_momentum. destruct (_ && _)%Z; reflexivity. Qed.
Lemma propagated_moved beam p t : 0 <= t -> propagate1 beam (y0 (pos p) + t) p =
  Ok (set_pos (mk4 (y0 (pos p) + t) (moved (pos p) (finding_momentum beam p) t)) p).
Proof.
  intros T. unfold propagate1. rewrite (proj2 (rltb_false _ _)) by lra. do 2 f_equal. rewrite motion_finding.
  unfold mk4, moved, add4, scale3, velocity, div3, scale3, threevec. cbn [x1 x2 x3 y0 y1 y2 y3].
  replace (y0 (pos p) + t - y0 (pos p)) with t by ring. unfold Rdiv. f_equal; ring.
Qed.
Theorem collision_time_of_propagation f beam a b dt u T t : crit f = Geometric -> y0 (pos a) = y0 (pos b) ->
  0 < y0 (finding_momentum beam a) -> 0 < y0 (finding_momentum beam b) ->
  really_small <= (y0 (finding_momentum beam a) * y0 (finding_momentum beam b)) ^ 2 * rel_speed2 (finding_momentum beam a) (finding_momentum beam b) ->
  collision_time f beam a b dt u = Ok T -> 0 <= T -> 0 <= t -> t <> T ->
  exists a1 b1 a2 b2,
    propagate1 beam (y0 (pos a) + T) a = Ok a1 /\ propagate1 beam (y0 (pos b) + T) b = Ok b1 /\
    propagate1 beam (y0 (pos a) + t) a = Ok a2 /\ propagate1 beam (y0 (pos b) + t) b = Ok b2 /\
    dist2 (threevec (pos a1)) (threevec (pos b1)) < dist2 (threevec (pos a2)) (threevec (pos b2)).
Proof.
  intros C E A B D HT T0 t0 N. unfold collision_time in HT. rewrite C in HT.
  destruct ((pid a <? 0)%Z || (pid b <? 0)%Z); [discriminate|].
  assert (TT : geometric_time (pos a) (finding_momentum beam a) (pos b) (finding_momentum beam b) = T) by congruence.
  destruct (geometric_time_is_closest (pos a) _ (pos b) _ A B D) as [M _]. rewrite TT in M.
  rewrite !propagated_moved by auto. do 4 eexists. splits; try reflexivity.
  cbn [set_pos pos]. unfold mk4, threevec. cbn [y1 y2 y3 x1 x2 x3]. specialize (M t N).
  exact M.
Qed.
Print Assumptions collision_time_of_propagation.
Example propagation_example :
  let a := Part (V4 0 0 0 (-1)) (V4 5 3 0 0) 4 0 0 0 0 1 in let b := Part (V4 0 0 0 1) (V4 5 (-3) 0 0) 4 1 0 0 0 1 in
  let beam := [V4 5 0 0 3; V4 5 0 0 (-3)] in
  finding_momentum beam a = V4 5 0 0 3 /\ finding_momentum beam b = V4 5 0 0 (-3) /\
  really_small <= (5 * 5) ^ 2 * rel_speed2 (V4 5 0 0 3) (V4 5 0 0 (-3)).
Proof.
  split; [reflexivity|]. split; [reflexivity|]. unfold rel_speed2, dist2, moved, really_small. cbn [x1 x2 x3 y0 y1 y2 y3]. lra.
Qed.
(** The distance, however, is that of trajectories with the particles' own momenta: two nucleons that the
    beams carry through the same point at the collision time are taken to pass at a distance of 2 fm. *)
Theorem frozen_fermi_distance_refuted : exists f beam a b dt u T a1 b1,
  crit f = Covariant /\ collision_time f beam a b dt u = Ok T /\
  propagate1 beam (y0 (pos a) + T) a = Ok a1 /\ propagate1 beam (y0 (pos b) + T) b = Ok b1 /\ pos a1 = pos b1 /\
  distance2 f a b = Ok 4.
Proof.
  set (a := Part (V4 0 0 0 (-1)) (V4 5 3 0 0) 4 0 0 0 0 1). set (b := Part (V4 0 0 0 1) (V4 5 (-3) 0 0) 4 1 0 0 0 1).
  set (f := Finder Covariant 1 true false 0 200). set (beam := [V4 5 0 0 3; V4 5 0 0 (-3)]).
  exists f, beam, a, b, 2, 0, (5 / 3). rewrite !propagated_moved by lra. do 2 eexists.
  split; [reflexivity|]. split; [|split; [reflexivity|]; split; [reflexivity|]; split].
  - change (collision_time f beam a b 2 0) with (Ok (covariant_time (V4 0 0 0 (-1)) (V4 5 0 0 3) (V4 0 0 0 1) (V4 5 0 0 (-3)))). f_equal.
    unfold covariant_time, covariant_time_1, covariant_time_2, covariant_denominator, dot4, sqr4, sub4, really_small. cbn [y0 y1 y2 y3].
    destruct (Rlt_dec _ _) as [L|]; [|field]. rewrite Rabs_right in L; lra.
  - cbn [set_pos pos]. change (finding_momentum beam a) with (V4 5 0 0 3). change (finding_momentum beam b) with (V4 5 0 0 (-3)).
    unfold mk4, moved. cbn [a b pos x1 x2 x3 y0 y1 y2 y3]. f_equal; field.
  - unfold distance2. cbn [crit f a b pos mom].
    unfold cov_transverse_distance_sqr, covariant_denominator, dot4, sqr4, sqr3, dot3, sub3, sub4, threevec, really_small. cbn [x1 x2 x3 y0 y1 y2 y3].
    destruct (Rlt_dec _ _); [lra|]. destruct (Req_EM_T _ _); [lra|]. destruct (Rlt_dec _ _) as [|N]; [f_equal; field|exfalso; apply N].
    match goal with |- 0 < ?e => replace e with 4 by field end. lra.
Qed.
Print Assumptions frozen_fermi_distance_refuted.

(** ** C95 for several particles *)
(** A tuple in a cell reacts exactly if a uniform draw does not exceed its weight divided by the number of test
    particles to the power of the particles minus one, unless all of it are unscattered nucleons of one nucleus. *)
Definition banned_all (f : finder) (l : list body) : Prop :=
  within_nucleus f = false /\ (Forall (fun p => side p = Projectile) l \/ Forall (fun p => side p = Target) l) /\
  Forall (fun p => ncoll (prt p) = 0%Z) l.
Theorem multi_decision f dt vol u v weight a l : (0 < ntest f)%Z ->
  let L := a :: l in let N := Rpower (IZR (ntest f)) (INR (length l)) in
  (banned_all f L \/ vol < really_small -> check_multi f dt vol u v weight L = Ok None) /\
  (~ banned_all f L -> really_small <= vol ->
     (1 < weight / N /\ only_warn f = false -> check_multi f dt vol u v weight L = Throw E_runtime) /\
     (weight / N <= 1 \/ only_warn f = true -> check_multi f dt vol u v weight L = if Rle_dec v (weight / N) then Ok (Some (dt * u)) else Ok None)).
Proof.
  intros NT L N.
  assert (FB : forall g (P : body -> Prop), (forall x, g x = true <-> P x) -> forallb g L = true <-> Forall P L).
  { intros g P H. rewrite forallb_forall, Forall_forall. split; intros K x I; apply H, K, I. }
  assert (BB : (negb (within_nucleus f) && (forallb (fun d => side_eqb (side d) Projectile) L || forallb (fun d => side_eqb (side d) Target) L)
     && forallb (fun d => ncoll (prt d) =? 0)%Z L) = true <-> banned_all f L).
  { unfold banned_all. rewrite !andb_true_iff, orb_true_iff, negb_true_iff.
    rewrite (FB _ (fun p => side p = Projectile)), (FB _ (fun p => side p = Target)), (FB _ (fun p => ncoll (prt p) = 0%Z));
      [tauto|intros; apply Z.eqb_eq|intros; apply side_eqb_spec|intros; apply side_eqb_spec]. }
  assert (NN : IZR (ntest f) ^ (length L - 1) = N).
  { subst N L. cbn [length]. rewrite Nat.sub_succ, Nat.sub_0_r, <- Rpower_pow by (apply IZR_lt; lia). reflexivity. }
  unfold check_multi. cbv zeta. rewrite NN. set (P := weight / N). clearbody P. 
  match goal with |- context[if ?c then Ok None else if rltb vol _ then _ else _] => set (bb := c) in * end.
  split.
  - intros [K|K]; [rewrite (proj2 BB K); reflexivity|]. destruct bb; [reflexivity|]. rewrite (proj2 (rltb_spec _ _) K). reflexivity.
  - intros NB V. replace bb with false by (symmetry; apply not_true_is_false; rewrite BB; auto).
    rewrite (proj2 (rltb_false _ _) V). split.
    + intros [K O]. rewrite O, (proj2 (rltb_spec _ _) K). reflexivity.
    + intros K. assert (Z : rltb 1 P && negb (only_warn f) = false).
      { destruct K as [K|K]; [|rewrite K; apply andb_false_r]. rewrite (proj2 (rltb_false _ _) K). reflexivity. }
      rewrite Z. destruct (Rle_dec v P) as [M|M].
      * rewrite (proj2 (rltb_false _ _) M). reflexivity.
      * replace (rltb P v) with true by (symmetry; apply rltb_spec; lra). reflexivity.
Qed.
Print Assumptions multi_decision.
