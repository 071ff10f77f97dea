(** C92 (geometric collision time), C93 (transverse distance), C94 (covariant times), C95 (collision decision),
    C96 (every pair and tuple is checked once). Exact real arithmetic. *)
From Coq Require Import ZArith Reals List Bool Lia Lra Psatz.
From Verif Require Import Base VecModel MotionModel CollideModel VecProps KinProps.
Import ListNotations.
Open Scope R_scope.

(** ** C92: the geometric collision time *)
(** Specification: straight-line motion and squared distance. *)
Definition moved (x p : vec4) (t : R) : vec3 :=
  V3 (y1 x + y1 p / y0 p * t) (y2 x + y2 p / y0 p * t) (y3 x + y3 p / y0 p * t).
Definition dist2 (a b : vec3) : R := (x1 a - x1 b) ^ 2 + (x2 a - x2 b) ^ 2 + (x3 a - x3 b) ^ 2.
(** squared difference of the velocities *)
Definition rel_speed2 (p q : vec4) : R := dist2 (moved (V4 0 0 0 0) p 1) (moved (V4 0 0 0 0) q 1).

Lemma quad_min dx dy dz vx vy vz t T : T * (vx * vx + vy * vy + vz * vz) = - (dx * vx + dy * vy + dz * vz) ->
  (dx + vx * t) ^ 2 + (dy + vy * t) ^ 2 + (dz + vz * t) ^ 2 =
  (dx + vx * T) ^ 2 + (dy + vy * T) ^ 2 + (dz + vz * T) ^ 2 + (vx * vx + vy * vy + vz * vz) * (t - T) ^ 2.
Proof.
  intros E. apply Rminus_diag_uniq. set (v2 := vx * vx + vy * vy + vz * vz) in *.
  transitivity (2 * (t - T) * ((dx * vx + dy * vy + dz * vz) + T * v2)); [subst v2; ring|]. rewrite E. ring.
Qed.
(** If the momenta and energies differ enough, the time returned is the only time at which the two particles,
    moving on straight lines, are closest. It does not depend on the order of the two. *)
Theorem geometric_time_is_closest xa pa xb pb : 0 < y0 pa -> 0 < y0 pb ->
  really_small <= (y0 pa * y0 pb) ^ 2 * rel_speed2 pa pb ->
  (forall t, t <> geometric_time xa pa xb pb ->
     dist2 (moved xa pa (geometric_time xa pa xb pb)) (moved xb pb (geometric_time xa pa xb pb)) < dist2 (moved xa pa t) (moved xb pb t)) /\
  geometric_time xb pb xa pa = geometric_time xa pa xb pb.
Proof.
  intros A B D. set (d := sub3 (scale3 (y0 pb) (threevec pa)) (scale3 (y0 pa) (threevec pb))).
  assert (S : (y0 pa * y0 pb) ^ 2 * rel_speed2 pa pb = sqr3 d).
  { subst d. unfold rel_speed2, dist2, moved, sqr3, dot3, sub3, scale3, threevec. cbn [x1 x2 x3 y0 y1 y2 y3]. field. lra. }
  rewrite S in D. assert (RS : 0 < really_small) by (unfold really_small; lra).
  assert (P : 0 < sqr3 d) by lra.
  assert (T : geometric_time xa pa xb pb = - dot3 (sub3 (threevec xa) (threevec xb)) d * (y0 pa * y0 pb / sqr3 d)).
  { unfold geometric_time. fold d. destruct (Rlt_dec (sqr3 d) really_small); [lra|reflexivity]. }
  assert (PP : 0 < y0 pa * y0 pb) by (apply Rmult_lt_0_compat; lra).
  split.
  - intros t N. set (TT := geometric_time xa pa xb pb) in *.
    set (vx := y1 pa / y0 pa - y1 pb / y0 pb). set (vy := y2 pa / y0 pa - y2 pb / y0 pb). set (vz := y3 pa / y0 pa - y3 pb / y0 pb).
    assert (V : vx * vx + vy * vy + vz * vz = sqr3 d / (y0 pa * y0 pb) ^ 2).
    { subst d vx vy vz. unfold sqr3, dot3, sub3, scale3, threevec. cbn [x1 x2 x3 y1 y2 y3]. field. lra. }
    assert (VP : 0 < vx * vx + vy * vy + vz * vz) by (rewrite V; apply Rdiv_lt_0_compat; [lra|nra]).
    assert (E : TT * (vx * vx + vy * vy + vz * vz) =
                - ((y1 xa - y1 xb) * vx + (y2 xa - y2 xb) * vy + (y3 xa - y3 xb) * vz)).
    { rewrite V, T.
      replace ((y1 xa - y1 xb) * vx + (y2 xa - y2 xb) * vy + (y3 xa - y3 xb) * vz)
        with (dot3 (sub3 (threevec xa) (threevec xb)) d / (y0 pa * y0 pb)).
      2: { subst d vx vy vz. unfold dot3, sub3, scale3, threevec. cbn [x1 x2 x3 y1 y2 y3]. field. lra. }
      set (q := dot3 _ d). set (s := sqr3 d) in *. field. repeat split; lra. }
    pose proof (quad_min _ _ _ _ _ _ t TT E) as Q.
    assert (Z : forall u, dist2 (moved xa pa u) (moved xb pb u) =
      ((y1 xa - y1 xb) + vx * u) ^ 2 + ((y2 xa - y2 xb) + vy * u) ^ 2 + ((y3 xa - y3 xb) + vz * u) ^ 2).
    { intros. unfold dist2, moved. cbn [x1 x2 x3]. subst vx vy vz. ring. }
    rewrite !Z, Q. assert (0 < (t - TT) ^ 2) by (assert (t - TT <> 0) by lra; apply Rsqr_pos_lt in H; unfold Rsqr in H; nra).
    assert (0 < (vx * vx + vy * vy + vz * vz) * (t - TT) ^ 2) by (apply Rmult_lt_0_compat; lra). lra.
  - rewrite T. unfold geometric_time.
    set (d' := sub3 (scale3 (y0 pa) (threevec pb)) (scale3 (y0 pb) (threevec pa))).
    assert (N : sqr3 d' = sqr3 d) by (subst d d'; unfold sqr3, dot3, sub3, scale3, threevec; cbn [x1 x2 x3]; ring).
    rewrite N. destruct (Rlt_dec (sqr3 d) really_small); [lra|].
    replace (dot3 (sub3 (threevec xb) (threevec xa)) d') with (dot3 (sub3 (threevec xa) (threevec xb)) d)
      by (subst d d'; unfold dot3, sub3, scale3, threevec; cbn [x1 x2 x3]; ring).
    rewrite (Rmult_comm (y0 pb)). reflexivity.
Qed.
Print Assumptions geometric_time_is_closest.
Example geometric_time_example :
  0 < y0 (V4 5 0 0 3) /\ 0 < y0 (V4 5 0 0 (-3)) /\ really_small <= (5 * 5) ^ 2 * rel_speed2 (V4 5 0 0 3) (V4 5 0 0 (-3)) /\
  geometric_time (V4 0 0 0 (-1)) (V4 5 0 0 3) (V4 0 2 0 1) (V4 5 0 0 (-3)) = 5 / 3.
Proof.
  unfold rel_speed2, dist2, moved, geometric_time, sqr3, dot3, sub3, scale3, threevec, really_small. cbn [x1 x2 x3 y0 y1 y2 y3]. splits; try lra.
  destruct (Rlt_dec _ _); [lra|]. field.
Qed.
(** If they hardly move relative to each other, -1 is returned; with "hardly" measured by the product of the
    energies and the velocity difference, this also happens to soft, light particles: two photons of 10 MeV
    that fly at each other head on and meet after 1 fm get no collision time. *)
Theorem soft_particles_meet_refuted : exists xa pa xb pb,
  minkowski pa pa = 0 /\ minkowski pb pb = 0 /\ y0 pa = / 100 /\ y0 pb = / 100 /\
  dist2 (moved xa pa 1) (moved xb pb 1) = 0 /\ dist2 (moved xa pa 0) (moved xb pb 0) = 4 /\
  geometric_time xa pa xb pb = - 1.
Proof.
  exists (V4 0 0 0 (-1)), (V4 (/ 100) 0 0 (/ 100)), (V4 0 0 0 1), (V4 (/ 100) 0 0 (- / 100)).
  unfold minkowski, dist2, moved, geometric_time, sqr3, dot3, sub3, scale3, threevec, really_small. cbn [x1 x2 x3 y0 y1 y2 y3].
  splits; try lra; try (field; lra).
  destruct (Rlt_dec _ _); [reflexivity|]. exfalso. lra.
Qed.
Print Assumptions soft_particles_meet_refuted.

(** ** C93: the transverse distance *)
(** Specification: events on the world line of a particle, simultaneity in the rest frame of a time-like
    momentum, and the smallest distance of the particles at a common time of that frame. *)
Definition event (x p : vec4) (l : R) : vec4 := V4 (y0 x + l * y0 p) (y1 x + l * y1 p) (y2 x + l * y2 p) (y3 x + l * y3 p).
Definition simultaneous (P e f : vec4) : Prop := minkowski (sub4 e f) P = 0.
Definition interval2 (e f : vec4) : R := - minkowski (sub4 e f) (sub4 e f).
Definition closest (xa pa xb pb : vec4) (d2 : R) : Prop :=
  (exists la lb, simultaneous (add4 pa pb) (event xa pa la) (event xb pb lb) /\ interval2 (event xa pa la) (event xb pb lb) = d2) /\
  (forall la lb, simultaneous (add4 pa pb) (event xa pa la) (event xb pb lb) -> d2 <= interval2 (event xa pa la) (event xb pb lb)).
(** Gram determinant of the momenta: s times the square of the momentum in the centre-of-mass frame *)
Definition gram (pa pb : vec4) : R := minkowski pa pb * minkowski pa pb - minkowski pa pa * minkowski pb pb.
Definition future (p : vec4) : Prop := 0 < y0 p /\ 0 < minkowski p p.

Lemma closest_unique xa pa xb pb d d' : closest xa pa xb pb d -> closest xa pa xb pb d' -> d = d'.
Proof.
  intros [(la & lb & S & E) M] [(la' & lb' & S' & E') M'].
  pose proof (M _ _ S'). pose proof (M' _ _ S). lra.
Qed.
Lemma event_boost v x p l : boost v (event x p l) = event (boost v x) (boost v p) l.
Proof.
  unfold boost, event, mk4, sub3, scale3, threevec, dot3. cbn [x1 x2 x3 y0 y1 y2 y3]. set (g := gamma v). set (k := g / (g + 1)). f_equal; ring.
Qed.
Lemma sub4_boost v a b : boost v (sub4 a b) = sub4 (boost v a) (boost v b).
Proof.
  unfold boost, sub4, mk4, sub3, scale3, threevec, dot3. cbn [x1 x2 x3 y0 y1 y2 y3]. set (g := gamma v). set (k := g / (g + 1)). f_equal; ring.
Qed.
Lemma add4_boost v a b : boost v (add4 a b) = add4 (boost v a) (boost v b).
Proof.
  unfold boost, add4, mk4, sub3, scale3, threevec, dot3. cbn [x1 x2 x3 y0 y1 y2 y3]. set (g := gamma v). set (k := g / (g + 1)). f_equal; ring.
Qed.
Lemma simultaneous_boost v P e f : speed2 v < 1 -> simultaneous (boost v P) (boost v e) (boost v f) <-> simultaneous P e f.
Proof. intros V. unfold simultaneous. rewrite <- sub4_boost, boost_preserves_product by auto. tauto. Qed.
Lemma interval2_boost v e f : speed2 v < 1 -> interval2 (boost v e) (boost v f) = interval2 e f.
Proof. intros V. unfold interval2. rewrite <- sub4_boost, boost_preserves_product by auto. reflexivity. Qed.
Lemma closest_boost v xa pa xb pb d : speed2 v < 1 ->
  closest (boost v xa) (boost v pa) (boost v xb) (boost v pb) d <-> closest xa pa xb pb d.
Proof.
  intros V.
  assert (S : forall la lb, simultaneous (add4 (boost v pa) (boost v pb)) (event (boost v xa) (boost v pa) la) (event (boost v xb) (boost v pb) lb)
    <-> simultaneous (add4 pa pb) (event xa pa la) (event xb pb lb)).
  { intros. rewrite <- !event_boost, <- add4_boost. apply simultaneous_boost; auto. }
  assert (I : forall la lb, interval2 (event (boost v xa) (boost v pa) la) (event (boost v xb) (boost v pb) lb) = interval2 (event xa pa la) (event xb pb lb)).
  { intros. rewrite <- !event_boost. apply interval2_boost; auto. }
  unfold closest. split; intros [(la & lb & A & B) M]; (split; [exists la, lb; split; [apply S; auto|]|]).
  - rewrite <- I; auto.
  - intros a b H. rewrite <- I. apply M, S; auto.
  - rewrite I; auto.
  - intros a b H. rewrite I. apply M, S; auto.
Qed.
Lemma gram_boost v pa pb : speed2 v < 1 -> gram (boost v pa) (boost v pb) = gram pa pb.
Proof. intros V. unfold gram. rewrite !boost_preserves_product by auto. reflexivity. Qed.

(** In the centre-of-mass frame. *)
Lemma closest_cm (xa xb : vec4) (ea eb : R) (p : vec3) : 0 < ea + eb -> 0 < sqr3 p ->
  let dr := sub3 (threevec xa) (threevec xb) in
  closest xa (mk4 ea p) xb (mk4 eb (neg3 p)) (sqr3 dr - dot3 dr p * dot3 dr p / sqr3 p).
Proof.
  intros E P dr. set (k := - dot3 dr p / sqr3 p).
  assert (I : forall la lb, simultaneous (add4 (mk4 ea p) (mk4 eb (neg3 p))) (event xa (mk4 ea p) la) (event xb (mk4 eb (neg3 p)) lb) <->
     (y0 xa - y0 xb) + la * ea - lb * eb = 0).
  { intros. unfold simultaneous, minkowski, sub4, add4, event, mk4, neg3. cbn [x1 x2 x3 y0 y1 y2 y3].
    split; intros H.
    - apply Rmult_eq_reg_r with (ea + eb); [|lra]. rewrite Rmult_0_l, <- H. ring.
    - transitivity (((y0 xa - y0 xb) + la * ea - lb * eb) * (ea + eb)); [ring|]. rewrite H. ring. }
  assert (J : forall la lb, (y0 xa - y0 xb) + la * ea - lb * eb = 0 ->
     interval2 (event xa (mk4 ea p) la) (event xb (mk4 eb (neg3 p)) lb) =
     sqr3 dr - dot3 dr p * dot3 dr p / sqr3 p + sqr3 p * (la + lb - k) * (la + lb - k)).
  { intros la lb H. unfold interval2, minkowski, sub4, event, mk4, neg3. cbn [x1 x2 x3 y0 y1 y2 y3].
    replace (y0 xa + la * ea - (y0 xb + lb * eb)) with 0 by lra.
    assert (Q : sqr3 dr - dot3 dr p * dot3 dr p / sqr3 p + sqr3 p * (la + lb - k) * (la + lb - k) =
                sqr3 dr + 2 * (la + lb) * dot3 dr p + (la + lb) * (la + lb) * sqr3 p).
    { subst k. field. lra. }
    rewrite Q. subst dr. unfold sqr3, dot3, sub3, threevec. cbn [x1 x2 x3]. ring. }
  split.
  - exists ((k * eb - (y0 xa - y0 xb)) / (ea + eb)), ((k * ea + (y0 xa - y0 xb)) / (ea + eb)).
    assert (H : (y0 xa - y0 xb) + (k * eb - (y0 xa - y0 xb)) / (ea + eb) * ea - (k * ea + (y0 xa - y0 xb)) / (ea + eb) * eb = 0) by (field; lra).
    split; [apply I; exact H|]. rewrite J by exact H.
    replace ((k * eb - (y0 xa - y0 xb)) / (ea + eb) + (k * ea + (y0 xa - y0 xb)) / (ea + eb) - k) with 0 by (field; lra). ring.
  - intros la lb H. apply I in H. rewrite J by exact H.
    assert (0 <= (la + lb - k) * (la + lb - k)) by apply Rle_0_sqr.
    assert (0 <= sqr3 p * ((la + lb - k) * (la + lb - k))) by (apply Rmult_le_pos; lra). lra.
Qed.

(** The centre-of-mass frame of two momenta. *)
Lemma to_cm pa pb : future (add4 pa pb) ->
  let v := velocity (add4 pa pb) in
  speed2 v < 1 /\ exists ea eb p, boost v pa = mk4 ea p /\ boost v pb = mk4 eb (neg3 p) /\
    (ea + eb) * (ea + eb) = minkowski (add4 pa pb) (add4 pa pb) /\ 0 < ea + eb /\
    gram pa pb = sqr3 p * ((ea + eb) * (ea + eb)).
Proof.
  intros [E M] v. destruct (boost_to_rest_frame _ E M) as [V B]. fold v in V, B. split; auto.
  exists (y0 (boost v pa)), (y0 (boost v pb)), (threevec (boost v pa)).
  rewrite add4_boost in B. pose proof (sqrt_lt_R0 _ M) as SQ. pose proof (sqrt_sqrt _ (Rlt_le _ _ M)) as SS.
  rewrite <- (gram_boost v pa pb) by auto.
  destruct (boost v pa) as [a0 a1 a2 a3]. destruct (boost v pb) as [b0 b1 b2 b3].
  unfold add4 in B at 1. cbn [y0 y1 y2 y3] in B. injection B as B0 B1 B2 B3.
  unfold mk4, threevec, neg3. cbn [x1 x2 x3 y0 y1 y2 y3].
  assert (b1 = - a1) by lra. assert (b2 = - a2) by lra. assert (b3 = - a3) by lra. subst b1 b2 b3.
  splits; auto; try (rewrite B0; exact SS); try (rewrite B0; exact SQ).
  unfold gram, minkowski, sqr3, dot3. cbn [x1 x2 x3 y0 y1 y2 y3]. ring.
Qed.
Lemma sq3_nonneg a b c : 0 <= a ^ 2 + b ^ 2 + c ^ 2.
Proof. pose proof (Rle_0_sqr a). pose proof (Rle_0_sqr b). pose proof (Rle_0_sqr c). unfold Rsqr in *. lra. Qed.
Lemma cauchy3 a p : 0 < sqr3 p -> 0 <= sqr3 a - dot3 a p * dot3 a p / sqr3 p.
Proof.
  intros P. assert (C : dot3 a p * dot3 a p <= sqr3 a * sqr3 p).
  { unfold sqr3, dot3. destruct a as [a1 a2 a3], p as [p1 p2 p3]. cbn [x1 x2 x3].
    match goal with |- ?l <= ?r => assert (0 <= r - l); [|lra] end.
    match goal with |- 0 <= ?e => replace e with ((a1 * p2 - a2 * p1) ^ 2 + (a1 * p3 - a3 * p1) ^ 2 + (a2 * p3 - a3 * p2) ^ 2) by ring end. apply sq3_nonneg. }
  apply (Rmult_le_reg_r (sqr3 p)); auto. unfold Rdiv. rewrite Rmult_0_l, Rmult_minus_distr_r, Rmult_assoc, Rinv_l by lra. lra.
Qed.
Lemma add4_zero p : add4 zero4 p = p.
Proof. destruct p. unfold add4, zero4. cbn. f_equal; ring. Qed.

(** Unless the two hardly move relative to each other, the value is the square of the smallest distance they
    have at any common time of their centre-of-mass frame. *)
Theorem transverse_distance_is_closest xa pa xb pb : future (add4 pa pb) ->
  really_small * minkowski (add4 pa pb) (add4 pa pb) <= 4 * gram pa pb ->
  closest xa pa xb pb (transverse_distance_sqr xa pa xb pb).
Proof.
  intros F G. destruct (to_cm pa pb F) as (V & ea & eb & p & A & B & S & E & GR).
  set (v := velocity (add4 pa pb)) in *.
  assert (RS : 0 < really_small) by (unfold really_small; lra).
  destruct F as [F0 F1].
  assert (P : really_small <= 4 * sqr3 p).
  { rewrite GR, <- S in G. apply Rmult_le_reg_r with ((ea + eb) * (ea + eb)); [nra|]. lra. }
  apply (closest_boost v); auto. rewrite A, B.
  unfold transverse_distance_sqr. rewrite add4_zero. fold v. rewrite A, B.
  set (dr := sub3 (threevec (boost v xa)) (threevec (boost v xb))).
  set (dp := sub3 (threevec (mk4 ea p)) (threevec (mk4 eb (neg3 p)))).
  assert (D1 : sqr3 dp = 4 * sqr3 p) by (subst dp; unfold sqr3, dot3, sub3, threevec, mk4, neg3; cbn [x1 x2 x3 y1 y2 y3]; ring).
  assert (D2 : dot3 dr dp = 2 * dot3 dr p) by (subst dp; unfold sqr3, dot3, sub3, threevec, mk4, neg3; cbn [x1 x2 x3 y1 y2 y3]; ring).
  rewrite D1, D2. destruct (Rlt_dec (4 * sqr3 p) really_small); [lra|].
  replace (2 * dot3 dr p * (2 * dot3 dr p) / (4 * sqr3 p)) with (dot3 dr p * dot3 dr p / sqr3 p) by (field; lra).
  pose proof (closest_cm (boost v xa) (boost v xb) ea eb p E ltac:(lra)) as C. cbv zeta in C. fold dr in C.
  pose proof (cauchy3 dr p ltac:(lra)) as K.
  destruct (Rlt_dec 0 _) as [L|L]; [exact C|]. replace 0 with (sqr3 dr - dot3 dr p * dot3 dr p / sqr3 p) by lra. exact C.
Qed.
Print Assumptions transverse_distance_is_closest.

Lemma covden pa pb : covariant_denominator pa pb = gram pa pb.
Proof. unfold covariant_denominator, gram, dot4, sqr4, minkowski. ring. Qed.
Definition cov_formula (xa pa xb pb : vec4) : R :=
  let dx := sub4 xa xb in
  - minkowski dx dx - (minkowski pa pa * (minkowski pb dx * minkowski pb dx) + minkowski pb pb * (minkowski pa dx * minkowski pa dx)
     - 2 * minkowski pa pb * minkowski pa dx * minkowski pb dx) / gram pa pb.
Lemma cov_formula_cm xa ea xb eb p : 0 < ea + eb -> 0 < sqr3 p ->
  let dr := sub3 (threevec xa) (threevec xb) in
  cov_formula xa (mk4 ea p) xb (mk4 eb (neg3 p)) = sqr3 dr - dot3 dr p * dot3 dr p / sqr3 p.
Proof.
  intros E P dr. unfold cov_formula.
  assert (G : gram (mk4 ea p) (mk4 eb (neg3 p)) = sqr3 p * ((ea + eb) * (ea + eb))).
  { unfold gram, minkowski, sqr3, dot3, mk4, neg3. cbn [x1 x2 x3 y0 y1 y2 y3]. ring. }
  cbv zeta. rewrite G. set (t := y0 xa - y0 xb). set (d := dot3 dr p). set (p2 := sqr3 p) in *.
  assert (M1 : minkowski (mk4 ea p) (mk4 ea p) = ea * ea - p2) by (unfold minkowski, mk4; cbn [y0 y1 y2 y3]; subst p2; unfold sqr3, dot3; ring).
  assert (M2 : minkowski (mk4 eb (neg3 p)) (mk4 eb (neg3 p)) = eb * eb - p2) by (unfold minkowski, mk4, neg3; cbn [y0 y1 y2 y3 x1 x2 x3]; subst p2; unfold sqr3, dot3; ring).
  assert (M3 : minkowski (mk4 ea p) (mk4 eb (neg3 p)) = ea * eb + p2) by (unfold minkowski, mk4, neg3; cbn [y0 y1 y2 y3 x1 x2 x3]; subst p2; unfold sqr3, dot3; ring).
  assert (M4 : minkowski (mk4 ea p) (sub4 xa xb) = ea * t - d)
    by (unfold minkowski, mk4, sub4; cbn [y0 y1 y2 y3 x1 x2 x3]; subst d t dr; unfold dot3, sub3, threevec; cbn [x1 x2 x3]; ring).
  assert (M5 : minkowski (mk4 eb (neg3 p)) (sub4 xa xb) = eb * t + d)
    by (unfold minkowski, mk4, sub4, neg3; cbn [y0 y1 y2 y3 x1 x2 x3]; subst d t dr; unfold dot3, sub3, threevec; cbn [x1 x2 x3]; ring).
  assert (M6 : minkowski (sub4 xa xb) (sub4 xa xb) = t * t - sqr3 dr)
    by (unfold minkowski, sub4; cbn [y0 y1 y2 y3]; subst t dr; unfold sqr3, dot3, sub3, threevec; cbn [x1 x2 x3]; ring).
  rewrite M1, M2, M3, M4, M5, M6. field. split; lra.
Qed.
Lemma cov_formula_boost v xa pa xb pb : speed2 v < 1 ->
  cov_formula (boost v xa) (boost v pa) (boost v xb) (boost v pb) = cov_formula xa pa xb pb.
Proof. intros V. unfold cov_formula. cbv zeta. rewrite <- sub4_boost, gram_boost, !boost_preserves_product by auto. reflexivity. Qed.
Lemma cov_formula_closest xa pa xb pb : future (add4 pa pb) -> 0 < gram pa pb ->
  closest xa pa xb pb (cov_formula xa pa xb pb) /\ 0 <= cov_formula xa pa xb pb.
Proof.
  intros F G. destruct (to_cm pa pb F) as (V & ea & eb & p & A & B & S & E & GR).
  set (v := velocity (add4 pa pb)) in *.
  assert (P : 0 < sqr3 p).
  { rewrite GR in G. destruct (Rlt_le_dec 0 (sqr3 p)); auto. exfalso. assert (0 < (ea + eb) * (ea + eb)) by nra. nra. }
  rewrite <- (cov_formula_boost v) by auto. rewrite A, B. split.
  - apply (closest_boost v); auto. rewrite A, B, cov_formula_cm by auto. apply closest_cm; auto.
  - rewrite cov_formula_cm by auto. apply cauchy3; auto.
Qed.
Lemma gram_cm_nonneg pa pb : future (add4 pa pb) -> 0 <= gram pa pb.
Proof.
  intros F. destruct (to_cm pa pb F) as (V & ea & eb & p & A & B & S & E & GR). rewrite GR.
  apply Rmult_le_pos; [unfold sqr3, dot3; nra|nra].
Qed.
(** The covariant formula gives the same, without a boost, if the momenta differ in the computational frame. *)
Theorem covariant_distance_is_closest xa pa xb pb : future (add4 pa pb) -> 0 < gram pa pb ->
  really_small <= dist2 (threevec pa) (threevec pb) ->
  exists d2, cov_transverse_distance_sqr xa pa xb pb = Ok d2 /\ closest xa pa xb pb d2.
Proof.
  intros F G D. exists (cov_formula xa pa xb pb). destruct (cov_formula_closest xa pa xb pb F G) as [C N]. split; auto.
  unfold cov_transverse_distance_sqr.
  replace (sqr3 (sub3 (threevec pa) (threevec pb))) with (dist2 (threevec pa) (threevec pb))
    by (unfold sqr3, dot3, sub3, dist2; cbn [x1 x2 x3]; ring).
  destruct (Rlt_dec _ _); [lra|]. rewrite covden. destruct (Req_EM_T _ _); [lra|].
  match goal with |- Ok (if Rlt_dec 0 ?e then _ else _) = _ => replace e with (cov_formula xa pa xb pb) end.
  2: { unfold cov_formula, sqr4, dot4, minkowski. cbv zeta. f_equal; [ring|]. f_equal. ring. }
  destruct (Rlt_dec 0 _); f_equal; lra.
Qed.
Print Assumptions covariant_distance_is_closest.
Lemma boost_future v p : speed2 v < 1 -> future p -> future (boost v p).
Proof.
  intros V [E M]. split; [|rewrite boost_preserves_product; auto].
  destruct (gamma_eq v V) as [G _]. unfold boost, mk4, threevec, dot3. cbn [y0 x1 x2 x3].
  apply Rmult_lt_0_compat; [lra|].
  set (p2 := y1 p * y1 p + y2 p * y2 p + y3 p * y3 p). assert (P2 : p2 < y0 p * y0 p) by (subst p2; unfold minkowski in M; lra).
  set (q := y1 p * x1 v + y2 p * x2 v + y3 p * x3 v).
  assert (C : q * q <= p2 * speed2 v).
  { subst q p2. unfold speed2.
    match goal with |- ?l <= ?r => assert (0 <= r - l); [|lra] end.
    match goal with |- 0 <= ?e => replace e with ((y1 p * x2 v - y2 p * x1 v) ^ 2 + (y1 p * x3 v - y3 p * x1 v) ^ 2 + (y2 p * x3 v - y3 p * x2 v) ^ 2) by ring end. apply sq3_nonneg. }
  assert (0 <= speed2 v) by (unfold speed2; nra). assert (0 <= p2) by (subst p2; nra).
  assert (q * q < y0 p * y0 p) by nra. nra.
Qed.
(** Both are the same in every frame and for either order of the particles. *)
Theorem transverse_distance_invariant v xa pa xb pb : speed2 v < 1 -> future (add4 pa pb) ->
  really_small * minkowski (add4 pa pb) (add4 pa pb) <= 4 * gram pa pb ->
  transverse_distance_sqr (boost v xa) (boost v pa) (boost v xb) (boost v pb) = transverse_distance_sqr xa pa xb pb /\
  transverse_distance_sqr xb pb xa pa = transverse_distance_sqr xa pa xb pb.
Proof.
  intros V F G. pose proof (transverse_distance_is_closest xa pa xb pb F G) as C. split.
  - apply (closest_unique xa pa xb pb); auto. apply (closest_boost v); auto. apply transverse_distance_is_closest.
    + rewrite <- add4_boost. apply boost_future; auto.
    + rewrite <- add4_boost, boost_preserves_product, gram_boost by auto. exact G.
  - assert (CM : add4 pb pa = add4 pa pb) by (unfold add4; f_equal; ring).
    apply (closest_unique xa pa xb pb); auto.
    assert (D : closest xb pb xa pa (transverse_distance_sqr xb pb xa pa)).
    { apply transverse_distance_is_closest; rewrite CM; auto. replace (gram pb pa) with (gram pa pb); auto. unfold gram, minkowski. ring. }
    assert (SY : forall e f, simultaneous (add4 pa pb) e f <-> simultaneous (add4 pb pa) f e).
    { intros. rewrite CM. unfold simultaneous, minkowski, sub4. cbn [y0 y1 y2 y3]. split; intros H; lra. }
    assert (IY : forall e f, interval2 e f = interval2 f e) by (intros; unfold interval2, minkowski, sub4; cbn [y0 y1 y2 y3]; ring).
    destruct D as [(la & lb & P & Q) M]. split.
    + exists lb, la. split; [apply SY; auto|]. rewrite IY. auto.
    + intros a b H. rewrite IY. apply M, SY; auto.
Qed.
Print Assumptions transverse_distance_invariant.
Example transverse_example :
  future (add4 (V4 5 0 0 3) (V4 5 0 0 (-3))) /\
  really_small * minkowski (add4 (V4 5 0 0 3) (V4 5 0 0 (-3))) (add4 (V4 5 0 0 3) (V4 5 0 0 (-3))) <= 4 * gram (V4 5 0 0 3) (V4 5 0 0 (-3)) /\
  really_small <= dist2 (threevec (V4 5 0 0 3)) (threevec (V4 5 0 0 (-3))) /\
  cov_transverse_distance_sqr (V4 0 0 0 (-1)) (V4 5 0 0 3) (V4 0 2 0 1) (V4 5 0 0 (-3)) = Ok 4.
Proof.
  unfold future, gram, minkowski, add4, dist2, threevec, really_small. cbn [x1 x2 x3 y0 y1 y2 y3]. splits; try lra.
  unfold cov_transverse_distance_sqr, covariant_denominator, dot4, sqr4, sqr3, dot3, sub3, sub4, threevec, really_small. cbn [x1 x2 x3 y0 y1 y2 y3].
  destruct (Rlt_dec _ _); [lra|]. destruct (Req_EM_T _ _); [lra|]. destruct (Rlt_dec _ _) as [|N]; [f_equal; field|exfalso; apply N].
  match goal with |- 0 < ?e => replace e with 4 by field end. lra.
Qed.
(** The covariant formula tests the difference of the momenta in the computational frame, not whether the two
    move relative to each other: a massless particle right behind a particle of mass 4 GeV with the same
    three-momentum catches up with it (the closest distance is 0) but 1 fm^2 is returned. In a frame that
    moves sideways or along, the result for the same pair is different. *)
Theorem covariant_equal_momenta_refuted : exists xa pa xb pb,
  future (add4 pa pb) /\ 0 < gram pa pb /\ minkowski pa pa = 16 /\ minkowski pb pb = 0 /\
  closest xa pa xb pb 0 /\ cov_transverse_distance_sqr xa pa xb pb = Ok 1 /\
  cov_transverse_distance_sqr (boost (V3 0 0 (3 / 5)) xa) (boost (V3 0 0 (3 / 5)) pa) (boost (V3 0 0 (3 / 5)) xb) (boost (V3 0 0 (3 / 5)) pb) = Ok 0.
Proof.
  exists (V4 0 0 0 1), (V4 5 0 0 3), (V4 0 0 0 0), (V4 3 0 0 3).
  assert (F : future (add4 (V4 5 0 0 3) (V4 3 0 0 3))) by (unfold future, minkowski, add4; cbn [y0 y1 y2 y3]; lra).
  assert (G : 0 < gram (V4 5 0 0 3) (V4 3 0 0 3)) by (unfold gram, minkowski; cbn [y0 y1 y2 y3]; lra).
  destruct (cov_formula_closest (V4 0 0 0 1) _ (V4 0 0 0 0) _ F G) as [C _].
  replace (cov_formula (V4 0 0 0 1) (V4 5 0 0 3) (V4 0 0 0 0) (V4 3 0 0 3)) with 0 in C.
  2: { unfold cov_formula, gram, minkowski, sub4. cbn [y0 y1 y2 y3]. field. }
  assert (BV : speed2 (V3 0 0 (3 / 5)) < 1) by (unfold speed2; cbn [x1 x2 x3]; lra).
  splits; auto; try (unfold minkowski; cbn [y0 y1 y2 y3]; lra).
  - unfold cov_transverse_distance_sqr, sqr3, dot3, sub3, sub4, sqr4, threevec, really_small. cbn [x1 x2 x3 y0 y1 y2 y3].
    destruct (Rlt_dec _ _); [f_equal; lra|lra].
  - set (v := V3 0 0 (3 / 5)) in *.
    assert (GA : gamma v = 5 / 4).
    { unfold gamma, sqr3, dot3. subst v. cbn [x1 x2 x3]. destruct (Rlt_dec _ _); [|lra].
      replace (1 - (0 * 0 + 0 * 0 + 3 / 5 * (3 / 5))) with (4 / 5 * (4 / 5)) by field. rewrite sqrt_square by lra. field. }
    assert (B1 : boost v (V4 5 0 0 3) = V4 4 0 0 0) by (unfold boost, mk4, sub3, scale3, threevec, dot3; rewrite GA; subst v; cbn [x1 x2 x3 y0 y1 y2 y3]; f_equal; field).
    assert (B2 : boost v (V4 3 0 0 3) = V4 (3 / 2) 0 0 (3 / 2)) by (unfold boost, mk4, sub3, scale3, threevec, dot3; rewrite GA; subst v; cbn [x1 x2 x3 y0 y1 y2 y3]; f_equal; field).
    assert (FB : future (add4 (boost v (V4 5 0 0 3)) (boost v (V4 3 0 0 3)))) by (rewrite <- add4_boost; apply boost_future; auto).
    destruct (covariant_distance_is_closest (boost v (V4 0 0 0 1)) _ (boost v (V4 0 0 0 0)) _ FB) as (d2 & E & CC).
    + rewrite gram_boost by auto. exact G.
    + rewrite B1, B2. unfold dist2, threevec, really_small. cbn [x1 x2 x3 y1 y2 y3]. lra.
    + rewrite E. f_equal. apply (proj1 (closest_boost v _ _ _ _ _ BV)) in CC. exact (closest_unique _ _ _ _ _ _ CC C).
Qed.
Print Assumptions covariant_equal_momenta_refuted.

(** ** C94: the covariant collision times *)
(** The two times are those at which the particles are closest in their centre-of-mass frame: the events are
    simultaneous there and their distance is the smallest. Their mean is returned. *)
Theorem covariant_times_are_closest xa pa xb pb d2 : future (add4 pa pb) -> 0 < y0 pa -> 0 < y0 pb ->
  really_small * really_small <= gram pa pb -> closest xa pa xb pb d2 ->
  exists la lb, simultaneous (add4 pa pb) (event xa pa la) (event xb pb lb) /\
    interval2 (event xa pa la) (event xb pb lb) = d2 /\
    covariant_time xa pa xb pb = ((y0 (event xa pa la) - y0 xa) + (y0 (event xb pb lb) - y0 xb)) / 2.
Proof.
  intros F A B G C. assert (RS : 0 < really_small * really_small) by (unfold really_small; lra).
  set (dx := sub4 xa xb).
  exists ((minkowski pb pb * minkowski pa dx - minkowski pa pb * minkowski pb dx) / gram pa pb),
         (- (minkowski pa pa * minkowski pb dx - minkowski pa pb * minkowski pa dx) / gram pa pb).
  set (la := _ / gram pa pb). set (lb := - _ / gram pa pb).
  assert (O : forall q, minkowski (sub4 (event xa pa la) (event xb pb lb)) q = minkowski q dx + la * minkowski pa q - lb * minkowski pb q).
  { intros. unfold minkowski, sub4, event, dx, sub4. cbn [y0 y1 y2 y3]. ring. }
  assert (SYM : minkowski pb pa = minkowski pa pb) by (unfold minkowski; ring).
  assert (O1 : minkowski (sub4 (event xa pa la) (event xb pb lb)) pa = 0).
  { rewrite O, SYM. subst la lb. apply (Rmult_eq_reg_r (gram pa pb)); [|lra]. rewrite Rmult_0_l.
    transitivity (minkowski pa dx * gram pa pb + (minkowski pb pb * minkowski pa dx - minkowski pa pb * minkowski pb dx) * minkowski pa pa
      + (minkowski pa pa * minkowski pb dx - minkowski pa pb * minkowski pa dx) * minkowski pa pb); [field; lra|]. unfold gram. ring. }
  assert (O2 : minkowski (sub4 (event xa pa la) (event xb pb lb)) pb = 0).
  { rewrite O. subst la lb. apply (Rmult_eq_reg_r (gram pa pb)); [|lra]. rewrite Rmult_0_l.
    transitivity (minkowski pb dx * gram pa pb + (minkowski pb pb * minkowski pa dx - minkowski pa pb * minkowski pb dx) * minkowski pa pb
      + (minkowski pa pa * minkowski pb dx - minkowski pa pb * minkowski pa dx) * minkowski pb pb); [field; lra|]. unfold gram. ring. }
  assert (SI : simultaneous (add4 pa pb) (event xa pa la) (event xb pb lb)).
  { unfold simultaneous. replace (minkowski (sub4 (event xa pa la) (event xb pb lb)) (add4 pa pb))
      with (minkowski (sub4 (event xa pa la) (event xb pb lb)) pa + minkowski (sub4 (event xa pa la) (event xb pb lb)) pb)
      by (unfold minkowski, add4; cbn [y0 y1 y2 y3]; ring). lra. }
  splits; auto.
  - assert (I : interval2 (event xa pa la) (event xb pb lb) = cov_formula xa pa xb pb).
    { unfold interval2. set (e := sub4 (event xa pa la) (event xb pb lb)) in *.
      replace (minkowski e e) with (minkowski e dx + la * minkowski e pa - lb * minkowski e pb)
        by (subst e dx; unfold minkowski, sub4, event; cbn [y0 y1 y2 y3]; ring).
      rewrite O1, O2.
      replace (minkowski e dx) with (minkowski dx dx + la * minkowski pa dx - lb * minkowski pb dx)
        by (subst e dx; unfold minkowski, sub4, event; cbn [y0 y1 y2 y3]; ring).
      unfold cov_formula. cbv zeta. fold dx. subst la lb. set (g := gram pa pb) in *. field. lra. }
    rewrite I. destruct (cov_formula_closest xa pa xb pb F ltac:(lra)) as [CC _]. exact (closest_unique _ _ _ _ _ _ CC C).
  - unfold covariant_time, covariant_time_1, covariant_time_2. cbv zeta. rewrite covden. fold dx.
    destruct (Rlt_dec _ _) as [L|L]; [rewrite Rabs_right in L; lra|].
    unfold event. cbn [y0]. subst la lb. rewrite <- (Rmult_1_r 2) at 1.
    unfold sqr4, dot4. fold (gram pa pb).
    replace (y0 pb * y0 pb - y1 pb * y1 pb - y2 pb * y2 pb - y3 pb * y3 pb) with (minkowski pb pb) by (unfold minkowski; ring).
    replace (y0 pa * y0 pa - y1 pa * y1 pa - y2 pa * y2 pa - y3 pa * y3 pa) with (minkowski pa pa) by (unfold minkowski; ring).
    replace (y0 pa * y0 pb - y1 pa * y1 pb - y2 pa * y2 pb - y3 pa * y3 pb) with (minkowski pa pb) by (unfold minkowski; ring).
    replace (y0 pa * y0 dx - y1 pa * y1 dx - y2 pa * y2 dx - y3 pa * y3 dx) with (minkowski pa dx) by (unfold minkowski; ring).
    replace (y0 pb * y0 dx - y1 pb * y1 dx - y2 pb * y2 dx - y3 pb * y3 dx) with (minkowski pb dx) by (unfold minkowski; ring).
    set (g := gram pa pb) in *. field. lra.
Qed.
Print Assumptions covariant_times_are_closest.
Theorem covariant_time_symmetric xa pa xb pb : covariant_time xb pb xa pa = covariant_time xa pa xb pb.
Proof.
  unfold covariant_time, covariant_time_1, covariant_time_2. cbv zeta.
  replace (covariant_denominator pb pa) with (covariant_denominator pa pb) by (unfold covariant_denominator, dot4; ring).
  destruct (Rlt_dec _ _); [reflexivity|]. set (D := covariant_denominator pa pb). unfold Rdiv, dot4, sqr4, sub4. cbn [y0 y1 y2 y3]. ring.
Qed.
Example covariant_time_example :
  future (add4 (V4 5 0 0 3) (V4 5 0 0 (-3))) /\ really_small * really_small <= gram (V4 5 0 0 3) (V4 5 0 0 (-3)) /\
  covariant_time (V4 0 0 0 (-1)) (V4 5 0 0 3) (V4 0 2 0 1) (V4 5 0 0 (-3)) = 5 / 3.
Proof.
  unfold future, gram, minkowski, add4, really_small. cbn [y0 y1 y2 y3]. splits; try lra.
  unfold covariant_time, covariant_time_1, covariant_time_2, covariant_denominator, dot4, sqr4, sub4, really_small. cbn [y0 y1 y2 y3].
  destruct (Rlt_dec _ _) as [L|]; [|field]. rewrite Rabs_right in L; lra.
Qed.
