(** C44 (boosts), C45 (rotations), C46 (kinematics), C72 (directions), C73 (comparisons).
    Exact real arithmetic. *)
From Coq Require Import ZArith Reals List Bool Lia Lra Psatz.
From Flocq Require Import Core.
From Verif Require Import Base VecModel.
Import ListNotations.
Open Scope R_scope.

(** ** C44: Lorentz boosts *)
Definition minkowski (a b : vec4) : R := y0 a * y0 b - (y1 a * y1 b + y2 a * y2 b + y3 a * y3 b).
Definition speed2 (v : vec3) : R := x1 v * x1 v + x2 v * x2 v + x3 v * x3 v.

Lemma gamma_eq v : speed2 v < 1 -> 1 <= gamma v /\ gamma v * gamma v * (1 - speed2 v) = 1.
Proof.
  intros H. unfold gamma. change (sqr3 v) with (speed2 v). destruct (Rlt_dec (speed2 v) 1); [|contradiction].
  assert (P : 0 < 1 - speed2 v) by lra. pose proof (sqrt_lt_R0 _ P) as S. pose proof (sqrt_sqrt (1 - speed2 v) (Rlt_le _ _ P)) as E.
  assert (N : 0 <= speed2 v) by (unfold speed2; nra).
  split.
  - assert (L : sqrt (1 - speed2 v) <= sqrt 1) by (apply sqrt_le_1_alt; lra). rewrite sqrt_1 in L.
    apply Rmult_le_reg_r with (sqrt (1 - speed2 v)); auto. unfold Rdiv. rewrite Rmult_assoc, Rinv_l; lra.
  - rewrite <- E at 3. field. lra.
Qed.
Lemma boost_dot g v2 a b x0' y0' k X Y xy : 1 <= g -> g * g * (1 - v2) = 1 ->
  x0' = g * (X - a) -> y0' = g * (Y - b) -> k = g / (g + 1) ->
  x0' * y0' - (xy - k * (y0' + Y) * a - k * (x0' + X) * b + k * k * v2 * (x0' + X) * (y0' + Y)) = X * Y - xy.
Proof.
  intros G E -> -> ->. assert (V : v2 = 1 - / (g * g)) by (field_simplify_eq; [nra|lra]). subst v2. field. lra.
Qed.
(** The Minkowski product of two boosted vectors is that of the vectors. *)
Theorem boost_preserves_product v a b : speed2 v < 1 -> minkowski (boost v a) (boost v b) = minkowski a b.
Proof.
  intros H. destruct (gamma_eq v H) as [G E]. unfold minkowski, boost, mk4, sub3, scale3, threevec. cbn [y0 y1 y2 y3 x1 x2 x3].
  unfold dot3. cbn [x1 x2 x3]. set (g := gamma v) in *.
  pose proof (boost_dot g (speed2 v) (y1 a * x1 v + y2 a * x2 v + y3 a * x3 v) (y1 b * x1 v + y2 b * x2 v + y3 b * x3 v)
    _ _ _ (y0 a) (y0 b) (y1 a * y1 b + y2 a * y2 b + y3 a * y3 b) G E eq_refl eq_refl eq_refl) as D.
  rewrite <- D. unfold speed2. set (k := g / (g + 1)). ring.
Qed.
Print Assumptions boost_preserves_product.
Lemma boost_back g v2 X a : 1 <= g -> g * g * (1 - v2) = 1 ->
  let X' := g * (X - a) in let c := g / (g + 1) * (X' + X) in
  let a' := a - c * v2 in
  g * (X' + a') = X /\ c = g / (g + 1) * (g * (X' + a') + X').
Proof.
  intros G E. cbv zeta. assert (V : v2 = 1 - / (g * g)) by (field_simplify_eq; [nra|lra]). subst v2.
  assert (Q : g * (g * (X - a) + (a - g / (g + 1) * (g * (X - a) + X) * (1 - / (g * g)))) = X) by (field; lra).
  split; [exact Q|]. rewrite Q. field. lra.
Qed.
(** Boosting with v and then with -v changes nothing. *)
Theorem boost_inverse v a : speed2 v < 1 -> boost (neg3 v) (boost v a) = a.
Proof.
  intros H. destruct (gamma_eq v H) as [G E].
  assert (GN : gamma (neg3 v) = gamma v) by (unfold gamma, sqr3, dot3, neg3; cbn [x1 x2 x3]; rewrite !Rmult_opp_opp; reflexivity).
  unfold boost at 1. rewrite GN.
  destruct (boost_back (gamma v) (speed2 v) (y0 a) (dot3 (threevec a) v) G E) as [B1 B2].
  set (g := gamma v) in *. set (c := g / (g + 1) * (g * (y0 a - dot3 (threevec a) v) + y0 a)) in *.
  set (X' := g * (y0 a - dot3 (threevec a) v)) in *.
  assert (D : dot3 (threevec (boost v a)) (neg3 v) = - (dot3 (threevec a) v - c * speed2 v)).
  { unfold boost, mk4, dot3, neg3, sub3, scale3, threevec, speed2. cbn [y0 y1 y2 y3 x1 x2 x3]. subst c X'. unfold dot3, threevec. cbn [x1 x2 x3 y1 y2 y3]. fold g. ring. }
  rewrite D. change (y0 (boost v a)) with X'.
  replace (X' - - (dot3 (threevec a) v - c * speed2 v)) with (X' + (dot3 (threevec a) v - c * speed2 v)) by ring.
  rewrite <- B2, B1.
  unfold boost, mk4, sub3, scale3, neg3, threevec. cbn [y0 y1 y2 y3 x1 x2 x3]. fold g.
  change (g / (g + 1) * (g * (y0 a - dot3 {| x1 := y1 a; x2 := y2 a; x3 := y3 a |} v) + y0 a)) with c.
  destruct a as [a0 a1 a2 a3]. cbn [y0 y1 y2 y3]. f_equal; ring.
Qed.
Print Assumptions boost_inverse.
(** Boosting a time-like momentum with its own velocity gives its rest frame. *)
Theorem boost_to_rest_frame p : 0 < y0 p -> 0 < minkowski p p ->
  speed2 (velocity p) < 1 /\ boost (velocity p) p = V4 (sqrt (minkowski p p)) 0 0 0.
Proof.
  intros E M. assert (S : speed2 (velocity p) = 1 - minkowski p p / (y0 p * y0 p)).
  { unfold speed2, velocity, div3, scale3, threevec, minkowski. cbn [x1 x2 x3]. field. lra. }
  assert (Q : 0 < minkowski p p / (y0 p * y0 p)) by (apply Rdiv_lt_0_compat; nra).
  assert (L : speed2 (velocity p) < 1) by lra. split; auto.
  destruct (gamma_eq _ L) as [G GG]. rewrite S in GG.
  assert (R : gamma (velocity p) * sqrt (minkowski p p) = y0 p).
  { apply Rsqr_inj; [apply Rmult_le_pos; [lra|apply sqrt_pos]|lra|]. unfold Rsqr.
    replace (gamma (velocity p) * sqrt (minkowski p p) * (gamma (velocity p) * sqrt (minkowski p p)))
      with (gamma (velocity p) * gamma (velocity p) * (sqrt (minkowski p p) * sqrt (minkowski p p))) by ring.
    rewrite sqrt_sqrt by lra.
    replace (1 - (1 - minkowski p p / (y0 p * y0 p))) with (minkowski p p / (y0 p * y0 p)) in GG by ring.
    apply (f_equal (fun z => z * (y0 p * y0 p))) in GG. rewrite Rmult_1_l in GG. rewrite <- GG. field. lra. }
  assert (X : gamma (velocity p) * (y0 p - dot3 (threevec p) (velocity p)) = sqrt (minkowski p p)).
  { replace (y0 p - dot3 (threevec p) (velocity p)) with (minkowski p p / y0 p)
      by (unfold dot3, velocity, div3, scale3, threevec, minkowski; cbn [x1 x2 x3]; field; lra).
    rewrite <- R at 1. rewrite <- (sqrt_sqrt (minkowski p p)) at 1 by lra. pose proof (sqrt_lt_R0 _ M). field. split; lra. }
  unfold boost. rewrite X.
  assert (K : gamma (velocity p) / (gamma (velocity p) + 1) * (sqrt (minkowski p p) + y0 p) = y0 p).
  { rewrite <- R. field. lra. }
  rewrite K. unfold mk4, sub3, scale3, velocity, div3, threevec. cbn [x1 x2 x3]. unfold scale3. cbn [x1 x2 x3]. f_equal; field; lra.
Qed.
Print Assumptions boost_to_rest_frame.
(** For v of speed 1 or more the time component becomes 0. *)
Example boost_superluminal : boost (V3 0 0 1) (V4 5 0 0 3) = V4 0 0 0 3.
Proof.
  unfold boost, gamma, sqr3, dot3, mk4, sub3, scale3, threevec. cbn [x1 x2 x3 y0 y1 y2 y3].
  destruct (Rlt_dec (0 * 0 + 0 * 0 + 1 * 1) 1); [lra|]. f_equal; field.
Qed.
Example boost_example : speed2 (V3 0 0 (3 / 5)) < 1 /\ boost (V3 0 0 (3 / 5)) (V4 5 0 0 3) = V4 4 0 0 0.
Proof.
  split; [unfold speed2; cbn; lra|]. unfold boost, gamma, sqr3, dot3, mk4, sub3, scale3, threevec. cbn [x1 x2 x3 y0 y1 y2 y3].
  destruct (Rlt_dec (0 * 0 + 0 * 0 + 3 / 5 * (3 / 5)) 1); [|lra].
  replace (1 - (0 * 0 + 0 * 0 + 3 / 5 * (3 / 5))) with (4 / 5 * (4 / 5)) by field. rewrite sqrt_square by lra. f_equal; field.
Qed.

(** ** C45: rotations *)
Definition inner (a b : vec3) : R := x1 a * x1 b + x2 a * x2 b + x3 a * x3 b.
Lemma sc t : sin t * sin t = 1 - cos t * cos t.
Proof. pose proof (sin2_cos2 t). unfold Rsqr in *. lra. Qed.
Definition rot_x (t : R) (a : vec3) : vec3 := V3 (x1 a) (cos t * x2 a - sin t * x3 a) (sin t * x2 a + cos t * x3 a).
Lemma rotate_parts f t s a : rotate f t s a = rotate_around_z f (rot_x t (rotate_around_z s a)).
Proof. unfold rotate, rotate_around_z, rot_x. cbn [x1 x2 x3]. f_equal; ring. Qed.
Lemma vec3_eq a b : x1 a = x1 b -> x2 a = x2 b -> x3 a = x3 b -> a = b.
Proof. destruct a, b; cbn; congruence. Qed.
Lemma rotz_inner t a b : inner (rotate_around_z t a) (rotate_around_z t b) = inner a b.
Proof.
  unfold inner, rotate_around_z. cbn [x1 x2 x3].
  replace ((cos t * x1 a - sin t * x2 a) * (cos t * x1 b - sin t * x2 b) + (sin t * x1 a + cos t * x2 a) * (sin t * x1 b + cos t * x2 b) + x3 a * x3 b)
    with ((sin t * sin t + cos t * cos t) * (x1 a * x1 b + x2 a * x2 b) + x3 a * x3 b) by ring. rewrite sc. ring.
Qed.
Lemma rotx_inner t a b : inner (rot_x t a) (rot_x t b) = inner a b.
Proof.
  unfold inner, rot_x. cbn [x1 x2 x3].
  replace (x1 a * x1 b + (cos t * x2 a - sin t * x3 a) * (cos t * x2 b - sin t * x3 b) + (sin t * x2 a + cos t * x3 a) * (sin t * x2 b + cos t * x3 b))
    with ((sin t * sin t + cos t * cos t) * (x2 a * x2 b + x3 a * x3 b) + x1 a * x1 b) by ring. rewrite sc. ring.
Qed.
Lemma rotz_back t a : rotate_around_z (- t) (rotate_around_z t a) = a.
Proof.
  apply vec3_eq; unfold rotate_around_z; cbn [x1 x2 x3]; rewrite ?cos_neg, ?sin_neg; auto.
  - replace (cos t * (cos t * x1 a - sin t * x2 a) - - sin t * (sin t * x1 a + cos t * x2 a)) with ((sin t * sin t + cos t * cos t) * x1 a) by ring. rewrite sc. ring.
  - replace (- sin t * (cos t * x1 a - sin t * x2 a) + cos t * (sin t * x1 a + cos t * x2 a)) with ((sin t * sin t + cos t * cos t) * x2 a) by ring. rewrite sc. ring.
Qed.
Lemma rotx_back t a : rot_x (- t) (rot_x t a) = a.
Proof.
  apply vec3_eq; unfold rot_x; cbn [x1 x2 x3]; rewrite ?cos_neg, ?sin_neg; auto.
  - replace (cos t * (cos t * x2 a - sin t * x3 a) - - sin t * (sin t * x2 a + cos t * x3 a)) with ((sin t * sin t + cos t * cos t) * x2 a) by ring. rewrite sc. ring.
  - replace (- sin t * (cos t * x2 a - sin t * x3 a) + cos t * (sin t * x2 a + cos t * x3 a)) with ((sin t * sin t + cos t * cos t) * x3 a) by ring. rewrite sc. ring.
Qed.
Theorem rotate_preserves_inner f t s a b : inner (rotate f t s a) (rotate f t s b) = inner a b.
Proof. rewrite !rotate_parts, rotz_inner, rotx_inner, rotz_inner. reflexivity. Qed.
Print Assumptions rotate_preserves_inner.
Theorem rotate_can_be_undone f t s a : rotate (- s) (- t) (- f) (rotate f t s a) = a.
Proof. rewrite !rotate_parts, rotz_back, rotx_back, rotz_back. reflexivity. Qed.
Print Assumptions rotate_can_be_undone.
(** Rotations about an axis: lengths and products kept, undone by the opposite angle. *)
Theorem rotate_around_axis t a b :
  inner (rotate_around_y t a) (rotate_around_y t b) = inner a b /\
  inner (rotate_around_z t a) (rotate_around_z t b) = inner a b /\
  rotate_around_y (- t) (rotate_around_y t a) = a /\
  rotate_around_z (- t) (rotate_around_z t a) = a.
Proof.
  splits; auto using rotz_inner, rotz_back.
  - unfold inner, rotate_around_y. cbn [x1 x2 x3].
    replace ((cos t * x1 a + sin t * x3 a) * (cos t * x1 b + sin t * x3 b) + x2 a * x2 b + (- sin t * x1 a + cos t * x3 a) * (- sin t * x1 b + cos t * x3 b))
      with ((sin t * sin t + cos t * cos t) * (x1 a * x1 b + x3 a * x3 b) + x2 a * x2 b) by ring. rewrite sc. ring.
  - apply vec3_eq; unfold rotate_around_y; cbn [x1 x2 x3]; rewrite ?cos_neg, ?sin_neg; auto.
    + replace (cos t * (cos t * x1 a + sin t * x3 a) + - sin t * (- sin t * x1 a + cos t * x3 a)) with ((sin t * sin t + cos t * cos t) * x1 a) by ring. rewrite sc. ring.
    + replace (- - sin t * (cos t * x1 a + sin t * x3 a) + cos t * (- sin t * x1 a + cos t * x3 a)) with ((sin t * sin t + cos t * cos t) * x3 a) by ring. rewrite sc. ring.
Qed.
Print Assumptions rotate_around_axis.

Lemma sqrt_mult_self x y : 0 < x -> sqrt (x * x * y) = x * sqrt y.
Proof. intros. rewrite sqrt_mult_alt by nra. rewrite sqrt_square by lra. reflexivity. Qed.
Lemma atan2_spec y x : 0 < x * x + y * y ->
  cos (atan2 y x) * sqrt (x * x + y * y) = x /\ sin (atan2 y x) * sqrt (x * x + y * y) = y.
Proof.
  intros P. unfold atan2.
  assert (A : x <> 0 -> cos (atan (y / x)) * sqrt (x * x + y * y) = Rabs x /\ sin (atan (y / x)) * sqrt (x * x + y * y) = Rabs x * (y / x)).
  { intros NZ. assert (AX : 0 < Rabs x) by now apply Rabs_pos_lt.
    assert (E : sqrt (x * x + y * y) = Rabs x * sqrt (1 + (y / x)²)).
    { rewrite <- sqrt_mult_self by auto. f_equal. rewrite <- Rabs_mult, Rabs_pos_eq by nra. unfold Rsqr. field. auto. }
    assert (S : 0 < sqrt (1 + (y / x)²)) by (apply sqrt_lt_R0; pose proof (Rle_0_sqr (y / x)); lra).
    rewrite cos_atan, sin_atan, E. split; field; lra. }
  destruct (Rlt_dec 0 x) as [X|X]; [|destruct (Rlt_dec x 0) as [X'|X']].
  - destruct (A ltac:(lra)) as [A1 A2]. rewrite Rabs_pos_eq in A1, A2 by lra. rewrite A1, A2. split; auto. field. lra.
  - destruct (A ltac:(lra)) as [A1 A2]. rewrite Rabs_left in A1, A2 by lra.
    destruct (Rle_dec 0 y).
    + rewrite neg_cos, neg_sin. split; [lra|].
      replace (- sin (atan (y / x)) * sqrt (x * x + y * y)) with (- (sin (atan (y / x)) * sqrt (x * x + y * y))) by ring. rewrite A2. field. lra.
    + assert (EC : cos (atan (y / x) - PI) = - cos (atan (y / x))) by (rewrite cos_minus, cos_PI, sin_PI; ring).
      assert (ES : sin (atan (y / x) - PI) = - sin (atan (y / x))) by (rewrite sin_minus, cos_PI, sin_PI; ring).
      rewrite EC, ES. split; [lra|].
      replace (- sin (atan (y / x)) * sqrt (x * x + y * y)) with (- (sin (atan (y / x)) * sqrt (x * x + y * y))) by ring. rewrite A2. field. lra.
  - assert (x = 0) by lra. subst x. replace (0 * 0 + y * y) with (y * y) by ring.
    destruct (Rlt_dec 0 y) as [Y|Y].
    + rewrite cos_PI2, sin_PI2, sqrt_square by lra. lra.
    + destruct (Rlt_dec y 0) as [Y'|Y'].
      * rewrite cos_neg, sin_neg, cos_PI2, sin_PI2. replace (y * y) with (- y * - y) by ring. rewrite sqrt_square by lra. lra.
      * nra.
Qed.
Lemma theta_spec r : r <> V3 0 0 0 ->
  cos (get_theta r) * abs3 r = x3 r /\ sin (get_theta r) * abs3 r = sqrt (x1 r * x1 r + x2 r * x2 r).
Proof.
  intros NZ. assert (P : 0 < dot3 r r).
  { unfold dot3. destruct r as [a b c]. cbn [x1 x2 x3] in *.
    destruct (Req_dec a 0), (Req_dec b 0), (Req_dec c 0); subst; try (exfalso; now apply NZ); nra. }
  unfold get_theta. fold (abs3 r). assert (A : 0 < abs3 r) by (apply sqrt_lt_R0; auto).
  assert (AA : abs3 r * abs3 r = dot3 r r) by (apply sqrt_sqrt; lra).
  destruct (Rlt_dec 0 (abs3 r)); [|contradiction].
  assert (B : -1 <= x3 r / abs3 r <= 1).
  { assert (S : (x3 r / abs3 r)² <= 1²).
    { rewrite Rsqr_1. unfold Rsqr. replace (x3 r / abs3 r * (x3 r / abs3 r)) with (x3 r * x3 r / (abs3 r * abs3 r)) by (field; lra).
      rewrite AA. apply Rmult_le_reg_r with (dot3 r r); auto. unfold Rdiv. rewrite Rmult_assoc, Rinv_l by lra. unfold dot3. nra. }
    apply Rsqr_le_abs_0 in S. rewrite Rabs_R1 in S. apply Rabs_le_inv in S. exact S. }
  rewrite cos_acos, sin_acos by auto. split; [field; lra|].
  rewrite Rmult_comm, <- sqrt_mult_self by auto. f_equal. unfold Rsqr.
  replace (abs3 r * abs3 r * (1 - x3 r / abs3 r * (x3 r / abs3 r))) with (abs3 r * abs3 r - x3 r * x3 r) by (field; lra).
  rewrite AA. unfold dot3. ring.
Qed.
(** The z axis is mapped onto the direction of r: the image of (0, 0, |r|) is r, if r has a
    transverse component of at least 10^-6 or none at all. *)
Theorem rotate_z_axis_to_direction r : r <> V3 0 0 0 ->
  (x1 r = 0 /\ x2 r = 0) \/ really_small <= Rabs (x1 r) \/ really_small <= Rabs (x2 r) ->
  rotate_z_axis_to r (V3 0 0 (sqrt (inner r r))) = r.
Proof.
  intros NZ C. destruct (theta_spec r NZ) as [T1 T2]. change (sqrt (inner r r)) with (abs3 r).
  assert (RS : 0 < really_small) by (unfold really_small; lra).
  apply vec3_eq; unfold rotate_z_axis_to, rotate_around_z, rotate_around_y; cbn [x1 x2 x3]; rewrite ?Rmult_0_r, ?Rplus_0_l, ?Rplus_0_r, ?Rminus_0_r, ?T1, ?T2; auto.
  - destruct C as [[C1 C2]|C].
    + rewrite C1, C2. replace (0 * 0 + 0 * 0) with 0 by ring. rewrite sqrt_0. ring.
    + assert (PH : get_phi r = atan2 (x2 r) (x1 r)).
      { unfold get_phi. destruct (Rlt_dec (Rabs (x1 r)) really_small), (Rlt_dec (Rabs (x2 r)) really_small); auto. exfalso. lra. }
      rewrite PH. destruct (atan2_spec (x2 r) (x1 r)) as [A1 A2]; [|exact A1].
      destruct (Req_dec (x1 r) 0) as [Z1|Z1], (Req_dec (x2 r) 0) as [Z2|Z2]; try nra. rewrite Z1, Z2, Rabs_R0 in C. lra.
  - destruct C as [[C1 C2]|C].
    + rewrite C1, C2. replace (0 * 0 + 0 * 0) with 0 by ring. rewrite sqrt_0. ring.
    + assert (PH : get_phi r = atan2 (x2 r) (x1 r)).
      { unfold get_phi. destruct (Rlt_dec (Rabs (x1 r)) really_small), (Rlt_dec (Rabs (x2 r)) really_small); auto. exfalso. lra. }
      rewrite PH. destruct (atan2_spec (x2 r) (x1 r)) as [A1 A2]; [|exact A2].
      destruct (Req_dec (x1 r) 0) as [Z1|Z1], (Req_dec (x2 r) 0) as [Z2|Z2]; try nra. rewrite Z1, Z2, Rabs_R0 in C. lra.
Qed.
Print Assumptions rotate_z_axis_to_direction.
(** Not for every vector: for a short r along y the z axis is mapped onto the x axis. *)
Theorem rotate_z_axis_to_direction_refuted :
  exists r, r <> V3 0 0 0 /\ rotate_z_axis_to r (V3 0 0 1) = V3 1 0 0 /\ x1 r = 0 /\ x3 r = 0.
Proof.
  exists (V3 0 (/ 10000000) 0). assert (NZ : V3 0 (/ 10000000) 0 <> V3 0 0 0).
  { intros E. apply (f_equal x2) in E. cbn in E. lra. }
  splits; auto.
  assert (AB : abs3 (V3 0 (/ 10000000) 0) = / 10000000).
  { unfold abs3, dot3. cbn [x1 x2 x3]. replace (0 * 0 + / 10000000 * / 10000000 + 0 * 0) with (/ 10000000 * / 10000000) by ring. apply sqrt_square. lra. }
  assert (T : get_theta (V3 0 (/ 10000000) 0) = PI / 2).
  { unfold get_theta. rewrite AB. destruct (Rlt_dec 0 (/ 10000000)); [|lra]. cbn [x3]. unfold Rdiv at 1. rewrite Rmult_0_l. apply acos_0. }
  assert (F : get_phi (V3 0 (/ 10000000) 0) = 0).
  { unfold get_phi, really_small. cbn [x1 x2]. rewrite Rabs_R0, Rabs_pos_eq by lra. destruct (Rlt_dec 0 (/ 1000000)); [|lra]. destruct (Rlt_dec (/ 10000000) (/ 1000000)); [reflexivity|lra]. }
  unfold rotate_z_axis_to. rewrite T, F. unfold rotate_around_y, rotate_around_z. cbn [x1 x2 x3]. rewrite cos_PI2, sin_PI2, cos_0, sin_0. f_equal; ring.
Qed.
Print Assumptions rotate_z_axis_to_direction_refuted.
Example rotate_z_example : V3 3 0 4 <> V3 0 0 0 /\ really_small <= Rabs (x1 (V3 3 0 4)) /\ rotate_z_axis_to (V3 3 0 4) (V3 0 0 5) = V3 3 0 4.
Proof.
  assert (NZ : V3 3 0 4 <> V3 0 0 0) by (intros E; apply (f_equal x1) in E; cbn in E; lra).
  assert (C : really_small <= Rabs (x1 (V3 3 0 4))) by (cbn [x1]; rewrite Rabs_pos_eq by lra; unfold really_small; lra).
  splits; auto. pose proof (rotate_z_axis_to_direction (V3 3 0 4) NZ (or_intror (or_introl C))) as H.
  unfold inner in H. cbn [x1 x2 x3] in H. replace (3 * 3 + 0 * 0 + 4 * 4) with (5 * 5) in H by ring. rewrite sqrt_square in H by lra. exact H.
Qed.
