(** Crossing of the hypersurface of constant proper time (C54). *)
From Coq Require Import ZArith Reals List Bool Lra Lia.
From Verif Require Import Base VecModel VecProps KinProps MotionModel MotionProps.
Import ListNotations.
Open Scope R_scope.

(** Where a particle at x with velocity v is at time t; square of the proper time t^2 - z^2. *)
Definition line (x : vec4) (v : vec3) (t : R) : vec4 :=
  V4 t (y1 x + x1 v * (t - y0 x)) (y2 x + x2 v * (t - y0 x)) (y3 x + x3 v * (t - y0 x)).
Definition tau_squared (x : vec4) : R := y0 x * y0 x - y3 x * y3 x.

Section Line.
Variables (t1 z1 m T : R).
Hypothesis Ht1 : 0 <= t1.
Hypothesis Hm : -1 < m < 1.
Hypothesis HT : 0 < T.
Let n := z1 - m * t1.
Let z t := z1 + m * (t - t1).
Let root := sqrt ((1 - m * m) * T * T + n * n) / (1 - m * m).
Let sol1 := n * m / (1 - m * m) + root.
Let sol2 := n * m / (1 - m * m) - root.
Lemma mm : 0 < 1 - m * m. Proof. clear - Hm. nra. Qed.
Lemma rad_pos : 0 < (1 - m * m) * T * T + n * n.
Proof. pose proof mm. assert (0 < (1 - m * m) * T * T) by (apply Rmult_lt_0_compat; [apply Rmult_lt_0_compat|]; lra). nra. Qed.
Lemma root_sq : root * root * ((1 - m * m) * (1 - m * m)) = (1 - m * m) * T * T + n * n.
Proof.
  pose proof mm. unfold root. set (s := sqrt _). assert (S : s * s = (1 - m * m) * T * T + n * n) by (apply sqrt_sqrt; apply Rlt_le, rad_pos).
  rewrite <- S. field. lra.
Qed.
Lemma root_pos : 0 < root.
Proof. pose proof mm. apply Rmult_lt_0_compat; [apply sqrt_lt_R0, rad_pos|apply Rinv_0_lt_compat; lra]. Qed.
Lemma factored t : t * t - z t * z t - T * T = (1 - m * m) * ((t - sol1) * (t - sol2)).
Proof.
  pose proof mm as M. pose proof root_sq as Q. unfold sol1, sol2.
  assert (E : root * root = ((1 - m * m) * T * T + n * n) / ((1 - m * m) * (1 - m * m))) by (rewrite <- Q; field; lra).
  replace ((t - (n * m / (1 - m * m) + root)) * (t - (n * m / (1 - m * m) - root))) with ((t - n * m / (1 - m * m)) * (t - n * m / (1 - m * m)) - root * root) by ring.
  rewrite E. unfold z, n. field. lra.
Qed.
Lemma sol2_neg : sol2 < 0.
Proof.
  pose proof mm as M. pose proof root_sq as Q. pose proof root_pos as P. unfold sol2.
  assert (E : n * m / (1 - m * m) * (1 - m * m) = n * m) by (field; lra). set (a := n * m / (1 - m * m)) in *.
  assert (n * m * (n * m) < root * root * ((1 - m * m) * (1 - m * m))) by (rewrite Q; assert (0 < (1 - m * m) * T * T) by (apply Rmult_lt_0_compat; [apply Rmult_lt_0_compat|]; lra); nra).
  assert (0 < root * (1 - m * m)) by nra. assert (n * m < root * (1 - m * m)) by nra. nra.
Qed.
Lemma on_surface_iff t : t1 <= t -> (t * t - z t * z t = T * T <-> t = sol1).
Proof.
  intros L. pose proof mm as M. pose proof (factored t) as F. pose proof sol2_neg as N. split; intros H.
  - assert (G : (1 - m * m) * ((t - sol1) * (t - sol2)) = 0) by lra.
    apply Rmult_integral in G. destruct G as [G|G]; [lra|]. apply Rmult_integral in G. destruct G as [G|G]; lra.
  - subst t. assert ((sol1 - sol1) * (sol1 - sol2) = 0) by ring. nra.
Qed.
Lemma below_iff t : t1 <= t -> (t * t - z t * z t <= T * T <-> t <= sol1).
Proof.
  intros L. pose proof mm as M. pose proof (factored t) as F. pose proof sol2_neg as N. split; intros H.
  - assert (G : (1 - m * m) * ((t - sol1) * (t - sol2)) <= 0) by lra.
    destruct (Rle_dec t sol1) as [|C]; auto. exfalso. assert (0 < (1 - m * m) * ((t - sol1) * (t - sol2))); [|lra].
    apply Rmult_lt_0_compat; auto. apply Rmult_lt_0_compat; lra.
  - assert (0 <= (1 - m * m) * ((sol1 - t) * (t - sol2))); [|lra].
    apply Rmult_le_pos; [lra|]. apply Rmult_le_pos; lra.
Qed.
End Line.

Lemma rabs_sq a b : rltb (Rabs a) (Rabs b) = true <-> a * a < b * b.
Proof.
  rewrite rltb_spec. assert (A : Rabs a * Rabs a = a * a) by (rewrite <- Rabs_mult; apply Rabs_pos_eq; nra).
  assert (B : Rabs b * Rabs b = b * b) by (rewrite <- Rabs_mult; apply Rabs_pos_eq; nra).
  pose proof (Rabs_pos a). pose proof (Rabs_pos b). rewrite <- A, <- B. split; nra.
Qed.
Lemma tau_cmp x T : 0 < T -> 0 <= tau_squared x -> (tau x <= T <-> tau_squared x <= T * T) /\ (T <= tau x <-> T * T <= tau_squared x).
Proof.
  intros HT P. unfold tau, tau_squared in *. pose proof (sqrt_pos (y0 x * y0 x - y3 x * y3 x)). pose proof (sqrt_sqrt _ P). split; split; nra.
Qed.
Lemma crosses_iff before after T : 0 < T ->
  (crosses_hypersurface before after T = true <->
   tau_squared before <= T * T /\ T * T <= tau_squared after).
Proof.
  intros HT. unfold crosses_hypersurface.
  destruct (rltb (Rabs (y3 before)) (Rabs (y0 before))) eqn:B; destruct (rltb (Rabs (y3 after)) (Rabs (y0 after))) eqn:A;
    cbn [andb negb]; try rewrite rabs_sq in B; try rewrite rabs_sq in A;
    (try (assert (~ y3 before * y3 before < y0 before * y0 before) by (rewrite <- rabs_sq, B; discriminate)));
    (try (assert (~ y3 after * y3 after < y0 after * y0 after) by (rewrite <- rabs_sq, A; discriminate))).
  - destruct (tau_cmp before T HT) as [C _]; [unfold tau_squared; lra|]. destruct (tau_cmp after T HT) as [_ D]; [unfold tau_squared; lra|].
    rewrite andb_true_iff, !negb_true_iff, !rltb_false. tauto.
  - split; [discriminate|]. unfold tau_squared. nra.
  - destruct (tau_cmp after T HT) as [_ D]; [unfold tau_squared; lra|]. rewrite negb_true_iff, rltb_false, D.
    unfold tau_squared. split; [intros; split; [nra|auto]|tauto].
  - split; [discriminate|]. unfold tau_squared. nra.
Qed.

(** For particles that start the step at t >= 0 and move with their own velocity: an action is
    found exactly if the particle reaches proper time T during the step, and its position is the
    point where it does. *)
Theorem hypersurface_crossing_exact dt T p : (0 <= pid p)%Z ->
  0 < T -> 0 < dt -> 0 <= y0 (pos p) -> -1 < x3 (velocity (mom p)) < 1 ->
  let on t := tau_squared (line (pos p) (velocity (mom p)) t) = T * T in
  exists r, hypersurface_find [] dt T true p = Ok r /\
  match r with
  | Some x => y0 (pos p) <= y0 x <= y0 (pos p) + dt /\ x = line (pos p) (velocity (mom p)) (y0 x) /\ on (y0 x) /\
              (forall t, y0 (pos p) <= t -> on t -> t = y0 x)
  | None => forall t, y0 (pos p) <= t <= y0 (pos p) + dt -> ~ on t
  end.
Proof.
  intros I HT Hd H0 Hv on. unfold hypersurface_find. rewrite (proj2 (rltb_false _ _)) by lra.
  assert (V : motion_velocity [] p = velocity (mom p)).
  { unfold motion_velocity. cbn [length]. replace (pid p <? Z.of_nat 0)%Z with false; [reflexivity|]. symmetry. apply Z.ltb_ge. cbn. lia. }
  rewrite V. set (v := velocity (mom p)) in *. clearbody v. destruct (pos p) as [t1 xx yy z1] eqn:PP. cbn [y0] in *.
  set (after := mk4 (t1 + dt) _). set (m := x3 v) in *.
  assert (A3 : y3 after = z1 + m * dt) by reflexivity. assert (A0 : y0 after = t1 + dt) by reflexivity.
  pose proof (crosses_iff (V4 t1 xx yy z1) after T HT) as C. unfold tau_squared in C. rewrite A3, A0 in C. cbn [y0 y3] in C.
  pose proof (below_iff t1 z1 m T H0 Hv HT) as BI. pose proof (on_surface_iff t1 z1 m T H0 Hv HT) as OI. pose proof (sol2_neg t1 z1 m T Hv HT) as N2.
  cbv beta zeta in BI, OI, N2. set (n := z1 - m * t1) in *. set (root := sqrt ((1 - m * m) * T * T + n * n) / (1 - m * m)) in *.
  set (s1 := n * m / (1 - m * m) + root) in *. set (s2 := n * m / (1 - m * m) - root) in *.
  assert (ON : forall t, t1 <= t -> (on t <-> t = s1)).
  { intros t L. unfold on, tau_squared, line. cbn [y0 y3]. apply OI; auto. }
  destruct (crosses_hypersurface (V4 t1 xx yy z1) after T) eqn:CR; cbn [andb].
  - destruct (proj1 C eq_refl) as [C1 C2]. 
    assert (L1 : t1 <= s1) by (apply BI; [lra|]; replace (t1 - t1) with 0 by ring; rewrite Rmult_0_r, Rplus_0_r; auto).
    assert (L2 : s1 <= t1 + dt).
    { destruct (Rle_dec s1 (t1 + dt)); auto. exfalso. assert (t1 <= t1 + dt) by lra.
      assert (E : (t1 + dt) * (t1 + dt) - (z1 + m * (t1 + dt - t1)) * (z1 + m * (t1 + dt - t1)) = T * T).
      { apply Rle_antisym; [apply BI; lra|]. replace (t1 + dt - t1) with dt by ring. auto. }
      apply OI in E; lra. }
    unfold coordinates_on_hypersurface. rewrite A3, A0. cbn [y0 y3].
    replace ((z1 + m * dt - z1) / (t1 + dt - t1)) with m by (field; lra).
    fold n. fold root. fold s1. fold s2.
    rewrite !(proj2 (rltb_false _ _)) by lra. rewrite (proj2 (rltb_spec s2 t1)) by lra. cbn [orb negb rbind].
    eexists. split; [reflexivity|]. cbn [y0]. splits; auto.
    + apply ON; auto.
    + intros t L O. apply ON in O; auto.
  - eexists. split; [reflexivity|]. cbn beta iota. intros t L O. apply ON in O; [|lra]. subst t.
    enough (false = true) by discriminate. apply C. split.
    + assert (B : t1 <= s1) by lra. apply (proj2 (BI t1 (Rle_refl t1))) in B. replace (t1 - t1) with 0 in B by ring. rewrite Rmult_0_r, Rplus_0_r in B. auto.
    + assert (K : T * T <= (t1 + dt) * (t1 + dt) - (z1 + m * (t1 + dt - t1)) * (z1 + m * (t1 + dt - t1))).
      { destruct (Rle_dec (T * T) ((t1 + dt) * (t1 + dt) - (z1 + m * (t1 + dt - t1)) * (z1 + m * (t1 + dt - t1)))) as [G|G]; auto. exfalso.
        assert (B : t1 + dt <= s1) by (apply BI; lra). assert (E : t1 + dt = s1) by lra. apply OI in E; lra. }
      replace (t1 + dt - t1) with dt in K by ring. auto.
Qed.
Print Assumptions hypersurface_crossing_exact.
Definition ex_h : particle := Part (V4 1 0 0 0) (V4 5 0 0 3) 4 7 0 0 0 1.
Example hypersurface_example : exists x, hypersurface_find [] 10 4 true ex_h = Ok (Some x).
Proof.
  assert (V : x3 (velocity (mom ex_h)) = 3 / 5) by (rewrite velocity_eq; reflexivity).
  destruct (hypersurface_crossing_exact 10 4 ex_h) as (r & E & H); try (cbn; lia); try (cbn; lra); try (rewrite V; lra).
  destruct r as [x|]; [eauto|]. exfalso. destruct (crosses_iff (pos ex_h) (line (pos ex_h) (velocity (mom ex_h)) 11) 4) as [_ C]; [lra|].
  unfold hypersurface_find in E. rewrite (proj2 (rltb_false _ _)) in E by (cbn; lra).
  assert (X : crosses_hypersurface (pos ex_h) (mk4 (y0 (pos ex_h) + 10) (threevec (add4 (pos ex_h) (mk4 0 (scale3 10 (motion_velocity [] ex_h)))))) 4 = true).
  { apply crosses_iff; [lra|]. change (motion_velocity [] ex_h) with (velocity (mom ex_h)). unfold tau_squared.
    cbn [ex_h pos mk4 threevec add4 scale3 y0 y1 y2 y3 x1 x2 x3]. rewrite V. lra. }
  rewrite X in E. cbn [andb] in E. destruct (coordinates_on_hypersurface _ _ _ _); cbn [rbind] in E; discriminate.
Qed.

(** With frozen Fermi motion the crossing is looked for along the beam, but the position is
    computed with the particle's own velocity: it is not on the hypersurface. *)
Theorem hypersurface_frozen_fermi_refuted : exists beam dt T p x, (0 <= pid p)%Z /\ 0 < T /\ 0 < dt /\ 0 <= y0 (pos p) /\
  hypersurface_find beam dt T true p = Ok (Some x) /\ tau_squared x <> T * T /\
  x <> line (pos p) (motion_velocity beam p) (y0 x).
Proof.
  set (p := Part (V4 1 0 0 0) (V4 5 0 0 3) 4 0 0 0 0 1).
  assert (V : x3 (velocity (mom p)) = 3 / 5) by (rewrite velocity_eq; reflexivity).
  assert (W : motion_velocity [V4 1 0 0 0] p = V3 0 0 0).
  { change (motion_velocity [V4 1 0 0 0] p) with (velocity (V4 1 0 0 0)). rewrite velocity_eq. cbn [y0 y1 y2 y3]. f_equal; field. }
  exists [V4 1 0 0 0], 2, 2, p, (mk4 2 (threevec (add4 (pos p) (mk4 0 (scale3 (2 - 1) (velocity (mom p))))))).
  splits; try (cbn; lia); try lra; try (cbn; lra).
  - unfold hypersurface_find. rewrite W. rewrite (proj2 (rltb_false _ _)) by (cbn; lra). set (after := mk4 _ (threevec _)).
    assert (A : y0 after = 3 /\ y3 after = 0) by (unfold after; cbn [p pos mk4 threevec add4 scale3 y0 y1 y2 y3 x1 x2 x3]; lra).
    destruct A as [A0 A3]. rewrite (proj2 (crosses_iff _ after 2 ltac:(lra))) by (unfold tau_squared; rewrite A0, A3; cbn [p pos y0 y3]; lra).
    cbn [andb]. unfold coordinates_on_hypersurface. rewrite A0, A3. cbn [p pos y0 y3].
    replace ((0 - 0) / (3 - 1)) with 0 by field. replace (0 - 0 * 1) with 0 by ring. replace ((1 - 0 * 0) * 2 * 2 + 0 * 0) with (2 * 2) by ring.
    rewrite sqrt_square by lra. replace (0 * 0 / (1 - 0 * 0) + 2 / (1 - 0 * 0)) with 2 by field. replace (0 * 0 / (1 - 0 * 0) - 2 / (1 - 0 * 0)) with (- 2) by field.
    rewrite !(proj2 (rltb_false _ _)) by lra. rewrite (proj2 (rltb_spec (- 2) 1)) by lra. reflexivity.
  - unfold tau_squared. cbn [p pos mk4 threevec add4 scale3 y0 y1 y2 y3 x1 x2 x3]. fold p. change (x3 (velocity (V4 5 0 0 3))) with (x3 (velocity (mom p))). rewrite V. lra.
  - rewrite W. intros E. apply (f_equal y3) in E. cbn [p pos line mk4 threevec add4 scale3 y0 y1 y2 y3 x1 x2 x3] in E.
    change (x3 (velocity (V4 5 0 0 3))) with (x3 (velocity (mom p))) in E. rewrite V in E. lra.
Qed.
Print Assumptions hypersurface_frozen_fermi_refuted.
(** A step that starts long before t = 0 and ends after the crossing misses it. *)
Theorem hypersurface_early_start_refuted : exists dt T p t, (0 <= pid p)%Z /\ 0 < T /\ 0 < dt /\
  velocity (mom p) = V3 0 0 0 /\ y0 (pos p) <= t <= y0 (pos p) + dt /\ 0 < t /\ tau_squared (line (pos p) (velocity (mom p)) t) = T * T /\
  hypersurface_find [] dt T true p = Ok None.
Proof.
  set (p := Part (V4 (- 2) 0 0 0) (V4 1 0 0 0) 1 0 0 0 0 1).
  assert (V : velocity (mom p) = V3 0 0 0) by (rewrite velocity_eq; cbn [p mom y0 y1 y2 y3]; f_equal; field).
  exists 5, (3 / 2), p, (3 / 2). splits; auto; try (cbn; lia); try lra; try (cbn; lra).
  - rewrite V. unfold tau_squared, line. cbn [p pos y0 y1 y2 y3 x1 x2 x3]. lra.
  - unfold hypersurface_find. change (motion_velocity [] p) with (velocity (mom p)). rewrite V. rewrite (proj2 (rltb_false _ _)) by (cbn; lra).
    set (after := mk4 _ (threevec _)). destruct (crosses_hypersurface (pos p) after (3 / 2)) eqn:C; [|reflexivity].
    apply crosses_iff in C; [|lra]. unfold tau_squared in C. cbn [p pos y0 y3] in C. lra.
Qed.
Print Assumptions hypersurface_early_start_refuted.
