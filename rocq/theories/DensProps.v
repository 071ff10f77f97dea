(** Densities: values, derivatives, continuity, Lorentz covariance (C122). *)
From Coq Require Import ZArith Reals List Bool Lra Lia Psatz.
From Verif Require Import Base VecModel VecProps DensModel WoodsSaxon DensSpec DensProofs.
Import ListNotations.
Open Scope R_scope.

(** ** The value *)
(** At every point the calculation succeeds, and the current is the sum over the particles of charge, Gaussian in the
    particle's rest frame and four-velocity over Lorentz factor; the density is the difference of the invariant lengths of the
    current of positive and of negative charges. *)
Theorem current_value par d grad r ps : Forall physical ps -> 0 <= norm_factor_sf par ->
  exists c, current_eckart r ps par d grad true = Ok c /\ jmu c = sum4 (particle_current par d r) ps /\
    rho c = length4 (sum4 (positive_current par d r) ps) - length4 (sum4 (negative_current par d r) ps).
Proof.
  intros P N. eexists. split; [apply current_eq; auto|]. cbn [jmu rho]. rewrite jsum. split; auto.
  rewrite <- (sum_positive par d grad r ps), <- (sum_negative par d grad r ps), !length4_scale by auto. ring.
Qed.
Print Assumptions current_value.
Lemma j_at_eq par d r ps : Forall physical ps -> j_at par d r ps = sum4 (particle_current par d r) ps.
Proof. intros P. unfold j_at. rewrite current_eq by auto. cbn [jmu]. apply jsum. Qed.

(** ** Derivatives *)
Lemma deriv_local f g x l : (exists e, 0 < e /\ forall h, Rabs h < e -> f (x + h) = g (x + h)) -> derivable_pt_lim g x l -> derivable_pt_lim f x l.
Proof.
  intros (e & E & H) D eps EP. destruct (D eps EP) as (dl & Q). assert (M : 0 < Rmin e dl) by (apply Rmin_pos; [auto|apply cond_pos]).
  exists (mkposreal _ M). intros h H0 HL. cbn in HL. rewrite H by (eapply Rlt_le_trans; [exact HL|apply Rmin_l]).
  replace (f x) with (g x). apply Q; auto. eapply Rlt_le_trans; [exact HL|apply Rmin_r].
  specialize (H 0). rewrite Rplus_0_r in H. symmetry. apply H. now rewrite Rabs_R0.
Qed.
Lemma deriv_ext g f x l : (forall h, f h = g h) -> derivable_pt_lim g x l -> derivable_pt_lim f x l.
Proof. intros H. apply deriv_local. exists 1. split; [lra|]. intros h _. apply H. Qed.
Lemma cut_gauss A k c q0 q1 q2 : q0 <> c ->
  derivable_pt_lim (fun h => if Rle_dec (q0 + q1 * h + q2 * (h * h)) c then A * exp (- (q0 + q1 * h + q2 * (h * h)) * k) else 0) 0
    (if Rle_dec q0 c then - q1 * k * (A * exp (- q0 * k)) else 0).
Proof.
  intros NE.
  set (e := Rmin 1 (Rabs (q0 - c) / (Rabs q1 + Rabs q2 + 1))).
  assert (B : 0 < Rabs (q0 - c)) by (apply Rabs_pos_lt; lra).
  pose proof (Rabs_pos q1). pose proof (Rabs_pos q2).
  assert (DD : 0 < Rabs q1 + Rabs q2 + 1) by lra.
  assert (EP : 0 < e). { apply Rmin_pos; [lra|]. apply Rdiv_lt_0_compat; auto. }
  assert (SM : forall h, Rabs h < e -> Rabs (q1 * h + q2 * (h * h)) < Rabs (q0 - c)).
  { intros h Hh. assert (Rabs h < 1) by (eapply Rlt_le_trans; [exact Hh|apply Rmin_l]).
    assert (H4 : Rabs h * (Rabs q1 + Rabs q2 + 1) < Rabs (q0 - c)).
    { assert (H5 : Rabs h < Rabs (q0 - c) / (Rabs q1 + Rabs q2 + 1)) by (eapply Rlt_le_trans; [exact Hh|apply Rmin_r]).
      apply Rmult_lt_compat_r with (r := Rabs q1 + Rabs q2 + 1) in H5; auto. unfold Rdiv in H5. rewrite Rmult_assoc, Rinv_l, Rmult_1_r in H5 by lra. exact H5. }
    eapply Rle_lt_trans; [apply Rabs_triang|]. rewrite !Rabs_mult. pose proof (Rabs_pos h).
    assert (Rabs h * Rabs h <= Rabs h) by (rewrite <- (Rmult_1_r (Rabs h)) at 3; apply Rmult_le_compat_l; lra).
    assert (Rabs q2 * (Rabs h * Rabs h) <= Rabs q2 * Rabs h) by (apply Rmult_le_compat_l; auto). lra. }
  destruct (Rle_dec q0 c) as [L|L].
  - apply deriv_local with (g := fun h => A * exp (- (q0 + q1 * h + q2 * (h * h)) * k)).
    + exists e. split; auto. intros h Hh. rewrite Rplus_0_l. destruct (Rle_dec _ _) as [|N]; auto. exfalso. apply N. specialize (SM h Hh).
      rewrite (Rabs_left1 (q0 - c)) in SM by lra. apply Rabs_def2 in SM. lra.
    + set (F := fun h => - (q0 + q1 * h + q2 * (h * h)) * k).
      assert (DF : derivable_pt_lim F 0 (- q1 * k)).
      { replace (- q1 * k) with ((- (0 + (0 * 0 + q1 * 1) + (0 * (0 * 0) + q2 * (1 * 0 + 0 * 1)))) * k + (- (q0 + q1 * 0 + q2 * (0 * 0))) * 0) by ring.
        unfold F. apply (derivable_pt_lim_mult (fun h => - (q0 + q1 * h + q2 * (h * h))) (fun _ => k)); [|apply derivable_pt_lim_const].
        apply (derivable_pt_lim_opp (fun h => q0 + q1 * h + q2 * (h * h))).
        apply (derivable_pt_lim_plus (fun h => q0 + q1 * h) (fun h => q2 * (h * h))).
        - apply (derivable_pt_lim_plus (fun _ => q0) (fun h => q1 * h)); [apply derivable_pt_lim_const|].
          apply (derivable_pt_lim_mult (fun _ => q1) (fun h => h)); [apply derivable_pt_lim_const|apply derivable_pt_lim_id].
        - apply (derivable_pt_lim_mult (fun _ => q2) (fun h => h * h)); [apply derivable_pt_lim_const|].
          apply (derivable_pt_lim_mult (fun h => h) (fun h => h)); apply derivable_pt_lim_id. }
      replace (- q1 * k * (A * exp (- q0 * k))) with (0 * exp (F 0) + A * (exp (F 0) * (- q1 * k))).
      2:{ unfold F. replace (- (q0 + q1 * 0 + q2 * (0 * 0)) * k) with (- q0 * k) by ring. ring. }
      apply (derivable_pt_lim_mult (fun _ => A) (fun h => exp (F h))); [apply derivable_pt_lim_const|].
      apply (derivable_pt_lim_comp F exp); auto. apply derivable_pt_lim_exp.
  - apply deriv_local with (g := fun _ => 0).
    + exists e. split; auto. intros h Hh. rewrite Rplus_0_l. destruct (Rle_dec _ _) as [N|]; auto. exfalso. specialize (SM h Hh).
      rewrite (Rabs_pos_eq (q0 - c)) in SM by lra. apply Rabs_def2 in SM. lra.
    + apply derivable_pt_lim_const.
Qed.
Lemma deriv_at0 f x l : derivable_pt_lim (fun h => f (x + h)) 0 l -> derivable_pt_lim f x l.
Proof.
  intros D eps EP. destruct (D eps EP) as (dl & Q). exists dl. intros h H0 HL. specialize (Q h H0 HL). rewrite Rplus_0_l, Rplus_0_r in Q. exact Q.
Qed.
(** the profile seen from a moving point *)
Lemma profile_along par p r e : 0 < mass p -> rest_distance2 p r <> r_cut_sqr par ->
  derivable_pt_lim (fun h => profile par p (add3 r (scale3 h e))) 0 (dot3 (rgrad par p r) e).
Proof.
  intros M NE.
  set (x := sub3 (d_pos p) r). set (u := scale3 (1 / mass p) (threevec (d_mom p))).
  set (q1 := - (2 * (dot3 x e + dot3 u x * dot3 u e))). set (q2 := dot3 e e + dot3 u e * dot3 u e).
  assert (RD : forall h, rest_distance2 p (add3 r (scale3 h e)) = rest_distance2 p r + q1 * h + q2 * (h * h)).
  { intros h. unfold rest_distance2, q1, q2, u, x, dot3, sub3, add3, scale3, threevec. cbn -[Rmult Rplus Rminus Rdiv]. field. lra. }
  pose proof (cut_gauss (y0 (d_mom p) / mass p) (two_sig_sqr_inv par) (r_cut_sqr par) (rest_distance2 p r) q1 q2 NE) as D.
  assert (V : dot3 (rgrad par p r) e = (if Rle_dec (rest_distance2 p r) (r_cut_sqr par) then - q1 * two_sig_sqr_inv par * (y0 (d_mom p) / mass p * exp (- rest_distance2 p r * two_sig_sqr_inv par)) else 0)).
  { unfold rgrad. fold x u. unfold profile. destruct (Rle_dec _ _).
    - set (G := _ / _ * exp _). unfold q1, dot3, scale3, add3. cbn -[Rmult Rplus Rminus Rdiv]. unfold dot3. ring.
    - unfold dot3, scale3, add3. cbn -[Rmult Rplus Rminus Rdiv]. ring. }
  rewrite V. eapply deriv_local; [|exact D]. exists 1. split; [lra|]. intros h _. rewrite Rplus_0_l. unfold profile. rewrite RD. reflexivity.
Qed.
Lemma deriv_sum (F : R -> dpart -> vec4) (G : dpart -> vec4) c x ps : component c ->
  (forall p, In p ps -> derivable_pt_lim (fun h => c (F h p)) x (c (G p))) ->
  derivable_pt_lim (fun h => c (sum4 (F h) ps)) x (c (sum4 G ps)).
Proof.
  intros C. assert (CA : forall a b, c (add4 a b) = c a + c b) by (destruct C; reflexivity).
  assert (CZ : c zero4 = 0) by (destruct C; reflexivity).
  induction ps as [|p ps IH]; intros H; cbn [sum4].
  - rewrite CZ. apply derivable_pt_lim_const.
  - rewrite CA. apply (deriv_ext (fun h => c (F h p) + c (sum4 (F h) ps))); [intros h; apply CA|].
    apply (derivable_pt_lim_plus (fun h => c (F h p)) (fun h => c (sum4 (F h) ps))); [apply H; now left|apply IH; intros; apply H; now right].
Qed.
Lemma comp_scale c k a : component c -> c (scale4 k a) = k * c a. Proof. destruct 1; cbn; ring. Qed.
Lemma amount_mass par d p : amount par d p <> 0 -> 0 < mass p.
Proof.
  pose proof rs_pos. unfold amount. destruct (_ && _); [easy|]. destruct (Rlt_dec _ _); [easy|]. destruct (Rlt_dec (mass p) _); [easy|]. intros _. lra.
Qed.
Definition off_cutoff par d r (ps : list dpart) : Prop := forall p, In p ps -> amount par d p <> 0 -> rest_distance2 p r <> r_cut_sqr par.
Lemma current_along par d r e ps : off_cutoff par d r ps -> forall c, component c ->
  derivable_pt_lim (fun h => c (sum4 (particle_current par d (add3 r (scale3 h e))) ps)) 0
    (c (sum4 (fun p => scale4 (norm_factor_sf par * amount par d p * dot3 (rgrad par p r) e) (mk4 1 (velocity (d_mom p)))) ps)).
Proof.
  intros OC c C. apply deriv_sum; auto. intros p I. rewrite comp_scale by auto.
  apply (deriv_ext (fun h => norm_factor_sf par * amount par d p * profile par p (add3 r (scale3 h e)) * c (mk4 1 (velocity (d_mom p))))); [intros h; unfold particle_current; apply comp_scale; auto|].
  destruct (Req_EM_T (amount par d p) 0) as [E|NE].
  - rewrite E. apply deriv_local with (g := fun _ => 0); [exists 1; split; [lra|]; intros; ring|].
    replace (norm_factor_sf par * 0 * _ * _) with 0 by ring. apply derivable_pt_lim_const.
  - pose proof (profile_along par p r e (amount_mass _ _ _ NE) (OC p I NE)) as D.
    set (K := norm_factor_sf par * amount par d p). set (W := c _).
    replace (K * dot3 (rgrad par p r) e * W) with (0 * (profile par p (add3 r (scale3 0 e)) * W) + K * (dot3 (rgrad par p r) e * W + profile par p (add3 r (scale3 0 e)) * 0)) by ring.
    apply (deriv_ext (fun h => K * (profile par p (add3 r (scale3 h e)) * W))); [intros h; apply Rmult_assoc|].
    apply (derivable_pt_lim_mult (fun _ => K) (fun h => profile par p (add3 r (scale3 h e)) * W)); [apply derivable_pt_lim_const|].
    apply (derivable_pt_lim_mult (fun h => profile par p (add3 r (scale3 h e))) (fun _ => W)); [exact D|apply derivable_pt_lim_const].
Qed.

(** The derivatives that are returned are the derivatives of the current that is returned, along the three axes and in time
    when all particles move on with their velocities, wherever no particle is exactly at the cut-off distance. *)
Theorem derivatives_of_the_current par d r ps c i : Forall physical ps -> off_cutoff par d r ps ->
  current_eckart r ps par d true true = Ok c -> component i ->
  derivable_pt_lim (fun h => i (j_at par d (V3 (x1 r + h) (x2 r) (x3 r)) ps)) 0 (i (djmu_dx c)) /\
  derivable_pt_lim (fun h => i (j_at par d (V3 (x1 r) (x2 r + h) (x3 r)) ps)) 0 (i (djmu_dy c)) /\
  derivable_pt_lim (fun h => i (j_at par d (V3 (x1 r) (x2 r) (x3 r + h)) ps)) 0 (i (djmu_dz c)) /\
  derivable_pt_lim (fun t => i (j_at par d r (map (drift t) ps))) 0 (i (djmu_dt c)).
Proof.
  intros P OC E C. rewrite current_eq in E by auto. injection E as <-. cbn [djmu_dt djmu_dx djmu_dy djmu_dz].
  rewrite sums_dj0, sums_dj1, sums_dj2, sums_dj3, !sum4_scale.
  assert (AX : forall e, derivable_pt_lim (fun h => i (j_at par d (add3 r (scale3 h e)) ps)) 0
      (i (sum4 (fun p => scale4 (norm_factor_sf par * amount par d p * dot3 (rgrad par p r) e) (mk4 1 (velocity (d_mom p)))) ps))).
  { intros e. eapply deriv_ext; [|apply (current_along par d r e ps OC i C)]. intros h. cbv beta. now rewrite j_at_eq. }
  splits.
  - specialize (AX (V3 1 0 0)). eapply deriv_ext; [|erewrite sum4_ext; [exact AX|]].
    + intros h. cbv beta. do 2 f_equal. unfold add3, scale3. cbn. f_equal; ring.
    + intros p _. cbn [share dj1]. unfold dot3. v4.
  - specialize (AX (V3 0 1 0)). eapply deriv_ext; [|erewrite sum4_ext; [exact AX|]].
    + intros h. cbv beta. do 2 f_equal. unfold add3, scale3. cbn. f_equal; ring.
    + intros p _. cbn [share dj2]. unfold dot3. v4.
  - specialize (AX (V3 0 0 1)). eapply deriv_ext; [|erewrite sum4_ext; [exact AX|]].
    + intros h. cbv beta. do 2 f_equal. unfold add3, scale3. cbn. f_equal; ring.
    + intros p _. cbn [share dj3]. unfold dot3. v4.
  - apply (deriv_ext (fun t => i (sum4 (particle_current par d r) (map (drift t) ps)))).
    + intros h. rewrite j_at_eq; [reflexivity|]. clear - P. induction P; constructor; auto.
    + clear AX. induction ps as [|p ps IH]; cbn [map sum4]; [rewrite ?(comp_scale i) by auto; apply deriv_local with (g := fun _ => i zero4); [exists 1; split; [lra|]; auto|]; replace (i zero4) with 0 by (destruct C; reflexivity); apply derivable_pt_lim_const|].
      assert (CA : forall a b, i (add4 a b) = i a + i b) by (destruct C; reflexivity). rewrite CA.
      apply (deriv_ext (fun h => i (particle_current par d r (drift h p)) + i (sum4 (particle_current par d r) (map (drift h) ps)))); [intros h; apply CA|].
      apply (derivable_pt_lim_plus (fun h => i (particle_current par d r (drift h p))) (fun h => i (sum4 (particle_current par d r) (map (drift h) ps)))).
      2:{ apply IH; [now inversion P|]. intros q I. apply OC. now right. }
      pose proof (current_along par d r (neg3 (velocity (d_mom p))) [p]) as D. cbn [sum4] in D.
      assert (OC1 : off_cutoff par d r [p]) by (intros q [<-|[]]; apply OC; now left). specialize (D OC1 i C).
      rewrite add4_zero_r in D. replace (scale4 (norm_factor_sf par) (dj0 (share par d true true r p))) with
        (scale4 (norm_factor_sf par * amount par d p * dot3 (rgrad par p r) (neg3 (velocity (d_mom p)))) (mk4 1 (velocity (d_mom p)))).
      2:{ cbn [share dj0]. unfold dot3, neg3. v4. }
      eapply deriv_local; [|exact D]. exists 1. split; [lra|]. intros h _. rewrite Rplus_0_l, add4_zero_r. f_equal. unfold particle_current.
      cbn [d_mom drift]. change (amount par d (drift h p)) with (amount par d p). f_equal. f_equal.
      assert (RR : rest_distance2 (drift h p) r = rest_distance2 p (add3 r (scale3 h (neg3 (velocity (d_mom p)))))).
      { unfold rest_distance2. change (mass (drift h p)) with (mass p). cbn [drift d_mom d_pos].
        replace (sub3 (add3 (d_pos p) (scale3 h (velocity (d_mom p)))) r) with (sub3 (d_pos p) (add3 r (scale3 h (neg3 (velocity (d_mom p)))))); [reflexivity|].
        unfold sub3, add3, scale3, neg3. cbn. f_equal; ring. }
      unfold profile. rewrite RR. reflexivity.
Qed.
Print Assumptions derivatives_of_the_current.

(** The current is conserved: its four-divergence vanishes at every point. *)
Theorem continuity_equation par d r ps sm c : Forall physical ps -> current_eckart r ps par d true sm = Ok c ->
  y0 (djmu_dt c) + y1 (djmu_dx c) + y2 (djmu_dy c) + y3 (djmu_dz c) = 0.
Proof.
  intros P E. rewrite current_eq in E by auto. injection E as <-. cbn [djmu_dt djmu_dx djmu_dy djmu_dz].
  rewrite sums_dj0, sums_dj1, sums_dj2, sums_dj3. cbn [scale4 y0 y1 y2 y3].
  cut (y0 (sum4 (fun p => dj0 (share par d true sm r p)) ps) + y1 (sum4 (fun p => dj1 (share par d true sm r p)) ps) +
       y2 (sum4 (fun p => dj2 (share par d true sm r p)) ps) + y3 (sum4 (fun p => dj3 (share par d true sm r p)) ps) = 0); [intros H; rewrite <- !Rmult_plus_distr_r, H; ring|].
  clear P. induction ps as [|p ps IH]; cbn [sum4 add4 y0 y1 y2 y3]; [unfold zero4; cbn [y0 y1 y2 y3]; lra|].
  cut (y0 (dj0 (share par d true sm r p)) + y1 (dj1 (share par d true sm r p)) + y2 (dj2 (share par d true sm r p)) + y3 (dj3 (share par d true sm r p)) = 0); [lra|].
  cbn [share dj0 dj1 dj2 dj3]. cbn [scale4 mk4 y0 y1 y2 y3]. unfold dot3. ring.
Qed.
Print Assumptions continuity_equation.

(** Gradient of the density and curl of the current are made of these derivatives. *)
Theorem gradient_and_curl par d r ps sm c : Forall physical ps -> current_eckart r ps par d true sm = Ok c ->
  grad_j0 c = V3 (y0 (djmu_dx c)) (y0 (djmu_dy c)) (y0 (djmu_dz c)) /\
  curl_vecj c = V3 (y3 (djmu_dy c) - y2 (djmu_dz c)) (y1 (djmu_dz c) - y3 (djmu_dx c)) (y2 (djmu_dx c) - y1 (djmu_dy c)).
Proof.
  intros P E. rewrite current_eq in E by auto. injection E as <-. cbn [grad_j0 curl_vecj djmu_dx djmu_dy djmu_dz]. split; [reflexivity|].
  unfold curl, scale3. cbn [scale4 y0 y1 y2 y3 x1 x2 x3]. f_equal; ring.
Qed.
Print Assumptions gradient_and_curl.

(** ** Another frame *)
Lemma boost_add v a b : boost v (add4 a b) = add4 (boost v a) (boost v b).
Proof. unfold boost. cbv zeta. apply vec4_eq; unfold add4, mk4, sub3, scale3, threevec, dot3; cbn -[Rmult Rplus Rminus Rdiv gamma]; ring. Qed.
Lemma boost_scale v k a : boost v (scale4 k a) = scale4 k (boost v a).
Proof. unfold boost. cbv zeta. apply vec4_eq; unfold scale4, mk4, sub3, scale3, threevec, dot3; cbn -[Rmult Rplus Rminus Rdiv gamma]; ring. Qed.
Lemma boost_zero v : boost v zero4 = zero4.
Proof. unfold boost. cbv zeta. apply vec4_eq; unfold zero4, mk4, sub3, scale3, threevec, dot3; cbn -[Rmult Rplus Rminus Rdiv gamma]; ring. Qed.
Lemma boost_sum v f ps : boost v (sum4 f ps) = sum4 (fun p => boost v (f p)) ps.
Proof. induction ps as [|p ps IH]; cbn [sum4]; [apply boost_zero|]. now rewrite boost_add, IH. Qed.
Lemma boost_dot4 v a b : dot3 v v < 1 -> dot4 (boost v a) (boost v b) = dot4 a b.
Proof. intros V. pose proof (boost_preserves_product v a b V) as H. unfold minkowski in H. unfold dot4. lra. Qed.
Lemma boost_energy v a : dot3 v v < 1 -> 0 < y0 a -> 0 <= dot4 a a -> 0 < y0 (boost v a).
Proof.
  intros V E M. destruct (gamma_eq v V) as (G & _). unfold boost. cbn [mk4 y0]. apply Rmult_lt_0_compat; [lra|].
  pose proof (cone_space a (conj (Rlt_le _ _ E) M)) as SA. pose proof (cs3 (y1 a) (y2 a) (y3 a) (x1 v) (x2 v) (x3 v)) as CS.
  unfold dot3 in *. cbn [threevec x1 x2 x3]. set (s := y1 a * x1 v + y2 a * x2 v + y3 a * x3 v) in *.
  set (A := y1 a * y1 a + y2 a * y2 a + y3 a * y3 a) in *. set (B := x1 v * x1 v + x2 v * x2 v + x3 v * x3 v) in *.
  assert (0 <= A) by (unfold A; pose proof (Rle_0_sqr (y1 a)); pose proof (Rle_0_sqr (y2 a)); pose proof (Rle_0_sqr (y3 a)); unfold Rsqr in *; lra).
  assert (0 <= B) by (unfold B; pose proof (Rle_0_sqr (x1 v)); pose proof (Rle_0_sqr (x2 v)); pose proof (Rle_0_sqr (x3 v)); unfold Rsqr in *; lra).
  destruct (Rlt_le_dec s (y0 a)) as [L|L]; [lra|]. exfalso.
  assert (y0 a * y0 a <= s * s) by (apply Rmult_le_compat; lra).
  assert (A * B <= y0 a * y0 a * B) by (apply Rmult_le_compat_r; auto).
  assert (y0 a * y0 a * B < y0 a * y0 a * 1) by (apply Rmult_lt_compat_l; [apply Rmult_lt_0_compat; auto|auto]). lra.
Qed.
(** the distance in the rest frame from invariants: [X] the event, [l] the world line *)
Lemma rest_invariant l X : 0 < y0 (d_mom (snd l)) -> 0 < mass (snd l) ->
  let D := sub4 (mk4 (fst l) (d_pos (snd l))) X in let q := d_mom (snd l) in
  rest_distance2 (at_time (y0 X) l) (threevec X) = dot4 q D * dot4 q D / dot4 q q - dot4 D D.
Proof.
  destruct l as [t p]. intros E M D q. cbn [fst snd] in E, M, D, q |- *.
  assert (MM : mass p * mass p = dot4 q q). { unfold mass. apply sqrt_sqrt. unfold mass in M. destruct (Rle_dec 0 (dot4 (d_mom p) (d_mom p))); auto. rewrite sqrt_neg_0 in M by lra. lra. }
  assert (QQ : dot4 q q <> 0) by (rewrite <- MM; apply Rgt_not_eq; apply Rmult_lt_0_compat; auto).
  unfold rest_distance2, at_time. cbn [fst snd]. change (mass (drift (y0 X - t) p)) with (mass p).
  unfold Rdiv at 1 2.
  set (x := sub3 (d_pos (drift (y0 X - t) p)) (threevec X)).
  replace (dot3 (threevec (d_mom (drift (y0 X - t) p))) x * / mass p * (dot3 (threevec (d_mom (drift (y0 X - t) p))) x * / mass p))
    with (dot3 (threevec q) x * dot3 (threevec q) x / (mass p * mass p)) by (cbn [drift d_mom]; fold q; field; lra).
  rewrite MM. unfold x, drift, D. cbn [d_pos d_mom]. fold q. fold q in E.
  unfold velocity, div3. unfold dot3, sub3, add3, scale3, sub4, mk4, threevec. cbn [x1 x2 x3 y0 y1 y2 y3 fst snd].
  unfold dot4 in *. cbn [y0 y1 y2 y3] in *. destruct q as [e a b c]. cbn [y0 y1 y2 y3] in *. destruct (d_pos p) as [u1 u2 u3]. cbn [x1 x2 x3]. destruct X as [T X1 X2 X3]. cbn [y0 y1 y2 y3].
  field. split; auto. lra.
Qed.

Lemma seen_physical v l : dot3 v v < 1 -> physical (snd l) -> physical (snd (seen_moving v l)) /\ mass (snd (seen_moving v l)) = mass (snd l).
Proof.
  intros V (E & M). unfold physical, mass, seen_moving. cbn [snd d_mom]. rewrite !boost_dot4 by auto. splits; auto. now apply boost_energy.
Qed.
Lemma drift_physical t p : physical p -> physical (drift t p). Proof. intros H. exact H. Qed.
Lemma amount_seen par d v l t t' : dot3 v v < 1 -> amount par d (at_time t (seen_moving v l)) = amount par d (at_time t' l).
Proof. intros V. unfold amount, at_time, drift, seen_moving, mass. cbn [fst snd d_mom d_type d_collisions]. now rewrite boost_dot4. Qed.
Lemma current_seen par d v X l : dot3 v v < 1 -> physical (snd l) ->
  particle_current par d (threevec (boost v X)) (at_time (y0 (boost v X)) (seen_moving v l)) =
  boost v (particle_current par d (threevec X) (at_time (y0 X) l)).
Proof.
  intros V P. unfold particle_current. rewrite (amount_seen par d v l _ (y0 X) V). set (a := amount _ _ _). rewrite boost_scale.
  destruct (Req_EM_T a 0) as [->|NE]. { rewrite !Rmult_0_r, !Rmult_0_l, !scale4_0. reflexivity. }
  assert (M : 0 < mass (snd l)) by (apply amount_mass in NE; exact NE).
  destruct (seen_physical v l V P) as ((E' & M') & ME). destruct P as (E & M2).
  set (q := d_mom (snd l)) in *. set (q' := boost v q).
  change (d_mom (snd (seen_moving v l))) with q' in *.
  unfold profile. rewrite rest_invariant by (auto; rewrite ME; auto). rewrite rest_invariant by auto.
  cbn [fst snd]. change (d_mom (snd (seen_moving v l))) with q'. fold q.
  replace (sub4 (mk4 (fst (seen_moving v l)) (d_pos (snd (seen_moving v l)))) (boost v X)) with (boost v (sub4 (mk4 (fst l) (d_pos (snd l))) X)).
  2:{ replace (sub4 (mk4 (fst l) (d_pos (snd l))) X) with (add4 (mk4 (fst l) (d_pos (snd l))) (scale4 (-1) X)) by v4.
      rewrite boost_add, boost_scale. unfold seen_moving. cbn [fst snd d_pos]. set (Y := boost v (mk4 _ _)). apply vec4_eq; cbn -[Rmult Rplus boost]; ring. }
  set (D := sub4 (mk4 (fst l) (d_pos (snd l))) X).
  assert (B1 : dot4 q' (boost v D) = dot4 q D) by (apply boost_dot4; auto). assert (B2 : dot4 q' q' = dot4 q q) by (apply boost_dot4; auto).
  rewrite B1, B2, (boost_dot4 v D D V).
  change (mass (at_time (y0 (boost v X)) (seen_moving v l))) with (mass (snd (seen_moving v l))). rewrite ME.
  change (mass (at_time (y0 X) l)) with (mass (snd l)).
  change (d_mom (at_time (y0 (boost v X)) (seen_moving v l))) with q'. change (d_mom (at_time (y0 X) l)) with q.
  destruct (Rle_dec _ _); [|now rewrite !Rmult_0_r, !scale4_0]. set (EX := exp _).
  replace (scale4 (norm_factor_sf par * a * (y0 q' / mass (snd l) * EX)) (mk4 1 (velocity q'))) with (scale4 (norm_factor_sf par * a * EX / mass (snd l)) q').
  2:{ apply vec4_eq; cbn -[Rmult Rdiv q' Rinv]; unfold div3; cbn -[Rmult Rdiv q' Rinv]; field; lra. }
  unfold q'. rewrite <- !boost_scale. f_equal. apply vec4_eq; cbn -[Rmult Rdiv Rinv]; unfold div3; cbn -[Rmult Rdiv Rinv]; field; lra.
Qed.
Lemma sum4_map (f : dpart -> vec4) (g : line -> dpart) ls : sum4 f (map g ls) = fold_right (fun l s => add4 (f (g l)) s) zero4 ls.
Proof. induction ls as [|l ls IH]; cbn; auto. now rewrite IH. Qed.
Lemma length4_boost v a : dot3 v v < 1 -> length4 (boost v a) = length4 a.
Proof. intros V. unfold length4. now rewrite boost_dot4. Qed.
(** The current is a four-vector field and the density a scalar: an observer moving with any velocity finds, at the same event
    and for the same world lines, the transformed current and the same density. *)
Theorem covariance par d v X ls grad : dot3 v v < 1 -> 0 <= norm_factor_sf par -> Forall (fun l => physical (snd l)) ls ->
  exists c c', current_eckart (threevec X) (map (at_time (y0 X)) ls) par d grad true = Ok c /\
    current_eckart (threevec (boost v X)) (map (at_time (y0 (boost v X))) (map (seen_moving v) ls)) par d grad true = Ok c' /\
    jmu c' = boost v (jmu c) /\ rho c' = rho c.
Proof.
  intros V N P.
  assert (P1 : Forall physical (map (at_time (y0 X)) ls)). { apply Forall_map. eapply Forall_impl; [|exact P]. intros l H. apply drift_physical, H. }
  assert (P2 : Forall physical (map (at_time (y0 (boost v X))) (map (seen_moving v) ls))).
  { rewrite map_map. apply Forall_map. eapply Forall_impl; [|exact P]. intros l H. apply drift_physical, seen_physical; auto. }
  destruct (current_value par d grad (threevec X) _ P1 N) as (c & C & J & RH).
  destruct (current_value par d grad (threevec (boost v X)) _ P2 N) as (c' & C' & J' & RH').
  assert (K : forall F : vec3 -> dpart -> vec4, (forall l, physical (snd l) ->
      F (threevec (boost v X)) (at_time (y0 (boost v X)) (seen_moving v l)) = boost v (F (threevec X) (at_time (y0 X) l))) ->
      sum4 (F (threevec (boost v X))) (map (at_time (y0 (boost v X))) (map (seen_moving v) ls)) = boost v (sum4 (F (threevec X)) (map (at_time (y0 X)) ls))).
  { intros F HF. clear - P HF. induction P as [|l ls H _ IH]; cbn [map sum4]; [now rewrite boost_zero|]. now rewrite boost_add, HF, IH. }
  exists c, c'. splits; auto.
  - rewrite J, J'. apply (K (particle_current par d)). intros l H. now apply current_seen.
  - rewrite RH, RH', (K (positive_current par d)), (K (negative_current par d)), !length4_boost; auto.
    + intros l H. unfold negative_current. rewrite (amount_seen par d v l _ (y0 X) V). destruct (Rlt_dec _ _); [now rewrite boost_zero|now apply current_seen].
    + intros l H. unfold positive_current. rewrite (amount_seen par d v l _ (y0 X) V). destruct (Rlt_dec _ _); [now apply current_seen|now rewrite boost_zero].
Qed.
Print Assumptions covariance.
