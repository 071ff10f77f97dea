(** Weights of direct photons. *)
From Coq Require Import ZArith Reals List Bool Lia Lra Psatz.
From Verif Require Import Base VecModel VecProps MotionModel KinProps FinalProps WoodsSaxon DistProps DistMore ScatModel ScatProps ScatAngle ScatFinal PhotonModel PhotonProps PhotonKin PhotonBrems.
Import ListNotations.
Open Scope R_scope.
Local Notation energy := KinProps.energy.

(** ** Bounds *)
Lemma dipole_pos t : 0 <= dipole t.
Proof. unfold dipole. nra. Qed.
Lemma diff_pos x : 0 <= diff_cross_section x.
Proof. unfold diff_cross_section. destruct (Rlt_dec x 0); lra. Qed.
Lemma total_pos x : 0 <= total_cross_section true x.
Proof. unfold total_cross_section. destruct (Req_EM_T x 0); [lra|]. destruct (Rlt_dec x 0); lra. Qed.
Lemma cut_off_bounds x : 0 <= x -> 0 <= cut_off x <= 200 /\ (x <= 200 -> cut_off x = x).
Proof. intros H. unfold cut_off. destruct (Rlt_dec 200 x); split; lra. Qed.
Lemma form_factors_bounds r e xs : (forall m, 0 <= xs m) -> r <> no_reaction -> exists x, with_form_factors r e xs = Ok x /\ 0 <= x <= 200.
Proof.
  intros H N. assert (P : forall m, 0 <= form_factor_pion e ^ 4 * xs m) by (intros; apply Rmult_le_pos; auto; apply pow_le, dipole_pos).
  assert (O : forall m, 0 <= form_factor_omega e ^ 4 * xs m) by (intros; apply Rmult_le_pos; auto; apply pow_le, dipole_pos).
  assert (S : 0 <= form_factor_pion e ^ 4 * xs PION + form_factor_omega e ^ 4 * xs OMEGA) by (pose proof (P PION); pose proof (O OMEGA); lra).
  destruct r; try contradiction; cbn [with_form_factors]; eexists; (split; [reflexivity|]); apply cut_off_bounds; auto.
Qed.
(** Whatever the formulas of the cross sections return (even negative numbers): the weight is not negative, and the cross
    section behind it not larger than 200 mb (per GeV^2 when there is more than one photon). *)
Theorem photon_weight_bounds r n had fa fb e t t0 t1 diff total : r <> no_reaction -> (1 <= n)%Z -> 0 < had -> 0 <= fa -> 0 <= fb -> t1 <= t0 ->
  exists w, photon_weight r n had fa fb e t t0 t1 diff total = Ok w /\ 0 <= w /\
  w <= (if (1 <? n)%Z then 200 * (t0 - t1) / (IZR n * had) else 200 / had) * (fa * fb).
Proof.
  intros R0 N H A B T. unfold photon_weight. assert (NR : 1 <= IZR n) by (apply IZR_le; auto). assert (AB : 0 <= fa * fb) by now apply Rmult_le_pos.
  destruct (1 <? n)%Z.
  - destruct (form_factors_bounds r e (fun m => diff_cross_section (diff m t)) (fun m => diff_pos _) R0) as (x & -> & X). cbn [rbind].
    eexists. split; [reflexivity|]. assert (I : 0 < / (IZR n * had)) by (apply Rinv_0_lt_compat; nra). unfold Rdiv.
    assert (0 <= x * (t0 - t1) * / (IZR n * had)) by (apply Rmult_le_pos; [apply Rmult_le_pos; lra|lra]).
    split; [now apply Rmult_le_pos|]. apply Rmult_le_compat_r; auto. apply Rmult_le_compat_r; [lra|]. apply Rmult_le_compat_r; lra.
  - destruct (form_factors_bounds r e (fun m => total_cross_section true (total m)) (fun m => total_pos _) R0) as (x & -> & X). cbn [rbind].
    eexists. split; [reflexivity|]. assert (I : 0 < / had) by (apply Rinv_0_lt_compat; lra). unfold Rdiv.
    assert (0 <= x * / had) by (apply Rmult_le_pos; lra). split; [now apply Rmult_le_pos|]. apply Rmult_le_compat_r; auto. apply Rmult_le_compat_r; lra.
Qed.
Print Assumptions photon_weight_bounds.

(** ** Yields *)
(** For a given azimuth let sigma be the differential cross section (with form factors) at each t. The n fractional photons of one
    collision together have on average the weight (integral of sigma) / (hadronic cross section), times the scaling factors. *)
Theorem photon_yield r n had fa fb (e : R -> R) t0 t1 diff total sigma m : (1 < n)%Z -> 0 < had -> t1 <= t0 ->
  (forall t, t1 <= t <= t0 -> with_form_factors r (e t) (fun md => diff_cross_section (diff md t)) = Ok (sigma t)) ->
  (forall t, t1 <= t <= t0 -> continuity_pt sigma t) -> integral sigma t1 t0 m ->
  exists w, (forall u, draw u -> photon_weight r n had fa fb (e (t1 + (t0 - t1) * u)) (t1 + (t0 - t1) * u) t0 t1 diff total = Ok (w u)) /\
  integral (fun u => IZR n * w u) 0 1 (m / had * (fa * fb)).
Proof.
  intros N H T X C I. assert (NR : 1 < IZR n) by (apply IZR_lt; auto). set (ph := fun u => t1 + (t0 - t1) * u).
  exists (fun u => sigma (ph u) * (t0 - t1) / (IZR n * had) * (fa * fb)). split.
  - intros u (U1 & U2). unfold photon_weight. rewrite (proj2 (Z.ltb_lt 1 n) N). fold (ph u). rewrite X by (unfold ph; nra). reflexivity.
  - apply (integral_ext _ (fun u => fa * fb / had * (sigma (ph u) * (t0 - t1)))); [lra|intros; field; nra|].
    replace (m / had * (fa * fb)) with (fa * fb / had * m) by (field; lra). apply integral_scale.
    apply (substitution sigma ph (fun _ => t0 - t1)); [lra|intros; unfold ph; nra| | |intros; apply cont_c|].
    + intros y Y. apply C. unfold ph in Y. lra.
    + intros x _. unfold ph. eapply d_eq; [|apply d_sum; [apply d_const|apply d_times; [apply d_const|apply d_id]]]. cbn beta. ring.
    + unfold ph. replace (t1 + (t0 - t1) * 0) with t1 by ring. replace (t1 + (t0 - t1) * 1) with t0 by ring. exact I.
Qed.
Print Assumptions photon_yield.
(** with one photon per collision the weight is the ratio of the total cross sections *)
Theorem photon_yield_one r had fa fb e t t0 t1 diff total x :
  with_form_factors r e (fun md => total_cross_section true (total md)) = Ok x -> photon_weight r 1 had fa fb e t t0 t1 diff total = Ok (x / had * (fa * fb)).
Proof. intros H. unfold photon_weight. cbn [Z.ltb Z.compare]. now rewrite H. Qed.
Print Assumptions photon_yield_one.
Example yield_case : exists sigma, (forall t, -2 <= t <= -1 -> with_form_factors pi_p_pi_m_rho_z 1 (fun md => diff_cross_section (1 : R)) = Ok (sigma t)) /\
  (forall t, -2 <= t <= -1 -> continuity_pt sigma t) /\ exists m, integral sigma (-2) (-1) m.
Proof.
  eexists (fun _ => cut_off _). split; [reflexivity|]. split; [intros; apply cont_c|]. eexists. apply integral_const.
Qed.

(** Bremsstrahlung: if both differential cross sections are flat, the weights add up to the ratio of cross sections ... *)
Theorem brems_flat_yield n had fa fb range sigma : (1 <= n)%Z -> 0 < had -> 0 < range -> 0 <= sigma ->
  IZR n * brems_weight n had fa fb range (sigma / range) (sigma / PI) = sigma / had * (fa * fb).
Proof.
  intros N H L S. assert (NR : 1 <= IZR n) by (apply IZR_le; auto). pose proof PI_RGT_0. unfold brems_weight, not_negative.
  assert (A : 0 <= sigma / range) by (apply Rmult_le_pos; [lra|left; apply Rinv_0_lt_compat; lra]). assert (B : 0 <= sigma / PI) by (apply Rmult_le_pos; [lra|left; apply Rinv_0_lt_compat; lra]).
  destruct (Rlt_dec (sigma / PI) 0); [lra|]. destruct (Rlt_dec (sigma / range) 0); [lra|].
  replace (sigma / PI * (PI - 0) * (sigma / range * range)) with (sigma * sigma) by (field; lra). rewrite sqrt_square by auto. field. nra.
Qed.
Print Assumptions brems_flat_yield.
Lemma d_cube c f x a : derivable_pt_lim f x a -> derivable_pt_lim (fun t => c * f t ^ 3) x (c * (3 * f x ^ 2 * a)).
Proof.
  intros D. unfold pow. pose proof (d_times f f x a a D D) as D2. pose proof (d_times (fun t => f t * f t) f x _ a D2 D) as D3.
  pose proof (d_times (fun _ => c) _ x 0 _ (d_const c x) D3) as D4. intros eps E. destruct (D4 eps E) as (d & DD). exists d. intros h H1 H2. specialize (DD h H1 H2). cbn beta in DD.
  match goal with |- Rabs ?A < _ => match type of DD with Rabs ?B < _ => replace A with B by (field; auto) end end. auto.
Qed.
(** ... but in general they do not, because the geometric mean of the two estimates is used: for a cross section that is flat in
    theta and rises with the square of k - k_min, both integrating to sigma, the mean total weight is sqrt(3)/2 of the ratio. *)
Theorem brems_yield_refuted W m n had sigma : 0 < k_max W m m - k_min -> (1 <= n)%Z -> 0 < had -> 0 < sigma ->
  exists dsk dsth mean, integral dsk k_min (k_max W m m) sigma /\ integral dsth 0 PI sigma /\ (forall k, 0 <= dsk k) /\ (forall th, 0 <= dsth th) /\
  (forall th, integral (fun u => IZR n * let '(k, range) := draw_k W m m u in brems_weight n had 1 1 range (dsk k) (dsth th)) 0 1 mean) /\ mean < sigma / had.
Proof.
  intros L N H S. set (lo := k_min). set (L0 := k_max W m m - k_min) in *. assert (NR : 1 <= IZR n) by (apply IZR_le; auto). pose proof PI_RGT_0 as PP.
  assert (HI : k_max W m m = lo + L0) by (unfold lo, L0; ring).
  exists (fun k => 3 * sigma * ((k - lo) / L0) ^ 2 / L0), (fun _ => sigma / PI), (sqrt 3 / 2 * (sigma / had)).
  assert (DK : forall k, 0 <= 3 * sigma * ((k - lo) / L0) ^ 2 / L0).
  { intros k. apply Rmult_le_pos; [|left; apply Rinv_0_lt_compat; lra]. apply Rmult_le_pos; [lra|apply pow2_ge_0]. }
  assert (DT : 0 <= sigma / PI) by (apply Rmult_le_pos; [lra|left; apply Rinv_0_lt_compat; lra]).
  split; [|split; [|split; [|split; [|split]]]]; auto.
  - rewrite HI. apply integral_eq with (sigma * ((lo + L0 - lo) / L0) ^ 3 - sigma * ((lo - lo) / L0) ^ 3); [field; lra|].
    apply (integral_antiderivative _ (fun k => sigma * ((k - lo) / L0) ^ 3)); [lra| |].
    + intros k _. eapply d_eq; [|apply (d_cube sigma (fun t => (t - lo) / L0) k (1 / L0))]; [field; lra|].
      unfold Rminus, Rdiv. eapply d_eq; [|apply (d_times (fun t => t + - lo) (fun _ => / L0)); [apply d_sum; [apply d_id|apply d_const]|apply d_const]]. cbn beta. ring.
    + intros k _. unfold Rminus, Rdiv, pow. repeat first [apply cont_c|apply cont_id|apply cont_mult|apply cont_plus].
  - apply integral_eq with (sigma / PI * (PI - 0)); [field; lra|]. apply integral_const.
  - intros th. apply (integral_ext _ (fun u => sqrt 3 * (sigma / had) * u)); [lra| |].
    + intros u U. unfold draw_k. destruct (Rlt_dec _ 0) as [Y|Y]; [fold L0 in Y; lra|]. unfold brems_weight, not_negative. fold lo. fold L0.
      assert (UK : (uniform lo (k_max W m m) u - lo) / L0 = u) by (unfold uniform; rewrite HI; field; lra). rewrite UK.
      pose proof (DK (lo + u * L0)) as D. replace ((lo + u * L0 - lo) / L0) with u in D by (field; lra).
      destruct (Rlt_dec (sigma / PI) 0); [lra|]. destruct (Rlt_dec (3 * sigma * u ^ 2 / L0) 0); [lra|].
      replace (k_max W m m - lo) with L0 by reflexivity. replace (sigma / PI * (PI - 0) * (3 * sigma * u ^ 2 / L0 * L0)) with (3 * ((sigma * u) * (sigma * u))) by (field; lra).
      rewrite (sqrt_mult 3 (sigma * u * (sigma * u))) by nra. rewrite (sqrt_square (sigma * u)) by nra. field. nra.
    + apply integral_eq with (sqrt 3 * (sigma / had) * (/ 2)); [field; lra|]. apply integral_scale.
      apply integral_eq with (1 * 1 / 2 - 0 * 0 / 2); [field|]. apply (integral_antiderivative _ (fun x => x * x / 2)); [lra| |intros; apply cont_id].
      intros x _. unfold Rdiv. eapply d_eq; [|apply d_times; [apply d_times; apply d_id|apply d_const]]. cbn beta. field.
  - assert (0 < sigma / had) by (apply Rmult_lt_0_compat; [lra|apply Rinv_0_lt_compat; lra]). assert (sqrt 3 < 2). { rewrite <- (sqrt_square 2) by lra. apply sqrt_lt_1; lra. } nra.
Qed.
Print Assumptions brems_yield_refuted.
(** a photon below the smallest momentum gets the weight 0 *)
Theorem brems_no_room W m u n had fa fb dk dth : k_max W m m < k_min -> let '(k, range) := draw_k W m m u in k = 0 /\ brems_weight n had fa fb range dk dth = 0.
Proof.
  intros H. unfold draw_k. destruct (Rlt_dec _ 0) as [L|L]; [|lra]. split; auto. unfold brems_weight. replace (not_negative dth * (PI - 0) * (not_negative dk * 0)) with 0 by ring.
  rewrite sqrt_0. unfold Rdiv. ring.
Qed.
Print Assumptions brems_no_room.
(** A pi+ pi- pair has two final states. One of them is chosen with its share of the cross section, and the weight is then made
    from the cross section of this one alone: on average (s1^2 + s2^2) / (s1 + s2), less than the sum s1 + s2. *)
Theorem brems_opposite_yield_refuted x : let s1 := positive (x Opp) in let s2 := positive (x To_pi0) in
  exists w, (forall u, 0 <= u <= 1 -> exists out, brems_cross_sections x pi_p pi_m u = Ok (out, w u)) /\
  integral w 0 1 ((s1 * s1 + s2 * s2) / (s1 + s2)) /\ (s1 * s1 + s2 * s2) / (s1 + s2) < s1 + s2.
Proof.
  intros s1 s2. assert (S1 : 0 < s1) by apply positive_pos. assert (S2 : 0 < s2) by apply positive_pos. set (c := s1 / (s1 + s2)).
  assert (C0 : 0 < c) by (apply Rmult_lt_0_compat; [lra|apply Rinv_0_lt_compat; lra]). assert (C1 : 1 - c = s2 / (s1 + s2)) by (unfold c; field; lra).
  assert (C2 : 0 < 1 - c) by (rewrite C1; apply Rmult_lt_0_compat; [lra|apply Rinv_0_lt_compat; lra]).
  exists (fun u => if Rle_dec (uniform 0 (s1 + s2) u) (0 + s1) then s1 else s2). split; [|split].
  - intros u U. unfold brems_cross_sections. change (bremsstrahlung_reaction_type [pi_p; pi_m]) with b_pi_p_pi_m. fold s1 s2. cbn [choose_from snd].
    destruct (Rle_dec _ _) as [L|L]; [eauto|]. destruct (Rle_dec _ _) as [L2|L2]; [eauto|]. exfalso. apply L2. unfold uniform. nra.
  - apply integral_eq with (s1 * (c - 0) + s2 * (1 - c)); [rewrite C1; unfold c; field; lra|].
    assert (K : s1 = c * (s1 + s2)) by (unfold c; field; lra).
    apply (integral_glue _ (fun _ => s1) (fun _ => s2) 0 c 1); [lra| | |apply integral_const|apply integral_const].
    + intros u U. destruct (Rle_dec _ _) as [L|L]; auto. exfalso. apply L. unfold uniform. rewrite K at 2. nra.
    + intros u U. destruct (Rle_dec _ _) as [L|L]; auto. exfalso. unfold uniform in L. rewrite K in L at 2. nra.
  - apply Rmult_lt_reg_r with (s1 + s2); [lra|]. replace ((s1 * s1 + s2 * s2) / (s1 + s2) * (s1 + s2)) with (s1 * s1 + s2 * s2) by (field; lra). nra.
Qed.
Print Assumptions brems_opposite_yield_refuted.
