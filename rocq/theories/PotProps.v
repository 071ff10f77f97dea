(** Potentials and forces (C123): forces are minus the gradient of the potential, sign under charge conjugation. *)
From Coq Require Import ZArith Reals List Bool Lra Lia.
From Verif Require Import Base VecModel VecProps DensModel DensSpec DensProofs DensProps DensMore WidthModel WoodsSaxon PotModel.
Import ListNotations.
Open Scope R_scope.

Lemma vec3_eq (a b : vec3) : x1 a = x1 b -> x2 a = x2 b -> x3 a = x3 b -> a = b.
Proof. destruct a, b; cbn; intros; subst; auto. Qed.
Ltac v3 := apply vec3_eq; cbn [x1 x2 x3 add3 sub3 scale3 neg3 zero3 cross3 threevec]; unfold Rdiv; try ring.
Lemma cpow_pos x y : 0 < x -> cpow x y = Some (Rpower x y).
Proof. intros H. unfold cpow. destruct (Rlt_dec 0 x); [auto|lra]. Qed.
Lemma sgn_pos x : 0 < x -> sgn x = 1.
Proof. intros H. unfold sgn. destruct (Rlt_dec 0 x); lra. Qed.
Lemma sgn_neg x : x <= 0 -> sgn x = -1.
Proof. intros H. unfold sgn. destruct (Rlt_dec 0 x); lra. Qed.
Lemma nd_pos : 0 < nuclear_density. Proof. unfold nuclear_density. lra. Qed.
Lemma div_pos x : 0 < x -> 0 < x / nuclear_density.
Proof. intros. apply Rdiv_lt_0_compat; auto. apply nd_pos. Qed.
Lemma deriv_scaled f l k x : derivable_pt_lim f x l -> derivable_pt_lim (fun y => k * f y) x (k * l).
Proof. intros D. apply (derivable_pt_lim_scal f k x l D). Qed.
Lemma deriv_linear k x : derivable_pt_lim (fun y => y * k) x k.
Proof. apply (deriv_ext (fun y => k * y)); [intros; ring|]. pose proof (deriv_scaled (fun y => y) 1 k x (derivable_pt_lim_id x)) as D. now rewrite Rmult_1_r in D. Qed.
Lemma deriv_shift k x : derivable_pt_lim (fun h => k + h) x 1.
Proof. pose proof (derivable_pt_lim_plus (fun _ => k) (fun h => h) x 0 1 (derivable_pt_lim_const k x) (derivable_pt_lim_id x)) as D. now rewrite Rplus_0_l in D. Qed.
Lemma deriv_power_ratio x y n : 0 < x -> 0 < n -> derivable_pt_lim (fun x => Rpower (x / n) y) x (y * Rpower (x / n) (y - 1) / n).
Proof.
  intros X N. assert (XN : 0 < x / n) by (apply Rdiv_lt_0_compat; auto).
  apply (deriv_ext (comp (fun z => Rpower z y) (fun x => x * / n))); [reflexivity|].
  replace (y * Rpower (x / n) (y - 1) / n) with ((y * Rpower (x / n) (y - 1)) * (/ n)) by (field; lra).
  apply derivable_pt_lim_comp.
  - apply deriv_linear.
  - apply derivable_pt_lim_power. exact XN.
Qed.

(** ** The Skyrme force *)
Definition skyrme_value (a b tau x : R) : R := mev_to_gev * (a * (x / nuclear_density) + b * Rpower (x / nuclear_density) tau).
Lemma skyrme_value_deriv a b tau x : 0 < x -> derivable_pt_lim (skyrme_value a b tau) x
  ((a + b * tau * Rpower (x / nuclear_density) (tau - 1)) * mev_to_gev / nuclear_density).
Proof.
  intros X. pose proof nd_pos as N. unfold skyrme_value.
  replace ((a + b * tau * Rpower (x / nuclear_density) (tau - 1)) * mev_to_gev / nuclear_density)
    with (mev_to_gev * (a * / nuclear_density + b * (tau * Rpower (x / nuclear_density) (tau - 1) / nuclear_density))) by (field; lra).
  apply deriv_scaled. apply (derivable_pt_lim_plus (fun x => a * (x / nuclear_density)) (fun x => b * Rpower (x / nuclear_density) tau)).
  - apply deriv_scaled. apply (deriv_linear (/ nuclear_density)).
  - apply deriv_scaled. now apply deriv_power_ratio.
Qed.
Lemma skyrme_pos a b tau x : 0 < x -> skyrme_pot a b tau x = Some (skyrme_value a b tau x).
Proof.
  intros X. unfold skyrme_pot. pose proof (div_pos x X). rewrite Rabs_pos_eq by lra. rewrite cpow_pos by auto. cbn [obind].
  rewrite sgn_pos by auto. unfold skyrme_value. f_equal. ring.
Qed.
Lemma skyrme_negative a b tau x : x < 0 -> skyrme_pot a b tau x = Some (- skyrme_value a b tau (- x)).
Proof.
  intros X. unfold skyrme_pot. assert (D : 0 < - x / nuclear_density) by (apply div_pos; lra).
  assert (E : x / nuclear_density = - (- x / nuclear_density)) by (field; pose proof nd_pos; lra).
  rewrite E. rewrite Rabs_Ropp, Rabs_pos_eq by lra. rewrite cpow_pos by auto. cbn [obind].
  rewrite sgn_neg by lra. unfold skyrme_value. f_equal. ring.
Qed.
(** The potential changes its sign when the density does. *)
Theorem skyrme_odd a b tau x : x <> 0 -> exists u, skyrme_pot a b tau x = Some u /\ skyrme_pot a b tau (- x) = Some (- u).
Proof.
  intros N. destruct (Rlt_dec 0 x) as [X|X].
  - exists (skyrme_value a b tau x). split; [now apply skyrme_pos|]. rewrite skyrme_negative by lra. now rewrite Ropp_involutive.
  - exists (- skyrme_value a b tau (- x)). split; [apply skyrme_negative; lra|]. rewrite Ropp_involutive. apply skyrme_pos. lra.
Qed.
Print Assumptions skyrme_odd.
(** In matter the electric and magnetic components of the force are those of the field V(rho) u: minus the derivative of
    the potential times gradient of the density plus time derivative of the current, and the derivative times the curl. *)
Theorem skyrme_force_derivative P r g d c : use_skyrme P = true -> 0 < r ->
  exists U V', (forall x, 0 < x -> skyrme_pot (skyrme_a P) (skyrme_b P) (skyrme_tau P) x = Some (U x)) /\ derivable_pt_lim U r V' /\
    skyrme_force P r g d c = Some (neg3 (scale3 V' (add3 g d)), scale3 V' c).
Proof.
  intros Y X. exists (skyrme_value (skyrme_a P) (skyrme_b P) (skyrme_tau P)). eexists. splits.
  - intros x. apply skyrme_pos.
  - now apply skyrme_value_deriv.
  - unfold skyrme_force. rewrite Y. rewrite Rabs_pos_eq by lra. rewrite cpow_pos by (now apply div_pos). cbn [obind]. rewrite sgn_pos by auto.
    f_equal. f_equal; v3.
Qed.
Print Assumptions skyrme_force_derivative.
(** In antimatter the force has the opposite sign: the derivative of an odd function is even, but the code multiplies it
    by the sign of the density.  An antibaryon in antimatter is pushed where a baryon in matter is pulled, although both
    have the same potential energy. *)
Theorem skyrme_antimatter_refuted P r g d c : use_skyrme P = true -> r < 0 ->
  exists U V', (forall x, x < 0 -> skyrme_pot (skyrme_a P) (skyrme_b P) (skyrme_tau P) x = Some (U x)) /\ derivable_pt_lim U r V' /\
    skyrme_force P r g d c = Some (scale3 V' (add3 g d), neg3 (scale3 V' c)).
Proof.
  intros Y X. exists (fun x => - skyrme_value (skyrme_a P) (skyrme_b P) (skyrme_tau P) (- x)).
  exists ((skyrme_a P + skyrme_b P * skyrme_tau P * Rpower (- r / nuclear_density) (skyrme_tau P - 1)) * mev_to_gev / nuclear_density). splits.
  - intros x. apply skyrme_negative.
  - match goal with |- derivable_pt_lim _ _ ?v => replace v with (- (v * -1)) by ring end.
    apply (derivable_pt_lim_opp (comp (skyrme_value (skyrme_a P) (skyrme_b P) (skyrme_tau P)) (fun x => - x))).
    apply derivable_pt_lim_comp; [|apply skyrme_value_deriv; lra].
    apply (derivable_pt_lim_opp (fun x => x)). apply derivable_pt_lim_id.
  - unfold skyrme_force. rewrite Y. rewrite Rabs_left by lra. rewrite cpow_pos by (apply div_pos; lra). cbn [obind]. rewrite sgn_neg by lra.
    f_equal. f_equal; v3.
Qed.
Print Assumptions skyrme_antimatter_refuted.

(** ** The symmetry force *)
Definition S_value (g x : R) : R := 123 / 10 * Rpower (x / nuclear_density) (2 / 3) + 20 * Rpower (x / nuclear_density) g.
Definition symmetry_value (P : pot) (i b : R) : R :=
  mev_to_gev * 2 * symmetry_S_pot P * i / nuclear_density +
  match symmetry_gamma P with Some g => mev_to_gev * S_value g b * i * i / (b * b) | None => 0 end.
Lemma S_pos P g b : symmetry_gamma P = Some g -> 0 < b -> symmetry_S P b = Some (S_value g b).
Proof. intros G B. unfold symmetry_S. rewrite G. rewrite !cpow_pos by (now apply div_pos). reflexivity. Qed.
Lemma divide_pos a b : 0 < b -> divide a b = Some (a / b).
Proof. intros B. unfold divide. destruct (Req_EM_T b 0); [lra|auto]. Qed.
Lemma symmetry_pos P i b : 0 < b -> symmetry_pot P i b = Some (symmetry_value P i b).
Proof.
  intros B. unfold symmetry_pot, symmetry_value. assert (BB : 0 < b * b) by (now apply Rmult_lt_0_compat). destruct (symmetry_gamma P) as [g|] eqn:G.
  - rewrite (S_pos P g) by auto. cbn [obind]. rewrite divide_pos by auto. cbn [obind]. f_equal.
  - f_equal. ring.
Qed.
Lemma symmetry_deriv_I P i b : 0 < b -> exists l, dVsym_drhoI3 P b i = Some l /\ derivable_pt_lim (fun i => symmetry_value P i b) i l.
Proof.
  intros B. assert (BB : 0 < b * b) by (now apply Rmult_lt_0_compat). pose proof nd_pos as N.
  unfold dVsym_drhoI3, symmetry_value. destruct (symmetry_gamma P) as [g|] eqn:G.
  - rewrite (S_pos P g) by auto. cbn [obind]. rewrite divide_pos by auto. cbn [obind]. eexists. split; [reflexivity|].
    set (k := mev_to_gev * S_value g b / (b * b)). set (c := mev_to_gev * 2 * symmetry_S_pot P / nuclear_density).
    apply (deriv_ext (fun i => c * i + k * (i * i))); [intros; unfold c, k; field; split; lra|].
    replace (mev_to_gev * _) with (c * 1 + k * (1 * i + i * 1)) by (unfold c, k; field; split; lra).
    apply (derivable_pt_lim_plus (fun i => c * i) (fun i => k * (i * i))).
    + apply deriv_scaled, derivable_pt_lim_id.
    + apply deriv_scaled. apply (derivable_pt_lim_mult (fun x => x) (fun x => x)); apply derivable_pt_lim_id.
  - eexists. split; [reflexivity|]. apply (deriv_ext (fun i => (mev_to_gev * 2 * symmetry_S_pot P / nuclear_density) * i)); [intros; field; lra|].
    replace (mev_to_gev * (2 * symmetry_S_pot P / nuclear_density)) with (mev_to_gev * 2 * symmetry_S_pot P / nuclear_density * 1) by (field; lra).
    apply deriv_scaled, derivable_pt_lim_id.
Qed.
Lemma symmetry_deriv_B P i b : 0 < b -> exists l, dVsym_drhoB P b i = Some l /\ derivable_pt_lim (fun b => symmetry_value P i b) b l.
Proof.
  intros B. assert (BB : 0 < b * b) by (now apply Rmult_lt_0_compat). pose proof nd_pos as N.
  unfold dVsym_drhoB, symmetry_value. destruct (symmetry_gamma P) as [g|] eqn:G.
  - rewrite !cpow_pos by (now apply div_pos). cbn [obind]. rewrite (S_pos P g) by auto. cbn [obind]. rewrite !divide_pos by auto. cbn [obind]. rewrite divide_pos by auto. eexists. split; [reflexivity|].
    assert (DS : derivable_pt_lim (S_value g) b (123 / 10 * (2 / 3 * Rpower (b / nuclear_density) (2 / 3 - 1) / nuclear_density) + 20 * (g * Rpower (b / nuclear_density) (g - 1) / nuclear_density))).
    { unfold S_value. apply (derivable_pt_lim_plus (fun x => 123 / 10 * Rpower (x / nuclear_density) (2 / 3)) (fun x => 20 * Rpower (x / nuclear_density) g)); apply deriv_scaled; now apply deriv_power_ratio. }
    assert (DI : derivable_pt_lim (fun b => / (b * b)) b ((0 * (b * b) - (1 * b + b * 1) * 1) / Rsqr (b * b))).
    { apply (deriv_ext (fun b => div_fct (fun _ => 1) (fun b => b * b) b)); [intros; unfold div_fct, Rdiv; ring|].
      apply (derivable_pt_lim_div (fun _ => 1) (fun b => b * b)); [apply derivable_pt_lim_const| |lra]. apply (derivable_pt_lim_mult (fun x => x) (fun x => x)); apply derivable_pt_lim_id. }
    set (k := mev_to_gev * 2 * symmetry_S_pot P * i / nuclear_density).
    apply (deriv_ext (fun b => k + (mev_to_gev * i * i) * (S_value g b * / (b * b)))); [intros y; unfold Rdiv; ring|].
    match goal with |- derivable_pt_lim _ _ ?v => replace v with (0 + (mev_to_gev * i * i) * ((123 / 10 * (2 / 3 * Rpower (b / nuclear_density) (2 / 3 - 1) / nuclear_density) + 20 * (g * Rpower (b / nuclear_density) (g - 1) / nuclear_density)) * / (b * b) + S_value g b * ((0 * (b * b) - (1 * b + b * 1) * 1) / Rsqr (b * b)))) end.
    + apply (derivable_pt_lim_plus (fun _ => k)); [apply derivable_pt_lim_const|]. apply deriv_scaled.
      apply (derivable_pt_lim_mult (S_value g) (fun b => / (b * b))); auto.
    + replace (Rpower (b / nuclear_density) (g - 1)) with (Rpower (b / nuclear_density) g * (nuclear_density / b)).
      * replace (2 / 3 - 1) with (- 1 / 3) by field. unfold Rsqr. field. split; lra.
      * unfold Rminus. rewrite Rpower_plus, Rpower_Ropp, Rpower_1 by (now apply div_pos). field. split; lra.
  - eexists. split; [reflexivity|]. apply derivable_pt_lim_const.
Qed.
(** In matter the components of the force are built from the partial derivatives of the symmetry potential. *)
Theorem symmetry_force_derivative P i gI dI cI b gB dB cB : use_symmetry P = true -> 0 < b ->
  exists V vI vB, (forall i b, 0 < b -> symmetry_pot P i b = Some (V i b)) /\
    derivable_pt_lim (fun i => V i b) i vI /\ derivable_pt_lim (fun b => V i b) b vB /\
    symmetry_force P i gI dI cI b gB dB cB =
      Some (neg3 (add3 (scale3 vI (add3 gI dI)) (scale3 vB (add3 gB dB))), add3 (scale3 vI cI) (scale3 vB cB)).
Proof.
  intros Y B. destruct (symmetry_deriv_I P i b B) as (vI & EI & DI). destruct (symmetry_deriv_B P i b B) as (vB & EB & DB).
  exists (symmetry_value P), vI, vB. splits; auto; [intros; now apply symmetry_pos|].
  unfold symmetry_force. rewrite Y, EI, EB. cbn [obind]. f_equal. f_equal; v3.
Qed.
Print Assumptions symmetry_force_derivative.
(** If the dependence on the baryon density is switched on the symmetry potential is not a number at every point
    without baryons and everywhere in antimatter. *)
Theorem symmetry_undefined_refuted P g i b gI dI cI gB dB cB : use_symmetry P = true -> symmetry_gamma P = Some g -> b <= 0 ->
  symmetry_pot P i b = None /\ symmetry_force P i gI dI cI b gB dB cB = None.
Proof.
  intros Y G B. assert (SN : symmetry_S P b = None \/ b = 0 ).
  { destruct (Req_EM_T b 0) as [|NB]; auto. left. unfold symmetry_S. rewrite G. unfold cpow at 1.
    assert (Q : b / nuclear_density < 0). { replace (b / nuclear_density) with (- (- b / nuclear_density)) by (field; pose proof nd_pos; lra). pose proof (div_pos (- b)). lra. }
    destruct (Rlt_dec 0 _); [lra|]. destruct (Rlt_dec _ 0); [reflexivity|lra]. }
  assert (DN : forall a, b = 0 -> divide a (b * b) = None). { intros a ->. unfold divide. destruct (Req_EM_T _ _) as [|NN]; auto. exfalso. apply NN. ring. }
  split.
  - unfold symmetry_pot. rewrite G. destruct SN as [->|Z0]; [reflexivity|]. destruct (symmetry_S P b); cbn [obind]; [now rewrite DN|auto].
  - unfold symmetry_force. rewrite Y. unfold dVsym_drhoI3. rewrite G. destruct SN as [->|Z0]; [reflexivity|]. destruct (symmetry_S P b); cbn [obind]; [now rewrite DN|auto].
Qed.
Print Assumptions symmetry_undefined_refuted.

(** ** The VDF force *)
Lemma F2_deriv P x : 0 < x -> derivable_pt_lim (F2 P) x (F1 P x).
Proof.
  intros X. unfold F2, F1. induction (vdf_terms P) as [|[c b] l IH]; cbn [sum_terms]; [apply derivable_pt_lim_const|].
  apply (derivable_pt_lim_plus (fun a => c * Rpower a (b - 2) / Rpower (saturation_density P) (b - 1))
    (fun a => sum_terms (fun c b => c * Rpower a (b - 2) / Rpower (saturation_density P) (b - 1)) l)); auto.
  set (k := c / Rpower (saturation_density P) (b - 1)).
  apply (deriv_ext (fun a => k * Rpower a (b - 2))); [intros; unfold k, Rdiv; ring|].
  replace (c * (b - 2) * Rpower x (b - 3) / Rpower (saturation_density P) (b - 1)) with (k * ((b - 2) * Rpower x (b - 2 - 1))).
  - apply deriv_scaled. now apply derivable_pt_lim_power.
  - replace (b - 2 - 1) with (b - 3) by ring. unfold k, Rdiv. ring.
Qed.
Lemma vs_pos : 0 < very_small_double. Proof. unfold very_small_double. apply Rinv_0_lt_compat, pow_lt. lra. Qed.
Lemma clamp_big x : very_small_double <= x -> clamp x = x.
Proof. intros H. unfold clamp. destruct (Rlt_dec _ _); lra. Qed.
(** A four-vector field, the density and the current are given as functions of the time and the point; a direction is a
    coordinate. *)
Definition coordinate (i : nat) (h : R) : vec4 :=
  match i with 0%nat => V4 h 0 0 0 | 1%nat => V4 0 h 0 0 | 2%nat => V4 0 0 h 0 | _ => V4 0 0 0 h end.
(** The partial derivatives at the origin *)
Definition partial (f : vec4 -> R) (i : nat) (l : R) : Prop := derivable_pt_lim (fun h => f (coordinate i h)) 0 l.
Definition partials4 (F : vec4 -> vec4) (i : nat) (d : vec4) : Prop := forall c, component c -> partial (fun x => c (F x)) i (c d).
(** The force computed with the chain rule is the one computed from the derivatives of the field A itself: minus gradient
    of A0 minus time derivative of A, and curl of A. *)
Theorem vdf_chain_rule P (J : vec4 -> vec4) (r : vec4 -> R) dr dj : use_vdf P = true -> very_small_double < r zero4 ->
  (forall i, (i < 4)%nat -> partial r i (dr i) /\ partials4 J i (dj i)) ->
  exists dA, (forall i, (i < 4)%nat -> partials4 (fun x => vdf_pot P (r x) (J x)) i (dA i)) /\
    let grad_r := V3 (dr 1%nat) (dr 2%nat) (dr 3%nat) in
    let curl_of d := curl (d 1%nat) (d 2%nat) (d 3%nat) in
    let grad0 (d : nat -> vec4) := V3 (y0 (d 1%nat)) (y0 (d 2%nat)) (y0 (d 3%nat)) in
    vdf_force P (r zero4) (dr 0%nat) grad_r (cross3 grad_r (threevec (J zero4))) (y0 (J zero4)) (grad0 dj)
      (threevec (J zero4)) (threevec (dj 0%nat)) (curl_of dj) =
    vdf_force_direct P (grad0 dA) (threevec (dA 0%nat)) (curl_of dA) /\
    vdf_force_direct P (grad0 dA) (threevec (dA 0%nat)) (curl_of dA) = (neg3 (add3 (grad0 dA) (threevec (dA 0%nat))), curl_of dA).
Proof.
  intros Y R0 D. pose proof vs_pos as VS. set (rr := r zero4) in *.
  exists (fun i => add4 (scale4 (F1 P rr * dr i) (J zero4)) (scale4 (F2 P rr) (dj i))). split.
  - intros i I c C. destruct (D i I) as (Dr & Dj). specialize (Dj c C). unfold partial in *.
    assert (Z0 : coordinate i 0 = zero4) by (destruct i as [|[|[|]]]; reflexivity).
    assert (CT : continuity_pt (fun h => r (coordinate i h)) 0) by (apply derivable_continuous_pt; now exists (dr i)).
    apply (deriv_local _ (fun h => F2 P (r (coordinate i h)) * c (J (coordinate i h)))).
    + destruct (CT (rr - very_small_double)) as (e & E0 & EE); [lra|]. exists e. split; auto. intros h H. rewrite Rplus_0_l.
      assert (B : very_small_double < r (coordinate i h)).
      { destruct (Req_dec h 0) as [->|NH]; [rewrite Z0; exact R0|].
        specialize (EE h). cbn in EE. unfold R_dist in EE. rewrite Z0 in EE. fold rr in EE. rewrite Rminus_0_r in EE.
        assert (Q : D_x no_cond 0 h /\ Rabs h < e) by (split; [unfold D_x, no_cond; split; auto|auto]). specialize (EE Q). apply Rabs_def2 in EE. lra. }
      unfold vdf_pot. rewrite Rabs_pos_eq by lra. rewrite clamp_big by lra. rewrite sgn_pos by lra. destruct C; cbn [scale4 y0 y1 y2 y3]; ring.
    + replace (c (add4 _ _)) with ((F1 P rr * dr i) * c (J (coordinate i 0)) + F2 P (r (coordinate i 0)) * c (dj i)).
      * apply (derivable_pt_lim_mult (fun h => F2 P (r (coordinate i h))) (fun h => c (J (coordinate i h)))); auto.
        apply (derivable_pt_lim_comp (fun h => r (coordinate i h)) (F2 P)); auto. rewrite Z0. apply F2_deriv. fold rr. lra.
      * rewrite Z0. fold rr. destruct C; cbn [add4 scale4 y0 y1 y2 y3]; ring.
  - cbv zeta. unfold vdf_force, vdf_force_direct. rewrite Y. cbv zeta.
    rewrite Rabs_pos_eq by lra. rewrite clamp_big by lra. rewrite sgn_pos by lra. split.
    + f_equal; unfold curl; v3; cbn [add4 scale4 y0 y1 y2 y3 x1 x2 x3]; ring.
    + f_equal; unfold curl; v3.
Qed.
Print Assumptions vdf_chain_rule.
(** In antimatter the two ways to compute the force differ, and the field itself has the wrong sign: it does not change
    when particles and antiparticles are exchanged, although the baryon number on which it acts does. *)
Theorem vdf_antimatter_refuted : exists P, use_vdf P = true /\ (forall r j, 0 < r -> vdf_pot P (- r) (V4 (- y0 j) (- y1 j) (- y2 j) (- y3 j)) = vdf_pot P r j) /\
  y0 (vdf_pot P 1 (V4 1 0 0 0)) = 1 /\
  exists r A, r 0 = -1 /\ derivable_pt_lim r 0 1 /\ (forall h, A h = y0 (vdf_pot P (r h) (V4 (r h) 0 0 0))) /\ derivable_pt_lim A 0 (-2) /\
    vdf_force P (-1) 0 (V3 1 0 0) zero3 (-1) (V3 1 0 0) zero3 zero3 zero3 = (V3 0 0 0, V3 0 0 0).
Proof.
  exists (Pot false 0 0 0 false 0 None true 1 [(1, 3)] false 0 0 false false (DPar 1 1 1 1 false)). pose proof vs_pos as VS.
  set (P := Pot _ _ _ _ _ _ _ _ _ _ _ _ _ _ _ _).
  assert (R1 : forall y, Rpower 1 y = 1). { intros y. unfold Rpower. rewrite ln_1, Rmult_0_r. apply exp_0. }
  assert (F2v : forall x, 0 < x -> F2 P x = x). { intros x X. unfold F2. cbn. rewrite R1. replace (3 - 2) with 1 by ring. rewrite Rpower_1 by auto. field. }
  assert (VB : very_small_double < 1). { unfold very_small_double. rewrite <- Rinv_1. apply Rinv_lt_contravar; [|]; [rewrite Rmult_1_l; apply pow_lt; lra|]. apply (Rlt_le_trans _ (10 ^ 1)); [lra|]. apply Rle_pow; [lra|lia]. }
  splits; auto.
  - intros r j R0. unfold vdf_pot. rewrite Rabs_Ropp. rewrite (sgn_neg (- r)), (sgn_pos r) by lra. unfold scale4. cbn [y0 y1 y2 y3]. f_equal; ring.
  - unfold vdf_pot. rewrite Rabs_R1. rewrite clamp_big by lra. rewrite F2v, sgn_pos by lra. cbn [scale4 y0]. ring.
  - exists (fun h => -1 + h), (fun h => y0 (vdf_pot P (-1 + h) (V4 (-1 + h) 0 0 0))). splits; auto; [ring| | |].
    + apply deriv_shift.
    + apply (deriv_local _ (fun h => (-1 + h) * (-1 + h))).
      * exists (1 - very_small_double). split; [lra|]. intros h H. apply Rabs_def2 in H. unfold vdf_pot. rewrite Rabs_left by lra. rewrite clamp_big by lra. rewrite F2v, sgn_neg by lra. cbn [scale4 y0]. ring.
      * replace (-2) with (1 * (-1 + 0) + (-1 + 0) * 1) by ring.
        pose proof (deriv_shift (-1) 0) as DD.
        apply (derivable_pt_lim_mult (fun h => -1 + h) (fun h => -1 + h)); auto.
    + unfold vdf_force. cbn [use_vdf P]. cbv zeta. replace (Rabs (-1)) with 1 by (rewrite Rabs_left; lra). rewrite clamp_big by lra. rewrite F2v, sgn_neg by lra.
      replace (F1 P 1) with 1. 2:{ unfold F1. cbn. rewrite !R1. field. }
      f_equal; v3.
Qed.
Print Assumptions vdf_antimatter_refuted.
