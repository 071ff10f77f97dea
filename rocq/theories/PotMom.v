(** The momentum-dependent potential (C123): the closed form is the documented integral over the Fermi sphere; the energy
    solves the dispersion relation in the local rest frame; the search for it ends. *)
From Coq Require Import ZArith Reals List Bool Lra Lia.
From Verif Require Import Base VecModel VecProps DensModel DensSpec DensProofs DensProps DensMore WidthModel WoodsSaxon PotModel PotProps.
Import ListNotations.
Open Scope R_scope.

(** ** The integral *)
(** the angular integral of 1 / (1 + ((p - q) / L)^2): [x] is the cosine of the angle between p and q *)
Definition angular (p q L x : R) : R := 1 / (1 + (p * p + q * q - 2 * p * q * x) / (L * L)).
(** the potential with the distribution function of cold matter, a sphere of radius [pF] filled with four kinds of
    nucleons: 2 C / rho0 * 4 * int d^3q / (2 pi)^3 1 / (1 + ((p - q) / L)^2) *)
Definition fermi_integral (p pF C L v : R) : Prop :=
  exists A m, (forall q, 0 <= q <= pF -> integral (angular p q L) (-1) 1 (A q)) /\ integral (fun q => q * q * A q) 0 pF m /\
    v = 2 * C / nuclear_density * 4 * (2 * PI / (2 * PI) ^ 3 * m).

Lemma sumsq_pos a L : 0 < L -> 0 < a * a + L * L.
Proof. intros H. nra. Qed.
Lemma deriv_cont f x l : derivable_pt_lim f x l -> continuity_pt f x.
Proof. intros D. apply derivable_continuous_pt. now exists l. Qed.
Lemma deriv_ln f x l : 0 < f x -> derivable_pt_lim f x l -> derivable_pt_lim (fun y => ln (f y)) x (l / f x).
Proof. intros P D. replace (l / f x) with (/ f x * l) by (unfold Rdiv; ring). apply (derivable_pt_lim_comp f ln); auto. now apply derivable_pt_lim_ln. Qed.
Lemma deriv_atan f x l : derivable_pt_lim f x l -> derivable_pt_lim (fun y => atan (f y)) x (l / (1 + f x * f x)).
Proof. intros D. replace (l / (1 + f x * f x)) with (/ (1 + f x ^ 2) * l) by (replace (f x ^ 2) with (f x * f x) by ring; unfold Rdiv; ring). apply (derivable_pt_lim_comp f atan); auto. apply derivable_pt_lim_atan. Qed.
Lemma deriv_affine a b x : derivable_pt_lim (fun y => a + y * b) x b.
Proof. pose proof (derivable_pt_lim_plus (fun _ => a) (fun y => y * b) x 0 b (derivable_pt_lim_const _ _) (deriv_linear b x)) as E. now rewrite Rplus_0_l in E. Qed.
Lemma deriv_mult f g x l m : derivable_pt_lim f x l -> derivable_pt_lim g x m -> derivable_pt_lim (fun y => f y * g y) x (l * g x + f x * m).
Proof. apply (derivable_pt_lim_mult f g). Qed.
Lemma deriv_plus f g x l m : derivable_pt_lim f x l -> derivable_pt_lim g x m -> derivable_pt_lim (fun y => f y + g y) x (l + m).
Proof. apply (derivable_pt_lim_plus f g). Qed.
Lemma deriv_minus f g x l m : derivable_pt_lim f x l -> derivable_pt_lim g x m -> derivable_pt_lim (fun y => f y - g y) x (l - m).
Proof. apply (derivable_pt_lim_minus f g). Qed.

Lemma ln_ratio a b : 0 < a -> 0 < b -> ln (a / b) = ln a - ln b.
Proof. intros A B. unfold Rdiv. rewrite ln_mult by (auto; now apply Rinv_0_lt_compat). rewrite ln_Rinv by auto. ring. Qed.
Definition N (p q L : R) := (p + q) * (p + q) + L * L.
Definition D (p q L : R) := (p - q) * (p - q) + L * L.
(** the angular integral *)
Definition A_value (p L q : R) : R := if Req_EM_T q 0 then 2 * (L * L) / (p * p + L * L) else L * L / (2 * p * q) * (ln (N p q L) - ln (D p q L)).
Lemma angular_denominator p q L x : 0 < L -> -1 <= x <= 1 -> 0 < L * L + (p * p + q * q - 2 * p * q * x).
Proof.
  intros L0 X. assert (0 < L * L) by nra. assert (0 <= p * p + q * q - 2 * p * q * x); [|lra].
  replace (p * p + q * q - 2 * p * q * x) with ((p - q * x) * (p - q * x) + q * q * (1 - x * x)) by ring.
  apply Rplus_le_le_0_compat; [apply Rle_0_sqr|]. apply Rmult_le_pos; [apply Rle_0_sqr|]. nra.
Qed.
Lemma angular_eq p q L x : 0 < L -> -1 <= x <= 1 -> angular p q L x = L * L / (L * L + (p * p + q * q - 2 * p * q * x)).
Proof. intros L0 X. pose proof (angular_denominator p q L x L0 X). unfold angular. field. repeat split; nra. Qed.
Lemma angular_integral p q L : 0 < p -> 0 < L -> 0 <= q -> integral (angular p q L) (-1) 1 (A_value p L q).
Proof.
  intros P L0 Q. unfold A_value.
  assert (CT : forall x, -1 <= x <= 1 -> continuity_pt (angular p q L) x).
  { intros x X. apply deriv_cont with (l := (0 * (1 + (p * p + q * q - 2 * p * q * x) / (L * L)) - (- (2 * p * q) / (L * L)) * 1) / Rsqr (1 + (p * p + q * q - 2 * p * q * x) / (L * L))).
    apply (derivable_pt_lim_div (fun _ => 1) (fun x => 1 + (p * p + q * q - 2 * p * q * x) / (L * L))).
    - apply derivable_pt_lim_const.
    - apply (deriv_ext (fun x => (1 + (p * p + q * q) / (L * L)) + x * (- (2 * p * q) / (L * L)))); [intros y; field; nra|]. apply deriv_affine.
    - pose proof (angular_denominator p q L x L0 X). assert (0 < L * L) by nra. apply Rgt_not_eq.
      replace (1 + (p * p + q * q - 2 * p * q * x) / (L * L)) with ((L * L + (p * p + q * q - 2 * p * q * x)) / (L * L)) by (field; lra). apply Rdiv_lt_0_compat; auto. }
  destruct (Req_EM_T q 0) as [->|NQ].
  - set (k := L * L / (p * p + L * L)). replace (2 * (L * L) / (p * p + L * L)) with (1 * k - -1 * k) by (unfold k, Rdiv; ring).
    apply (integral_antiderivative (angular p 0 L) (fun x => x * k)); [lra| |exact CT]. intros x X.
    rewrite angular_eq by auto. replace (L * L / _) with k by (unfold k; f_equal; ring). apply deriv_linear.
  - assert (Q0 : 0 < q) by lra. set (k := - (L * L / (2 * p * q))).
    replace (L * L / (2 * p * q) * (ln (N p q L) - ln (D p q L))) with
      (k * ln ((L * L + (p * p + q * q)) + 1 * - (2 * p * q)) - k * ln ((L * L + (p * p + q * q)) + -1 * - (2 * p * q))).
    + apply (integral_antiderivative (angular p q L) (fun x => k * ln ((L * L + (p * p + q * q)) + x * - (2 * p * q)))); [lra| |exact CT]. intros x X.
      pose proof (angular_denominator p q L x L0 X) as DN. rewrite angular_eq by auto.
      replace (L * L / _) with (k * (- (2 * p * q) / ((L * L + (p * p + q * q)) + x * - (2 * p * q)))).
      * apply deriv_scaled. apply (deriv_ln (fun x => (L * L + (p * p + q * q)) + x * - (2 * p * q))); [lra|]. apply deriv_affine.
      * unfold k. field. splits; try nra; lra.
    + unfold k, N, D. replace ((L * L + (p * p + q * q)) + 1 * - (2 * p * q)) with ((p - q) * (p - q) + L * L) by ring.
      replace ((L * L + (p * p + q * q)) + -1 * - (2 * p * q)) with ((p + q) * (p + q) + L * L) by ring. ring.
Qed.
(** the outer integral *)
Definition T (p L q : R) : R := (q * q + L * L - p * p) / (2 * p * L) * (ln (N p q L) - ln (D p q L)) + 2 * q / L - 2 * (atan ((p + q) / L) - atan ((p - q) / L)).
Lemma deriv_logs p L q : 0 < L -> derivable_pt_lim (fun q => ln (N p q L) - ln (D p q L)) q (2 * (p + q) / N p q L - - (2 * (p - q)) / D p q L).
Proof.
  intros L0. assert (NP : 0 < N p q L) by (apply sumsq_pos; auto). assert (DP : 0 < D p q L) by (apply sumsq_pos; auto).
  apply deriv_minus; [apply (deriv_ln (fun q => N p q L))|apply (deriv_ln (fun q => D p q L))]; auto; unfold N, D.
  - apply (deriv_ext (fun q => (p * p + L * L) + (q * (2 * p) + q * q))); [intros; ring|].
    replace (2 * (p + q)) with (0 + (2 * p + (1 * q + q * 1))) by ring. apply deriv_plus; [apply derivable_pt_lim_const|]. apply deriv_plus; [apply deriv_linear|]. apply (deriv_mult (fun x => x) (fun x => x)); apply derivable_pt_lim_id.
  - apply (deriv_ext (fun q => (p * p + L * L) + (q * - (2 * p) + q * q))); [intros; ring|].
    replace (- (2 * (p - q))) with (0 + (- (2 * p) + (1 * q + q * 1))) by ring. apply deriv_plus; [apply derivable_pt_lim_const|]. apply deriv_plus; [apply deriv_linear|]. apply (deriv_mult (fun x => x) (fun x => x)); apply derivable_pt_lim_id.
Qed.
Lemma T_deriv p L q : 0 < p -> 0 < L -> derivable_pt_lim (T p L) q (q / (p * L) * (ln (N p q L) - ln (D p q L))).
Proof.
  intros P L0. assert (NP : 0 < N p q L) by (apply sumsq_pos; auto). assert (DP : 0 < D p q L) by (apply sumsq_pos; auto).
  set (k := / (2 * p * L)). set (lg := fun q => ln (N p q L) - ln (D p q L)).
  apply (deriv_ext (fun q => (((L * L - p * p) * k + k * (q * q)) * lg q + q * (2 / L)) - 2 * (atan (p / L + q * (/ L)) - atan (p / L + q * (- / L))))).
  { intros y. unfold T, lg, k. replace (p / L + y * / L) with ((p + y) / L) by (field; lra). replace (p / L + y * - / L) with ((p - y) / L) by (field; lra). field. lra. }
  replace (q / (p * L) * (ln (N p q L) - ln (D p q L))) with
    ((((0 + k * (1 * q + q * 1)) * lg q + ((L * L - p * p) * k + k * (q * q)) * (2 * (p + q) / N p q L - - (2 * (p - q)) / D p q L)) + 2 / L)
      - 2 * (/ L / (1 + (p / L + q * (/ L)) * (p / L + q * (/ L))) - (- / L) / (1 + (p / L + q * (- / L)) * (p / L + q * (- / L))))).
  - apply (deriv_minus (fun q => ((L * L - p * p) * k + k * (q * q)) * lg q + q * (2 / L)) (fun q => 2 * (atan (p / L + q * (/ L)) - atan (p / L + q * (- / L))))).
    { apply (deriv_plus (fun q => ((L * L - p * p) * k + k * (q * q)) * lg q) (fun q => q * (2 / L))); [|apply deriv_linear].
      apply (deriv_mult (fun q => (L * L - p * p) * k + k * (q * q)) lg); [|now apply deriv_logs].
      apply (deriv_plus (fun _ => (L * L - p * p) * k) (fun q => k * (q * q))); [apply derivable_pt_lim_const|].
      apply deriv_scaled. apply (deriv_mult (fun x => x) (fun x => x)); apply derivable_pt_lim_id. }
    apply deriv_scaled. apply deriv_minus; [apply (deriv_atan (fun q => p / L + q * (/ L)))|apply (deriv_atan (fun q => p / L + q * (- / L)))]; apply deriv_affine.
  - replace (1 + (p / L + q * / L) * (p / L + q * / L)) with (N p q L / (L * L)) by (unfold N; field; lra).
    replace (1 + (p / L + q * - / L) * (p / L + q * - / L)) with (D p q L / (L * L)) by (unfold D; field; lra).
    fold (lg q). unfold k. set (l := lg q). 
    assert (E : (L * L - p * p + q * q) * (2 * (p + q) * D p q L + 2 * (p - q) * N p q L) + 4 * p * (N p q L * D p q L) - 4 * p * (L * L) * (D p q L + N p q L) = 0) by (unfold N, D; ring).
    apply (Rmult_eq_reg_r (2 * p * L * N p q L * D p q L)); [|repeat (apply Rmult_integral_contrapositive_currified); lra].
    set (n := N p q L) in *. set (d := D p q L) in *.
    replace (_ * (2 * p * L * n * d)) with (2 * q * l * n * d + ((L * L - p * p + q * q) * (2 * (p + q) * d + 2 * (p - q) * n) + 4 * p * (n * d) - 4 * p * (L * L) * (d + n))) by (field; splits; lra).
    rewrite E. field. lra.
Qed.
Lemma T_0 p L : T p L 0 = 0.
Proof.
  unfold T, N, D. replace ((p + 0) * (p + 0) + L * L) with ((p - 0) * (p - 0) + L * L) by ring. rewrite Rplus_0_r, Rminus_0_r. unfold Rdiv. ring.
Qed.
Lemma outer p L pF : 0 < p -> 0 < L -> 0 <= pF -> integral (fun q => q * q * A_value p L q) 0 pF (L * L * L / 2 * T p L pF).
Proof.
  intros P L0 F. set (g := fun q => L * L / (2 * p) * (q * (ln (N p q L) - ln (D p q L)))).
  assert (GE : forall q, q * q * A_value p L q = g q).
  { intros q. unfold A_value, g. destruct (Req_EM_T q 0) as [->|NQ]; [ring|]. field. lra. }
  assert (DT : forall q, 0 <= q <= pF -> derivable_pt_lim (fun q => L * L * L / 2 * T p L q) q (q * q * A_value p L q)).
  { intros q _. rewrite GE. unfold g. replace (L * L / (2 * p) * (q * (ln (N p q L) - ln (D p q L)))) with (L * L * L / 2 * (q / (p * L) * (ln (N p q L) - ln (D p q L)))) by (field; lra).
    apply deriv_scaled. now apply T_deriv. }
  replace (L * L * L / 2 * T p L pF) with (L * L * L / 2 * T p L pF - L * L * L / 2 * T p L 0) by (rewrite T_0; ring).
  apply (integral_antiderivative (fun q => q * q * A_value p L q) (fun q => L * L * L / 2 * T p L q)); auto.
  intros q _. assert (GC : continuity_pt g q).
  { eapply deriv_cont. unfold g. apply deriv_scaled. apply (deriv_mult (fun q => q)); [apply derivable_pt_lim_id|now apply deriv_logs]. }
  intros e E. destruct (GC e E) as (al & A0 & AA). exists al. split; auto. intros x X. rewrite !GE. apply (AA x X).
Qed.
Lemma outer_0 L pF : 0 < L -> 0 <= pF -> integral (fun q => q * q * (2 * (L * L) / (q * q + L * L))) 0 pF (2 * (L * L) * (pF - L * atan (pF / L))).
Proof.
  intros L0 F. assert (SP : forall q, 0 < q * q + L * L) by (intros; now apply sumsq_pos).
  replace (2 * (L * L) * (pF - L * atan (pF / L))) with (2 * (L * L) * (pF - L * atan (pF * / L)) - 2 * (L * L) * (0 - L * atan (0 * / L))) by (rewrite Rmult_0_l, atan_0; unfold Rdiv; ring).
  apply (integral_antiderivative (fun q => q * q * (2 * (L * L) / (q * q + L * L))) (fun q => 2 * (L * L) * (q - L * atan (q * / L)))); auto.
  - intros q _. specialize (SP q). replace (q * q * (2 * (L * L) / (q * q + L * L))) with (2 * (L * L) * (1 - L * (/ L / (1 + (q * / L) * (q * / L))))).
    + apply deriv_scaled. apply deriv_minus; [apply derivable_pt_lim_id|]. apply deriv_scaled. apply (deriv_atan (fun q => q * / L)). apply deriv_linear.
    + field. splits; nra.
  - intros q _. specialize (SP q). assert (SQ : derivable_pt_lim (fun q => q * q) q (1 * q + q * 1)) by (apply (deriv_mult (fun x => x) (fun x => x)); apply derivable_pt_lim_id).
    eapply deriv_cont. apply deriv_mult; [exact SQ|]. apply (derivable_pt_lim_div (fun _ => 2 * (L * L)) (fun q => q * q + L * L)); [apply derivable_pt_lim_const| |lra].
    apply (deriv_plus (fun q => q * q) (fun _ => L * L)); [exact SQ|apply derivable_pt_lim_const].
Qed.
(** The radius of the Fermi sphere is that of four kinds of nucleons with the given density. *)
Lemma fermi_sphere rho : 0 < rho -> 0 < fermi_momentum rho /\ 4 * (4 / 3 * PI * fermi_momentum rho ^ 3) / (2 * PI) ^ 3 = rho.
Proof.
  intros R0. pose proof PI_RGT_0 as P0. unfold fermi_momentum, cbrt. set (x := 6 * PI * PI * rho / 4).
  assert (X : 0 < x). { unfold x. apply Rdiv_lt_0_compat; [|lra]. apply Rmult_lt_0_compat; auto. nra. }
  destruct (Rlt_dec 0 x); [|lra]. split; [apply exp_pos|].
  replace (Rpower x (1 / 3) ^ 3) with x.
  - unfold x. field. lra.
  - rewrite <- Rpower_pow by apply exp_pos. rewrite Rpower_mult. replace (1 / 3 * INR 3) with 1 by (cbn; field). now rewrite Rpower_1.
Qed.
(** The momentum-dependent part in GeV is the documented integral in MeV; slow particles are treated as being at rest. *)
Theorem momentum_part_is_integral momentum rho C L : 0 < rho -> 0 < L -> 0 <= momentum ->
  let pF := fermi_momentum rho in
  let p := if Rlt_dec (momentum / hbarc) really_small then 0 else momentum / hbarc in
  0 < pF /\ 4 * (4 / 3 * PI * pF ^ 3) / (2 * PI) ^ 3 = rho /\
  exists v, fermi_integral p pF C L v /\ momentum_dependent_part momentum rho C L = mev_to_gev * v.
Proof.
  intros R0 L0 M0 pF p. destruct (fermi_sphere rho R0) as (F0 & FS). fold pF in F0, FS. splits; auto. pose proof PI_RGT_0 as P0. pose proof nd_pos as ND.
  unfold momentum_dependent_part. cbv zeta. fold pF. unfold p. destruct (Rlt_dec (momentum / hbarc) really_small) as [S|S].
  - exists (2 * C / nuclear_density * 4 * (2 * PI / (2 * PI) ^ 3 * (2 * (L * L) * (pF - L * atan (pF / L))))). split.
    + exists (fun q => 2 * (L * L) / (q * q + L * L)), (2 * (L * L) * (pF - L * atan (pF / L))). splits; auto; [|apply outer_0; lra].
      intros q Q. assert (SP : 0 < q * q + L * L) by (now apply sumsq_pos). set (k := L * L / (q * q + L * L)).
      replace (2 * (L * L) / (q * q + L * L)) with (1 * k - -1 * k) by (unfold k, Rdiv; ring).
      assert (AE : forall x, angular 0 q L x = k). { intros x. unfold angular, k. field. splits; nra. }
      apply (integral_antiderivative (angular 0 q L) (fun x => x * k)); [lra| |].
      * intros x _. rewrite AE. apply deriv_linear.
      * intros x _. apply (deriv_cont _ _ 0). apply (deriv_ext (fun _ => k)); [intros; apply AE|]. apply derivable_pt_lim_const.
    + field. lra.
  - set (k := momentum / hbarc) in *. assert (K : 0 < k) by (unfold really_small in S; lra).
    exists (2 * C / nuclear_density * 4 * (2 * PI / (2 * PI) ^ 3 * (L * L * L / 2 * T k L pF))). split.
    + exists (A_value k L), (L * L * L / 2 * T k L pF). splits; auto; [|apply outer; lra]. intros q Q. apply angular_integral; lra.
    + unfold T, N, D. 
      replace ((k + pF) ^ 2 + L * L) with ((k + pF) * (k + pF) + L * L) by ring. replace ((k - pF) ^ 2 + L * L) with ((k - pF) * (k - pF) + L * L) by ring.
      rewrite ln_ratio by (now apply sumsq_pos).
      field. splits; lra.
Qed.
Print Assumptions momentum_part_is_integral.

(** ** The energy *)
Lemma boost_zero a : boost (V3 0 0 0) a = a.
Proof.
  unfold boost. cbv zeta. unfold gamma, sqr3, dot3. cbn [x1 x2 x3]. replace (0 * 0 + 0 * 0 + 0 * 0) with 0 by ring. destruct (Rlt_dec 0 1); [|lra].
  rewrite Rminus_0_r, sqrt_1. apply vec4_eq; unfold mk4, sub3, scale3, threevec; cbn [y0 y1 y2 y3 x1 x2 x3]; field.
Qed.
(** The four-momentum seen in the local rest frame of the current *)
Definition in_rest_frame (j : vec4) (E : R) (p : vec3) : vec4 := boost (velocity j) (mk4 E p).
(** The potential energy of a particle with momentum [k] in the rest frame of matter of density [rho] *)
Definition rest_energy (P : pot) (rho m k : R) : option R :=
  match skyrme_pot (skyrme_a P) (skyrme_b P) (skyrme_tau P) rho with
  | Some u => Some (sqrt (m * m + k * k) + u + momentum_dependent_part k rho (mom_C P) (mom_Lambda P)) | None => None end.
(** The equation is solved exactly by the energies whose square in the rest frame is that of kinetic plus potential
    energy there. *)
Theorem energy_equation P p j m E : really_small < y0 j -> 0 < dot4 j j -> threevec j = V3 0 0 0 \/ really_small < abs3 (velocity j) ->
  exists v e, let k := in_rest_frame j E p in
    rest_energy P (length4 j) m (abs3 (threevec k)) = Some e /\ root_equation P p j m E = Ok v /\ (v = 0 <-> y0 k * y0 k = e * e).
Proof.
  intros Y J B. assert (J0 : 0 < y0 j) by (unfold really_small in Y; lra). unfold root_equation. rewrite abs4_ok by lra. cbn [rbind].
  destruct (Rlt_dec really_small (y0 j)); [|lra]. change (div3 (threevec j) (y0 j)) with (velocity j). cbv zeta.
  assert (KE : (if Rlt_dec really_small (abs3 (velocity j)) then boost (velocity j) (mk4 E p) else mk4 E p) = in_rest_frame j E p).
  { unfold in_rest_frame. destruct (Rlt_dec really_small (abs3 (velocity j))) as [Q|Q]; auto. destruct B as [B|B]; [|lra].
    unfold velocity. rewrite B. replace (div3 (V3 0 0 0) (y0 j)) with (V3 0 0 0); [now rewrite boost_zero|]. unfold div3, scale3. cbn [x1 x2 x3]. f_equal; ring. }
  rewrite KE. set (k := in_rest_frame j E p). unfold rest_energy.
  assert (LJ : 0 < length4 j) by (now apply sqrt_lt_R0). rewrite skyrme_pos by auto.
  eexists. eexists. splits; [reflexivity|reflexivity|].
  assert (JM : 0 < minkowski j j) by (unfold minkowski; unfold dot4 in J; lra). destruct (boost_to_rest_frame j J0 JM) as (SP & _).
  pose proof (boost_preserves_product (velocity j) (mk4 E p) (mk4 E p) SP) as BP. fold k in BP. change (boost (velocity j) (mk4 E p)) with k in BP. unfold minkowski in BP. cbn [mk4 y0 y1 y2 y3] in BP.
  assert (Q2 : abs3 (threevec k) * abs3 (threevec k) = y1 k * y1 k + y2 k * y2 k + y3 k * y3 k).
  { unfold abs3, sqr3. rewrite sqrt_sqrt; [unfold dot3, threevec; cbn [x1 x2 x3]; ring|]. unfold dot3, threevec. cbn [x1 x2 x3]. pose proof (Rle_0_sqr (y1 k)). pose proof (Rle_0_sqr (y2 k)). pose proof (Rle_0_sqr (y3 k)). unfold Rsqr in *. lra. }
  rewrite Q2. unfold sqr3, dot3. lra.
Qed.
Print Assumptions energy_equation.

(** The search ends after at most 1999 steps whatever the coins show.  It returns only what the root solver found in an
    interval around the energy without potential, and gives up only when there is nothing in the whole interval. *)
Lemma scan_ends try coin g fuel : forall i j, (1 <= i <= 1000)%Z -> (1 <= j <= 1000)%Z -> (2000 - i - j < Z.of_nat fuel)%Z ->
  let out := scan try coin (g - 100) (g + 100) fuel (g - IZR i / 10) (g + IZR j / 10) in
  (exists x a b, out = Ok x /\ try a b = Some x /\ g - 100 <= a <= g /\ g <= b <= g + 100) \/
  (out = Throw E_runtime /\ try (g - 100) (g + 100) = None).
Proof.
  induction fuel as [|n IH]; intros i j I J F; [lia|]. cbn [scan].
  assert (IR : 1 <= IZR i <= 1000) by (split; apply IZR_le; lia). assert (JR : 1 <= IZR j <= 1000) by (split; apply IZR_le; lia).
  destruct (try (g - IZR i / 10) (g + IZR j / 10)) as [x|] eqn:TR.
  - left. exists x, (g - IZR i / 10), (g + IZR j / 10). splits; auto; lra.
  - assert (RJ : g + IZR j / 10 + 1 / 10 = g + IZR (j + 1) / 10) by (rewrite plus_IZR; lra).
    assert (LI : g - IZR i / 10 - 1 / 10 = g - IZR (i + 1) / 10) by (rewrite plus_IZR; lra).
    destruct (Rlt_dec (g - 100) (g - IZR i / 10)) as [L|L]; destruct (Rlt_dec (g + IZR j / 10) (g + 100)) as [R'|R'].
    + assert (i < 1000)%Z by (apply lt_IZR; lra). assert (j < 1000)%Z by (apply lt_IZR; lra). destruct (coin n); [rewrite RJ|rewrite LI]; apply IH; lia.
    + assert (i < 1000)%Z by (apply lt_IZR; lra). rewrite LI. apply IH; lia.
    + assert (j < 1000)%Z by (apply lt_IZR; lra). rewrite RJ. apply IH; lia.
    + right. split; auto. rewrite <- TR. f_equal; lra.
Qed.
Theorem energy_search try coin p m fuel : (1999 <= fuel)%nat ->
  let g := sqrt (m * m + dot3 p p) in
  (exists x a b, calculation_frame_energy try coin p m fuel = Ok x /\ try a b = Some x /\ g - 100 <= a <= g /\ g <= b <= g + 100) \/
  (calculation_frame_energy try coin p m fuel = Throw E_runtime /\ try (g - 100) (g + 100) = None /\ forall w, In w [5 / 100; 5 / 10; 5; 50] -> try (g - w) (g + w) = None).
Proof.
  intros F g. unfold calculation_frame_energy. fold g.
  assert (W : forall ws, (forall w, In w ws -> 0 <= w <= 100) -> match try_widths try g ws with Some x => exists a b, try a b = Some x /\ g - 100 <= a <= g /\ g <= b <= g + 100 | None => forall w, In w ws -> try (g - w) (g + w) = None end).
  { induction ws as [|w ws IH]; intros B; cbn [try_widths]; [intros w []|]. destruct (try (g - w) (g + w)) as [x|] eqn:TR.
    - exists (g - w), (g + w). specialize (B w (or_introl eq_refl)). splits; auto; lra.
    - specialize (IH (fun v V => B v (or_intror V))). destruct (try_widths try g ws); auto. intros v [<-|V]; auto. }
  specialize (W [5 / 100; 5 / 10; 5; 50]). destruct (try_widths _ _ _) as [x|].
  - left. destruct W as (a & b & T1 & T2 & T3); [intros w [<-|[<-|[<-|[<-|[]]]]]; lra|]. exists x, a, b. auto.
  - pose proof (scan_ends try coin g fuel 1 1 ltac:(lia) ltac:(lia) ltac:(lia)) as S. cbv zeta in S. destruct S as [S|(S & S2)]; [left; exact S|right]. splits; auto.
    apply W. intros w [<-|[<-|[<-|[<-|[]]]]]; lra.
Qed.
Print Assumptions energy_search.
(** With a solver that returns a point close to a root of the energy equation, the energy is close to an exact solution. *)
Definition solves (F : R -> Prop) (try : R -> R -> option R) : Prop := forall a b x, try a b = Some x -> exists y, F y /\ a <= y <= b /\ Rabs (x - y) <= 1 / 10 ^ 7 * Rabs y.
Theorem energy_correct P try coin p j m fuel x : really_small < y0 j -> 0 < dot4 j j -> threevec j = V3 0 0 0 \/ really_small < abs3 (velocity j) ->
  (1999 <= fuel)%nat -> solves (fun E => root_equation P p j m E = Ok 0) try -> calculation_frame_energy try coin p m fuel = Ok x ->
  exists E e, Rabs (x - E) <= 1 / 10 ^ 7 * Rabs E /\ Rabs (E - sqrt (m * m + dot3 p p)) <= 100 /\
    let k := in_rest_frame j E p in rest_energy P (length4 j) m (abs3 (threevec k)) = Some e /\ y0 k * y0 k = e * e.
Proof.
  intros Y J B F S C. destruct (energy_search try coin p m fuel F) as [(x' & a & b & C' & T1 & A1 & B1)|(C' & _)]; rewrite C' in C; [|discriminate].
  injection C as ->. destruct (S a b x T1) as (E & RE & EB & XE). destruct (energy_equation P p j m E Y J B) as (v & e & H1 & H2 & H3).
  exists E, e. cbv zeta. splits; auto; [apply Rabs_le; lra|]. apply H3. rewrite H2 in RE. congruence.
Qed.
Print Assumptions energy_correct.
(** The momentum-dependent potential does not know antimatter: the current enters through its length, and at rest with no
    other sign.  The energy of a particle is the same in antimatter and matter at rest, but the force is multiplied by
    the baryon number, so that antibaryons in antimatter are pushed where baryons in matter are pulled. *)
Theorem momentum_antimatter_refuted P p n m E : root_equation P p (V4 (- n) 0 0 0) m E = root_equation P p (V4 n 0 0 0) m E.
Proof.
  unfold root_equation. assert (A : abs4 (V4 (- n) 0 0 0) = abs4 (V4 n 0 0 0)). { unfold abs4, sqr4. cbn [y0 y1 y2 y3]. replace (- n * - n - 0 * 0 - 0 * 0 - 0 * 0) with (n * n - 0 * 0 - 0 * 0 - 0 * 0) by ring. reflexivity. }
  rewrite A. destruct (abs4 (V4 n 0 0 0)) as [r|e|u]; cbn [rbind]; auto. cbn [y0 threevec y1 y2 y3].
  assert (Z3 : forall k, (if Rlt_dec really_small k then div3 (V3 0 0 0) k else zero3) = zero3). { intros k. destruct (Rlt_dec _ _); auto. unfold div3, zero3, scale3. cbn [x1 x2 x3]. f_equal; ring. }
  now rewrite !Z3.
Qed.
Print Assumptions momentum_antimatter_refuted.
Example energy_case : really_small < y0 (V4 1 (3 / 10) 0 0) /\ 0 < dot4 (V4 1 (3 / 10) 0 0) (V4 1 (3 / 10) 0 0) /\ really_small < abs3 (velocity (V4 1 (3 / 10) 0 0)).
Proof.
  unfold really_small, dot4. cbn [y0 y1 y2 y3]. splits; try lra. unfold abs3, velocity, div3, scale3, threevec, dot3. cbn [x1 x2 x3 y0 y1 y2 y3].
  replace (_ + _ + _) with (Rsqr (3 / 10)) by (unfold Rsqr; field). rewrite sqrt_Rsqr; lra.
Qed.
