(** More on the momentum samplers: rejection below an envelope, quantum statistics, line shapes (C119). *)
From Coq Require Import ZArith Reals List Bool Lra Lia Psatz.
From Verif Require Import Base VecModel NucleusModel WoodsSaxon DistModel DistProps.
Import ListNotations.
Open Scope R_scope.

(** ** The distribution for the expanding metric *)
Lemma d_exp_neg x : derivable_pt_lim (fun t => exp (- t)) x (- exp (- x)).
Proof.
  replace (- exp (- x)) with (exp (- x) * -1) by ring. apply (derivable_pt_lim_comp (fun t => - t) exp); [|apply derivable_pt_lim_exp].
  apply (derivable_pt_lim_opp id x 1), derivable_pt_lim_id.
Qed.
Lemma d_times f g x a b : derivable_pt_lim f x a -> derivable_pt_lim g x b -> derivable_pt_lim (fun t => f t * g t) x (a * g x + f x * b).
Proof. apply (derivable_pt_lim_mult f g). Qed.
Lemma d_sum f g x a b : derivable_pt_lim f x a -> derivable_pt_lim g x b -> derivable_pt_lim (fun t => f t + g t) x (a + b).
Proof. apply (derivable_pt_lim_plus f g). Qed.
Lemma d_const c x : derivable_pt_lim (fun _ => c) x 0.
Proof. apply (derivable_pt_lim_const c). Qed.
Lemma d_id x : derivable_pt_lim (fun t => t) x 1.
Proof. apply derivable_pt_lim_id. Qed.
Lemma d_eq f x a b : a = b -> derivable_pt_lim f x a -> derivable_pt_lim f x b.
Proof. intros ->; auto. Qed.
Lemma gamma4 Y : 0 <= Y -> exists M, integral (fun t => t * t * t / 6 * exp (- t)) 0 Y M /\
  integral (fun t => t * t / 2 * (exp (- t) * F2 (Y - t))) 0 Y M.
Proof.
  intros Y0. set (M := 1 - exp (- Y) * (1 + Y + Y * Y / 2 + Y * Y * Y / 6)). exists M. split.
  - set (G := fun t => (1 + t + t * t * / 2 + t * t * t * / 6) * exp (- t) * -1).
    apply integral_eq with (G Y - G 0); [unfold G, M; rewrite Ropp_0, exp_0; field|].
    apply integral_antiderivative; auto.
    + intros x _. unfold G. eapply d_eq; [|apply d_times; [apply d_times; [apply d_sum; [apply d_sum; [apply d_sum; [apply d_const|apply d_id]|apply d_times; [apply d_times; apply d_id|apply d_const]]|apply d_times; [apply d_times; [apply d_times; apply d_id|apply d_id]|apply d_const]]|apply d_exp_neg]|apply d_const]].
      cbv beta. field.
    + intros x _. repeat (apply cont_mult || apply cont_div || apply cont_id || apply cont_c). apply cont_exp, cont_opp, cont_id.
  - set (G := fun t => (1 + t + t * t * / 2) * exp (- t) * -1 + t * t * t * (- (exp (- Y) / 6))).
    apply integral_eq with (G Y - G 0); [unfold G, M; rewrite Ropp_0, exp_0; field|].
    apply integral_antiderivative; auto.
    + intros x _. unfold G. eapply d_eq; [|apply d_sum; [apply d_times; [apply d_times; [apply d_sum; [apply d_sum; [apply d_const|apply d_id]|apply d_times; [apply d_times; apply d_id|apply d_const]]|apply d_exp_neg]|apply d_const]|apply d_times; [apply d_times; [apply d_times; apply d_id|apply d_id]|apply d_const]]].
      cbv beta. unfold F2. replace (exp (- Y)) with (exp (- x) * exp (- (Y - x))) by (rewrite <- exp_plus; f_equal; ring). field.
    + intros x _. apply cont_mult; [apply cont_div, cont_mult; apply cont_id|]. apply cont_mult; [apply cont_exp, cont_opp, cont_id|].
      unfold F2. apply cont_minus; [apply cont_c|]. apply cont_exp, cont_opp, cont_minus; [apply cont_c|apply cont_id].
Qed.
(** The momentum drawn is distributed like p^3 exp(-4p/(3T)), with the normalisation that makes the total one. *)
Theorem ES_sampler T X : 0 < T -> 0 <= X -> exists M, integral (fun p => p * p * p * exp (- (4 * p / (3 * T)))) 0 X M /\
  prob_four (fun a b c d => sample_ES T a b c d <= X) (M * (256 / (81 * (T * T * T * T)) / 6)).
Proof.
  intros T0 X0. set (Y := 4 * X / (3 * T)).
  assert (Y0 : 0 <= Y) by (apply Rmult_le_pos; [lra|apply Rlt_le, Rinv_0_lt_compat; lra]).
  set (h := fun s => F2 (Y - s)).
  assert (CH : forall x, continuity_pt h x) by (intros x; unfold h, F2; apply cont_minus; [apply cont_c|]; apply cont_exp, cont_opp, cont_minus; [apply cont_c|apply cont_id]).
  destruct (chain h Y Y0) as (A1 & A2 & A3 & (D1 & Z1) & (D2 & Z2) & (D3 & Z3) & _ & _ & I3); auto.
  assert (P1 : forall s, 0 <= s -> prob1 (fun a => s + - ln a <= Y) (cut Y h s)).
  { intros s S0. unfold cut, h. destruct (Rle_dec s Y) as [L|L].
    - apply prob1_ext with (fun a => - ln a <= Y - s); [intros; split; lra|]. apply one_exponential. lra.
    - apply prob1_ext with (fun _ => False); [|apply prob1_const; auto]. intros u Hu. pose proof (neg_ln_pos u Hu). split; [tauto|lra]. }
  assert (P2 : forall s, 0 <= s -> prob2 (fun a b => s + - ln b + - ln a <= Y) (cut Y A1 s)).
  { intros s S0. apply (layer1 (fun a t => t + - ln a <= Y) Y A1 h); auto. }
  assert (P3 : forall s, 0 <= s -> prob3 (fun a b c => s + - ln c + - ln b + - ln a <= Y) (cut Y A2 s)).
  { intros s S0. apply (layer2 (fun a b t => t + - ln b + - ln a <= Y) Y A2 A1); auto. intros; eapply derivable_cont; eauto. }
  assert (P4 : prob_four (fun a b c d => 0 + - ln d + - ln c + - ln b + - ln a <= Y) (cut Y A3 0)).
  { apply (layer3 (fun a b c t => t + - ln c + - ln b + - ln a <= Y) Y A3 A2); auto; [lra|]. intros; eapply derivable_cont; eauto. }
  rewrite cut_0 in P4 by auto.
  destruct (gamma4 Y Y0) as (M & IM & IM'). rewrite (integral_unique _ _ _ _ _ I3 IM') in P4.
  exists (6 * (81 * (T * T * T * T)) / 256 * M). split.
  - assert (I' : integral (fun p => 6 * (81 * (T * T * T * T)) / 256 * (4 * p / (3 * T) * (4 * p / (3 * T)) * (4 * p / (3 * T)) / 6 * exp (- (4 * p / (3 * T))) * (4 / (3 * T)))) 0 X (6 * (81 * (T * T * T * T)) / 256 * M)).
    { apply integral_scale. apply (substitution (fun t => t * t * t / 6 * exp (- t)) (fun p => 4 * p / (3 * T)) (fun _ => 4 / (3 * T))); auto.
      - intros x Hx. assert (0 < / (3 * T)) by (apply Rinv_0_lt_compat; lra). unfold Rdiv. split; apply Rmult_le_compat_r; lra.
      - intros y _. repeat (apply cont_mult || apply cont_div || apply cont_id || apply cont_c). apply cont_exp, cont_opp, cont_id.
      - intros x _. eapply d_eq; [|apply (d_times (fun p => 4 * p) (fun _ => / (3 * T))); [apply d_times; [apply d_const|apply d_id]|apply d_const]]. cbv beta. field. lra.
      - intros x _. apply cont_c.
      - replace (4 * 0 / (3 * T)) with 0 by (field; lra). exact IM. }
    apply integral_ext with (3 := I'); auto. intros p Hp. field. lra.
  - replace (6 * (81 * (T * T * T * T)) / 256 * M * (256 / (81 * (T * T * T * T)) / 6)) with M by (field; lra).
    apply prob_four_ext with (2 := P4). intros a b c d _ _ _ _. unfold sample_ES, Y.
    set (t := - ln a + - ln b + - ln c + - ln d). replace (0 + - ln d + - ln c + - ln b + - ln a) with t by (unfold t; ring).
    split; intros L.
    + apply (Rmult_le_compat_l (3 / 4 * T)) in L; [|lra]. replace (3 / 4 * T * (4 * X / (3 * T))) with X in L by (field; lra). exact L.
    + apply (Rmult_le_reg_l (3 / 4 * T)); [lra|]. replace (3 / 4 * T * (4 * X / (3 * T))) with X by (field; lra). exact L.
Qed.
Print Assumptions ES_sampler.

(** ** Rejection below an envelope *)
(** A number drawn uniformly from [lo, hi] and kept if a uniform number below C is not above f: the probability that
    it is kept and is at most X is proportional to the integral of f. *)
Lemma rejection f C lo hi X M : lo < hi -> lo <= X <= hi -> 0 < C -> (forall x, lo <= x <= hi -> 0 <= f x <= C) ->
  (forall x, lo <= x <= hi -> continuity_pt f x) -> integral f lo X M ->
  prob2 (fun v u => lo + (hi - lo) * u <= X /\ ~ f (lo + (hi - lo) * u) < C * v) (M / (C * (hi - lo))).
Proof.
  intros LH HX C0 B CF I. set (phi := fun u => lo + (hi - lo) * u). set (ux := (X - lo) / (hi - lo)).
  assert (UX : 0 <= ux <= 1). { unfold ux. split; [apply Rmult_le_pos; [lra|apply Rlt_le, Rinv_0_lt_compat; lra]|]. apply (Rmult_le_reg_r (hi - lo)); [lra|]. unfold Rdiv. rewrite Rmult_assoc, Rinv_l by lra. lra. }
  assert (PX : phi ux = X) by (unfold phi, ux; field; lra). assert (P0 : phi 0 = lo) by (unfold phi; ring).
  assert (PL : forall u, phi u <= X <-> u <= ux).
  { intros u. unfold phi, ux. split; intros L.
    - apply (Rmult_le_reg_r (hi - lo)); [lra|]. unfold Rdiv. rewrite Rmult_assoc, Rinv_l by lra. lra.
    - apply (Rmult_le_compat_r (hi - lo)) in L; [|lra]. unfold Rdiv in L. rewrite Rmult_assoc, Rinv_l in L by lra. lra. }
  assert (PR : forall u, 0 <= u <= 1 -> lo <= phi u <= hi) by (intros u Hu; unfold phi; split; nra).
  exists (fun u => if Rle_dec (phi u) X then f (phi u) / C else 0). split.
  - intros u Hu. fold (phi u). destruct (Rle_dec (phi u) X) as [L|L].
    + destruct (B (phi u) (PR u ltac:(lra))) as (F0 & F1).
      assert (Q : f (phi u) / C <= 1) by (apply (Rmult_le_reg_r C); auto; unfold Rdiv; rewrite Rmult_assoc, Rinv_l by lra; lra).
      assert (Q0 : 0 <= f (phi u) / C) by (apply Rmult_le_pos; [auto|apply Rlt_le, Rinv_0_lt_compat; auto]).
      exists 0, (f (phi u) / C). splits; try lra. intros v Hv. split.
      * intros Hv2. split; auto. intros N. assert (f (phi u) / C < v); [|lra]. apply (Rmult_lt_reg_r C); auto. unfold Rdiv. rewrite Rmult_assoc, Rinv_l by lra. lra.
      * intros [Hv2|Hv2] (_ & N); [lra|]. apply N. apply (Rmult_lt_compat_l C) in Hv2; auto. replace (C * (f (phi u) / C)) with (f (phi u)) in Hv2 by (field; lra). auto.
    + apply prob1_ext with (fun _ => False); [intros; tauto|]. apply prob1_const; auto.
  - apply integral_eq with (M / (C * (hi - lo)) + 0 * (1 - ux)); [ring|].
    apply integral_glue with (b := ux) (g := fun u => / (C * (hi - lo)) * (f (phi u) * (hi - lo))) (h := fun _ => 0); [lra|..].
    + intros u Hu. destruct (Rle_dec (phi u) X) as [L|L]; [field; lra|exfalso; apply L, PL; lra].
    + intros u Hu. destruct (Rle_dec (phi u) X) as [L|L]; [apply PL in L; lra|reflexivity].
    + replace (M / (C * (hi - lo))) with (/ (C * (hi - lo)) * M) by (field; lra). apply integral_scale.
      apply (substitution f phi (fun _ => hi - lo)).
      * lra.
      * intros x Hx. rewrite P0, PX. split; [apply PR; lra|apply PL; lra].
      * intros y Hy. rewrite P0, PX in Hy. apply CF. lra.
      * intros x _. eapply d_eq; [|apply (d_sum (fun _ => lo) (fun u => (hi - lo) * u)); [apply d_const|apply d_times; [apply d_const|apply d_id]]]. cbv beta. ring.
      * intros x _. apply cont_c.
      * rewrite P0, PX. exact I.
    + apply integral_const.
Qed.

(** *** Massive particles out of equilibrium *)
Lemma ln_le_1 x : 0 < x -> ln x <= x - 1.
Proof. intros H. rewrite <- (ln_exp (x - 1)). destruct (Req_dec x (exp (x - 1))) as [E|E]; [rewrite <- E; lra|]. left. apply ln_increasing; auto. pose proof (exp_ineq1_le (x - 1)). lra. Qed.
Lemma peak_spec T m : 0 < T -> 0 <= m -> 0 < peak_psqr T m /\ peak_psqr T m = 3 * sqrt (peak_psqr T m + m * m) * T.
Proof.
  intros T0 M0. set (q := sqrt (81 * T * T + 36 * m * m)). assert (QQ : q * q = 81 * T * T + 36 * m * m) by (apply sqrt_sqrt; nra).
  assert (Q0 : 0 <= q) by apply sqrt_pos. unfold peak_psqr. fold q.
  assert (P : 0 < 1 / 2 * (9 * T * T + T * q)) by nra. split; auto.
  set (s := 1 / 2 * (9 * T * T + T * q)) in *.
  assert (SS : s * s = 9 * T * T * (s + m * m)).
  { unfold s. replace (1 / 2 * (9 * T * T + T * q) * (1 / 2 * (9 * T * T + T * q))) with (1 / 4 * (81 * (T * T) * (T * T) + 18 * (T * T) * T * q + T * T * (q * q))) by field. rewrite QQ. field. }
  replace (3 * sqrt (s + m * m) * T) with (sqrt (s * s)); [rewrite sqrt_square by lra; reflexivity|].
  rewrite SS. replace (9 * T * T * (s + m * m)) with ((3 * T) * (3 * T) * (s + m * m)) by ring.
  rewrite sqrt_mult by nra. rewrite sqrt_square by lra. ring.
Qed.
Lemma density_mass_pos e q T : 0 <= q -> 0 <= density_mass e q T.
Proof. intros H. unfold density_mass. repeat apply Rmult_le_pos; auto; [apply sqrt_pos|apply Rlt_le, exp_pos]. Qed.
Lemma cube_exp q e T : 0 < q -> density_mass e q T = exp (3 * ln (sqrt q) - e / T).
Proof.
  intros H. pose proof (sqrt_lt_R0 _ H) as S. unfold density_mass. unfold Rminus. rewrite exp_plus.
  replace (3 * ln (sqrt q)) with (ln (sqrt q) + (ln (sqrt q) + ln (sqrt q))) by ring. rewrite !exp_plus, exp_ln by auto.
  rewrite <- (sqrt_sqrt q) at 1 by lra. replace (- e / T) with (- (e / T)) by (unfold Rdiv; ring). ring.
Qed.
(** The density p^3 exp(-E/T) is largest at the momentum used for the envelope. *)
Theorem peak_is_maximum T m p : 0 < T -> 0 <= m -> 0 <= p ->
  density_mass (sqrt (p * p + m * m)) (p * p) T <= density_mass (sqrt (peak_psqr T m + m * m)) (peak_psqr T m) T.
Proof.
  intros T0 M0 P0. destruct (peak_spec T m T0 M0) as (S0 & SE). set (s2 := peak_psqr T m) in *. clearbody s2.
  destruct P0 as [P0|<-].
  2: { unfold density_mass at 1. replace (0 * 0 * sqrt (0 * 0) * exp (- sqrt (0 * 0 + m * m) / T)) with 0 by ring. apply density_mass_pos. lra. }
  rewrite !cube_exp by nra. set (es := sqrt (s2 + m * m)) in *. set (e := sqrt (p * p + m * m)).
  assert (ES : es * es = s2 + m * m) by (apply sqrt_sqrt; nra). assert (E : e * e = p * p + m * m) by (apply sqrt_sqrt; nra).
  assert (E0 : 0 < e) by (apply sqrt_lt_R0; nra). assert (ES0 : 0 < es) by (apply sqrt_lt_R0; nra).
  rewrite sqrt_square by lra. set (s := sqrt s2). assert (SS : s * s = s2) by (apply sqrt_sqrt; lra). assert (SP : 0 < s) by (apply sqrt_lt_R0; auto).
  assert (CS : p * s + m * m <= e * es).
  { assert (W : (p * s + m * m) * (p * s + m * m) <= (e * es) * (e * es)).
    { replace (e * es * (e * es)) with ((e * e) * (es * es)) by ring. rewrite E, ES, <- SS. pose proof (Rle_0_sqr (m * (p - s))) as Q. unfold Rsqr in Q. nra. }
    assert (0 < e * es) by nra. destruct (Rle_dec (p * s + m * m) (e * es)); auto. exfalso. nra. }
  assert (L : ln p - ln s <= p / s - 1).
  { replace (ln p - ln s) with (ln (p / s)); [apply ln_le_1, Rdiv_lt_0_compat; auto|]. unfold Rdiv. rewrite ln_mult, ln_Rinv by (auto; apply Rinv_0_lt_compat; auto). ring. }
  assert (K : p / s - 1 <= (e - es) / (3 * T)).
  { assert (T3 : 3 * T = s * s / es) by (rewrite SS, SE; field; lra). rewrite T3.
    replace ((e - es) / (s * s / es)) with ((e * es - es * es) / (s * s)) by (field; split; lra).
    apply (Rmult_le_reg_r (s * s)); [nra|]. replace ((p / s - 1) * (s * s)) with (p * s - s * s) by (field; lra).
    replace ((e * es - es * es) / (s * s) * (s * s)) with (e * es - es * es) by (field; lra). rewrite ES, <- SS. lra. }
  assert (F : 3 * ln p - e / T <= 3 * ln s - es / T).
  { replace (e / T) with (es / T + 3 * ((e - es) / (3 * T))) by (field; lra). lra. }
  destruct F as [F|F]; [left; apply exp_increasing; auto|rewrite F; lra].
Qed.
Print Assumptions peak_is_maximum.
(** A round of the sampler for massive particles out of equilibrium keeps a momentum of at most X with a probability
    proportional to the integral of p^3 exp(-E/T). *)
Theorem mass_sampler T m X : 0 < T -> 0 <= m < 50 * T -> 0 <= X <= sqrt (50 * 50 * T * T - m * m) ->
  exists k M, 0 < k /\ integral (fun p => p * p * p * exp (- sqrt (p * p + m * m) / T)) 0 X M /\
    prob2 (fun v u => exists p, round_mass T m u v = Ok (Some p) /\ p <= X) (M * k).
Proof.
  intros T0 M0 HX. set (L := sqrt (50 * 50 * T * T - m * m)) in *.
  assert (L0 : 0 < 50 * 50 * T * T - m * m) by nra. assert (LP : 0 < L) by (apply sqrt_lt_R0; auto).
  set (C := 2 * density_mass (sqrt (peak_psqr T m + m * m)) (peak_psqr T m) T).
  assert (C0 : 0 < C). { unfold C. rewrite cube_exp by (apply peak_spec; lra). pose proof (exp_pos (3 * ln (sqrt (peak_psqr T m)) - sqrt (peak_psqr T m + m * m) / T)). lra. }
  set (f := fun p => density_mass (sqrt (p * p + m * m)) (p * p) T).
  assert (FE : forall p, 0 <= p -> f p = p * p * p * exp (- sqrt (p * p + m * m) / T)) by (intros p Hp; unfold f, density_mass; rewrite sqrt_square by auto; reflexivity).
  assert (CF : forall x, continuity_pt f x).
  { intros x. unfold f, density_mass. assert (CS : continuity_pt (fun p => p * p) x) by (apply cont_mult; apply cont_id).
    apply cont_mult; [apply cont_mult; [auto|apply (cont_sqrt (fun p => p * p)); [auto|nra]]|]. apply cont_exp, cont_div, cont_opp.
    apply (cont_sqrt (fun p => p * p + m * m)); [apply cont_plus; [auto|apply cont_c]|nra]. }
  destruct (primitive_exists f 0 X) as (G & DG & GZ); [lra|auto|].
  assert (I : integral f 0 X (- G X - - G 0)).
  { apply (integral_antiderivative f (fun x => - G x)); auto; [lra|]. intros x Hx. replace (f x) with (- - f x) by ring. apply derivable_pt_lim_opp, DG; auto. }
  exists (/ (C * L)), (- G X - - G 0). splits.
  - apply Rinv_0_lt_compat. nra.
  - apply integral_ext with (3 := I); [lra|]. intros p Hp. symmetry. apply FE. lra.
  - pose proof (rejection f C 0 L X (- G X - - G 0) LP HX C0) as RJ. replace (L - 0) with L in RJ by ring.
    apply prob2_ext with (2 := RJ ltac:(intros x Hx; split; [apply density_mass_pos; nra|pose proof (peak_is_maximum T m x T0 ltac:(lra) ltac:(lra)); pose proof (density_mass_pos (sqrt (x * x + m * m)) (x * x) T ltac:(nra)); unfold f, C; lra]) ltac:(auto) I).
    intros v u Hv Hu. rewrite !Rplus_0_l. unfold round_mass, mass_cut. destruct (Rlt_dec (50 * 50 * T * T - m * m) 0); [lra|]. fold L. fold C. fold (f (L * u)).
    destruct (Rlt_dec (f (L * u)) (C * v)) as [N|N].
    + split; [tauto|]. intros (p & E & _). discriminate.
    + split; [intros (A & _); eauto|]. intros (p & E & A). injection E as <-. tauto.
Qed.
Print Assumptions mass_sampler.
(** A particle heavier than fifty times the temperature has no admissible range of momenta: the square root of a negative
    number makes every momentum undefined. *)
Theorem heavy_refuted T m u v : 0 < T -> 50 * T < m -> round_mass T m u v = UB UB_float_cast.
Proof. intros T0 H. unfold round_mass. destruct (Rlt_dec (mass_cut T m) 0) as [|N]; auto. exfalso. apply N. unfold mass_cut. nra. Qed.
Print Assumptions heavy_refuted.
Example heavy_ex : 0 < 1 / 100 /\ 50 * (1 / 100) < 938 / 1000. Proof. lra. Qed.

(** *** Massless particles in the expanding metric *)
Lemma pow_le_exp n x : (0 < n)%nat -> 0 <= x -> x ^ n * exp (- x) <= INR n ^ n * exp (- INR n).
Proof.
  intros N X. assert (N0 : 0 < INR n) by (apply lt_0_INR; auto).
  assert (A : x / INR n <= exp (x / INR n - 1)) by (pose proof (exp_ineq1_le (x / INR n - 1)); lra).
  assert (B : (x / INR n) ^ n <= exp (x / INR n - 1) ^ n) by (apply pow_incr; split; auto; apply Rmult_le_pos; [auto|apply Rlt_le, Rinv_0_lt_compat; auto]).
  assert (E : forall k y, exp y ^ k = exp (INR k * y)).
  { induction k as [|k IH]; intros y; [cbn; rewrite Rmult_0_l, exp_0; auto|]. rewrite S_INR. cbn [pow]. rewrite IH, <- exp_plus. f_equal. ring. }
  rewrite E in B. replace (INR n * (x / INR n - 1)) with (x - INR n) in B by (field; lra).
  unfold Rdiv in B. rewrite Rpow_mult_distr, pow_inv in B. pose proof (pow_lt (INR n) n N0) as PN.
  apply (Rmult_le_compat_r (INR n ^ n * exp (- x))) in B; [|apply Rmult_le_pos; [lra|apply Rlt_le, exp_pos]].
  replace (x ^ n * / INR n ^ n * (INR n ^ n * exp (- x))) with (x ^ n * exp (- x)) in B by (field; lra).
  replace (exp (x - INR n) * (INR n ^ n * exp (- x))) with (INR n ^ n * exp (- INR n)) in B; auto.
  replace (- INR n) with ((x - INR n) + - x) by ring. rewrite exp_plus. ring.
Qed.
Lemma e_bounds : 2 <= exp 1 <= 3.
Proof. split; [pose proof (exp_ineq1_le 1); lra|apply exp_le_3]. Qed.
Lemma exp_neg_nat n : exp (- INR n) * exp 1 ^ n = 1.
Proof. induction n as [|n IH]; [cbn; rewrite Ropp_0, exp_0; ring|]. rewrite S_INR. replace (- (INR n + 1)) with (- INR n + Ropp 1) by ring. rewrite exp_plus, (exp_Ropp 1). cbn [pow]. transitivity (exp (- INR n) * exp 1 ^ n * (/ exp 1 * exp 1)); [ring|]. rewrite IH, Rinv_l by (apply Rgt_not_eq, exp_pos). ring. Qed.
Lemma powers x : 0 <= x -> x * x * exp (- x) <= 4 * exp (Ropp 2) /\ x * x * x * x * exp (- x) <= 256 * exp (Ropp 4) /\ x * x * x * x * x * x * exp (- x) <= 46656 * exp (Ropp 6).
Proof.
  intros H. pose proof (pow_le_exp 2 x ltac:(lia) H) as A. pose proof (pow_le_exp 4 x ltac:(lia) H) as B. pose proof (pow_le_exp 6 x ltac:(lia) H) as C.
  cbn [pow INR] in A, B, C. replace (1 + 1) with 2 in * by ring. replace (2 + 1 + 1) with 4 in * by ring. replace (4 + 1 + 1) with 6 in * by ring. splits; lra.
Qed.
Definition q1 (x : R) : R := 3 / 20 * (x * x) - 6 / 5 * x + 14 / 5.
Definition q2 (x : R) : R := 3 / 4 + 1 / 8 * (x * x) - 1 / 30 * (x * x * x) + 1 / 480 * (x * x * x * x).
Lemma density_scaled T x : 0 < T -> density_1M (T * x) (T * x * (T * x)) T = T * T * (q1 x * (x * x * exp (- x))) /\
  density_2M (T * x) (T * x * (T * x)) T = T * T * (q2 x * (x * x * exp (- x))).
Proof.
  intros T0. unfold density_1M, density_2M, q1, q2. replace (- (T * x) / T) with (- x) by (field; lra). split; field; lra.
Qed.
Lemma q1_pos x : 0 < q1 x.
Proof. unfold q1. replace (3 / 20 * (x * x) - 6 / 5 * x + 14 / 5) with (3 / 20 * ((x - 4) * (x - 4)) + 2 / 5) by field. pose proof (Rle_0_sqr (x - 4)) as Q. unfold Rsqr in Q. lra. Qed.
Lemma q2_pos x : 0 <= x -> 0 < q2 x.
Proof.
  intros X. unfold q2. replace (3 / 4 + 1 / 8 * (x * x) - 1 / 30 * (x * x * x) + 1 / 480 * (x * x * x * x)) with
    (1 / 480 * ((x * x - 8 * x - 6) * (x * x - 8 * x - 6) + 8 * ((x - 6) * (x - 6)) + 36)) by field.
  pose proof (Rle_0_sqr (x - 6)) as Q. pose proof (Rle_0_sqr (x * x - 8 * x - 6)) as Q'. unfold Rsqr in Q, Q'. lra.
Qed.
Lemma envelope_holds x : 0 <= x -> q1 x * (x * x * exp (- x)) <= 16 * (q1 3 * (3 * 3 * exp (Ropp 3))) /\
  q2 x * (x * x * exp (- x)) <= 16 * (q2 3 * (3 * 3 * exp (Ropp 3))).
Proof.
  intros H. destruct (powers x H) as (A & B & C). pose proof (exp_pos (- x)) as EP.
  destruct e_bounds as (E1 & E2). set (e := exp 1) in *.
  pose proof (exp_neg_nat 2) as X2. pose proof (exp_neg_nat 3) as X3. pose proof (exp_neg_nat 4) as X4. pose proof (exp_neg_nat 6) as X6.
  fold e in X2, X3, X4, X6. cbn [pow INR] in X2, X3, X4, X6. replace (1 + 1) with 2 in * by ring. replace (2 + 1) with 3 in * by ring. replace (3 + 1) with 4 in * by ring. replace (4 + 1 + 1) with 6 in * by ring.
  set (e3 := exp (Ropp 3)) in *. assert (P3 : 0 < e3) by apply exp_pos.
  replace (e * (e * 1)) with (e * e) in X2 by ring. replace (e * (e * (e * 1))) with (e * e * e) in X3 by ring.
  replace (e * (e * (e * (e * 1)))) with (e * (e * e * e)) in X4 by ring. replace (e * (e * (e * (e * (e * (e * 1)))))) with (e * (e * e) * (e * e * e)) in X6 by ring.
  assert (E3 : e * e * e <> 0) by (apply Rgt_not_eq; repeat apply Rmult_lt_0_compat; lra).
  assert (R2 : exp (Ropp 2) = e3 * e).
  { apply (Rmult_eq_reg_r (e * e)); [|nra]. rewrite X2. replace (e3 * e * (e * e)) with (e3 * (e * e * e)) by ring. auto. }
  assert (R4 : exp (Ropp 4) * e = e3).
  { apply (Rmult_eq_reg_r (e * e * e)); auto. rewrite X3, Rmult_assoc. auto. }
  assert (R6 : exp (Ropp 6) * (e * (e * e)) = e3).
  { apply (Rmult_eq_reg_r (e * e * e)); auto. rewrite X3, Rmult_assoc. auto. }
  assert (S4 : exp (Ropp 4) <= e3 / 2) by (pose proof (exp_pos (Ropp 4)); nra).
  assert (S6 : exp (Ropp 6) <= e3 / 8). { pose proof (exp_pos (Ropp 6)). assert (8 <= e * (e * e)) by (assert (4 <= e * e) by nra; nra). nra. }
  assert (S2 : exp (Ropp 2) <= 3 * e3) by (rewrite R2; nra).
  set (g := exp (- x)) in *.
  assert (G2 : 0 <= x * x * g) by (apply Rmult_le_pos; nra). assert (G4 : 0 <= x * x * x * x * g) by (apply Rmult_le_pos; [|lra]; assert (0 <= x * x) by nra; nra).
  split.
  - apply Rle_trans with (3 / 20 * (x * x * x * x * g) + 14 / 5 * (x * x * g)).
    + unfold q1. assert (0 <= x * (x * x * g)) by (apply Rmult_le_pos; auto). nra.
    + unfold q1. lra.
  - apply Rle_trans with (3 / 4 * (x * x * g) + 1 / 8 * (x * x * x * x * g) + 1 / 480 * (x * x * x * x * x * x * g)).
    + unfold q2. assert (0 <= x * (x * x * x * x * g)) by (apply Rmult_le_pos; auto). nra.
    + unfold q2. lra.
Qed.
(** The envelope of the samplers for the expanding metric holds for massless particles, so that a round keeps a momentum of
    at most X with a probability proportional to the integral of the density. *)
Theorem IC_sampler dens T X kr : dens = density_1M \/ dens = density_2M -> 0 < T -> 0 <= X <= 50 * T ->
  exists k M, 0 < k /\ integral (fun p => dens p (p * p) T) 0 X M /\
    prob2 (fun v u => at_most (round_IC dens T 0 kr u v) X) (M * k).
Proof.
  intros DE T0 HX. set (f := fun p => dens p (p * p) T). set (C := envelope dens T 0 kr).
  assert (CE : C = 16 * f (3 * T)). { unfold C, envelope, energy_average, f. destruct (Rlt_dec 0 0); [lra|]. do 2 f_equal. ring. }
  assert (FX : forall p, 0 <= p -> 0 <= f p <= C /\ 0 < C).
  { intros p Hp. rewrite CE. unfold f. replace p with (T * (p / T)) by (field; lra). replace (3 * T) with (T * 3) by ring.
    assert (PT : 0 <= p / T) by (apply Rmult_le_pos; [auto|apply Rlt_le, Rinv_0_lt_compat; auto]). set (x := p / T) in *.
    destruct (density_scaled T x T0) as (A1 & A2), (density_scaled T 3 T0) as (B1 & B2). destruct (envelope_holds x PT) as (V1 & V2).
    assert (TT : 0 < T * T) by nra. pose proof (exp_pos (- x)) as EX. pose proof (exp_pos (Ropp 3)) as E3.
    assert (Q1 : 0 <= x * x * exp (- x)) by (apply Rmult_le_pos; nra).
    destruct DE as [->| ->]; [rewrite A1, B1|rewrite A2, B2].
    - pose proof (q1_pos x). assert (0 <= q1 x * (x * x * exp (- x))) by (apply Rmult_le_pos; lra).
      assert (0 < q1 3 * (3 * 3 * exp (Ropp 3))) by (pose proof (q1_pos 3); apply Rmult_lt_0_compat; lra). pose proof (Rmult_le_compat_l (T * T) _ _ (Rlt_le _ _ TT) V1).
      assert (0 < T * T * (q1 3 * (3 * 3 * exp (Ropp 3)))) by (apply Rmult_lt_0_compat; auto). splits; [apply Rmult_le_pos; lra|lra|lra].
    - pose proof (q2_pos x PT). assert (0 <= q2 x * (x * x * exp (- x))) by (apply Rmult_le_pos; lra).
      assert (0 < q2 3 * (3 * 3 * exp (Ropp 3))) by (pose proof (q2_pos 3 ltac:(lra)); apply Rmult_lt_0_compat; lra). pose proof (Rmult_le_compat_l (T * T) _ _ (Rlt_le _ _ TT) V2).
      assert (0 < T * T * (q2 3 * (3 * 3 * exp (Ropp 3)))) by (apply Rmult_lt_0_compat; auto). splits; [apply Rmult_le_pos; lra|lra|lra]. }
  assert (CF : forall x, continuity_pt f x).
  { intros x. unfold f. assert (CS : continuity_pt (fun p => p * p) x) by (apply cont_mult; apply cont_id).
    assert (CE' : continuity_pt (fun p => exp (- p / T)) x) by (apply cont_exp, cont_div, cont_opp, cont_id).
    destruct DE as [->| ->]; unfold density_1M, density_2M.
    - apply cont_mult; [apply cont_mult; [|exact CE']|exact CS]. apply cont_plus; [|apply cont_c].
      apply cont_minus; (apply cont_mult; [apply cont_c|]); apply cont_div; [exact CS|apply cont_id].
    - apply cont_mult; [apply cont_mult; [|exact CE']|exact CS]. apply cont_plus; [apply cont_minus; [apply cont_plus; [apply cont_c|]|]|];
      (apply cont_mult; [apply cont_c|]); apply cont_div; [exact CS|apply cont_mult; [exact CS|apply cont_id]|apply cont_mult; exact CS]. }
  destruct (primitive_exists f 0 X) as (G & DG & GZ); [lra|auto|].
  assert (I : integral f 0 X (- G X - - G 0)).
  { apply (integral_antiderivative f (fun x => - G x)); auto; [lra|]. intros x Hx. replace (f x) with (- - f x) by ring. apply derivable_pt_lim_opp, DG; auto. }
  destruct (FX 0 (Rle_refl 0)) as (_ & C0).
  exists (/ (C * (50 * T - 0))), (- G X - - G 0). splits; auto.
  - apply Rinv_0_lt_compat. nra.
  - pose proof (rejection f C 0 (50 * T) X (- G X - - G 0) ltac:(lra) HX C0) as RJ.
    apply prob2_ext with (2 := RJ ltac:(intros x Hx; apply FX; lra) ltac:(auto) I).
    intros v u Hv Hu. unfold round_IC. fold C. set (y := 0 + (50 * T - 0) * u). assert (Y0 : 0 <= y) by (unfold y; nra).
    replace ((y - 0) * (y + 0)) with (y * y) by ring. fold (f y). rewrite (sqrt_square y) by auto.
    destruct (Rlt_dec (f y) (C * v)) as [N|N]; cbn; tauto.
Qed.
Print Assumptions IC_sampler.
(** For massive particles the envelope of the first of these distributions can be negative (whatever the ratio of the Bessel
    functions, if only the average energy exceeds the mass) while the density is positive elsewhere: with mass 5T it is not
    an upper bound. *)
Theorem massive_envelope_refuted T kr : 0 < T -> 5 * T < 3 * T + 5 * T * kr -> kr < 1 ->
  envelope density_1M T (5 * T) kr < 0 /\ 0 < density_1M (20 * T) ((20 * T - 5 * T) * (20 * T + 5 * T)) T.
Proof.
  intros T0 K K1. assert (TT : 0 < T * T) by nra. split.
  - unfold envelope, energy_average. destruct (Rlt_dec 0 (5 * T)); [|lra]. set (x := 3 + 5 * kr).
    replace (3 * T + 5 * T * kr) with (T * x) by (unfold x; ring). unfold density_1M.
    replace (((T * x - 5 * T) * (T * x + 5 * T)) / (T * T)) with (x * x - 25) by (field; lra). replace (T * x / T) with x by (field; lra).
    assert (X : 5 < x < 8) by (unfold x; split; [apply (Rmult_lt_reg_l T); lra|lra]).
    assert (Q : 3 / 20 * (x * x - 25) - 6 / 5 * x + 14 / 5 < 0) by nra.
    assert (P : 0 < (T * x - 5 * T) * (T * x + 5 * T)) by (apply Rmult_lt_0_compat; nra).
    pose proof (exp_pos (- (T * x) / T)) as E.
    set (q := 3 / 20 * (x * x - 25) - 6 / 5 * x + 14 / 5) in *. set (w := exp (- (T * x) / T)) in *. set (p := (T * x - 5 * T) * (T * x + 5 * T)) in *.
    assert (0 < - q * w * p) by (apply Rmult_lt_0_compat; auto; apply Rmult_lt_0_compat; lra). lra.
  - unfold density_1M. replace ((20 * T - 5 * T) * (20 * T + 5 * T) / (T * T)) with 375 by (field; lra). replace (20 * T / T) with 20 by (field; lra).
    apply Rmult_lt_0_compat; [apply Rmult_lt_0_compat; [lra|apply exp_pos]|nra].
Qed.
Print Assumptions massive_envelope_refuted.
Example massive_envelope_ex : 5 * 1 < 3 * 1 + 5 * 1 * (3 / 4) /\ 3 / 4 < 1. Proof. lra. Qed.

(** ** Quantum statistics *)
(** The Bose, Boltzmann and Fermi distributions of the occupation number, and their bounds. *)
Theorem occupation p m T mu stat : 0 < T -> let E := sqrt (p * p + m * m) in 0 < exp ((E - mu) / T) + stat ->
  juttner p m T mu stat = 1 / (exp ((E - mu) / T) + stat) /\ 0 < juttner p m T mu stat /\
  (1 <= stat -> juttner p m T mu stat < 1) /\ (stat = 0 -> juttner p m T mu stat = exp (- (E - mu) / T)).
Proof.
  intros T0 E H. unfold juttner. fold E. replace (- (E - mu) / T) with (- ((E - mu) / T)) by (unfold Rdiv; ring). rewrite exp_Ropp.
  set (x := exp ((E - mu) / T)) in *. assert (X : 0 < x) by apply exp_pos.
  assert (D : / x / (1 + stat * / x) = 1 / (x + stat)) by (field; splits; try lra; replace (x + stat) with (x + stat) by ring; lra).
  rewrite D. splits; auto.
  - apply Rdiv_lt_0_compat; lra.
  - intros S1. apply (Rmult_lt_reg_r (x + stat)); auto. unfold Rdiv. rewrite Rmult_assoc, Rinv_l by lra. lra.
  - intros ->. field; lra.
Qed.
Print Assumptions occupation.
Example occupation_ex : 0 < exp ((sqrt (1 * 1 + 1 * 1) - 0) / 1) + 1. Proof. pose proof (exp_pos ((sqrt (1 * 1 + 1 * 1) - 0) / 1)). lra. Qed.
Definition energy (m p : R) : R := sqrt (p * p + m * m).
Definition recip (m T mu stat p : R) : R := (exp ((energy m p - mu) / T) + stat) * (1 / (p * p)).
Lemma energy_sq m p : energy m p * energy m p = p * p + m * m.
Proof. apply sqrt_sqrt, sq_nonneg. Qed.
Lemma energy_pos m p : 0 < p -> 0 < energy m p.
Proof. intros H. apply sqrt_lt_R0. nra. Qed.
Lemma energy_mono m p q : 0 <= p < q -> energy m p < energy m q.
Proof. intros H. apply sqrt_lt_1_alt. nra. Qed.
Lemma d_energy m p : 0 < p -> derivable_pt_lim (energy m) p (p / energy m p).
Proof.
  intros H. pose proof (energy_pos m p H) as E. eapply d_eq; [|apply (derivable_pt_lim_comp (fun p => p * p + m * m) sqrt)].
  3: { apply derivable_pt_lim_sqrt. nra. }
  2: { apply (d_sum (fun p => p * p) (fun _ => m * m)); [apply (d_times (fun p => p) (fun p => p)); apply d_id|apply d_const]. }
  cbv beta. fold (energy m p). field. lra.
Qed.
Lemma d_recip m T mu stat p : 0 < T -> 0 < p ->
  derivable_pt_lim (recip m T mu stat) p (- (exp ((energy m p - mu) / T) / (p * p * p)) * root_equation p m T mu stat).
Proof.
  intros T0 P. pose proof (energy_pos m p P) as E.
  eapply d_eq; [|apply (d_times (fun p => exp ((energy m p - mu) / T) + stat) (fun p => 1 / (p * p)))].
  - cbv beta. instantiate (1 := - ((1 * p + p * 1) / (p * p * (p * p)))). instantiate (1 := exp ((energy m p - mu) / T) * ((p / energy m p - 0) * / T + (energy m p - mu) * 0) + 0).
    unfold root_equation. fold (energy m p). replace (- (energy m p - mu) / T) with (- ((energy m p - mu) / T)) by (unfold Rdiv; ring). rewrite exp_Ropp.
    set (x := exp ((energy m p - mu) / T)). assert (0 < x) by apply exp_pos. field. splits; lra.
  - apply (d_sum (fun p => exp ((energy m p - mu) / T)) (fun _ => stat)); [|apply d_const].
    apply (derivable_pt_lim_comp (fun p => (energy m p - mu) / T) exp); [|apply derivable_pt_lim_exp].
    apply (d_times (fun p => energy m p - mu) (fun _ => / T)); [|apply d_const].
    apply (derivable_pt_lim_minus (energy m) (fct_cte mu)); [apply d_energy; auto|apply derivable_pt_lim_const].
  - eapply d_eq; [|apply (derivable_pt_lim_div (fct_cte 1) (fun p => p * p) p 0 (1 * p + p * 1))].
    + unfold fct_cte, Rsqr. field. lra.
    + apply derivable_pt_lim_const.
    + apply (d_times (fun p => p) (fun p => p)); apply d_id.
    + nra.
Qed.
(** if the function whose root is looked for changes sign from plus to minus there, the distribution is largest there *)
Lemma unimodal m T mu stat ps p : 0 < T -> 0 < ps -> 0 < p ->
  (forall c, 0 < c < ps -> 0 <= root_equation c m T mu stat) -> (forall c, ps < c -> root_equation c m T mu stat <= 0) ->
  recip m T mu stat ps <= recip m T mu stat p.
Proof.
  intros T0 P0 P HP HN. set (d := fun c => - (exp ((energy m c - mu) / T) / (c * c * c)) * root_equation c m T mu stat).
  assert (K : forall c, 0 < c -> 0 < exp ((energy m c - mu) / T) / (c * c * c)) by (intros c C; apply Rdiv_lt_0_compat; [apply exp_pos|repeat apply Rmult_lt_0_compat; auto]).
  destruct (Rtotal_order p ps) as [L|[->|L]]; [|lra|].
  - destruct (MVT_cor2 (recip m T mu stat) d p ps L) as (c & E & C); [intros; apply d_recip; lra|].
    assert (d c <= 0) by (unfold d; pose proof (K c ltac:(lra)); pose proof (HP c ltac:(lra)); nra). nra.
  - destruct (MVT_cor2 (recip m T mu stat) d ps p L) as (c & E & C); [intros; apply d_recip; lra|].
    assert (0 <= d c) by (unfold d; pose proof (K c ltac:(lra)); pose proof (HN c ltac:(lra)); nra). nra.
Qed.
(** p^2 / E grows with p *)
Lemma kinetic_mono m p q : 0 < p < q -> p * p / energy m p < q * q / energy m q.
Proof.
  intros H. pose proof (energy_pos m p ltac:(lra)) as A. pose proof (energy_pos m q ltac:(lra)) as B.
  pose proof (energy_sq m p) as EA. pose proof (energy_sq m q) as EB. pose proof (energy_mono m p q ltac:(lra)) as EM.
  replace (p * p / energy m p) with (energy m p - m * m / energy m p) by (field_simplify_eq; [nra|lra]).
  replace (q * q / energy m q) with (energy m q - m * m / energy m q) by (field_simplify_eq; [nra|lra]).
  assert (/ energy m q <= / energy m p) by (apply Rinv_le_contravar; lra). assert (0 <= m * m) by nra. unfold Rdiv. nra.
Qed.
Lemma fermi_signs m T mu stat ps c : 0 < T -> 0 <= stat -> root_equation ps m T mu stat = 0 -> 0 < ps -> 0 < c ->
  (c < ps -> 0 <= root_equation c m T mu stat) /\ (ps < c -> root_equation c m T mu stat <= 0).
Proof.
  intros T0 ST Z P C.
  assert (MO : forall a b, 0 < a < b -> root_equation b m T mu stat < root_equation a m T mu stat).
  { intros a b H. unfold root_equation. fold (energy m a) (energy m b). pose proof (kinetic_mono m a b H) as KM. pose proof (energy_mono m a b ltac:(lra)) as EM.
    pose proof (energy_pos m a ltac:(lra)) as EA. pose proof (energy_pos m b ltac:(lra)) as EB.
    replace (a * a / (T * energy m a)) with (a * a / energy m a / T) by (field; lra). replace (b * b / (T * energy m b)) with (b * b / energy m b / T) by (field; lra).
    assert (IT : 0 < / T) by (apply Rinv_0_lt_compat; auto).
    assert (exp (- (energy m b - mu) / T) <= exp (- (energy m a - mu) / T)) by (left; apply exp_increasing; unfold Rdiv; nra).
    assert (a * a / energy m a / T < b * b / energy m b / T) by (unfold Rdiv at 1 3; apply Rmult_lt_compat_r; auto). nra. }
  split; intros L; [pose proof (MO c ps ltac:(lra))|pose proof (MO ps c ltac:(lra))]; lra.
Qed.
(** exp is convex *)
Lemma exp_convex l y : 0 <= l <= 1 -> exp (l * y) <= l * exp y + (1 - l).
Proof.
  intros L. pose proof (exp_ineq1_le (y - l * y)) as A. pose proof (exp_ineq1_le (- (l * y))) as B. pose proof (exp_pos (l * y)) as P.
  assert (A' : exp (l * y) * (1 + (y - l * y)) <= exp y) by (replace (exp y) with (exp (l * y) * exp (y - l * y)) by (rewrite <- exp_plus; f_equal; ring); apply Rmult_le_compat_l; lra).
  assert (B' : exp (l * y) * (1 + - (l * y)) <= 1). { replace 1 with (exp (l * y) * exp (- (l * y))) at 2 by (rewrite <- exp_plus, Rplus_opp_r, exp_0; auto). apply Rmult_le_compat_l; lra. }
  set (x := exp (l * y)) in *. assert (l * (x * (1 + (y - l * y))) <= l * exp y) by (apply Rmult_le_compat_l; lra).
  assert ((1 - l) * (x * (1 + - (l * y))) <= (1 - l) * 1) by (apply Rmult_le_compat_l; lra). nra.
Qed.
Lemma bose_ratio k a b : 0 < k <= 1 -> 0 < a < b -> a * (1 - k * exp (- b)) <= b * (1 - k * exp (- a)).
Proof.
  intros K H. assert (L : 0 <= a / b <= 1). { split; [apply Rlt_le, Rdiv_lt_0_compat; lra|]. apply (Rmult_le_reg_r b); [lra|]. unfold Rdiv. rewrite Rmult_assoc, Rinv_l by lra. lra. }
  pose proof (exp_convex (a / b) (- b) L) as C. replace (a / b * - b) with (- a) in C by (field; lra).
  apply (Rmult_le_compat_l b) in C; [|lra]. replace (b * (a / b * exp (- b) + (1 - a / b))) with (a * exp (- b) + (b - a)) in C by (field; lra).
  set (x := exp (- a)) in *. set (y := exp (- b)) in *. assert (k * (b * x) <= k * (a * y + (b - a))) by (apply Rmult_le_compat_l; lra). nra.
Qed.
Lemma bose_signs m T mu ps c : 0 < T -> mu <= 0 -> root_equation ps m T mu (-1) = 0 -> 0 < ps -> 0 < c ->
  (c < ps -> 0 <= root_equation c m T mu (-1)) /\ (ps < c -> root_equation c m T mu (-1) <= 0).
Proof.
  intros T0 MU Z P C. assert (IT : 0 < / T) by (apply Rinv_0_lt_compat; auto).
  set (k := exp (mu / T)). assert (K : 0 < k <= 1).
  { split; [apply exp_pos|]. unfold k. rewrite <- exp_0. destruct (Req_dec (mu / T) 0) as [->|]; [lra|]. left. apply exp_increasing. assert (mu / T <= 0) by (unfold Rdiv; nra). lra. }
  set (y := fun p => energy m p / T). set (w := fun p => 1 - k * exp (- y p)).
  assert (Y0 : forall p, 0 < p -> 0 < y p) by (intros p Hp; apply Rdiv_lt_0_compat; [apply energy_pos; auto|auto]).
  assert (W0 : forall p, 0 < p -> 0 < w p).
  { intros p Hp. unfold w. assert (exp (- y p) < 1) by (rewrite <- exp_0; apply exp_increasing; pose proof (Y0 p Hp); lra). pose proof (exp_pos (- y p)). nra. }
  assert (RE : forall p, 0 < p -> root_equation p m T mu (-1) = 2 * w p - (p * p / (energy m p * energy m p)) * y p).
  { intros p Hp. unfold root_equation, w, k, y. fold (energy m p). rewrite <- exp_plus. replace (mu / T + - (energy m p / T)) with (- (energy m p - mu) / T) by (field; lra). pose proof (energy_pos m p Hp). field. lra. }
  assert (V : forall p, 0 < p -> 0 < p * p / (energy m p * energy m p)) by (intros p Hp; pose proof (energy_pos m p Hp); apply Rdiv_lt_0_compat; nra).
  assert (KEY : forall a b, 0 < a < b -> (a * a / (energy m a * energy m a)) * y a * w b <= (b * b / (energy m b * energy m b)) * y b * w a).
  { intros a b H. pose proof (energy_pos m a ltac:(lra)) as EA. pose proof (energy_pos m b ltac:(lra)) as EB. pose proof (energy_sq m a) as SA. pose proof (energy_sq m b) as SB.
    pose proof (energy_mono m a b ltac:(lra)) as EM. pose proof (V a ltac:(lra)) as VA. pose proof (Y0 a ltac:(lra)) as YA. pose proof (Y0 b ltac:(lra)) as YB. pose proof (W0 a ltac:(lra)) as WA. pose proof (W0 b ltac:(lra)) as WB.
    assert (Q : a * a / (energy m a * energy m a) <= b * b / (energy m b * energy m b)).
    { replace (a * a / (energy m a * energy m a)) with (1 - m * m * / (energy m a * energy m a)) by (field_simplify_eq; [nra|lra]).
      replace (b * b / (energy m b * energy m b)) with (1 - m * m * / (energy m b * energy m b)) by (field_simplify_eq; [nra|lra]).
      assert (/ (energy m b * energy m b) <= / (energy m a * energy m a)) by (apply Rinv_le_contravar; nra). assert (0 <= m * m) by nra. nra. }
    assert (B : y a * w b <= y b * w a). { destruct (Req_dec (y a) (y b)) as [E|N]; [unfold w; rewrite E; lra|]. apply bose_ratio; auto. split; [auto|]. assert (y a <= y b) by (unfold y, Rdiv; apply Rmult_le_compat_r; lra). lra. }
    rewrite !Rmult_assoc. apply Rmult_le_compat; try lra. apply Rmult_le_pos; lra. }
  rewrite (RE ps P) in Z. rewrite (RE c C). pose proof (W0 ps P) as WP. pose proof (W0 c C) as WC.
  split; intros L; [pose proof (KEY c ps ltac:(lra)) as Q|pose proof (KEY ps c ltac:(lra)) as Q].
  - apply (Rmult_le_reg_r (w ps)); auto. nra.
  - apply (Rmult_le_reg_r (w ps)); auto. nra.
Qed.

(** *** The quantum distributions *)
(** Fermi or Boltzmann statistics; or Bose statistics with a chemical potential that is not positive (and that is not the
    energy of a massless particle at rest) *)
Definition statistics_ok (m mu stat : R) : Prop := 0 <= stat \/ (stat = -1 /\ mu <= 0 /\ (0 < m \/ mu < 0)).
Lemma denominator_pos m T mu stat p : 0 < T -> 0 <= m -> 0 <= p -> statistics_ok m mu stat -> 0 < exp ((energy m p - mu) / T) + stat.
Proof.
  intros T0 M P [ST|(-> & MU & L)]; [pose proof (exp_pos ((energy m p - mu) / T)); lra|].
  assert (0 < energy m p - mu).
  { destruct L as [L|L]; [|pose proof (sqrt_pos (p * p + m * m)); unfold energy; lra]. assert (0 < energy m p) by (apply sqrt_lt_R0; nra). lra. }
  assert (0 < (energy m p - mu) / T) by (apply Rdiv_lt_0_compat; auto). pose proof (exp_ineq1_le ((energy m p - mu) / T)). lra.
Qed.
(** The momentum that solves the equation used by the code is the one at which p^2 f(p) is largest. *)
Theorem quantum_maximum m T mu stat ps : 0 < T -> 0 <= m -> statistics_ok m mu stat -> 0 < ps -> root_equation ps m T mu stat = 0 ->
  forall p, 0 <= p -> p * p * juttner p m T mu stat <= ps * ps * juttner ps m T mu stat.
Proof.
  intros T0 M OK P0 Z p P.
  destruct (occupation ps m T mu stat T0 (denominator_pos m T mu stat ps T0 M ltac:(lra) OK)) as (JS & JS0 & _).
  destruct (Req_dec p 0) as [->|NZ]; [assert (0 <= ps * ps * juttner ps m T mu stat) by (apply Rmult_le_pos; nra); nra|].
  assert (PP : 0 < p) by lra.
  destruct (occupation p m T mu stat T0 (denominator_pos m T mu stat p T0 M P OK)) as (JP & _ & _).
  pose proof (denominator_pos m T mu stat ps T0 M ltac:(lra) OK) as DS. pose proof (denominator_pos m T mu stat p T0 M P OK) as DP.
  assert (U : recip m T mu stat ps <= recip m T mu stat p).
  { apply unimodal; auto; intros c C; destruct OK as [ST|(-> & MU & _)];
    first [apply (fermi_signs m T mu stat ps c); auto; lra|apply (bose_signs m T mu ps c); auto; lra]. }
  rewrite JS, JP. fold (energy m ps) (energy m p). unfold recip in U.
  set (xs := exp ((energy m ps - mu) / T) + stat) in *. set (x := exp ((energy m p - mu) / T) + stat) in *.
  replace (p * p * (1 / x)) with (/ (x * (1 / (p * p)))) by (field; lra). replace (ps * ps * (1 / xs)) with (/ (xs * (1 / (ps * ps)))) by (field; lra).
  apply Rinv_le_contravar; auto. apply Rmult_lt_0_compat; auto. apply Rdiv_lt_0_compat; [lra|]. nra.
Qed.
Print Assumptions quantum_maximum.
Lemma energy_cont m x : continuity_pt (energy m) x.
Proof. unfold energy. apply (cont_sqrt (fun p => p * p + m * m)); [apply cont_plus; [apply cont_mult; apply cont_id|apply cont_c]|nra]. Qed.
(** Such a momentum exists. *)
Theorem maximum_exists m T mu stat : 0 < T -> 0 < m -> statistics_ok m mu stat -> exists ps, 0 < ps /\ root_equation ps m T mu stat = 0.
Proof.
  intros T0 M OK. set (g := fun p => p * p / (T * energy m p) - 2 * (1 + stat * exp (- (energy m p - mu) / T))).
  assert (E0 : forall p, 0 < energy m p) by (intros p; apply sqrt_lt_R0; nra).
  assert (GC : continuity g).
  { intros x. unfold g. apply cont_minus.
    - apply cont_mult; [apply cont_mult; apply cont_id|]. apply cont_inv; [apply cont_mult; [apply cont_c|apply energy_cont]|]. pose proof (E0 x). nra.
    - apply cont_mult; [apply cont_c|]. apply cont_plus; [apply cont_c|]. apply cont_mult; [apply cont_c|]. apply cont_exp, cont_div, cont_opp, cont_minus; [apply energy_cont|apply cont_c]. }
  set (k := 2 * (1 + Rabs stat * exp (mu / T))). assert (K : 2 <= k) by (unfold k; pose proof (Rabs_pos stat); pose proof (exp_pos (mu / T)); nra).
  set (b := m + 2 * T * k). assert (B : 0 < b) by (unfold b; nra).
  destruct (IVT g 0 b GC B) as (z & Hz & Z).
  - unfold g. replace (0 * 0 / (T * energy m 0)) with 0 by (unfold Rdiv; ring).
    pose proof (denominator_pos m T mu stat 0 T0 ltac:(lra) ltac:(lra) OK) as D.
    replace (- (energy m 0 - mu) / T) with (- ((energy m 0 - mu) / T)) by (unfold Rdiv; ring). rewrite exp_Ropp.
    set (x := exp ((energy m 0 - mu) / T)) in *. assert (X : 0 < x) by apply exp_pos.
    assert (0 < 1 + stat * / x); [|lra]. replace (1 + stat * / x) with ((x + stat) / x) by (field; lra). apply Rdiv_lt_0_compat; auto.
  - unfold g. assert (EB : energy m b < 2 * b). { unfold energy. rewrite <- (sqrt_square (2 * b)) by lra. apply sqrt_lt_1_alt. assert (m <= b) by (unfold b; nra). nra. }
    pose proof (E0 b) as EP.
    assert (L : k < b * b / (T * energy m b)).
    { apply (Rmult_lt_reg_r (T * energy m b)); [nra|]. unfold Rdiv. rewrite Rmult_assoc, Rinv_l by nra. assert (k * (T * energy m b) < k * (T * (2 * b))) by (apply Rmult_lt_compat_l; [lra|apply Rmult_lt_compat_l; auto]).
      assert (2 * T * k < b) by (unfold b; lra). nra. }
    assert (U : 2 * (1 + stat * exp (- (energy m b - mu) / T)) <= k); [|lra].
    unfold k. assert (exp (- (energy m b - mu) / T) <= exp (mu / T)).
    { left. apply exp_increasing. unfold Rdiv. apply Rmult_lt_compat_r; [apply Rinv_0_lt_compat; auto|lra]. }
    pose proof (exp_pos (- (energy m b - mu) / T)). pose proof (Rle_abs stat). pose proof (Rabs_pos stat).
    assert (stat * exp (- (energy m b - mu) / T) <= Rabs stat * exp (mu / T)); [|lra].
    apply Rle_trans with (Rabs stat * exp (- (energy m b - mu) / T)); [apply Rmult_le_compat_r; lra|apply Rmult_le_compat_l; lra].
  - exists z. assert (z <> 0).
    { intros ->. assert (g 0 < 0); [|lra]. unfold g. replace (0 * 0 / (T * energy m 0)) with 0 by (unfold Rdiv; ring).
      pose proof (denominator_pos m T mu stat 0 T0 ltac:(lra) ltac:(lra) OK) as D.
      replace (- (energy m 0 - mu) / T) with (- ((energy m 0 - mu) / T)) by (unfold Rdiv; ring). rewrite exp_Ropp.
      set (x := exp ((energy m 0 - mu) / T)) in *. assert (X : 0 < x) by apply exp_pos.
      assert (0 < 1 + stat * / x); [|lra]. replace (1 + stat * / x) with ((x + stat) / x) by (field; lra). apply Rdiv_lt_0_compat; auto. }
    split; [lra|]. unfold root_equation. fold (energy m z). unfold g in Z. lra.
Qed.
Print Assumptions maximum_exists.
(** With the maximum taken at that momentum, a round keeps a momentum of at most X with a probability proportional to the
    integral of p^2 f(p). *)
Theorem quantum_sampler m T mu stat ps X : 0 < T -> 0 <= m -> statistics_ok m mu stat -> 0 < ps -> root_equation ps m T mu stat = 0 ->
  0 <= X <= 10 -> let top := ps * ps * juttner ps m T mu stat in
  exists k M, 0 < k /\ integral (fun p => p * p * juttner p m T mu stat) 0 X M /\
    prob2 (fun v u => at_most (round_quantum m T mu stat top u v) X) (M * k).
Proof.
  intros T0 M OK P0 Z HX top. set (f := fun p => p * p * juttner p m T mu stat).
  assert (C0 : 0 < top). { destruct (occupation ps m T mu stat T0 (denominator_pos m T mu stat ps T0 M ltac:(lra) OK)) as (_ & J & _). unfold top. apply Rmult_lt_0_compat; auto. nra. }
  assert (FX : forall p, 0 <= p -> 0 <= f p <= top).
  { intros p Hp. split; [|apply quantum_maximum; auto]. destruct (occupation p m T mu stat T0 (denominator_pos m T mu stat p T0 M Hp OK)) as (_ & J & _). apply Rmult_le_pos; nra. }
  assert (CF : forall x, 0 <= x -> continuity_pt f x).
  { intros x Hx. unfold f. apply cont_mult; [apply cont_mult; apply cont_id|]. unfold juttner.
    assert (CB : continuity_pt (fun p => exp (- (sqrt (p * p + m * m) - mu) / T)) x) by (apply cont_exp, cont_div, cont_opp, cont_minus; [apply (energy_cont m x)|apply cont_c]).
    apply cont_mult; [exact CB|]. apply cont_inv; [apply cont_plus; [apply cont_c|apply cont_mult; [apply cont_c|exact CB]]|].
    pose proof (denominator_pos m T mu stat x T0 M Hx OK) as D. unfold energy in D.
    replace (- (sqrt (x * x + m * m) - mu) / T) with (- ((sqrt (x * x + m * m) - mu) / T)) by (unfold Rdiv; ring). rewrite exp_Ropp.
    set (y := exp ((sqrt (x * x + m * m) - mu) / T)) in *. assert (Y : 0 < y) by apply exp_pos.
    replace (1 + stat * / y) with ((y + stat) / y) by (field; lra). apply Rgt_not_eq. apply Rdiv_lt_0_compat; auto. }
  destruct (primitive_exists f 0 X) as (G & DG & GZ); [lra|intros; apply CF; lra|].
  assert (I : integral f 0 X (- G X - - G 0)).
  { apply (integral_antiderivative f (fun x => - G x)); [lra| |intros; apply CF; lra]. intros x Hx. replace (f x) with (- - f x) by ring. apply derivable_pt_lim_opp, DG; auto. }
  exists (/ (top * (10 - 0))), (- G X - - G 0). splits; auto.
  - apply Rinv_0_lt_compat. lra.
  - pose proof (rejection f top 0 10 X (- G X - - G 0) ltac:(lra) HX C0) as RJ.
    apply prob2_ext with (2 := RJ ltac:(intros x Hx; apply FX; lra) ltac:(intros; apply CF; lra) I).
    intros v u Hv Hu. unfold round_quantum. replace (0 + (10 - 0) * u) with (10 * u) by ring. fold (f (10 * u)).
    assert (EQ : f (10 * u) / top < v <-> f (10 * u) < top * v).
    { split; intros L; [apply (Rmult_lt_compat_r top) in L; auto; unfold Rdiv in L; rewrite Rmult_assoc, Rinv_l in L by lra; lra|].
      apply (Rmult_lt_reg_r top); auto. unfold Rdiv. rewrite Rmult_assoc, Rinv_l by lra. lra. }
    destruct (Rlt_dec (f (10 * u) / top) v) as [N|N]; cbn; tauto.
Qed.
Print Assumptions quantum_sampler.
(** a nucleon of Fermi statistics at a temperature and chemical potential of 0.1 and 0.5, and a pion *)
Example quantum_ex : (exists ps, 0 < ps /\ root_equation ps (938 / 1000) (1 / 10) (5 / 10) 1 = 0) /\
  (exists ps, 0 < ps /\ root_equation ps (138 / 1000) (1 / 10) 0 (-1) = 0).
Proof. split; (apply maximum_exists; [lra|lra|]); [left; lra|right; split; [reflexivity|split; [lra|left; lra]]]. Qed.

(** *** Line shapes *)
(** The relativistic line shape is nowhere negative and is largest at the pole, where it is 2 / (pi * width). *)
Theorem breit_wigner_shape m pole width : 0 < pole -> 0 < width -> 0 < m ->
  0 < breit_wigner m pole width <= breit_wigner pole pole width /\ breit_wigner pole pole width = 2 / (PI * width) /\
  (breit_wigner m pole width = breit_wigner pole pole width -> m = pole).
Proof.
  intros P W M. pose proof PI_RGT_0 as PI0.
  assert (E : breit_wigner pole pole width = 2 / (PI * width)) .
  { unfold breit_wigner. cbv zeta. replace (pole * pole - pole * pole) with 0 by ring. field. split; lra. }
  set (d := (m * m - pole * pole) * (m * m - pole * pole)). assert (D : 0 <= d) by apply Rle_0_sqr.
  assert (MW : 0 < m * m * width * width) by (repeat apply Rmult_lt_0_compat; auto).
  assert (X : breit_wigner m pole width * (PI * width) * (d + m * m * width * width) = 2 * (m * m * width * width)).
  { unfold breit_wigner. cbv zeta. fold d. field. split; lra. }
  assert (B0 : 0 < breit_wigner m pole width). { unfold breit_wigner. cbv zeta. fold d. apply Rdiv_lt_0_compat; [repeat apply Rmult_lt_0_compat; lra|apply Rmult_lt_0_compat; lra]. }
  set (b := breit_wigner m pole width) in *. assert (PW : 0 < PI * width) by (apply Rmult_lt_0_compat; auto).
  set (z := b * (PI * width)) in *. assert (Z0 : 0 < z) by (unfold z; apply Rmult_lt_0_compat; auto).
  assert (ZL : z <= 2) by nra. rewrite E. splits; auto.
  - apply (Rmult_le_reg_r (PI * width)); auto. unfold Rdiv. rewrite Rmult_assoc, Rinv_l by lra. fold z. lra.
  - intros Q. assert (z = 2) by (unfold z; rewrite Q; field; lra). assert (d = 0) by nra.
    assert (m * m - pole * pole = 0) by (unfold d in *; nra). nra.
Qed.
Print Assumptions breit_wigner_shape.
Lemma d_atan_lin w x0 x : 0 < w -> derivable_pt_lim (fun y => atan ((y - x0) / w)) x (w / ((x - x0) * (x - x0) + w * w)).
Proof.
  intros W. eapply d_eq; [|apply (derivable_pt_lim_comp (fun y => (y - x0) / w) atan)].
  3: { apply derivable_pt_lim_atan. }
  2: { apply (d_times (fun y => y - x0) (fun _ => / w)); [|apply d_const]. unfold Rminus. apply (d_sum (fun y => y) (fun _ => - x0)); [apply d_id|apply d_const]. }
  cbv beta. assert (0 <= (x - x0) * (x - x0)) by apply Rle_0_sqr. assert (0 < w * w) by nra. unfold Rsqr. field. repeat split; try lra; rewrite ?Rmult_1_r; apply Rgt_not_eq; nra.
Qed.
(** The Cauchy line shape between two values has the integral that its arctangents give; all of it together is one. *)
Theorem cauchy_integral x0 w a b : 0 < w -> a <= b ->
  integral (fun x => cauchy x x0 w) a b ((atan ((b - x0) / w) - atan ((a - x0) / w)) / PI) /\
  (atan ((b - x0) / w) - atan ((a - x0) / w)) / PI < 1 /\
  integral (fun x => cauchy x x0 w) (x0 - w) (x0 + w) (1 / 2).
Proof.
  intros W AB. pose proof PI_RGT_0 as PI0.
  assert (CO : forall x, continuity_pt (fun x => cauchy x x0 w) x).
  { intros x. unfold cauchy. apply cont_mult; [apply cont_c|]. apply cont_inv.
    - apply cont_mult; [apply cont_c|]. apply cont_plus; [|apply cont_c]. apply cont_mult; apply cont_minus; try apply cont_id; apply cont_c.
    - apply Rgt_not_eq, Rmult_lt_0_compat; auto. pose proof (Rle_0_sqr (x - x0)) as SQ. unfold Rsqr in SQ. assert (0 < w * w) by (apply Rmult_lt_0_compat; auto). lra. }
  assert (G : forall a b, a <= b -> integral (fun x => cauchy x x0 w) a b ((atan ((b - x0) / w) - atan ((a - x0) / w)) / PI)).
  { intros a' b' AB'. apply integral_eq with (atan ((b' - x0) / w) * / PI - atan ((a' - x0) / w) * / PI); [field; lra|].
    apply (integral_antiderivative (fun x => cauchy x x0 w) (fun x => atan ((x - x0) / w) * / PI)); auto.
    intros x _. eapply d_eq; [|apply (d_times (fun x => atan ((x - x0) / w)) (fun _ => / PI)); [apply d_atan_lin; auto|apply d_const]].
    unfold cauchy. assert (0 < w * w) by nra. assert (0 <= (x - x0) * (x - x0)) by apply Rle_0_sqr. field. split; lra. }
  splits; auto.
  - pose proof (atan_bound ((b - x0) / w)). pose proof (atan_bound ((a - x0) / w)). apply (Rmult_lt_reg_r PI); auto. unfold Rdiv at 1. rewrite Rmult_assoc, Rinv_l by lra. lra.
  - eapply integral_eq; [|apply G; lra]. replace ((x0 + w - x0) / w) with 1 by (field; lra). replace ((x0 - w - x0) / w) with (Ropp 1) by (field; lra). rewrite atan_opp, atan_1. field. lra.
Qed.
Print Assumptions cauchy_integral.
(** The width of the non-relativistic line shape is its full width at half maximum. *)
Theorem nonrelativistic_width m pole width : 0 < width ->
  breit_wigner_nonrel m pole width <= breit_wigner_nonrel pole pole width /\
  (breit_wigner_nonrel pole pole width / 2 <= breit_wigner_nonrel m pole width <-> Rabs (m - pole) <= width / 2).
Proof.
  intros W. pose proof PI_RGT_0 as PI0. unfold breit_wigner_nonrel, cauchy.
  set (d := m - pole). set (h := width / 2). assert (H : 0 < h) by (unfold h; lra).
  replace ((pole - pole) * (pole - pole) + h * h) with (h * h) by ring.
  assert (D : 0 <= d * d) by apply Rle_0_sqr. assert (HH : 0 < h * h) by (apply Rmult_lt_0_compat; auto).
  assert (X : forall a b, 0 < a -> 0 < b -> (h / (PI * a) <= h / (PI * b) <-> b <= a)).
  { intros a b A B. split; intros L.
    - apply (Rmult_le_compat_r (PI * a * b / h)) in L; [|apply Rlt_le, Rdiv_lt_0_compat; auto; apply Rmult_lt_0_compat; auto; apply Rmult_lt_0_compat; auto].
      replace (h / (PI * a) * (PI * a * b / h)) with b in L by (field; repeat split; lra). replace (h / (PI * b) * (PI * a * b / h)) with a in L by (field; repeat split; lra). auto.
    - unfold Rdiv. apply Rmult_le_compat_l; [lra|]. apply Rinv_le_contravar; [apply Rmult_lt_0_compat; auto|]. apply Rmult_le_compat_l; lra. }
  split; [apply X; lra|]. replace (h / (PI * (h * h)) / 2) with (h / (PI * (2 * (h * h)))) by (field; lra). rewrite X by lra.
  replace (d * d) with (Rabs d * Rabs d) by (rewrite <- Rabs_mult; apply Rabs_right; lra). pose proof (Rabs_pos d). split; intros L; nra.
Qed.
Print Assumptions nonrelativistic_width.
