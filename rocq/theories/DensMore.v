(** Densities: antimatter, rest-frame density, normalisation, lattice (C122). *)
From Coq Require Import ZArith Reals List Bool Lra Lia Psatz.
From Verif Require Import Base VecModel VecProps DensModel WoodsSaxon DistProps DensSpec DensProofs DensProps.
Import ListNotations.
Open Scope R_scope.

(** ** Antimatter *)
Lemma density_factor_anti t d : net_density d -> density_factor (anti t) d = - density_factor t d.
Proof.
  intros (H1 & H2). destruct d; cbn [density_factor anti hadron baryon nucleus pion baryon_number charge strangeness isospin3]; try easy; try now rewrite opp_IZR.
  - lra.
  - destruct (_ || _); [|lra]. unfold isospin3_rel. cbn [anti isospin isospin3]. destruct (_ =? _)%Z; [lra|]. rewrite opp_IZR. unfold Rdiv. ring.
  - destruct (hadron t); [now rewrite opp_IZR|lra].
Qed.
Lemma amount_anti par d p : net_density d -> amount par d (anti_particle p) = - amount par d p.
Proof.
  intros H. unfold amount. cbn [anti_particle d_type d_collisions]. change (mass (anti_particle p)) with (mass p).
  rewrite density_factor_anti, Rabs_Ropp by auto. destruct (_ && _); [lra|]. destruct (Rlt_dec _ _); [lra|]. destruct (Rlt_dec (mass p) _); lra.
Qed.
Lemma current_anti par d r p : net_density d -> particle_current par d r (anti_particle p) = opp4 (particle_current par d r p).
Proof.
  intros H. unfold particle_current. rewrite amount_anti by auto. change (profile par (anti_particle p) r) with (profile par p r). cbn [anti_particle d_mom]. unfold opp4. v4.
Qed.
Lemma sum4_opp f ps : sum4 (fun p => opp4 (f p)) ps = opp4 (sum4 f ps).
Proof. unfold opp4. now rewrite sum4_scale. Qed.
Lemma sum4_mapd (f : dpart -> vec4) (g : dpart -> dpart) ls : sum4 f (map g ls) = sum4 (fun p => f (g p)) ls.
Proof. induction ls as [|l ls IH]; cbn; auto. now rewrite IH. Qed.
(** Replacing every particle by its antiparticle changes the sign of every net density and current. *)
Theorem antimatter par d grad r ps : Forall physical ps -> 0 <= norm_factor_sf par -> net_density d ->
  exists c c', current_eckart r ps par d grad true = Ok c /\ current_eckart r (map anti_particle ps) par d grad true = Ok c' /\
    jmu c' = V4 (- y0 (jmu c)) (- y1 (jmu c)) (- y2 (jmu c)) (- y3 (jmu c)) /\ rho c' = - rho c.
Proof.
  intros P N ND. assert (P' : Forall physical (map anti_particle ps)) by (apply Forall_map; exact P).
  destruct (current_value par d grad r ps P N) as (c & C & J & RH). destruct (current_value par d grad r _ P' N) as (c' & C' & J' & RH').
  exists c, c'. splits; auto.
  - rewrite J', sum4_mapd. rewrite (sum4_ext _ (fun p => opp4 (particle_current par d r p))) by (intros; now apply current_anti). rewrite sum4_opp, <- J. unfold opp4. v4.
  - rewrite RH', RH, !sum4_mapd.
    rewrite (sum4_ext (fun p => positive_current par d r (anti_particle p)) (fun p => opp4 (negative_current par d r p))).
    rewrite (sum4_ext (fun p => negative_current par d r (anti_particle p)) (fun p => opp4 (positive_current par d r p))).
    + rewrite !sum4_opp, !length4_opp. ring.
    + intros p _. unfold positive_current, negative_current. rewrite amount_anti, current_anti by auto.
      destruct (Rlt_dec 0 (- amount par d p)) as [A|A], (Rlt_dec 0 (amount par d p)) as [B|B]; try (exfalso; lra); auto.
      * unfold opp4. now rewrite scale4_zero.
      * assert (E : amount par d p = 0) by lra. unfold particle_current. rewrite E. unfold opp4. rewrite !Rmult_0_r, !Rmult_0_l, !scale4_0, scale4_zero. reflexivity.
    + intros p _. unfold positive_current, negative_current. rewrite amount_anti, current_anti by auto.
      destruct (Rlt_dec 0 (- amount par d p)) as [A|A], (Rlt_dec 0 (amount par d p)) as [B|B]; try (exfalso; lra); auto.
      * unfold opp4. now rewrite scale4_zero.
      * assert (E : amount par d p = 0) by lra. unfold particle_current. rewrite E. unfold opp4. rewrite !Rmult_0_r, !Rmult_0_l, !scale4_0, scale4_zero. reflexivity.
Qed.
Print Assumptions antimatter.

(** ** Superposition: currents of two sets of particles add up; the order does not matter *)
Lemma sum4_app f a b : sum4 f (a ++ b) = add4 (sum4 f a) (sum4 f b).
Proof. induction a as [|p a IH]; cbn [app sum4]; [now rewrite add4_zero_l|]. rewrite IH. v4. Qed.
Theorem superposition par d r ps qs : Forall physical ps -> Forall physical qs -> j_at par d r (ps ++ qs) = add4 (j_at par d r ps) (j_at par d r qs).
Proof. intros P Q. rewrite !j_at_eq; auto; [|apply Forall_app; auto]. apply sum4_app. Qed.
Print Assumptions superposition.

(** ** The rest-frame density *)
Definition no_antimatter par d (ps : list dpart) : Prop := forall p, In p ps -> 0 <= amount par d p.
Lemma one_sign par d grad r ps c : Forall physical ps -> 0 <= norm_factor_sf par -> no_antimatter par d ps ->
  current_eckart r ps par d grad true = Ok c -> rho c = length4 (jmu c) /\ causal (jmu c).
Proof.
  intros P N A E. destruct (current_value par d grad r ps P N) as (c' & C & J & RH). rewrite C in E. injection E as <-.
  assert (PC : forall p, In p ps -> positive_current par d r p = particle_current par d r p).
  { intros p I. unfold positive_current. destruct (Rlt_dec _ _); auto. specialize (A p I). assert (E : amount par d p = 0) by lra. unfold particle_current. rewrite E. now rewrite Rmult_0_r, Rmult_0_l, scale4_0. }
  assert (NC : forall p, In p ps -> negative_current par d r p = zero4).
  { intros p I. unfold negative_current. destruct (Rlt_dec _ _); auto. specialize (A p I). assert (E : amount par d p = 0) by lra. unfold particle_current. rewrite E. now rewrite Rmult_0_r, Rmult_0_l, scale4_0. }
  rewrite (sum4_ext _ _ _ PC), (sum4_ext _ _ _ NC), <- J in RH.
  replace (sum4 (fun _ => zero4) ps) with zero4 in RH by (clear; induction ps as [|p ps IH]; cbn [sum4]; auto; rewrite <- IH; now rewrite add4_zero_l).
  replace (length4 zero4) with 0 in RH by (unfold length4, dot4, zero4; cbn; rewrite Rmult_0_l, !Rminus_0_r, sqrt_0; auto).
  split; [lra|]. rewrite J. apply causal_sum. intros p I. unfold particle_current. rewrite Forall_forall in P. apply causal_scale; [|apply causal_velocity; auto].
  apply Rmult_le_pos; [apply Rmult_le_pos; auto|apply profile_nonneg; auto].
Qed.
(** Without antimatter the density is the invariant length of the current; it lies between zero and the density in the
    calculation frame, and the two agree where nothing flows. *)
Theorem rest_density par d grad r ps c : Forall physical ps -> 0 <= norm_factor_sf par -> no_antimatter par d ps ->
  current_eckart r ps par d grad true = Ok c ->
  0 <= rho c /\ rho c * rho c = dot4 (jmu c) (jmu c) /\ rho c <= y0 (jmu c) /\
  (y1 (jmu c) = 0 -> y2 (jmu c) = 0 -> y3 (jmu c) = 0 -> rho c = y0 (jmu c)).
Proof.
  intros P N A E. destruct (one_sign par d grad r ps c P N A E) as (RH & C0 & C). rewrite RH. unfold length4.
  assert (S0 := sqrt_pos (dot4 (jmu c) (jmu c))). assert (S2 := sqrt_sqrt _ C). splits; auto.
  - apply Rsqr_incr_0_var; auto. unfold Rsqr. rewrite S2. unfold dot4. pose proof (Rle_0_sqr (y1 (jmu c))). pose proof (Rle_0_sqr (y2 (jmu c))). pose proof (Rle_0_sqr (y3 (jmu c))). unfold Rsqr in *. lra.
  - intros Z1 Z2 Z3. unfold dot4. rewrite Z1, Z2, Z3. rewrite !Rmult_0_l, !Rminus_0_r. now apply sqrt_square.
Qed.
Print Assumptions rest_density.

(** Derivative of the rest-frame density along any one-parameter family of points or times: if the components of the current have the
    derivatives [dj] and the density is the length of the current (up to a sign: only matter or only antimatter), then
    the derivative that is used is the derivative of the density. *)
Theorem rest_density_derivative_correct (J : R -> vec4) (r : R -> R) dj sg : sg = 1 \/ sg = -1 ->
  (forall c, component c -> derivable_pt_lim (fun h => c (J h)) 0 (c dj)) ->
  (forall h, r h = sg * length4 (J h)) -> 0 < dot4 (J 0) (J 0) -> very_small_double <= Rabs (r 0) ->
  derivable_pt_lim r 0 (rest_density_derivative (r 0) (J 0) dj).
Proof.
  intros SG D RL P B. unfold rest_density_derivative. cbv zeta. destruct (Rlt_dec (Rabs (r 0)) very_small_double); [exfalso; lra|].
  pose proof (D _ comp0) as D0. pose proof (D _ comp1) as D1. pose proof (D _ comp2) as D2. pose proof (D _ comp3) as D3.
  set (q := fun h => dot4 (J h) (J h)).
  assert (DQ : derivable_pt_lim q 0 (2 * (y0 (J 0) * y0 dj - y1 (J 0) * y1 dj - y2 (J 0) * y2 dj - y3 (J 0) * y3 dj))).
  { apply (deriv_ext (fun h => y0 (J h) * y0 (J h) - y1 (J h) * y1 (J h) - y2 (J h) * y2 (J h) - y3 (J h) * y3 (J h))); [reflexivity|].
    replace (2 * _) with ((y0 dj * y0 (J 0) + y0 (J 0) * y0 dj) - (y1 dj * y1 (J 0) + y1 (J 0) * y1 dj) - (y2 dj * y2 (J 0) + y2 (J 0) * y2 dj) - (y3 dj * y3 (J 0) + y3 (J 0) * y3 dj)) by ring.
    repeat apply (derivable_pt_lim_minus); [apply (derivable_pt_lim_mult _ _ 0 _ _ D0 D0)|apply (derivable_pt_lim_mult _ _ 0 _ _ D1 D1)|apply (derivable_pt_lim_mult _ _ 0 _ _ D2 D2)|apply (derivable_pt_lim_mult _ _ 0 _ _ D3 D3)]. }
  set (K := y0 (J 0) * y0 dj - y1 (J 0) * y1 dj - y2 (J 0) * y2 dj - y3 (J 0) * y3 dj) in *.
  apply (deriv_ext (fun h => sg * sqrt (q h))); [exact RL|].
  assert (SP : 0 < sqrt (q 0)) by (apply sqrt_lt_R0; exact P).
  assert (DS : derivable_pt_lim (fun h => sqrt (q h)) 0 (/ (2 * sqrt (q 0)) * (2 * K))) by (apply (derivable_pt_lim_comp q sqrt); [exact DQ|apply derivable_pt_lim_sqrt; exact P]).
  replace (1 / r 0 * K) with (0 * sqrt (q 0) + sg * (/ (2 * sqrt (q 0)) * (2 * K))).
  2:{ rewrite RL. change (length4 (J 0)) with (sqrt (q 0)). destruct SG as [-> | ->]; field; lra. }
  apply (derivable_pt_lim_mult (fun _ => sg) (fun h => sqrt (q h))); [apply derivable_pt_lim_const|exact DS].
Qed.
Print Assumptions rest_density_derivative_correct.
(** In a mixture of matter and antimatter the density is not the length of the net current, and the derivative that is used is
    another number: matter at rest, 3, and antimatter moving, -(5/4, 0, 0, 3/4) (length 1), so the density is 3 - 1 = 2.  If
    only the matter becomes denser, with derivative 1, the density has derivative 1; the code finds 7/8. *)
Theorem mixture_derivative_refuted :
  exists (P N : R -> vec4) dj, (forall c, component c -> derivable_pt_lim (fun h => c (add4 (P h) (N h))) 0 (c dj)) /\
    length4 (P 0) - length4 (N 0) = 2 /\
    derivable_pt_lim (fun h => length4 (P h) - length4 (N h)) 0 1 /\
    rest_density_derivative 2 (add4 (P 0) (N 0)) dj = 7 / 8.
Proof.
  exists (fun h => V4 (3 + h) 0 0 0), (fun _ => V4 (-5 / 4) 0 0 (-3 / 4)), (V4 1 0 0 0).
  assert (LN : length4 (V4 (-5 / 4) 0 0 (-3 / 4)) = 1). { unfold length4, dot4. cbn [y0 y1 y2 y3]. replace (_ - _ - _ - _) with 1 by lra. apply sqrt_1. }
  assert (LP : forall h, -3 < h -> length4 (V4 (3 + h) 0 0 0) = 3 + h). { intros h H. unfold length4, dot4. cbn [y0 y1 y2 y3]. rewrite !Rmult_0_l, !Rminus_0_r. apply sqrt_square. lra. }
  assert (D3 : derivable_pt_lim (fun h => 3 + h) 0 1). { replace 1 with (0 + 1) by ring. apply (derivable_pt_lim_plus (fun _ => 3) (fun h => h)); [apply derivable_pt_lim_const|apply derivable_pt_lim_id]. }
  splits.
  - intros c C. destruct C; cbn [add4 y0 y1 y2 y3]; try apply derivable_pt_lim_const.
    replace 1 with (1 + 0) by ring. apply (derivable_pt_lim_plus (fun h => 3 + h) (fun _ => -5 / 4)); [exact D3|apply derivable_pt_lim_const].
  - rewrite LP, LN; lra.
  - apply deriv_local with (g := fun h => 3 + h - 1).
    + exists 1. split; [lra|]. intros h H. rewrite LN, LP; [ring|]. apply Rabs_def2 in H. lra.
    + cut (derivable_pt_lim (fun h => 3 + h - 1) 0 (1 - 0)); [now rewrite Rminus_0_r|]. apply (derivable_pt_lim_minus (fun h => 3 + h) (fun _ => 1)); [exact D3|apply derivable_pt_lim_const].
  - unfold rest_density_derivative, very_small_double. cbv zeta. rewrite Rabs_pos_eq by lra.
    destruct (Rlt_dec 2 (/ 10 ^ 15)) as [L|_].
    { exfalso. assert (/ 10 ^ 15 < 1); [|lra]. rewrite <- Rinv_1. apply Rinv_lt_contravar; [|apply Rlt_pow_R1; [lra|lia]]. rewrite Rmult_1_l. apply pow_lt. lra. }
    cbn [add4 y0 y1 y2 y3]. lra.
Qed.
Print Assumptions mixture_derivative_refuted.

(** ** Normalisation *)
Lemma erf_exists a : 0 <= a -> exists erf, is_erf erf a.
Proof.
  intros A. assert (C : forall x, continuity_pt (fun x => - (2 / sqrt PI * exp (- x * x))) x) by (intros x; reg).
  destruct (primitive_exists (fun x => - (2 / sqrt PI * exp (- x * x))) 0 a A (fun x _ => C x)) as (G & D & _).
  exists (fun x => G x - G 0). split; [ring|]. intros x Hx. specialize (D x Hx). rewrite Ropp_involutive in D.
  replace (2 / sqrt PI * exp (- x * x)) with (2 / sqrt PI * exp (- x * x) - 0) by ring. apply (derivable_pt_lim_minus G (fun _ => G 0)); [exact D|apply derivable_pt_lim_const].
Qed.
Lemma sPI : 0 < sqrt PI /\ sqrt PI * sqrt PI = PI.
Proof. pose proof PI_RGT_0. split; [apply sqrt_lt_R0; auto|apply sqrt_sqrt; lra]. Qed.
(** The cut-off Gaussian is normalised: its integral over the sphere of the cut-off radius, times the normalisation that is used, is
    one over the number of test particles and ensembles. *)
Theorem smearing_normalised erf sigma a ntest nens op : is_erf erf (a / sqrt 2) -> 0 < sigma -> 0 < a -> (0 < ntest)%Z -> (0 < nens)%Z ->
  let par := make_parameters erf sigma a ntest nens op in
  0 < norm_factor_sf par /\ r_cut_sqr par = (a * sigma) * (a * sigma) /\
  exists m, integral (fun r => 4 * PI * (r * r) * exp (- (r * r) * two_sig_sqr_inv par)) 0 (r_cut par) m /\
    norm_factor_sf par * m = 1 / (IZR ntest * IZR nens).
Proof.
  intros (E0 & ED) S A NT NE par. destruct sPI as (SP & SS). pose proof PI_RGT_0 as PP.
  assert (S2 : 0 < sqrt 2) by (apply sqrt_lt_R0; lra). assert (S22 : sqrt 2 * sqrt 2 = 2) by (apply sqrt_sqrt; lra).
  set (g := fun x => - 2 / sqrt PI * x * exp (- x * x) + erf x).
  assert (DG : forall x, 0 <= x <= a / sqrt 2 -> derivable_pt_lim g x (4 / sqrt PI * (x * x) * exp (- x * x))).
  { intros x BX. assert (DE : derivable_pt_lim (fun x => exp (- x * x)) x (exp (- x * x) * (- 1 * x + - x * 1))).
    { apply (derivable_pt_lim_comp (fun x => - x * x) exp); [|apply derivable_pt_lim_exp].
      apply (derivable_pt_lim_mult (fun x => - x) (fun x => x)); [apply (derivable_pt_lim_opp (fun x => x)); apply derivable_pt_lim_id|apply derivable_pt_lim_id]. }
    assert (DL : derivable_pt_lim (fun x => - 2 / sqrt PI * x) x (- 2 / sqrt PI)).
    { cut (derivable_pt_lim (fun x => - 2 / sqrt PI * x) x (0 * x + - 2 / sqrt PI * 1)); [now rewrite Rmult_0_l, Rplus_0_l, Rmult_1_r|]. apply (derivable_pt_lim_mult (fun _ => - 2 / sqrt PI) (fun x => x)); [apply derivable_pt_lim_const|apply derivable_pt_lim_id]. }
    replace (4 / sqrt PI * (x * x) * exp (- x * x)) with ((- 2 / sqrt PI * exp (- x * x) + - 2 / sqrt PI * x * (exp (- x * x) * (- 1 * x + - x * 1))) + 2 / sqrt PI * exp (- x * x)) by (field; lra).
    apply (derivable_pt_lim_plus (fun x => - 2 / sqrt PI * x * exp (- x * x)) erf); [|apply ED; exact BX].
    apply (derivable_pt_lim_mult (fun x => - 2 / sqrt PI * x) (fun x => exp (- x * x))); auto. }
  assert (G0 : g 0 = 0). { unfold g. rewrite E0. ring. }
  assert (GP : forall x, 0 < x <= a / sqrt 2 -> 0 < g x).
  { intros x (X & XA). destruct (MVT_cor2 g (fun x => 4 / sqrt PI * (x * x) * exp (- x * x)) 0 x X) as (c & EQ & C); [intros c C; apply DG; lra|].
    rewrite G0 in EQ. assert (0 < 4 / sqrt PI * (c * c) * exp (- c * c) * (x - 0)); [|lra].
    repeat apply Rmult_lt_0_compat; try lra; try apply exp_pos. apply Rinv_0_lt_compat; auto. }
  set (corr := smearing_factor_rcut_correction erf a).
  assert (CE : corr = g (a / sqrt 2)) by reflexivity.
  assert (CP : 0 < corr). { rewrite CE. apply GP. split; [apply Rdiv_lt_0_compat; auto|lra]. }
  set (w := sqrt (2 * sigma * sigma * PI)).
  assert (WE : w = sqrt 2 * sigma * sqrt PI).
  { unfold w. replace (2 * sigma * sigma * PI) with ((sqrt 2 * sigma * sqrt PI) * (sqrt 2 * sigma * sqrt PI)).
    - apply sqrt_square. repeat apply Rmult_le_pos; lra.
    - replace (sqrt 2 * sigma * sqrt PI * (sqrt 2 * sigma * sqrt PI)) with ((sqrt 2 * sqrt 2) * (sqrt PI * sqrt PI) * (sigma * sigma)) by ring. rewrite S22, SS. ring. }
  assert (NF : norm_factor_sf par = 1 / (2 * sigma * sigma * PI * w * IZR ntest * IZR nens * corr)) by reflexivity.
  assert (NT' : 0 < IZR ntest) by (apply IZR_lt; auto). assert (NE' : 0 < IZR nens) by (apply IZR_lt; auto).
  assert (WP : 0 < w) by (rewrite WE; apply Rmult_lt_0_compat; [apply Rmult_lt_0_compat|]; auto).
  assert (T0 : 0 < 2 * sigma * sigma * PI) by (apply Rmult_lt_0_compat; [apply Rmult_lt_0_compat; [lra|auto]|auto]).
  assert (DENP : 0 < 2 * sigma * sigma * PI * w * IZR ntest * IZR nens * corr).
  { apply Rmult_lt_0_compat; [|exact CP]. apply Rmult_lt_0_compat; [|exact NE']. apply Rmult_lt_0_compat; [|exact NT']. apply Rmult_lt_0_compat; assumption. }
  split; [rewrite NF; apply Rdiv_lt_0_compat; [lra|exact DENP]|]. split; [reflexivity|].
  set (k := two_sig_sqr_inv par). assert (KE : k = 1 / (2 * sigma * sigma)) by reflexivity.
  set (b := 1 / (sqrt 2 * sigma)). assert (SN : sigma <> 0) by lra. assert (S2N : sqrt 2 <> 0) by lra.
  assert (B2 : b * b = k). { transitivity (1 / ((sqrt 2 * sqrt 2) * (sigma * sigma))); [unfold b; field; split; lra|]. rewrite S22, KE. field. lra. }
  set (G := fun r => 2 * sigma * sigma * PI * w * g (b * r)).
  exists (G (r_cut par) - G 0). split.
  - apply integral_antiderivative.
    + change (r_cut par) with (a * sigma). apply Rmult_le_pos; lra.
    + intros r BR. unfold G.
      assert (BP : 0 < b) by (unfold b; apply Rdiv_lt_0_compat; [lra|apply Rmult_lt_0_compat; auto]).
      assert (BB : 0 <= b * r <= a / sqrt 2).
      { change (r_cut par) with (a * sigma) in BR. split; [apply Rmult_le_pos; lra|].
        replace (a / sqrt 2) with (b * (a * sigma)) by (unfold b; field; split; lra). apply Rmult_le_compat_l; lra. }
      assert (DB : derivable_pt_lim (fun r => g (b * r)) r (4 / sqrt PI * ((b * r) * (b * r)) * exp (- (b * r) * (b * r)) * b)).
      { apply (derivable_pt_lim_comp (fun r => b * r) g); [|apply DG; exact BB].
        cut (derivable_pt_lim (fun r => b * r) r (0 * r + b * 1)); [now rewrite Rmult_0_l, Rplus_0_l, Rmult_1_r|]. apply (derivable_pt_lim_mult (fun _ => b) (fun r => r)); [apply derivable_pt_lim_const|apply derivable_pt_lim_id]. }
      replace (4 * PI * (r * r) * exp (- (r * r) * k)) with (0 * g (b * r) + 2 * sigma * sigma * PI * w * (4 / sqrt PI * ((b * r) * (b * r)) * exp (- (b * r) * (b * r)) * b)).
      * apply (derivable_pt_lim_mult (fun _ => 2 * sigma * sigma * PI * w) (fun r => g (b * r))); [apply derivable_pt_lim_const|exact DB].
      * replace (- (b * r) * (b * r)) with (- (r * r) * k) by (rewrite <- B2; ring).
        replace (b * r * (b * r)) with (k * (r * r)) by (rewrite <- B2; ring).
        set (X := exp _). rewrite WE. unfold b. rewrite KE.
        transitivity (4 * (sqrt PI * sqrt PI) * (r * r) * X * (PI / (sqrt PI * sqrt PI))); [field; repeat split; lra|]. rewrite SS. field. lra.
    + intros r _. reg.
  - rewrite NF. unfold G. rewrite Rmult_0_r, G0. change (r_cut par) with (a * sigma).
    replace (b * (a * sigma)) with (a / sqrt 2) by (unfold b; field; split; lra). rewrite <- CE. field. splits; lra.
Qed.
Print Assumptions smearing_normalised.

(** ** The lattice *)
Lemma abs_le_in x c : x * x < c * c -> 0 <= c -> - c < x < c.
Proof. intros H C. split; apply Rnot_le_lt; intros N; nra. Qed.
Lemma outside_cube par p c : 0 <= r_cut par -> r_cut_sqr par = r_cut par * r_cut par -> in_cube (d_pos p) (r_cut par) c = false ->
  rest_distance2 p c <> r_cut_sqr par -> r_cut_sqr par < rest_distance2 p c.
Proof.
  intros R0 RS IC NE. destruct (Rlt_le_dec (r_cut_sqr par) (rest_distance2 p c)) as [|L]; auto. exfalso.
  assert (L' : rest_distance2 p c < r_cut par * r_cut par) by lra. unfold rest_distance2 in L'.
  set (q := _ / _) in L'. pose proof (Rle_0_sqr q) as Q. unfold Rsqr in Q. unfold dot3 in L'. cbn [sub3 x1 x2 x3] in L'.
  set (a1 := x1 (d_pos p) - x1 c) in *. set (a2 := x2 (d_pos p) - x2 c) in *. set (a3 := x3 (d_pos p) - x3 c) in *.
  pose proof (Rle_0_sqr a1). pose proof (Rle_0_sqr a2). pose proof (Rle_0_sqr a3). unfold Rsqr in *.
  assert (B1 : - r_cut par < a1 < r_cut par) by (apply abs_le_in; lra).
  assert (B2 : - r_cut par < a2 < r_cut par) by (apply abs_le_in; lra).
  assert (B3 : - r_cut par < a3 < r_cut par) by (apply abs_le_in; lra).
  unfold a1, a2, a3 in *. unfold in_cube in IC. cbv zeta in IC.
  repeat match type of IC with context [Rle_dec ?x ?y] => destruct (Rle_dec x y); [|lra] end.
  repeat match type of IC with context [Rlt_dec ?x ?y] => destruct (Rlt_dec x y); [|lra] end. discriminate.
Qed.
Definition node_share par d grad c p : sums :=
  let s := share par d grad true c p in let k := scale4 (norm_factor_sf par) in
  Sums (k (jpos s)) (k (jneg s)) (k (dj0 s)) (k (dj1 s)) (k (dj2 s)) (k (dj3 s)).
Lemma node_step c par d s p : physical p -> 0 < norm_factor_sf par -> 0 <= r_cut par -> r_cut_sqr par = r_cut par * r_cut par ->
  (amount par d p <> 0 -> rest_distance2 p c <> r_cut_sqr par) ->
  exists s', add_to_node c par d true s p = Ok s' /\ jmu_net s' = add4 (jmu_net s) (jmu_net (node_share par d true c p)) /\
    jpos s' = add4 (jpos s) (jpos (node_share par d true c p)) /\ jneg s' = add4 (jneg s) (jneg (node_share par d true c p)) /\
    dj0 s' = add4 (dj0 s) (dj0 (node_share par d true c p)) /\ dj1 s' = add4 (dj1 s) (dj1 (node_share par d true c p)) /\
    dj2 s' = add4 (dj2 s) (dj2 (node_share par d true c p)) /\ dj3 s' = add4 (dj3 s) (dj3 (node_share par d true c p)).
Proof.
  intros (E & M2) N R0 RS NE. pose proof rs_pos as RSP.
  assert (ZERO : share par d true true c p = no_sums -> add_to_node c par d true s p = Ok s -> exists s', add_to_node c par d true s p = Ok s' /\ jmu_net s' = add4 (jmu_net s) (jmu_net (node_share par d true c p)) /\
    jpos s' = add4 (jpos s) (jpos (node_share par d true c p)) /\ jneg s' = add4 (jneg s) (jneg (node_share par d true c p)) /\
    dj0 s' = add4 (dj0 s) (dj0 (node_share par d true c p)) /\ dj1 s' = add4 (dj1 s) (dj1 (node_share par d true c p)) /\
    dj2 s' = add4 (dj2 s) (dj2 (node_share par d true c p)) /\ dj3 s' = add4 (dj3 s) (dj3 (node_share par d true c p))).
  { intros SH A. exists s. split; [exact A|]. unfold node_share, jmu_net. rewrite SH. unfold no_sums. cbn [jpos jneg dj0 dj1 dj2 dj3]. rewrite scale4_zero. rewrite !add4_zero_r. repeat split. }
  destruct (Req_EM_T (amount par d p) 0) as [A0|A0].
  - apply ZERO; [now apply share_none|]. unfold add_to_node. unfold amount in A0.
    destruct (only_participants par && _); auto. destruct (Rlt_dec _ _) as [F|F]; auto. rewrite abs4_ok by exact M2. cbn [rbind]. change (length4 (d_mom p)) with (mass p).
    destruct (Rlt_dec (mass p) _); auto. exfalso. rewrite A0, Rabs_R0 in F. lra.
  - specialize (NE A0). assert (MP := amount_mass _ _ _ A0). unfold add_to_node in *.
    assert (A : amount par d p = density_factor (d_type p) d).
    { revert A0. unfold amount. destruct (_ && _); [easy|]. destruct (Rlt_dec _ _); [easy|]. destruct (Rlt_dec (mass p) _); easy. }
    assert (OP : only_participants par && (d_collisions p =? 0)%Z = false) by (destruct (_ && _) eqn:X; auto; exfalso; apply A0; unfold amount; now rewrite X).
    rewrite OP in *.
    destruct (Rlt_dec (Rabs (density_factor (d_type p) d)) really_small) as [F|F]. { exfalso. apply A0. unfold amount. rewrite OP. destruct (Rlt_dec _ _); [auto|contradiction]. }
    rewrite abs4_ok in * by exact M2. cbn [rbind] in *. change (length4 (d_mom p)) with (mass p) in *.
    destruct (Rlt_dec (mass p) really_small) as [MS|MS]. { exfalso. apply A0. unfold amount. rewrite OP. destruct (Rlt_dec _ _); [auto|]. destruct (Rlt_dec (mass p) _); [auto|contradiction]. }
    destruct (in_cube (d_pos p) (r_cut par) c) eqn:IC.
    + clear ZERO. rewrite smearing_eq by lra. cbn [fst snd]. eexists. split; [reflexivity|]. set (f := density_factor (d_type p) d) in *.
      set (V := mk4 1 (velocity (d_mom p))).
      assert (PN := profile_nonneg par p c (conj E M2)).
      assert (KEY : jpos (add_particle p (profile par p c * (f * norm_factor_sf par)) s) = add4 (jpos s) (jpos (node_share par d true c p)) /\
                    jneg (add_particle p (profile par p c * (f * norm_factor_sf par)) s) = add4 (jneg s) (jneg (node_share par d true c p)) /\
                    dj0 (add_particle p (profile par p c * (f * norm_factor_sf par)) s) = dj0 s /\ dj1 (add_particle p (profile par p c * (f * norm_factor_sf par)) s) = dj1 s /\
                    dj2 (add_particle p (profile par p c * (f * norm_factor_sf par)) s) = dj2 s /\ dj3 (add_particle p (profile par p c * (f * norm_factor_sf par)) s) = dj3 s).
      { unfold add_particle, node_share. cbn [share jpos jneg dj0 dj1 dj2 dj3]. rewrite A. fold V.
        destruct (Rlt_dec 0 (profile par p c * (f * norm_factor_sf par))) as [W|W]; cbn [jpos jneg dj0 dj1 dj2 dj3]; destruct (Rlt_dec 0 f) as [FP|FP].
        - repeat split; [v4|now rewrite scale4_zero, add4_zero_r].
        - exfalso. assert (0 <= profile par p c * (- f * norm_factor_sf par)) by (apply Rmult_le_pos; auto; apply Rmult_le_pos; lra). lra.
        - assert (P0 : profile par p c = 0). { destruct PN as [PN|]; [|auto]. exfalso. apply W. apply Rmult_lt_0_compat; auto. apply Rmult_lt_0_compat; auto. }
          rewrite P0, Rmult_0_l, Rmult_0_r, !scale4_0, !scale4_zero, !add4_zero_r. repeat split.
        - repeat split; [now rewrite scale4_zero, add4_zero_r|v4]. }
      destruct KEY as (K1 & K2 & K3 & K4 & K5 & K6).
      set (s1 := add_particle _ _ _) in *. unfold add_particle_for_derivatives. fold V. unfold jmu_net. cbn [jpos jneg dj0 dj1 dj2 dj3]. rewrite K1, K2, K3, K4, K5, K6.
      split; [v4|]. split; [reflexivity|]. split; [reflexivity|]. unfold node_share. cbn [share dj0 dj1 dj2 dj3]. rewrite A. fold V.
      set (g := rgrad par p c). clearbody g. repeat split; apply vec4_eq; unfold V, dot3; cbn -[Rmult Rplus Rminus Ropp velocity]; ring.
    + apply ZERO; [|reflexivity]. assert (L := outside_cube par p c R0 RS IC NE).
      assert (P0 : profile par p c = 0). { unfold profile. destruct (Rle_dec _ _); [exfalso; lra|reflexivity]. }
      unfold share, rgrad. rewrite P0. unfold no_sums.
      assert (ZZ : forall v k j, scale3 k (scale3 j (scale3 0 v)) = V3 0 0 0) by (intros; unfold scale3; cbn; f_equal; ring). rewrite ZZ.
      rewrite !Rmult_0_r, !scale4_0. assert (Z3 : dot3 (velocity (d_mom p)) (V3 0 0 0) = 0) by (unfold dot3; cbn; ring). rewrite Z3. cbn [x1 x2 x3]. rewrite !Rmult_0_r, !scale4_0. now destruct (Rlt_dec _ _).
Qed.
Lemma node_fold c par d ps : 0 < norm_factor_sf par -> 0 <= r_cut par -> r_cut_sqr par = r_cut par * r_cut par ->
  Forall physical ps -> off_cutoff par d c ps -> forall s, exists s', foldM (add_to_node c par d true) s ps = Ok s' /\
    let k v := scale4 (norm_factor_sf par) v in let t := sums_of (share par d true true c) ps in
    jpos s' = add4 (jpos s) (k (jpos t)) /\ jneg s' = add4 (jneg s) (k (jneg t)) /\ dj0 s' = add4 (dj0 s) (k (dj0 t)) /\
    dj1 s' = add4 (dj1 s) (k (dj1 t)) /\ dj2 s' = add4 (dj2 s) (k (dj2 t)) /\ dj3 s' = add4 (dj3 s) (k (dj3 t)).
Proof.
  intros N R0 RS P. induction P as [|p ps P1 _ IH]; intros OC s.
  - exists s. split; [reflexivity|]. cbn [sums_of no_sums jpos jneg dj0 dj1 dj2 dj3]. rewrite scale4_zero, !add4_zero_r. repeat split.
  - destruct (node_step c par d s p P1 N R0 RS (OC p (or_introl eq_refl))) as (s1 & E1 & _ & A1 & A2 & A3 & A4 & A5 & A6).
    destruct (IH (fun q I => OC q (or_intror I)) s1) as (s2 & E2 & B1 & B2 & B3 & B4 & B5 & B6).
    exists s2. split; [cbn [foldM]; rewrite E1; exact E2|]. cbv zeta in *. rewrite B1, B2, B3, B4, B5, B6, A1, A2, A3, A4, A5, A6.
    unfold node_share. cbn [sums_of sum_add jpos jneg dj0 dj1 dj2 dj3]. repeat split; v4.
Qed.
Lemma node_ensembles c par d ens : forall s, foldM (fun s ps => foldM (add_to_node c par d true) s ps) s ens = foldM (add_to_node c par d true) s (concat ens).
Proof.
  induction ens as [|ps ens IH]; intros s; cbn [foldM concat]; auto.
  assert (AP : forall a b s, foldM (add_to_node c par d true) s (a ++ b) = rbind (foldM (add_to_node c par d true) s a) (fun s' => foldM (add_to_node c par d true) s' b)).
  { induction a as [|x a IA]; intros b t; cbn [app foldM rbind]; auto. destruct (add_to_node c par d true t x); cbn [rbind]; auto. }
  rewrite AP. destruct (foldM (add_to_node c par d true) s ps); cbn [rbind]; auto.
Qed.
(** The lattice holds, at every node, what is found at that point directly from all particles of all ensembles (unless a particle is exactly at
    the cut-off distance): the density, the current and its derivatives do not depend on which way they are calculated. *)
Theorem lattice_agrees c par d ens : 0 < norm_factor_sf par -> 0 <= r_cut par -> r_cut_sqr par = r_cut par * r_cut par ->
  Forall physical (concat ens) -> off_cutoff par d c (concat ens) ->
  exists s k, node_sums c par d true ens = Ok s /\ current_eckart c (concat ens) par d true true = Ok k /\
    jmu_net s = jmu k /\ node_rho s = Ok (rho k) /\ node_grad_j0 s = grad_j0 k /\ node_curl s = curl_vecj k /\
    node_dvecj_dt s = threevec (djmu_dt k) /\ dj0 s = djmu_dt k /\ dj1 s = djmu_dx k /\ dj2 s = djmu_dy k /\ dj3 s = djmu_dz k.
Proof.
  intros N R0 RS P OC. destruct (node_fold c par d _ N R0 RS P OC no_sums) as (s & E & A1 & A2 & A3 & A4 & A5 & A6).
  cbn [no_sums jpos jneg dj0 dj1 dj2 dj3] in A1, A2, A3, A4, A5, A6. rewrite add4_zero_l in A1, A2, A3, A4, A5, A6.
  exists s. eexists. split; [unfold node_sums; rewrite node_ensembles; exact E|]. split; [apply current_eq; auto|].
  cbn [jmu rho grad_j0 curl_vecj djmu_dt djmu_dx djmu_dy djmu_dz]. set (t := sums_of _ _) in *. set (n := norm_factor_sf par) in *.
  splits; auto.
  - unfold jmu_net. rewrite A1, A2. now rewrite scale4_add.
  - unfold node_rho. assert (CP := jpos_causal par d true true c _ P). assert (CN := jneg_causal par d true true c _ P). fold t in CP, CN.
    rewrite A1, A2. rewrite !abs4_ok.
    + cbn [rbind]. rewrite !length4_scale by lra. f_equal. ring.
    + rewrite dot4_scale. apply Rmult_le_pos; [apply Rmult_le_pos; lra|]. destruct CN as (_ & CN). now rewrite dot4_opp in CN.
    + rewrite dot4_scale. apply Rmult_le_pos; [apply Rmult_le_pos; lra|]. apply CP.
  - unfold node_grad_j0. rewrite A4, A5, A6. cbn [scale4 y0]. f_equal; ring.
  - unfold node_curl. rewrite A4, A5, A6. unfold curl, scale3. cbn [scale4 y1 y2 y3 x1 x2 x3]. f_equal; ring.
  - unfold node_dvecj_dt. rewrite A3. unfold scale3, threevec. cbn [x1 x2 x3]. f_equal; ring.
Qed.
Print Assumptions lattice_agrees.

(** A nucleon at rest at the origin and an antinucleon that moves, seen at the point (1/2, 0, 0), and parameters: they meet the
    hypotheses of the theorems above. *)
Definition nucleon_type := DT true true false false 1 1 0 1 1.
Definition some_particles := [DP nucleon_type (V3 0 0 0) (V4 1 0 0 0) 1; DP (anti nucleon_type) (V3 1 0 0) (V4 (5 / 4) 0 0 (3 / 4)) 0].
Definition some_parameters := DPar 4 16 (1 / 2) (1 / 15) false.
Example density_case : Forall physical some_particles /\ off_cutoff some_parameters Baryon (V3 (1 / 2) 0 0) some_particles /\
  0 < norm_factor_sf some_parameters /\ r_cut_sqr some_parameters = r_cut some_parameters * r_cut some_parameters /\
  (exists c, current_eckart (V3 (1 / 2) 0 0) some_particles some_parameters Baryon true true = Ok c /\ y0 (jmu c) = 1 / 15 * exp (- (1 / 8)) * (1 - 5 / 4)) /\
  (exists erf, is_erf erf (4 / sqrt 2)).
Proof.
  assert (P : Forall physical some_particles). { unfold some_particles, physical. repeat apply Forall_cons; try apply Forall_nil; unfold dot4; cbn [d_mom y0 y1 y2 y3]; lra. }
  assert (M1 : mass (DP nucleon_type (V3 0 0 0) (V4 1 0 0 0) 1) = 1). { unfold mass, dot4. cbn [d_mom y0 y1 y2 y3]. replace (_ - _ - _ - _) with 1 by lra. apply sqrt_1. }
  assert (M2 : mass (DP (anti nucleon_type) (V3 1 0 0) (V4 (5 / 4) 0 0 (3 / 4)) 0) = 1). { unfold mass, dot4. cbn [d_mom y0 y1 y2 y3]. replace (_ - _ - _ - _) with 1 by lra. apply sqrt_1. }
  assert (R1 : rest_distance2 (DP nucleon_type (V3 0 0 0) (V4 1 0 0 0) 1) (V3 (1 / 2) 0 0) = 1 / 4). { unfold rest_distance2. rewrite M1. unfold dot3, sub3, threevec. cbn [d_pos d_mom x1 x2 x3 y1 y2 y3]. lra. }
  assert (R2 : rest_distance2 (DP (anti nucleon_type) (V3 1 0 0) (V4 (5 / 4) 0 0 (3 / 4)) 0) (V3 (1 / 2) 0 0) = 1 / 4). { unfold rest_distance2. rewrite M2. unfold dot3, sub3, threevec. cbn [d_pos d_mom x1 x2 x3 y1 y2 y3]. lra. }
  split; [exact P|]. split. { intros p I _. cbn [some_parameters r_cut_sqr]. destruct I as [<-|[<-|[]]]; [rewrite R1|rewrite R2]; lra. }
  split; [cbn; lra|]. split; [cbn; lra|]. split.
  - eexists. split; [apply current_eq; exact P|]. cbn [jmu]. rewrite jsum. unfold some_particles. cbn [sum4 add4 y0]. unfold particle_current. cbn [scale4 mk4 y0].
    unfold profile. rewrite R1, R2, M1, M2. cbn [some_parameters r_cut_sqr two_sig_sqr_inv norm_factor_sf d_mom y0].
    destruct (Rle_dec (1 / 4) 16); [|exfalso; lra].
    unfold amount. rewrite M1, M2. cbn [some_parameters only_participants andb d_type density_factor nucleon_type anti baryon_number].
    unfold really_small. change (Z.opp 1) with (-1)%Z. rewrite (Rabs_left (IZR (-1))) by lra. rewrite (Rabs_pos_eq 1) by lra.
    destruct (Rlt_dec 1 (/ 1000000)); [exfalso; lra|]. destruct (Rlt_dec (- (-1)) (/ 1000000)); [exfalso; lra|].
    replace (- (1 / 4) * (1 / 2)) with (- (1 / 8)) by lra. unfold zero4. cbn [y0]. lra.
  - apply erf_exists. apply Rmult_le_pos; [lra|]. left. apply Rinv_0_lt_compat. apply sqrt_lt_R0. lra.
Qed.
