(** Properties of deformed and clustered nuclei and of their orientation (C124). *)
From Coq Require Import ZArith Reals List Bool Lra Lia Psatz.
From Verif Require Import Base VecModel NucleusModel NucleusProps WoodsSaxon DistModel DistProps DistMore InterpModel GeomModel GeomShape PotProps.
Import ListNotations.
Open Scope R_scope.

(** ** Sampling of deformed nuclei *)
Lemma cube_diff a b : 0 <= b <= a -> (a - b) * (a - b) * (a - b) <= a * a * a - b * b * b.
Proof. intros H. assert (0 <= a * b * (a - b)) by (apply Rmult_le_pos; [apply Rmult_le_pos|]; lra). nra. Qed.
Lemma cube_root_neg u : u <= 0 -> cube_root u = 0.
Proof. intros H. unfold cube_root. destruct (Rle_dec u 0); lra. Qed.
Lemma cube_close u v e : 0 < e -> v <= u -> u - v < e * e * e -> cube_root u - cube_root v < e /\ cube_root v <= cube_root u.
Proof.
  intros E L D. assert (G : forall w, exists w', 0 <= w' /\ cube_root w = cube_root w' /\ w' = Rmax w 0).
  { intros w. exists (Rmax w 0). splits; auto; [apply Rmax_r|]. unfold Rmax. destruct (Rle_dec w 0); [|reflexivity]. rewrite !cube_root_neg by lra. reflexivity. }
  destruct (G u) as (u' & U0 & -> & UE), (G v) as (v' & V0 & -> & VE).
  assert (v' <= u' /\ u' - v' < e * e * e).
  { assert (0 < e * e * e) by (repeat apply Rmult_lt_0_compat; auto). subst. unfold Rmax. destruct (Rle_dec u 0), (Rle_dec v 0); lra. }
  destruct (cube_root_spec u' U0) as (A & B), (cube_root_spec v' V0) as (A' & B').
  assert (M : cube_root v' <= cube_root u') by (apply cube_le; auto; lra).
  split; auto. apply Rnot_le_lt. intros N. pose proof (cube_diff _ _ (conj A' M)).
  assert (e * e <= (cube_root u' - cube_root v') * (cube_root u' - cube_root v')) by (apply Rmult_le_compat; lra).
  assert (e * e * e <= (cube_root u' - cube_root v') * (cube_root u' - cube_root v') * (cube_root u' - cube_root v')) by (apply Rmult_le_compat; try lra; nra).
  lra.
Qed.
Lemma cube_root_cont x : continuity_pt cube_root x.
Proof.
  intros e E. exists (e * e * e). assert (0 < e * e * e) by (repeat apply Rmult_lt_0_compat; auto). split; auto.
  intros y (_ & D). cbn in *. unfold R_dist in *. apply Rabs_def2 in D. destruct (Rle_dec x y) as [L|L].
  - destruct (cube_close y x e E L ltac:(lra)). apply Rabs_def1; lra.
  - destruct (cube_close x y e E ltac:(lra) ltac:(lra)). apply Rabs_def1; lra.
Qed.
(** Accepting the radius c * cube_root u with probability h(radius) makes the density proportional to r^2 h(r). *)
Lemma cube_rejection h c X : 0 < c -> 0 <= X <= c -> (forall r, 0 <= r <= c -> 0 <= h r <= 1) -> (forall r, 0 <= r <= c -> continuity_pt h r) ->
  exists M, integral (fun r => r * r * h r) 0 X M /\
    prob2 (fun v u => c * cube_root u <= X /\ ~ h (c * cube_root u) < v) (3 / (c * c * c) * M).
Proof.
  intros C0 HX H01 HC. pose (phi := fun r => r / c * (r / c) * (r / c)).
  assert (CP : 0 < c * c * c) by (repeat apply Rmult_lt_0_compat; auto).
  pose (q := X / c). assert (Q : 0 <= q <= 1).
  { unfold q. split; [apply Rmult_le_pos; [lra|apply Rlt_le, Rinv_0_lt_compat; auto]|]. apply (Rmult_le_reg_r c); auto. unfold Rdiv. rewrite Rmult_assoc, Rinv_l by lra. lra. }
  assert (F0 : phi 0 = 0) by (unfold phi; field; lra). assert (FX : phi X = q * q * q) by reflexivity.
  assert (Q3 : 0 <= q * q * q <= 1). { assert (0 <= q * q <= 1) by (split; nra). split; nra. }
  assert (RU : forall u, 0 <= u <= 1 -> 0 <= c * cube_root u <= c).
  { intros u Hu. destruct (cube_root_spec u ltac:(lra)) as (A & B). assert (cube_root u <= 1) by (apply cube_le; lra). split; nra. }
  assert (FC : forall u, 0 <= u <= 1 -> continuity_pt (fun t => h (c * cube_root t)) u).
  { intros u Hu. apply (comp_cont (fun t => c * cube_root t) h); [apply cont_mult; [apply cont_c|apply cube_root_cont]|apply HC, RU, Hu]. }
  assert (CR : forall r, 0 <= r -> c * cube_root (phi r) = r).
  { intros r R0. assert (P0 : 0 <= r / c) by (apply Rmult_le_pos; [auto|apply Rlt_le, Rinv_0_lt_compat; auto]).
    assert (PH : 0 <= phi r) by (unfold phi; generalize dependent (r / c); intros; apply Rmult_le_pos; [apply Rmult_le_pos|]; assumption).
    destruct (cube_root_spec (phi r) PH) as (A & B). assert (L1 : cube_root (phi r) <= r / c) by (apply cube_le; auto; unfold phi; lra).
    assert (L2 : r / c <= cube_root (phi r)). { apply Rnot_lt_le. intros N. pose proof (cube_diff (r / c) (cube_root (phi r)) ltac:(lra)). assert (0 < (r / c - cube_root (phi r)) * (r / c - cube_root (phi r)) * (r / c - cube_root (phi r))) by (repeat apply Rmult_lt_0_compat; lra). change (cube_root (phi r) * cube_root (phi r) * cube_root (phi r) = r / c * (r / c) * (r / c)) in B. lra. }
    assert (E : cube_root (phi r) = r / c) by lra. rewrite E. field. lra. }
  assert (IM : exists m, integral (fun t => h (c * cube_root t)) (phi 0) (phi X) m).
  { eexists. rewrite F0, FX. exists (continuity_implies_RiemannInt (proj1 Q3) (fun x Hx => FC x ltac:(lra))). reflexivity. }
  destruct IM as (m & IM).
  assert (IS : integral (fun r => h (c * cube_root (phi r)) * (3 * (r * r) / (c * c * c))) 0 X m).
  { apply (substitution (fun t => h (c * cube_root t)) phi (fun r => 3 * (r * r) / (c * c * c))); auto; [lra|..].
    - intros x Hx. rewrite F0, FX. assert (P0 : 0 <= x / c) by (apply Rmult_le_pos; [lra|apply Rlt_le, Rinv_0_lt_compat; auto]).
      assert (PQ : x / c <= q) by (apply Rmult_le_compat_r; [apply Rlt_le, Rinv_0_lt_compat; auto|lra]). unfold phi. split; [apply Rmult_le_pos; [apply Rmult_le_pos|]; assumption|].
      apply Rmult_le_compat; auto; [apply Rmult_le_pos; auto|]. apply Rmult_le_compat; auto.
    - intros y Hy. rewrite F0, FX in Hy. apply FC. lra.
    - intros x Hx. apply DensProps.deriv_ext with (g := fun r => / (c * c * c) * (r * r * r)).
      + intros t. unfold phi. field. lra.
      + eapply d_eq; [|apply (d_times (fun _ => / (c * c * c)) (fun r => r * r * r)); [apply d_const|apply (d_times (fun r => r * r) (fun r => r)); [apply (d_times (fun r => r) (fun r => r)); apply d_id|apply d_id]]]. cbv beta. field. lra.
    - intros x _. apply cont_div, cont_mult; [apply cont_c|apply cont_mult; apply cont_id]. }
  exists (c * c * c / 3 * m). split.
  - apply integral_inside with (fun r => c * c * c / 3 * (h (c * cube_root (phi r)) * (3 * (r * r) / (c * c * c)))); [lra| |apply integral_scale, IS].
    intros r Hr. rewrite CR by lra. field. lra.
  - replace (3 / (c * c * c) * (c * c * c / 3 * m)) with m by (field; lra).
    exists (fun u => if Rle_dec (c * cube_root u) X then h (c * cube_root u) else 0). split.
    + intros u Hu. destruct (Rle_dec (c * cube_root u) X) as [L|L].
      * destruct (H01 _ (RU u ltac:(lra))). exists 0, (h (c * cube_root u)). splits; try lra. intros v Hv. split; [intros; split; auto; lra|]. intros [G|G] (_ & N); lra.
      * apply prob1_ext with (fun _ => False); [intros; tauto|]. apply prob1_const; auto.
    + assert (CL : forall u, 0 <= u -> (c * cube_root u <= X <-> u <= q * q * q)).
      { intros u Hu. rewrite <- (cube_le q u) by lra. unfold q. split; intros L.
        - apply (Rmult_le_reg_l c); auto. replace (c * (X / c)) with X by (field; lra). exact L.
        - apply (Rmult_le_compat_l c) in L; [|lra]. replace (c * (X / c)) with X in L by (field; lra). exact L. }
      rewrite F0, FX in IM. apply integral_eq with (m + 0 * (1 - q * q * q)); [ring|].
      apply integral_glue with (b := q * q * q) (g := fun t => h (c * cube_root t)) (h := fun _ => 0); [lra|..|exact IM|apply integral_const].
      * intros u Hu. destruct (Rle_dec _ _) as [L|L]; [reflexivity|]. exfalso. apply L, CL; lra.
      * intros u Hu. destruct (Rle_dec _ _) as [L|L]; [|reflexivity]. apply CL in L; lra.
Qed.

(** the Woods-Saxon density with the given surface, relative to the saturation density *)
Definition relative_density (s d r : R) : R := 1 / (1 + exp ((r - s) / d)).
(** The density of a deformed nucleus is a Woods-Saxon density whose radius depends on the direction through the four functions. *)
Theorem deformed_shape N r c phi : exists y20 y22 y30 y40,
  y_l_m 2 0 c phi = Ok y20 /\ y_l_m 2 2 c phi = Ok y22 /\ y_l_m 3 0 c phi = Ok y30 /\ y_l_m 4 0 c phi = Ok y40 /\
  deformed_density N r c phi = Ok (f_rho0 N * relative_density
    (f_radius N + f_radius N * beta2 N * cos (gam N) * y20 + f_radius N * beta2 N * sin (gam N) * (sqrt 2 * y22) +
     f_radius N * beta3 N * y30 + f_radius N * beta4 N * y40) (f_diff N) r).
Proof.
  assert (Y : forall l m, In (l, m) known -> exists y, y_l_m l m c phi = Ok y) by (intros l m [[= <- <-]|[[= <- <-]|[[= <- <-]|[[= <- <-]|[]]]]]; eexists; reflexivity).
  destruct (Y 2 0)%Z as (y20 & E20); [cbn; auto|]. destruct (Y 2 2)%Z as (y22 & E22); [cbn; auto|]. destruct (Y 3 0)%Z as (y30 & E30); [cbn; auto|]. destruct (Y 4 0)%Z as (y40 & E40); [cbn; auto 6|].
  exists y20, y22, y30, y40. splits; auto. unfold deformed_density, surface. rewrite E20, E22, E30, E40. cbn [rbind]. unfold relative_density.
  match goal with |- Ok (_ / (1 + exp ((r - ?a) / _))) = Ok (_ * (1 / (1 + exp ((r - ?b) / _)))) => replace a with b by ring end.
  unfold Rdiv. rewrite Rmult_1_l. reflexivity.
Qed.
Print Assumptions deformed_shape.
(** For each direction the position that is returned lies on that direction, and its distance r from the centre has a density
    proportional to r^2 times the nuclear density, up to the largest radius that is sampled.  The constant does not depend on the
    direction, so that the whole distribution is proportional to the nuclear density. *)
Theorem deformed_sampler N a b X : 0 < f_radius N -> 0 < f_diff N -> 0 < f_rho0 N -> 0 <= X <= radius_max N ->
  let phi := 2 * PI * a in let c := 2 * b - 1 in
  exists M, (exists rho, (forall r, deformed_density N r c phi = Ok (rho r)) /\ integral (fun r => r * r * (rho r / f_rho0 N)) 0 X M) /\
    prob2 (fun v u => exists r, deformed_round N a b u v = Ok (Some (scale3 r (direction (Ang phi c)))) /\ r <= X /\ r = radius_max N * cube_root u)
      (3 / (radius_max N * radius_max N * radius_max N) * M).
Proof.
  intros R0 D0 S0 HX phi c.
  assert (C0 : 0 < radius_max N). { unfold radius_max, Rdiv. pose proof (Rinv_0_lt_compat _ D0). assert (0 < f_radius N * / f_diff N) by (apply Rmult_lt_0_compat; auto). assert (0 < f_radius N * f_diff N) by (apply Rmult_lt_0_compat; auto). lra. }
  assert (SE : exists s, surface N c phi = Ok s) by (eexists; reflexivity). destruct SE as (s & SE).
  destruct (cube_rejection (relative_density s (f_diff N)) (radius_max N) X C0 HX) as (M & IM & PM).
  - intros r _. unfold relative_density. pose proof (exp_pos ((r - s) / f_diff N)). split; [apply Rmult_le_pos; [lra|apply Rlt_le, Rinv_0_lt_compat; lra]|].
    apply (Rmult_le_reg_r (1 + exp ((r - s) / f_diff N))); [lra|]. unfold Rdiv at 1. rewrite Rmult_assoc, Rinv_l by lra. lra.
  - intros r _. unfold relative_density. apply cont_mult; [apply cont_c|]. apply (cont_inv (fun r => 1 + exp ((r - s) / f_diff N))); [|pose proof (exp_pos ((r - s) / f_diff N)); lra].
    apply cont_plus; [apply cont_c|]. apply cont_exp, cont_div, cont_minus; [apply cont_id|apply cont_c].
  - assert (DE : forall r, deformed_density N r c phi = Ok (f_rho0 N * relative_density s (f_diff N) r)).
    { intros r. unfold deformed_density. rewrite SE. cbn [rbind]. unfold relative_density, Rdiv. rewrite Rmult_1_l. reflexivity. }
    exists M. split.
    + exists (fun r => f_rho0 N * relative_density s (f_diff N) r). split; [exact DE|].
      apply integral_inside with (fun r => r * r * relative_density s (f_diff N) r); [lra| |exact IM]. intros r _. field. lra.
    + revert PM. apply prob2_ext. intros v u Hv Hu. unfold deformed_round. replace (-1 + 2 * b) with c by (unfold c; ring). fold phi. rewrite DE. cbn [rbind].
      replace (f_rho0 N * relative_density s (f_diff N) (radius_max N * cube_root u) / f_rho0 N) with (relative_density s (f_diff N) (radius_max N * cube_root u)) by (field; lra).
      split.
      * intros (L & K). exists (radius_max N * cube_root u). splits; auto. destruct (Rlt_dec _ _); [contradiction|]. reflexivity.
      * intros (r & E & L & ->). split; auto. intros K. destruct (Rlt_dec _ _); [discriminate|contradiction].
Qed.
Print Assumptions deformed_sampler.
Example deformed_case : let N := Def 7 (1 / 2) (168 / 1000) (28 / 100) 0 (93 / 1000) 0 in
  0 < f_radius N /\ 0 < f_diff N /\ 0 < f_rho0 N /\ 0 <= 10 <= radius_max N.
Proof. cbn. unfold radius_max. cbn. lra. Qed.
(** Without deformation the density is that of the spherical nucleus. *)
Theorem undeformed N r c phi : beta2 N = 0 -> beta3 N = 0 -> beta4 N = 0 ->
  deformed_density N r c phi = Ok (f_rho0 N * relative_density (f_radius N) (f_diff N) r).
Proof.
  intros B2 B3 B4. destruct (deformed_shape N r c phi) as (a & b & e & f & _ & _ & _ & _ & ->). rewrite B2, B3, B4. do 3 f_equal. ring.
Qed.
Print Assumptions undeformed.
Lemma exp_2_le : exp 2 <= 9.
Proof. replace 2 with (1 + 1) by ring. rewrite exp_plus. pose proof exp_le_3. pose proof (exp_pos 1). nra. Qed.
(** The largest radius that is sampled is radius / diffusiveness + radius * diffusiveness, whatever the deformation is: with a
    radius of 2 fm and a diffusiveness of 1 fm no nucleon is placed farther than 4 fm from the centre although the
    density there is at least a tenth of that at saturation. *)
Theorem deformed_tail_refuted rho0 : 0 < rho0 -> let N := Def 2 1 rho0 0 0 0 0 in
  (forall a b u v x, 0 <= a < 1 -> 0 <= b < 1 -> 0 <= u < 1 -> deformed_round N a b u v = Ok (Some x) -> abs3 x <= 4) /\
  (forall c phi, exists rho, deformed_density N 4 c phi = Ok rho /\ rho0 / 10 <= rho).
Proof.
  intros S0 N. split.
  - intros a b u v x Ha Hb Hu. unfold deformed_round. rewrite (undeformed N) by reflexivity. cbn [rbind]. destruct (Rlt_dec _ _); [discriminate|]. intros [= <-].
    replace (radius_max N) with 4 by (unfold radius_max; cbn; field). assert (0 <= cube_root u <= 1).
    { destruct (cube_root_spec u ltac:(lra)). split; auto. apply cube_le; lra. }
    set (c := -1 + 2 * b). set (f := 2 * PI * a). set (r := 4 * cube_root u).
    assert (SQ : 0 <= 1 - c * c) by (unfold c; nra).
    set (q := sqrt (1 - c * c)). assert (QQ : q * q = 1 - c * c) by (apply sqrt_sqrt; auto). pose proof (sin2_cos2 f) as T. unfold Rsqr in T.
    assert (SR : sqr3 (scale3 r (V3 (q * cos f) (q * sin f) c)) = r * r).
    { unfold sqr3, dot3, scale3. cbn [x1 x2 x3]. transitivity (r * r * (q * q * (sin f * sin f + cos f * cos f) + c * c)); [ring|]. rewrite T, QQ. ring. }
    unfold sqr3 in SR. unfold abs3. fold r. rewrite SR, sqrt_square by (unfold r; lra). unfold r. lra.
  - intros c phi. rewrite (undeformed N) by reflexivity. eexists. split; [reflexivity|]. cbn. unfold relative_density.
    replace ((4 - 2) / 1) with 2 by field. pose proof exp_2_le. pose proof (exp_pos 2).
    apply (Rmult_le_reg_r (10 * (1 + exp 2))); [lra|]. replace (rho0 / 10 * (10 * (1 + exp 2))) with (rho0 * (1 + exp 2)) by field.
    replace (rho0 * (1 / (1 + exp 2)) * (10 * (1 + exp 2))) with (rho0 * 10) by (field; lra). nra.
Qed.
Print Assumptions deformed_tail_refuted.
(** The automatic parameters exist for seven nuclei only. *)
Theorem automatic_table A charge : automatic A charge =
  match find (fun e => (fst (fst e) =? A)%Z && (snd (fst e) =? charge)%Z)
    [((238, 92)%Z, (0.28, 0.093)); ((208, 82)%Z, (0, 0)); ((197, 79)%Z, (-0.131, -0.031)); ((129, 54)%Z, (0.162, -0.003)); ((63, 29)%Z, (0.162, -0.006));
     ((96, 40)%Z, (0, 0)); ((96, 44)%Z, (0.158, 0))] with
  | Some (_, b) => Ok b | None => Throw E_domain end.
Proof.
  assert (G : forall a b c d : R, a = c -> b = d -> Ok (a, b) = Ok (c, d)) by (intros; subst; reflexivity).
  unfold automatic. cbn [find fst snd].
  rewrite (Z.eqb_sym 238), (Z.eqb_sym 208), (Z.eqb_sym 197), (Z.eqb_sym 129), (Z.eqb_sym 63), (Z.eqb_sym 96).
  rewrite (Z.eqb_sym 92), (Z.eqb_sym 82), (Z.eqb_sym 79), (Z.eqb_sym 54), (Z.eqb_sym 29), (Z.eqb_sym 40), (Z.eqb_sym 44).
  destruct (Z.eqb_spec A 238); [subst; cbn; destruct (charge =? 92)%Z; [apply G; lra|reflexivity]|].
  destruct (Z.eqb_spec A 208); [subst; cbn; destruct (charge =? 82)%Z; reflexivity|].
  destruct (Z.eqb_spec A 197); [subst; cbn; destruct (charge =? 79)%Z; [apply G; lra|reflexivity]|].
  destruct (Z.eqb_spec A 129); [subst; cbn; destruct (charge =? 54)%Z; [apply G; lra|reflexivity]|].
  destruct (Z.eqb_spec A 63); [subst; cbn; destruct (charge =? 29)%Z; [apply G; lra|reflexivity]|].
  destruct (Z.eqb_spec A 96); [subst; cbn; destruct (charge =? 40)%Z; [reflexivity|destruct (charge =? 44)%Z; [apply G; lra|reflexivity]]|].
  reflexivity.
Qed.
Print Assumptions automatic_table.

(** ** Orientation *)
(** The axis of a randomly oriented nucleus points in the direction with polar cosine 2v - 1 and azimuth 2 pi u - pi / 2,
    that is, it is uniform on the sphere. *)
Theorem random_orientation u v w : 0 <= v <= 1 -> let '(phi, theta, psi) := random_euler_angles u v w in
  rotate phi theta psi (V3 0 0 1) = direction (Ang (2 * PI * u - PI / 2) (2 * v - 1)).
Proof.
  intros Hv. cbn. unfold rotate, direction, sintheta. cbn. rewrite cos_acos by lra. rewrite sin_acos by lra.
  rewrite cos_minus, sin_minus, cos_PI2, sin_PI2. unfold Rsqr. f_equal; ring.
Qed.
Print Assumptions random_orientation.
(** The turn around that axis is uniform too: a vector orthogonal to the axis before the rotation turns by psi. *)
Theorem random_turn u v w a b : let '(phi, theta, psi) := random_euler_angles u v w in
  rotate phi theta psi (V3 a b 0) = rotate phi theta 0 (rotate_around_z psi (V3 a b 0)) /\ psi = 2 * PI * w.
Proof.
  cbn. split; [|reflexivity]. unfold rotate, rotate_around_z. cbn. rewrite cos_0, sin_0. f_equal; ring.
Qed.
Print Assumptions random_turn.
(** Angles may only be given when the rotation is not random; missing angles are zero. *)
Theorem orientation_read random theta phi psi :
  (random = true -> (theta, phi, psi) <> (None, None, None) -> read_orientation random theta phi psi = Throw E_domain) /\
  (random = true -> read_orientation random None None None = Ok (true, (0, 0, 0))) /\
  (forall t f s, random = false -> read_orientation random (Some t) (Some f) (Some s) = Ok (false, (t, f, s))) /\
  (random = false -> exists t f s, read_orientation random theta phi psi = Ok (false, (t, f, s)) /\
     (theta = None -> t = 0) /\ (phi = None -> f = 0) /\ (psi = None -> s = 0)).
Proof.
  splits.
  - intros -> N. unfold read_orientation. destruct theta, phi, psi; cbn; congruence.
  - intros ->. reflexivity.
  - intros t f s ->. reflexivity.
  - intros ->. unfold read_orientation. cbn [andb]. do 3 eexists. split; [reflexivity|]. splits; intros ->; reflexivity.
Qed.
Print Assumptions orientation_read.

(** ** Alpha clusters *)
Lemma sq_of a : 0 <= a -> sqrt a * sqrt a = a.
Proof. apply sqrt_sqrt. Qed.
Lemma vertex_norm p : In p vertices -> sqr3 p = 1.
Proof.
  pose proof (sq_of 8 ltac:(lra)) as E. pose proof (sq_of 24 ltac:(lra)) as T. intros [<-|[<-|[<-|[<-|[]]]]]; unfold sqr3, dot3; cbn; [lra|..].
  all: set (e := sqrt 8) in *; set (t := sqrt 24) in *; clearbody e t; nra.
Qed.
Lemma scaled side p : In p vertices -> scale3 side (div3 (scale3 (sqrt 6) (div3 p (abs3 p))) 4) = scale3 (sqrt 6 / 4 * side) p.
Proof.
  intros I. pose proof (vertex_norm p I) as N. unfold sqr3 in N. unfold abs3. rewrite N, sqrt_1. unfold scale3, div3. cbn. f_equal; field.
Qed.
(** The centres of the four clusters are the corners of a regular tetrahedron with the given edge, around the origin. *)
Theorem regular_tetrahedron side : 0 <= side -> exists a b c d, scale_vertices side = [a; b; c; d] /\
  add3 (add3 a b) (add3 c d) = V3 0 0 0 /\
  Forall (fun p => abs3 (sub3 (fst p) (snd p)) = side) [(a, b); (a, c); (a, d); (b, c); (b, d); (c, d)].
Proof.
  intros S0. unfold scale_vertices, vertices.
  match goal with |- context [map _ [?p; ?q; ?r; ?s]] => pose (P := p); pose (Q := q); pose (S := r); pose (T := s) end.
  exists (scale3 (sqrt 6 / 4 * side) P), (scale3 (sqrt 6 / 4 * side) Q), (scale3 (sqrt 6 / 4 * side) S), (scale3 (sqrt 6 / 4 * side) T). split.
  - cbn [map]. rewrite !scaled by (cbn; auto). reflexivity.
  - pose proof (sq_of 8 ltac:(lra)) as E8. pose proof (sq_of 24 ltac:(lra)) as E24. pose proof (sq_of 6 ltac:(lra)) as E6. split; [unfold P, Q, S, T, add3, scale3; cbn; f_equal; field|].
    assert (D : forall p q, sqr3 (sub3 p q) = 8 / 3 -> abs3 (sub3 (scale3 (sqrt 6 / 4 * side) p) (scale3 (sqrt 6 / 4 * side) q)) = side).
    { intros p q H. unfold abs3. transitivity (sqrt (side * side)); [|apply sqrt_square; auto]. f_equal. unfold sqr3, dot3, sub3, scale3 in *. cbn [x1 x2 x3] in *.
      transitivity (sqrt 6 * sqrt 6 / 16 * (side * side) * ((x1 p - x1 q) * (x1 p - x1 q) + (x2 p - x2 q) * (x2 p - x2 q) + (x3 p - x3 q) * (x3 p - x3 q))); [field|]. rewrite H, E6. field. }
    assert (K : forall x y z, 3 * (x * x + y * y + z * z) = 8 -> x * x + y * y + z * z = 8 / 3) by (intros; lra).
    repeat apply Forall_cons; try apply Forall_nil; cbn [fst snd]; apply D; unfold P, Q, S, T, sqr3, dot3, sub3; cbn; apply K; set (e := sqrt 8) in *; set (t := sqrt 24) in *; clearbody e t; clear - E8 E24; nra.
Qed.
Print Assumptions regular_tetrahedron.
Lemma wrap_small i : (0 <= i < 2 ^ 31)%Z -> wrap 64 i = i.
Proof. intros H. unfold wrap. apply Z.mod_small. lia. Qed.
(** Nucleon after nucleon goes to the next cluster, the drawn position is relative to the centre of the cluster. *)
Theorem clusters_in_turn verts xs : forall i, length verts = 4%nat -> (0 <= i)%Z -> (i + Z.of_nat (length xs) < 2 ^ 31)%Z ->
  exists ys, alpha_positions verts i xs = Ok (ys, (i + Z.of_nat (length xs))%Z) /\ length ys = length xs /\
    forall k x, nth_error xs k = Some x -> nth_error ys k = Some (add3 x (nth (Z.to_nat ((i + Z.of_nat k) mod 4)) verts (V3 0 0 0))).
Proof.
  induction xs as [|x xs IH]; intros i V I0 B.
  - exists []. cbn. splits; auto; [rewrite Z.add_0_r; reflexivity|]. intros [|k]; discriminate.
  - cbn [length] in B. destruct (IH (i + 1)%Z V) as (ys & E & L & H); [lia|lia|]. cbn [alpha_positions]. rewrite V, wrap_small by lia.
    change (Z.of_nat 4) with 4%Z. assert (M : (0 <= i mod 4 < 4)%Z) by (apply Z.mod_pos_bound; lia).
    destruct (nth_error verts (Z.to_nat (i mod 4))) as [v|] eqn:N; [|apply nth_error_None in N; lia].
    destruct (Z.leb_spec (2 ^ 31 - 1) i); [lia|]. rewrite E. cbn [rbind]. exists (add3 x v :: ys). splits.
    + do 2 f_equal. cbn [length]. lia.
    + cbn. congruence.
    + intros [|k] z; cbn [nth_error].
      * intros [= <-]. rewrite Z.add_0_r. rewrite (nth_error_nth _ _ _ N). reflexivity.
      * intros K. rewrite (H k z K). do 5 f_equal. lia.
Qed.
Print Assumptions clusters_in_turn.
Example clusters_case : length (scale_vertices 3) = 4%nat /\ (0 + Z.of_nat (length (repeat (V3 0 0 0) 16)) < 2 ^ 31)%Z.
Proof. split; [reflexivity|]. rewrite repeat_length. lia. Qed.
(** the number of nucleons k = from, ..., from + n - 1 that go to cluster v when the index starts at i *)
Definition at_cluster (i v : Z) (from n : nat) : nat := length (filter (fun k => ((i + Z.of_nat k) mod 4 =? v)%Z) (seq from n)).
Lemma at_cluster_4 i v from n : (0 <= v < 4)%Z -> at_cluster i v from (4 * n) = n.
Proof.
  intros Hv. revert from. induction n as [|n IH]; intros from; [reflexivity|].
  replace (4 * S n)%nat with (4 + 4 * n)%nat by lia. unfold at_cluster. rewrite seq_app, filter_app, app_length. change (at_cluster i v from 4 + at_cluster i v (from + 4) (4 * n) = S n)%nat.
  rewrite IH. cut (at_cluster i v from 4 = 1%nat); [lia|]. unfold at_cluster. cbn [seq filter].
  replace (i + Z.of_nat (S from))%Z with (i + Z.of_nat from + 1)%Z by lia. replace (i + Z.of_nat (S (S from)))%Z with (i + Z.of_nat from + 2)%Z by lia.
  replace (i + Z.of_nat (S (S (S from))))%Z with (i + Z.of_nat from + 3)%Z by lia. set (j := (i + Z.of_nat from)%Z). clearbody j.
  rewrite (Z.add_mod j 1), (Z.add_mod j 2), (Z.add_mod j 3) by lia. pose proof (Z.mod_pos_bound j 4 ltac:(lia)) as B. set (m := (j mod 4)%Z) in *. clearbody m.
  assert (C : m = 0%Z \/ m = 1%Z \/ m = 2%Z \/ m = 3%Z) by lia. assert (D : v = 0%Z \/ v = 1%Z \/ v = 2%Z \/ v = 3%Z) by lia.
  destruct C as [->|[->|[->| ->]]], D as [->|[->|[->| ->]]]; reflexivity.
Qed.
(** In every event every cluster gets two protons and two neutrons per test particle: the first 8 t nucleons are of one kind, the
    other 8 t of the other kind, and the index is that left by the previous events. *)
Theorem clusters_are_alphas mass (t : nat) i v ps : (0 < Z.of_nat t < 2 ^ 28)%Z -> (0 <= v < 4)%Z ->
  fill_from_list mass [(neutron, 8%Z); (proton, 8%Z)] (Z.of_nat t) = Ok ps ->
  length ps = (16 * t)%nat /\
  (forall k p, nth_error ps k = Some p -> npdg p = if (k <? 8 * t)%nat then neutron else proton) /\
  at_cluster i v 0 (8 * t) = (2 * t)%nat /\ at_cluster i v (8 * t) (8 * t) = (2 * t)%nat.
Proof.
  intros T V F. assert (W : wrap 64 (8 * Z.of_nat t) = (8 * Z.of_nat t)%Z) by (apply wrap_small; lia).
  cbn [fill_from_list] in F. rewrite W in F. destruct (Z.leb_spec (2 ^ 32) (8 * Z.of_nat t)); [lia|]. cbn [rbind] in F. rewrite app_nil_r in F.
  replace (Z.to_nat (8 * Z.of_nat t)) with (8 * t)%nat in F by lia. assert (P : ps = repeat (Nuc neutron (mass neutron) zero4 (V4 (mass neutron) 0 0 0)) (8 * t) ++ repeat (Nuc proton (mass proton) zero4 (V4 (mass proton) 0 0 0)) (8 * t)) by congruence. clear F. subst ps. splits.
  - rewrite app_length, !repeat_length. lia.
  - intros k p K. destruct (Nat.ltb_spec k (8 * t)) as [L|L].
    + rewrite nth_error_app1 in K by (rewrite repeat_length; lia). apply nth_error_In, repeat_spec in K. subst. reflexivity.
    + rewrite nth_error_app2 in K by (rewrite repeat_length; lia). apply nth_error_In, repeat_spec in K. subst. reflexivity.
  - replace (8 * t)%nat with (4 * (2 * t))%nat by lia. apply at_cluster_4; auto.
  - replace (8 * t)%nat with (4 * (2 * t))%nat by lia. apply at_cluster_4; auto.
Qed.
Print Assumptions clusters_are_alphas.
Example alphas_case : exists ps, fill_from_list (fun _ => 1) [(neutron, 8%Z); (proton, 8%Z)] (Z.of_nat 3) = Ok ps.
Proof. eexists. cbn [fill_from_list]. rewrite wrap_small by (cbn; lia). destruct (Z.leb_spec (2 ^ 32) (8 * Z.of_nat 3)); [lia|]. reflexivity. Qed.
(** The index of the next cluster is an int that is incremented for every nucleon and never reset: a run in
    which one nucleus receives 2^31 nucleons (2^27 events without test particles) overflows it. *)
Theorem cluster_index_refuted verts xs i : length verts = 4%nat -> (0 <= i < 2 ^ 31)%Z -> (2 ^ 31 <= i + Z.of_nat (length xs))%Z ->
  alpha_positions verts i xs = UB UB_signed_overflow.
Proof.
  revert i. induction xs as [|x xs IH]; intros i V I B; [cbn in B; lia|]. cbn [length] in B. cbn [alpha_positions]. rewrite V, wrap_small by lia.
  assert (M : (0 <= i mod 4 < 4)%Z) by (apply Z.mod_pos_bound; lia). change (Z.of_nat 4) with 4%Z.
  destruct (nth_error verts (Z.to_nat (i mod 4))) as [v|] eqn:N; [|apply nth_error_None in N; lia].
  destruct (Z.leb_spec (2 ^ 31 - 1) i); [reflexivity|]. rewrite IH by lia. reflexivity.
Qed.
Print Assumptions cluster_index_refuted.
(** Only oxygen 16 can be clustered. *)
Theorem only_oxygen A charge : ((A, charge) = (16, 8)%Z -> alpha_parameters A charge = Ok (0.322, 1.676)) /\
  ((A, charge) <> (16, 8)%Z -> alpha_parameters A charge = Throw E_domain).
Proof.
  unfold alpha_parameters. split.
  - intros [= -> ->]. cbn. apply f_equal. apply f_equal2; lra.
  - intros N. destruct (Z.eqb_spec A 16), (Z.eqb_spec charge 8); cbn; auto. subst. congruence.
Qed.
Print Assumptions only_oxygen.
