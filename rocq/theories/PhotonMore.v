(** C126, continued: the photon angle is always usable, the form factors at 1 GeV, and processes without cross section. *)
From Coq Require Import ZArith Reals List Bool Lia Lra Psatz.
From Verif Require Import Base VecModel ScatModel PhotonModel PhotonWeight.
Import ListNotations.
Open Scope R_scope.

(** the cosine that belongs to a momentum transfer t: t = m2^2 - 2 E2 k + 2 p k cos, with the energies in the centre of momentum *)
Definition exact_cos (W m1 m2 m p t : R) : R :=
  let k := (W * W - m * m) / (2 * W) in
  let e2 := (W * W + m2 * m2 - m1 * m1) / (2 * W) in
  (t - m2 * m2 + 2 * e2 * k) / (2 * p * k).
(** Whatever momentum transfer comes in, also one beyond the kinematic range by rounding: the cosine used is the one that belongs to it if
    there is one, otherwise the nearest possible one, and the direction can be set. *)
Theorem photon_angle W m1 m2 m p t a : 0 < W -> 0 < p -> W * W <> m * m ->
  exists c ang, photon_cos (W * W) W m1 m2 m p t = Ok c /\ set_costheta c a = Ok ang /\ -1 <= c <= 1 /\
    (-1 <= exact_cos W m1 m2 m p t <= 1 -> c = exact_cos W m1 m2 m p t) /\
    (1 < exact_cos W m1 m2 m p t -> c = 1) /\ (exact_cos W m1 m2 m p t < -1 -> c = -1).
Proof.
  intros HW HP HM. set (f := exact_cos W m1 m2 m p t). unfold photon_cos.
  assert (D : p * (W * W - m * m) / W <> 0).
  { intros D. assert (X : p * (W * W - m * m) = 0) by (replace (p * (W * W - m * m)) with (p * (W * W - m * m) / W * W) by (field; lra); rewrite D; ring).
    apply Rmult_integral in X. lra. }
  destruct (Req_EM_T _ 0) as [E|_]; [contradiction|]. cbv zeta.
  assert (F : (t - m2 * m2 + 5 / 10 * (W * W + m2 * m2 - m1 * m1) * (W * W - m * m) / (W * W)) / (p * (W * W - m * m) / W) = f).
  { unfold f, exact_cos. cbv zeta. field. splits; lra. }
  rewrite F. clearbody f. clear F D.
  assert (C : forall c, -1 <= c <= 1 -> exists ang, set_costheta c a = Ok ang).
  { intros c H. unfold set_costheta, rltb, really_small. destruct (Rlt_dec c _) as [X|_]; [lra|].
    destruct (Rlt_dec _ c) as [X|_]; [lra|]. eexists; reflexivity. }
  destruct (Rlt_dec 1 f) as [U|U].
  - destruct (Rlt_dec 1 (-1)) as [X|_]; [lra|]. destruct (C 1) as [ang A]; [lra|]. exists 1, ang. splits; auto; lra.
  - destruct (Rlt_dec f (-1)) as [L|L].
    + destruct (C (-1)) as [ang A]; [lra|]. exists (-1), ang. splits; auto; lra.
    + destruct (C f) as [ang A]; [lra|]. exists f, ang. splits; auto; lra.
Qed.
Print Assumptions photon_angle.
(** at rest masses of pion and rho and 1 GeV the hypotheses hold *)
Example photon_angle_case : 0 < 1 /\ 0 < 1 / 10 /\ 1 * 1 <> (776 / 1000) * (776 / 1000).
Proof. splits; lra. Qed.

Lemma one_power x : Rpower 1 x = 1.
Proof. unfold Rpower. rewrite ln_1, Rmult_0_r. apply exp_0. Qed.
(** The fitted momentum transfers of pion and omega exchange at 1 GeV are -0.1894 and -0.547 GeV^2; the factors are (2/(2-t))^2, so that
    omega exchange is suppressed more. *)
Theorem form_factors_at_one :
  form_factor_pion 1 = (2 / (2 + 1894 / 10000)) ^ 2 /\ form_factor_omega 1 = (2 / (2 + 547 / 1000)) ^ 2 /\
  form_factor_omega 1 < form_factor_pion 1 < 1.
Proof.
  assert (P : form_factor_pion 1 = (2 / (2 + 1894 / 10000)) ^ 2) by (unfold form_factor_pion, dipole, t_pion; rewrite !one_power; field).
  assert (O : form_factor_omega 1 = (2 / (2 + 547 / 1000)) ^ 2) by (unfold form_factor_omega, dipole, t_omega; rewrite !one_power; field).
  splits; auto; rewrite ?P, ?O; nra.
Qed.
Print Assumptions form_factors_at_one.
(** The form factor of omega exchange at every photon energy: the published fit of the momentum transfer in the dipole form. *)
Theorem omega_form_factor e t :
  t = 37738 / 1000 * Rpower e (9317 / 10000) - 61595 / 1000 * Rpower e (9979 / 10000) + 28592 / 1000 * Rpower e (11579 / 10000)
      - 5282 / 1000 * Rpower e (13686 / 10000) -> t <> 2 -> form_factor_omega e * (1 - t / 2) ^ 2 = 1.
Proof.
  intros H N. unfold form_factor_omega, dipole. replace (t_omega e) with t by (rewrite H; unfold t_omega; ring). field. lra.
Qed.
Print Assumptions omega_form_factor.
(** A process whose cross section vanishes gives photons of weight zero. *)
Theorem photon_without_cross_section r had fa fb e t t0 t1 diff total : r <> no_reaction -> (forall m, total m = 0) ->
  photon_weight r 1 had fa fb e t t0 t1 diff total = Ok 0.
Proof.
  intros N H. rewrite (photon_yield_one r had fa fb e t t0 t1 diff total 0); [f_equal; unfold Rdiv; ring|].
  assert (Z0 : forall m, total_cross_section true (total m) = 0).
  { intros m. unfold total_cross_section. rewrite H. destruct (Req_EM_T 0 0) as [_|X]; [reflexivity|contradiction]. }
  assert (K : forall x, x = 0 -> cut_off x = 0) by (intros x ->; unfold cut_off; destruct Rlt_dec; lra).
  destruct r; try contradiction; cbn [with_form_factors]; f_equal; apply K; rewrite !Z0; ring.
Qed.
Print Assumptions photon_without_cross_section.
Example photon_without_case : photon_weight pi_z_rho_z_pi_z 1 20 1 1 1 0 0 0 (fun _ _ => 0) (fun _ => 0) = Ok 0.
Proof. apply photon_without_cross_section; [discriminate|reflexivity]. Qed.

(** ** Which form factor goes with which process *)
Inductive exchange := by_pion | by_omega | by_both.
(** pi0 rho0 -> pi0 has only omega exchange, charged rho and a neutral pion on either side have both, everything else pion exchange *)
Definition exchanged (r : reaction) : option exchange :=
  match r with
  | no_reaction => None
  | pi_z_rho_z_pi_z => Some by_omega
  | pi_m_rho_p_pi_z | pi_p_rho_m_pi_z | pi_z_rho_m_pi_m | pi_z_rho_p_pi_p => Some by_both
  | _ => Some by_pion
  end.
(** The cross section with form factors is that of each exchange times the fourth power of its form factor, at most 200 mb; a pair that
    does not make photons is refused. *)
Theorem photon_form_factors r e xs :
  let P := form_factor_pion e ^ 4 in let O := form_factor_omega e ^ 4 in
  match exchanged r with
  | None => with_form_factors r e xs = Throw E_runtime
  | Some by_pion => with_form_factors r e xs = Ok (Rmin 200 (P * xs SUM))
  | Some by_omega => with_form_factors r e xs = Ok (Rmin 200 (O * xs SUM))
  | Some by_both => with_form_factors r e xs = Ok (Rmin 200 (P * xs PION + O * xs OMEGA))
  end.
Proof.
  assert (K : forall x, cut_off x = Rmin 200 x) by (intros x; unfold cut_off, Rmin; destruct Rlt_dec, Rle_dec; lra).
  intros P O. destruct r; cbn [exchanged with_form_factors]; rewrite ?K; reflexivity.
Qed.
Print Assumptions photon_form_factors.
