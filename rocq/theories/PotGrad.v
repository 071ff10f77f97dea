(** More on the mean-field potentials (C123): the VDF terms, the VDF force in the whole computation of the forces, and the gradient of the
    single-particle energy. *)
From Coq Require Import ZArith Reals List Bool Lra Lia.
From Verif Require Import Base VecModel VecProps DensModel DensSpec DensProofs DensProps WidthModel PotModel PotProps PotForce PotMom PotMove.
Import ListNotations.
Open Scope R_scope.

(** The terms are accepted exactly when there are as many coefficients as powers and no power is negative; the coefficients
    are converted from MeV to GeV. *)
Theorem vdf_terms_read coeffs powers :
  (length coeffs = length powers -> (forall b, In b powers -> 0 <= b) ->
     exists l, read_vdf_terms coeffs powers = Ok l /\ map snd l = powers /\ map fst l = map (fun c => c / 1000) coeffs) /\
  (length coeffs <> length powers \/ (exists b, In b powers /\ b < 0) -> read_vdf_terms coeffs powers = Throw E_invalid_argument).
Proof.
  assert (ME : mev_to_gev = / 1000) by (unfold mev_to_gev; lra).
  unfold read_vdf_terms. split.
  - intros L P. rewrite L, Nat.eqb_refl. cbn [negb]. revert powers L P. induction coeffs as [|c cs IH]; intros [|b bs] L P; cbn in L; try discriminate; [exists []; auto|].
    destruct (IH bs) as (l & E & A & B); [lia|intros; apply P; right; auto|]. cbn [combine mapM fst snd]. destruct (Rlt_dec b 0) as [N|N]; [specialize (P b (or_introl eq_refl)); lra|].
    cbn [rbind]. rewrite E. cbn [rbind]. eexists. splits; [reflexivity|cbn; congruence|cbn; rewrite B, ME; reflexivity].
  - intros [N|(b & I & N)]; [destruct (Nat.eqb_spec (length coeffs) (length powers)); [contradiction|reflexivity]|].
    destruct (Nat.eqb_spec (length coeffs) (length powers)) as [L|L]; [cbn [negb]|reflexivity].
    revert powers L I. induction coeffs as [|c cs IH]; intros [|b' bs] L I; cbn in L; try discriminate; [destruct I|].
    cbn [combine mapM fst snd]. destruct (Rlt_dec b' 0) as [K|K]; [reflexivity|]. cbn [rbind]. destruct I as [->|I]; [lra|]. rewrite (IH bs); auto.
Qed.
Print Assumptions vdf_terms_read.
Example vdf_terms_case : length [-209.2; 156.4] = length [2; 2.35] /\ forall b, In b [2; 2.35] -> 0 <= b.
Proof. split; [reflexivity|]. intros b [<-|[<-|[]]]; lra. Qed.

Lemma current_curl r ps par d c : current_eckart r ps par d true true = Ok c ->
  grad_j0 c = V3 (y0 (djmu_dx c)) (y0 (djmu_dy c)) (y0 (djmu_dz c)) /\ curl_vecj c = curl (djmu_dx c) (djmu_dy c) (djmu_dz c).
Proof.
  unfold current_eckart. destruct (foldM _ _ _) as [s|e|u]; [|discriminate|discriminate]. cbn [rbind]. unfold finish_current.
  destruct (abs4 (jpos s)); [|discriminate|discriminate]. destruct (abs4 (jneg s)); [|discriminate|discriminate]. cbn [rbind]. intros E.
  match type of E with Ok ?a = Ok c => assert (C : c = a) by congruence end. clear E. subst c. cbn [grad_j0 curl_vecj djmu_dx djmu_dy djmu_dz]. unfold curl, scale3, scale4. cbn [y0 y1 y2 y3 x1 x2 x3]. split; f_equal; ring.
Qed.
Lemma partial_dot (J : vec4 -> vec4) i d : partials4 J i d -> partial (fun x => dot4 (J x) (J x)) i (2 * dot4 (J zero4) d).
Proof.
  intros H. assert (Z0 : coordinate i 0 = zero4) by (destruct i as [|[|[|]]]; reflexivity). unfold partial, dot4.
  assert (D : forall c, component c -> derivable_pt_lim (fun h => c (J (coordinate i h)) * c (J (coordinate i h))) 0 (2 * (c (J zero4) * c d))).
  { intros c C. pose proof (deriv_mult _ _ 0 _ _ (H c C) (H c C)) as D. cbv beta in D. rewrite Z0 in D. replace (2 * (c (J zero4) * c d)) with (c d * c (J zero4) + c (J zero4) * c d) by ring. exact D. }
  pose proof (D y0 ltac:(constructor)) as D0. pose proof (D y1 ltac:(constructor)) as D1. pose proof (D y2 ltac:(constructor)) as D2. pose proof (D y3 ltac:(constructor)) as D3.
  pose proof (deriv_minus _ _ 0 _ _ D0 (deriv_plus _ _ 0 _ _ (deriv_plus _ _ 0 _ _ D1 D2) D3)) as G.
  eapply deriv_ext; [|replace (2 * _) with (2 * (y0 (J zero4) * y0 d) - (2 * (y1 (J zero4) * y1 d) + 2 * (y2 (J zero4) * y2 d) + 2 * (y3 (J zero4) * y3 d))) by ring; exact G].
  intros h. cbv beta. ring.
Qed.
Lemma partial_sqrt (f : vec4 -> R) i l : 0 < f zero4 -> partial f i l -> partial (fun x => sqrt (f x)) i (l / (2 * sqrt (f zero4))).
Proof.
  intros P H. assert (Z0 : coordinate i 0 = zero4) by (destruct i as [|[|[|]]]; reflexivity). unfold partial in *.
  replace (l / (2 * sqrt (f zero4))) with (/ (2 * sqrt (f zero4)) * l) by (unfold Rdiv; ring).
  apply (derivable_pt_lim_comp (fun h => f (coordinate i h)) sqrt); auto. rewrite Z0. apply derivable_pt_lim_sqrt; auto.
Qed.
(** The VDF part of the forces at a point: whenever the current around the point is a field J with the value and the derivatives that the
    density computation found, the electric part is minus the gradient of A0 minus the time derivative of A and the magnetic part is
    the curl of A, where A is the VDF field of J and its invariant length. *)
Theorem vdf_force_total P r ps c f (J : vec4 -> vec4) : use_vdf P = true -> current_eckart r ps (param P) Baryon true true = Ok c ->
  all_forces P r ps = Some f -> very_small_double < rho c -> dot4 (jmu c) (jmu c) = rho c * rho c -> J zero4 = jmu c ->
  partials4 J 0 (djmu_dt c) -> partials4 J 1 (djmu_dx c) -> partials4 J 2 (djmu_dy c) -> partials4 J 3 (djmu_dz c) ->
  exists dA, (forall i, (i < 4)%nat -> partials4 (fun x => vdf_pot P (sqrt (dot4 (J x) (J x))) (J x)) i (dA i)) /\
    fst f = (neg3 (add3 (V3 (y0 (dA 1%nat)) (y0 (dA 2%nat)) (y0 (dA 3%nat))) (threevec (dA 0%nat))), curl (dA 1%nat) (dA 2%nat) (dA 3%nat)).
Proof.
  intros UV CE AF RB RR JZ D0 D1 D2 D3. pose proof vs_pos as VS. destruct (current_curl _ _ _ _ _ CE) as (GJ & CU).
  pose (rr := fun x => sqrt (dot4 (J x) (J x))). assert (RZ : rr zero4 = rho c) by (unfold rr; rewrite JZ, RR; apply sqrt_square; lra).
  pose (dj := fun i => match i with 0%nat => djmu_dt c | 1%nat => djmu_dx c | 2%nat => djmu_dy c | _ => djmu_dz c end).
  assert (DJ : forall i, (i < 4)%nat -> partials4 J i (dj i)) by (intros [|[|[|[|i]]]] L; try lia; assumption).
  assert (DP : 0 < dot4 (J zero4) (J zero4)) by (rewrite JZ, RR; apply Rmult_lt_0_compat; lra).
  pose (dr := fun i => rest_density_derivative (rho c) (jmu c) (dj i)).
  assert (DR : forall i, (i < 4)%nat -> partial rr i (dr i)).
  { intros i L. pose proof (partial_sqrt (fun x => dot4 (J x) (J x)) i _ DP (partial_dot J i (dj i) (DJ i L))) as G. cbv beta in G. rewrite JZ, RR, sqrt_square in G by lra.
    replace (dr i) with (2 * dot4 (jmu c) (dj i) / (2 * rho c)); [exact G|]. unfold dr, rest_density_derivative. cbv zeta. rewrite Rabs_pos_eq by lra.
    destruct (Rlt_dec (rho c) very_small_double); [lra|]. unfold dot4. field. lra. }
  destruct (vdf_chain_rule P J rr dr dj UV) as (dA & HA & E1 & E2); [rewrite RZ; exact RB|intros i L; split; auto|].
  exists dA. split; [exact HA|]. cbv zeta in E1, E2. rewrite E2 in E1. rewrite <- E1. clear E1 E2.
  revert AF. unfold all_forces. rewrite CE. cbn [lift obind]. destruct (if use_skyrme P then _ else _); [cbn [obind]|discriminate]. destruct (if use_symmetry P then _ else _); [cbn [obind]|discriminate].
  intros AF. rewrite UV in AF. cbv zeta in AF.
  match type of AF with Some ?a = Some f => assert (F : f = a) by congruence end. clear AF. subst f. cbn [fst].
  rewrite Rabs_pos_eq by lra. destruct (Rlt_dec (rho c) very_small_double); [lra|]. rewrite RZ, JZ, GJ, CU. reflexivity.
Qed.
Print Assumptions vdf_force_total.

(** ** The gradient of the single-particle energy *)
(** The current at a place: that of the lattice, or where it does not reach, and if this is allowed, that of all particles *)
Definition current_of (P : pot) (jB : option current_lattice) (ps : list dpart) (y : vec3) (j : vec4) : Prop :=
  (exists steps l, jB = Some (steps, l) /\ l y = Some j) \/
  ((jB = None \/ exists steps l, jB = Some (steps, l) /\ l y = None) /\ outside_lattice P = true /\
   exists c, current_eckart y ps (param P) Baryon false true = Ok c /\ jmu c = j).
Lemma near_of P jB ps y j : current_of P jB ps y j -> current_near P jB ps y = Ok (Some j).
Proof.
  unfold current_near. intros [(s & l & -> & E)|(N & O & c & C & <-)].
  - cbn [snd]. rewrite E. reflexivity.
  - destruct N as [->|(s & l & -> & E)]; [|cbn [snd]; rewrite E]; rewrite O, C; reflexivity.
Qed.
(** Each component is the difference of the energies one step to the right and to the left, divided by the distance of the two places. *)
Theorem gradient_is_difference P energy jB x p m ps (E : vec3 -> R) dx dy dz :
  (match jB with Some l => fst l | None => (1 / 10, 1 / 10, 1 / 10) end) = (dx, dy, dz) ->
  (forall a b c, exists j, current_of P jB ps (V3 a b c) j /\ energy p j m = Ok (E (V3 a b c))) ->
  energy_gradient P energy jB x p m ps = Ok (V3
    ((E (V3 (x1 x + dx) (x2 x) (x3 x)) - E (V3 (x1 x - dx) (x2 x) (x3 x))) / (2 * dx))
    ((E (V3 (x1 x) (x2 x + dy) (x3 x)) - E (V3 (x1 x) (x2 x - dy) (x3 x))) / (2 * dy))
    ((E (V3 (x1 x) (x2 x) (x3 x + dz)) - E (V3 (x1 x) (x2 x) (x3 x - dz))) / (2 * dz))).
Proof.
  intros S H. unfold energy_gradient.
  assert (G : forall y, exists j, current_near P jB ps y = Ok (Some j) /\ energy p j m = Ok (E y)).
  { intros [a b c]. destruct (H a b c) as (j & C & Ej). exists j. split; auto. apply near_of; auto. }
  assert (K : forall (A : Type) (s : R * R * R) (k : R -> R -> R -> A) v, s = (dx, dy, dz) -> k dx dy dz = v -> (let '(a, b, c) := s in k a b c) = v) by (intros A s k v -> <-; reflexivity).
  apply K; [exact S|]. cbv beta iota zeta.
  repeat match goal with |- context [current_near P jB ps ?y] => let j := fresh "j" in let A := fresh in let B := fresh in destruct (G y) as (j & A & B); rewrite A; cbn [rbind]; rewrite ?B end.
  repeat match goal with A : energy p ?j m = Ok _ |- context [energy p ?j m] => rewrite A; cbn [rbind] end.
  unfold add3, sub3, scale3. cbn [x1 x2 x3]. rewrite !Rmult_1_l, !Rmult_0_l, !Rplus_0_r, !Rminus_0_r. reflexivity.
Qed.
Print Assumptions gradient_is_difference.
(** It is exact for an energy that is linear in the position. *)
Theorem gradient_exact P energy jB x p m ps e0 k dx dy dz :
  (match jB with Some l => fst l | None => (1 / 10, 1 / 10, 1 / 10) end) = (dx, dy, dz) -> dx <> 0 -> dy <> 0 -> dz <> 0 ->
  (forall y, exists j, current_of P jB ps y j /\ energy p j m = Ok (e0 + dot3 k y)) ->
  energy_gradient P energy jB x p m ps = Ok k.
Proof.
  intros S X Y Z0 H. rewrite (gradient_is_difference P energy jB x p m ps (fun y => e0 + dot3 k y) dx dy dz S (fun a b c => H (V3 a b c))).
  f_equal. destruct k as [k1 k2 k3]. unfold dot3. cbn [x1 x2 x3]. f_equal; field; auto.
Qed.
Print Assumptions gradient_exact.
(** a lattice with the current (1 + x, 0, 0, 0) and an energy equal to the density *)
Example gradient_case P ps : energy_gradient P (fun _ j _ => Ok (y0 j)) (Some ((1, 1, 1), fun y => Some (V4 (1 + x1 y) 0 0 0))) (V3 0 0 0) (V3 0 0 0) 1 ps = Ok (V3 1 0 0).
Proof.
  apply gradient_exact with 1 1 1 1; auto; try lra. intros y. exists (V4 (1 + x1 y) 0 0 0). split.
  - left. do 2 eexists. split; reflexivity.
  - unfold dot3. cbn [y0 x1 x2 x3]. f_equal. ring.
Qed.
(** Where the current is not known on one side the gradient is zero: no lattice, and none allowed beyond it. *)
Theorem gradient_unknown P energy x p m ps : outside_lattice P = false -> energy_gradient P energy None x p m ps = Ok (V3 0 0 0).
Proof. intros O. unfold energy_gradient, current_near. rewrite O. reflexivity. Qed.
Print Assumptions gradient_unknown.
(** The magnetic field of a cell is the curl of the vector potential of its current. *)
Theorem magnetic_curl j volume c r : really_small <= abs3 (sub3 r c) -> exists dx dy dz,
  (forall k e dj x d, axis e dj x -> (x = x1 /\ d = dx \/ x = x2 /\ d = dy \/ x = x3 /\ d = dz) -> (k = x1 \/ k = x2 \/ k = x3) ->
     derivable_pt_lim (fun h => charge_potential (k j * volume) c (add3 r (scale3 h e))) 0 (k d)) /\
  scale3 volume (B_field_integrand c j r) = V3 (x3 dy - x2 dz) (x1 dz - x3 dx) (x2 dx - x1 dy).
Proof.
  intros D. assert (D0 : 0 < abs3 (sub3 r c)) by (unfold really_small in D; lra). set (q := sub3 r c) in *.
  pose (K := elementary_charge * volume / abs3 q ^ 3).
  exists (scale3 (- (K * x1 q)) j), (scale3 (- (K * x2 q)) j), (scale3 (- (K * x3 q)) j). split.
  - intros k e dj x d A C KK. pose proof (potential_slope (k j * volume) c r e x dj A D0) as H. fold q in H.
    replace (k d) with (- (elementary_charge * (k j * volume) * x q / abs3 q ^ 3)); [exact H|].
    assert (S : k d = - (K * x q) * k j). { destruct C as [(-> & ->)|[(-> & ->)|(-> & ->)]]; destruct KK as [->|[->| ->]]; unfold scale3; cbn [x1 x2 x3]; ring. }
    rewrite S. unfold K, Rdiv. ring.
  - unfold B_field_integrand. fold q. destruct (Rlt_dec _ _); [lra|]. unfold K, Rdiv. set (w := / abs3 q ^ 3). unfold scale3, div3, cross3. cbn [x1 x2 x3]. unfold Rdiv. fold w. unfold scale3. cbn [x1 x2 x3]. apply vec3_eq; cbn [x1 x2 x3]; ring.
Qed.
Print Assumptions magnetic_curl.
