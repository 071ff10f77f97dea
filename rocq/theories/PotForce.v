(** The force on a baryon in matter at rest is minus the gradient of its potential energy (C123); what the potential
    is proportional to. *)
From Coq Require Import ZArith Reals List Bool Lra Lia.
From Verif Require Import Base VecModel VecProps DensModel DensSpec DensProofs DensProps DensMore WidthModel WoodsSaxon PotModel PotProps.
Import ListNotations.
Open Scope R_scope.

Definition at_rest (p : dpart) : Prop := threevec (d_mom p) = V3 0 0 0.
Lemma rest_velocity p : at_rest p -> velocity (d_mom p) = V3 0 0 0.
Proof. intros H. unfold velocity. rewrite H. unfold div3. v3. Qed.
Lemma rest_current par d r p : at_rest p -> particle_current par d r p = V4 (norm_factor_sf par * amount par d p * profile par p r) 0 0 0.
Proof. intros H. unfold particle_current. rewrite rest_velocity by auto. unfold scale4, mk4. cbn [y0 y1 y2 y3 x1 x2 x3]. f_equal; ring. Qed.
Lemma static_sums par d r ps : Forall physical ps -> Forall at_rest ps -> 0 <= norm_factor_sf par ->
  exists a b, sum4 (positive_current par d r) ps = V4 a 0 0 0 /\ sum4 (negative_current par d r) ps = V4 b 0 0 0 /\
    sum4 (particle_current par d r) ps = V4 (a + b) 0 0 0 /\ 0 <= a /\ b <= 0.
Proof.
  intros P R0 N. induction ps as [|p ps IH].
  - exists 0, 0. cbn [sum4]. unfold zero4. splits; auto; try lra. f_equal. ring.
  - inversion P as [|? ? Pp P']. subst. inversion R0 as [|? ? Rp R']. subst.
    destruct (IH P' R') as (a & b & A & B & C & A0 & B0).
    pose proof (profile_nonneg par p r Pp) as PN. cbn [sum4]. rewrite A, B, C. unfold positive_current, negative_current. rewrite (rest_current par d r p Rp).
    set (k := norm_factor_sf par * amount par d p * profile par p r).
    destruct (Rlt_dec 0 (amount par d p)) as [Q|Q].
    + exists (k + a), b. unfold zero4, add4. cbn [y0 y1 y2 y3]. splits; try (f_equal; ring); auto.
      enough (0 <= k) by lra. unfold k. apply Rmult_le_pos; auto. apply Rmult_le_pos; lra.
    + exists a, (k + b). unfold zero4, add4. cbn [y0 y1 y2 y3]. splits; try (f_equal; ring); auto.
      enough (0 <= - k) by lra. unfold k. replace (- (norm_factor_sf par * amount par d p * profile par p r)) with (norm_factor_sf par * - amount par d p * profile par p r) by ring.
      apply Rmult_le_pos; auto. apply Rmult_le_pos; lra.
Qed.
Lemma static_current par d g r ps : Forall physical ps -> Forall at_rest ps -> 0 <= norm_factor_sf par ->
  exists c, current_eckart r ps par d g true = Ok c /\ jmu c = V4 (y0 (j_at par d r ps)) 0 0 0 /\ rho c = y0 (j_at par d r ps).
Proof.
  intros P R0 N. destruct (static_sums par d r ps P R0 N) as (a & b & A & B & C & A0 & B0).
  destruct (current_value par d g r ps P N) as (c & E & J & RH). exists c. rewrite (j_at_eq par d r ps P), C. cbn [y0]. splits; auto.
  - now rewrite J, C.
  - rewrite RH, A, B. unfold length4, dot4. cbn [y0 y1 y2 y3]. replace (a * a - 0 * 0 - 0 * 0 - 0 * 0) with (Rsqr a) by (unfold Rsqr; ring).
    replace (b * b - 0 * 0 - 0 * 0 - 0 * 0) with (Rsqr b) by (unfold Rsqr; ring). rewrite !sqrt_Rsqr_abs. rewrite (Rabs_pos_eq a), (Rabs_left1 b) by auto. ring.
Qed.
(** the three axes *)
Inductive axis : vec3 -> (current -> vec4) -> (vec3 -> R) -> Prop :=
  axis1 : axis (V3 1 0 0) djmu_dx x1 | axis2 : axis (V3 0 1 0) djmu_dy x2 | axis3 : axis (V3 0 0 1) djmu_dz x3.
Definition density_along par d r e ps (h : R) : R := y0 (j_at par d (add3 r (scale3 h e)) ps).
Lemma static_derivs par d r ps c : Forall physical ps -> Forall at_rest ps -> off_cutoff par d r ps ->
  current_eckart r ps par d true true = Ok c ->
  threevec (djmu_dt c) = V3 0 0 0 /\ (forall e dj x, axis e dj x -> derivable_pt_lim (density_along par d r e ps) 0 (y0 (dj c)) /\ x (grad_j0 c) = y0 (dj c)).
Proof.
  intros P R0 OC E. split.
  - assert (M : forall t, map (drift t) ps = ps).
    { intros t. clear -R0. induction R0 as [|p ps Hp _ IH]; cbn; auto. rewrite IH. f_equal. unfold drift. rewrite rest_velocity by auto. destruct p as [ty po mo co]. cbn. f_equal. v3. }
    assert (Z0 : forall i, component i -> i (djmu_dt c) = 0).
    { intros i C. destruct (derivatives_of_the_current par d r ps c i P OC E C) as (_ & _ & _ & D).
      apply (uniqueness_limite (fun t => i (j_at par d r (map (drift t) ps))) 0); auto.
      apply (deriv_ext (fun _ => i (j_at par d r ps))); [intros; now rewrite M|]. apply derivable_pt_lim_const. }
    unfold threevec. now rewrite (Z0 _ comp1), (Z0 _ comp2), (Z0 _ comp3).
  - intros e dj x A. destruct (derivatives_of_the_current par d r ps c y0 P OC E comp0) as (D1 & D2 & D3 & _).
    destruct (gradient_and_curl par d r ps true c P E) as (G & _). rewrite G. destruct A; (split; [|reflexivity]).
    + eapply deriv_ext; [|exact D1]. intros h. unfold density_along. f_equal. f_equal. v3.
    + eapply deriv_ext; [|exact D2]. intros h. unfold density_along. f_equal. f_equal. v3.
    + eapply deriv_ext; [|exact D3]. intros h. unfold density_along. f_equal. f_equal. v3.
Qed.
Lemma deriv_near f l k : derivable_pt_lim f 0 l -> k < f 0 -> exists e, 0 < e /\ forall h, Rabs h < e -> k < f h.
Proof.
  intros D K. assert (CT : continuity_pt f 0) by (apply derivable_continuous_pt; now exists l).
  destruct (CT (f 0 - k)) as (e & E0 & EE); [lra|]. exists e. split; auto. intros h H.
  destruct (Req_dec h 0) as [->|NH]; auto.
  specialize (EE h). cbn in EE. unfold R_dist in EE. rewrite Rminus_0_r in EE.
  assert (Q : D_x no_cond 0 h /\ Rabs h < e) by (split; [unfold D_x, no_cond; split; auto|auto]). specialize (EE Q). apply Rabs_def2 in EE. lra.
Qed.
Lemma symmetry_total P (i b : R -> R) i' b' : 0 < b 0 -> derivable_pt_lim i 0 i' -> derivable_pt_lim b 0 b' ->
  exists vI vB, dVsym_drhoI3 P (b 0) (i 0) = Some vI /\ dVsym_drhoB P (b 0) (i 0) = Some vB /\
    derivable_pt_lim (fun h => symmetry_value P (i h) (b h)) 0 (vI * i' + vB * b').
Proof.
  intros B DI DB. destruct (symmetry_deriv_I P (i 0) (b 0) B) as (vI & EI & PI'). destruct (symmetry_deriv_B P (i 0) (b 0) B) as (vB & EB & PB).
  destruct (symmetry_deriv_B P 1 (b 0) B) as (k' & _ & PK). exists vI, vB. splits; auto. pose proof nd_pos as N.
  set (c := mev_to_gev * 2 * symmetry_S_pot P / nuclear_density) in *.
  set (k := fun y => match symmetry_gamma P with Some g => mev_to_gev * S_value g y / (y * y) | None => 0 end).
  assert (SV : forall i y, symmetry_value P i y = c * i + k y * (i * i)).
  { intros x y. unfold symmetry_value, c, k. destruct (symmetry_gamma P); unfold Rdiv; ring. }
  assert (DK : derivable_pt_lim k (b 0) k').
  { apply (deriv_ext (fun y => - c + symmetry_value P 1 y)); [intros y; rewrite SV; ring|].
    replace k' with (0 + k') by ring. apply (derivable_pt_lim_plus (fun _ => - c)); auto. apply derivable_pt_lim_const. }
  assert (SQ : forall x, derivable_pt_lim (fun x => x * x) x (1 * x + x * 1)) by (intros; apply (derivable_pt_lim_mult (fun x => x) (fun x => x)); apply derivable_pt_lim_id).
  assert (VI : vI = c + k (b 0) * (2 * i 0)).
  { apply (uniqueness_limite (fun i => symmetry_value P i (b 0)) (i 0)); auto.
    apply (deriv_ext (fun x => x * c + k (b 0) * (x * x))); [intros; rewrite SV; ring|]. apply (derivable_pt_lim_plus (fun x => x * c)); [apply deriv_linear|].
    apply deriv_scaled. replace (2 * i 0) with (1 * i 0 + i 0 * 1) by ring. apply SQ. }
  assert (VB : vB = k' * (i 0 * i 0)).
  { apply (uniqueness_limite (fun b => symmetry_value P (i 0) b) (b 0)); auto.
    apply (deriv_ext (fun y => c * i 0 + (i 0 * i 0) * k y)); [intros; rewrite SV; ring|].
    replace (k' * (i 0 * i 0)) with (0 + (i 0 * i 0) * k') by ring. apply (derivable_pt_lim_plus (fun _ => c * i 0)); [apply derivable_pt_lim_const|]. now apply deriv_scaled. }
  apply (deriv_ext (fun h => c * i h + k (b h) * (i h * i h))); [intros; apply SV|].
  rewrite VI, VB. replace (_ + _) with (c * i' + ((k' * b') * (i 0 * i 0) + k (b 0) * (i' * i 0 + i 0 * i'))) by ring.
  apply (derivable_pt_lim_plus (fun h => c * i h)); [now apply deriv_scaled|].
  apply (derivable_pt_lim_mult (fun h => k (b h)) (fun h => i h * i h)).
  - now apply (derivable_pt_lim_comp b k).
  - now apply (derivable_pt_lim_mult i i).
Qed.
(** The force on a baryon or nucleus at rest, from what all_forces returns: the two electric components times the two
    scales, as in update_momenta. *)
Definition force_at_rest (t : dtype) (f : force * force) : vec3 :=
  add3 (scale3 (fst (force_scale t)) (fst (fst f))) (scale3 (snd (force_scale t) * isospin3_rel t) (fst (snd f))).
Theorem static_force P r ps t : affected t = true -> use_skyrme P && use_vdf P = false ->
  Forall physical ps -> Forall at_rest ps -> 0 <= norm_factor_sf (param P) ->
  off_cutoff (param P) Baryon r ps -> off_cutoff (param P) BaryonicIsospin r ps ->
  very_small_double < y0 (j_at (param P) Baryon r ps) ->
  exists f, all_forces P r ps = Some f /\
    forall e dj x, axis e dj x -> exists U l, 0 < l /\ (forall h, Rabs h < l -> potential P (add3 r (scale3 h e)) ps t = Some (U h)) /\
      derivable_pt_lim U 0 (- x (force_at_rest t f)).
Proof.
  intros AF SV PH RE N OB OI DB. pose proof vs_pos as VS. set (par := param P) in *.
  destruct (static_current par Baryon true r ps PH RE N) as (cB & CB & JB & RB).
  destruct (static_current par BaryonicIsospin true r ps PH RE N) as (cI & CI & JI & RI).
  destruct (static_derivs par Baryon r ps cB PH RE OB CB) as (TB & GB). destruct (static_derivs par BaryonicIsospin r ps cI PH RE OI CI) as (TI & GI).
  set (nB := y0 (j_at par Baryon r ps)) in *. set (nI := y0 (j_at par BaryonicIsospin r ps)) in *.
  (* the forces *)
  set (vS := (skyrme_a P + skyrme_b P * skyrme_tau P * Rpower (nB / nuclear_density) (skyrme_tau P - 1)) * mev_to_gev / nuclear_density).
  destruct (symmetry_total P (fun _ => nI) (fun _ => nB) 0 0 ltac:(lra) (derivable_pt_lim_const _ _) (derivable_pt_lim_const _ _)) as (vI & vB & EI & EB & _). cbv beta in EI, EB.
  assert (AFE : exists f, all_forces P r ps = Some f /\
     (forall e dj x, axis e dj x -> x (fst (fst f)) = if use_vdf P then - ((F1 P nB * nB + F2 P nB) * y0 (dj cB)) else if use_skyrme P then - (vS * y0 (dj cB)) else 0) /\
     (forall e dj x, axis e dj x -> x (fst (snd f)) = if use_symmetry P then - (vI * y0 (dj cI) + vB * y0 (dj cB)) else 0)).
  { unfold all_forces. fold par. rewrite CB. cbn [lift obind]. rewrite RB. fold nB.
    assert (SK : (if use_skyrme P then skyrme_force P nB (grad_j0 cB) (threevec (djmu_dt cB)) (curl_vecj cB) else Some no_force) =
       Some (if use_skyrme P then (sub3 zero3 (scale3 vS (add3 (grad_j0 cB) (V3 0 0 0))), add3 zero3 (scale3 vS (curl_vecj cB))) else no_force)).
    { destruct (use_skyrme P) eqn:US; auto. unfold skyrme_force. rewrite US, TB. rewrite Rabs_pos_eq by lra. rewrite cpow_pos by (apply div_pos; lra). cbn [obind]. rewrite sgn_pos by lra.
      replace (1 * (skyrme_a P + skyrme_b P * skyrme_tau P * Rpower (nB / nuclear_density) (skyrme_tau P - 1)) * mev_to_gev / nuclear_density) with vS by (unfold vS, Rdiv; ring). reflexivity. }
    rewrite SK. cbn [obind]. rewrite CI. cbn [lift obind]. rewrite RI. fold nI. rewrite TB, TI.
    assert (SY : (if use_symmetry P then symmetry_force P nI (grad_j0 cI) (V3 0 0 0) (curl_vecj cI) nB (grad_j0 cB) (V3 0 0 0) (curl_vecj cB) else Some no_force) =
       Some (if use_symmetry P then (sub3 zero3 (add3 (scale3 vI (add3 (grad_j0 cI) (V3 0 0 0))) (scale3 vB (add3 (grad_j0 cB) (V3 0 0 0)))), add3 zero3 (add3 (scale3 vI (curl_vecj cI)) (scale3 vB (curl_vecj cB)))) else no_force)).
    { destruct (use_symmetry P) eqn:UY; auto. unfold symmetry_force. rewrite UY, EI, EB. reflexivity. }
    rewrite SY. cbn [obind]. eexists. split; [reflexivity|]. split; intros e dj x A; destruct (GB e dj x A) as (_ & XB); destruct (GI e dj x A) as (_ & XI); cbn [fst snd].
    - destruct (use_vdf P) eqn:UV.
      + unfold vdf_force. rewrite UV. cbv zeta. rewrite (Rabs_pos_eq nB) by lra. destruct (Rlt_dec nB very_small_double); [lra|]. rewrite (Rabs_pos_eq nB) by lra. rewrite clamp_big by lra. rewrite sgn_pos by lra.
        assert (RD : forall v, rest_density_derivative nB (jmu cB) v = y0 v).
        { intros v. unfold rest_density_derivative. cbv zeta. rewrite (Rabs_pos_eq nB) by lra. destruct (Rlt_dec nB very_small_double); [lra|]. rewrite JB. cbn [y0 y1 y2 y3]. field. lra. }
        rewrite !RD, JB. cbn [fst y0 threevec y1 y2 y3]. destruct A; cbn [x1 x2 x3 sub3 add3 scale3 zero3 threevec y1 y2 y3] in *; rewrite ?XB; cbn [x1 x2 x3 threevec y1 y2 y3]; ring.
      + destruct (use_skyrme P); [|destruct A; reflexivity]. cbn [fst]. destruct A; cbn [x1 x2 x3 sub3 add3 scale3 zero3] in *; rewrite ?XB; ring.
    - destruct (use_symmetry P); [|destruct A; reflexivity]. cbn [fst]. destruct A; cbn [x1 x2 x3 sub3 add3 scale3 zero3] in *; rewrite ?XB, ?XI; ring. }
  destruct AFE as (f & FE & FB & FI). exists f. split; auto. intros e dj x A.
  destruct (GB e dj x A) as (DXB & _). destruct (GI e dj x A) as (DXI & _). specialize (FB e dj x A). specialize (FI e dj x A).
  set (b := density_along par Baryon r e ps) in *. set (i := density_along par BaryonicIsospin r e ps) in *.
  assert (SH : add3 r (scale3 0 e) = r) by v3.
  assert (B0 : b 0 = nB) by (unfold b, density_along; now rewrite SH). assert (I0 : i 0 = nI) by (unfold i, density_along; now rewrite SH).
  destruct (deriv_near b _ very_small_double DXB) as (l & L & LL); [rewrite B0; exact DB|].
  set (sB := fst (force_scale t)) in *. set (sI := snd (force_scale t) * isospin3_rel t).
  exists (fun h => (if use_skyrme P then sB * skyrme_value (skyrme_a P) (skyrme_b P) (skyrme_tau P) (b h) else 0) +
     (if use_symmetry P then sI * symmetry_value P (i h) (b h) else 0) + (if use_vdf P then sB * (F2 P (b h) * b h) else 0)), l.
  splits; auto.
  - intros h H. specialize (LL h H). unfold potential. rewrite AF. cbn [negb]. fold par.
    destruct (static_current par Baryon false (add3 r (scale3 h e)) ps PH RE N) as (kB & KB & KJ & KR). rewrite KB. cbn [lift obind].
    destruct (static_current par BaryonicIsospin false (add3 r (scale3 h e)) ps PH RE N) as (kI & KI & _ & KRI). rewrite KI. cbn [lift obind].
    rewrite KR, KRI. change (y0 (j_at par Baryon (add3 r (scale3 h e)) ps)) with (b h) in *. change (y0 (j_at par BaryonicIsospin (add3 r (scale3 h e)) ps)) with (i h).
    rewrite skyrme_pos by lra. rewrite symmetry_pos by lra. cbn [obind].
    assert (VV : y0 (vdf_pot P (b h) (jmu kB)) = F2 P (b h) * b h).
    { unfold vdf_pot. rewrite KJ. rewrite Rabs_pos_eq by lra. rewrite clamp_big by lra. rewrite sgn_pos by lra. cbn [scale4 y0]. ring. }
    rewrite VV. unfold sI. fold sB. destruct (use_skyrme P), (use_symmetry P), (use_vdf P); cbn [obind]; f_equal; ring.
  - assert (XF : - x (force_at_rest t f) = - (x (fst (fst f))) * sB + - (x (fst (snd f))) * sI).
    { unfold force_at_rest, sI. fold sB. destruct A; cbn [x1 x2 x3 add3 scale3]; ring. }
    rewrite XF, FB, FI.
    assert (DS : derivable_pt_lim (fun h => if use_skyrme P then sB * skyrme_value (skyrme_a P) (skyrme_b P) (skyrme_tau P) (b h) else 0) 0 (if use_skyrme P then sB * (vS * y0 (dj cB)) else 0)).
    { destruct (use_skyrme P); [|apply derivable_pt_lim_const]. apply deriv_scaled. apply (derivable_pt_lim_comp b (skyrme_value (skyrme_a P) (skyrme_b P) (skyrme_tau P))); auto. rewrite B0. unfold vS. apply skyrme_value_deriv. lra. }
    assert (DY : derivable_pt_lim (fun h => if use_symmetry P then sI * symmetry_value P (i h) (b h) else 0) 0 (if use_symmetry P then sI * (vI * y0 (dj cI) + vB * y0 (dj cB)) else 0)).
    { destruct (use_symmetry P); [|apply derivable_pt_lim_const]. apply deriv_scaled.
      destruct (symmetry_total P i b _ _ ltac:(rewrite B0; lra) DXI DXB) as (wI & wB & WI & WB & D). rewrite B0, I0 in WI, WB. congruence || (rewrite EI in WI; rewrite EB in WB; injection WI as <-; injection WB as <-; exact D). }
    assert (DV : derivable_pt_lim (fun h => if use_vdf P then sB * (F2 P (b h) * b h) else 0) 0 (if use_vdf P then sB * ((F1 P nB * y0 (dj cB)) * nB + F2 P nB * y0 (dj cB)) else 0)).
    { destruct (use_vdf P); [|apply derivable_pt_lim_const]. apply deriv_scaled. rewrite <- B0. apply (derivable_pt_lim_mult (fun h => F2 P (b h)) b); auto.
      apply (derivable_pt_lim_comp b (F2 P)); auto. apply F2_deriv. rewrite B0. lra. }
    match goal with |- derivable_pt_lim _ _ ?v => replace v with ((if use_skyrme P then sB * (vS * y0 (dj cB)) else 0) + (if use_symmetry P then sI * (vI * y0 (dj cI) + vB * y0 (dj cB)) else 0) + (if use_vdf P then sB * ((F1 P nB * y0 (dj cB)) * nB + F2 P nB * y0 (dj cB)) else 0)) end.
    + apply (derivable_pt_lim_plus (fun h => _ + _)); auto. apply (derivable_pt_lim_plus (fun h => if use_skyrme P then _ else _)); auto.
    + destruct (use_skyrme P), (use_vdf P), (use_symmetry P); cbn in SV; try discriminate; ring.
Qed.
Print Assumptions static_force.

(** ** What the potential is proportional to *)
(** Mesons and leptons have no potential energy. *)
Theorem mesons_free P r ps t : affected t = false -> potential P r ps t = Some 0.
Proof. intros H. unfold potential. now rewrite H. Qed.
Print Assumptions mesons_free.
(** A baryon of light and strange quarks feels the fraction of the light ones, with the sign of its baryon number. *)
Theorem light_quark_fraction t n s : (n + s = 3)%Z -> Z.abs (strangeness t) = s -> fst (force_scale t) = IZR (baryon_number t) * (IZR n / 3).
Proof. intros H E. unfold force_scale. cbn [fst]. rewrite E. replace (3 - s)%Z with n by lia. field. Qed.
Print Assumptions light_quark_fraction.
(** The same is not true for hypernuclei and charmed baryons: the hypertriton (9 quarks, 8 of them light) feels 2
    instead of 8/3 times the potential, a charmed baryon with two light quarks the whole potential. *)
Theorem quark_fraction_refuted :
  (exists t, baryon_number t = 3%Z /\ strangeness t = (-1)%Z /\ fst (force_scale t) <> 3 * (8 / 9)) /\
  (exists t, baryon_number t = 1%Z /\ strangeness t = 0%Z /\ charge t = 1%Z /\ isospin t = 0%Z /\ fst (force_scale t) = 1).
Proof.
  split.
  - exists (DT true false true false 3 1 (-1) 0 0). splits; auto. unfold force_scale. cbn. lra.
  - exists (DT true true false false 1 1 0 0 0). splits; auto. unfold force_scale. cbn. field.
Qed.
Print Assumptions quark_fraction_refuted.

Lemma scale_anti t : fst (force_scale (anti t)) = - fst (force_scale t) /\ snd (force_scale (anti t)) = - snd (force_scale t).
Proof.
  unfold force_scale. cbn [anti fst snd strangeness baryon_number]. rewrite Z.abs_opp, opp_IZR. split; [unfold Rdiv; ring|reflexivity].
Qed.
Lemma iso_anti t : isospin3_rel (anti t) = - isospin3_rel t.
Proof. unfold isospin3_rel. cbn [anti isospin isospin3]. destruct (isospin t =? 0)%Z; [lra|]. rewrite opp_IZR. unfold Rdiv. ring. Qed.
Lemma some_inj {A} (x y : A) : Some x = Some y -> x = y. Proof. congruence. Qed.
(** In the Skyrme and VDF potentials an antibaryon has the opposite energy of the baryon at the same place. *)
Theorem antibaryon_opposite P r ps t u : use_symmetry P = false -> potential P r ps t = Some u -> potential P r ps (anti t) = Some (- u).
Proof.
  intros US E. unfold potential in *. change (affected (anti t)) with (affected t). destruct (affected t); cbn [negb] in *; [|injection E as <-; f_equal; ring].
  destruct (current_eckart r ps (param P) Baryon false true) as [cB|e|b]; cbn [lift obind] in *; try discriminate.
  destruct (scale_anti t) as (F1a & _). rewrite F1a, US in *.
  destruct (use_skyrme P).
  - destruct (skyrme_pot _ _ _ _) as [q|]; cbn [obind] in *; [|discriminate]. apply some_inj in E. rewrite <- E. f_equal. destruct (use_vdf P); ring.
  - cbn [obind] in *. apply some_inj in E. rewrite <- E. f_equal. destruct (use_vdf P); ring.
Qed.
Print Assumptions antibaryon_opposite.
(** In the symmetry potential it has the same energy: isospin and baryon number both change their sign.  An antineutron in
    neutron matter is repelled like a neutron. *)
Theorem antibaryon_symmetry_refuted P r ps t : use_skyrme P = false -> use_vdf P = false ->
  potential P r ps (anti t) = potential P r ps t.
Proof.
  intros U1 U2. unfold potential. change (affected (anti t)) with (affected t). destruct (affected t); cbn [negb]; [|reflexivity].
  destruct (current_eckart r ps (param P) Baryon false true) as [cB|e|b]; cbn [lift obind]; auto. rewrite U1, U2. cbn [obind].
  destruct (use_symmetry P); auto. destruct (current_eckart r ps (param P) BaryonicIsospin false true) as [cI|e|b]; cbn [lift obind]; auto.
  destruct (symmetry_pot _ _ _) as [q|]; cbn [obind]; auto. destruct (scale_anti t) as (_ & F2a). rewrite F2a, iso_anti. f_equal. ring.
Qed.
Print Assumptions antibaryon_symmetry_refuted.
(** Exchanging all particles with their antiparticles does not change the energy in the Skyrme potential. *)
Theorem skyrme_conjugation P r ps t : use_symmetry P = false -> use_vdf P = false -> 0 < skyrme_tau P ->
  Forall physical ps -> 0 <= norm_factor_sf (param P) ->
  potential P r (map anti_particle ps) (anti t) = potential P r ps t.
Proof.
  intros U1 U2 T PH N. unfold potential. change (affected (anti t)) with (affected t). destruct (affected t); cbn [negb]; [|reflexivity].
  destruct (antimatter (param P) Baryon false r ps PH N) as (c & c' & C & C' & J & RH); [split; discriminate|]. rewrite C, C'. cbn [lift obind]. rewrite U1, U2.
  destruct (use_skyrme P); [|reflexivity]. rewrite RH. destruct (scale_anti t) as (F1a & _).
  destruct (Req_dec (rho c) 0) as [Z0|NZ].
  - rewrite Z0, Ropp_0.
    assert (S0 : skyrme_pot (skyrme_a P) (skyrme_b P) (skyrme_tau P) 0 = Some 0).
    { unfold skyrme_pot. replace (0 / nuclear_density) with 0 by (unfold Rdiv; ring). cbv zeta. rewrite Rabs_R0. unfold cpow. destruct (Rlt_dec 0 0); [lra|]. destruct (Rlt_dec 0 (skyrme_tau P)); [|lra]. cbn [obind]. f_equal. ring. }
    rewrite S0. cbn [obind]. f_equal. ring.
  - destruct (skyrme_odd (skyrme_a P) (skyrme_b P) (skyrme_tau P) (rho c) NZ) as (u & U & U'). rewrite U, U'. cbn [obind]. rewrite F1a. f_equal. ring.
Qed.
Print Assumptions skyrme_conjugation.

(** The hypotheses of [static_force] are met by a proton at the origin seen from a point nearby. *)
Definition a_proton := DP (DT true true false false 1 1 0 1 1) (V3 0 0 0) (V4 1 0 0 0) 1.
Definition usual := Pot true (-209) 156 (135 / 100) true 18 (Some (1 / 2)) false 0 [] false 0 0 false true (DPar 4 16 (1 / 2) 1 false).
Lemma proton_density d : density_factor (d_type a_proton) d = 1 -> forall h, 0 <= h <= 1 -> y0 (j_at (DPar 4 16 (1 / 2) 1 false) d (V3 h 0 0) [a_proton]) = exp (- (h * h) * (1 / 2)).
Proof.
  intros F h H. assert (PH : physical a_proton) by (unfold physical, dot4; cbn; lra). assert (M : mass a_proton = 1). { unfold mass, dot4. cbn. replace (_ - _) with 1 by ring. apply sqrt_1. }
  rewrite j_at_eq by (constructor; auto). cbn [sum4 add4 y0 zero4]. unfold particle_current, profile, amount. rewrite F, M. cbn [only_participants andb norm_factor_sf r_cut_sqr two_sig_sqr_inv].
  rewrite Rabs_R1. destruct (Rlt_dec 1 really_small) as [Q|Q]; [unfold really_small in Q; lra|]. 
  assert (RD : rest_distance2 a_proton (V3 h 0 0) = h * h). { unfold rest_distance2. rewrite M. unfold dot3. cbn. field. }
  rewrite RD. destruct (Rle_dec (h * h) 16) as [Q2|Q2]; [|nra]. cbn [scale4 mk4 y0 d_mom a_proton]. field.
Qed.
Example static_case : affected (d_type a_proton) = true /\ use_skyrme usual && use_vdf usual = false /\ Forall physical [a_proton] /\ Forall at_rest [a_proton] /\
  0 <= norm_factor_sf (param usual) /\ off_cutoff (param usual) Baryon (V3 1 0 0) [a_proton] /\ off_cutoff (param usual) BaryonicIsospin (V3 1 0 0) [a_proton] /\
  very_small_double < y0 (j_at (param usual) Baryon (V3 1 0 0) [a_proton]).
Proof.
  assert (PH : physical a_proton) by (unfold physical, dot4; cbn; lra).
  assert (M : mass a_proton = 1). { unfold mass, dot4. cbn. replace (_ - _) with 1 by ring. apply sqrt_1. }
  assert (RD : rest_distance2 a_proton (V3 1 0 0) = 1). { unfold rest_distance2. rewrite M. unfold dot3. cbn. field. }
  splits; auto; try (constructor; auto; reflexivity).
  - cbn. lra.
  - intros p [<-|[]] _. rewrite RD. cbn. lra.
  - intros p [<-|[]] _. rewrite RD. cbn. lra.
  - cbn [usual param]. rewrite proton_density by (cbn; lra || reflexivity). 
    apply (Rlt_le_trans _ (/ 2)).
    + unfold very_small_double. apply Rinv_lt_contravar; [apply Rmult_lt_0_compat; [lra|apply pow_lt; lra]|]. apply (Rlt_le_trans _ (10 ^ 1)); [lra|]. apply Rle_pow; [lra|lia].
    + replace (- (1 * 1) * (1 / 2)) with (- (1 / 2)) by field. rewrite exp_Ropp. apply Rinv_le_contravar; [apply exp_pos|].
      assert (Q := exp_le_3). assert (S2 : exp (1 / 2) * exp (1 / 2) = exp 1) by (rewrite <- exp_plus; f_equal; field). pose proof (exp_pos (1 / 2)). nra.
Qed.
