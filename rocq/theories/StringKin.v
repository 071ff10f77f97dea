(** Kinematics of string fragmentation: src/stringprocess.cc, src/include/smash/stringprocess.h.
    Doubles are exact reals. *)
From Coq Require Import ZArith Reals List Lia Lra Psatz Rtrigo_def.
From Verif Require Import Base VecModel MotionModel.
Import ListNotations.
Open Scope R_scope.

(** ** the last two hadrons of a string *)

(** make_lightcone_final_two, stringprocess.cc:2788-2851; [reverse] is the outcome of the random
    comparison.  None: return false.  Result: p+ forward, p+ backward, p- forward, p- backward. *)
Definition lightcone_final_two (ppos pneg mf mb : R) (reverse : bool) : option (R * R * R * R) :=
  let M2 := 2 * ppos * pneg in
  if Rlt_dec M2 0 then None
  else if Rlt_dec (sqrt M2) (mf + mb) then None
  else
    let xm_diff := (mf * mf - mb * mb) / M2 in
    let xe_pos := / 2 * (1 + xm_diff) in
    let xe_neg := / 2 * (1 - xm_diff) in
    let lambda_sqr := (M2 - mf * mf - mb * mb) * (M2 - mf * mf - mb * mb) - 4 * (mf * mf) * (mb * mb) in
    if Rle_dec lambda_sqr 0 then None
    else
      let lambda := sqrt lambda_sqr in
      let x := / 2 * lambda / M2 in
      let xpz := if reverse then - x else x in
      let pf := (xe_pos + xpz) * ppos in
      let pb := (xe_neg - xpz) * ppos in
      Some (pf, pb, / 2 * (mf * mf) / pf, / 2 * (mb * mb) / pb).

Lemma frac_pos M2 a b l : 0 < M2 -> 0 < a -> 0 < b -> l * l = (M2 - a - b) * (M2 - a - b) - 4 * a * b -> a + b <= M2 ->
  let u := (M2 + a - b + l) / (2 * M2) in let v := (M2 - a + b - l) / (2 * M2) in
  0 < u /\ 0 < v /\ u + v = 1 /\ / 2 * a / u + / 2 * b / v = M2 / 2.
Proof.
    intros HM Ha Hb Hl Hd u v.
    assert (E1 : (M2 + a - b + l) * (M2 + a - b - l) = 4 * M2 * a) by nra.
    assert (E2 : (M2 - a + b - l) * (M2 - a + b + l) = 4 * M2 * b) by nra.
    assert (P1 : 0 < M2 + a - b + l).
    { assert (0 < 4 * M2 * a) by (apply Rmult_lt_0_compat; lra).
      destruct (Rlt_dec 0 (M2 + a - b + l)) as [|N]; [assumption|]. exfalso.
      destruct (Rle_dec 0 (M2 + a - b - l)); nra. }
    assert (P2 : 0 < M2 - a + b - l).
    { assert (0 < 4 * M2 * b) by (apply Rmult_lt_0_compat; lra).
      destruct (Rlt_dec 0 (M2 - a + b - l)) as [|N]; [assumption|]. exfalso.
      destruct (Rle_dec 0 (M2 - a + b + l)); nra. }
    assert (U : 0 < u) by (unfold u; apply Rdiv_lt_0_compat; lra).
    assert (V : 0 < v) by (unfold v; apply Rdiv_lt_0_compat; lra).
    split; [exact U|]. split; [exact V|]. split; [unfold u, v; field; lra|].
    assert (Q1 : a / u = (M2 + a - b - l) / 2).
    { apply (Rmult_eq_reg_l u); [|lra]. transitivity a; [field; lra|]. unfold u.
      transitivity ((M2 + a - b + l) * (M2 + a - b - l) / (4 * M2)); [rewrite E1; field; lra|field; lra]. }
    assert (Q2 : b / v = (M2 - a + b + l) / 2).
    { apply (Rmult_eq_reg_l v); [|lra]. transitivity b; [field; lra|]. unfold v.
      transitivity ((M2 - a + b - l) * (M2 - a + b + l) / (4 * M2)); [rewrite E2; field; lra|field; lra]. }
    replace (/ 2 * a / u) with (/ 2 * (a / u)) by (field; lra).
    replace (/ 2 * b / v) with (/ 2 * (b / v)) by (field; lra).
    rewrite Q1, Q2. field.
Qed.

(** C87: the last two hadrons share the lightcone momenta of the string exactly, all of them are
    positive and each hadron is on its transverse mass shell 2 p+ p- = mT^2.  They are produced
    exactly if the string is heavier than the two hadrons. *)
Theorem final_two_share_the_string ppos pneg mf mb reverse : 0 < ppos -> 0 < mf -> 0 < mb ->
  match lightcone_final_two ppos pneg mf mb reverse with
  | Some (pf, pb, nf, nb) =>
      (mf + mb) * (mf + mb) < 2 * ppos * pneg /\
      0 < pf /\ 0 < pb /\ 0 < nf /\ 0 < nb /\
      pf + pb = ppos /\ nf + nb = pneg /\ 2 * pf * nf = mf * mf /\ 2 * pb * nb = mb * mb
  | None => 2 * ppos * pneg <= (mf + mb) * (mf + mb)
  end.
Proof.
  intros Pp Mf Mb. unfold lightcone_final_two. cbv zeta. set (M2 := 2 * ppos * pneg).
  assert (Sq : 0 < (mf + mb) * (mf + mb)) by nra.
  destruct (Rlt_dec M2 0) as [N|N]; [lra|].
  destruct (Rlt_dec (sqrt M2) (mf + mb)) as [L|L].
  { pose proof (sqrt_pos M2). pose proof (sqrt_sqrt M2 ltac:(lra)). nra. }
  assert (G : (mf + mb) * (mf + mb) <= M2).
  { pose proof (sqrt_pos M2). pose proof (sqrt_sqrt M2 ltac:(lra)). nra. }
  set (a := mf * mf). set (b := mb * mb).
  assert (Pa : 0 < a) by (unfold a; nra). assert (Pb : 0 < b) by (unfold b; nra).
  destruct (Rle_dec ((M2 - a - b) * (M2 - a - b) - 4 * a * b) 0) as [Z|Z].
  { destruct (Req_dec M2 ((mf + mb) * (mf + mb))) as [E|E]; [lra|exfalso].
    assert (X : (M2 - a - b) * (M2 - a - b) - 4 * a * b = (M2 - (mf + mb) * (mf + mb)) * (M2 - (mf - mb) * (mf - mb))) by (unfold a, b; ring).
    rewrite X in Z. assert (0 < M2 - (mf + mb) * (mf + mb)) by lra. assert (0 < M2 - (mf - mb) * (mf - mb)) by nra. nra. }
  assert (HM : 0 < M2) by lra.
  assert (Gt : (mf + mb) * (mf + mb) < M2).
  { destruct (Req_dec M2 ((mf + mb) * (mf + mb))) as [E|E]; [|lra]. exfalso. apply Z. rewrite E. unfold a, b. apply Req_le. ring. }
  set (l0 := sqrt _). assert (L0 : l0 * l0 = (M2 - a - b) * (M2 - a - b) - 4 * a * b) by (apply sqrt_sqrt; lra).
  clearbody l0. set (l := if reverse then - l0 else l0).
  assert (Hl : l * l = (M2 - a - b) * (M2 - a - b) - 4 * a * b) by (unfold l; destruct reverse; nra).
  assert (Hd : a + b <= M2) by (unfold a, b; nra).
  destruct (frac_pos M2 a b l HM Pa Pb Hl Hd) as (U & V & UV & S2).
  set (u := (M2 + a - b + l) / (2 * M2)) in *. set (v := (M2 - a + b - l) / (2 * M2)) in *.
  assert (Eu : / 2 * (1 + (a - b) / M2) + (if reverse then - (/ 2 * l0 / M2) else / 2 * l0 / M2) = u).
  { unfold u, l. destruct reverse; field; lra. }
  assert (Ev : / 2 * (1 - (a - b) / M2) - (if reverse then - (/ 2 * l0 / M2) else / 2 * l0 / M2) = v).
  { unfold v, l. destruct reverse; field; lra. }
  rewrite Eu, Ev. clear Eu Ev. clearbody u v.
  assert (PU : 0 < u * ppos) by nra. assert (PV : 0 < v * ppos) by nra.
  split; [exact Gt|]. split; [exact PU|]. split; [exact PV|].
  split; [apply Rdiv_lt_0_compat; lra|]. split; [apply Rdiv_lt_0_compat; lra|].
  split; [nra|]. split; [|split; field; split; lra || (apply Rgt_not_eq; assumption)].
  replace (/ 2 * a / (u * ppos) + / 2 * b / (v * ppos)) with ((/ 2 * a / u + / 2 * b / v) / ppos) by (field; lra).
  rewrite S2. unfold M2. field. lra.
Qed.
Print Assumptions final_two_share_the_string.
Example final_two_example : exists r, lightcone_final_two 3 3 1 (1/2) true = Some r.
Proof.
  pose proof (final_two_share_the_string 3 3 1 (1/2) true ltac:(lra) ltac:(lra) ltac:(lra)) as H.
  destruct (lightcone_final_two 3 3 1 (1/2) true) as [r|]; [eauto|exfalso; lra].
Qed.

(** ** shift of the rapidities *)

(** one final particle of shift_rapidity_event, stringprocess.h:1060-1094; [e0] is evec_basis[0].
    M_SQRT1_2 is 1/sqrt 2. *)
Definition shift_rapidity (e0 : vec3) (factor diff : R) (p : vec4) : vec4 :=
  let E := y0 p in
  let pl := dot3 (threevec p) e0 in
  let pp := (E + pl) * / sqrt 2 in
  let pn := (E - pl) * / sqrt 2 in
  let mT := sqrt (2 * pp * pn) in
  let y := / 2 * ln (pp / pn) in
  let y' := factor * y + diff in
  mk4 (mT * cosh y') (add3 (threevec p) (scale3 (mT * sinh y' - pl) e0)).
Definition sum_vec4 (l : list vec4) : vec4 := fold_left add4 l zero4.
(** the loop: the new momenta, and the total put into entry 0 *)
Definition shift_event (e0 : vec3) (factor diff : R) (ev : list vec4) : list vec4 * vec4 :=
  let ev' := map (shift_rapidity e0 factor diff) ev in (ev', sum_vec4 ev').

(** *** specification *)
Definition rapidity (e0 : vec3) (p : vec4) : R :=
  / 2 * ln ((y0 p + dot3 (threevec p) e0) / (y0 p - dot3 (threevec p) e0)).
Definition moves (e0 : vec3) (p : vec4) : Prop := Rabs (dot3 (threevec p) e0) < y0 p.

Lemma s2 : sqrt 2 * sqrt 2 = 2. Proof. apply sqrt_sqrt; lra. Qed.
Lemma s2_pos : 0 < sqrt 2. Proof. apply sqrt_lt_R0; lra. Qed.
Lemma pn_mT E pl : 2 * ((E + pl) * / sqrt 2) * ((E - pl) * / sqrt 2) = E * E - pl * pl.
Proof.
  pose proof s2_pos. assert (H1 : / sqrt 2 * / sqrt 2 = / 2) by (rewrite <- Rinv_mult, s2; reflexivity).
  replace (2 * ((E + pl) * / sqrt 2) * ((E - pl) * / sqrt 2)) with (2 * (E + pl) * (E - pl) * (/ sqrt 2 * / sqrt 2)) by ring.
  rewrite H1. field.
Qed.
Lemma pn_ratio E pl : E - pl <> 0 -> ((E + pl) * / sqrt 2) / ((E - pl) * / sqrt 2) = (E + pl) / (E - pl).
Proof. intros H. pose proof s2_pos. field. split; lra. Qed.
Lemma cosh_sinh_sq x : cosh x * cosh x - sinh x * sinh x = 1.
Proof.
  unfold cosh, sinh. pose proof (exp_plus x (- x)) as E. rewrite Rplus_opp_r, exp_0 in E. nra.
Qed.
Lemma moves_pos e0 p : moves e0 p -> 0 < y0 p + dot3 (threevec p) e0 /\ 0 < y0 p - dot3 (threevec p) e0.
Proof. unfold moves. intros H. apply Rabs_def2 in H. lra. Qed.

(** the new momentum in closed form *)
Lemma shift_components e0 k d p : dot3 e0 e0 = 1 -> moves e0 p ->
  let q := shift_rapidity e0 k d p in
  let mT := sqrt (y0 p * y0 p - dot3 (threevec p) e0 * dot3 (threevec p) e0) in
  let y' := k * rapidity e0 p + d in
  0 < mT /\ mT * mT = y0 p * y0 p - dot3 (threevec p) e0 * dot3 (threevec p) e0 /\
  y0 q = mT * cosh y' /\ dot3 (threevec q) e0 = mT * sinh y' /\
  (forall f, dot3 e0 f = 0 -> dot3 (threevec q) f = dot3 (threevec p) f) /\
  sqr3 (threevec q) = sqr3 (threevec p) - dot3 (threevec p) e0 * dot3 (threevec p) e0 + (mT * sinh y') * (mT * sinh y').
Proof.
  intros N M q mT y'. destruct (moves_pos _ _ M) as [A B].
  assert (P : 0 < y0 p * y0 p - dot3 (threevec p) e0 * dot3 (threevec p) e0) by nra.
  split; [apply sqrt_lt_R0; exact P|]. split; [apply sqrt_sqrt; lra|].
  assert (Q : q = mk4 (mT * cosh y') (add3 (threevec p) (scale3 (mT * sinh y' - dot3 (threevec p) e0) e0))).
  { unfold q, shift_rapidity, mT, y', rapidity. cbv zeta. rewrite pn_mT, pn_ratio by lra. reflexivity. }
  rewrite Q. clear Q q. set (s := mT * sinh y'). clearbody s. clearbody mT y'.
  destruct p as [E a b c], e0 as [u v w]. unfold mk4, add3, scale3, threevec, sqr3, dot3 in *. cbn [y0 y1 y2 y3 x1 x2 x3] in *.
  split; [reflexivity|]. split; [|split].
  - set (t := a * u + b * v + c * w). transitivity (t + (s - t) * (u * u + v * v + w * w)); [unfold t; ring|]. rewrite N. ring.
  - intros [f g h]. cbn [x1 x2 x3]. intros O. set (t := s - (a * u + b * v + c * w)).
    transitivity (a * f + b * g + c * h + t * (u * f + v * g + w * h)); [unfold t; ring|]. rewrite O. ring.
  - set (t := a * u + b * v + c * w). transitivity (a * a + b * b + c * c + 2 * (s - t) * t + (s - t) * (s - t) * (u * u + v * v + w * w)); [unfold t; ring|].
    rewrite N. ring.
Qed.

(** C88: every particle keeps its mass and its transverse momentum, has positive energy, and
    its rapidity becomes factor * y + diff. *)
Theorem shift_keeps_shell_and_transverse e0 k d p : dot3 e0 e0 = 1 -> moves e0 p ->
  let q := shift_rapidity e0 k d p in
  sqr4 q = sqr4 p /\ moves e0 q /\ rapidity e0 q = k * rapidity e0 p + d /\
  (forall f, dot3 e0 f = 0 -> dot3 (threevec q) f = dot3 (threevec p) f).
Proof.
  intros N M q. destruct (shift_components e0 k d p N M) as (P & Pm & E & L & T & S3). fold q in E, L, T, S3.
  set (mT := sqrt _) in *. set (y' := k * rapidity e0 p + d) in *. clearbody mT y'.
  pose proof (cosh_sinh_sq y') as CS.
  assert (C1 : 0 < cosh y' + sinh y' /\ cosh y' + sinh y' = exp y') by (unfold cosh, sinh; pose proof (exp_pos y'); split; lra).
  assert (C2 : 0 < cosh y' - sinh y' /\ cosh y' - sinh y' = exp (- y')) by (unfold cosh, sinh; pose proof (exp_pos (- y')); split; lra).
  assert (Sq : forall x, sqr4 x = y0 x * y0 x - sqr3 (threevec x)) by (intros [t1 t2 t3 t4]; unfold sqr4, sqr3, dot3, threevec; cbn; ring).
  split; [rewrite !Sq, S3, E; nra|]. split; [unfold moves; rewrite E, L; apply Rabs_def1; nra|]. split; [|exact T].
  unfold rapidity. rewrite E, L.
  replace ((mT * cosh y' + mT * sinh y') / (mT * cosh y' - mT * sinh y')) with ((cosh y' + sinh y') / (cosh y' - sinh y')).
  2:{ field. split; nra. }
  destruct C1 as [C1 ->], C2 as [C2 ->].
  replace (exp y' / exp (- y')) with (exp (y' + y')).
  2:{ unfold Rdiv. rewrite exp_Ropp, Rinv_inv. apply exp_plus. }
  rewrite ln_exp. lra.
Qed.
Print Assumptions shift_keeps_shell_and_transverse.

Lemma sum_vec4_from l : forall a, fold_left add4 l a = add4 a (sum_vec4 l).
Proof.
  unfold sum_vec4. induction l as [|x t IH]; intros a; cbn [fold_left].
  - destruct a. unfold add4, zero4. cbn. f_equal; ring.
  - rewrite IH, (IH (add4 zero4 x)). destruct a, x, (fold_left add4 t zero4). unfold add4, zero4. cbn. f_equal; ring.
Qed.
Lemma sum_vec4_cons x t : sum_vec4 (x :: t) = add4 x (sum_vec4 t).
Proof.
  unfold sum_vec4. cbn [fold_left]. rewrite sum_vec4_from. f_equal. destruct x. unfold add4, zero4. cbn. f_equal; ring.
Qed.

(** a pure shift scales p+ by e^d and p- by e^-d *)
Lemma shift_lightcone e0 d p : dot3 e0 e0 = 1 -> moves e0 p ->
  let q := shift_rapidity e0 1 d p in
  y0 q + dot3 (threevec q) e0 = exp d * (y0 p + dot3 (threevec p) e0) /\
  y0 q - dot3 (threevec q) e0 = exp (- d) * (y0 p - dot3 (threevec p) e0).
Proof.
  intros N M q. destruct (shift_components e0 1 d p N M) as (P & Pm & E & L & _). fold q in E, L.
  destruct (moves_pos _ _ M) as [A B].
  set (mT := sqrt _) in *. set (pl := dot3 (threevec p) e0) in *. rewrite E, L.
  set (y := rapidity e0 p) in *. replace (1 * y + d) with (y + d) by ring.
  assert (Ey : exp (2 * y) = (y0 p + pl) / (y0 p - pl)).
  { unfold y, rapidity. fold pl. replace (2 * (/ 2 * ln ((y0 p + pl) / (y0 p - pl)))) with (ln ((y0 p + pl) / (y0 p - pl))) by field.
    apply exp_ln. apply Rdiv_lt_0_compat; assumption. }
  assert (Ep : mT * exp y = y0 p + pl).
  { apply Rsqr_inj; [apply Rmult_le_pos; [lra|left; apply exp_pos]|lra|]. unfold Rsqr.
    replace (mT * exp y * (mT * exp y)) with (mT * mT * (exp y * exp y)) by ring.
    rewrite Pm, <- exp_plus. replace (y + y) with (2 * y) by ring. rewrite Ey. field. lra. }
  assert (En : mT * exp (- y) = y0 p - pl).
  { assert (X : exp y * exp (- y) = 1) by (rewrite <- exp_plus, Rplus_opp_r; apply exp_0).
    pose proof (exp_pos y). pose proof (exp_pos (- y)).
    apply (Rmult_eq_reg_l (y0 p + pl)); [|lra]. rewrite <- Ep at 1.
    replace (mT * exp y * (mT * exp (- y))) with (mT * mT * (exp y * exp (- y))) by ring. rewrite X, Pm. ring. }
  unfold cosh, sinh. replace (- (y + d)) with (- y + - d) by ring. rewrite !exp_plus.
  split.
  - rewrite <- Ep. field.
  - rewrite <- En. field.
Qed.

(** C88: a pure shift is a boost of the whole event along the string: the total keeps its
    invariant mass and its transverse momentum, and its own p+ and p- scale by e^d, e^-d. *)
Theorem shift_boosts_the_event e0 d ev : dot3 e0 e0 = 1 -> Forall (moves e0) ev ->
  let q := snd (shift_event e0 1 d ev) in let p := sum_vec4 ev in
  y0 q + dot3 (threevec q) e0 = exp d * (y0 p + dot3 (threevec p) e0) /\
  y0 q - dot3 (threevec q) e0 = exp (- d) * (y0 p - dot3 (threevec p) e0) /\
  (forall f, dot3 e0 f = 0 -> dot3 (threevec q) f = dot3 (threevec p) f).
Proof.
  intros N. cbn [shift_event snd]. induction ev as [|x t IH]; intros F.
  - unfold sum_vec4, zero4, threevec, dot3. cbn. splits; try ring. intros. ring.
  - inversion F as [|? ? Fx Ft]; subst. specialize (IH Ft). cbn [map]. rewrite !sum_vec4_cons.
    destruct (shift_lightcone e0 d x N Fx) as [L1 L2].
    destruct (shift_keeps_shell_and_transverse e0 1 d x N Fx) as (_ & _ & _ & T).
    set (q := shift_rapidity e0 1 d x) in *. set (Q := sum_vec4 (map _ t)) in *. set (P := sum_vec4 t) in *. clearbody q Q P.
    destruct IH as (I1 & I2 & I3).
    assert (D : forall a b f, dot3 (threevec (add4 a b)) f = dot3 (threevec a) f + dot3 (threevec b) f)
      by (intros [? ? ? ?] [? ? ? ?] [? ? ?]; unfold add4, threevec, dot3; cbn; ring).
    assert (Y : forall a b, y0 (add4 a b) = y0 a + y0 b) by (intros [? ? ? ?] [? ? ? ?]; reflexivity).
    rewrite !D, !Y. split; [nra|]. split; [nra|]. intros f O. rewrite !D, (T f O), (I3 f O). reflexivity.
Qed.
Print Assumptions shift_boosts_the_event.

Example shift_example : dot3 (V3 0 0 1) (V3 0 0 1) = 1 /\ Forall (moves (V3 0 0 1)) [V4 2 (1/2) 0 1; V4 1 0 (1/3) (-1/2)].
Proof.
  split; [unfold dot3; cbn; ring|]. repeat apply Forall_cons; try apply Forall_nil; unfold moves, dot3, threevec; cbn; apply Rabs_def1; lra.
Qed.

(** ** rescaling of the parton momenta *)

(** mass, momentum and energy of a parton *)
Record pparton := PP { q_m : R; q_p : vec3; q_e : R }.
Definition energy_of (l : list pparton) : R := fold_right Rplus 0 (map q_e l).
(** the loop, stringprocess.cc:1233-1266: None when it has not ended after [fuel] rounds.  When the
    slope is zero the factor is infinite or NaN, the momenta become NaN and no comparison ever
    succeeds again, so that outcome is also None. *)
Definition rescale1 (k : R) (q : pparton) : pparton :=
  let pabs := k * sqrt (dot3 (q_p q) (q_p q)) in
  PP (q_m q) (scale3 k (q_p q)) (sqrt (q_m q * q_m q + pabs * pabs)).
Definition slope (l : list pparton) : R := fold_right Rplus 0 (map (fun q => dot3 (q_p q) (q_p q) / q_e q) l).
Fixpoint rescale (fuel : nat) (init total : R) (l : list pparton) : option (list pparton) :=
  match fuel with
  | O => None
  | S n =>
    if Rle_dec (Rabs (total - init)) (Rabs (really_small * init)) then Some l
    else if Req_EM_T (slope l) 0 then None
    else
      let k := 1 + (init - total) / slope l in
      let l' := map (rescale1 k) l in
      rescale n init (energy_of l') l'
  end.

Definition shell (q : pparton) : Prop := q_e q = sqrt (q_m q * q_m q + dot3 (q_p q) (q_p q)).
Lemma scale_dot k p : dot3 (scale3 k p) (scale3 k p) = k * k * dot3 p p.
Proof. destruct p. unfold scale3, dot3. cbn. ring. Qed.
Lemma dot_nonneg p : 0 <= dot3 p p.
Proof. destruct p as [a b c]. unfold dot3. cbn. nra. Qed.
Lemma rescale1_shell k q : shell (rescale1 k q).
Proof.
  unfold shell, rescale1. cbn [q_e q_m q_p]. f_equal. f_equal. rewrite scale_dot.
  pose proof (sqrt_sqrt (dot3 (q_p q) (q_p q)) (dot_nonneg _)). set (s := sqrt _) in *. nra.
Qed.

(** C89: if the loop ends, all momenta were multiplied by one common factor, the masses are the
    same, every parton is on its mass shell and the total energy is restored to a relative
    accuracy of 10^-6. *)
Theorem rescaling_restores_energy fuel init : forall l l', Forall shell l -> rescale fuel init (energy_of l) l = Some l' ->
  (exists k, Forall2 (fun a b => q_m b = q_m a /\ q_p b = scale3 k (q_p a)) l l') /\
  Forall shell l' /\ Rabs (energy_of l' - init) <= Rabs (really_small * init).
Proof.
  induction fuel as [|n IH]; intros l l' F; cbn [rescale]; [discriminate|].
  destruct (Rle_dec _ _) as [C|C].
  - intros E. assert (l = l') by congruence. subst l'. split; [|auto]. exists 1.
    clear. induction l as [|[m [a b c] e] t IH]; constructor; auto. cbn. split; [reflexivity|]. unfold scale3. cbn. f_equal; ring.
  - destruct (Req_EM_T _ _) as [|Sl]; [discriminate|]. intros E. set (k := 1 + (init - energy_of l) / slope l) in *. clearbody k.
    apply IH in E.
    + destruct E as ((k' & K) & Fs & B). split; [|auto]. exists (k * k').
      clear - K. revert l' K. induction l as [|q t IH]; intros l' K; inversion K as [|? b ? l'' [K1 K2] Kt]; subst; constructor.
      * cbn [q_m q_p rescale1] in *. split; [exact K1|]. rewrite K2. destruct (q_p q). unfold scale3. cbn. f_equal; ring.
      * apply IH. exact Kt.
    + apply Forall_forall. intros q I. apply in_map_iff in I as (r & <- & _). apply rescale1_shell.
Qed.
Print Assumptions rescaling_restores_energy.

Lemma energy_above_mass l : Forall shell l -> Forall (fun q => 0 <= q_m q) l -> fold_right Rplus 0 (map q_m l) <= energy_of l.
Proof.
  intros F M. induction l as [|q t IH]; [cbn; lra|]. inversion F as [|? ? Sh Ft]; inversion M as [|? ? Mq Mt]; subst.
  specialize (IH Ft Mt). unfold energy_of in *. cbn [map fold_right].
  assert (q_m q <= q_e q); [|lra]. rewrite Sh. rewrite <- (sqrt_square (q_m q)) at 1 by assumption.
  apply sqrt_le_1_alt. pose proof (dot_nonneg (q_p q)). lra.
Qed.

(** C89 is refuted as a statement about termination: if the partons together are heavier than
    the initial energy, the loop never ends. *)
Theorem rescaling_never_ends_refuted fuel init : forall l, 0 < init -> Forall shell l -> Forall (fun q => 0 <= q_m q) l ->
  init * (1 + really_small) < fold_right Rplus 0 (map q_m l) -> rescale fuel init (energy_of l) l = None.
Proof.
  induction fuel as [|n IH]; intros l I F M H; cbn [rescale]; [reflexivity|].
  pose proof (energy_above_mass l F M) as B.
  assert (Rs : 0 < really_small) by (unfold really_small; apply Rinv_0_lt_compat; lra).
  destruct (Rle_dec _ _) as [C|C].
  - exfalso. rewrite (Rabs_pos_eq (really_small * init)) in C by nra. apply Rabs_le_inv in C || idtac.
    pose proof (Rle_abs (energy_of l - init)). nra.
  - destruct (Req_EM_T _ _); [reflexivity|]. set (k := 1 + (init - energy_of l) / slope l). clearbody k.
    assert (Mm : map q_m (map (rescale1 k) l) = map q_m l) by (rewrite map_map; apply map_ext; reflexivity).
    apply IH; auto.
    + apply Forall_forall. intros q J. apply in_map_iff in J as (r & <- & _). apply rescale1_shell.
    + rewrite Forall_forall in *. intros q J. apply in_map_iff in J as (r & <- & Jr). apply (M r Jr).
    + rewrite Mm. exact H.
Qed.
Print Assumptions rescaling_never_ends_refuted.
(** two partons of 0.5 GeV (strange quarks) in a system that had 0.9 GeV *)
Example rescaling_stuck : forall fuel, let q x := PP (1/2) (V3 0 0 x) (sqrt (1/2 * (1/2) + dot3 (V3 0 0 x) (V3 0 0 x))) in
  rescale fuel (9/10) (energy_of [q (3/10); q (-3/10)]) [q (3/10); q (-3/10)] = None.
Proof.
  intros fuel q. apply rescaling_never_ends_refuted; [lra| | |unfold q, really_small; cbn; lra].
  - repeat constructor.
  - repeat apply Forall_cons; try apply Forall_nil; cbn; lra.
Qed.
