(** Proofs about densities (C122). *)
From Coq Require Import ZArith Reals List Bool Lra Lia Psatz.
From Verif Require Import Base VecModel DensModel WoodsSaxon DensSpec.
Import ListNotations.
Open Scope R_scope.

Lemma vec4_eq a b : y0 a = y0 b -> y1 a = y1 b -> y2 a = y2 b -> y3 a = y3 b -> a = b.
Proof. destruct a, b; cbn; intros; subst; reflexivity. Qed.
Ltac v4 := apply vec4_eq; cbn -[Rmult Rplus Ropp Rminus Rinv Rdiv]; try ring.
Lemma add4_zero_l a : add4 zero4 a = a. Proof. v4. Qed.
Lemma add4_zero_r a : add4 a zero4 = a. Proof. v4. Qed.
Lemma scale4_zero k : scale4 k zero4 = zero4. Proof. v4. Qed.
Lemma scale4_0 a : scale4 0 a = zero4. Proof. v4. Qed.
Lemma scale4_add k a b : scale4 k (add4 a b) = add4 (scale4 k a) (scale4 k b). Proof. v4. Qed.
Lemma dot4_scale k a : dot4 (scale4 k a) (scale4 k a) = k * k * dot4 a a. Proof. unfold dot4; cbn -[Rmult Rplus Rminus]; ring. Qed.

(** ** The causal cone *)
Definition causal (a : vec4) : Prop := 0 <= y0 a /\ 0 <= dot4 a a.
Lemma cone_space a : causal a -> y1 a * y1 a + y2 a * y2 a + y3 a * y3 a <= y0 a * y0 a.
Proof. intros (_ & H). unfold dot4 in H. lra. Qed.
Lemma cs3 a1 a2 a3 b1 b2 b3 : (a1 * b1 + a2 * b2 + a3 * b3) * (a1 * b1 + a2 * b2 + a3 * b3) <= (a1 * a1 + a2 * a2 + a3 * a3) * (b1 * b1 + b2 * b2 + b3 * b3).
Proof.
  pose proof (Rle_0_sqr (a1 * b2 - a2 * b1)). pose proof (Rle_0_sqr (a1 * b3 - a3 * b1)). pose proof (Rle_0_sqr (a2 * b3 - a3 * b2)).
  unfold Rsqr in *. lra.
Qed.
Lemma causal_dot a b : causal a -> causal b -> 0 <= dot4 a b.
Proof.
  intros A B. pose proof (cone_space a A) as SA. pose proof (cone_space b B) as SB. destruct A as (A0 & _), B as (B0 & _).
  pose proof (cs3 (y1 a) (y2 a) (y3 a) (y1 b) (y2 b) (y3 b)) as CS. unfold dot4.
  set (s := y1 a * y1 b + y2 a * y2 b + y3 a * y3 b) in *.
  assert (s * s <= (y0 a * y0 b) * (y0 a * y0 b)).
  { eapply Rle_trans; [exact CS|]. replace (y0 a * y0 b * (y0 a * y0 b)) with ((y0 a * y0 a) * (y0 b * y0 b)) by ring. apply Rmult_le_compat; auto.
    - pose proof (Rle_0_sqr (y1 a)); pose proof (Rle_0_sqr (y2 a)); pose proof (Rle_0_sqr (y3 a)); unfold Rsqr in *; lra.
    - pose proof (Rle_0_sqr (y1 b)); pose proof (Rle_0_sqr (y2 b)); pose proof (Rle_0_sqr (y3 b)); unfold Rsqr in *; lra. }
  assert (s <= y0 a * y0 b). { apply Rsqr_incr_0_var; [unfold Rsqr; auto|apply Rmult_le_pos; auto]. }
  unfold s in *. lra.
Qed.
Lemma causal_add a b : causal a -> causal b -> causal (add4 a b).
Proof.
  intros A B. pose proof (causal_dot a b A B) as D. destruct A, B. split; [cbn; lra|].
  replace (dot4 (add4 a b) (add4 a b)) with (dot4 a a + dot4 b b + 2 * dot4 a b) by (unfold dot4; cbn -[Rmult]; ring). lra.
Qed.
Lemma causal_scale k a : 0 <= k -> causal a -> causal (scale4 k a).
Proof. intros K (A & B). split; [cbn; apply Rmult_le_pos; auto|]. rewrite dot4_scale. apply Rmult_le_pos; auto. apply Rmult_le_pos; auto. Qed.
Lemma causal_zero : causal zero4. Proof. split; unfold dot4; cbn; lra. Qed.
(** causal up to a sign: what [jneg] is *)
Lemma abs4_ok a : 0 <= dot4 a a -> abs4 a = Ok (length4 a).
Proof.
  intros H. unfold abs4, length4. change (sqr4 a) with (dot4 a a). unfold really_small. destruct (Rlt_dec _ _) as [L|L]; [|exfalso; lra]. now rewrite Rabs_pos_eq.
Qed.
Lemma length4_scale k a : 0 <= k -> length4 (scale4 k a) = k * length4 a.
Proof. intros K. unfold length4. rewrite dot4_scale. rewrite sqrt_mult_alt by (apply Rmult_le_pos; auto). now rewrite sqrt_square. Qed.

(** ** One particle *)
Definition rgrad (par : density_parameters) (p : dpart) (r : vec3) : vec3 :=
  let x := sub3 (d_pos p) r in
  let u := scale3 (1 / mass p) (threevec (d_mom p)) in
  scale3 2 (scale3 (two_sig_sqr_inv par) (scale3 (profile par p r) (add3 x (scale3 (dot3 x u) u)))).
Definition sum_add (a b : sums) : sums :=
  Sums (add4 (jpos a) (jpos b)) (add4 (jneg a) (jneg b)) (add4 (dj0 a) (dj0 b)) (add4 (dj1 a) (dj1 b)) (add4 (dj2 a) (dj2 b)) (add4 (dj3 a) (dj3 b)).
Definition share (par : density_parameters) (d : density_type) (grad smearing : bool) (r : vec3) (p : dpart) : sums :=
  let a := amount par d p in
  let V := mk4 1 (velocity (d_mom p)) in
  let g := if grad then rgrad par p r else V3 0 0 0 in
  let w := if smearing then profile par p r else 1 in
  Sums (if Rlt_dec 0 a then scale4 (a * w) V else zero4) (if Rlt_dec 0 a then zero4 else scale4 (a * w) V)
    (scale4 (- a * dot3 (velocity (d_mom p)) g) V) (scale4 (a * x1 g) V) (scale4 (a * x2 g) V) (scale4 (a * x3 g) V).
Lemma sum_add_none s V a0 : a0 = 0 -> sum_add s (Sums (if Rlt_dec 0 a0 then scale4 (a0 * 1) V else zero4) zero4 zero4 zero4 zero4 zero4) = s.
Proof. intros ->. destruct (Rlt_dec 0 0); [exfalso; lra|]. destruct s as [a b c e f g]. unfold sum_add. cbn [jpos jneg dj0 dj1 dj2 dj3]. now rewrite !add4_zero_r. Qed.
Lemma share_none par d grad sm r p : amount par d p = 0 -> share par d grad sm r p = no_sums.
Proof.
  intros E. unfold share, no_sums. rewrite E. destruct (Rlt_dec 0 0) as [X|_]; [exfalso; lra|].
  f_equal; rewrite ?Ropp_0, ?Rmult_0_l, ?scale4_0; auto.
Qed.
Lemma sum_add_0 s : sum_add s no_sums = s.
Proof. destruct s as [a b c e f g]. unfold sum_add, no_sums. cbn [jpos jneg dj0 dj1 dj2 dj3]. now rewrite !add4_zero_r. Qed.

Lemma smearing_eq par p r grad : 0 < mass p -> smearing_factor (sub3 (d_pos p) r) (d_mom p) (1 / mass p) par grad =
  (profile par p r, if grad then rgrad par p r else V3 0 0 0).
Proof.
  intros M. unfold smearing_factor, rgrad.
  set (x := sub3 (d_pos p) r). set (u := scale3 (1 / mass p) (threevec (d_mom p))).
  change (threevec (scale4 (1 / mass p) (d_mom p))) with u.
  assert (RD : rest_distance2 p r = sqr3 x + dot3 x u * dot3 x u).
  { unfold rest_distance2. fold x. unfold u, sqr3, dot3, scale3, threevec. cbn -[Rmult Rplus Rdiv]. field. lra. }
  pose proof (Rle_0_sqr (dot3 x u)) as Q. unfold Rsqr in Q.
  destruct (Rlt_dec (r_cut_sqr par) (sqr3 x)) as [L|L].
  - assert (P0 : profile par p r = 0). { unfold profile. rewrite RD. destruct (Rle_dec _ _); [exfalso; lra|reflexivity]. }
    rewrite P0. destruct grad; auto. f_equal. unfold scale3. cbn. f_equal; ring.
  - destruct (Rlt_dec _ _) as [L2|L2].
    + assert (P0 : profile par p r = 0). { unfold profile. rewrite RD. destruct (Rle_dec _ _); [exfalso; lra|reflexivity]. }
      rewrite P0. destruct grad; auto. f_equal. unfold scale3. cbn. f_equal; ring.
    + assert (P1 : profile par p r = exp (- (sqr3 x + dot3 x u * dot3 x u) * two_sig_sqr_inv par) * y0 (scale4 (1 / mass p) (d_mom p))).
      { unfold profile. rewrite RD. destruct (Rle_dec _ _); [|exfalso; lra]. cbn. field. lra. }
      rewrite <- P1. reflexivity.
Qed.
Lemma mass_nonneg p : 0 <= mass p. Proof. apply sqrt_pos. Qed.
Lemma rs_pos : 0 < really_small. Proof. unfold really_small. lra. Qed.

Lemma add_to_current_eq r par d grad sm s p : physical p ->
  add_to_current r par d grad sm s p = Ok (sum_add s (share par d grad sm r p)).
Proof.
  intros (E & M2). pose proof rs_pos as RS. unfold add_to_current.
  destruct (only_participants par && (d_collisions p =? 0)%Z) eqn:OP.
  { rewrite share_none, sum_add_0; auto. unfold amount. now rewrite OP. }
  destruct (Rlt_dec (Rabs (density_factor (d_type p) d)) really_small) as [F|F].
  { rewrite share_none, sum_add_0; auto. unfold amount. rewrite OP. destruct (Rlt_dec _ _); [reflexivity|contradiction]. }
  rewrite abs4_ok by exact M2. cbn [rbind]. change (length4 (d_mom p)) with (mass p).
  destruct (Rlt_dec (mass p) really_small) as [MS|MS].
  { rewrite share_none, sum_add_0; auto. unfold amount. rewrite OP. destruct (Rlt_dec _ _); [contradiction|]. destruct (Rlt_dec (mass p) _); [reflexivity|contradiction]. }
  assert (A : amount par d p = density_factor (d_type p) d).
  { unfold amount. rewrite OP. destruct (Rlt_dec _ _); [contradiction|]. destruct (Rlt_dec (mass p) _); [contradiction|reflexivity]. }
  rewrite smearing_eq by lra. cbn [fst snd]. unfold share. rewrite A.
  set (f := density_factor (d_type p) d) in *.
  assert (F0 : f <> 0). { intros H0. rewrite H0, Rabs_R0 in F. lra. }
  set (g := rgrad par p r). set (V := mk4 1 (velocity (d_mom p))).
  assert (T : scale4 (f / y0 (d_mom p)) (d_mom p) = scale4 f V).
  { apply vec4_eq; cbn -[Rmult Rdiv]; unfold div3; cbn -[Rmult Rdiv]; field; lra. }
  rewrite T. f_equal.
  assert (C : (if sm then scale4 (profile par p r) (scale4 f V) else scale4 f V) = scale4 (f * (if sm then profile par p r else 1)) V).
  { destruct sm; v4. }
  rewrite C. clearbody g. set (w := if sm then profile par p r else 1). set (PP := Rlt_dec 0 f).
  destruct s as [a b c0 c1 c2 c3]. unfold sum_add, add_derivatives. destruct grad.
  - destruct PP; cbn [jpos jneg dj0 dj1 dj2 dj3]; f_equal; try (now rewrite ?add4_zero_r);
    unfold V; apply vec4_eq; cbn -[Rmult Rplus Rinv Rdiv Ropp Rminus velocity]; unfold dot3; cbn -[Rmult Rplus Rinv Rdiv Ropp Rminus velocity];
    try ring; field; auto.
  - assert (Z0 : dot3 (velocity (d_mom p)) (V3 0 0 0) = 0) by (unfold dot3; cbn; ring).
    destruct PP; cbn [jpos jneg dj0 dj1 dj2 dj3 x1 x2 x3]; rewrite Z0; f_equal; try (now rewrite ?add4_zero_r);
    rewrite ?Rmult_0_r, ?scale4_0, ?add4_zero_r; auto.
Qed.

(** ** All particles *)
Fixpoint sums_of (g : dpart -> sums) (ps : list dpart) : sums :=
  match ps with [] => no_sums | p :: r => sum_add (g p) (sums_of g r) end.
Lemma sum_add_assoc a b c : sum_add (sum_add a b) c = sum_add a (sum_add b c).
Proof. unfold sum_add. cbn [jpos jneg dj0 dj1 dj2 dj3]. f_equal; v4. Qed.
Lemma sum_add_0_l s : sum_add no_sums s = s.
Proof. destruct s as [a b c e f g]. unfold sum_add, no_sums. cbn [jpos jneg dj0 dj1 dj2 dj3]. now rewrite !add4_zero_l. Qed.
Lemma fold_current r par d grad sm ps : Forall physical ps -> forall s,
  foldM (add_to_current r par d grad sm) s ps = Ok (sum_add s (sums_of (share par d grad sm r) ps)).
Proof.
  induction 1 as [|p ps P _ IH]; intros s; cbn [foldM sums_of].
  - now rewrite sum_add_0.
  - rewrite add_to_current_eq by auto. cbn [rbind]. rewrite IH. f_equal. apply sum_add_assoc.
Qed.
Lemma sums_jpos g ps : jpos (sums_of g ps) = sum4 (fun p => jpos (g p)) ps.
Proof. induction ps as [|p ps IH]; cbn [sums_of sum4]; [reflexivity|]. cbn [sum_add jpos]. now rewrite IH. Qed.
Lemma sums_jneg g ps : jneg (sums_of g ps) = sum4 (fun p => jneg (g p)) ps.
Proof. induction ps as [|p ps IH]; cbn [sums_of sum4]; [reflexivity|]. cbn [sum_add jneg]. now rewrite IH. Qed.
Lemma sums_dj0 g ps : dj0 (sums_of g ps) = sum4 (fun p => dj0 (g p)) ps.
Proof. induction ps as [|p ps IH]; cbn [sums_of sum4]; [reflexivity|]. cbn [sum_add dj0]. now rewrite IH. Qed.
Lemma sums_dj1 g ps : dj1 (sums_of g ps) = sum4 (fun p => dj1 (g p)) ps.
Proof. induction ps as [|p ps IH]; cbn [sums_of sum4]; [reflexivity|]. cbn [sum_add dj1]. now rewrite IH. Qed.
Lemma sums_dj2 g ps : dj2 (sums_of g ps) = sum4 (fun p => dj2 (g p)) ps.
Proof. induction ps as [|p ps IH]; cbn [sums_of sum4]; [reflexivity|]. cbn [sum_add dj2]. now rewrite IH. Qed.
Lemma sums_dj3 g ps : dj3 (sums_of g ps) = sum4 (fun p => dj3 (g p)) ps.
Proof. induction ps as [|p ps IH]; cbn [sums_of sum4]; [reflexivity|]. cbn [sum_add dj3]. now rewrite IH. Qed.
Lemma sum4_ext f g ps : (forall p, In p ps -> f p = g p) -> sum4 f ps = sum4 g ps.
Proof. induction ps as [|p ps IH]; cbn; intros H; auto. rewrite H, IH; auto. Qed.
Lemma sum4_scale k f ps : scale4 k (sum4 f ps) = sum4 (fun p => scale4 k (f p)) ps.
Proof. induction ps as [|p ps IH]; cbn [sum4]; [apply scale4_zero|]. now rewrite scale4_add, IH. Qed.
Lemma sum4_add f g ps : add4 (sum4 f ps) (sum4 g ps) = sum4 (fun p => add4 (f p) (g p)) ps.
Proof. induction ps as [|p ps IH]; cbn [sum4]; [apply add4_zero_l|]. rewrite <- IH. v4. Qed.
Lemma causal_sum f ps : (forall p, In p ps -> causal (f p)) -> causal (sum4 f ps).
Proof. induction ps as [|p ps IH]; cbn; intros H; [apply causal_zero|]. apply causal_add; auto. Qed.

Lemma causal_velocity p : physical p -> causal (mk4 1 (velocity (d_mom p))).
Proof.
  intros (E & M). split; [cbn; lra|].
  replace (mk4 1 (velocity (d_mom p))) with (scale4 (/ y0 (d_mom p)) (d_mom p)).
  - rewrite dot4_scale. apply Rmult_le_pos; auto. pose proof (Rle_0_sqr (/ y0 (d_mom p))) as Q. exact Q.
  - apply vec4_eq; cbn -[Rmult Rdiv]; unfold div3; cbn -[Rmult Rdiv]; field; lra.
Qed.
Lemma profile_nonneg par p r : physical p -> 0 <= profile par p r.
Proof.
  intros (E & M). unfold profile. destruct (Rle_dec _ _); [|lra]. apply Rmult_le_pos; [|left; apply exp_pos].
  pose proof (mass_nonneg p) as [H|H]; [|rewrite <- H; unfold Rdiv; rewrite Rinv_0; lra].
  apply Rmult_le_pos; [lra|]. left. now apply Rinv_0_lt_compat.
Qed.
Definition opp4 (a : vec4) := scale4 (-1) a.
Lemma dot4_opp a : dot4 (opp4 a) (opp4 a) = dot4 a a. Proof. unfold opp4. rewrite dot4_scale. ring. Qed.
Lemma length4_opp a : length4 (opp4 a) = length4 a. Proof. unfold length4. now rewrite dot4_opp. Qed.

Lemma jpos_causal par d grad sm r ps : Forall physical ps -> causal (jpos (sums_of (share par d grad sm r) ps)).
Proof.
  intros P. rewrite sums_jpos. apply causal_sum. intros p I. rewrite Forall_forall in P. specialize (P p I). cbn [share jpos].
  destruct (Rlt_dec _ _) as [A|A]; [|apply causal_zero]. apply causal_scale; [|now apply causal_velocity].
  apply Rmult_le_pos; [lra|]. destruct sm; [now apply profile_nonneg|lra].
Qed.
Lemma jneg_causal par d grad sm r ps : Forall physical ps -> causal (opp4 (jneg (sums_of (share par d grad sm r) ps))).
Proof.
  intros P. rewrite sums_jneg. unfold opp4. rewrite sum4_scale. apply causal_sum. intros p I. rewrite Forall_forall in P. specialize (P p I). cbn [share jneg].
  destruct (Rlt_dec _ _) as [A|A]; [rewrite scale4_zero; apply causal_zero|].
  set (w := if sm then profile par p r else 1). assert (W : 0 <= w) by (unfold w; destruct sm; [now apply profile_nonneg|lra]).
  replace (scale4 (-1) (scale4 (amount par d p * w) (mk4 1 (velocity (d_mom p))))) with (scale4 (- amount par d p * w) (mk4 1 (velocity (d_mom p)))) by v4.
  apply causal_scale; [|now apply causal_velocity]. apply Rmult_le_pos; lra.
Qed.
(** the result in closed form *)
Lemma current_eq par d grad sm r ps : Forall physical ps ->
  let s := sums_of (share par d grad sm r) ps in let n := norm_factor_sf par in
  current_eckart r ps par d grad sm = Ok (Cur ((length4 (jpos s) - length4 (jneg s)) * n)
     (if sm then scale4 n (add4 (jpos s) (jneg s)) else add4 (jpos s) (jneg s))
     (V3 (y0 (dj1 s) * n) (y0 (dj2 s) * n) (y0 (dj3 s) * n)) (scale3 n (curl (dj1 s) (dj2 s) (dj3 s)))
     (scale4 n (dj0 s)) (scale4 n (dj1 s)) (scale4 n (dj2 s)) (scale4 n (dj3 s))).
Proof.
  intros P s n. unfold current_eckart. rewrite fold_current by auto. cbn [rbind]. rewrite sum_add_0_l. fold s.
  unfold finish_current.
  rewrite (abs4_ok (jpos s)) by apply (jpos_causal par d grad sm r ps P). cbn [rbind].
  rewrite (abs4_ok (jneg s)) by (rewrite <- dot4_opp; apply (jneg_causal par d grad sm r ps P)). cbn [rbind]. fold n.
  destruct grad.
  - f_equal. destruct sm; f_equal; try v4; try (f_equal; ring).
  - assert (Z0 : forall v, dot3 v (V3 0 0 0) = 0) by (intros; unfold dot3; cbn; ring).
    assert (D0 : dj0 s = zero4). { unfold s. rewrite sums_dj0. clear - Z0. induction ps as [|p ps IH]; cbn [sum4]; auto. rewrite IH, add4_zero_r. cbn [share dj0]. rewrite Z0, Rmult_0_r. apply scale4_0. }
    assert (D1 : dj1 s = zero4). { unfold s. rewrite sums_dj1. clear. induction ps as [|p ps IH]; cbn [sum4]; auto. rewrite IH, add4_zero_r. cbn [share dj1 x1]. rewrite Rmult_0_r. apply scale4_0. }
    assert (D2 : dj2 s = zero4). { unfold s. rewrite sums_dj2. clear. induction ps as [|p ps IH]; cbn [sum4]; auto. rewrite IH, add4_zero_r. cbn [share dj2 x2]. rewrite Rmult_0_r. apply scale4_0. }
    assert (D3 : dj3 s = zero4). { unfold s. rewrite sums_dj3. clear. induction ps as [|p ps IH]; cbn [sum4]; auto. rewrite IH, add4_zero_r. cbn [share dj3 x3]. rewrite Rmult_0_r. apply scale4_0. }
    rewrite D0, D1, D2, D3, !scale4_zero. f_equal. f_equal.
    + destruct sm; v4.
    + cbn. f_equal; ring.
    + unfold curl, scale3. cbn. f_equal; ring.
Qed.
Lemma jsum par d grad r ps : let s := sums_of (share par d grad true r) ps in
  scale4 (norm_factor_sf par) (add4 (jpos s) (jneg s)) = sum4 (particle_current par d r) ps.
Proof.
  cbn zeta. rewrite sums_jpos, sums_jneg, sum4_add, sum4_scale. apply sum4_ext. intros p _. cbn [share jpos jneg]. unfold particle_current.
  destruct (Rlt_dec _ _); rewrite ?add4_zero_l, ?add4_zero_r; v4.
Qed.
Lemma sum_positive par d grad r ps : scale4 (norm_factor_sf par) (jpos (sums_of (share par d grad true r) ps)) = sum4 (positive_current par d r) ps.
Proof.
  rewrite sums_jpos, sum4_scale. apply sum4_ext. intros p _. cbn [share jpos]. unfold positive_current, particle_current.
  destruct (Rlt_dec _ _); [|apply scale4_zero]. v4.
Qed.
Lemma sum_negative par d grad r ps : scale4 (norm_factor_sf par) (jneg (sums_of (share par d grad true r) ps)) = sum4 (negative_current par d r) ps.
Proof.
  rewrite sums_jneg, sum4_scale. apply sum4_ext. intros p _. cbn [share jneg]. unfold negative_current, particle_current.
  destruct (Rlt_dec _ _); [apply scale4_zero|]. v4.
Qed.
