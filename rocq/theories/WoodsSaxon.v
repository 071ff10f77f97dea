(** The radial distribution of the sampled nucleons (C105). *)
From Coq Require Import ZArith Reals List Bool Lra Lia Psatz.
From Verif Require Import Base VecModel MotionModel WidthModel NucleusModel NucleusProps.
Import ListNotations.
Open Scope R_scope.

(** ** Specification: probabilities of events of uniform draws *)
(** the value of a (Riemann) integral *)
Definition integral (f : R -> R) (a b m : R) : Prop := exists pr : Riemann_integrable f a b, RiemannInt pr = m.
(** the draws in (0, 1) with P are those of an interval of length m *)
Definition prob1 (P : R -> Prop) (m : R) : Prop :=
  exists a b, 0 <= a <= b /\ b <= 1 /\ m = b - a /\
    forall u, 0 < u < 1 -> (a < u < b -> P u) /\ (u < a \/ b < u -> ~ P u).
(** probabilities for two and three independent draws *)
Definition prob2 (P : R -> R -> Prop) (m : R) : Prop :=
  exists f, (forall u, 0 < u < 1 -> prob1 (fun v => P v u) (f u)) /\ integral f 0 1 m.
Definition prob3 (P : R -> R -> R -> Prop) (m : R) : Prop :=
  exists f, (forall u, 0 < u < 1 -> prob2 (fun v w => P v w u) (f u)) /\ integral f 0 1 m.
(** Probability when first a number is drawn uniformly from [lo, hi): the range is divided in consecutive pieces
    (end, probability in the piece), and the probability is the mean weighted with the lengths of the pieces. *)
Fixpoint pieces (lo : R) (l : list (R * R)) (P : R -> R -> Prop) : Prop :=
  match l with [] => True | (e, m) :: r => lo <= e /\ (forall x, lo <= x < e -> P x m) /\ pieces e r P end.
Fixpoint weighted (lo : R) (l : list (R * R)) : R :=
  match l with [] => 0 | (e, m) :: r => (e - lo) * m + weighted e r end.
Fixpoint end_of (lo : R) (l : list (R * R)) : R := match l with [] => lo | (e, _) :: r => end_of e r end.
Definition prob4 (lo hi : R) (P : R -> R -> R -> R -> Prop) (m : R) : Prop :=
  exists l, end_of lo l = hi /\ pieces lo l (fun x q => prob3 (P x) q) /\ m = weighted lo l / (hi - lo).
Definition at_most (t : option R) (x : R) : Prop := match t with Some t => t <= x | None => False end.
(** the density of the nucleons in the radius for a Woods-Saxon profile, up to a constant factor *)
Definition woods_saxon (radius d r : R) : R := r * r / (exp ((r - radius) / d) + 1).

(** ** Integrals *)
Lemma integral_antiderivative f G a b : a <= b -> (forall x, a <= x <= b -> derivable_pt_lim G x (f x)) ->
  (forall x, a <= x <= b -> continuity_pt f x) -> integral f a b (G b - G a).
Proof.
  intros H D C. exists (continuity_implies_RiemannInt H C).
  pose proof (RiemannInt_P29 H C) as A1.
  assert (A2 : antiderivative f G a b).
  { split; auto. intros x Hx. exists (exist (fun l => derivable_pt_abs G x l) (f x) (D x Hx)). reflexivity. }
  destruct (antiderivative_Ucte _ _ _ _ _ A1 A2) as (c & E).
  assert (Pa : primitive H (FTC_P1 H C) a = 0).
  { unfold primitive. destruct (Rle_dec a a) as [r|r]; [|exfalso; lra]. destruct (Rle_dec a b) as [r'|r']; [|exfalso; lra]. apply RiemannInt_P9. }
  assert (Pb : primitive H (FTC_P1 H C) b = RiemannInt (continuity_implies_RiemannInt H C)).
  { unfold primitive. destruct (Rle_dec a b) as [r|r]; [|exfalso; lra]. destruct (Rle_dec b b) as [r'|r']; [|exfalso; lra]. apply RiemannInt_P5. }
  rewrite <- Pb. rewrite (E b) by lra. rewrite (E a) in Pa by lra. lra.
Qed.
Lemma integral_const c a b : integral (fun _ => c) a b (c * (b - a)).
Proof. exists (RiemannInt_P14 a b c). apply (RiemannInt_P15 (RiemannInt_P14 a b c)). Qed.
Lemma integral_join f g h a b c m n : a <= b <= c -> (forall x, a <= x <= c -> continuity_pt f x) ->
  (forall x, a < x < b -> f x = g x) -> (forall x, b < x < c -> f x = h x) -> integral g a b m -> integral h b c n -> integral f a c (m + n).
Proof.
  intros (H1 & H2) C E1 E2 (p1 & I1) (p2 & I2).
  assert (Hac : a <= c) by lra.
  assert (q1 : Riemann_integrable f a b) by (apply continuity_implies_RiemannInt; [lra|intros; apply C; lra]).
  assert (q2 : Riemann_integrable f b c) by (apply continuity_implies_RiemannInt; [lra|intros; apply C; lra]).
  exists (continuity_implies_RiemannInt Hac C). rewrite <- (RiemannInt_P26 q1 q2).
  rewrite (RiemannInt_P18 q1 p1 H1 E1), (RiemannInt_P18 q2 p2 H2 E2). congruence.
Qed.
Lemma prob1_const (P : Prop) : (P -> prob1 (fun _ => P) 1) /\ (~ P -> prob1 (fun _ => P) 0).
Proof.
  split; intros H.
  - exists 0, 1. splits; try lra. intros u Hu. split; [auto|lra].
  - exists 0, 0. splits; try lra. intros u Hu. split; [lra|auto].
Qed.
Lemma integral_eq f a b m n : m = n -> integral f a b m -> integral f a b n.
Proof. intros ->; auto. Qed.
Lemma prob1_ext (P Q : R -> Prop) m : (forall u, 0 < u < 1 -> (P u <-> Q u)) -> prob1 P m -> prob1 Q m.
Proof.
  intros E (a & b & H1 & H2 & H3 & H). exists a, b. splits; try lra. intros u Hu. destruct (H u Hu) as (A & B). split; intros; [apply E; auto|rewrite <- E; auto].
Qed.
Lemma prob2_ext (P Q : R -> R -> Prop) m : (forall u v, 0 < u < 1 -> 0 < v < 1 -> (P u v <-> Q u v)) -> prob2 P m -> prob2 Q m.
Proof. intros E (f & H & I). exists f. split; auto. intros u Hu. apply prob1_ext with (fun v => P v u); auto. Qed.
Lemma prob3_ext (P Q : R -> R -> R -> Prop) m : (forall u v w, 0 < u < 1 -> 0 < v < 1 -> 0 < w < 1 -> (P u v w <-> Q u v w)) -> prob3 P m -> prob3 Q m.
Proof. intros E (f & H & I). exists f. split; auto. intros u Hu. apply prob2_ext with (fun v w => P v w u); auto. Qed.
Lemma prob2_of_1 P m : prob1 P m -> prob2 (fun u _ => P u) m.
Proof. intros H. exists (fun _ => m). split; auto. apply integral_eq with (m * (1 - 0)); [ring|apply integral_const]. Qed.
Lemma prob3_of_2 P m : prob2 P m -> prob3 (fun u v _ => P u v) m.
Proof. intros H. exists (fun _ => m). split; auto. apply integral_eq with (m * (1 - 0)); [ring|apply integral_const]. Qed.

(** ** Sums of exponentially distributed numbers *)
Lemma neg_ln_le u x : 0 < u -> (- ln u <= x <-> exp (- x) <= u).
Proof.
  intros H. split; intros L.
  - rewrite <- (exp_ln u H). destruct (Req_dec (- x) (ln u)) as [->|]; [lra|]. apply Rlt_le, exp_increasing. lra.
  - destruct (Rle_dec (- ln u) x); auto. exfalso. assert (ln u < - x) by lra. apply exp_increasing in H0. rewrite exp_ln in H0; lra.
Qed.
Definition F2 (x : R) : R := 1 - exp (- x).
Definition F3 (x : R) : R := 1 - exp (- x) * (1 + x).
Definition F4 (x : R) : R := 1 - exp (- x) * (1 + x + x * x / 2).
Lemma exp_le_1 x : 0 <= x -> 0 < exp (- x) <= 1.
Proof. intros H. split; [apply exp_pos|]. rewrite <- exp_0. destruct (Req_dec x 0) as [->|]; [rewrite Ropp_0; lra|apply Rlt_le, exp_increasing; lra]. Qed.
Lemma one_exponential x : 0 <= x -> prob1 (fun u => - ln u <= x) (F2 x).
Proof.
  intros H. destruct (exp_le_1 x H). exists (exp (- x)), 1. unfold F2. splits; try lra.
  intros u Hu. rewrite neg_ln_le by lra. split; lra.
Qed.
Lemma max_continuous k x : continuity_pt (fun b => Rmax b k) x.
Proof.
  intros eps He. exists eps. split; auto. intros y (_ & Hy). simpl in *. unfold R_dist in *.
  unfold Rmax. destruct (Rle_dec y k), (Rle_dec x k); auto; apply Rabs_def2 in Hy; apply Rabs_def1; lra.
Qed.
Lemma max_spec b k : k <= Rmax b k /\ (b <= k -> Rmax b k = k) /\ (k <= b -> Rmax b k = b).
Proof. unfold Rmax; destruct (Rle_dec b k); splits; intros; lra. Qed.

(** the second draw integrates what the first leaves *)
Lemma ln_of_exp x : ln (exp (- x)) = - x.
Proof. apply ln_exp. Qed.
Lemma continuity_pt_ln x : 0 < x -> continuity_pt ln x.
Proof. intros H. apply derivable_continuous_pt. exists (/ x). apply derivable_pt_lim_ln; auto. Qed.
Lemma continuity_pt_exp x : continuity_pt exp x.
Proof. apply derivable_continuous_pt, derivable_pt_exp. Qed.
Lemma comp_cont (f g : R -> R) x : continuity_pt f x -> continuity_pt g (f x) -> continuity_pt (fun y => g (f y)) x.
Proof. intros A B. apply (continuity_pt_comp f g); auto. Qed.
Lemma cont_c c x : continuity_pt (fun _ => c) x.
Proof. apply continuity_pt_const. intros ? ?; auto. Qed.
Lemma cont_id x : continuity_pt (fun y => y) x.
Proof. apply (derivable_continuous_pt id), derivable_pt_id. Qed.
Lemma cont_plus (f g : R -> R) x : continuity_pt f x -> continuity_pt g x -> continuity_pt (fun y => f y + g y) x.
Proof. apply (continuity_pt_plus f g). Qed.
Lemma cont_minus (f g : R -> R) x : continuity_pt f x -> continuity_pt g x -> continuity_pt (fun y => f y - g y) x.
Proof. apply (continuity_pt_minus f g). Qed.
Lemma cont_mult (f g : R -> R) x : continuity_pt f x -> continuity_pt g x -> continuity_pt (fun y => f y * g y) x.
Proof. apply (continuity_pt_mult f g). Qed.
Lemma cont_opp (f : R -> R) x : continuity_pt f x -> continuity_pt (fun y => - f y) x.
Proof. apply (continuity_pt_opp f). Qed.
Lemma cont_inv (f : R -> R) x : continuity_pt f x -> f x <> 0 -> continuity_pt (fun y => / f y) x.
Proof. apply (continuity_pt_inv f). Qed.
Lemma two_exponentials x : 0 <= x -> prob2 (fun u v => - ln u - ln v <= x) (F3 x).
Proof.
  intros H. destruct (exp_le_1 x H) as (K0 & K1). set (k := exp (- x)) in *.
  exists (fun v => F2 (x + ln (Rmax v k))). split.
  - intros v Hv. destruct (max_spec v k) as (M0 & M1 & M2). destruct (Rle_dec v k) as [L|L].
    + rewrite M1 by auto. unfold k, F2. rewrite ln_of_exp. replace (- (x + - x)) with 0 by ring. rewrite exp_0, Rminus_eq_0.
      apply prob1_ext with (fun _ => False); [|apply prob1_const; auto]. intros u Hu. split; [tauto|]. intros E.
      assert (- ln v >= x) by (assert (v = k \/ v < k) as [->|Hk] by lra; [unfold k; rewrite ln_of_exp; lra|apply ln_increasing in Hk; [unfold k in Hk; rewrite ln_of_exp in Hk; lra|lra]]).
      assert (ln u < 0) by (rewrite <- ln_1; apply ln_increasing; lra). lra.
    + rewrite M2 by lra. apply prob1_ext with (fun u => - ln u <= x + ln v); [intros u Hu; split; lra|].
      apply one_exponential. assert (k < v) as Hk by lra. apply ln_increasing in Hk; [|lra]. unfold k in Hk. rewrite ln_of_exp in Hk. lra.
  - apply integral_eq with (0 * (k - 0) + ((1 - k * ln 1) - (k - k * ln k))).
    { replace (ln k) with (- x) by (unfold k; rewrite ln_of_exp; auto). rewrite ln_1. unfold F3. fold k. ring. }
    apply integral_join with (g := fun _ => 0) (h := fun v => 1 - k / v) (b := k); try lra.
    + intros v _. unfold F2. apply cont_minus; [apply cont_c|].
      apply (comp_cont (fun y => - (x + ln (Rmax y k))) exp); [|apply continuity_pt_exp].
      apply cont_opp. apply cont_plus; [apply cont_c|].
      apply (comp_cont (fun y => Rmax y k) ln); [apply max_continuous|apply continuity_pt_ln]. pose proof (max_spec v k). lra.
    + intros v Hv. destruct (max_spec v k) as (_ & M & _). rewrite M by lra. unfold F2, k. rewrite ln_of_exp. replace (- (x + - x)) with 0 by ring. rewrite exp_0. ring.
    + intros v Hv. destruct (max_spec v k) as (_ & _ & M). rewrite M by lra. unfold F2. rewrite Ropp_plus_distr, exp_plus, exp_Ropp, (exp_Ropp (ln v)), exp_ln by lra. rewrite <- exp_Ropp. fold k. unfold Rdiv. ring.
    + apply integral_const.
    + apply (integral_antiderivative _ (fun v => v - k * ln v) k 1); auto.
      * intros v Hv. replace (1 - k / v) with (1 - (k * / v)) by (unfold Rdiv; ring). apply derivable_pt_lim_minus; [apply derivable_pt_lim_id|].
        apply (derivable_pt_lim_scal ln k v (/ v)). apply derivable_pt_lim_ln. lra.
      * intros v Hv. apply cont_minus; [apply cont_c|]. unfold Rdiv. apply cont_mult; [apply cont_c|]. apply cont_inv; [apply cont_id|lra].
Qed.

Lemma F3_0 : F3 0 = 0.
Proof. unfold F3. rewrite Ropp_0, exp_0. ring. Qed.
Lemma continuity_pt_F3 x : continuity_pt F3 x.
Proof.
  unfold F3. apply cont_minus; [apply cont_c|]. apply cont_mult.
  - apply (comp_cont (fun y => - y) exp); [apply cont_opp, cont_id|apply continuity_pt_exp].
  - apply cont_plus; [apply cont_c|apply cont_id].
Qed.
Lemma three_exponentials x : 0 <= x -> prob3 (fun u v w => - ln u - ln v - ln w <= x) (F4 x).
Proof.
  intros H. destruct (exp_le_1 x H) as (K0 & K1). set (k := exp (- x)) in *.
  assert (Lk : ln k = - x) by (unfold k; apply ln_of_exp).
  exists (fun w => F3 (x + ln (Rmax w k))). split.
  - intros w Hw. destruct (max_spec w k) as (M0 & M1 & M2). destruct (Rle_dec w k) as [L|L].
    + rewrite M1 by auto. rewrite Lk. replace (x + - x) with 0 by ring. rewrite F3_0.
      apply prob2_ext with (fun _ _ => False); [|apply (prob2_of_1 (fun _ => False)), prob1_const; auto]. intros u v Hu Hv. split; [tauto|]. intros E.
      assert (- ln w >= x) by (assert (w = k \/ w < k) as [->|Hk] by lra; [lra|apply ln_increasing in Hk; lra]).
      assert (ln u < 0) by (rewrite <- ln_1; apply ln_increasing; lra).
      assert (ln v < 0) by (rewrite <- ln_1; apply ln_increasing; lra). lra.
    + rewrite M2 by lra. apply prob2_ext with (fun u v => - ln u - ln v <= x + ln w); [intros u v Hu Hv; split; lra|].
      apply two_exponentials. assert (k < w) as Hk by lra. apply ln_increasing in Hk; lra.
  - apply integral_eq with (0 * (k - 0) + ((1 - k * ((1 + x) * ln 1 + ln 1 * ln 1 / 2)) - (k - k * ((1 + x) * ln k + ln k * ln k / 2)))).
    { rewrite Lk, ln_1. unfold F4. fold k. field. }
    apply integral_join with (g := fun _ => 0) (h := fun w => 1 - k * ((1 + x) * / w + ln w * / w)) (b := k); try lra.
    + intros w _. apply (comp_cont (fun w => x + ln (Rmax w k)) F3); [|apply continuity_pt_F3].
      apply cont_plus; [apply cont_c|].
      apply (comp_cont (fun y => Rmax y k) ln); [apply max_continuous|apply continuity_pt_ln]. pose proof (max_spec w k). lra.
    + intros w Hw. destruct (max_spec w k) as (_ & M & _). rewrite M by lra. rewrite Lk. replace (x + - x) with 0 by ring. apply F3_0.
    + intros w Hw. destruct (max_spec w k) as (_ & _ & M). rewrite M by lra. unfold F3. rewrite Ropp_plus_distr, exp_plus, exp_Ropp, (exp_Ropp (ln w)), exp_ln by lra. rewrite <- exp_Ropp. fold k. ring.
    + apply integral_const.
    + apply (integral_antiderivative _ (fun w => w - k * ((1 + x) * ln w + ln w * ln w / 2)) k 1); auto.
      * intros w Hw. apply derivable_pt_lim_minus; [apply derivable_pt_lim_id|].
        apply (derivable_pt_lim_scal (fun w => (1 + x) * ln w + ln w * ln w / 2) k w). apply derivable_pt_lim_plus.
        -- apply (derivable_pt_lim_scal ln). apply derivable_pt_lim_ln. lra.
        -- replace (ln w * / w) with (/ 2 * (/ w * ln w + ln w * / w)) by (field; lra).
           apply derivable_pt_lim_ext with (fun w => / 2 * (ln w * ln w)).
           { intros; field. }
           apply (derivable_pt_lim_scal (fun w => ln w * ln w)). apply (derivable_pt_lim_mult ln ln); apply derivable_pt_lim_ln; lra.
      * intros w Hw. assert (continuity_pt (fun w => / w) w) by (apply cont_inv; [apply cont_id|lra]).
        apply cont_minus; [apply cont_c|]. apply cont_mult; [apply cont_c|].
        apply cont_plus; apply cont_mult; auto; [apply cont_c|apply continuity_pt_ln; lra].
Qed.

(** ** The four branches *)
Lemma cube_le x u : 0 <= x -> 0 <= u -> (cube_root u <= x <-> u <= x * x * x).
Proof.
  intros Hx Hu. destruct (cube_root_spec u Hu) as (A & B). set (c := cube_root u) in *. split; intros L.
  - rewrite <- B. apply Rmult_le_compat; try lra; [apply Rmult_le_pos; lra|]. apply Rmult_le_compat; lra.
  - destruct (Rle_dec c x); auto. exfalso. assert (x * x <= c * c) by (apply Rmult_le_compat; lra).
    assert (x * x * x < c * c * c); [|lra].
    apply Rle_lt_trans with (c * c * x); [apply Rmult_le_compat_r; auto|]. apply Rmult_lt_compat_l; [apply Rmult_lt_0_compat; lra|lra].
Qed.
Lemma branch1 rs x : 0 < rs -> - rs <= x <= 0 -> prob1 (fun u => rs * (cube_root u - 1) <= x) ((x + rs) / rs * ((x + rs) / rs) * ((x + rs) / rs)).
Proof.
  intros Hr Hx. set (y := (x + rs) / rs).
  assert (Y : 0 <= y <= 1).
  { unfold y, Rdiv. assert (0 < / rs) by (apply Rinv_0_lt_compat; auto). split; [apply Rmult_le_pos; lra|].
    apply Rmult_le_reg_r with rs; [auto|]. rewrite Rmult_assoc, Rinv_l by lra. lra. }
  exists 0, (y * y * y).
  assert (0 <= y * y <= 1) by (split; [apply Rmult_le_pos; lra|]; rewrite <- (Rmult_1_l 1); apply Rmult_le_compat; lra).
  assert (0 <= y * y * y <= 1) by (split; [apply Rmult_le_pos; lra|]; rewrite <- (Rmult_1_l 1); apply Rmult_le_compat; lra).
  splits; try lra. intros u Hu.
  assert (E : rs * (cube_root u - 1) <= x <-> u <= y * y * y).
  { rewrite <- cube_le by lra. unfold y. split; intros L.
    - apply Rmult_le_reg_l with rs; [auto|]. replace (rs * ((x + rs) / rs)) with (x + rs) by (field; lra). lra.
    - apply Rmult_le_compat_l with (r := rs) in L; [|lra]. replace (rs * ((x + rs) / rs)) with (x + rs) in L by (field; lra). lra. }
  rewrite E. split; lra.
Qed.
(** the probability of a proposal of at most x *)
Definition P1 (rs x : R) : R := if Rle_dec 0 x then 1 else (x + rs) / rs * ((x + rs) / rs) * ((x + rs) / rs).
Definition P0 (F : R -> R) (x : R) : R := if Rle_dec 0 x then F x else 0.
Lemma prob_false m : m = 0 -> prob1 (fun _ => False) m.
Proof. intros ->. apply prob1_const; auto. Qed.
Lemma neg_log_some u : 0 < u -> neg_log u = Some (- ln u).
Proof. intros H. unfold neg_log. destruct (Req_EM_T u 0); [lra|auto]. Qed.
Lemma ln_neg u : 0 < u < 1 -> ln u < 0.
Proof. intros H. rewrite <- ln_1. apply ln_increasing; lra. Qed.
Lemma cube_root_1 u : 0 < u < 1 -> cube_root u <= 1.
Proof. intros H. apply cube_le; lra. Qed.

Definition proposal (rs x : R) : R :=
  (1 * P1 rs x + 3 / rs * P0 F2 x + 6 / (rs * rs) * P0 F3 x + 6 / (rs * rs * rs) * P0 F4 x) / (ranges234 rs - -1).
Lemma proposal_prob rs x : 0 < rs -> - rs <= x ->
  prob4 (-1) (ranges234 rs) (fun which u1 u2 u3 => at_most (ws_t rs which u1 u2 u3) x) (proposal rs x).
Proof.
  intros Hr Hx. set (p2 := 3 / rs). set (p3 := 2 * (3 / rs) / rs). set (p4 := 1 * (2 * (3 / rs) / rs) / rs).
  assert (I0 : 0 < / rs) by (apply Rinv_0_lt_compat; auto).
  assert (A2 : 0 < p2) by (unfold p2, Rdiv; apply Rmult_lt_0_compat; lra).
  assert (A3 : 0 < p3) by (unfold p3; fold p2; unfold Rdiv; apply Rmult_lt_0_compat; [lra|auto]).
  assert (A4 : 0 < p4) by (unfold p4; fold p3; unfold Rdiv; apply Rmult_lt_0_compat; [lra|auto]).
  exists [(0, P1 rs x); (p2, P0 F2 x); (p2 + p3, P0 F3 x); (p2 + p3 + p4, P0 F4 x)]. cbn [end_of pieces weighted].
  splits; try lra; try exact I.
  - reflexivity.
  - intros w Hw.
    apply prob3_ext with (fun u _ _ => rs * (cube_root u - 1) <= x).
    { intros u v z Hu Hv Hz. unfold ws_t, at_most. destruct (Rlt_dec w 0); [tauto|lra]. }
    apply (prob3_of_2 (fun u _ => rs * (cube_root u - 1) <= x)), (prob2_of_1 (fun u => rs * (cube_root u - 1) <= x)).
    unfold P1. destruct (Rle_dec 0 x); [|apply branch1; lra].
    apply prob1_ext with (fun _ => True); [|apply prob1_const; auto]. intros u Hu. split; auto. intros _.
    pose proof (cube_root_1 u Hu). apply Rle_trans with 0; [|auto]. assert (rs * (1 - cube_root u) >= 0) by (apply Rle_ge, Rmult_le_pos; lra). lra.
  - intros w Hw.
    apply prob3_ext with (fun u _ _ => - ln u <= x).
    { intros u v z Hu Hv Hz. unfold ws_t. fold p2. destruct (Rlt_dec w 0); [lra|]. destruct (Rle_dec p2 w); [lra|]. rewrite neg_log_some by lra. simpl. tauto. }
    apply (prob3_of_2 (fun u _ => - ln u <= x)), (prob2_of_1 (fun u => - ln u <= x)).
    unfold P0. destruct (Rle_dec 0 x); [apply one_exponential; auto|].
    apply prob1_ext with (fun _ => False); [|apply prob_false; auto]. intros u Hu. pose proof (ln_neg u Hu). split; [tauto|lra].
  - intros w Hw.
    apply prob3_ext with (fun u v _ => - ln u - ln v <= x).
    { intros u v z Hu Hv Hz. unfold ws_t. fold p2. change (2 * p2 / rs) with p3. destruct (Rlt_dec w 0); [lra|]. destruct (Rle_dec p2 w); [|lra]. destruct (Rle_dec (p2 + p3) w); [lra|].
      rewrite !neg_log_some by lra. simpl. tauto. }
    apply (prob3_of_2 (fun u v => - ln u - ln v <= x)).
    unfold P0. destruct (Rle_dec 0 x); [apply two_exponentials; auto|].
    apply prob2_ext with (fun _ _ => False); [|apply (prob2_of_1 (fun _ => False)), prob_false; auto]. intros u v Hu Hv. pose proof (ln_neg u Hu). pose proof (ln_neg v Hv). split; [tauto|lra].
  - intros w Hw.
    apply prob3_ext with (fun u v z => - ln u - ln v - ln z <= x).
    { intros u v z Hu Hv Hz. unfold ws_t. fold p2. change (2 * p2 / rs) with p3. destruct (Rlt_dec w 0); [lra|]. destruct (Rle_dec p2 w); [|lra]. destruct (Rle_dec (p2 + p3) w); [|lra].
      rewrite !neg_log_some by lra. simpl. replace (- ln u + - ln v + - ln z) with (- ln u - ln v - ln z) by ring. tauto. }
    unfold P0. destruct (Rle_dec 0 x); [apply three_exponentials; auto|].
    apply prob3_ext with (fun _ _ _ => False); [|apply (prob3_of_2 (fun _ _ => False)), (prob2_of_1 (fun _ => False)), prob_false; auto]. intros u v z Hu Hv Hz. pose proof (ln_neg u Hu). pose proof (ln_neg v Hv). pose proof (ln_neg z Hz). split; [tauto|lra].
  - unfold proposal. f_equal. rewrite Rplus_0_r.
    replace (6 / (rs * rs)) with p3 by (unfold p3; field; lra). replace (6 / (rs * rs * rs)) with p4 by (unfold p4; field; lra). fold p2. ring.
Qed.
(** the density of the proposals *)
Definition proposal_density (rs x : R) : R :=
  if Rle_dec 0 x then exp (- x) * (3 / rs + 6 / (rs * rs) * x + 6 / (rs * rs * rs) * (x * x / 2)) / (ranges234 rs - -1)
  else 3 * ((x + rs) / rs * ((x + rs) / rs)) / rs / (ranges234 rs - -1).
Lemma proposal_derivative rs x : 0 < rs -> - rs < x -> x <> 0 -> derivable_pt_lim (proposal rs) x (proposal_density rs x).
Proof.
  intros Hr Hx H0. set (W := ranges234 rs - -1). unfold proposal_density. fold W. destruct (Rle_dec 0 x) as [L|L].
  - apply derivable_pt_lim_locally_ext with (a := 0) (b := x + 1)
      (f := fun y => / W * (1 + 3 / rs * (1 - exp (- y)) + 6 / (rs * rs) * (1 - exp (- y) * (1 + y)) + 6 / (rs * rs * rs) * (1 - exp (- y) * (1 + y + y * y / 2)))); [lra| |].
    + intros y Hy. unfold proposal, P1, P0, F2, F3, F4. destruct (Rle_dec 0 y); [|lra]. fold W. unfold Rdiv. ring.
    + assert (De : derivable_pt_lim (fun y => exp (- y)) x (- exp (- x))).
      { replace (- exp (- x)) with (exp (- x) * - 1) by ring.
        apply (derivable_pt_lim_comp (fun y => - y) exp); [|apply derivable_pt_lim_exp]. apply (derivable_pt_lim_opp id), derivable_pt_lim_id. }
      assert (Di : derivable_pt_lim (fun y => y) x 1) by apply derivable_pt_lim_id.
      assert (Dc : forall c, derivable_pt_lim (fun _ => c) x 0) by (intros c; apply derivable_pt_lim_const).
      assert (Dq : derivable_pt_lim (fun y => y * y / 2) x x).
      { apply derivable_pt_lim_ext with (fun y => / 2 * (y * y)); [intros; field|]. replace x with (/ 2 * (1 * x + x * 1)) at 2 by field.
        apply (derivable_pt_lim_scal (fun y => y * y)). apply (derivable_pt_lim_mult id id); apply derivable_pt_lim_id. }
      assert (D1 : derivable_pt_lim (fun y => 1 + y) x (0 + 1)) by (apply (derivable_pt_lim_plus (fun _ => 1) (fun y => y)); auto).
      assert (D2 : derivable_pt_lim (fun y => 1 + y + y * y / 2) x (0 + 1 + x)) by (apply (derivable_pt_lim_plus (fun y => 1 + y) (fun y => y * y / 2)); auto).
      assert (E2 : derivable_pt_lim (fun y => 1 - exp (- y)) x (0 - - exp (- x))) by (apply (derivable_pt_lim_minus (fun _ => 1) (fun y => exp (- y))); auto).
      assert (E3 : derivable_pt_lim (fun y => 1 - exp (- y) * (1 + y)) x (0 - (- exp (- x) * (1 + x) + exp (- x) * (0 + 1)))).
      { apply (derivable_pt_lim_minus (fun _ => 1) (fun y => exp (- y) * (1 + y))); auto. apply (derivable_pt_lim_mult (fun y => exp (- y)) (fun y => 1 + y)); auto. }
      assert (E4 : derivable_pt_lim (fun y => 1 - exp (- y) * (1 + y + y * y / 2)) x (0 - (- exp (- x) * (1 + x + x * x / 2) + exp (- x) * (0 + 1 + x)))).
      { apply (derivable_pt_lim_minus (fun _ => 1) (fun y => exp (- y) * (1 + y + y * y / 2))); auto. apply (derivable_pt_lim_mult (fun y => exp (- y)) (fun y => 1 + y + y * y / 2)); auto. }
      replace (exp (- x) * (3 / rs + 6 / (rs * rs) * x + 6 / (rs * rs * rs) * (x * x / 2)) / W) with
        (/ W * (0 + 3 / rs * (0 - - exp (- x)) + 6 / (rs * rs) * (0 - (- exp (- x) * (1 + x) + exp (- x) * (0 + 1)))
           + 6 / (rs * rs * rs) * (0 - (- exp (- x) * (1 + x + x * x / 2) + exp (- x) * (0 + 1 + x))))) by (unfold Rdiv; ring).
      apply (derivable_pt_lim_scal (fun y => 1 + 3 / rs * (1 - exp (- y)) + 6 / (rs * rs) * (1 - exp (- y) * (1 + y)) + 6 / (rs * rs * rs) * (1 - exp (- y) * (1 + y + y * y / 2)))).
      apply (derivable_pt_lim_plus (fun y => 1 + 3 / rs * (1 - exp (- y)) + 6 / (rs * rs) * (1 - exp (- y) * (1 + y)))); [|apply (derivable_pt_lim_scal (fun y => 1 - exp (- y) * (1 + y + y * y / 2))); auto].
      apply (derivable_pt_lim_plus (fun y => 1 + 3 / rs * (1 - exp (- y)))); [|apply (derivable_pt_lim_scal (fun y => 1 - exp (- y) * (1 + y))); auto].
      apply (derivable_pt_lim_plus (fun _ => 1)); auto. apply (derivable_pt_lim_scal (fun y => 1 - exp (- y))); auto.
  - apply derivable_pt_lim_locally_ext with (a := x - 1) (b := 0) (f := fun y => / W * ((y + rs) / rs * ((y + rs) / rs) * ((y + rs) / rs))); [lra| |].
    + intros y Hy. unfold proposal, P1, P0. destruct (Rle_dec 0 y); [lra|]. fold W. unfold Rdiv. ring.
    + set (l := fun y => (y + rs) / rs).
      assert (Dl : derivable_pt_lim l x (/ rs)).
      { unfold l. apply derivable_pt_lim_ext with (fun y => / rs * (y + rs)); [intros; unfold Rdiv; ring|].
        assert (X : derivable_pt_lim (fun y => / rs * (y + rs)) x (/ rs * (1 + 0))); [|rewrite Rplus_0_r, Rmult_1_r in X; exact X].
        apply (derivable_pt_lim_scal (fun y => y + rs)). apply (derivable_pt_lim_plus id (fun _ => rs)); [apply derivable_pt_lim_id|apply derivable_pt_lim_const]. }
      replace (3 * ((x + rs) / rs * ((x + rs) / rs)) / rs / W) with (/ W * ((/ rs * l x + l x * / rs) * l x + l x * l x * / rs)) by (unfold l, Rdiv; ring).
      apply (derivable_pt_lim_scal (fun y => l y * l y * l y)). apply (derivable_pt_lim_mult (fun y => l y * l y) l); auto. apply (derivable_pt_lim_mult l l); auto.
Qed.

(** ** C105: the nucleons follow the Woods-Saxon distribution *)
(** The proposal for t = (r - radius) / d is at most x with probability C(x), and is accepted with probability a(t). Its density
    times the acceptance is proportional to the Woods-Saxon density in r. *)
Theorem woods_saxon_is_sampled radius d : 0 < radius -> 0 < d ->
  let rs := radius / d in
  exists C c a K, 0 < K /\
    (forall x, - rs <= x -> prob4 (-1) (ranges234 rs) (fun which u1 u2 u3 => at_most (ws_t rs which u1 u2 u3) x) (C x)) /\
    C (- rs) = 0 /\
    (forall t, prob1 (fun u => ws_accept (Some t) u = true) (a t)) /\
    (forall t, ws_radius radius d (Some t) = Some (radius + d * t)) /\
    (forall x, - rs < x -> x <> 0 -> derivable_pt_lim C x (c x) /\ c x * a x = K * woods_saxon radius d (radius + d * x)).
Proof.
  intros Hr Hd rs.
  assert (R0 : 0 < rs) by (unfold rs; apply Rdiv_lt_0_compat; auto).
  assert (I0 : 0 < / rs) by (apply Rinv_0_lt_compat; auto).
  set (W := ranges234 rs - -1).
  assert (HW : 0 < W).
  { unfold W, ranges234, Rdiv. assert (0 < 3 * / rs) by lra. assert (0 < 2 * (3 * / rs) * / rs) by (apply Rmult_lt_0_compat; lra).
    assert (0 < 1 * (2 * (3 * / rs) * / rs) * / rs) by (apply Rmult_lt_0_compat; lra). lra. }
  exists (proposal rs), (proposal_density rs), (fun t => 1 / (1 + exp (- Rabs t))), (3 / (rs * rs * rs * d * d * W)).
  assert (A : forall t, 0 < 1 / (1 + exp (- Rabs t)) <= 1).
  { intros t. pose proof (exp_pos (- Rabs t)). split; [apply Rdiv_lt_0_compat; lra|]. apply Rmult_le_reg_r with (1 + exp (- Rabs t)); [lra|]. unfold Rdiv. rewrite Rmult_assoc, Rinv_l by lra. lra. }
  splits.
  - apply Rdiv_lt_0_compat; [lra|]. repeat (apply Rmult_lt_0_compat; auto).
  - intros x Hx. apply proposal_prob; auto.
  - unfold proposal, P1, P0. destruct (Rle_dec 0 (- rs)); [lra|]. replace (- rs + rs) with 0 by ring. unfold Rdiv. ring.
  - intros t. destruct (A t). exists 0, (1 / (1 + exp (- Rabs t))). splits; try lra. intros u Hu. unfold ws_accept.
    destruct (Rlt_dec (1 / (1 + exp (- Rabs t))) u); split; intros; auto; try lra; try discriminate.
  - intros t. unfold ws_radius. f_equal. field. lra.
  - intros x Hx H0. split; [apply proposal_derivative; auto|].
    unfold proposal_density, woods_saxon. fold W. replace ((radius + d * x - radius) / d) with x by (field; lra).
    replace (radius + d * x) with (d * (rs + x)) by (unfold rs; field; lra).
    destruct (Rle_dec 0 x) as [L|L].
    + rewrite Rabs_pos_eq by auto. pose proof (exp_pos x). rewrite exp_Ropp. field. splits; lra.
    + rewrite Rabs_left by lra. rewrite Ropp_involutive. pose proof (exp_pos x). field. splits; lra.
Qed.
Print Assumptions woods_saxon_is_sampled.
Example woods_saxon_hypotheses : 0 < 6.86 /\ 0 < 0.556.
Proof. split; lra. Qed.

(** In the model a nucleon is never placed at a negative radius. *)
Theorem sampled_radius radius d which u1 u2 u3 t : 0 < radius -> 0 < d -> 0 <= u1 < 1 -> 0 <= u2 < 1 -> 0 <= u3 < 1 ->
  ws_t (radius / d) which u1 u2 u3 = Some t -> exists r, ws_radius radius d (Some t) = Some r /\ 0 <= r.
Proof.
  intros Hr Hd H1 H2 H3 E. eexists. split; [reflexivity|].
  set (rs := radius / d) in *. assert (R0 : 0 < rs) by (unfold rs; apply Rdiv_lt_0_compat; auto).
  apply Rmult_le_pos; [|lra].
  assert (N : forall u s, 0 <= u < 1 -> neg_log u = Some s -> 0 <= s).
  { intros u s Hu. unfold neg_log. destruct (Req_EM_T u 0); [discriminate|]. intros X; injection X as <-. pose proof (ln_neg u). lra. }
  assert (N2 : forall x y s, oplus x y = Some s -> exists a b, x = Some a /\ y = Some b /\ s = a + b).
  { intros [a|] [b|] s X; try discriminate. injection X as <-. eauto. }
  unfold ws_t in E. destruct (Rlt_dec which 0).
  - injection E as <-. destruct (cube_root_spec u1) as (A & _); [lra|]. assert (0 <= rs * cube_root u1) by (apply Rmult_le_pos; lra). lra.
  - assert (0 <= t); [|lra]. destruct (Rle_dec (3 / rs) which); [|exact (N u1 t H1 E)].
    destruct (Rle_dec _ which).
    + destruct (N2 _ _ _ E) as (a & b & Ea & Eb & ->). destruct (N2 _ _ _ Ea) as (a' & b' & Ea' & Eb' & ->). pose proof (N _ _ H1 Ea'). pose proof (N _ _ H2 Eb'). pose proof (N _ _ H3 Eb). lra.
    + destruct (N2 _ _ _ E) as (a & b & Ea & Eb & ->). pose proof (N _ _ H1 Ea). pose proof (N _ _ H2 Eb). lra.
Qed.
Print Assumptions sampled_radius.
(** The draws can be 0: then the nucleon is accepted at an infinite radius. *)
Theorem sampled_radius_is_finite_refuted radius d : 0 < radius -> 0 < d -> exists which u1 u2 u3 u,
  -1 <= which < ranges234 (radius / d) /\ 0 <= u1 < 1 /\ 0 <= u2 < 1 /\ 0 <= u3 < 1 /\ 0 <= u < 1 /\
  ws_accept (ws_t (radius / d) which u1 u2 u3) u = true /\ ws_radius radius d (ws_t (radius / d) which u1 u2 u3) = None.
Proof.
  intros Hr Hd. set (rs := radius / d). assert (R0 : 0 < rs) by (unfold rs; apply Rdiv_lt_0_compat; auto).
  assert (I0 : 0 < / rs) by (apply Rinv_0_lt_compat; auto).
  assert (A2 : 0 < 3 / rs) by (unfold Rdiv; lra).
  assert (A3 : 0 < 2 * (3 / rs) / rs) by (unfold Rdiv at 1; apply Rmult_lt_0_compat; lra).
  assert (A4 : 0 < 1 * (2 * (3 / rs) / rs) / rs) by (unfold Rdiv at 1; apply Rmult_lt_0_compat; lra).
  assert (E : ws_t rs 0 0 0 0 = None).
  { unfold ws_t. destruct (Rlt_dec 0 0); [lra|]. destruct (Rle_dec (3 / rs) 0); [lra|]. unfold neg_log. destruct (Req_EM_T 0 0); [auto|lra]. }
  exists 0, 0, 0, 0, 0. rewrite E. unfold ranges234, ws_accept. destruct (Rlt_dec 1 0); [lra|]. splits; auto; lra.
Qed.
Print Assumptions sampled_radius_is_finite_refuted.

(** Hard sphere: at most at r with the ratio of the volumes. *)
Theorem hard_sphere_is_uniform radius r : 0 < radius -> 0 <= r <= radius ->
  prob1 (fun u => hard_sphere radius u <= r) (r * r * r / (radius * radius * radius)).
Proof.
  intros Hr Hx. pose proof (branch1 radius (r - radius) Hr) as B. replace (r - radius + radius) with r in B by ring.
  replace (r * r * r / (radius * radius * radius)) with (r / radius * (r / radius) * (r / radius)) by (field; lra).
  apply prob1_ext with (2 := B ltac:(lra)). intros u Hu. unfold hard_sphere. split; lra.
Qed.
Print Assumptions hard_sphere_is_uniform.
