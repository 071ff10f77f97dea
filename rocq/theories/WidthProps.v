(** C97: the mass dependence of decay widths. Exact real arithmetic. *)
From Coq Require Import ZArith Reals List Bool Lia Lra Psatz.
From Verif Require Import Base VecModel VecProps KinProps WidthModel.
Import ListNotations.
Open Scope R_scope.

(** ** The Blatt-Weisskopf functions for every angular momentum *)
(** [coef l k] is the coefficient of x^(2k) in the denominator for angular momentum l: the denominator is a
    polynomial in x^2 of degree l with positive coefficients and leading coefficient 1. *)
Fixpoint coef (l k : nat) : R :=
  match l with
  | O => match k with O => 1 | S _ => 0 end
  | S l' => match k with
    | O => (2 * INR l' + 1) * (2 * INR l' + 1) * coef l' 0
    | S k' => (2 * INR l' + 1 - INR k') / INR (S k') * coef l' k'
    end
  end.
Lemma coef_S l k : coef (S l) (S k) = (2 * INR l + 1 - INR k) / INR (S k) * coef l k.
Proof. reflexivity. Qed.
Lemma coef_S0 l : coef (S l) 0 = (2 * INR l + 1) * (2 * INR l + 1) * coef l 0.
Proof. reflexivity. Qed.
Lemma coef_above l : forall k, (l < k)%nat -> coef l k = 0.
Proof.
  induction l as [|l IH]; intros [|k] H; try lia; [reflexivity|]. rewrite coef_S, IH by lia. ring.
Qed.
Lemma coef_pos l : forall k, (k <= l)%nat -> 0 < coef l k.
Proof.
  induction l as [|l IH]; intros [|k] H; try lia; [cbn; lra| |].
  - rewrite coef_S0. specialize (IH 0%nat ltac:(lia)). pose proof (pos_INR l). nra.
  - rewrite coef_S. specialize (IH k ltac:(lia)). apply Rmult_lt_0_compat; auto. apply Rdiv_lt_0_compat.
    + assert (INR k <= INR l) by (apply le_INR; lia). pose proof (pos_INR l). lra.
    + apply lt_0_INR. lia.
Qed.
Lemma coef_lead l : coef l l = 1.
Proof.
  induction l as [|l IH]; [reflexivity|]. rewrite coef_S, IH, S_INR. pose proof (pos_INR l). field. lra.
Qed.
Lemma coef_0_ge l : 1 <= coef l 0.
Proof. induction l as [|l IH]; [cbn; lra|]. rewrite coef_S0. pose proof (pos_INR l). nra. Qed.
(** the horizontal recurrence *)
Lemma coef_row l : forall k, (k < l)%nat ->
  let n := 2 * INR l + 1 in let j := INR (S k) in
  j * (n - j) * (n - 2 * j) * coef l (S k) = (n + 1 - 2 * j) * coef l k.
Proof.
  induction l as [|l IH]; intros k H; [lia|]. cbv zeta. pose proof (pos_INR l). destruct k as [|k].
  - rewrite coef_S, coef_S0, !S_INR. cbn [INR]. field.
  - specialize (IH k ltac:(lia)). cbv zeta in IH. rewrite !coef_S. rewrite !S_INR in *. pose proof (pos_INR k).
    assert (E : (INR k + 1) * (2 * INR l + 1 - (INR k + 1)) * (2 * INR l + 1 - 2 * (INR k + 1)) * coef l (S k) =
            (2 * INR l + 1 + 1 - 2 * (INR k + 1)) * coef l k) by exact IH.
    transitivity ((2 * INR l + 1 - INR k) / (INR k + 1) *
      ((INR k + 1) * (2 * INR l + 1 - (INR k + 1)) * (2 * INR l + 1 - 2 * (INR k + 1)) * coef l (S k))); [field; lra|].
    rewrite E. field. lra.
Qed.
(** the recurrence over three rows *)
Lemma coef_three l k : coef (S (S l)) k =
  let n := 2 * INR (S l) + 1 in
  n * (n - 2 * INR k) * coef (S l) k + match k with S (S k') => coef l k' | _ => 0 end.
Proof.
  cbv zeta. pose proof (pos_INR l) as PL. destruct k as [|[|k]].
  - rewrite (coef_S0 (S l)). cbn [INR]. ring.
  - rewrite (coef_S (S l)). pose proof (coef_row (S l) 0 ltac:(lia)) as E. cbv zeta in E. rewrite !S_INR in *. cbn [INR] in *.
    assert (E' : (2 * INR l + 2) * (2 * INR l + 1) * coef (S l) 1 = (2 * INR l + 2) * coef (S l) 0) by lra.
    assert (E2 : coef (S l) 0 = (2 * INR l + 1) * coef (S l) 1) by (apply Rmult_eq_reg_l with (2 * INR l + 2); lra).
    rewrite E2. field.
  - rewrite (coef_S (S l)), (coef_S l). destruct (Nat.lt_trichotomy k l) as [H|[H|H]].
    + pose proof (coef_row l k H) as E. cbv zeta in E. rewrite (coef_S l). rewrite !S_INR in *. pose proof (pos_INR k) as PK.
      assert (K : INR k + 1 <= INR l) by (rewrite <- S_INR; apply le_INR; lia).
      assert (E2 : coef l (S k) * ((INR k + 1) * (2 * INR l - INR k) * (2 * INR l - 1 - 2 * INR k)) = (2 * INR l - 2 * INR k) * coef l k) by lra.
      assert (N : (INR k + 1) * (2 * INR l - INR k) <> 0) by nra.
      apply Rmult_eq_reg_r with ((INR k + 1) * (INR k + 1 + 1) * (INR k + 1) * (2 * INR l - INR k)); [|nra].
      transitivity ((2 * (INR l + 1) + 1 - (INR k + 1)) * (2 * INR l + 1 - INR k) * coef l k * ((INR k + 1) * (2 * INR l - INR k))); [field; lra|].
      transitivity (((2 * (INR l + 1) + 1) * (2 * INR l + 1 - (INR k + 1)) * (INR k + 1)) * (coef l (S k) * ((INR k + 1) * (2 * INR l - INR k) * (2 * INR l - 1 - 2 * INR k))) + coef l k * ((INR k + 1) * (INR k + 1 + 1) * (INR k + 1) * (2 * INR l - INR k))); [rewrite E2; ring|field; lra].
    + subst k. rewrite (coef_lead l). rewrite (coef_above (S l) (S (S l))) by lia. rewrite !S_INR. field. lra.
    + rewrite (coef_above l k) by lia. rewrite (coef_above (S l) (S (S k))) by lia. ring.
Qed.
Definition poly (N : nat) (f : nat -> R) (t : R) : R := sum_f_R0 (fun k => f k * t ^ k) N.
Definition den (l : nat) (t : R) : R := poly l (coef l) t.
Lemma poly_ext N f g t : (forall k, (k <= N)%nat -> f k = g k) -> poly N f t = poly N g t.
Proof. intros H. unfold poly. apply sum_eq. intros i Hi. now rewrite (H i Hi). Qed.
Lemma poly_more N f t : f (S N) = 0 -> poly (S N) f t = poly N f t.
Proof. intros H. unfold poly. cbn [sum_f_R0]. rewrite H. ring. Qed.
Lemma den_more l t : den l t = poly (S l) (coef l) t.
Proof. unfold den. rewrite poly_more; auto. apply coef_above. lia. Qed.
Lemma poly_lin N f g a b t : poly N (fun k => a * f k + b * g k) t = a * poly N f t + b * poly N g t.
Proof. induction N as [|N IH]; unfold poly in *; cbn [sum_f_R0]; [ring|]. rewrite IH. ring. Qed.
Definition up (f : nat -> R) (k : nat) : R := match k with O => 0 | S k' => f k' end.
Lemma poly_up N f t : poly (S N) (up f) t = t * poly N f t.
Proof.
  induction N as [|N IH]; unfold poly in *; cbn [sum_f_R0 up] in *; [cbn [pow]; ring|].
  rewrite IH. cbn [sum_f_R0 pow]. ring.
Qed.
Definition slope (l : nat) (t : R) : R := poly l (fun k => INR k * coef l k) t.
Lemma slope_more l t : slope l t = poly (S l) (fun k => INR k * coef l k) t.
Proof. unfold slope. rewrite poly_more; auto. rewrite coef_above by lia. ring. Qed.
Lemma slope_S l t : slope (S l) t = t * ((2 * INR l + 1) * den l t - slope l t).
Proof.
  unfold slope at 1. rewrite (poly_ext _ _ (up (fun k => (2 * INR l + 1) * coef l k + -1 * (INR k * coef l k)))).
  - rewrite poly_up, poly_lin. unfold den, slope. ring.
  - intros [|k] _; cbn [up]; [cbn [INR]; ring|]. rewrite coef_S. pose proof (pos_INR k). rewrite S_INR. field. lra.
Qed.
Lemma den_SS l t : let n := 2 * INR (S l) + 1 in
  den (S (S l)) t = n * n * den (S l) t - 2 * n * slope (S l) t + t * t * den l t.
Proof.
  cbv zeta. set (n := 2 * INR (S l) + 1). unfold den at 1.
  rewrite (poly_ext _ _ (fun k => 1 * (n * n * coef (S l) k + - (2 * n) * (INR k * coef (S l) k)) + 1 * up (up (coef l)) k)).
  - rewrite poly_lin, poly_lin, (poly_up (S l)), (poly_up l), <- slope_more, <- den_more. unfold den. ring.
  - intros k _. rewrite (coef_three l k). cbv zeta. fold n. destruct k as [|[|k]]; cbn [up]; ring.
Qed.
Definition cre (a b : cplx) : R := fst a * fst b + snd a * snd b.
Lemma bw_loop_spec x n : forall l numer gp g, let t := x * x in
  cnorm gp = den l t -> cnorm g = den (S l) t -> t * cre g gp = slope (S l) t ->
  let '(numer', g') := bw_loop t n (Z.of_nat (S l)) numer gp g in
  numer' = numer * t ^ n /\ cnorm g' = den (S l + n) t.
Proof.
  induction n as [|n IH]; intros l numer gp g; cbv zeta; intros A B C; cbn [bw_loop].
  - rewrite Nat.add_0_r. cbn [pow]. split; auto. ring.
  - replace (Z.of_nat (S l) + 1)%Z with (Z.of_nat (S (S l))) by lia.
    assert (N : IZR (2 * Z.of_nat (S l) + 1) = 2 * INR (S l) + 1) by (rewrite plus_IZR, mult_IZR, <- INR_IZR_INZ; ring).
    rewrite N. set (k := 2 * INR (S l) + 1) in *.
    specialize (IH (S l) (numer * (x * x)) g (csub (cscale k g) (cscale (x * x) gp))). cbv zeta in IH.
    destruct bw_loop as [numer' g']. destruct IH as [I1 I2]; auto.
    + pose proof (den_SS l (x * x)) as D. cbv zeta in D. fold k in D. rewrite D, <- A, <- B, <- C.
      unfold cnorm, cre, csub, cscale. cbn [fst snd]. ring.
    + rewrite slope_S. fold k. rewrite <- B, <- C. unfold cnorm, cre, csub, cscale. cbn [fst snd]. ring.
    + split; [rewrite I1; cbn [pow]; ring|]. rewrite I2. f_equal. lia.
Qed.
Lemma bw_eq p L : blatt_weisskopf_sqr p (Z.of_nat L) =
  let x := p / hbarc in (x * x) ^ L / den L (x * x).
Proof.
  cbv zeta. unfold blatt_weisskopf_sqr. replace (p * (1 / hbarc)) with (p / hbarc) by (unfold Rdiv; ring).
  set (x := p / hbarc). destruct L as [|[|L]].
  - cbn. field.
  - change (Z.of_nat 1 =? 0)%Z with false. change (Z.of_nat 1 =? 1)%Z with true. cbv iota.
    unfold den, poly. cbn [sum_f_R0 coef INR pow]. f_equal; field.
  - destruct (Z.eqb_spec (Z.of_nat (S (S L))) 0); [lia|]. destruct (Z.eqb_spec (Z.of_nat (S (S L))) 1); [lia|].
    replace (Z.to_nat (Z.of_nat (S (S L)) - 1)) with (S L) by lia.
    pose proof (bw_loop_spec x (S L) 0 (x * x) (1, 0) (1, - x)) as H. cbv zeta in H. change (Z.of_nat 1) with 1%Z in H.
    destruct bw_loop as [numer g]. destruct H as [H1 H2].
    + unfold cnorm, den, poly. cbn. ring.
    + unfold cnorm, den, poly. cbn [fst snd sum_f_R0 coef INR pow]. field.
    + unfold cre, slope, poly. cbn [fst snd sum_f_R0 coef INR pow]. field.
    + rewrite H1, H2. reflexivity.
Qed.
Lemma den_lower l t : 0 <= t -> t ^ l <= den l t /\ coef l 0 <= den l t.
Proof.
  intros T. unfold den. assert (P : forall N f, (forall k, (k <= N)%nat -> 0 <= f k) -> f N * t ^ N <= poly N f t /\ f 0%nat <= poly N f t /\ 0 <= poly N f t).
  { induction N as [|N IH]; intros f H; unfold poly in *; cbn [sum_f_R0].
    - specialize (H 0%nat (le_n _)). cbn [pow]. lra.
    - destruct (IH f) as (A & B & C); [intros; apply H; lia|]. assert (0 <= f (S N) * t ^ S N) by (apply Rmult_le_pos; [apply H; lia|now apply pow_le]). lra. }
  destruct (P l (coef l)) as (A & B & _); [intros k K; apply Rlt_le; now apply coef_pos|].
  rewrite coef_lead in A. lra.
Qed.
Lemma den_pos l t : 0 <= t -> 1 <= den l t.
Proof. intros T. pose proof (den_lower l t T). pose proof (coef_0_ge l). lra. Qed.
Lemma pow_le' s t n : 0 <= s <= t -> s ^ n <= t ^ n.
Proof. intros H. now apply pow_incr. Qed.
Lemma pow_lt' s t n : 0 <= s < t -> s ^ S n < t ^ S n.
Proof.
  intros H. induction n as [|n IH]; [cbn; lra|]. change (s * s ^ S n < t * t ^ S n).
  assert (0 <= s ^ S n) by (apply pow_le; lra). nra.
Qed.
Lemma den_cross N f L s t : 0 <= s < t -> (N <= L)%nat -> (0 < L)%nat -> (forall k, (k <= N)%nat -> 0 < f k) ->
  s ^ L * poly N f t < t ^ L * poly N f s.
Proof.
  intros H NL L0 F. assert (E : forall a b k, (k <= L)%nat -> a ^ L * (f k * b ^ k) = f k * (a ^ k * b ^ k) * a ^ (L - k)).
  { intros a b k K. replace (a ^ L) with (a ^ (k + (L - k))) by (f_equal; lia). rewrite pow_add. ring. }
  induction N as [|N IH].
  - unfold poly. cbn [sum_f_R0 pow]. destruct L as [|L]; [lia|]. pose proof (pow_lt' s t L H). pose proof (F 0%nat ltac:(lia)). nra.
  - unfold poly in *. cbn [sum_f_R0]. rewrite !Rmult_plus_distr_l. apply Rplus_lt_le_compat; [apply IH; [lia|intros; apply F; lia]|].
    rewrite !E by lia. rewrite (Rmult_comm (t ^ S N)). apply Rmult_le_compat_l; [|apply pow_le'; lra].
    apply Rmult_le_pos; [apply Rlt_le, F; lia|]. apply Rmult_le_pos; apply pow_le; lra.
Qed.
Lemma x_sqr p q : 0 <= p < q -> 0 <= p / hbarc * (p / hbarc) < q / hbarc * (q / hbarc).
Proof.
  intros H. assert (Q : 0 < / hbarc) by (apply Rinv_0_lt_compat; unfold hbarc; lra). unfold Rdiv.
  assert (0 <= p * / hbarc < q * / hbarc) by (split; nra). split; nra.
Qed.

(** Blatt-Weisskopf functions for every angular momentum: between 0 and 1, 0 exactly at zero momentum
    (unless the angular momentum is 0), strictly increasing with the momentum. *)
Theorem blatt_weisskopf_increasing L p q : (0 < L)%Z -> 0 <= p < q ->
  0 <= blatt_weisskopf_sqr p L < blatt_weisskopf_sqr q L /\ blatt_weisskopf_sqr q L < 1.
Proof.
  intros HL H. rewrite <- (Z2Nat.id L) by lia. rewrite !bw_eq. cbv zeta. set (l := Z.to_nat L). assert (L0 : (0 < l)%nat) by (unfold l; lia).
  pose proof (x_sqr p q H) as X. set (s := p / hbarc * (p / hbarc)) in *. set (t := q / hbarc * (q / hbarc)) in *. clearbody s t.
  pose proof (den_pos l s ltac:(lra)) as Ds. pose proof (den_pos l t ltac:(lra)) as Dt.
  assert (0 <= s ^ l) by (apply pow_le; lra). splits.
  - apply Rmult_le_pos; auto. apply Rlt_le, Rinv_0_lt_compat. lra.
  - apply Rmult_lt_reg_r with (den l s * den l t); [nra|].
    replace (s ^ l / den l s * (den l s * den l t)) with (s ^ l * den l t) by (field; lra).
    replace (t ^ l / den l t * (den l s * den l t)) with (t ^ l * den l s) by (field; lra).
    unfold den. apply den_cross; auto. intros k K. now apply coef_pos.
  - apply Rmult_lt_reg_r with (den l t); [lra|]. replace (t ^ l / den l t * den l t) with (t ^ l) by (field; lra). rewrite Rmult_1_l.
    pose proof (den_cross l (coef l) l 0 t ltac:(lra) (le_n _) L0 ltac:(intros; now apply coef_pos)) as _.
    unfold den. destruct l as [|l']; [lia|]. unfold poly. cbn [sum_f_R0]. rewrite coef_lead.
    assert (Z : 0 < sum_f_R0 (fun k => coef (S l') k * t ^ k) l').
    { clear - X. assert (G : forall N, (N <= l')%nat -> 0 < sum_f_R0 (fun k => coef (S l') k * t ^ k) N).
      { induction N as [|N IH]; intros K; cbn [sum_f_R0]; [cbn [pow]; pose proof (coef_pos (S l') 0 ltac:(lia)); lra|].
        assert (0 < coef (S l') (S N) * t ^ S N) by (apply Rmult_lt_0_compat; [apply coef_pos; lia|apply pow_lt; lra]).
        specialize (IH ltac:(lia)). lra. }
      apply G. lia. }
    lra.
Qed.
Print Assumptions blatt_weisskopf_increasing.
Theorem blatt_weisskopf_at_zero L : (0 <= L)%Z -> blatt_weisskopf_sqr 0 L = if (L =? 0)%Z then 1 else 0.
Proof.
  intros HL. rewrite <- (Z2Nat.id L) at 1 by lia. rewrite bw_eq. cbv zeta.
  replace (0 / hbarc * (0 / hbarc)) with 0 by (unfold Rdiv; ring). pose proof (den_pos (Z.to_nat L) 0 (Rle_refl _)).
  destruct (Z.eqb_spec L 0) as [->|N]; [cbn; unfold den, poly; cbn; field|].
  rewrite pow_i by lia. unfold Rdiv. ring.
Qed.
Print Assumptions blatt_weisskopf_at_zero.
(** They approach 1 for large momenta. *)
Lemma den_upper l : exists C, 0 <= C /\ forall t, 1 <= t -> den (S l) t <= t ^ S l + C * t ^ l.
Proof.
  exists (sum_f_R0 (coef (S l)) l). split.
  - apply cond_pos_sum. intros k. destruct (Nat.le_gt_cases k (S l)); [apply Rlt_le; now apply coef_pos|rewrite coef_above by lia; lra].
  - intros t T. unfold den, poly. cbn [sum_f_R0]. rewrite coef_lead.
    enough (sum_f_R0 (fun k => coef (S l) k * t ^ k) l <= sum_f_R0 (coef (S l)) l * t ^ l) by lra.
    rewrite <- (Rmult_comm (t ^ l)), scal_sum. apply sum_Rle. intros k K. apply Rmult_le_compat_l; [apply Rlt_le, coef_pos; lia|].
    now apply Rle_pow.
Qed.
Theorem blatt_weisskopf_limit L eps : (0 <= L)%Z -> 0 < eps ->
  exists P, 0 < P /\ forall p, P < p -> 1 - eps < blatt_weisskopf_sqr p L <= 1.
Proof.
  intros HL HE. destruct (Z.eq_dec L 0) as [->|N]; [exists 1; split; [lra|intros; cbn; lra]|].
  destruct (den_upper (Z.to_nat (L - 1))) as (C & C0 & D). set (l := Z.to_nat (L - 1)) in *.
  assert (HB : 0 < hbarc) by (unfold hbarc; lra).
  exists (hbarc * (1 + C / eps)). assert (0 <= C / eps) by (apply Rmult_le_pos; auto; apply Rlt_le, Rinv_0_lt_compat; auto).
  split; [nra|]. intros p Hp. destruct (blatt_weisskopf_increasing L 0 p ltac:(lia) ltac:(nra)) as [_ U]. split; [|lra].
  replace L with (Z.of_nat (S l)) by lia. rewrite bw_eq. cbv zeta. set (x := p / hbarc).
  assert (X : 1 + C / eps < x) by (unfold x; apply Rmult_lt_reg_r with hbarc; auto; unfold Rdiv at 2; rewrite Rmult_assoc, Rinv_l; lra).
  assert (T : 1 + C / eps < x * x) by nra. set (t := x * x) in *. specialize (D t ltac:(lra)). pose proof (den_pos (S l) t ltac:(lra)) as DP.
  apply Rmult_lt_reg_r with (den (S l) t); [lra|]. replace (t ^ S l / den (S l) t * den (S l) t) with (t ^ S l) by (field; lra).
  destruct (Rle_lt_dec 1 eps) as [G|G]; [assert (0 < t ^ S l) by (apply pow_lt; lra); nra|].
  apply Rle_lt_trans with ((1 - eps) * (t ^ S l + C * t ^ l)); [apply Rmult_le_compat_l; lra|].
  cbn [pow]. assert (0 < t ^ l) by (apply pow_lt; lra).
  assert (Q : (1 - eps) * (t + C) < t).
  { assert (C = eps * (C / eps)) by (field; lra). assert (eps * (1 + C / eps) < eps * t) by (apply Rmult_lt_compat_l; lra). nra. }
  replace ((1 - eps) * (t * t ^ l + C * t ^ l)) with ((1 - eps) * (t + C) * t ^ l) by ring. apply Rmult_lt_compat_r; auto.
Qed.
Print Assumptions blatt_weisskopf_limit.
(** For small momenta they behave like p^(2L): the ratio stays between two positive constants. *)
Theorem blatt_weisskopf_small L : (0 <= L)%Z -> exists K, 1 <= K /\ forall p, 0 <= p <= hbarc ->
  (p / hbarc) ^ (2 * Z.to_nat L) / K <= blatt_weisskopf_sqr p L <= (p / hbarc) ^ (2 * Z.to_nat L).
Proof.
  intros HL. set (l := Z.to_nat L). exists (den l 1). split; [apply den_pos; lra|]. intros p Hp.
  replace (blatt_weisskopf_sqr p L) with (blatt_weisskopf_sqr p (Z.of_nat l)) by (f_equal; lia). rewrite bw_eq. cbv zeta.
  assert (HB : 0 < hbarc) by (unfold hbarc; lra). set (x := p / hbarc).
  assert (X : 0 <= x <= 1).
  { unfold x. split; [apply Rmult_le_pos; [lra|apply Rlt_le, Rinv_0_lt_compat; auto]|]. apply Rmult_le_reg_r with hbarc; auto. unfold Rdiv. rewrite Rmult_assoc, Rinv_l; lra. }
  replace (x ^ (2 * l)) with ((x * x) ^ l) by (rewrite pow_mult; f_equal; ring).
  assert (T : 0 <= x * x <= 1) by nra. set (t := x * x) in *. assert (0 <= t ^ l) by (apply pow_le; lra).
  pose proof (den_pos l t ltac:(lra)). assert (M : den l t <= den l 1).
  { unfold den, poly. apply sum_Rle. intros k K. apply Rmult_le_compat_l; [apply Rlt_le, coef_pos; lia|]. apply pow_le'. lra. }
  split.
  - apply Rmult_le_compat_l; auto. apply Rinv_le_contravar; lra.
  - rewrite <- (Rmult_1_r (t ^ l)) at 2. apply Rmult_le_compat_l; auto. rewrite <- Rinv_1. apply Rinv_le_contravar; lra.
Qed.
Print Assumptions blatt_weisskopf_small.
(** The closed forms of the literature for L = 2 and L = 3 (x = p / hbarc). *)
Theorem blatt_weisskopf_two_three p : let x2 := p / hbarc * (p / hbarc) in
  blatt_weisskopf_sqr p 2 = x2 * x2 / (9 + 3 * x2 + x2 * x2) /\
  blatt_weisskopf_sqr p 3 = x2 * x2 * x2 / (225 + 45 * x2 + 6 * (x2 * x2) + x2 * x2 * x2).
Proof.
  cbv zeta. change 2%Z with (Z.of_nat 2). change 3%Z with (Z.of_nat 3). rewrite !bw_eq. cbv zeta. set (t := p / hbarc * (p / hbarc)).
  unfold den, poly. cbn [sum_f_R0 coef INR pow]. split; f_equal; field.
Qed.
Print Assumptions blatt_weisskopf_two_three.

(** ** The form factor for unstable final states *)
(** One at the pole mass and at the threshold, and positive. *)
Theorem post_ff_normalised M0 s0 L : 0 < L -> post_ff_sqr M0 M0 s0 L = 1 /\ post_ff_sqr s0 M0 s0 L = 1.
Proof.
  intros HL. unfold post_ff_sqr. assert (0 < L * L * L * L) by (repeat apply Rmult_lt_0_compat; auto).
  set (d := (s0 * s0 - M0 * M0) * / 2). assert (0 <= d * d) by apply Rle_0_sqr.
  replace (M0 * M0 - (s0 * s0 + M0 * M0) * / 2) with (- d) by (unfold d; field).
  replace (s0 * s0 - (s0 * s0 + M0 * M0) * / 2) with d by (unfold d; field).
  split; field; nra.
Qed.
Print Assumptions post_ff_normalised.
Lemma ratio_sq a b : 0 < a -> 0 < b -> (a <= b -> a / b * (a / b) <= 1) /\ (b <= a -> 1 <= a / b * (a / b)) /\ 0 < a / b * (a / b).
Proof.
  intros A B. assert (P : 0 < a / b) by (apply Rdiv_lt_0_compat; auto). splits.
  - intros H. assert (a / b <= 1) by (apply Rmult_le_reg_r with b; auto; unfold Rdiv; rewrite Rmult_assoc, Rinv_l; lra). nra.
  - intros H. assert (1 <= a / b) by (apply Rmult_le_reg_r with b; auto; unfold Rdiv; rewrite Rmult_assoc, Rinv_l; lra). nra.
  - nra.
Qed.
(** It suppresses masses above the pole (more and more), and enhances those between threshold and pole. *)
Theorem post_ff_shape m m' M0 s0 L : 0 < L -> 0 <= s0 <= M0 -> 0 <= m ->
  0 < post_ff_sqr m M0 s0 L /\
  (s0 <= m <= M0 -> 1 <= post_ff_sqr m M0 s0 L) /\
  (M0 <= m -> post_ff_sqr m M0 s0 L <= 1) /\
  (M0 <= m < m' -> post_ff_sqr m' M0 s0 L < post_ff_sqr m M0 s0 L).
Proof.
  intros HL HS HM. unfold post_ff_sqr. assert (L4 : 0 < L * L * L * L) by (repeat apply Rmult_lt_0_compat; auto).
  set (l := L * L * L * L) in *. clearbody l.
  set (d := (s0 * s0 - M0 * M0) * / 2). set (c := (s0 * s0 + M0 * M0) * / 2).
  assert (D : d <= 0) by (unfold d; nra). assert (0 <= d * d) by apply Rle_0_sqr.
  assert (SP : forall z, 0 <= z * z) by (intros; apply Rle_0_sqr). pose proof (SP (m * m - c)).
  destruct (ratio_sq (l + d * d) (l + (m * m - c) * (m * m - c))) as (R1 & R2 & R3); try lra.
  assert (E1 : M0 * M0 = c - d) by (unfold c, d; field). assert (E2 : s0 * s0 = c + d) by (unfold c, d; field).
  splits; auto.
  - intros H2. apply R2. assert (d <= m * m - c <= - d) by (split; nra). nra.
  - intros H2. apply R1. assert (- d <= m * m - c) by nra. nra.
  - intros [H2 H3]. assert (Q : - d <= m * m - c < m' * m' - c) by (split; nra).
    set (u := m * m - c) in *. set (v := m' * m' - c) in *. assert (U : u * u < v * v) by nra.
    assert (P : 0 < (l + d * d) / (l + v * v) < (l + d * d) / (l + u * u)).
    { pose proof (SP v). split; [apply Rdiv_lt_0_compat; lra|]. apply Rmult_lt_compat_l; [lra|]. apply Rinv_lt_contravar; nra. }
    nra.
Qed.
Print Assumptions post_ff_shape.

(** ** Widths *)
Lemma pcm_over_m m ma mb : 0 <= ma -> 0 <= mb -> 0 < m -> ma + mb <= m ->
  (pCM m ma mb / m) * (pCM m ma mb / m) = (1 - (ma + mb) * (ma + mb) * / (m * m)) * (1 - (ma - mb) * (ma - mb) * / (m * m)) / 4.
Proof.
  intros A B M T. replace (pCM m ma mb / m * (pCM m ma mb / m)) with (pCM m ma mb * pCM m ma mb / (m * m)) by (field; lra).
  rewrite (proj2 (pcm_sq m ma mb A B M T)). rewrite pcm2_factor by lra. field. lra.
Qed.
Lemma product_grows a b i j : 0 < a -> 0 <= b <= a -> 0 < j < i -> a * i <= 1 -> (1 - a * i) * (1 - b * i) < (1 - a * j) * (1 - b * j).
Proof.
  intros A B J I. assert (a * j < a * i) by nra. assert (b * j <= b * i) by nra. assert (b * i <= a * i) by nra.
  destruct (Rle_lt_or_eq_dec (b * i) 1 ltac:(lra)) as [X|X]; [nra|].
  assert (0 < b) by nra. assert (b * j < b * i) by (apply Rmult_lt_compat_l; lra).
  rewrite X. replace ((1 - a * i) * (1 - 1)) with 0 by ring. apply Rmult_lt_0_compat; lra.
Qed.
Lemma pcm_increasing m m' ma mb : 0 <= ma -> 0 <= mb -> 0 < ma + mb <= m -> m < m' ->
  0 <= pCM m ma mb < pCM m' ma mb /\ 0 <= pCM m ma mb / m < pCM m' ma mb / m'.
Proof.
  intros A B T H. destruct (pcm_sq m ma mb A B ltac:(lra) ltac:(lra)) as [P1 _]. destruct (pcm_sq m' ma mb A B ltac:(lra) ltac:(lra)) as [P2 _].
  assert (Q1 : 0 <= pCM m ma mb / m) by (apply Rmult_le_pos; auto; apply Rlt_le, Rinv_0_lt_compat; lra).
  assert (Q2 : 0 <= pCM m' ma mb / m') by (apply Rmult_le_pos; auto; apply Rlt_le, Rinv_0_lt_compat; lra).
  assert (Q : pCM m ma mb / m < pCM m' ma mb / m').
  { enough ((pCM m ma mb / m) * (pCM m ma mb / m) < (pCM m' ma mb / m') * (pCM m' ma mb / m')) by nra.
    rewrite !pcm_over_m by lra.
    enough ((1 - (ma + mb) * (ma + mb) * / (m * m)) * (1 - (ma - mb) * (ma - mb) * / (m * m)) <
       (1 - (ma + mb) * (ma + mb) * / (m' * m')) * (1 - (ma - mb) * (ma - mb) * / (m' * m'))) by lra.
    assert (MI : m * m * / (m * m) = 1) by (field; lra).
    assert (IP : 0 < / (m * m)) by (apply Rinv_0_lt_compat; nra).
    apply product_grows; [nra|split; [apply Rle_0_sqr|nra]|split; [apply Rinv_0_lt_compat; nra|apply Rinv_lt_contravar; nra]|rewrite <- MI; apply Rmult_le_compat_r; [lra|apply Rmult_le_compat; lra]]. }
  split; [|lra]. split; auto.
  replace (pCM m ma mb) with (pCM m ma mb / m * m) by (field; lra). replace (pCM m' ma mb) with (pCM m' ma mb / m' * m') by (field; lra). nra.
Qed.
Lemma bw_nonneg L p : (0 <= L)%Z -> 0 <= p -> 0 <= blatt_weisskopf_sqr p L /\ (0 < p -> 0 < blatt_weisskopf_sqr p L).
Proof.
  intros HL HP. destruct (Z.eq_dec L 0) as [->|N]; [cbn; lra|]. destruct (Rle_lt_or_eq_dec 0 p HP) as [G|<-].
  - destruct (blatt_weisskopf_increasing L 0 p ltac:(lia) ltac:(lra)). lra.
  - rewrite blatt_weisskopf_at_zero by lia. destruct (Z.eqb_spec L 0); lra.
Qed.
Lemma bw_mono L p q : (0 <= L)%Z -> 0 <= p < q -> blatt_weisskopf_sqr p L <= blatt_weisskopf_sqr q L.
Proof.
  intros HL H. destruct (Z.eq_dec L 0) as [->|N]; [cbn; lra|]. destruct (blatt_weisskopf_increasing L p q ltac:(lia) H). lra.
Qed.
Lemma rho_increasing ma mb L m m' : 0 <= ma -> 0 <= mb -> (0 <= L)%Z -> 0 < ma + mb <= m -> m < m' ->
  0 <= rho_stable ma mb L m < rho_stable ma mb L m'.
Proof.
  intros A B HL T H. destruct (pcm_increasing m m' ma mb A B T H) as [P Q]. unfold rho_stable.
  destruct (bw_nonneg L (pCM m ma mb) HL ltac:(lra)) as [N1 _]. destruct (bw_nonneg L (pCM m' ma mb) HL ltac:(lra)) as [_ N2].
  specialize (N2 ltac:(lra)). pose proof (bw_mono L _ _ HL P) as M. split; [apply Rmult_le_pos; lra|]. nra.
Qed.
(** The threshold of a decay into two particles. *)
(** A decay into two stable particles, at least one of them massive: the width is the one given for the
    pole mass at the pole mass, 0 up to the threshold, positive above it and strictly increasing. *)
Theorem stable_width_shape ma mb L m0 G0 : 0 <= ma -> 0 <= mb -> 0 < ma + mb < m0 -> (0 <= L)%Z -> 0 < G0 ->
  exists w, (forall m, width_stable ma mb L m0 G0 m = Ok (w m)) /\ w m0 = G0 /\
  (forall m, m <= ma + mb -> w m = 0) /\ (forall m m', ma + mb <= m < m' -> 0 <= w m < w m').
Proof.
  intros A B T HL HG. pose proof (rho_increasing ma mb L (ma + mb) m0 A B HL ltac:(lra) ltac:(lra)) as R0.
  exists (fun m => if Rle_dec m (ma + mb) then 0 else G0 * rho_stable ma mb L m / rho_stable ma mb L m0). splits.
  - intros m. unfold width_stable. destruct (Req_EM_T _ _); [lra|]. destruct (Rle_dec _ _); reflexivity.
  - destruct (Rle_dec _ _); [lra|]. field. lra.
  - intros m Hm. destruct (Rle_dec _ _); lra.
  - intros m m' H. assert (IP : 0 < / rho_stable ma mb L m0) by (apply Rinv_0_lt_compat; lra).
    destruct (Rle_dec m' _); [lra|]. pose proof (rho_increasing ma mb L m m' A B HL ltac:(lra) ltac:(lra)) as RR. unfold Rdiv.
    destruct (Rle_dec m _); [split; [lra|apply Rmult_lt_0_compat; auto; nra]|].
    split; [apply Rmult_le_pos; [nra|lra]|]. apply Rmult_lt_compat_r; auto. nra.
Qed.
Print Assumptions stable_width_shape.
Example stable_width_example : exists w, (forall m, width_stable (138 / 1000) (938 / 1000) 1 (1232 / 1000) (117 / 1000) m = Ok (w m)) /\
  w (1232 / 1000) = 117 / 1000 /\ 0 < w (1100 / 1000) < 117 / 1000.
Proof.
  destruct (stable_width_shape (138 / 1000) (938 / 1000) 1 (1232 / 1000) (117 / 1000)) as (w & W & P & Z & I); try lra; try lia.
  exists w. splits; auto.
  - destruct (I (1076 / 1000) (1100 / 1000)); lra.
  - rewrite <- P. apply I. lra.
Qed.
(** Decays with unstable daughters: whatever the tabulated phase space, the width at the pole mass is the
    one given (if the tabulated value there is not 0), and the sign is that of the tabulated value. *)
Theorem unstable_width_at_pole rho thr L m0 G0 m : rho m0 <> 0 -> 0 < L -> 0 <= thr <= m0 -> 0 <= m ->
  width_semistable rho thr L m0 G0 m0 = Ok G0 /\ width_unstable rho thr L m0 G0 m0 = Ok G0 /\
  exists w, width_semistable rho thr L m0 G0 m = Ok w /\ width_unstable rho thr L m0 G0 m = Ok w /\
  (0 < G0 -> 0 < rho m0 -> (0 <= rho m -> 0 <= w) /\ (0 < rho m -> 0 < w) /\ (rho m = 0 -> w = 0)).
Proof.
  intros N HL T M. unfold width_semistable, width_unstable. destruct (Req_EM_T (rho m0) 0) as [|_]; [easy|].
  destruct (post_ff_normalised m0 thr L HL) as [E _]. rewrite E.
  assert (Q : G0 * rho m0 / rho m0 * 1 = G0) by (field; auto). rewrite Q. splits; auto.
  eexists. splits; try reflexivity. intros G RP. destruct (post_ff_shape m m m0 thr L HL T M) as (P & _).
  assert (IP : 0 < / rho m0) by (apply Rinv_0_lt_compat; auto). unfold Rdiv. splits.
  - intros X. apply Rmult_le_pos; [|lra]. apply Rmult_le_pos; [|lra]. nra.
  - intros X. apply Rmult_lt_0_compat; auto. apply Rmult_lt_0_compat; auto. now apply Rmult_lt_0_compat.
  - intros ->. ring.
Qed.
Print Assumptions unstable_width_at_pole.
(** For a pair of daughters whose resonance has exactly one mass (the tabulated function is the plain
    two-body phase space at that mass), creating the resonance uses the width of its decay. *)
Theorem in_width_matches rho thr L l m0 G0 m m1 m2 w : 0 < m -> rho m0 <> 0 ->
  rho m = rho_stable m1 m2 l m -> width_semistable rho thr L m0 G0 m = Ok w ->
  in_width_unstable rho thr L l m0 G0 m m1 m2 = w.
Proof.
  intros M N E W. unfold width_semistable in W. destruct (Req_EM_T _ _); [discriminate|].
  assert (X : forall a b : R, Ok a = Ok b -> b = a) by congruence. rewrite (X _ _ W), E. unfold in_width_unstable, rho_stable. field. lra.
Qed.
Print Assumptions in_width_matches.
(** The width of a decay into a lepton pair is not the one given at the pole mass: for muons (mass 0.1,
    mother 0.5) 1 GeV becomes less than 0.991 GeV. (The width from the literature used here is
    normalised for massless leptons.) *)
Theorem dilepton_width_at_pole_refuted : exists ml m0 G0, 0 < ml /\ 2 * ml < m0 /\ 0 < G0 /\
  0 < width_dilepton ml m0 G0 m0 < 991 / 1000 * G0.
Proof.
  exists (1 / 10), (1 / 2), 1. splits; try lra; unfold width_dilepton; (destruct (Rle_dec _ _); [lra|]);
    replace (1 - 4 * (1 / 10 / (1 / 2) * (1 / 10 / (1 / 2)))) with (21 / 25) by field;
    replace (1 * (1 / 2 / (1 / 2) * (1 / 2 / (1 / 2)) * (1 / 2 / (1 / 2)))) with 1 by field;
    replace (1 + 2 * (1 / 10 / (1 / 2) * (1 / 10 / (1 / 2)))) with (27 / 25) by field.
  - assert (0 < sqrt (21 / 25)) by (apply sqrt_lt_R0; lra). lra.
  - assert (sqrt (21 / 25) < 917 / 1000).
    { rewrite <- (sqrt_square (917 / 1000)) by lra. apply sqrt_lt_1_alt. lra. }
    lra.
Qed.
Print Assumptions dilepton_width_at_pole_refuted.
(** What holds: it is at most the one given, positive above the threshold, and exactly the one given
    only for massless leptons. *)
Theorem dilepton_width_partial ml m0 G0 : 0 <= ml -> 2 * ml < m0 -> 0 < G0 ->
  (forall m, m <= 2 * ml -> width_dilepton ml m0 G0 m = 0) /\ (forall m, 2 * ml < m -> 0 < width_dilepton ml m0 G0 m) /\
  width_dilepton ml m0 G0 m0 <= G0 /\ (width_dilepton ml m0 G0 m0 = G0 <-> ml = 0).
Proof.
  intros A T G. assert (Q : forall m, 2 * ml < m -> 0 <= ml / m * (ml / m) /\ 4 * (ml / m * (ml / m)) < 1).
  { intros m M. assert (X : 0 <= ml / m) by (apply Rmult_le_pos; auto; apply Rlt_le, Rinv_0_lt_compat; lra).
    assert (ml / m < / 2) by (apply Rmult_lt_reg_r with m; [lra|]; unfold Rdiv; rewrite Rmult_assoc, Rinv_l; lra). split; nra. }
  assert (E : width_dilepton ml m0 G0 m0 = G0 * (sqrt (1 - 4 * (ml / m0 * (ml / m0))) * (1 + 2 * (ml / m0 * (ml / m0))))).
  { unfold width_dilepton. destruct (Rle_dec _ _); [lra|]. replace (m0 / m0) with 1 by (field; lra). ring. }
  destruct (Q m0 T) as [Q1 Q2]. set (q := ml / m0 * (ml / m0)) in *.
  pose proof (sqrt_sqrt (1 - 4 * q) ltac:(lra)) as SS. pose proof (sqrt_pos (1 - 4 * q)) as SP. set (r := sqrt (1 - 4 * q)) in *.
  assert (F : (r * (1 + 2 * q)) * (r * (1 + 2 * q)) = 1 - 4 * q * q * (3 + 4 * q)).
  { replace ((r * (1 + 2 * q)) * (r * (1 + 2 * q))) with (r * r * ((1 + 2 * q) * (1 + 2 * q))) by ring. rewrite SS. ring. }
  assert (P0 : 0 <= r * (1 + 2 * q)) by (apply Rmult_le_pos; lra). set (z := r * (1 + 2 * q)) in *.
  assert (QQ : 0 <= q * q) by apply Rle_0_sqr. assert (Z1 : z <= 1) by nra.
  rewrite E. splits.
  - intros m M. unfold width_dilepton. destruct (Rle_dec _ _); lra.
  - intros m M. unfold width_dilepton. destruct (Rle_dec _ _); [lra|]. destruct (Q m M) as [B1 B2].
    assert (0 < m0 / m) by (apply Rdiv_lt_0_compat; lra). set (k := m0 / m) in *. clearbody k.
    apply Rmult_lt_0_compat; [|lra]. apply Rmult_lt_0_compat; [|apply sqrt_lt_R0; lra]. repeat apply Rmult_lt_0_compat; auto.
  - nra.
  - split; intros H.
    + assert (Z2 : z = 1) by (apply Rmult_eq_reg_l with G0; lra). rewrite Z2 in F.
      assert (q * q = 0) by nra. assert (Q0 : q = 0) by nra. unfold q in Q0. assert (Q3 : ml / m0 = 0) by nra.
      apply Rmult_eq_reg_r with (/ m0); [unfold Rdiv in Q3; lra|apply Rgt_not_eq, Rinv_0_lt_compat; lra].
    + assert (Q0 : q = 0) by (unfold q; rewrite H; unfold Rdiv; ring). rewrite Q0 in F. assert (z = 1) by nra. nra.
Qed.
Print Assumptions dilepton_width_partial.

(** ** The total width *)
(** A mode is normalised if its width at the pole mass is the given one. *)
Definition normalised (t : ptype) (d : mode) : Prop := thr d <= tmass t /\ forall G, wfun d (tmass t) G (tmass t) = G.
(** If all modes are normalised and the branching ratios add up to 1, the total width at the pole mass is
    the width of the particle. *)
Theorem total_width_at_pole t : is_stable t = false -> Forall (normalised t) (tmodes t) ->
  fold_right Rplus 0 (map ratio (tmodes t)) = 1 -> total_width t (tmass t) = twidth t.
Proof.
  intros ST F S1. assert (E : forall l a, Forall (normalised t) l ->
    fold_left (fun w d => w + partial_width t (tmass t) d) l a = a + twidth t * fold_right Rplus 0 (map ratio l)).
  { induction l as [|d l IH]; intros a Q; cbn [fold_left map fold_right]; [ring|]. inversion Q as [|? ? [D1 D2] Q']; subst. rewrite IH by auto.
    unfold partial_width. destruct (Rlt_dec _ _); [lra|]. rewrite D2. ring. }
  unfold total_width. rewrite ST, E, S1 by auto. unfold is_stable in ST. apply rltb_false in ST.
  destruct (Rlt_dec _ _); lra.
Qed.
Print Assumptions total_width_at_pole.
(** The total width is never negative and is 0 below all thresholds, if no mode has a negative width. *)
Theorem total_width_nonneg t m : (forall d, In d (tmodes t) -> 0 <= partial_width t m d) ->
  0 <= total_width t m /\ ((forall d, In d (tmodes t) -> m < thr d) -> total_width t m = 0).
Proof.
  intros H. unfold total_width. destruct (is_stable t); [split; [lra|auto]|]. split.
  - destruct (Rlt_dec _ _) as [|N]; [lra|]. unfold width_cutoff in N. lra.
  - intros B. enough (E : forall l, (forall d, In d l -> m < thr d) -> fold_left (fun w d => w + partial_width t m d) l 0 = 0).
    { rewrite E by auto. destruct (Rlt_dec _ _) as [|N]; auto. }
    induction l as [|d l IH]; intros Q; cbn [fold_left]; auto. unfold partial_width at 2.
    destruct (Rlt_dec m (thr d)); [|exfalso; apply n, Q; now left]. rewrite Rplus_0_r. apply IH. intros; apply Q; now right.
Qed.
Print Assumptions total_width_nonneg.
(** Non-vacuity: a particle with one decay into two stable particles. *)
Definition two_body (ma mb : R) (L : Z) (b : R) (out : list nat) : mode :=
  Mode (ma + mb) b false (fun m0 G m => match width_stable ma mb L m0 G m with Ok w => w | _ => 0 end) out.
Lemma two_body_normalised t ma mb L b out : 0 <= ma -> 0 <= mb -> 0 < ma + mb < tmass t -> (0 <= L)%Z -> normalised t (two_body ma mb L b out).
Proof.
  intros A B T HL. split; [cbn; lra|]. intros G. cbn [wfun two_body]. unfold width_stable.
  pose proof (rho_increasing ma mb L (ma + mb) (tmass t) A B HL ltac:(lra) ltac:(lra)) as R0.
  destruct (Req_EM_T _ _); [lra|]. destruct (Rle_dec _ _); [lra|]. field. lra.
Qed.
Example delta_width : let delta := PType (1232 / 1000) (117 / 1000) [two_body (138 / 1000) (938 / 1000) 1 1 [0; 1]%nat] in
  total_width delta (1232 / 1000) = 117 / 1000.
Proof.
  cbv zeta. apply (total_width_at_pole (PType (1232 / 1000) (117 / 1000) [two_body (138 / 1000) (938 / 1000) 1 1 [0; 1]%nat])).
  - unfold is_stable, width_cutoff. apply rltb_false. cbn [twidth]. lra.
  - constructor; [|constructor]. apply two_body_normalised; cbn [tmass]; try lra; lia.
  - cbn. ring.
Qed.
