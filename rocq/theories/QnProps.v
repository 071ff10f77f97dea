(** C36: quantum-number bookkeeping. *)
From Coq Require Import ZArith Reals List Bool Lia Lra Permutation.
From Flocq Require Import Core Relative Plus_error.
From Verif Require Import Base Flt QnModel.
Import ListNotations.
Open Scope Z_scope.

(** ** Specification *)
Definition sumz (f : qnum -> Z) (l : list qnum) : Z := fold_right (fun p a => f p + a) 0 l.
Definition sumr (f : qnum -> R) (l : list qnum) : R := fold_right (fun p a => (f p + a)%R) 0%R l.
(** the six integer quantum numbers of a single object *)
Definition integer_numbers : list (qnum -> Z) :=
  [q_charge; q_i3; q_strange; q_charm; q_bottom; q_baryon].
Definition components : list (qnum -> R) :=
  [fun q => m0 (q_mom q); fun q => m1 (q_mom q); fun q => m2 (q_mom q); fun q => m3 (q_mom q)].
(** no partial sum can leave the range of int *)
Definition countable (l : list qnum) : Prop :=
  forall f, In f integer_numbers -> sumz (fun p => Z.abs (f p)) l <= 2147483647.
Definition finite_doubles (l : list qnum) : Prop :=
  forall p f, In p l -> In f components -> is_double (f p).

(** ** Proofs *)
Lemma sint_in x : -2147483648 <= x <= 2147483647 -> sint x = Ok x.
Proof.
  intros H. unfold sint. replace (in_i32 x) with true; auto. symmetry. unfold in_i32, INT_MIN, INT_MAX in *.
  apply andb_true_intro. split; apply Z.leb_le; lia.
Qed.
Definition absum f l := sumz (fun p => Z.abs (f p)) l.
Lemma absum_pos f l : 0 <= absum f l.
Proof. unfold absum, sumz. induction l; cbn [fold_right]; lia. Qed.

Lemma fold_int l : forall q,
  (forall f, In f integer_numbers -> Z.abs (f q) + absum f l <= 2147483647) ->
  exists t, foldM add_values q l = Ok t /\
    (forall f, In f integer_numbers -> f t = f q + sumz f l) /\
    q_mom t = fold_left (fun m p => four_add m (q_mom p)) l (q_mom q).
Proof.
  induction l as [|p l IH]; intros q H.
  - exists q. cbn. repeat split; intros; try lia.
  - cbn [foldM]. unfold add_values.
    assert (G : forall f, In f integer_numbers -> -2147483648 <= f q + f p <= 2147483647 /\
       Z.abs (f q + f p) + absum f l <= 2147483647).
    { intros f I. specialize (H f I). unfold absum in *. cbn [sumz fold_right] in H. fold (sumz (fun p => Z.abs (f p)) l) in H.
      pose proof (absum_pos f l). unfold absum in H0. lia. }
    assert (I1 : In q_charge integer_numbers) by (cbn; auto).
    assert (I2 : In q_i3 integer_numbers) by (cbn; auto).
    assert (I3 : In q_strange integer_numbers) by (cbn; auto).
    assert (I4 : In q_charm integer_numbers) by (cbn; auto 10).
    assert (I5 : In q_bottom integer_numbers) by (cbn; auto 10).
    assert (I6 : In q_baryon integer_numbers) by (cbn; auto 10).
    do 6 (rewrite sint_in by (apply G; auto); cbn [rbind]).
    destruct (IH (Qnum (four_add (q_mom q) (q_mom p)) (q_charge q + q_charge p) (q_i3 q + q_i3 p)
       (q_strange q + q_strange p) (q_charm q + q_charm p) (q_bottom q + q_bottom p) (q_baryon q + q_baryon p)))
      as (t & E & F & M).
    { intros f I. destruct (G f I) as [_ B].
      cbn in I. repeat destruct I as [<-|I]; try contradiction; exact B. }
    exists t. split; [exact E|]. split.
    + intros f I. rewrite (F f I). cbn [sumz fold_right].
      cbn in I. repeat destruct I as [<-|I]; try contradiction; cbn; unfold sumz; lia.
    + exact M.
Qed.

Lemma sumz_perm f l l' : Permutation l l' -> sumz f l = sumz f l'.
Proof. induction 1; cbn in *; unfold sumz in *; cbn; lia. Qed.
Lemma sumz_app f l l' : sumz f (l ++ l') = sumz f l + sumz f l'.
Proof. unfold sumz. induction l; cbn; lia. Qed.
Lemma foldM_app A B (f : A -> B -> res A) l l' a :
  foldM f a (l ++ l') = rbind (foldM f a l) (fun b => foldM f b l').
Proof. revert a; induction l; intros; cbn; auto. destruct (f a0 a); cbn; auto. Qed.

(** C36.  The integer totals of a list are the sums over its particles ... *)
Theorem totals_are_sums l : countable l ->
  exists t, of_list l = Ok t /\ forall f, In f integer_numbers -> f t = sumz f l.
Proof.
  intros H. destruct (fold_int l zero_q) as (t & E & F & _).
  { intros f I. specialize (H f I). fold (absum f l) in H. cbn in I.
    repeat destruct I as [<-|I]; try contradiction; cbn; lia. }
  exists t. split; [exact E|]. intros f I. rewrite (F f I). cbn in I.
  repeat destruct I as [<-|I]; try contradiction; cbn; lia.
Qed.
Print Assumptions totals_are_sums.

Lemma countable_perm l l' : Permutation l l' -> countable l -> countable l'.
Proof. intros P H f I. rewrite <- (sumz_perm _ _ _ P). auto. Qed.

(** ... independent of the order ... *)
Theorem totals_order_independent l l' : countable l -> Permutation l l' ->
  exists t t', of_list l = Ok t /\ of_list l' = Ok t' /\
    forall f, In f integer_numbers -> f t = f t'.
Proof.
  intros H P. destruct (totals_are_sums l H) as (t & E & F).
  destruct (totals_are_sums l' (countable_perm _ _ P H)) as (t' & E' & F').
  exists t, t'. repeat split; auto. intros f I. rewrite F, F' by auto. now apply sumz_perm.
Qed.
Print Assumptions totals_order_independent.

(** ... and of the grouping into ensembles (momentum included, since the order of the
    additions is the same); two groups add up. *)
Theorem totals_grouping_independent ls : of_ensembles ls = of_list (concat ls).
Proof.
  unfold of_ensembles, of_list. generalize zero_q. induction ls as [|l ls IH]; intros q; cbn [foldM concat]; auto.
  rewrite foldM_app. destruct (foldM add_values q l); cbn; auto.
Qed.
Print Assumptions totals_grouping_independent.
Theorem totals_additive l l' : countable (l ++ l') ->
  exists t a b, of_list (l ++ l') = Ok t /\ of_list l = Ok a /\ of_list l' = Ok b /\
    forall f, In f integer_numbers -> f t = f a + f b.
Proof.
  intros H.
  assert (A : countable l /\ countable l').
  { split; intros f I; specialize (H f I); rewrite sumz_app in H.
    - pose proof (absum_pos f l'). unfold absum in *. lia.
    - pose proof (absum_pos f l). unfold absum in *. lia. }
  destruct A as [A B].
  destruct (totals_are_sums _ H) as (t & E & F), (totals_are_sums _ A) as (a & Ea & Fa), (totals_are_sums _ B) as (b & Eb & Fb).
  exists t, a, b. repeat split; auto. intros f I. rewrite F, Fa, Fb by auto. apply sumz_app.
Qed.
Print Assumptions totals_additive.

(** The total momentum is rounded after every addition.  It differs from the exact sum
    by at most ((1+2^-53)^n - 1) times the sum of the absolute values, whatever the order. *)
Open Scope R_scope.
Lemma fadd_rel x y : is_double x -> is_double y -> exists e, Rabs e <= u /\ fadd x y = (x + y) * (1 + e).
Proof.
  intros X Y.
  assert (P53 : Prec_gt_0 53) by (unfold Prec_gt_0; lia).
  destruct (@FLT_plus_error_N_ex radix2 (-1074) 53 P53 (fun n => negb (Z.even n)) x y X Y) as (e & He & E).
  exists e. split; [|exact E].
  apply Rle_trans with (1 := He).
  assert (U : u_ro radix2 53 = u).
  { unfold u_ro, u. change (- (53) + 1)%Z with (Z.opp 52). rewrite bpow_opp. rewrite <- IZR_Zpower by lia.
    change (Zpower radix2 52) with (2 ^ 52)%Z. replace (2 ^ 53) with (2 * IZR (2 ^ 52)).
    - rewrite Rinv_mult. reflexivity.
    - rewrite <- mult_IZR. rewrite pow_IZR. f_equal. }
  rewrite U. pose proof u_pos. unfold Rdiv. rewrite <- (Rmult_1_r u) at 3.
  apply Rmult_le_compat_l; [lra|]. rewrite <- Rinv_1. apply Rinv_le_contravar; lra.
Qed.
Definition fsum (l : list R) : R := fold_left fadd l 0.
Definition exsum (l : list R) : R := fold_right Rplus 0 l.
Lemma fold_fadd_bound l : forall a, is_double a -> Forall is_double l ->
  Rabs (fold_left fadd l a - (a + exsum l)) <= ((1 + u) ^ length l - 1) * (Rabs a + exsum (map Rabs l)) /\
  is_double (fold_left fadd l a).
Proof.
  induction l as [|x l IH]; intros a A H.
  - cbn. split; auto. replace (a - (a + 0)) with 0 by ring. rewrite Rabs_R0.
    rewrite Rminus_diag_eq by ring. lra.
  - inversion H as [|? ? X L]; subst. cbn [fold_left exsum fold_right map length].
    fold (exsum l) (exsum (map Rabs l)).
    destruct (fadd_rel a x A X) as (e & He & E).
    destruct (IH (fadd a x) (fl_double _) L) as (B & D). split; [|exact D].
    set (n := length l) in *. set (S := exsum (map Rabs l)) in *.
    assert (S0 : 0 <= S).
    { unfold S. clear. induction l; cbn; [lra|]. pose proof (Rabs_pos a). unfold exsum in IHl. lra. }
    pose proof u_pos as U.
    assert (P : 1 <= (1 + u) ^ n) by (apply pow_R1_Rle; lra).
    set (P1 := (1 + u) ^ n) in *.
    assert (T1 : Rabs (fadd a x - (a + x)) <= u * (Rabs a + Rabs x)).
    { rewrite E. replace ((a + x) * (1 + e) - (a + x)) with (e * (a + x)) by ring. rewrite Rabs_mult.
      apply Rmult_le_compat; auto using Rabs_pos. apply Rabs_triang. }
    assert (T2 : Rabs (fadd a x) <= (1 + u) * (Rabs a + Rabs x)).
    { replace (fadd a x) with ((fadd a x - (a + x)) + (a + x)) by ring.
      eapply Rle_trans; [apply Rabs_triang|]. pose proof (Rabs_triang a x). lra. }
    replace (fold_left fadd l (fadd a x) - (a + (x + exsum l)))
      with ((fold_left fadd l (fadd a x) - (fadd a x + exsum l)) + (fadd a x - (a + x))) by ring.
    eapply Rle_trans; [apply Rabs_triang|].
    assert (B2 : (P1 - 1) * (Rabs (fadd a x) + S) <= (P1 - 1) * ((1 + u) * (Rabs a + Rabs x) + S)).
    { apply Rmult_le_compat_l; lra. }
    cbn [pow]. fold P1.
    pose proof (Rabs_pos a). pose proof (Rabs_pos x).
    assert (0 <= u * P1 * S) by (apply Rmult_le_pos; [apply Rmult_le_pos|]; lra).
    eapply Rle_trans; [apply Rplus_le_compat; [eapply Rle_trans; [exact B|exact B2]|exact T1]|].
    replace (((1 + u) * P1 - 1) * (Rabs a + (Rabs x + S))) with
      (((P1 - 1) * ((1 + u) * (Rabs a + Rabs x) + S) + u * (Rabs a + Rabs x)) + u * P1 * S) by ring.
    lra.
Qed.
Lemma comp_fold l : forall m f, In f components ->
  f (Qnum (fold_left (fun m p => four_add m (q_mom p)) l m) 0 0 0 0 0 0) =
  fold_left fadd (map f l) (f (Qnum m 0 0 0 0 0 0)).
Proof.
  induction l as [|p l IH]; intros m f I; cbn [fold_left map]; auto.
  rewrite IH by auto. f_equal. cbn in I. repeat destruct I as [<-|I]; try contradiction; reflexivity.
Qed.

Theorem momentum_total_error l : countable l -> finite_doubles l ->
  exists t, of_list l = Ok t /\ forall f, In f components ->
    Rabs (f t - sumr f l) <= ((1 + / 2 ^ 53) ^ length l - 1) * sumr (fun p => Rabs (f p)) l.
Proof.
  intros C D. destruct (fold_int l zero_q) as (t & E & _ & M).
  { intros f I. specialize (C f I). fold (absum f l) in C. cbn in I.
    repeat destruct I as [<-|I]; try contradiction; cbn; lia. }
  exists t. split; [exact E|]. intros f I.
  assert (T : f t = fold_left fadd (map f l) 0).
  { transitivity (f (Qnum (q_mom t) 0 0 0 0 0 0)).
    - cbn in I. repeat destruct I as [<-|I]; try contradiction; reflexivity.
    - rewrite M, comp_fold by auto. f_equal.
      cbn in I. repeat destruct I as [<-|I]; try contradiction; reflexivity. }
  rewrite T.
  destruct (fold_fadd_bound (map f l) 0) as (B & _).
  { apply generic_format_0. }
  { apply Forall_forall. intros x X. apply in_map_iff in X as (p & <- & X). apply D; auto. }
  rewrite map_length in B. fold u in B |- *.
  assert (S : forall g, exsum (map g l) = sumr g l).
  { intros g. unfold exsum, sumr. clear. induction l; cbn; auto. now rewrite IHl. }
  rewrite map_map, !S, Rabs_R0, !Rplus_0_l in B. exact B.
Qed.
Print Assumptions momentum_total_error.

(** Exact order independence is false for the momentum: 1 + 2^-53 + 2^-53. *)
Lemma fl_tiny : fl (1 + / 2 ^ 53) = 1 /\ fl (/ 2 ^ 53 + / 2 ^ 53) = / 2 ^ 52 /\ fl (1 + / 2 ^ 52) = 1 + / 2 ^ 52.
Proof.
  assert (D1 : is_double 1) by (apply (int_double 1); cbn; lia).
  assert (P : / 2 ^ 52 = bpow radix2 (-52)).
  { change (-52)%Z with (Z.opp 52). rewrite bpow_opp. f_equal. rewrite <- IZR_Zpower by lia. rewrite pow_IZR. reflexivity. }
  split; [|split].
  - unfold fl. replace 1 with (IZR 1 * bpow radix2 0) by (cbn; ring).
    assert (H : round radix2 fexp ZnearestE (1 + / 2 ^ 53) = 1); [|now rewrite (Rmult_1_l)].
    unfold round, F2R, scaled_mantissa. cbn [Fnum Fexp].
    assert (P53 : / 2 ^ 53 = bpow radix2 (-53)).
    { change (-53)%Z with (Z.opp 53). rewrite bpow_opp. f_equal. rewrite <- IZR_Zpower by lia. rewrite pow_IZR. reflexivity. }
    rewrite P53.
    assert (M : mag radix2 (1 + bpow radix2 (-53)) = 1%Z :> Z).
    { apply mag_unique_pos. pose proof (bpow_gt_0 radix2 (-53)).
      assert (bpow radix2 (-53) < 1). { change 1 with (bpow radix2 0). apply bpow_lt. lia. }
      change (bpow radix2 (1 - 1)) with 1. change (bpow radix2 1) with 2. lra. }
    unfold cexp. rewrite M. unfold fexp, FLT_exp. change (Z.max (1 - 53) (-1074)) with (-52)%Z.
    rewrite Rmult_plus_distr_r. rewrite <- bpow_plus. change (- (-52))%Z with 52%Z. change (-53 + 52)%Z with (-1)%Z.
    rewrite Rmult_1_l.
    assert (B : bpow radix2 52 = IZR (2 ^ 52)) by (rewrite <- IZR_Zpower by lia; reflexivity).
    change (bpow radix2 (-1)) with (/ 2).
    assert (F : Zfloor (bpow radix2 52 + / 2) = (2 ^ 52)%Z).
    { apply Zfloor_imp. rewrite B, plus_IZR. lra. }
    assert (N : ZnearestE (bpow radix2 52 + / 2) = (2 ^ 52)%Z).
    { unfold Znearest. rewrite F. rewrite B.
      replace (IZR (2 ^ 52) + / 2 - IZR (2 ^ 52)) with (/ 2) by ring.
      rewrite Rcompare_Eq by reflexivity. reflexivity. }
    rewrite N. rewrite <- B. rewrite <- bpow_plus. reflexivity.
  - replace (/ 2 ^ 53 + / 2 ^ 53) with (/ 2 ^ 52).
    + apply fl_id. rewrite P. apply generic_format_bpow. unfold fexp, FLT_exp. lia.
    + replace (2 ^ 53) with (2 * 2 ^ 52) by (simpl; lra). rewrite Rinv_mult. lra.
  - apply fl_id. unfold is_double, fexp. apply generic_format_FLT.
    exists (Float radix2 (2 ^ 52 + 1) (-52)); [|cbn; lia|cbn; lia].
    unfold F2R. cbn [Fnum Fexp]. rewrite plus_IZR, Rmult_plus_distr_r, Rmult_1_l, <- P.
    pose proof (pow_IZR 2 52) as Q. change (2 ^ Z.of_nat 52)%Z with (2 ^ 52)%Z in Q. rewrite <- Q, Rinv_r; [reflexivity|].
    apply pow_nonzero. lra.
Qed.
Definition momentum_only (e : R) : qnum := Qnum (Four e 0 0 0) 0 0 0 0 0 0.
Theorem momentum_order_refuted : exists l l' t t',
  Permutation l l' /\ finite_doubles l /\ of_list l = Ok t /\ of_list l' = Ok t' /\
  m0 (q_mom t) <> m0 (q_mom t').
Proof.
  set (d := momentum_only (/ 2 ^ 53)). set (one := momentum_only 1).
  destruct fl_tiny as (A & B & C).
  exists [one; d; d], [d; d; one], (Qnum (fold_left (fun m p => four_add m (q_mom p)) [one; d; d] (Four 0 0 0 0)) 0 0 0 0 0 0),
    (Qnum (fold_left (fun m p => four_add m (q_mom p)) [d; d; one] (Four 0 0 0 0)) 0 0 0 0 0 0).
  repeat apply conj.
  - eapply perm_trans; [apply perm_swap|]. apply perm_skip, perm_swap.
  - intros p f Ip If.
    assert (D0 : is_double 0) by (apply generic_format_0).
    assert (D1 : is_double 1) by (apply (int_double 1); cbn; lia).
    assert (Dt : is_double (/ 2 ^ 53)).
    { replace (/ 2 ^ 53) with (bpow radix2 (-53)).
      - apply generic_format_bpow. unfold fexp, FLT_exp. lia.
      - change (-53)%Z with (Z.opp 53). rewrite bpow_opp. f_equal. rewrite <- IZR_Zpower by lia. rewrite pow_IZR. reflexivity. }
    cbn in Ip, If. repeat destruct Ip as [<-|Ip]; try contradiction;
      repeat destruct If as [<-|If]; try contradiction; cbn [m0 m1 m2 m3 q_mom one d momentum_only]; auto.
  - reflexivity.
  - reflexivity.
  - cbn [q_mom m0 fold_left four_add one d momentum_only]. unfold fadd.
    assert (D1 : is_double 1) by (apply (int_double 1); cbn; lia).
    assert (Dt : is_double (/ 2 ^ 53)).
    { replace (/ 2 ^ 53) with (bpow radix2 (-53)).
      - apply generic_format_bpow. unfold fexp, FLT_exp. lia.
      - change (-53)%Z with (Z.opp 53). rewrite bpow_opp. f_equal. rewrite <- IZR_Zpower by lia. rewrite pow_IZR. reflexivity. }
    rewrite !Rplus_0_l, (fl_id 1 D1), (fl_id (/ 2 ^ 53) Dt), A, B, A.
    rewrite Rplus_comm, C. assert (0 < / 2 ^ 52) by (apply Rinv_0_lt_compat, pow_lt; lra). lra.
Qed.
Print Assumptions momentum_order_refuted.
Close Scope R_scope.

(** ** The comparison *)
(** Two doubles count as equal if identical, or if one is zero and the other at most 1e-4,
    or if neither is zero and their (rounded) difference is at most 1e-6 or at most 1e-4 of
    the larger one. *)
Definition within_tolerance (x y : R) : Prop :=
  x = y \/ (x = 0 /\ Rabs y <= small_number)%R \/ (y = 0 /\ Rabs x <= small_number)%R \/
  (x <> 0 /\ y <> 0 /\ (Rabs (fl (x - y)) <= really_small \/
     Rabs (fl (x - y)) <= fl (small_number * Rmax (Rabs x) (Rabs y))))%R.
Lemma close_spec x y : close x y = true <-> within_tolerance x y.
Proof.
  unfold close, knuthish, within_tolerance.
  destruct (Req_bool_spec x y) as [E|E]; [tauto|].
  destruct (Req_bool_spec x 0) as [X|X].
  - destruct (Rle_bool_spec (Rabs y) small_number); split; intros H'; auto; try discriminate.
    exfalso. destruct H' as [?|[[_ ?]|[[Y ?]|(Y & _)]]]; try lra; subst; try contradiction; try lra.
  - destruct (Req_bool_spec y 0) as [Y|Y].
    + destruct (Rle_bool_spec (Rabs x) small_number); split; intros H'; auto 6; try discriminate.
      exfalso. destruct H' as [?|[[? _]|[[_ ?]|(_ & ? & _)]]]; try lra; contradiction.
    + rewrite orb_true_iff. unfold fsub, fmul.
      destruct (Rle_bool_spec (Rabs (fl (x - y))) really_small) as [A|A];
      destruct (Rle_bool_spec (Rabs (fl (x - y))) (fl (small_number * Rmax (Rabs x) (Rabs y)))) as [B|B];
      split; intros H'; auto 8; try (destruct H'; discriminate).
      exfalso. destruct H' as [?|[[? _]|[[? _]|(_ & _ & [?|?])]]]; try contradiction; lra.
Qed.
Definition agree (a b : qnum) : Prop :=
  (forall f, In f integer_numbers -> f a = f b) /\
  (forall f, In f components -> within_tolerance (f a) (f b)).
Lemma q_eqb_spec a b : q_eqb a b = true <-> agree a b.
Proof.
  unfold q_eqb, four_eqb, agree. rewrite !andb_true_iff, !Z.eqb_eq, !close_spec. split.
  - intros H. split; intros f I; cbn in I; repeat destruct I as [<-|I]; try contradiction; tauto.
  - intros [A B]. repeat split; try (apply A; cbn; auto 10; fail).
    + apply (B (fun q => m0 (q_mom q))); cbn; auto 10.
    + apply (B (fun q => m1 (q_mom q))); cbn; auto 10.
    + apply (B (fun q => m2 (q_mom q))); cbn; auto 10.
    + apply (B (fun q => m3 (q_mom q))); cbn; auto 10.
Qed.
Lemma fl_opp x : fl (- x) = (- fl x)%R.
Proof. unfold fl. apply round_NE_opp. Qed.
Lemma within_sym x y : within_tolerance x y -> within_tolerance y x.
Proof.
  unfold within_tolerance. intros [H|[H|[H|(X & Y & H)]]]; auto 6.
  right. right. right. replace (y - x)%R with (- (x - y))%R by ring.
  rewrite fl_opp, Rabs_Ropp, Rmax_comm. auto.
Qed.
Lemma agree_sym a b : agree a b -> agree b a.
Proof. intros [A B]. split; intros; [symmetry; auto|apply within_sym; auto]. Qed.

(** C36.  report_deviations is empty exactly when the integers agree and the momenta agree
    within tolerance, and it names exactly the deviating quantities. *)
Theorem report_deviations_empty_iff a b : report_deviations a b = [] <-> agree a b.
Proof.
  unfold report_deviations. destruct (q_eqb b a) eqn:E.
  - apply q_eqb_spec in E. split; auto. intros _. now apply agree_sym.
  - split; [|intros H; apply agree_sym, q_eqb_spec in H; congruence].
    intros H. apply q_eqb_spec. unfold q_eqb, four_eqb in *.
    destruct (close (m0 (q_mom a)) (m0 (q_mom b))), (close (m1 (q_mom a)) (m1 (q_mom b))),
      (close (m2 (q_mom a)) (m2 (q_mom b))), (close (m3 (q_mom a)) (m3 (q_mom b))),
      (q_charge a =? q_charge b), (q_i3 a =? q_i3 b), (q_strange a =? q_strange b), (q_charm a =? q_charm b),
      (q_bottom a =? q_bottom b), (q_baryon a =? q_baryon b); cbn in H; try discriminate; reflexivity.
Qed.
Print Assumptions report_deviations_empty_iff.
Ltac splits6 := apply conj; [|apply conj; [|apply conj; [|apply conj; [|apply conj; [|apply conj]]]]].
Theorem report_deviations_names a b :
  (In D_charge (report_deviations a b) <-> q_charge a <> q_charge b) /\
  (In D_i3 (report_deviations a b) <-> q_i3 a <> q_i3 b) /\
  (In D_strange (report_deviations a b) <-> q_strange a <> q_strange b) /\
  (In D_charm (report_deviations a b) <-> q_charm a <> q_charm b) /\
  (In D_bottom (report_deviations a b) <-> q_bottom a <> q_bottom b) /\
  (In D_baryon (report_deviations a b) <-> q_baryon a <> q_baryon b) /\
  (forall k f, nth_error components k = Some f ->
     In (D_comp (Z.of_nat k)) (report_deviations a b) <-> ~ within_tolerance (f a) (f b)).
Proof.
  assert (W : forall x y, (~ within_tolerance x y) <-> close x y = false).
  { intros. rewrite <- not_true_iff_false, close_spec. tauto. }
  assert (Z1 : forall x y, x <> y <-> (x =? y) = false) by (intros; rewrite Z.eqb_neq; tauto).
  setoid_rewrite W. rewrite !Z1. clear W Z1.
  destruct (report_deviations_empty_iff a b) as [_ H2].
  assert (G : report_deviations a b = [] -> close (m0 (q_mom a)) (m0 (q_mom b)) = true /\ close (m1 (q_mom a)) (m1 (q_mom b)) = true /\
    close (m2 (q_mom a)) (m2 (q_mom b)) = true /\ close (m3 (q_mom a)) (m3 (q_mom b)) = true /\
    (q_charge a =? q_charge b) = true /\ (q_i3 a =? q_i3 b) = true /\ (q_strange a =? q_strange b) = true /\ (q_charm a =? q_charm b) = true /\
    (q_bottom a =? q_bottom b) = true /\ (q_baryon a =? q_baryon b) = true).
  { intros H. apply report_deviations_empty_iff, q_eqb_spec in H. unfold q_eqb, four_eqb in H.
    rewrite !andb_true_iff in H. tauto. }
  assert (K : forall (P : nat -> (qnum -> R) -> Prop), P 0%nat (fun q => m0 (q_mom q)) -> P 1%nat (fun q => m1 (q_mom q)) ->
     P 2%nat (fun q => m2 (q_mom q)) -> P 3%nat (fun q => m3 (q_mom q)) -> forall k f, nth_error components k = Some f -> P k f).
  { intros P P0 P1 P2 P3 k f E. do 4 (destruct k as [|k]; [cbn in E; injection E as <-; auto|]). destruct k; discriminate. }
  assert (F : four_eqb (q_mom a) (q_mom b) = close (m0 (q_mom a)) (m0 (q_mom b)) && close (m1 (q_mom a)) (m1 (q_mom b)) &&
    close (m2 (q_mom a)) (m2 (q_mom b)) && close (m3 (q_mom a)) (m3 (q_mom b))) by reflexivity.
  unfold report_deviations in *. rewrite F in *. clear F H2.
  assert (Q : forall k f, nth_error components k = Some f -> close (f a) (f b) =
    nth k [close (m0 (q_mom a)) (m0 (q_mom b)); close (m1 (q_mom a)) (m1 (q_mom b));
    close (m2 (q_mom a)) (m2 (q_mom b)); close (m3 (q_mom a)) (m3 (q_mom b))] true).
  { apply K; reflexivity. }
  assert (B : forall k f, nth_error components k = Some f -> (k = 0 \/ k = 1 \/ k = 2 \/ k = 3)%nat).
  { apply K; auto. }
  destruct (q_eqb b a).
  - destruct (G eq_refl) as (E0 & E1 & E2 & E3 & -> & -> & -> & -> & -> & ->).
    rewrite E0, E1, E2, E3 in Q. splits6; try (split; [intros []|discriminate]).
    intros k f H. rewrite (Q k f H). destruct (B k f H) as [-> |[-> |[-> | ->]]]; cbn; split; [intros []|discriminate|intros []|discriminate|intros []|discriminate|intros []|discriminate].
  - clear G K.
    set (c0 := close (m0 (q_mom a)) (m0 (q_mom b))) in *. set (c1 := close (m1 (q_mom a)) (m1 (q_mom b))) in *.
    set (c2 := close (m2 (q_mom a)) (m2 (q_mom b))) in *. set (c3 := close (m3 (q_mom a)) (m3 (q_mom b))) in *.
    assert (W : forall (b : bool) d e, In d (when b e) <-> b = true /\ d = e).
    { intros [] d e; cbn; split; [intros [->|[]]; auto|intros [_ ->]; auto|intros []|intros [? _]; discriminate]. }
    rewrite !in_app_iff, !W, !negb_true_iff.
    splits6; try (split; [intros H; repeat (destruct H as [H|H]; [destruct H; (discriminate || assumption)|]); destruct H; (discriminate || assumption)|
      intros ->; tauto]).
    intros k f H. rewrite (Q k f H), !in_app_iff, !W, !negb_true_iff.
    destruct (B k f H) as [-> |[-> |[-> | ->]]]; cbn [nth Z.of_nat];
    (split; [intros J; repeat (destruct J as [J|J]; [destruct J; (discriminate || assumption)|]); destruct J; (discriminate || assumption)|
      intros ->; tauto]).
Qed.
Print Assumptions report_deviations_names.

(** The tolerance is not an equivalence: 2^-40 and 2^-14 both agree with 0, but not with
    each other (next to an exact zero the absolute tolerance is 1e-4, elsewhere 1e-6), so a
    conservation check against the previous state does not bound the drift over many. *)
Lemma bpow_inv n : (0 <= n)%Z -> bpow radix2 (- n) = (/ 2 ^ Z.to_nat n)%R.
Proof.
  intros H. rewrite bpow_opp. f_equal. rewrite <- IZR_Zpower by lia. rewrite pow_IZR. f_equal.
  change (Zpower radix2 n) with (2 ^ n)%Z. now rewrite Z2Nat.id.
Qed.
Lemma double_inv n : (0 <= n <= 1000)%Z -> is_double (/ 2 ^ Z.to_nat n)%R.
Proof. intros. rewrite <- bpow_inv by lia. apply generic_format_bpow. unfold fexp, FLT_exp. lia. Qed.
Theorem tolerance_not_transitive_refuted : exists x z y : R,
  is_double x /\ is_double z /\ is_double y /\
  close x z = true /\ close z y = true /\ close x y = false.
Proof.
  assert (X : is_double (/ 2 ^ 40)%R) by (apply (double_inv 40); lia).
  assert (Y : is_double (/ 2 ^ 14)%R) by (apply (double_inv 14); lia).
  assert (S1 : (fl (/ 2 ^ 14) <= small_number)%R).
  { unfold small_number. apply fl_mono. simpl. lra. }
  rewrite (fl_id _ Y) in S1.
  assert (P1 : (0 < / 2 ^ 40 < / 2 ^ 14)%R) by (simpl; lra).
  exists (/ 2 ^ 40)%R, 0%R, (/ 2 ^ 14)%R. repeat split; auto.
  - apply generic_format_0.
  - apply close_spec. right. right. left. split; auto. rewrite Rabs_pos_eq; lra.
  - apply close_spec. right. left. split; auto. rewrite Rabs_pos_eq; lra.
  - apply not_true_iff_false. rewrite close_spec.
    assert (D : (fl (/ 2 ^ 40 - / 2 ^ 14) = / 2 ^ 40 - / 2 ^ 14)%R).
    { apply fl_id. unfold is_double, fexp. apply generic_format_FLT.
      exists (Float radix2 (1 - 2 ^ 26) (-40)); [|cbn; lia|cbn; lia].
      unfold F2R. cbn [Fnum Fexp]. change (-40)%Z with (Z.opp 40). rewrite bpow_inv by lia. rewrite minus_IZR. change (Z.to_nat 40) with 40%nat.
      pose proof (pow_IZR 2 26) as Q. change (2 ^ Z.of_nat 26)%Z with (2 ^ 26)%Z in Q. rewrite <- Q. simpl. lra. }
    assert (R1 : (really_small <= / 2 ^ 19)%R).
    { unfold really_small. assert (E := double_inv 19 ltac:(lia)). change (Z.to_nat 19) with 19%nat in E.
      rewrite <- (fl_id _ E). apply fl_mono. simpl. lra. }
    assert (R2 : (fl (small_number * Rmax (Rabs (/ 2 ^ 40)) (Rabs (/ 2 ^ 14))) <= / 2 ^ 19)%R).
    { rewrite !Rabs_pos_eq by lra. rewrite Rmax_right by lra.
      assert (E := double_inv 19 ltac:(lia)). change (Z.to_nat 19) with 19%nat in E.
      rewrite <- (fl_id _ E). apply fl_mono.
      assert (H : (small_number <= / 2 ^ 13)%R).
      { unfold small_number. assert (E' := double_inv 13 ltac:(lia)). change (Z.to_nat 13) with 13%nat in E'.
        rewrite <- (fl_id _ E'). apply fl_mono. simpl. lra. }
      apply Rle_trans with (/ 2 ^ 13 * / 2 ^ 14)%R.
      - apply Rmult_le_compat_r; lra.
      - simpl. lra. }
    intros [H|[[H _]|[[H _]|(_ & _ & [H|H])]]]; try lra.
    + rewrite D in H. rewrite Rabs_left1 in H by lra.
      assert ((/ 2 ^ 14 - / 2 ^ 40 > / 2 ^ 19)%R) by (simpl; lra). lra.
    + rewrite D in H. rewrite Rabs_left1 in H by lra.
      assert ((/ 2 ^ 14 - / 2 ^ 40 > / 2 ^ 19)%R) by (simpl; lra). lra.
Qed.
Print Assumptions tolerance_not_transitive_refuted.

(** p + Sigma- -> n + Lambda: the hypotheses are met, the integers add up, and dropping a
    particle is reported. *)
Definition ex_proton := Qnum (Four 1 0 0 0) 1 1 0 0 0 1.
Definition ex_sigma := Qnum (Four 1 0 0 0) (-1) (-2) (-1) 0 0 1.
Definition ex_neutron := Qnum (Four 1 0 0 0) 0 (-1) 0 0 0 1.
Definition ex_lambda := Qnum (Four 1 0 0 0) 0 0 (-1) 0 0 1.
Example totals_example :
  countable [ex_proton; ex_sigma] /\
  (exists a b, of_list [ex_proton; ex_sigma] = Ok a /\ of_list [ex_neutron; ex_lambda] = Ok b /\
     agree a b /\ q_baryon a = 2 /\ q_strange a = -1) /\
  (exists a b, of_list [ex_proton; ex_sigma] = Ok a /\ of_list [ex_neutron] = Ok b /\
     In D_strange (report_deviations a b) /\ ~ In D_charge (report_deviations a b)).
Proof.
  split; [|split].
  - intros f I. cbn in I. repeat destruct I as [<-|I]; try contradiction; cbn; lia.
  - eexists _, _. split; [reflexivity|]. split; [reflexivity|]. split; [|split; reflexivity].
    split; intros f I; cbn in I; repeat destruct I as [<-|I]; try contradiction; try reflexivity; left; reflexivity.
  - eexists _, _. split; [reflexivity|]. split; [reflexivity|]. split.
    + apply report_deviations_names. cbn. lia.
    + intros H. apply report_deviations_names in H. apply H. reflexivity.
Qed.
