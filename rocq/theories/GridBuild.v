(** Construction of the grid: number of cells, index factors, filing of particles. *)
From Coq Require Import ZArith Reals List Bool Lia Lra Psatz Sorting.Permutation.
From Flocq Require Import Core.
From Verif Require Import Base Flt GridModel GridProofs GridPeriodic.
Import ListNotations.
Open Scope Z_scope.

(** What both arithmetics satisfy; [num] are the representable numbers. *)
Record arith_ok (A : arith) (num : R -> Prop) := ArithOk {
  rnd_num : forall x, num (rnd A x);
  rnd_mono : forall x y, (x <= y)%R -> (rnd A x <= rnd A y)%R;
  rnd_0 : rnd A 0 = 0%R;
  rnd_id : forall x, num x -> rnd A x = x;
  prv_num : forall f, num f -> num (prv A f);
  prv_pos : forall f, num f -> (0 <= f)%R -> (0 <= prv A f <= f)%R
}.

Lemma u_lt_1 : (u < / 4)%R.
Proof.
  unfold u. apply Rinv_lt_contravar.
  - apply Rmult_lt_0_compat. lra. apply pow_lt; lra.
  - replace (2 ^ 53)%R with 9007199254740992%R. lra. symmetry. exact (pow_IZR 2 53).
Qed.

Lemma exact_ok : arith_ok exact (fun _ => True).
Proof.
  split; cbn; auto.
  intros f _ H. pose proof u_pos. pose proof u_lt_1. split; nra.
Qed.

Lemma dbl_ok : arith_ok dbl is_double.
Proof.
  split; cbn; auto using fl_mono, fl_0, fl_double, fl_id.
  - intros f F. destruct (Req_bool_spec f 0) as [->|N].
    + apply generic_format_0.
    + apply generic_format_pred; auto with typeclass_instances.
  - intros f F H. destruct (Req_bool_spec f 0) as [->|N]. lra. split.
    + apply pred_ge_0; auto with typeclass_instances. lra.
    + left. apply pred_lt_id. auto.
Qed.

(** * The rescaling loop *)
Lemma shrink_ok k A num len n f f' : arith_ok A num -> num f -> (0 <= f)%R ->
  shrink k A len n f = Ok f' -> num f' /\ (0 <= f' <= f)%R /\ (rnd A (f' * len) < IZR n)%R.
Proof.
  intros O. revert f. induction k; intros f F H E; cbn in E; [discriminate|].
  destruct (Rle_bool_spec (IZR n) (rnd A (f * len))).
  - destruct (prv_pos _ _ O f F H). apply IHk in E; auto.
    + intuition lra.
    + now apply (prv_num _ _ O).
  - assert (f' = f) by congruence. subst. repeat split; auto. lra.
Qed.

Lemma shrink_exact len n : (0 < len)%R -> 1 <= n ->
  shrink 8 exact len n (rnd exact (IZR n / len)) = Ok (IZR n / len * (1 - u))%R.
Proof.
  intros L N. cbn [shrink exact rnd prv].
  replace (IZR n / len * len)%R with (IZR n) by (field; lra).
  rewrite Rle_bool_true by lra.
  replace (IZR n / len * (1 - u) * len)%R with (IZR n * (1 - u))%R by (field; lra).
  rewrite Rle_bool_false; auto. pose proof u_pos.
  assert (1 <= IZR n)%R by now apply IZR_le. nra.
Qed.

Lemma pred_rel f : is_double f -> (/ 2 ^ 1000 <= f)%R -> (pred radix2 fexp f <= f * (1 - u))%R.
Proof.
  intros F H.
  assert (H0 : (0 < / 2 ^ 1000)%R) by (apply Rinv_0_lt_compat, pow_lt; lra).
  rewrite pred_eq_pos by lra. unfold pred_pos.
  assert (B : bpow radix2 (-1000) = (/ 2 ^ 1000)%R).
  { change (-1000)%Z with (Z.opp 1000). rewrite bpow_opp. f_equal. rewrite <- IZR_Zpower by lia. symmetry. exact (pow_IZR 2 1000). }
  assert (M : -1000 < mag radix2 f). { apply mag_gt_bpow. rewrite B, Rabs_pos_eq; lra. }
  assert (U : bpow radix2 (-53) = u).
  { change (-53)%Z with (Z.opp 53). rewrite bpow_opp. unfold u. f_equal. rewrite <- IZR_Zpower by lia. symmetry. exact (pow_IZR 2 53). }
  destruct (Req_bool_spec f (bpow radix2 (mag radix2 f - 1))) as [E|E].
  - replace (fexp (mag radix2 f - 1)) with (mag radix2 f - 1 + -53) by (unfold fexp, FLT_exp; lia).
    rewrite bpow_plus, <- E, U. lra.
  - rewrite ulp_neq_0 by lra. unfold cexp.
    replace (fexp (mag radix2 f)) with (mag radix2 f + -53) by (unfold fexp, FLT_exp; lia).
    rewrite bpow_plus, U.
    assert (f <= bpow radix2 (mag radix2 f))%R.
    { left. rewrite <- (Rabs_pos_eq f) at 1 by lra. apply bpow_mag_gt. }
    pose proof u_pos. nra.
Qed.

Lemma pred_lb f : is_double f -> (/ 2 ^ 999 <= f)%R -> (/ 2 ^ 1000 <= pred radix2 fexp f)%R.
Proof.
  intros F H.
  assert (B : bpow radix2 (-1000) = (/ 2 ^ 1000)%R).
  { change (-1000)%Z with (Z.opp 1000). rewrite bpow_opp. f_equal. rewrite <- IZR_Zpower by lia. symmetry. exact (pow_IZR 2 1000). }
  rewrite <- B. apply pred_ge_gt; auto with typeclass_instances.
  - apply generic_format_bpow. unfold fexp, FLT_exp. lia.
  - rewrite B. apply Rlt_le_trans with (/ 2 ^ 999)%R; auto.
    apply Rinv_lt_contravar. apply Rmult_lt_0_compat; apply pow_lt; lra.
    apply Rlt_pow; [lra|lia].
Qed.

Lemma pow2_le a b : (a <= b)%nat -> (2 ^ a <= 2 ^ b)%R.
Proof. intros. apply Rle_pow; [lra|auto]. Qed.
Lemma pow2_inv_le a b : (a <= b)%nat -> (/ 2 ^ b <= / 2 ^ a)%R.
Proof. intros. apply Rinv_le_contravar. apply pow_lt; lra. now apply pow2_le. Qed.

(** the loop stops after at most two steps *)
Lemma shrink_dbl len n : 1 <= n <= 2 ^ 31 -> (/ 2 ^ 900 <= len <= 2 ^ 900)%R ->
  exists f, shrink 8 dbl len n (rnd dbl (IZR n / len)) = Ok f.
Proof.
  intros N L. set (f0 := rnd dbl (IZR n / len)).
  assert (P9 : (0 < / 2 ^ 900)%R) by (apply Rinv_0_lt_compat, pow_lt; lra).
  assert (LP : (0 < len)%R) by lra.
  assert (N1 : (1 <= IZR n)%R) by now apply IZR_le.
  pose proof u_pos as U0. pose proof u_lt_1 as U1.
  assert (D0 : is_double f0) by apply fl_double.
  (* the quotient *)
  assert (Q : (/ 2 ^ 900 <= IZR n / len)%R).
  { apply Rle_trans with (1 / len)%R.
    - unfold Rdiv. rewrite Rmult_1_l. apply Rinv_le_contravar; lra.
    - unfold Rdiv. apply Rmult_le_compat_r; auto. left. now apply Rinv_0_lt_compat. }
  assert (G : (/ 2 ^ 1022 <= / 2 ^ 900)%R) by (apply pow2_inv_le; lia).
  destruct (fl_rel (IZR n / len)) as (e & He & E). { rewrite Rabs_pos_eq; lra. }
  change (fl (IZR n / len)) with f0 in E.
  apply Rabs_le_inv in He.
  assert (F0 : (/ 2 ^ 901 <= f0)%R).
  { rewrite E. apply Rle_trans with (/ 2 ^ 900 * / 2)%R.
    - change (2 ^ 901)%R with (2 * 2 ^ 900)%R. rewrite Rinv_mult. lra.
    - apply Rmult_le_compat; lra. }
  assert (F0u : (f0 * len <= IZR n * (1 + u))%R).
  { rewrite E. replace (IZR n / len * (1 + e) * len)%R with (IZR n * (1 + e))%R by (field; lra).
    apply Rmult_le_compat_l; lra. }
  assert (stop : forall f, (0 <= f)%R -> (f * len <= IZR n * (1 - u))%R -> Rle_bool (IZR n) (rnd dbl (f * len)) = false).
  { intros f Hf Hl. apply Rle_bool_false. cbn [rnd dbl].
    destruct (Rle_lt_dec (/ 2 ^ 1022) (f * len)) as [B|B].
    - destruct (fl_rel (f * len)) as (e' & He' & E'). { rewrite Rabs_pos_eq; [auto|nra]. }
      rewrite E'. apply Rabs_le_inv in He'.
      apply Rle_lt_trans with (IZR n * (1 - u) * (1 + u))%R.
      + apply Rmult_le_compat; nra.
      + nra.
    - apply Rle_lt_trans with (fl (/ 2)).
      + apply fl_mono. assert (/ 2 ^ 1022 <= / 2 ^ 1)%R by (apply pow2_inv_le; lia). simpl (2 ^ 1)%R in *. rewrite Rmult_1_r in *. lra.
      + rewrite fl_id; [lra|]. unfold is_double. replace (/ 2)%R with (bpow radix2 (-1)) by reflexivity.
        apply generic_format_bpow. unfold fexp, FLT_exp. lia. }
  assert (P1 : (f0 <> 0)%R). { assert (0 < / 2 ^ 901)%R by (apply Rinv_0_lt_compat, pow_lt; lra). lra. }
  assert (A1 : (/ 2 ^ 999 <= f0)%R). { apply Rle_trans with (/ 2 ^ 901)%R; auto. apply pow2_inv_le; lia. }
  assert (A2 : (/ 2 ^ 1000 <= f0)%R). { apply Rle_trans with (/ 2 ^ 999)%R; auto. apply pow2_inv_le; lia. }
  pose proof (pred_rel f0 D0 A2) as R1. pose proof (pred_lb f0 D0 A1) as B1.
  set (f1 := pred radix2 fexp f0) in *.
  assert (D1 : is_double f1) by (apply generic_format_pred; auto with typeclass_instances).
  pose proof (pred_rel f1 D1 B1) as R2.
  assert (P2 : (0 < / 2 ^ 1000)%R) by (apply Rinv_0_lt_compat, pow_lt; lra).
  set (f2 := pred radix2 fexp f1) in *.
  assert (S2 : (0 <= f2)%R). { apply pred_ge_0; auto with typeclass_instances. lra. }
  change 8%nat with (S (S (S 5))). cbn [shrink].
  destruct (Rle_bool (IZR n) (rnd dbl (f0 * len))); [|eexists; reflexivity].
  replace (prv dbl f0) with f1 by (cbn; now rewrite Req_bool_false).
  destruct (Rle_bool (IZR n) (rnd dbl (f1 * len))); [|eexists; reflexivity].
  replace (prv dbl f1) with f2 by (cbn; rewrite Req_bool_false by lra; auto).
  rewrite stop; auto. { eexists; reflexivity. }
  clear - R1 R2 F0u U0 U1 N1 LP S2 A2 P2.
  assert (K : (f2 <= f0 * (1 - u) * (1 - u))%R).
  { apply Rle_trans with (1 := R2). apply Rmult_le_compat_r; lra. }
  assert (K' : (f2 * len <= f0 * len * ((1 - u) * (1 - u)))%R).
  { replace (f0 * len * ((1 - u) * (1 - u)))%R with (f0 * (1 - u) * (1 - u) * len)%R by ring.
    apply Rmult_le_compat_r; lra. }
  apply Rle_trans with (1 := K').
  apply Rle_trans with (IZR n * (1 + u) * ((1 - u) * (1 - u)))%R.
  { apply Rmult_le_compat_r; auto. apply Rmult_le_pos; lra. }
  replace (IZR n * (1 + u) * ((1 - u) * (1 - u)))%R with (IZR n * (1 - u) * (1 - u * u))%R by ring.
  rewrite <- (Rmult_1_r (IZR n * (1 - u))) at 2. apply Rmult_le_compat_l.
  - apply Rmult_le_pos; lra.
  - pose proof (Rmult_lt_0_compat u u U0 U0). lra.
Qed.

(** * One direction *)
Lemma floor_nonneg x : (0 <= x)%R -> 0 <= Zfloor x.
Proof. intros. apply Zfloor_lub. auto. Qed.
Lemma floor_lt x n : (x < IZR n)%R -> Zfloor x < n.
Proof. intros. apply lt_IZR. apply Rle_lt_trans with x; auto. apply Zfloor_lb. Qed.

Lemma in_i32_spec x : in_i32 x = true <-> INT_MIN <= x <= INT_MAX.
Proof. unfold in_i32. rewrite andb_true_iff, !Z.leb_le. reflexivity. Qed.

Lemma f0_pos A num maxlen : arith_ok A num -> (0 < maxlen)%R -> (0 <= rnd A (1 / maxlen))%R.
Proof.
  intros O H. rewrite <- (rnd_0 _ _ O). apply (rnd_mono _ _ O). left. apply Rdiv_lt_0_compat; lra.
Qed.

Lemma rnd_pos A num x : arith_ok A num -> (0 <= x)%R -> (0 <= rnd A x)%R.
Proof. intros O H. rewrite <- (rnd_0 _ _ O). now apply (rnd_mono _ _ O). Qed.

Lemma axis_ok A num periodic largest limited maxc maxlen len n f :
  arith_ok A num -> (0 < maxlen)%R -> (0 <= len)%R -> 1 <= maxc -> (periodic = true -> 2 <= maxc) ->
  axis A periodic largest limited maxc maxlen len = Ok (n, f) ->
  1 <= n <= INT_MAX /\ (periodic = true -> 2 <= n) /\ (0 <= f)%R /\
  (if largest then True else n = 1 \/ n <= Zfloor (rnd A (len * rnd A (1 / maxlen)))) /\
  ((maxlen <= len)%R -> (rnd A (f * len) < IZR n)%R /\ (f <= rnd A (IZR n / len))%R) /\
  ((len < maxlen)%R -> f = rnd A (1 / maxlen)).
Proof.
  intros O M L C CP E. unfold axis in E. pose proof (f0_pos A num maxlen O M) as F0.
  set (f0 := rnd A (1 / maxlen)) in *.
  apply rbind_ok in E. destruct E as (n0 & E0 & E).
  apply rbind_ok in E. destruct E as (n1 & E1 & E).
  apply rbind_ok in E. destruct E as (f1 & E2 & E).
  assert (n1 = n /\ f1 = f) as [-> ->] by (split; congruence). clear E.
  assert (I : INT_MAX = 2147483647) by reflexivity.
  assert (N0 : 0 <= n0 <= INT_MAX /\ (if largest then n0 = 2 else n0 = Zfloor (rnd A (len * f0)))).
  { destruct largest.
    - assert (n0 = 2) by congruence. lia.
    - destruct (Rlt_bool (rnd A (IZR INT_MAX / f0)) len); [discriminate|]. cbv zeta in E0.
      destruct (in_i32 (Zfloor (rnd A (len * f0)))) eqn:G; [|discriminate].
      assert (n0 = Zfloor (rnd A (len * f0))) by congruence. subst n0. split; auto.
      apply in_i32_spec in G. split; [|lia]. apply floor_nonneg. apply (rnd_pos A num); auto. nra. }
  destruct N0 as [N0 N0f].
  assert (N1 : 1 <= n <= INT_MAX /\ (periodic = true -> 2 <= n) /\ (n = 1 \/ n <= n0)).
  { destruct periodic; cbn [negb andb] in E1.
    - rewrite andb_false_r, andb_true_r in E1. destruct (Z.ltb_spec n0 2); [discriminate|].
      destruct limited; cbn [andb] in E1; [destruct (Z.ltb_spec maxc n0)|];
      [assert (n = maxc) by congruence|assert (n = n0) by congruence|assert (n = n0) by congruence]; subst; intuition lia.
    - rewrite andb_true_r, andb_false_r in E1. destruct (Z.eqb_spec n0 0).
      + assert (n = 1) by congruence. intuition (try lia; discriminate).
      + destruct limited; cbn [andb] in E1; [destruct (Z.ltb_spec maxc n0)|];
        [assert (n = maxc) by congruence|assert (n = n0) by congruence|assert (n = n0) by congruence]; subst; intuition (try lia; discriminate). }
  destruct N1 as (N1 & N1p & N1f).
  split; [exact N1|]. split; [exact N1p|].
  destruct (Rle_bool_spec maxlen len) as [G|G].
  - apply shrink_ok with (num := num) in E2; auto.
    + destruct E2 as (Fn & Fp & Fs). split; [lra|].
      split. { destruct largest; auto. subst n0. auto. }
      split; [|lra]. intros _. split; [auto|lra].
    + apply (rnd_num _ _ O).
    + apply (rnd_pos A num); auto. apply Rmult_le_pos. apply IZR_le; lia. left. apply Rinv_0_lt_compat. lra.
  - assert (f = f0) by congruence. subst f. split; auto. split.
    { destruct largest; auto. subst n0. auto. }
    split; [lra|auto].
Qed.

(** position within the grid *)
Lemma coord_in_range A num maxlen len n f pos mn :
  arith_ok A num -> num len -> (0 < maxlen)%R -> 1 <= n <= INT_MAX -> (0 <= f)%R ->
  (rnd A (f * len) < IZR n)%R -> (mn <= pos)%R -> (rnd A (pos - mn) <= len)%R ->
  coord A pos mn f = Ok (Zfloor (rnd A (rnd A (pos - mn) * f))) /\
  0 <= Zfloor (rnd A (rnd A (pos - mn) * f)) < n.
Proof.
  intros O NL M N F S P1 P2.
  assert (D : (0 <= rnd A (pos - mn))%R) by (apply (rnd_pos A num); auto; lra).
  assert (B : 0 <= Zfloor (rnd A (rnd A (pos - mn) * f)) < n).
  { split. apply floor_nonneg. apply (rnd_pos A num); auto. nra.
    apply floor_lt. apply Rle_lt_trans with (2 := S). apply (rnd_mono _ _ O). nra. }
  split; auto. unfold coord. cbv zeta.
  replace (in_i32 _) with true; auto. symmetry. apply in_i32_spec.
  unfold INT_MIN, INT_MAX in *. lia.
Qed.

Lemma sint_ok x : 0 <= x <= INT_MAX -> sint x = Ok x.
Proof.
  intros. unfold sint. replace (in_i32 x) with true; auto. symmetry. apply in_i32_spec.
  unfold INT_MIN, INT_MAX in *. lia.
Qed.

Lemma make_index_int_ok n c : inside n c -> cx n * cy n * cz n <= INT_MAX ->
  make_index_int n (cx c) (cy c) (cz c) = Ok (make_index n c).
Proof.
  intros I B. pose proof (make_index_range n c I) as R. destruct I as (X & Y & Z).
  unfold make_index_int. unfold make_index in *.
  assert (0 <= cz c * cy n) by nia.
  assert (cz c * cy n + cy c <= (cz c * cy n + cy c) * cx n) by nia.
  rewrite sint_ok by lia. cbn [rbind]. rewrite sint_ok by lia. cbn [rbind].
  rewrite sint_ok by nia. cbn [rbind]. apply sint_ok. lia.
Qed.

(** * Filing *)
Definition filed (cells : list (list gpart)) (N : Z) (ix : gpart -> Z) (es : list gpart) : Prop :=
  Z.of_nat (length cells) = N /\
  (forall p, In p es -> 0 <= ix p < N) /\
  (forall i, 0 <= i < N -> nth_error cells (Z.to_nat i) = Some (filter (fun p => ix p =? i) es)).

Lemma filed_nil N ix : 0 <= N -> filed (repeat [] (Z.to_nat N)) N ix [].
Proof.
  intros. split; [|split].
  - rewrite repeat_length. lia.
  - intros p [].
  - intros i Hi. cbn. assert (L : (Z.to_nat i < length (repeat (@nil gpart) (Z.to_nat N)))%nat) by (rewrite repeat_length; lia).
    apply nth_error_Some in L. destruct (nth_error _ (Z.to_nat i)) eqn:E; [|congruence].
    apply nth_error_In, repeat_spec in E. congruence.
Qed.

Lemma push_filed cells N ix es p : filed cells N ix es -> 0 <= ix p < N ->
  exists cells', push cells (ix p) p = Ok cells' /\ filed cells' N ix (es ++ [p]).
Proof.
  intros (L & R & C) P. unfold push. destruct (Z.ltb_spec (ix p) 0); [lia|]. rewrite (C _ P).
  eexists; split; [reflexivity|]. split; [|split].
  - now rewrite upd_length.
  - intros q Hq. apply in_app_iff in Hq. destruct Hq as [Hq|[<-|[]]]; auto.
  - intros i Hi. rewrite nth_error_upd, filter_app. cbn [filter].
    destruct (Nat.eqb_spec (Z.to_nat (ix p)) (Z.to_nat i)).
    + assert (ix p = i) by lia. subst i. rewrite Z.eqb_refl.
      destruct (Nat.ltb_spec (Z.to_nat (ix p)) (length cells)); [reflexivity|lia].
    + destruct (Z.eqb_spec (ix p) i); [subst; congruence|]. rewrite app_nil_r. auto.
Qed.

Lemma fold_filed N ix el (cix : gpart -> res Z) ps : forall cells es,
  filed cells N ix es ->
  (forall p, In p ps -> el p = true -> cix p = Ok (ix p) /\ 0 <= ix p < N) ->
  exists cells', foldM (fun cells p => if negb (el p) then Ok cells else i <- cix p ;; push cells i p) cells ps = Ok cells'
   /\ filed cells' N ix (es ++ filter el ps).
Proof.
  induction ps as [|p ps IH]; intros cells es F H.
  - exists cells. cbn. rewrite app_nil_r. auto.
  - cbn [foldM filter]. destruct (el p) eqn:E; cbn [negb rbind].
    + destruct (H p (or_introl eq_refl) E) as [Hc Hr]. rewrite Hc. cbn [rbind].
      destruct (push_filed _ _ _ _ _ F Hr) as (c1 & -> & F1). cbn [rbind].
      destruct (IH c1 _ F1) as (c2 & E2 & F2). { intros; apply H; auto; now right. }
      exists c2. split; auto. rewrite <- app_assoc in F2. exact F2.
    + apply IH; auto. intros; apply H; auto; now right.
Qed.

(** cell coordinates of a particle *)
Definition cell_of (A : arith) (mn f : r3) (p : gpart) : c3 :=
  (Zfloor (rnd A (rnd A (g_x p - rx mn) * rx f)), Zfloor (rnd A (rnd A (g_y p - ry mn) * ry f)),
   Zfloor (rnd A (rnd A (g_z p - rz mn) * rz f)))%R.
