(** C40 (numeric_cast), C41 (periodic boundaries), C42 (averages), C43 (channel choice). *)
From Coq Require Import ZArith Reals List Bool Lia Lra Psatz.
From Flocq Require Import Core.
From Verif Require Import Base Flt NumModel.
Import ListNotations.

(** ** C40 *)
Open Scope Z_scope.
Definition representable (t : ity) (x : Z) : Prop := lowest t <= x <= highest t.
Lemma fits_spec t x : fits t x = true <-> representable t x.
Proof. unfold fits, representable. rewrite andb_true_iff, !Z.leb_le. tauto. Qed.
Lemma wrap_range t x : 0 < bits t -> representable t (NumModel.wrap t x).
Proof.
  intros H. unfold representable, NumModel.wrap, lowest, highest, to_signed.
  assert (P : 2 ^ bits t = 2 * 2 ^ (bits t - 1)) by (rewrite <- Z.pow_succ_r by lia; f_equal; lia).
  pose proof (Z.mod_pos_bound x (2 ^ bits t) ltac:(lia)).
  destruct (sgn t); [|lia]. destruct (Z.ltb_spec (x mod 2 ^ bits t) (2 ^ (bits t - 1))); lia.
Qed.
Lemma wrap_id t x : 0 < bits t -> representable t x -> NumModel.wrap t x = x.
Proof.
  intros H R. unfold representable, NumModel.wrap, lowest, highest, to_signed in *.
  assert (P : 2 ^ bits t = 2 * 2 ^ (bits t - 1)) by (rewrite <- Z.pow_succ_r by lia; f_equal; lia).
  destruct (sgn t).
  - destruct (Z.le_gt_cases 0 x).
    + rewrite Z.mod_small by lia. destruct (Z.ltb_spec x (2 ^ (bits t - 1))); lia.
    + replace (x mod 2 ^ bits t) with (x + 2 ^ bits t).
      * destruct (Z.ltb_spec (x + 2 ^ bits t) (2 ^ (bits t - 1))); lia.
      * apply Z.mod_unique_pos with (-1); lia.
  - apply Z.mod_small. lia.
Qed.

(** Between integral types: the value, exactly if the destination can represent it;
    otherwise an exception.  All widths, all signedness combinations. *)
Theorem numeric_cast_int_exact from to x :
  0 < bits from -> 0 < bits to -> representable from x ->
  (representable to x -> cast_int from to x = Ok x) /\
  (~ representable to x -> cast_int from to x = Throw E_domain).
Proof.
  intros HF HT RF. unfold cast_int. split.
  - intros RT. rewrite (wrap_id to x HT RT), (wrap_id from x HF RF), Z.eqb_refl, xorb_nilpotent, andb_false_r. reflexivity.
  - intros NT. set (y := NumModel.wrap to x).
    assert (RY : representable to y) by (apply wrap_range; auto).
    destruct (Z.eqb_spec (NumModel.wrap from y) x) as [EW|]; [|reflexivity]. cbn [negb orb].
    assert (NF : ~ representable from y).
    { intros RFy. rewrite (wrap_id from y HF RFy) in EW. congruence. }
    assert (PF : 2 ^ bits from = 2 * 2 ^ (bits from - 1)) by (rewrite <- Z.pow_succ_r by lia; f_equal; lia).
    assert (PT : 2 ^ bits to = 2 * 2 ^ (bits to - 1)) by (rewrite <- Z.pow_succ_r by lia; f_equal; lia).
    unfold representable, lowest, highest in *.
    destruct (sgn from) eqn:SF, (sgn to) eqn:ST; cbn [xorb andb].
    + exfalso. destruct (Z.le_gt_cases (bits from) (bits to)).
      * pose proof (Z.pow_le_mono_r 2 (bits from - 1) (bits to - 1) ltac:(lia) ltac:(lia)). lia.
      * pose proof (Z.pow_le_mono_r 2 (bits to - 1) (bits from - 1) ltac:(lia) ltac:(lia)). lia.
    + assert (x < 0 \/ 0 <= x) as [XN|XP] by lia.
      * assert (E1 : y <? 0 = false) by (apply Z.ltb_ge; lia). assert (E2 : x <? 0 = true) by (apply Z.ltb_lt; lia). now rewrite E1, E2.
      * exfalso. destruct (Z.le_gt_cases (bits from) (bits to)).
        -- pose proof (Z.pow_le_mono_r 2 (bits from - 1) (bits to - 1) ltac:(lia) ltac:(lia)). lia.
        -- pose proof (Z.pow_le_mono_r 2 (bits to) (bits from - 1) ltac:(lia) ltac:(lia)). lia.
    + assert (y < 0 \/ 0 <= y) as [YN|YP] by lia.
      * assert (E1 : y <? 0 = true) by (apply Z.ltb_lt; lia). assert (E2 : x <? 0 = false) by (apply Z.ltb_ge; lia). now rewrite E1, E2.
      * exfalso. destruct (Z.lt_ge_cases (bits from) (bits to)).
        -- pose proof (Z.pow_le_mono_r 2 (bits from) (bits to - 1) ltac:(lia) ltac:(lia)). lia.
        -- pose proof (Z.pow_le_mono_r 2 (bits to - 1) (bits from - 1) ltac:(lia) ltac:(lia)). lia.
    + exfalso. destruct (Z.le_gt_cases (bits from) (bits to)).
      * pose proof (Z.pow_le_mono_r 2 (bits from) (bits to) ltac:(lia) ltac:(lia)). lia.
      * pose proof (Z.pow_le_mono_r 2 (bits to) (bits from) ltac:(lia) ltac:(lia)). lia.
Qed.
Print Assumptions numeric_cast_int_exact.
Example numeric_cast_int_examples :
  cast_int uint64 uint32 (2 ^ 32) = Throw E_domain /\ cast_int int32 uint64 (-1) = Throw E_domain /\
  cast_int uint64 int32 (2 ^ 31 - 1) = Ok (2 ^ 31 - 1) /\ cast_int uint32 int32 (2 ^ 32 - 1) = Throw E_domain.
Proof. repeat split; vm_compute; reflexivity. Qed.

Open Scope R_scope.
Lemma trunc_le x : Rabs (IZR (Ztrunc x)) <= Rabs x.
Proof. rewrite <- abs_IZR, <- Ztrunc_abs. rewrite Ztrunc_floor by apply Rabs_pos. apply Zfloor_lb. Qed.
(** Large doubles are integers; the truncation of a double is a double. *)
Lemma big_double_int x : is_double x -> bpow radix2 53 <= Rabs x -> IZR (Ztrunc x) = x.
Proof.
  intros D BIG. unfold is_double, generic_format in D.
  set (m := Ztrunc (scaled_mantissa radix2 fexp x)) in D. set (ex := cexp radix2 fexp x) in D.
  assert (EE : (0 <= ex)%Z).
  { unfold ex, cexp, fexp, FLT_exp. assert (M : (53 < mag radix2 x)%Z).
    { apply lt_bpow with radix2. eapply Rle_lt_trans; [exact BIG|]. apply bpow_mag_gt. }
    lia. }
  assert (EX : x = IZR (m * radix2 ^ ex)%Z).
  { rewrite D at 1. unfold F2R. cbn [Fnum Fexp]. now rewrite mult_IZR, (IZR_Zpower radix2 ex EE). }
  rewrite EX, Ztrunc_IZR. reflexivity.
Qed.
Lemma double_trunc x : is_double x -> of_int (Ztrunc x) = IZR (Ztrunc x).
Proof.
  intros D. unfold of_int. apply fl_id.
  destruct (Rle_or_lt (bpow radix2 53) (Rabs x)) as [BIG|SMALL].
  - rewrite (big_double_int x D BIG). exact D.
  - apply int_double. apply le_IZR. rewrite abs_IZR. change (IZR (2 ^ 53)) with (bpow radix2 53).
    eapply Rle_trans; [apply trunc_le|]. lra.
Qed.
Lemma fl_abs x : Rabs (fl x) = fl (Rabs x).
Proof. unfold fl. symmetry. apply round_NE_abs. typeclasses eauto. Qed.
Lemma of_int_int n : IZR (Ztrunc (of_int n)) = of_int n.
Proof.
  destruct (Z_le_gt_dec (Z.abs n) (2 ^ 53)) as [S|B].
  - rewrite fl_int by auto. now rewrite Ztrunc_IZR.
  - apply big_double_int; [apply fl_double|]. unfold of_int. rewrite fl_abs, <- abs_IZR.
    change (bpow radix2 53) with (IZR (2 ^ 53)). rewrite <- (fl_id (IZR (2 ^ 53))) by (apply int_double; vm_compute; discriminate).
    apply fl_mono, IZR_le. lia.
Qed.
Lemma Req_true x y : x = y -> Req_bool x y = true.
Proof. intros. now apply Req_bool_true. Qed.

(** From double: the integer equal to [x], if there is one the type can represent; an
    exception if the fractional part is lost. *)
Theorem numeric_cast_from_double_exact to x : is_double x ->
  (forall v, cast_from_double to x = Ok v -> IZR v = x) /\
  (forall v, IZR v = x -> representable to v -> cast_from_double to x = Ok v) /\
  (representable to (Ztrunc x) -> IZR (Ztrunc x) <> x -> cast_from_double to x = Throw E_domain).
Proof.
  intros D. unfold cast_from_double, trunc_to. splits.
  - intros v. destruct (fits to (Ztrunc x)); cbn [rbind]; [|discriminate]. rewrite double_trunc by auto.
    destruct (Req_bool_spec (IZR (Ztrunc x)) x) as [E|E]; cbn [negb orb]; [|discriminate].
    destruct (negb (sgn to) && _); [discriminate|]. intros H. inversion H; subst. auto.
  - intros v E F. subst x. rewrite Ztrunc_IZR. rewrite (proj2 (fits_spec to v) F). cbn [rbind].
    assert (EO : of_int v = IZR v). { rewrite <- (Ztrunc_IZR v) at 1. rewrite double_trunc by auto. now rewrite Ztrunc_IZR. }
    rewrite (Req_true _ _ EO). cbn [negb orb]. unfold neg.
    assert (X : xorb (v <? 0)%Z (if Rlt_dec (IZR v) 0 then true else false) = false).
    { destruct (Rlt_dec (IZR v) 0) as [L|L]; destruct (Z.ltb_spec v 0) as [L'|L']; auto.
      - apply IZR_le in L'. lra.
      - apply IZR_lt in L'. lra. }
    rewrite X, andb_false_r. reflexivity.
  - intros F NE. rewrite (proj2 (fits_spec to _) F). cbn [rbind]. rewrite double_trunc by auto. rewrite Req_bool_false by auto. reflexivity.
Qed.
Print Assumptions numeric_cast_from_double_exact.
(** ... but a value out of range is converted first, which is undefined. *)
Theorem numeric_cast_out_of_range_throws_refuted :
  exists x, is_double x /\ cast_from_double uint32 x = UB UB_float_cast.
Proof.
  exists (IZR (2 ^ 32)). split; [apply int_double; vm_compute; discriminate|].
  unfold cast_from_double, trunc_to. rewrite Ztrunc_IZR. reflexivity.
Qed.
Print Assumptions numeric_cast_out_of_range_throws_refuted.

(** To double: the same value, or an exception; but for the largest 64-bit numbers the
    conversion back is undefined. *)
Theorem numeric_cast_to_double_exact from x y :
  cast_to_double from x = Ok y -> y = IZR x.
Proof.
  unfold cast_to_double, trunc_to. destruct (fits from (Ztrunc (of_int x))); cbn [rbind]; [|discriminate].
  destruct (Z.eqb_spec (Ztrunc (of_int x)) x) as [E|E]; cbn [negb orb]; [|discriminate].
  destruct (negb (sgn from) && _); [discriminate|]. intros H. inversion H; subst.
  rewrite <- E at 2. symmetry. apply of_int_int.
Qed.
Print Assumptions numeric_cast_to_double_exact.
Theorem numeric_cast_small_int_to_double from x : representable from x -> (Z.abs x <= 2 ^ 53)%Z -> cast_to_double from x = Ok (IZR x).
Proof.
  intros F B. unfold cast_to_double, trunc_to. rewrite fl_int by auto. rewrite Ztrunc_IZR, (proj2 (fits_spec from x) F). cbn [rbind].
  rewrite Z.eqb_refl. cbn [negb orb]. unfold neg.
  assert (X : xorb (if Rlt_dec (IZR x) 0 then true else false) (x <? 0)%Z = false).
  { destruct (Rlt_dec (IZR x) 0) as [L|L]; destruct (Z.ltb_spec x 0) as [L'|L']; auto.
    - apply IZR_le in L'. lra.
    - apply IZR_lt in L'. lra. }
  rewrite X, andb_false_r. reflexivity.
Qed.
Print Assumptions numeric_cast_small_int_to_double.
Theorem numeric_cast_large_int_to_double_throws_refuted : cast_to_double uint64 (2 ^ 64 - 1) = UB UB_float_cast.
Proof.
  assert (E : of_int (2 ^ 64 - 1) = IZR (2 ^ 64)).
  { unfold of_int. rewrite (fl_at (IZR (2 ^ 64 - 1)) (2 ^ 53) 11).
    - change (bpow radix2 11) with (IZR (2 ^ 11)). rewrite <- mult_IZR. reflexivity.
    - lia.
    - change (bpow radix2 (11 + 52)) with (IZR (2 ^ 63)). change (bpow radix2 (11 + 53)) with (IZR (2 ^ 64)).
      split; [apply IZR_le|apply IZR_lt]; vm_compute; congruence.
    - change (bpow radix2 (- (11))) with (/ IZR (2 ^ 11)). rewrite minus_IZR.
      replace (IZR (2 ^ 64)) with (IZR (2 ^ 53) * IZR (2 ^ 11)) by (rewrite <- mult_IZR; reflexivity).
      assert (P : 0 < IZR (2 ^ 11)) by (apply IZR_lt; reflexivity).
      replace ((IZR (2 ^ 53) * IZR (2 ^ 11) - 1) * / IZR (2 ^ 11) - IZR (2 ^ 53)) with (- / IZR (2 ^ 11)) by (field; lra).
      rewrite Rabs_Ropp, Rabs_pos_eq by (left; now apply Rinv_0_lt_compat).
      apply Rinv_lt_contravar; [lra|]. apply IZR_lt. reflexivity. }
  unfold cast_to_double, trunc_to. rewrite E, Ztrunc_IZR. reflexivity.
Qed.
Print Assumptions numeric_cast_large_int_to_double_throws_refuted.

(** ** C41 *)
Definition inside (L x : R) : Prop := 0 <= x < L.
(** For coordinates at most one length outside: every coordinate ends inside, moved by a
    whole number of lengths; coordinates inside stay; the flag tells whether any moved. *)
Theorem periodic_wrap L xs xs' moved : 0 < L -> Forall (fun x => - L <= x < 2 * L) xs ->
  enforce Rplus Rminus L xs = (xs', moved) ->
  Forall (inside L) xs' /\
  Forall2 (fun x x' => (exists k, x' = x + IZR k * L) /\ (inside L x -> x' = x)) xs xs' /\
  (moved = true <-> Exists (fun x => ~ inside L x) xs).
Proof.
  intros HL F. revert xs' moved. induction F as [|x xs Hx F IH]; intros xs' moved E; cbn [enforce] in E.
  - inversion E; subst. splits; auto. split; [discriminate|]. intros X. inversion X.
  - unfold wrap1, inside in *. destruct (enforce Rplus Rminus L xs) as [r b] eqn:ER.
    destruct (IH _ _ eq_refl) as (A & B & C).
    destruct (Rlt_dec x 0) as [N|P]; [|destruct (Rle_dec L x) as [G|G]]; inversion E; subst; clear E.
    + splits.
      * constructor; auto. lra.
      * constructor; auto. split; [exists 1%Z; lra|lra].
      * cbn [orb]. split; auto. intros _. constructor. lra.
    + splits.
      * constructor; auto. lra.
      * constructor; auto. split; [exists (-1)%Z; lra|lra].
      * cbn [orb]. split; auto. intros _. constructor. lra.
    + splits.
      * constructor; auto. lra.
      * constructor; auto. split; [exists 0%Z; lra|auto].
      * cbn [orb]. rewrite C. split; [intros; now right|]. intros X. inversion X; subst; auto. lra.
Qed.
Print Assumptions periodic_wrap.
Example periodic_wrap_example : enforce Rplus Rminus 10 [-1; 3; 10] = ([9; 3; 0], true).
Proof.
  cbn [enforce]. unfold wrap1. destruct (Rlt_dec (-1) 0); [|lra]. destruct (Rlt_dec 3 0); [lra|]. destruct (Rle_dec 10 3); [lra|].
  destruct (Rlt_dec 10 0); [lra|]. destruct (Rle_dec 10 10); [|lra]. cbn [orb]. repeat f_equal; lra.
Qed.
(** With doubles the result can be the upper limit itself, ... *)
Theorem periodic_wrap_rounded L xs xs' moved : is_double L -> 0 < L -> Forall is_double xs -> Forall (fun x => - L <= x < 2 * L) xs ->
  enforce fadd fsub L xs = (xs', moved) -> Forall (fun x => 0 <= x <= L) xs'.
Proof.
  intros DL HL D F. revert xs' moved. induction F as [|x xs Hx F IH]; intros xs' moved E; cbn [enforce] in E.
  - inversion E; subst. auto.
  - inversion D; subst. unfold wrap1 in *. destruct (enforce fadd fsub L xs) as [r b] eqn:ER. pose proof (IH H2 _ _ eq_refl) as A.
    destruct (Rlt_dec x 0) as [N|P]; [|destruct (Rle_dec L x) as [G|G]]; inversion E; subst; clear E; constructor; auto.
    + unfold fadd. rewrite <- fl_0. rewrite <- (fl_id L DL) at 3. split; apply fl_mono; lra.
    + unfold fsub. rewrite <- fl_0. rewrite <- (fl_id L DL) at 3. split; apply fl_mono; lra.
    + lra.
Qed.
Print Assumptions periodic_wrap_rounded.
(** ... which is outside: a coordinate just below 0 is put onto the upper wall. *)
Theorem periodic_wrap_inside_refuted :
  exists L x, is_double L /\ is_double x /\ - L <= x < 0 /\ enforce fadd fsub L [x] = ([L], true).
Proof.
  exists 1, (- / IZR (2 ^ 60)). assert (P : 0 < IZR (2 ^ 60)) by (apply IZR_lt; reflexivity).
  assert (I : 0 < / IZR (2 ^ 60)) by now apply Rinv_0_lt_compat.
  assert (I1 : / IZR (2 ^ 60) <= / 1000000) by (apply Rinv_le_contravar; [lra|apply IZR_le; vm_compute; discriminate]).
  assert (E : fadd (- / IZR (2 ^ 60)) 1 = 1).
  { unfold fadd. rewrite (fl_at (- / IZR (2 ^ 60) + 1) (2 ^ 53) (-53)).
    - change (bpow radix2 (-53)) with (/ IZR (2 ^ 53)). apply Rinv_r. apply not_0_IZR. discriminate.
    - lia.
    - change (bpow radix2 (-53 + 52)) with (/ 2). change (bpow radix2 (-53 + 53)) with 1. lra.
    - change (bpow radix2 (- -53)) with (IZR (2 ^ 53)).
      replace ((- / IZR (2 ^ 60) + 1) * IZR (2 ^ 53) - IZR (2 ^ 53)) with (- / IZR (2 ^ 7)).
      + rewrite Rabs_Ropp, Rabs_pos_eq.
        * apply Rinv_lt_contravar; [apply Rmult_lt_0_compat; [lra|apply IZR_lt; reflexivity]|apply IZR_lt; reflexivity].
        * left. apply Rinv_0_lt_compat, IZR_lt. reflexivity.
      + replace (IZR (2 ^ 60)) with (IZR (2 ^ 53) * IZR (2 ^ 7)) by (rewrite <- mult_IZR; reflexivity). field. split; apply not_0_IZR; discriminate. }
  splits.
  - apply (int_double 1). vm_compute. discriminate.
  - replace (- / IZR (2 ^ 60)) with (- bpow radix2 (-60)) by reflexivity. apply generic_format_opp, generic_format_bpow. vm_compute. discriminate.
  - lra.
  - lra.
  - cbn [enforce]. unfold wrap1. destruct (Rlt_dec (- / IZR (2 ^ 60)) 0); [|lra]. rewrite E. reflexivity.
Qed.
Print Assumptions periodic_wrap_inside_refuted.

(** ** C42 *)
Definition sum (l : list R) : R := fold_right Rplus 0 l.
Definition mean (l : list R) : R := sum l / INR (length l).
Lemma sum_app a b : sum (a ++ b) = sum a + sum b.
Proof. unfold sum. induction a; cbn; lra. Qed.
Lemma avg_step l x : avg_add (Avg (mean l) (length l)) x = Avg (mean (l ++ [x])) (length (l ++ [x])).
Proof.
  unfold avg_add. cbn [avg num]. rewrite app_length, Nat.add_1_r. f_equal. unfold mean.
  rewrite sum_app, app_length, plus_INR. cbn [sum fold_right length INR].
  destruct l as [|a l].
  - cbn. unfold Rdiv. rewrite Rmult_0_r, !Rplus_0_l, Rplus_0_r. reflexivity.
  - assert (INR (length (a :: l)) <> 0) by (apply not_0_INR; discriminate).
    assert (INR (length (a :: l)) + 1 <> 0) by (pose proof (pos_INR (length (a :: l))); lra). field. auto.
Qed.
(** Adding any values gives their arithmetic mean. *)
Theorem average_is_mean l : fold_left avg_add l avg_new = Avg (mean l) (length l).
Proof.
  induction l as [|x l IH] using rev_ind.
  - unfold mean, avg_new. cbn. f_equal. unfold Rdiv. ring.
  - rewrite fold_left_app. cbn [fold_left]. rewrite IH. apply avg_step.
Qed.
Print Assumptions average_is_mean.

(** The result of dedup_avg: [blocks] are the maximal runs of equal x. *)
Definition run_xs (b : R * list R) : list R := repeat (fst b) (length (snd b)).
Fixpoint neighbours_differ (l : list R) : Prop :=
  match l with a :: ((b :: _) as t) => a <> b /\ neighbours_differ t | _ => True end.
Lemma dedup_spec xs : forall ys p l nx ny, length xs = length ys -> l <> [] ->
  exists blocks, dedup_loop p p (Avg (mean l) (length l)) xs ys nx ny = (nx ++ map fst blocks, ny ++ map (fun b => mean (snd b)) blocks) /\
    repeat p (length l) ++ xs = concat (map run_xs blocks) /\ l ++ ys = concat (map snd blocks) /\
    Forall (fun b => snd b <> []) blocks /\ neighbours_differ (map fst blocks) /\ (exists l' t, blocks = (p, l') :: t).
Proof.
  induction xs as [|x xs IH]; intros [|y ys] p l nx ny LE NE; try discriminate.
  - exists [(p, l)]. cbn [dedup_loop map concat run_xs fst snd app avg]. rewrite !app_nil_r. splits; cbn; eauto.
  - cbn [dedup_loop]. destruct (Req_EM_T x p) as [->|NX].
    + rewrite avg_step. destruct (IH ys p (l ++ [y]) nx ny) as (B & E & E1 & E2 & E3 & E4 & E5); [auto|destruct l; discriminate|].
      exists B. splits; auto.
      * rewrite <- E1, app_length. cbn [length]. rewrite repeat_app, <- app_assoc. reflexivity.
      * rewrite <- E2, <- app_assoc. reflexivity.
    + assert (EA : avg_add avg_new y = Avg (mean [y]) (length [y])).
      { exact (average_is_mean [y]). }
      rewrite EA. destruct (IH ys x [y] (nx ++ [p]) (ny ++ [mean l])) as (B & E & E1 & E2 & E3 & E4 & (l' & t & E5)); [auto|discriminate|].
      exists ((p, l) :: B). splits.
      * cbn [avg]. rewrite E. cbn [map fst snd]. rewrite <- !app_assoc. reflexivity.
      * cbn [map concat run_xs fst snd]. f_equal. rewrite <- E1. reflexivity.
      * cbn [map concat snd]. f_equal. rewrite <- E2. reflexivity.
      * constructor; auto.
      * subst B. cbn [map fst neighbours_differ] in *. auto.
      * eauto.
Qed.
Theorem dedup_avg_is_mean_of_runs xs ys gx gy : dedup_avg xs ys = Ok (gx, gy) ->
  exists blocks, xs = concat (map run_xs blocks) /\ ys = concat (map snd blocks) /\
    Forall (fun b => snd b <> []) blocks /\ neighbours_differ (map fst blocks) /\
    gx = map fst blocks /\ gy = map (fun b => mean (snd b)) blocks.
Proof.
  unfold dedup_avg. destruct (Nat.eqb_spec (length xs) (length ys)) as [LE|]; cbn [negb]; [|discriminate].
  destruct xs as [|x xs]; [discriminate|]. destruct ys as [|y ys]; [discriminate|]. cbn [dedup_loop].
  destruct (Req_EM_T x x); [|congruence].
  assert (EA : avg_add avg_new y = Avg (mean [y]) (length [y])).
  { exact (average_is_mean [y]). }
  rewrite EA. destruct (dedup_spec xs ys x [y] [] []) as (B & E & E1 & E2 & E3 & E4 & _); [auto|discriminate|].
  rewrite E. intros H. inversion H; subst. exists B. splits; auto.
Qed.
Print Assumptions dedup_avg_is_mean_of_runs.
Theorem dedup_avg_fails_iff xs ys : dedup_avg xs ys = Throw E_runtime <-> length xs <> length ys \/ xs = [].
Proof.
  unfold dedup_avg. destruct (Nat.eqb_spec (length xs) (length ys)); cbn [negb].
  - destruct xs; split; auto; try discriminate. intros [?|?]; [tauto|discriminate].
  - split; auto.
Qed.
(** For sorted x (what the function asks for) every x occurs once in the result. *)
Fixpoint increasing (l : list R) : Prop := match l with a :: ((b :: _) as t) => a < b /\ increasing t | _ => True end.
Fixpoint ascending (l : list R) : Prop := match l with a :: ((b :: _) as t) => a <= b /\ ascending t | _ => True end.
Lemma ascending_app a b l : ascending (a :: b :: l) <-> a <= b /\ ascending (b :: l).
Proof. reflexivity. Qed.
Lemma ascending_repeat p n l : ascending (repeat p (S n) ++ l) -> ascending (p :: l).
Proof.
  induction n as [|n IH]; [auto|]. intros H. apply IH. cbn [repeat app] in *. destruct H as [_ H]. exact H.
Qed.
Theorem dedup_avg_removes_duplicates xs ys gx gy : ascending xs -> dedup_avg xs ys = Ok (gx, gy) -> increasing gx.
Proof.
  intros S H. destruct (dedup_avg_is_mean_of_runs _ _ _ _ H) as (B & -> & _ & NE & ND & -> & _). clear H.
  induction B as [|[p l] B IH]; [exact Logic.I|]. inversion NE; subst. cbn [map concat fst snd] in *.
  destruct B as [|[q m] B]; [exact Logic.I|].
  assert (S2 : ascending (p :: concat (map run_xs ((q, m) :: B)))).
  { destruct l as [|y l]; [cbn in H1; congruence|]. apply (ascending_repeat p (length l)). exact S. }
  assert (S3 : p <= q /\ ascending (concat (map run_xs ((q, m) :: B)))).
  { inversion H2; subst. cbn [snd] in *. destruct m as [|z m]; [congruence|]. cbn [map concat run_xs fst snd length repeat app] in S2 |- *. exact S2. }
  destruct ND as [D ND]. cbn [map fst] in *. split; [cbn in D; lra|]. apply IH; tauto.
Qed.
Print Assumptions dedup_avg_removes_duplicates.
Example dedup_example : dedup_avg [1; 1; 2] [3; 5; 7] = Ok ([1; 2], [4; 7]).
Proof.
  unfold dedup_avg. cbn [length Nat.eqb negb]. cbn [dedup_loop].
  destruct (Req_EM_T 1 1); [|lra]. destruct (Req_EM_T 2 1); [lra|]. cbn. repeat f_equal; field.
Qed.

(** ** C43 *)
Definition weight (p : branch) : R := fst p.
(** A list built up by add_process: total weight as accumulated, all weights positive. *)
Inductive built (plus : R -> R -> R) : list branch * R -> Prop :=
| B_none : built plus ([], 0)
| B_add st p : built plus st -> built plus (add_process plus p st)
| B_adds st pv : built plus st -> built plus (add_processes plus pv st).
Lemma total_snoc plus l p : total_weight plus (l ++ [p]) = plus (total_weight plus l) (fst p).
Proof. unfold total_weight. now rewrite fold_left_app. Qed.
Lemma add_total plus p st : snd st = total_weight plus (fst st) -> Forall (fun q => 0 < weight q) (fst st) ->
  snd (add_process plus p st) = total_weight plus (fst (add_process plus p st)) /\ Forall (fun q => 0 < weight q) (fst (add_process plus p st)).
Proof.
  intros E F. unfold add_process. destruct (Rlt_dec 0 (fst p)); [|auto]. cbn [fst snd]. rewrite total_snoc, E. split; auto.
  apply Forall_app; auto.
Qed.
Theorem total_weight_is_accumulated plus st : built plus st ->
  snd st = total_weight plus (fst st) /\ Forall (fun q => 0 < weight q) (fst st).
Proof.
  induction 1 as [|st p H [IH1 IH2]|st pv H [IH1 IH2]].
  - split; [reflexivity|constructor].
  - apply add_total; auto.
  - unfold add_processes. clear H. revert st IH1 IH2. induction pv as [|p pv IH]; intros st E F; [auto|]. cbn [fold_left].
    destruct (add_total plus p st E F). apply IH; auto.
Qed.
Print Assumptions total_weight_is_accumulated.
(** Earlier channels and their weights are not touched. *)
Theorem add_process_keeps_channels plus st pv : exists l, fst (add_processes plus pv st) = fst st ++ l /\ incl l pv /\
  (forall p, In p pv -> 0 < weight p -> In p l).
Proof.
  revert st. induction pv as [|p pv IH]; intros st.
  - exists []. rewrite app_nil_r. splits; auto using incl_refl.
  - cbn [add_processes fold_left]. fold (add_processes plus pv (add_process plus p st)).
    destruct (IH (add_process plus p st)) as (l & E & I & A). rewrite E. unfold add_process. destruct (Rlt_dec 0 (fst p)) as [P|N]; cbn [fst].
    + exists (p :: l). rewrite <- app_assoc. splits; auto.
      * intros q [<-|Hq]; [now left|right; auto].
      * intros q [<-|Hq] W; [now left|right; auto].
    + exists l. splits; auto.
      * intros q Hq. right. auto.
      * intros q [<-|Hq] W; auto. contradiction.
Qed.
Print Assumptions add_process_keeps_channels.

Lemma choose_from_some plus l : forall s r, l <> [] -> r <= fold_left (fun s p => plus s (fst p)) l s -> exists p, choose_from plus s r l = Some p /\ In p l.
Proof.
  induction l as [|p l IH]; intros s r NE H; [congruence|]. cbn [choose_from fold_left] in *.
  destruct (Rle_dec r (plus s (fst p))); [exists p; split; auto; now left|].
  destruct l as [|q l]; [cbn in H; contradiction|]. destruct (IH _ _ ltac:(discriminate) H) as (x & E & I). exists x. split; auto. now right.
Qed.
(** The choice never fails and gives a channel of positive weight, for doubles as for real
    numbers, if there is at least one channel. *)
Theorem choose_channel_succeeds plus st r : built plus st -> fst st <> [] -> r <= snd st ->
  exists p, choose_channel plus (fst st) r = Some p /\ In p (fst st) /\ 0 < weight p.
Proof.
  intros B NE H. destruct (total_weight_is_accumulated _ _ B) as [E F]. rewrite E in H.
  destruct (choose_from_some plus (fst st) 0 r NE H) as (p & C & I). exists p. splits; auto.
  rewrite Forall_forall in F. auto.
Qed.
Print Assumptions choose_channel_succeeds.
(** With no channel at all (total weight 0) the program aborts. *)
Theorem choose_channel_empty_refuted plus : built plus ([], 0) /\ choose_channel plus [] 0 = None.
Proof. split; [constructor|reflexivity]. Qed.
Print Assumptions choose_channel_empty_refuted.

(** The drawn numbers that select a channel are the interval between the summed weights
    before and after it. *)
Lemma choose_app plus a : forall s r l, (forall p b c, a = b ++ p :: c -> fold_left (fun s p => plus s (fst p)) (b ++ [p]) s < r) ->
  choose_from plus s r (a ++ l) = choose_from plus (fold_left (fun s p => plus s (fst p)) a s) r l.
Proof.
  induction a as [|q a IH]; intros s r l H; [reflexivity|]. cbn [app choose_from fold_left].
  destruct (Rle_dec r (plus s (fst q))) as [L|L].
  - specialize (H q [] a eq_refl). cbn in H. lra.
  - apply IH. intros p b c ->. apply (H p (q :: b) c eq_refl).
Qed.
Lemma choose_in plus a : forall s r p, choose_from plus s r a = Some p -> In p a.
Proof. induction a as [|q a IH]; intros s r p; cbn; [discriminate|]. destruct (Rle_dec r _); [intros E; inversion E; auto|eauto]. Qed.
Lemma total_pos l s : Forall (fun p => 0 < weight p) l -> s <= fold_left (fun s p => s + fst p) l s.
Proof. revert s. induction l as [|p l IH]; intros s F; cbn; [lra|]. inversion F; subst. specialize (IH (s + fst p) H2). unfold weight in *. lra. Qed.
Theorem choose_channel_interval l a p b r : l = a ++ p :: b -> NoDup (map snd l) -> Forall (fun p => 0 < weight p) l -> 0 <= r ->
  (choose_channel Rplus l r = Some p <->
   (a = [] \/ total_weight Rplus a < r) /\ r <= total_weight Rplus a + weight p).
Proof.
  intros -> ND F R0. unfold choose_channel, total_weight. apply Forall_app in F. destruct F as [FA FB].
  set (f := fun (s : R) (q : branch) => s + fst q).
  assert (C : (forall q x c, a = x ++ q :: c -> fold_left f (x ++ [q]) 0 < r) <-> (a = [] \/ fold_left f a 0 < r)).
  { split.
    - intros H. destruct a as [|q a] using rev_ind; [auto|]. right. apply (H q a []). reflexivity.
    - intros [->|H] q x c E; [destruct x; discriminate|]. subst a.
      apply Rle_lt_trans with (fold_left f (x ++ q :: c) 0); auto.
      replace (x ++ q :: c) with ((x ++ [q]) ++ c) by now rewrite <- app_assoc. rewrite (fold_left_app f (x ++ [q]) c). apply total_pos.
      apply Forall_app in FA. destruct FA as [_ FA]. inversion FA; auto. }
  change (choose_from Rplus 0 r (a ++ p :: b) = Some p <-> (a = [] \/ fold_left f a 0 < r) /\ r <= fold_left f a 0 + weight p). rewrite <- C. split.
  - intros H.
    assert (D : (forall q x c, a = x ++ q :: c -> fold_left f (x ++ [q]) 0 < r)).
    { intros q x c ->. apply Rnot_le_lt. intros LE.
      assert (EX : exists y, choose_from Rplus 0 r (x ++ [q]) = Some y) by (destruct (choose_from_some Rplus (x ++ [q]) 0 r) as (y & ? & _); eauto; destruct x; discriminate).
      destruct EX as (y & EY).
      assert (EXT : forall l' s t, choose_from Rplus s r l' = Some y -> choose_from Rplus s r (l' ++ t) = Some y).
      { induction l' as [|z l' IHl]; intros s t; cbn; [discriminate|]. destruct (Rle_dec r _); auto. }
      specialize (EXT _ _ (c ++ p :: b) EY).
      replace ((x ++ q :: c) ++ p :: b) with ((x ++ [q]) ++ c ++ p :: b) in H by (rewrite <- !app_assoc; reflexivity).
      pose proof (eq_trans (eq_sym EXT) H) as EQ. injection EQ as ->. apply choose_in in EY.
      rewrite map_app in ND. apply NoDup_remove_2 with (a := snd p) (l := map snd (x ++ q :: c)) (l' := map snd b) in ND.
      apply ND. apply in_or_app. left. apply in_map. apply in_app_iff in EY. apply in_or_app. destruct EY as [EY|[EY|[]]]; [auto|right; now left]. }
    split; auto. rewrite (choose_app Rplus a 0 r (p :: b) D) in H. cbn [choose_from] in H. change (fold_left _ a 0) with (fold_left f a 0) in H.
    destruct (Rle_dec r (fold_left f a 0 + fst p)) as [L|L]; [exact L|].
    exfalso. apply choose_in in H. rewrite map_app in ND. cbn [map] in ND. apply NoDup_remove_2 in ND. apply ND. apply in_or_app. right. now apply in_map.
  - intros [D L]. rewrite (choose_app Rplus a 0 r (p :: b) D). cbn [choose_from]. change (fold_left _ a 0) with (fold_left f a 0). destruct (Rle_dec r (fold_left f a 0 + fst p)); [reflexivity|]. contradiction.
Qed.
Print Assumptions choose_channel_interval.
Example choose_channel_example : built Rplus ([(1, 0%nat); (2, 1%nat)], 3) /\ choose_channel Rplus [(1, 0%nat); (2, 1%nat)] 2 = Some (2, 1%nat).
Proof.
  split.
  - assert (E : ([(1, 0%nat); (2, 1%nat)], 3) = add_processes Rplus [(1, 0%nat); (0, 5%nat); (2, 1%nat)] ([], 0)).
    { unfold add_processes, add_process. cbn [fold_left fst snd]. destruct (Rlt_dec 0 1); [|lra]. cbn [fst snd].
      destruct (Rlt_dec 0 0); [lra|]. cbn [fst snd]. destruct (Rlt_dec 0 2); [|lra]. cbn [fst snd app]. f_equal. lra. }
    rewrite E. repeat constructor.
  - unfold choose_channel. cbn [choose_from fst]. destruct (Rle_dec 2 (0 + 1)); [lra|]. destruct (Rle_dec 2 (0 + 1 + 2)); [reflexivity|lra].
Qed.
