(** C48: tabulations reproduce the tabulated function and survive a file round trip. *)
From Coq Require Import ZArith Reals List Bool Lia Lra.
From Flocq Require Import Core.
From Verif Require Import Base Bytes TabModel.
Import ListNotations.

(** * Specification: the grid points and the broken line through the values there *)
Section Spec.
Open Scope R_scope.
(** i-th of num+1 equidistant points in [x0, x0 + range] *)
Definition point (x0 range : R) (num i : nat) : R := x0 + INR i * (range / INR num).
(** straight line through (xa, ya) and (xb, yb), at x *)
Definition line (xa ya xb yb x : R) : R := ya + (yb - ya) * ((x - xa) / (xb - xa)).
End Spec.

(** * Proofs: numerical part *)
Section Numeric.
Open Scope R_scope.

Lemma trunc_between x n : IZR n <= x < IZR n + 1 -> (0 <= n)%Z -> Ztrunc x = n.
Proof.
  intros [A B] H. rewrite Ztrunc_floor.
  - apply Zfloor_imp. rewrite plus_IZR. lra.
  - apply IZR_le in H. lra.
Qed.

Lemma to_unsigned_ok bits x n :
  IZR n <= x < IZR n + 1 -> (0 <= n < 2 ^ bits)%Z -> to_unsigned bits x = Ok n.
Proof.
  intros A B. unfold to_unsigned. rewrite (trunc_between x n) by (auto; lia).
  destruct (Z.leb_spec 0 n); [|lia]. destruct (Z.ltb_spec n (2 ^ bits)); [|lia]. reflexivity.
Qed.

Variables (x0 range : R) (num : nat) (f : R -> R) (t : tab R).
Hypothesis Hrange : 0 < range.
Hypothesis Hmake : make x0 range num f = Ok t.

Lemma num2 : (2 <= num)%nat.
Proof.
  revert Hmake. unfold make. destruct (Nat.ltb_spec num 2); [discriminate|]. auto.
Qed.
Lemma t_is : t = Tab (map (fun i => f (x0 + INR i * (range / INR num))) (seq 0 (S num)))
                     x0 (x0 + range) (INR num / range).
Proof.
  revert Hmake. unfold make. destruct (Nat.ltb_spec num 2); [discriminate|]. intros E.
  injection E. auto.
Qed.
Lemma num_pos : 0 < INR num.
Proof. apply lt_0_INR. pose proof num2. lia. Qed.
Lemma len : length (values t) = S num.
Proof. rewrite t_is. cbn [values]. rewrite map_length, seq_length. reflexivity. Qed.

Lemma get_i i : (i <= num)%nat -> get (values t) (Z.of_nat i) = Ok (f (point x0 range num i)).
Proof.
  intros H. rewrite t_is. cbn [values]. unfold get.
  destruct (Z.ltb_spec (Z.of_nat i) 0); [lia|]. rewrite Nat2Z.id.
  rewrite nth_error_map. 
  assert (E : nth_error (seq 0 (S num)) i = Some i).
  { rewrite (nth_error_nth' _ 0%nat) by (rewrite seq_length; lia). f_equal.
    rewrite seq_nth by lia. reflexivity. }
  rewrite E. reflexivity.
Qed.

Lemma index_of x : (x - x_min t) * inv_dx t = (x - x0) / (range / INR num).
Proof. rewrite t_is. cbn [x_min inv_dx]. pose proof num_pos. field. lra. Qed.

Lemma dx_pos : 0 < range / INR num.
Proof. apply Rdiv_lt_0_compat; auto. apply num_pos. Qed.

Lemma index_range i x : x0 + INR i * (range / INR num) <= x -> INR i <= (x - x_min t) * inv_dx t.
Proof.
  intros H. rewrite index_of. pose proof dx_pos as D.
  apply Rmult_le_reg_r with (range / INR num); auto.
  unfold Rdiv at 2. rewrite Rmult_assoc, Rinv_l by lra. lra.
Qed.
Lemma index_range' i x : x < x0 + INR i * (range / INR num) -> (x - x_min t) * inv_dx t < INR i.
Proof.
  intros H. rewrite index_of. pose proof dx_pos as D.
  apply Rmult_lt_reg_r with (range / INR num); auto.
  unfold Rdiv at 1. rewrite Rmult_assoc, Rinv_l by lra. lra.
Qed.

Lemma u64_size : (Z.of_nat num < 2 ^ 63)%Z ->
  u64 (Z.of_nat (length (values t)) - 2) = (Z.of_nat num - 1)%Z.
Proof.
  intros H. rewrite len. pose proof num2. unfold u64. rewrite Z.mod_small by lia. lia.
Qed.

(** the core: on the i-th interval (the last one extended to the right) *)
Lemma linear_core i x j :
  (Z.of_nat num < 2 ^ 63)%Z -> (j < num)%nat ->
  x0 <= x -> IZR i <= (x - x0) / (range / INR num) < IZR i + 1 -> (0 <= i < 2 ^ 64)%Z ->
  Z.min i (Z.of_nat num - 1) = Z.of_nat j ->
  forall e, (e = ExLinear \/ x <= x0 + range) ->
  get_value_linear t x e =
  Ok (line (point x0 range num j) (f (point x0 range num j))
           (point x0 range num (S j)) (f (point x0 range num (S j))) x).
Proof.
  intros HN Hj Hx Hi Hi64 Hmin e He. unfold get_value_linear.
  assert (XM : x_min t = x0) by (rewrite t_is; reflexivity).
  assert (XX : x_max t = x0 + range) by (rewrite t_is; reflexivity).
  destruct (Rlt_dec x (x_min t)) as [L|_]; [lra|].
  assert (B : (let index := (x - x_min t) * inv_dx t in
         i <- to_unsigned 64 index ;;
         let n := Z.min i (u64 (Z.of_nat (length (values t)) - 2)) in
         let r := index - IZR n in
         v0 <- get (values t) n ;;
         v1 <- get (values t) (n + 1) ;;
         Ok (v0 + (v1 - v0) * r)) =
  Ok (line (point x0 range num j) (f (point x0 range num j))
           (point x0 range num (S j)) (f (point x0 range num (S j))) x)).
  { cbv zeta. rewrite index_of. rewrite (to_unsigned_ok _ _ i) by auto. cbn [rbind].
    rewrite u64_size, Hmin by auto. rewrite get_i by lia. cbn [rbind].
    replace (Z.of_nat j + 1)%Z with (Z.of_nat (S j)) by lia. rewrite get_i by lia. cbn [rbind].
    f_equal. unfold line. f_equal. f_equal. unfold point. rewrite S_INR, <- INR_IZR_INZ.
    pose proof dx_pos as D. pose proof num_pos.
    set (d := range / INR num) in *. field. lra. }
  cbv zeta in B. destruct e; destruct (Rlt_dec (x_max t) x); try (exact B);
    destruct He; try discriminate; lra.
Qed.

Lemma line_left xa ya xb yb : line xa ya xb yb xa = ya.
Proof. unfold line. unfold Rdiv. rewrite Rminus_eq_0, Rmult_0_l, Rmult_0_r. lra. Qed.
Lemma line_right xa ya xb yb : xa <> xb -> line xa ya xb yb xb = yb.
Proof. intros. unfold line. field. lra. Qed.

Lemma point_step i : point x0 range num i < point x0 range num (S i).
Proof. unfold point. rewrite S_INR. pose proof dx_pos. nra. Qed.

Lemma point_last : point x0 range num num = x0 + range.
Proof. unfold point. pose proof num_pos. field. lra. Qed.

Lemma point_le i j : (i <= j)%nat -> point x0 range num i <= point x0 range num j.
Proof. intros H. apply le_INR in H. unfold point. pose proof dx_pos. nra. Qed.
Lemma point_0 : point x0 range num 0 = x0.
Proof. unfold point. cbn [INR]. lra. Qed.

Lemma linear_between i x e :
  (Z.of_nat num < 2 ^ 63)%Z -> (i < num)%nat ->
  point x0 range num i <= x <= point x0 range num (S i) ->
  get_value_linear t x e =
  Ok (line (point x0 range num i) (f (point x0 range num i))
           (point x0 range num (S i)) (f (point x0 range num (S i))) x).
Proof.
  intros HN Hi [A B].
  assert (X0 : x0 <= x) by (pose proof (point_le 0 i ltac:(lia)); rewrite point_0 in *; lra).
  assert (X1 : x <= x0 + range).
  { pose proof (point_le (S i) num ltac:(lia)) as P. rewrite point_last in P. lra. }
  assert (XM : x_min t = x0) by (rewrite t_is; reflexivity).
  destruct (Req_dec x (point x0 range num (S i))) as [->|NE].
  - (* right end: the look-up uses the next interval, unless this is the last one *)
    rewrite line_right by (pose proof (point_step i); lra).
    assert (V : (point x0 range num (S i) - x0) / (range / INR num) = IZR (Z.of_nat (S i))).
    { unfold point. rewrite <- INR_IZR_INZ. pose proof dx_pos. pose proof num_pos. field. lra. }
    destruct (Nat.eq_dec (S i) num) as [E|NE].
    + rewrite (linear_core (Z.of_nat (S i)) _ i); auto; try lia.
      * f_equal. apply line_right. pose proof (point_step i). lra.
      * rewrite V. lra.
    + rewrite (linear_core (Z.of_nat (S i)) _ (S i)); auto; try lia.
      * f_equal. apply line_left.
      * rewrite V. lra.
  - apply (linear_core (Z.of_nat i)); auto; try lia.
    rewrite <- INR_IZR_INZ. rewrite <- index_of. split.
    + apply index_range. exact A.
    + replace (INR i + 1) with (INR (S i)) by (rewrite S_INR; lra).
      apply index_range'. unfold point in *. lra.
Qed.

Lemma linear_beyond x :
  (Z.of_nat num < 2 ^ 63)%Z -> x0 + range <= x -> (x - x0) / (range / INR num) < 2 ^ 64 ->
  get_value_linear t x ExLinear =
  Ok (line (point x0 range num (num - 1)) (f (point x0 range num (num - 1)))
           (point x0 range num num) (f (point x0 range num num)) x).
Proof.
  intros HN Hx Hb. pose proof num2 as N2.
  set (v := (x - x0) / (range / INR num)) in *.
  assert (V : INR num <= v).
  { unfold v. rewrite <- index_of. apply index_range. pose proof num_pos.
    replace (x0 + INR num * (range / INR num)) with (x0 + range) by (field; lra). exact Hx. }
  assert (F1 : IZR (Zfloor v) <= v < IZR (Zfloor v) + 1).
  { split; [apply Zfloor_lb|]. apply Zfloor_ub. }
  assert (F2 : (Z.of_nat num <= Zfloor v)%Z).
  { apply Zfloor_lub. rewrite <- INR_IZR_INZ. exact V. }
  pose proof (linear_core (Zfloor v) x (num - 1)) as C. replace (S (num - 1)) with num in C by lia.
  pose proof dx_pos. apply C; auto; try lia; try lra.
  - split; [lia|]. apply lt_IZR.
    apply Rle_lt_trans with v; [apply F1|]. replace (IZR (2 ^ 64)) with (2 ^ 64); [exact Hb|].
    rewrite (pow_IZR 2 64). reflexivity.
Qed.

Lemma value_last : back (values t) = Ok (f (x0 + range)).
Proof.
  unfold back. rewrite len. replace (Z.of_nat (S num) - 1)%Z with (Z.of_nat num) by lia.
  rewrite get_i by lia. rewrite point_last. reflexivity.
Qed.

Lemma step_near x i :
  (Z.of_nat num < 2 ^ 32)%Z -> x0 <= x ->
  IZR (Z.of_nat i) <= (x - x0) / (range / INR num) + 1 / 2 < IZR (Z.of_nat i) + 1 -> (i <= num)%nat ->
  get_value_step t x = Ok (f (point x0 range num i)).
Proof.
  intros HN Hx Hi Hin. unfold get_value_step.
  assert (XM : x_min t = x0) by (rewrite t_is; reflexivity).
  destruct (Rlt_dec x (x_min t)); [lra|]. rewrite index_of.
  rewrite (Zfloor_imp (Z.of_nat i)) by (rewrite plus_IZR; exact Hi).
  unfold numeric_cast_uint. rewrite (to_unsigned_ok _ _ (Z.of_nat i)) by (try split; lra || lia).
  cbn [rbind]. destruct (Req_EM_T (IZR (Z.of_nat i)) (IZR (Z.of_nat i))); [|lra]. cbn [rbind].
  destruct (Z.leb_spec (Z.of_nat (length (values t))) (Z.of_nat i)).
  - rewrite len in *. lia.
  - apply get_i. exact Hin.
Qed.

Lemma step_beyond x :
  (Z.of_nat num < 2 ^ 32 - 1)%Z -> x0 + range <= x -> (x - x0) / (range / INR num) + 1 / 2 < 2 ^ 32 ->
  get_value_step t x = Ok (f (x0 + range)).
Proof.
  intros HN Hx Hb.
  set (v := (x - x0) / (range / INR num)) in *.
  assert (V : INR num <= v).
  { unfold v. rewrite <- index_of. apply index_range. pose proof num_pos.
    replace (x0 + INR num * (range / INR num)) with (x0 + range) by (field; lra). exact Hx. }
  assert (F1 : IZR (Zfloor (v + 1 / 2)) <= v + 1 / 2 < IZR (Zfloor (v + 1 / 2)) + 1)
    by (split; [apply Zfloor_lb|apply Zfloor_ub]).
  assert (F2 : (Z.of_nat num <= Zfloor (v + 1 / 2))%Z).
  { apply Zfloor_lub. rewrite <- INR_IZR_INZ. lra. }
  assert (F3 : (Zfloor (v + 1 / 2) < 2 ^ 32)%Z).
  { apply lt_IZR. apply Rle_lt_trans with (v + 1/2); [apply F1|].
    replace (IZR (2 ^ 32)) with (2 ^ 32); [exact Hb|]. rewrite (pow_IZR 2 32). reflexivity. }
  unfold get_value_step.
  assert (XM : x_min t = x0) by (rewrite t_is; reflexivity).
  destruct (Rlt_dec x (x_min t)); [lra|]. rewrite index_of. fold v.
  unfold numeric_cast_uint. rewrite (to_unsigned_ok _ _ (Zfloor (v + 1 / 2))) by (try split; lra || lia).
  cbn [rbind]. destruct (Req_EM_T _ _); [|lra]. cbn [rbind].
  destruct (Z.leb_spec (Z.of_nat (length (values t))) (Zfloor (v + 1 / 2))) as [L|L].
  - apply value_last.
  - rewrite len in L. replace (Zfloor (v + 1 / 2)) with (Z.of_nat num) by lia.
    rewrite get_i, point_last by lia. reflexivity.
Qed.
End Numeric.

(** * Property theorems: look-up *)
Section LookUp.
Open Scope R_scope.

(** At every tabulated point the look-up gives the function value, whatever the
    extrapolation mode. *)
Theorem tabulation_exact_at_grid_points : forall x0 range num f t i e,
  0 < range -> (Z.of_nat num < 2 ^ 63)%Z -> make x0 range num f = Ok t -> (i <= num)%nat ->
  get_value_linear t (point x0 range num i) e = Ok (f (point x0 range num i)).
Proof.
  intros x0 range num f t i e R HN M Hi. pose proof (num2 _ _ _ _ _ M) as N2.
  destruct (Nat.eq_dec i num) as [->|NE].
  - rewrite (linear_between x0 range num f t R M (num - 1)); auto; try lia.
    + replace (S (num - 1)) with num by lia. f_equal. apply line_right.
      pose proof (point_step x0 range num f t R M (num - 1)) as P.
      replace (S (num - 1)) with num in P by lia. lra.
    + replace (S (num - 1)) with num by lia. split; [|lra].
      apply (point_le x0 range num f t R M). lia.
  - rewrite (linear_between x0 range num f t R M i); auto; try lia.
    + f_equal. apply line_left.
    + split; [lra|]. pose proof (point_step x0 range num f t R M i). lra.
Qed.
Print Assumptions tabulation_exact_at_grid_points.

(** Between two neighbouring points it is the straight line through their values. *)
Theorem tabulation_linear_between_grid_points : forall x0 range num f t i x e,
  0 < range -> (Z.of_nat num < 2 ^ 63)%Z -> make x0 range num f = Ok t -> (i < num)%nat ->
  point x0 range num i <= x <= point x0 range num (S i) ->
  get_value_linear t x e =
  Ok (line (point x0 range num i) (f (point x0 range num i))
           (point x0 range num (S i)) (f (point x0 range num (S i))) x).
Proof. intros. eapply linear_between; eauto. Qed.
Print Assumptions tabulation_linear_between_grid_points.

(** Below the range the value is 0; above, it is what the chosen extrapolation says (for
    the linear one as long as the index fits into 64 bits). *)
Theorem tabulation_outside_range : forall x0 range num f t x,
  0 < range -> (Z.of_nat num < 2 ^ 63)%Z -> make x0 range num f = Ok t ->
  (x < x0 -> forall e, get_value_linear t x e = Ok 0 /\ get_value_step t x = Ok 0) /\
  (x0 + range < x ->
     get_value_linear t x ExZero = Ok 0 /\
     get_value_linear t x ExConst = Ok (f (x0 + range)) /\
     ((x - x0) / (range / INR num) < 2 ^ 64 ->
      get_value_linear t x ExLinear =
      Ok (line (point x0 range num (num - 1)) (f (point x0 range num (num - 1)))
               (x0 + range) (f (x0 + range)) x))).
Proof.
  intros x0 range num f t x R HN M.
  assert (XM : x_min t = x0) by (rewrite (t_is _ _ _ _ _ M); reflexivity).
  assert (XX : x_max t = x0 + range) by (rewrite (t_is _ _ _ _ _ M); reflexivity).
  split.
  - intros L e. unfold get_value_linear, get_value_step.
    destruct (Rlt_dec x (x_min t)); [auto|lra].
  - intros L. split; [|split].
    + unfold get_value_linear. destruct (Rlt_dec x (x_min t)); [lra|].
      destruct (Rlt_dec (x_max t) x); [reflexivity|lra].
    + unfold get_value_linear. destruct (Rlt_dec x (x_min t)); [lra|].
      destruct (Rlt_dec (x_max t) x); [|lra]. apply (value_last x0 range num f t M).
    + intros B. rewrite (linear_beyond x0 range num f t R M); auto; [|lra].
      rewrite (point_last x0 range num f t M). reflexivity.
Qed.
Print Assumptions tabulation_outside_range.

(** The step look-up gives, inside the range, the value at a closest grid point. *)
Theorem tabulation_step_is_nearest : forall x0 range num f t x,
  0 < range -> (Z.of_nat num < 2 ^ 32 - 1)%Z -> make x0 range num f = Ok t ->
  x0 <= x <= x0 + range ->
  exists i, (i <= num)%nat /\ get_value_step t x = Ok (f (point x0 range num i)) /\
            forall j, (j <= num)%nat ->
            Rabs (x - point x0 range num i) <= Rabs (x - point x0 range num j).
Proof.
  intros x0 range num f t x R HN M [X0 X1].
  pose proof (dx_pos x0 range num f t R M) as D. pose proof (num_pos x0 range num f t M) as NP.
  set (v := (x - x0) / (range / INR num)).
  assert (VX : x = x0 + v * (range / INR num)) by (unfold v; field; lra).
  assert (V0 : 0 <= v) by (unfold v; apply Rmult_le_pos; [lra|]; left; apply Rinv_0_lt_compat; auto).
  assert (V1 : v <= INR num).
  { apply Rmult_le_reg_r with (range / INR num); auto.
    replace (INR num * (range / INR num)) with range by (field; lra). lra. }
  set (n := Zfloor (v + 1 / 2)).
  assert (F : IZR n <= v + 1 / 2 < IZR n + 1) by (split; [apply Zfloor_lb|apply Zfloor_ub]).
  assert (N0 : (0 <= n)%Z) by (apply Zfloor_lub; cbn; lra).
  assert (N1 : (n <= Z.of_nat num)%Z).
  { assert (IZR n < IZR (Z.of_nat num + 1)).
    { rewrite plus_IZR, <- INR_IZR_INZ. lra. }
    apply lt_IZR in H. lia. }
  exists (Z.to_nat n). split; [lia|]. split.
  - eapply step_near; eauto; try lia. rewrite Z2Nat.id by lia. fold v. exact F.
  - intros j Hj. unfold point. set (d := range / INR num) in *.
    rewrite (INR_IZR_INZ (Z.to_nat n)), Z2Nat.id by lia.
    replace (x - (x0 + IZR n * d)) with ((v - IZR n) * d) by (rewrite VX; ring).
    replace (x - (x0 + INR j * d)) with ((v - INR j) * d) by (rewrite VX; ring).
    rewrite !Rabs_mult. apply Rmult_le_compat_r; [apply Rabs_pos|].
    assert (A : Rabs (v - IZR n) <= 1 / 2) by (apply Rabs_le; lra).
    destruct (Z.eq_dec (Z.of_nat j) n) as [E|NE].
    + rewrite INR_IZR_INZ, E. lra.
    + rewrite INR_IZR_INZ.
      assert (C : (Z.of_nat j <= n - 1 \/ n + 1 <= Z.of_nat j)%Z) by lia.
      destruct C as [C|C]; apply IZR_le in C; [rewrite minus_IZR in C | rewrite plus_IZR in C].
      * unfold Rabs at 2; destruct Rcase_abs; lra.
      * unfold Rabs at 2; destruct Rcase_abs; lra.
Qed.
Print Assumptions tabulation_step_is_nearest.

Example tabulation_hypotheses_satisfiable :
  exists t, make 1 3 4 (fun x => x * x) = Ok t /\
            get_value_linear t (point 1 3 4 2) ExLinear = Ok (point 1 3 4 2 * point 1 3 4 2).
Proof.
  eexists. split; [reflexivity|]. eapply tabulation_exact_at_grid_points with (f := fun x => x * x);
    [|vm_compute; reflexivity|reflexivity|lia]. lra.
Qed.

(** Fewer than two intervals are refused. *)
Theorem tabulation_needs_two_intervals : forall x0 range num f,
  make x0 range num f = Throw E_runtime <-> (num < 2)%nat.
Proof.
  intros. unfold make. destruct (Nat.ltb_spec num 2); split; intros; auto; try lia; discriminate.
Qed.
Print Assumptions tabulation_needs_two_intervals.

(** Finding: a default-constructed (empty) tabulation is a legal object, but a look-up in
    it reads outside the vector. *)
Theorem empty_tabulation_lookup_refuted : forall x, 0 <= x ->
  get_value_linear (Tab [] 0 0 0) x ExLinear = UB UB_oob.
Proof.
  intros x Hx. unfold get_value_linear. cbn [x_min x_max inv_dx values length].
  destruct (Rlt_dec x 0); [lra|]. rewrite Rmult_0_r.
  assert (E : to_unsigned 64 0 = Ok 0%Z) by (apply to_unsigned_ok; [lra|lia]).
  destruct (Rlt_dec 0 x); rewrite E; reflexivity.
Qed.
Print Assumptions empty_tabulation_lookup_refuted.
End LookUp.

(** * Files *)
Definition word64 (x : Z) : Prop := 0 <= x < 256 ^ Z.of_nat 8.
Definition tab_ok (max : Z) (t : tab Z) : Prop :=
  Forall word64 (values t) /\ word64 (x_min t) /\ word64 (x_max t) /\ word64 (inv_dx t) /\
  Z.of_nat (length (values t)) <= max /\ max < 2 ^ 61.

Lemma sread_exact b tail old :
  length old = length b -> sread (Stream (b ++ tail) true) old = (b, Stream tail true).
Proof.
  intros L. unfold sread. cbn [good rest]. rewrite L.
  rewrite firstn_app, Nat.sub_diag, firstn_all. cbn [firstn]. rewrite app_nil_r.
  rewrite (skipn_all2 old) by (rewrite app_length; lia). rewrite app_nil_r.
  rewrite skipn_app, Nat.sub_diag, skipn_all. cbn [skipn app].
  destruct (Nat.leb_spec (length b) (length (b ++ tail))) as [_|H]; [reflexivity|].
  rewrite app_length in H. lia.
Qed.

Lemma flat_le_length l : length (flat_map (le 8) l) = (8 * length l)%nat.
Proof. induction l; [reflexivity|]. cbn [flat_map length]. rewrite app_length, le_length, IHl. lia. Qed.

Lemma hash_eqb_refl h : hash_eqb h h = true.
Proof. unfold hash_eqb. destruct list_eq_dec; congruence. Qed.
Lemma hash_eqb_neq a b : a <> b -> hash_eqb a b = false.
Proof. unfold hash_eqb. destruct list_eq_dec; congruence. Qed.

(** A file written by [write] and read with the same hash gives back the same tabulation
    (whatever follows in the file). *)
Theorem tabulation_file_round_trip : forall max g t hash tail,
  garbage_ok g -> tab_ok max t -> length hash = 32%nat ->
  from_file max g (write t hash ++ tail) hash = Ok t.
Proof.
  intros max g t hash tail (G1 & G2 & G3 & G4 & G5) (V & A1 & A2 & A3 & L & Lm) H.
  unfold from_file, write. rewrite <- !app_assoc.
  rewrite sread_exact by lia. rewrite hash_eqb_refl. cbn [negb].
  rewrite sread_exact by (rewrite le_length; lia).
  rewrite sread_exact by (rewrite le_length; lia).
  rewrite sread_exact by (rewrite le_length; lia).
  unfold sread_vector. rewrite sread_exact by (rewrite le_length; lia).
  unfold word64 in *. assert (P8 : 256 ^ Z.of_nat 8 = 2 ^ 64) by reflexivity.
  rewrite (of_le_le 8 (Z.of_nat (length (values t)))) by lia.
  destruct (Z.ltb_spec max (Z.of_nat (length (values t)))); [lia|].
  rewrite Nat2Z.id.
  rewrite sread_exact by (rewrite repeat_length, flat_le_length; lia).
  cbn [rbind]. rewrite !of_le_le by auto.
  rewrite <- (app_nil_r (flat_map (le 8) (values t))), words_flat by auto.
  destruct t; reflexivity.
Qed.
Print Assumptions tabulation_file_round_trip.

(** Read with another hash it gives an empty tabulation. *)
Theorem tabulation_file_other_hash : forall max g t hash hash' tail,
  garbage_ok g -> length hash = 32%nat -> hash' <> hash ->
  from_file max g (write t hash ++ tail) hash' = Ok (Tab [] 0 0 0).
Proof.
  intros max g t hash hash' tail (G1 & _) H N. unfold from_file, write. rewrite <- !app_assoc.
  rewrite sread_exact by lia. rewrite hash_eqb_neq by auto. reflexivity.
Qed.
Print Assumptions tabulation_file_other_hash.

Definition g0 : garbage := Garbage (repeat 0 32) (repeat 0 8) (repeat 0 8) (repeat 0 8) (repeat 0 8).
Example file_hypotheses_satisfiable :
  garbage_ok g0 /\ tab_ok 1000 (Tab [7; 2 ^ 63; 11] 1 2 3) /\ length (repeat 5 32) = 32%nat.
Proof.
  assert (P8 : 256 ^ Z.of_nat 8 = 2 ^ 64) by reflexivity.
  split; [repeat split|split; [|reflexivity]].
  unfold tab_ok, word64. cbn [values x_min x_max inv_dx length].
  repeat split; try lia. repeat (apply Forall_cons; [lia|]). apply Forall_nil.
Qed.

(** Finding: the state of the stream is never looked at.  If the file was cut off
    anywhere after the size field (disk full, crashed writer), reading it with the right
    hash succeeds and the missing values silently become 0. *)
Theorem truncated_file_detected_refuted : forall max g t hash k,
  garbage_ok g -> tab_ok max t -> length hash = 32%nat -> (k <= length (values t))%nat ->
  from_file max g (firstn (64 + 8 * k) (write t hash)) hash =
  Ok (Tab (firstn k (values t) ++ repeat 0 (length (values t) - k)) (x_min t) (x_max t) (inv_dx t)).
Proof.
  intros max g t hash k (G1 & G2 & G3 & G4 & G5) (V & A1 & A2 & A3 & L & Lm) H K.
  assert (F : firstn (64 + 8 * k) (write t hash) =
     hash ++ le 8 (x_min t) ++ le 8 (x_max t) ++ le 8 (inv_dx t)
       ++ le 8 (Z.of_nat (length (values t))) ++ flat_map (le 8) (firstn k (values t))).
  { unfold write. rewrite <- (firstn_skipn k (values t)) at 2. rewrite flat_map_app.
    replace (64 + 8 * k)%nat with (length (hash ++ le 8 (x_min t) ++ le 8 (x_max t) ++ le 8 (inv_dx t)
       ++ le 8 (Z.of_nat (length (values t))) ++ flat_map (le 8) (firstn k (values t)))).
    2:{ rewrite !app_length, !le_length, flat_le_length, firstn_length. lia. }
    rewrite !app_assoc. rewrite firstn_app, Nat.sub_diag, firstn_all. cbn [firstn].
    rewrite app_nil_r. reflexivity. }
  rewrite F. unfold from_file.
  rewrite sread_exact by lia. rewrite hash_eqb_refl. cbn [negb].
  rewrite sread_exact by (rewrite le_length; lia).
  rewrite sread_exact by (rewrite le_length; lia).
  rewrite sread_exact by (rewrite le_length; lia).
  unfold sread_vector. rewrite sread_exact by (rewrite le_length; lia).
  unfold word64 in *. assert (P8 : 256 ^ Z.of_nat 8 = 2 ^ 64) by reflexivity.
  rewrite (of_le_le 8 (Z.of_nat (length (values t)))) by lia.
  destruct (Z.ltb_spec max (Z.of_nat (length (values t)))); [lia|].
  rewrite Nat2Z.id. unfold sread. cbn [good rest]. cbn [rbind]. rewrite !of_le_le by auto.
  set (n := length (values t)) in *.
  rewrite repeat_length, flat_le_length, firstn_length.
  rewrite firstn_all2 by (rewrite flat_le_length, firstn_length; lia).
  replace (Nat.min k (length (values t))) with k by (unfold n in K; lia).
  replace (8 * n)%nat with (8 * k + 8 * (n - k))%nat by lia.
  rewrite repeat_app, skipn_app, repeat_length, Nat.sub_diag.
  rewrite skipn_all2 by (rewrite repeat_length; lia). cbn [skipn app].
  assert (Z8 : repeat 0 (8 * (n - k)) = flat_map (le 8) (repeat 0 (n - k))).
  { clear. induction (n - k)%nat as [|m IH]; [reflexivity|].
    replace (8 * S m)%nat with (8 + 8 * m)%nat by lia. rewrite repeat_app, IH. reflexivity. }
  rewrite Z8, <- flat_map_app.
  f_equal. f_equal.
  rewrite <- (app_nil_r (flat_map _ _)).
  replace n with (length (firstn k (values t) ++ repeat 0 (n - k))) at 1.
  2:{ rewrite app_length, firstn_length, repeat_length. fold n. lia. }
  apply words_flat. apply Forall_app. split.
  - rewrite <- (firstn_skipn k (values t)) in V. apply Forall_app in V. apply V.
  - apply Forall_forall. intros x Hx. apply repeat_spec in Hx. subst. lia.
Qed.
Print Assumptions truncated_file_detected_refuted.
