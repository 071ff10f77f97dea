(** Placement of particles: in range, adjacent when close. *)
From Coq Require Import ZArith Reals List Bool Lia Lra Psatz Sorting.Permutation.
From Flocq Require Import Core.
From Verif Require Import Base Flt GridModel GridProofs GridPeriodic GridBuild GridOffers.
Import ListNotations.
Open Scope Z_scope.

(** [p] lies in the box starting at [mn] with lengths [len] (as computed) *)
Definition in_box (A : arith) (mn len : r3) (p : gpart) : Prop :=
  (rx mn <= g_x p /\ rnd A (g_x p - rx mn) <= rx len)%R /\
  (ry mn <= g_y p /\ rnd A (g_y p - ry mn) <= ry len)%R /\
  (rz mn <= g_z p /\ rnd A (g_z p - rz mn) <= rz len)%R.

(** In the x-y-z direction the grid is at least one cell long, or arithmetic is exact. *)
Definition long_enough (A : arith) (maxlen : R) (len : r3) : Prop :=
  A = exact \/ (maxlen <= rx len /\ maxlen <= ry len /\ maxlen <= rz len)%R.

Lemma icbrt_pos n : 1 <= n -> 1 <= icbrt n.
Proof.
  intros H. unfold icbrt. destruct (Z.to_nat n) eqn:E; [lia|]. cbn [seq filter].
  replace (Z.of_nat 1 ^ 3 <=? n) with true. cbn [length]. lia.
  symmetry. apply Z.leb_le. cbn. lia.
Qed.

Lemma coord_axis A num periodic largest limited maxc maxlen len n f pos mn :
  arith_ok A num -> num len -> (0 < maxlen)%R -> (0 <= len)%R -> 1 <= maxc -> (periodic = true -> 2 <= maxc) ->
  axis A periodic largest limited maxc maxlen len = Ok (n, f) ->
  A = exact \/ (maxlen <= len)%R -> (mn <= pos)%R -> (rnd A (pos - mn) <= len)%R ->
  coord A pos mn f = Ok (Zfloor (rnd A (rnd A (pos - mn) * f))) /\
  0 <= Zfloor (rnd A (rnd A (pos - mn) * f)) < n.
Proof.
  intros O NL M L C CP E G P1 P2.
  destruct (axis_ok _ _ _ _ _ _ _ _ _ _ O M L C CP E) as (N & _ & F & _ & Hl & Hs).
  destruct (Rle_lt_dec maxlen len) as [B|B].
  - destruct (Hl B) as [B1 B2]. eapply coord_in_range; eauto.
  - destruct G as [->|G]; [|lra]. rewrite (Hs B). cbn [rnd exact] in *.
    eapply (coord_in_range exact (fun _ => True)); eauto.
    + apply exact_ok.
    + left. apply Rdiv_lt_0_compat; lra.
    + cbn [rnd exact]. apply Rlt_le_trans with 1%R; [|apply IZR_le; lia].
      replace 1%R with (1 / maxlen * maxlen)%R at 2 by (field; lra).
      apply Rmult_lt_compat_l; auto. apply Rdiv_lt_0_compat; lra.
Qed.

Record placed (A : arith) (periodic largest : bool) (mn len : r3) (maxlen : R) (es : list gpart) (g : grid) : Prop := Placed {
  pl_pos : pos_n (gr_n g);
  pl_big : periodic = true -> big_n (gr_n g);
  pl_len : gr_len g = len;
  pl_cells : exists cc : gpart -> c3,
    filed (gr_cells g) (cx (gr_n g) * cy (gr_n g) * cz (gr_n g)) (fun p => make_index (gr_n g) (cc p)) es /\
    (forall p, In p es -> inside (gr_n g) (cc p)) /\
    ((periodic = false /\ gr_n g = (1, 1, 1)) \/
     exists f limited maxc,
       1 <= maxc /\ (periodic = true -> 2 <= maxc) /\
       axis A periodic largest limited maxc maxlen (rx len) = Ok (cx (gr_n g), rx f) /\
       axis A periodic largest limited maxc maxlen (ry len) = Ok (cy (gr_n g), ry f) /\
       axis A periodic largest limited maxc maxlen (rz len) = Ok (cz (gr_n g), rz f) /\
       cc = cell_of A mn f)
}.

Lemma filed_single es (cc : gpart -> c3) : (forall p, cc p = (0, 0, 0)) ->
  filed [es] 1 (fun p => make_index (1, 1, 1) (cc p)) es.
Proof.
  intros H. split; [reflexivity|]. split.
  - intros p _. rewrite H. cbn. lia.
  - intros i Hi. assert (i = 0) by lia. subst i. cbn [Z.to_nat nth_error]. f_equal.
    symmetry. induction es; cbn [filter]; auto. rewrite H. cbn. now rewrite IHes.
Qed.

(** Outcomes of the constructor: success with correct filing, an exception, signed
    overflow of the number of cells, or one of the outcomes of the axis set-up. *)
Lemma mk_grid_outcome A num periodic mn len ps maxlen limited incl largest :
  arith_ok A num -> num (rx len) -> num (ry len) -> num (rz len) ->
  (0 < maxlen)%R -> (0 <= rx len)%R -> (0 <= ry len)%R -> (0 <= rz len)%R ->
  long_enough A maxlen len -> periodic = true \/ ps <> [] ->
  (forall p, In p ps -> in_box A mn len p) ->
  let maxc := max_cells periodic (Z.of_nat (length ps)) in
  let es := if negb periodic && largest then ps else filter (eligible incl) ps in
  match mk_grid A periodic (mn, len) ps maxlen limited incl largest with
  | Ok g => placed A periodic largest mn len maxlen es g /\
     (negb periodic && largest = false -> gr_n g <> (1, 1, 1) -> exists f,
       axis A periodic largest limited maxc maxlen (rx len) = Ok (cx (gr_n g), rx f) /\
       axis A periodic largest limited maxc maxlen (ry len) = Ok (cy (gr_n g), ry f) /\
       axis A periodic largest limited maxc maxlen (rz len) = Ok (cz (gr_n g), rz f))
  | Throw e => exists l, (l = rx len \/ l = ry len \/ l = rz len) /\
      axis A periodic largest limited maxc maxlen l = Throw e
  | UB u => (exists l, (l = rx len \/ l = ry len \/ l = rz len) /\
      axis A periodic largest limited maxc maxlen l = UB u) \/
      (u = UB_signed_overflow /\ exists nx ny nz fx fy fz,
       axis A periodic largest limited maxc maxlen (rx len) = Ok (nx, fx) /\
       axis A periodic largest limited maxc maxlen (ry len) = Ok (ny, fy) /\
       axis A periodic largest limited maxc maxlen (rz len) = Ok (nz, fz) /\ INT_MAX < nx * ny * nz)
  end.
Proof.
  intros O Nx Ny Nz M Lx Ly Lz LE NE B maxc es. unfold mk_grid.
  assert (C : 1 <= maxc /\ (periodic = true -> 2 <= maxc)).
  { unfold maxc, max_cells. destruct periodic; split; intros; try discriminate; try lia.
    destruct NE as [NE|NE]; [discriminate|]. apply icbrt_pos. destruct ps; cbn [length]; [congruence|lia]. }
  destruct C as [C CP].
  destruct (negb periodic && largest) eqn:NL.
  { unfold es in *. split.
    - split; cbn [gr_n gr_cells gr_len]; auto.
      + unfold pos_n; cbn. lia.
      + intros ->. cbn in NL. discriminate.
      + exists (fun _ => (0, 0, 0)). split; [now apply filed_single|]. split.
        * intros. unfold inside; cbn; lia.
        * left. destruct periodic; [discriminate|auto].
    - discriminate. }
  cbv zeta. fold maxc.
  destruct (axis A periodic largest limited maxc maxlen (rx len)) as [[nx fx]|e|u] eqn:Ex; cbn [rbind]; [|eauto 6..].
  destruct (axis A periodic largest limited maxc maxlen (ry len)) as [[ny fy]|e|u] eqn:Ey; cbn [rbind]; [|eauto 6..].
  destruct (axis A periodic largest limited maxc maxlen (rz len)) as [[nz fz]|e|u] eqn:Ez; cbn [rbind]; [|eauto 6..].
  cbn [fst snd].
  destruct (axis_ok _ _ _ _ _ _ _ _ _ _ O M Lx C CP Ex) as (X1 & X2 & _).
  destruct (axis_ok _ _ _ _ _ _ _ _ _ _ O M Ly C CP Ey) as (Y1 & Y2 & _).
  destruct (axis_ok _ _ _ _ _ _ _ _ _ _ O M Lz C CP Ez) as (Z1 & Z2 & _).
  destruct (negb periodic && (cx (nx, ny, nz) <=? 2) && (cy (nx, ny, nz) <=? 2) && (cz (nx, ny, nz) <=? 2)) eqn:FB.
  { split.
    - split; cbn [gr_n gr_cells gr_len]; auto.
      + unfold pos_n; cbn. lia.
      + intros ->. cbn in FB. discriminate.
      + exists (fun _ => (0, 0, 0)). split; [now apply filed_single|]. split.
        * intros. unfold inside; cbn; lia.
        * left. destruct periodic; [discriminate|auto].
    - intros _ H. cbn [gr_n] in H. congruence. }
  cbn [cx cy cz fst snd]. clear FB.
  assert (J : INT_MAX = 2147483647) by reflexivity.
  unfold sint at 1. destruct (in_i32 (nx * ny)) eqn:S1; cbn [rbind].
  2:{ right. split; auto. exists nx, ny, nz, fx, fy, fz. repeat split; auto.
      assert (~ (INT_MIN <= nx * ny <= INT_MAX)) by (rewrite <- in_i32_spec; congruence).
      unfold INT_MIN in *. assert (INT_MAX < nx * ny) by nia. nia. }
  unfold sint at 1. destruct (in_i32 (nx * ny * nz)) eqn:S2; cbn [rbind].
  2:{ right. split; auto. exists nx, ny, nz, fx, fy, fz. repeat split; auto.
      assert (H : ~ (INT_MIN <= nx * ny * nz <= INT_MAX)) by (rewrite <- in_i32_spec; congruence).
      assert (0 <= nx * ny) by nia. assert (0 <= nx * ny * nz) by (apply Z.mul_nonneg_nonneg; lia).
      unfold INT_MIN in *. lia. }
  apply in_i32_spec in S2.
  set (n := (nx, ny, nz)) in *. set (f := (fx, fy, fz)) in *.
  set (cc := cell_of A mn f).
  assert (IN : forall p, In p ps -> inside n (cc p) /\ cell_index_for A n mn f p = Ok (make_index n (cc p))).
  { intros p P. destruct (B p P) as ((Bx1 & Bx2) & (By1 & By2) & (Bz1 & Bz2)).
    destruct (coord_axis A num _ _ _ _ _ _ _ _ (g_x p) (rx mn) O Nx M Lx C CP Ex) as [Cx Rx]; auto.
    { destruct LE; tauto. }
    destruct (coord_axis A num _ _ _ _ _ _ _ _ (g_y p) (ry mn) O Ny M Ly C CP Ey) as [Cy Ry]; auto.
    { destruct LE; tauto. }
    destruct (coord_axis A num _ _ _ _ _ _ _ _ (g_z p) (rz mn) O Nz M Lz C CP Ez) as [Cz Rz]; auto.
    { destruct LE; tauto. }
    assert (I : inside n (cc p)). { unfold inside, cc, cell_of. cbn [cx cy cz fst snd n]. auto. }
    split; auto. unfold cell_index_for. unfold f. cbn [rx ry rz fst snd] in *.
    rewrite Cx, Cy, Cz. cbn [rbind]. apply (make_index_int_ok n (cc p)); auto. cbn. lia. }
  destruct (fold_filed (nx * ny * nz) (fun p => make_index n (cc p)) (eligible incl) (cell_index_for A n mn f) ps
     (repeat [] (Z.to_nat (nx * ny * nz))) []) as (cells & Ec & Fc).
  { apply filed_nil. assert (0 <= nx * ny) by nia. apply Z.mul_nonneg_nonneg; lia. }
  { intros p P _. destruct (IN p P) as [I1 I2]. split; auto. apply (make_index_range n (cc p) I1). }
  rewrite Ec. cbn [rbind]. cbn [app] in Fc. unfold es. split.
  - split; cbn [gr_n gr_cells gr_len]; auto.
    + unfold pos_n, n; cbn. lia.
    + intros Per. unfold big_n, n; cbn. auto.
    + exists cc. split; [exact Fc|]. split.
      * intros p P. apply filter_In in P. now apply IN.
      * right. exists f, limited, maxc. unfold f, n. cbn [rx ry rz cx cy cz fst snd]. repeat split; auto.
  - intros _ _. exists f. unfold f, n. cbn [rx ry rz cx cy cz fst snd gr_n]. auto.
Qed.

(** * Exact arithmetic: close particles are filed in adjacent cells *)
Lemma floor_close x y : (Rabs (x - y) < 1)%R -> Z.abs (Zfloor x - Zfloor y) <= 1.
Proof.
  intros H. apply Rabs_def2 in H.
  pose proof (Zfloor_lb x). pose proof (Zfloor_ub x). pose proof (Zfloor_lb y). pose proof (Zfloor_ub y).
  assert (IZR (Zfloor x) < IZR (Zfloor y + 2))%R by (rewrite plus_IZR; lra).
  assert (IZR (Zfloor y) < IZR (Zfloor x + 2))%R by (rewrite plus_IZR; lra).
  apply lt_IZR in H4, H5. lia.
Qed.

Lemma axis_exact periodic limited maxc maxlen len n f :
  (0 < maxlen)%R -> (0 <= len)%R -> 1 <= maxc -> (periodic = true -> 2 <= maxc) ->
  axis exact periodic false limited maxc maxlen len = Ok (n, f) ->
  (0 <= f <= 1 / maxlen)%R /\
  (periodic = true -> (2 * maxlen <= len)%R /\ (IZR n * maxlen <= len)%R /\ f = (IZR n / len * (1 - u))%R).
Proof.
  intros M L C CP E.
  destruct (axis_ok _ _ _ _ _ _ _ _ _ _ exact_ok M L C CP E) as (N & NP & F & FL & Hl & Hs).
  cbn [rnd exact] in *.
  assert (K : n <= Zfloor (len * (1 / maxlen)) -> (IZR n * maxlen <= len)%R).
  { intros H. apply IZR_le in H. pose proof (Zfloor_lb (len * (1 / maxlen))).
    apply Rle_trans with (len * (1 / maxlen) * maxlen)%R. apply Rmult_le_compat_r; lra.
    right. field. lra. }
  destruct (Rle_lt_dec maxlen len) as [G|G].
  - destruct (Hl G) as [Hl1 Hl2]. split.
    + split; auto. apply Rle_trans with (1 := Hl2).
      destruct FL as [->|FL].
      * unfold Rdiv. apply Rmult_le_compat_l; [lra|]. apply Rinv_le_contravar; lra.
      * apply K in FL. apply Rmult_le_reg_r with (len * maxlen)%R. nra.
        replace (IZR n / len * (len * maxlen))%R with (IZR n * maxlen)%R by (field; lra).
        replace (1 / maxlen * (len * maxlen))%R with len by (field; lra). auto.
    + intros Per. specialize (NP Per). destruct FL as [FL|FL]; [lia|]. apply K in FL.
      split. { assert (2 <= IZR n)%R by (apply IZR_le; lia). nra. }
      split; auto. unfold axis in E. cbn [rnd exact] in E.
      apply rbind_ok in E. destruct E as (n0 & E0 & E).
      apply rbind_ok in E. destruct E as (n1 & E1 & E).
      apply rbind_ok in E. destruct E as (f1 & E2 & E).
      assert (n1 = n /\ f1 = f) as [-> ->] by (split; congruence).
      rewrite Rle_bool_true in E2 by auto.
      pose proof (shrink_exact len n ltac:(lra) ltac:(lia)) as S. cbn [rnd exact] in S. rewrite S in E2. congruence.
  - rewrite (Hs G). split. { split. left. apply Rdiv_lt_0_compat; lra. lra. }
    intros Per. specialize (NP Per). destruct FL as [FL|FL]; [lia|]. apply K in FL. exfalso.
    assert (2 <= IZR n)%R by (apply IZR_le; lia). nra.
Qed.

Lemma nu_small n : 0 <= n <= INT_MAX -> (IZR n * u <= 1)%R.
Proof.
  intros H. unfold u. apply Rmult_le_reg_r with (2 ^ 53)%R. apply pow_lt; lra.
  rewrite Rmult_assoc, Rinv_l by (apply pow_nonzero; lra).
  replace (2 ^ 53)%R with (IZR (2 ^ 53)) by (symmetry; exact (pow_IZR 2 53)).
  rewrite Rmult_1_r, Rmult_1_l. apply IZR_le. unfold INT_MAX in H. lia.
Qed.

(** one direction of a periodic grid: an image pair closer than the cell length is in
    adjacent (images of) cells.  The margin [len * u] (u = 2^-53) is the safety margin
    of the nextafter loop. *)
Lemma axis_image maxlen len n a b (w : Z) f :
  (0 < maxlen)%R -> (2 * maxlen <= len)%R -> (IZR n * maxlen <= len)%R -> 2 <= n <= INT_MAX ->
  f = (IZR n / len * (1 - u))%R ->
  (0 <= a <= len)%R -> (0 <= b <= len)%R -> (Rabs (a + IZR w * len - b) < maxlen - len * u)%R ->
  Z.abs (Zfloor (a * f) + w * n - Zfloor (b * f)) <= 1.
Proof.
  intros M L2 NL N F A B H. apply Rabs_def2 in H.
  pose proof u_pos as U0. pose proof u_lt_1 as U1. pose proof (nu_small n ltac:(lia)) as NU.
  assert (LP : (0 < len)%R) by lra.
  assert (N2 : (2 <= IZR n)%R) by (apply IZR_le; lia).
  assert (Fp : (0 < f)%R). { rewrite F. apply Rmult_lt_0_compat; [|lra]. apply Rdiv_lt_0_compat; lra. }
  assert (FM : (f * maxlen <= 1 - u)%R).
  { rewrite F. apply Rmult_le_reg_r with len; auto.
    replace (IZR n / len * (1 - u) * maxlen * len)%R with ((IZR n * maxlen) * (1 - u))%R by (field; lra).
    rewrite (Rmult_comm (1 - u) len). apply Rmult_le_compat_r; lra. }
  assert (FL : (f * len < IZR n)%R).
  { rewrite F. replace (IZR n / len * (1 - u) * len)%R with (IZR n * (1 - u))%R by (field; lra). nra. }
  assert (LU : (0 < len * u)%R) by (apply Rmult_lt_0_compat; auto).
  assert (edge : forall a b, (0 <= a <= len)%R -> (0 <= b <= len)%R -> (a + len - b < maxlen - len * u)%R ->
     Zfloor (a * f) = 0 /\ Zfloor (b * f) = n - 1).
  { clear a b A B H. intros a b A B H. split.
    - apply Zfloor_imp. rewrite plus_IZR. split. nra.
      assert (a < maxlen)%R by lra. assert (a * f < maxlen * f)%R by (apply Rmult_lt_compat_r; auto). lra.
    - apply Zfloor_imp. replace (n - 1 + 1) with n by lia. rewrite minus_IZR. split.
      + assert (K : (len - maxlen + len * u < b)%R) by lra.
        assert (K' : ((len - maxlen + len * u) * f <= b * f)%R) by (apply Rmult_le_compat_r; lra).
        apply Rle_trans with (2 := K').
        replace ((len - maxlen + len * u) * f)%R with (f * len - f * maxlen + f * len * u)%R by ring.
        assert (E : (f * len = IZR n * (1 - u))%R). { rewrite F. field. lra. }
        rewrite E. nra.
      + apply Rle_lt_trans with (2 := FL). rewrite (Rmult_comm f). apply Rmult_le_compat_r; lra. }
  assert (W : w = 0 \/ w = 1 \/ w = -1).
  { assert (IZR w * len < 2 * len)%R by lra. assert (- 2 * len < IZR w * len)%R by lra.
    apply Rmult_lt_reg_r in H0; auto. apply Rmult_lt_reg_r in H1; auto.
    apply lt_IZR in H0. change (-2)%R with (IZR (-2)) in H1. apply lt_IZR in H1. lia. }
  destruct W as [-> |[-> | ->]].
  - replace (Zfloor (a * f) + 0 * n - Zfloor (b * f)) with (Zfloor (a * f) - Zfloor (b * f)) by ring.
    apply floor_close. replace (a * f - b * f)%R with ((a - b) * f)%R by ring.
    rewrite Rabs_mult, (Rabs_pos_eq f) by lra.
    assert (Rabs (a - b) <= maxlen)%R by (apply Rabs_le; lra).
    apply Rle_lt_trans with (maxlen * f)%R; [apply Rmult_le_compat_r; lra|lra].
  - destruct (edge a b) as [-> ->]; auto; lia || lra.
  - destruct (edge b a) as [-> ->]; auto; lia || lra.
Qed.

Lemma axis_close maxlen f a b : (0 < maxlen)%R -> (0 <= f <= 1 / maxlen)%R -> (Rabs (a - b) < maxlen)%R ->
  Z.abs (Zfloor (a * f) - Zfloor (b * f)) <= 1.
Proof.
  intros M F H. apply floor_close. replace (a * f - b * f)%R with ((a - b) * f)%R by ring.
  rewrite Rabs_mult, (Rabs_pos_eq f) by lra.
  replace 1%R with (maxlen * (1 / maxlen))%R by (field; lra).
  pose proof (Rabs_pos (a - b)).
  apply Rle_lt_trans with (Rabs (a - b) * (1 / maxlen))%R. apply Rmult_le_compat_l; lra.
  apply Rmult_lt_compat_r; auto. apply Rdiv_lt_0_compat; lra.
Qed.
