(** When the constructor succeeds (exact), what doubles can do to it, concrete runs. *)
From Coq Require Import ZArith Reals List Bool Lia Lra Psatz Sorting.Permutation.
From Flocq Require Import Core.
From Verif Require Import Base Flt ClockModel ClockMore GridModel GridSpec GridProofs GridPeriodic GridBuild GridOffers GridPlace GridFinal.
Import ListNotations.
Open Scope Z_scope.

Lemma axis_exact_succeeds periodic limited maxc maxlen len :
  (0 < maxlen)%R -> (0 <= len <= 1000 * maxlen)%R -> 1 <= maxc -> (periodic = true -> 2 <= maxc /\ (2 * maxlen <= len)%R) ->
  exists n f, axis exact periodic false limited maxc maxlen len = Ok (n, f) /\ 1 <= n <= 1000.
Proof.
  intros M L C CP. unfold axis. cbn [rnd exact].
  assert (F : (1 / maxlen > 0)%R) by (apply Rdiv_lt_0_compat; lra).
  assert (Q : (0 <= len * (1 / maxlen) <= 1000)%R).
  { split. apply Rmult_le_pos; lra. apply Rle_trans with (1000 * maxlen * (1 / maxlen))%R.
    apply Rmult_le_compat_r; lra. right. field. lra. }
  set (n0 := Zfloor (len * (1 / maxlen))).
  assert (N0 : 0 <= n0 <= 1000).
  { split. apply floor_nonneg; lra. unfold n0. apply le_IZR. apply Rle_trans with (2 := proj2 Q). apply Zfloor_lb. }
  rewrite Rlt_bool_false.
  2:{ replace (IZR INT_MAX / (1 / maxlen))%R with (2147483647 * maxlen)%R by (unfold INT_MAX; cbn; field; lra). lra. }
  cbv zeta. fold n0. replace (in_i32 n0) with true.
  2:{ symmetry. apply in_i32_spec. unfold INT_MIN, INT_MAX. lia. }
  cbn [rbind].
  assert (S : exists n1, (if (n0 =? 0) && negb periodic then Ok 1 else if (n0 <? 2) && periodic then Throw E_runtime
      else if limited && (maxc <? n0) then Ok maxc else Ok n0) = Ok n1 /\ 1 <= n1 <= 1000).
  { destruct periodic; cbn [negb].
    - rewrite andb_false_r, andb_true_r. destruct (CP eq_refl) as [CP1 CP2].
      assert (2 <= n0). { apply Zfloor_lub. apply Rle_trans with (2 * maxlen * (1 / maxlen))%R. right; field; lra.
        apply Rmult_le_compat_r; lra. }
      destruct (Z.ltb_spec n0 2); [lia|]. destruct limited; cbn [andb]; [destruct (Z.ltb_spec maxc n0)|]; eexists; split; eauto; lia.
    - rewrite andb_true_r, andb_false_r. destruct (Z.eqb_spec n0 0). { exists 1. split; auto; lia. }
      destruct limited; cbn [andb]; [destruct (Z.ltb_spec maxc n0)|]; eexists; split; eauto; lia. }
  destruct S as (n1 & -> & N1). cbn [rbind].
  destruct (Rle_bool_spec maxlen len) as [G|G].
  - pose proof (shrink_exact len n1 ltac:(lra) ltac:(lia)) as S. cbn [rnd exact] in S. rewrite S. cbn [rbind].
    do 2 eexists; split; [reflexivity|auto].
  - cbn [rbind]. do 2 eexists; split; [reflexivity|auto].
Qed.

Lemma grid_exact_succeeds periodic mn len ps maxlen limited incl :
  (0 < maxlen)%R -> (0 <= rx len <= 1000 * maxlen)%R -> (0 <= ry len <= 1000 * maxlen)%R -> (0 <= rz len <= 1000 * maxlen)%R ->
  (periodic = true -> (2 * maxlen <= rx len /\ 2 * maxlen <= ry len /\ 2 * maxlen <= rz len)%R) ->
  periodic = true \/ ps <> [] -> (forall p, In p ps -> within mn len p) ->
  exists g, mk_grid exact periodic (mn, len) ps maxlen limited incl false = Ok g /\
    placed exact periodic false mn len maxlen (filter (eligible incl) ps) g.
Proof.
  intros M Lx Ly Lz P NE W.
  assert (B : forall p, In p ps -> in_box exact mn len p).
  { intros p Hp. destruct (W p Hp) as (X & Y & Z). unfold in_box. cbn [rnd exact]. repeat split; lra. }
  pose proof (mk_grid_outcome exact _ periodic mn len ps maxlen limited incl false exact_ok Logic.I Logic.I Logic.I M
     (proj1 Lx) (proj1 Ly) (proj1 Lz) (or_introl eq_refl) NE B) as O. cbv zeta in O.
  set (maxc := max_cells periodic (Z.of_nat (length ps))) in *.
  assert (C : 1 <= maxc /\ (periodic = true -> 2 <= maxc)).
  { unfold maxc, max_cells. destruct periodic; split; intros; try discriminate; try lia.
    destruct NE as [NE|NE]; [discriminate|]. apply icbrt_pos. destruct ps; cbn [length]; [congruence|lia]. }
  destruct C as [C CP].
  destruct (axis_exact_succeeds periodic limited maxc maxlen (rx len) M Lx C) as (nx & fx & Ex & Nx). { intros; split; auto; now apply P. }
  destruct (axis_exact_succeeds periodic limited maxc maxlen (ry len) M Ly C) as (ny & fy & Ey & Ny). { intros; split; auto; now apply P. }
  destruct (axis_exact_succeeds periodic limited maxc maxlen (rz len) M Lz C) as (nz & fz & Ez & Nz). { intros; split; auto; now apply P. }
  assert (AO : forall l, l = rx len \/ l = ry len \/ l = rz len -> exists x, axis exact periodic false limited maxc maxlen l = Ok x).
  { intros l [-> | [-> | ->]]; eauto. }
  destruct (mk_grid exact periodic (mn, len) ps maxlen limited incl false) as [g|e|u0].
  - exists g. split; auto. destruct O as [O _]. rewrite andb_false_r in O. exact O.
  - destruct O as (l & Hl & E). destruct (AO l Hl) as (x & E'). congruence.
  - destruct O as [(l & Hl & E)|(_ & nx' & ny' & nz' & fx' & fy' & fz' & E1 & E2 & E3 & E4)].
    + destruct (AO l Hl) as (x & E'). congruence.
    + rewrite Ex in E1. rewrite Ey in E2. rewrite Ez in E3.
      assert (nx' = nx) by congruence. assert (ny' = ny) by congruence. assert (nz' = nz) by congruence. subst.
      unfold INT_MAX in E4. assert (nx * ny <= 1000 * 1000) by nia. assert (nx * ny * nz <= 1000 * 1000 * 1000) by nia. lia.
Qed.

Lemma small_box_throws mn len ps maxlen limited incl :
  (0 < maxlen)%R -> (0 <= rx len <= 1000 * maxlen)%R -> (0 <= ry len <= 1000 * maxlen)%R -> (0 <= rz len <= 1000 * maxlen)%R ->
  ((rx len < 2 * maxlen)%R \/ (ry len < 2 * maxlen)%R \/ (rz len < 2 * maxlen)%R) ->
  mk_grid exact true (mn, len) ps maxlen limited incl false = Throw E_runtime.
Proof.
  intros M Lx Ly Lz S. unfold mk_grid. cbn [negb andb].
  set (maxc := max_cells true (Z.of_nat (length ps))).
  assert (C : 2 <= maxc) by (unfold maxc, max_cells; lia).
  assert (T : forall l, (0 <= l <= 1000 * maxlen)%R -> (l < 2 * maxlen)%R ->
     axis exact true false limited maxc maxlen l = Throw E_runtime).
  { intros l L H. unfold axis. cbn [rnd exact].
    assert (F : (1 / maxlen > 0)%R) by (apply Rdiv_lt_0_compat; lra).
    set (n0 := Zfloor (l * (1 / maxlen))).
    assert (N0 : 0 <= n0 < 2).
    { split. apply floor_nonneg. apply Rmult_le_pos; lra. apply floor_lt.
      replace 2%R with (2 * maxlen * (1 / maxlen))%R by (field; lra). apply Rmult_lt_compat_r; lra. }
    rewrite Rlt_bool_false.
    2:{ replace (IZR INT_MAX / (1 / maxlen))%R with (2147483647 * maxlen)%R by (unfold INT_MAX; cbn; field; lra). lra. }
    cbv zeta. fold n0. replace (in_i32 n0) with true.
    2:{ symmetry. apply in_i32_spec. unfold INT_MIN, INT_MAX. lia. }
    cbn [rbind negb]. rewrite andb_false_r, andb_true_r. destruct (Z.ltb_spec n0 2); [reflexivity|lia]. }
  assert (R : forall l, (0 <= l <= 1000 * maxlen)%R ->
     axis exact true false limited maxc maxlen l = Throw E_runtime \/ (2 * maxlen <= l)%R).
  { intros l L. destruct (Rlt_le_dec l (2 * maxlen)); auto. }
  assert (G : forall l, (0 <= l <= 1000 * maxlen)%R -> (2 * maxlen <= l)%R -> exists x, axis exact true false limited maxc maxlen l = Ok x).
  { intros l L H. destruct (axis_exact_succeeds true limited maxc maxlen l M L) as (n & f & E & _); eauto. lia. }
  destruct (R _ Lx) as [Ex|Gx]; [rewrite Ex; reflexivity|]. destruct (G _ Lx Gx) as (x & ->). cbn [rbind].
  destruct (R _ Ly) as [Ey|Gy]; [rewrite Ey; reflexivity|]. destruct (G _ Ly Gy) as (y & ->). cbn [rbind].
  destruct (R _ Lz) as [Ez|Gz]; [rewrite Ez; reflexivity|]. lra.
Qed.

(** * Doubles *)
Lemma axis_dbl_no_ub limited largest maxc maxlen len u0 :
  (/ 2 ^ 900 <= maxlen <= len)%R -> (len <= 2 ^ 900)%R -> 1 <= maxc ->
  axis dbl false largest limited maxc maxlen len <> UB u0.
Proof.
  intros M L C. unfold axis. cbn [rnd dbl].
  assert (P9 : (0 < / 2 ^ 900)%R) by (apply Rinv_0_lt_compat, pow_lt; lra).
  set (f0 := fl (1 / maxlen)).
  assert (U : (u * 9007199254740992 = 1)%R).
  { unfold u. replace (2 ^ 53)%R with 9007199254740992%R by (symmetry; exact (pow_IZR 2 53)). lra. }
  pose proof u_pos as U0.
  assert (Q0 : (/ 2 ^ 900 <= 1 / maxlen)%R).
  { unfold Rdiv. rewrite Rmult_1_l. apply Rinv_le_contravar; lra. }
  assert (Q1 : (1 / maxlen <= 2 ^ 900)%R).
  { unfold Rdiv. rewrite Rmult_1_l. rewrite <- (Rinv_inv (2 ^ 900)). apply Rinv_le_contravar; lra. }
  assert (G : (/ 2 ^ 1022 <= / 2 ^ 900)%R) by (apply pow2_inv_le; lia).
  destruct (fl_rel (1 / maxlen)) as (e & He & E). { rewrite Rabs_pos_eq; lra. }
  fold f0 in E. apply Rabs_le_inv in He.
  assert (F0 : (0 < f0 <= 2 ^ 901)%R).
  { rewrite E. split. apply Rmult_lt_0_compat; lra. change (2 ^ 901)%R with (2 * 2 ^ 900)%R.
    rewrite (Rmult_comm 2). apply Rmult_le_compat; lra. }
  assert (K : Rlt_bool (fl (IZR INT_MAX / f0)) len = false -> (fl (len * f0) < 2147483648)%R).
  { intros H. destruct (Rlt_bool_spec (fl (IZR INT_MAX / f0)) len) as [?|H']; [discriminate|].
    assert (IM : IZR INT_MAX = 2147483647%R) by reflexivity.
    assert (Q2 : (/ 2 ^ 901 <= IZR INT_MAX / f0)%R).
    { assert (P901 : (0 < / 2 ^ 901)%R) by (apply Rinv_0_lt_compat, pow_lt; lra).
      assert (F1 : (/ 2 ^ 901 <= / f0)%R) by (apply Rinv_le_contravar; lra).
      unfold Rdiv. rewrite IM. lra. }
    assert (G2 : (/ 2 ^ 1022 <= / 2 ^ 901)%R) by (apply pow2_inv_le; lia).
    assert (G3 : (0 < / 2 ^ 1022)%R) by (apply Rinv_0_lt_compat, pow_lt; lra).
    destruct (fl_rel (IZR INT_MAX / f0)) as (e1 & He1 & E1). { rewrite Rabs_pos_eq; lra. }
    rewrite E1 in H'. apply Rabs_le_inv in He1.
    assert (B : (len * f0 <= 2147483647 * (1 + u))%R).
    { apply Rle_trans with (IZR INT_MAX / f0 * (1 + e1) * f0)%R. apply Rmult_le_compat_r; lra.
      replace (IZR INT_MAX / f0 * (1 + e1) * f0)%R with (IZR INT_MAX * (1 + e1))%R by (field; lra). rewrite IM. apply Rmult_le_compat_l; lra. }
    destruct (Rle_lt_dec (/ 2 ^ 1022) (len * f0)) as [S|S].
    - destruct (fl_rel (len * f0)) as (e2 & He2 & E2). { rewrite Rabs_pos_eq; lra. }
      rewrite E2. apply Rabs_le_inv in He2.
      apply Rle_lt_trans with (2147483647 * (1 + u) * (1 + u))%R. apply Rmult_le_compat; lra. nra.
    - apply Rle_lt_trans with (fl 1). apply fl_mono.
      assert (/ 2 ^ 1022 <= / 2 ^ 0)%R by (apply pow2_inv_le; lia). simpl (2 ^ 0)%R in *. rewrite Rinv_1 in *. lra.
      rewrite fl_id; [lra|]. apply (int_double 1). lia. }
  set (n0r := if largest then _ else _).
  assert (N0 : match n0r with Ok n => 0 <= n <= INT_MAX | Throw _ => True | UB _ => False end).
  { unfold n0r. destruct largest; [unfold INT_MAX; lia|].
    destruct (Rlt_bool (fl (IZR INT_MAX / f0)) len); auto. cbv zeta. specialize (K eq_refl).
    assert (N : 0 <= Zfloor (fl (len * f0)) <= INT_MAX).
    { split. apply floor_nonneg. rewrite <- fl_0. apply fl_mono. apply Rmult_le_pos; lra.
      assert (Zfloor (fl (len * f0)) < 2147483648) by (apply floor_lt; lra). unfold INT_MAX. lia. }
    replace (in_i32 _) with true; auto. symmetry. apply in_i32_spec. unfold INT_MIN, INT_MAX in *. lia. }
  destruct n0r as [n0|e0|u1]; cbn [rbind]; [|discriminate|contradiction].
  set (n1r := if (n0 =? 0) && negb false then _ else _).
  assert (N1 : match n1r with Ok n => 1 <= n <= INT_MAX | _ => False end).
  { unfold n1r. cbn [negb]. rewrite andb_true_r, andb_false_r. destruct (Z.eqb_spec n0 0). unfold INT_MAX; lia.
    destruct limited; cbn [andb]; [destruct (Z.ltb_spec maxc n0)|]; lia. }
  destruct n1r as [n1|e1|u1]; cbn [rbind]; [|contradiction|contradiction].
  rewrite Rle_bool_true by lra.
  destruct (shrink_dbl len n1) as (f & Ef). { unfold INT_MAX in N1. lia. } { lra. }
  cbn [rnd dbl] in Ef. rewrite Ef. cbn [rbind]. discriminate.
Qed.

Lemma dbl_files ps maxlen limited incl largest mn len :
  ps <> [] -> NoDup (map g_id ps) -> find_min_and_length dbl ps = Ok (mn, len) ->
  (/ 2 ^ 900 <= maxlen)%R ->
  (maxlen <= rx len <= 2 ^ 900)%R -> (maxlen <= ry len <= 2 ^ 900)%R -> (maxlen <= rz len <= 2 ^ 900)%R ->
  match mk_grid_auto dbl false ps maxlen limited incl largest with
  | Ok g => Permutation (concat (gr_cells g)) (if largest then ps else filter (eligible incl) ps)
  | Throw _ => True
  | UB u => u = UB_signed_overflow
  end.
Proof.
  intros NE ND Em M Lx Ly Lz. unfold mk_grid_auto. rewrite Em. cbn [rbind].
  destruct (measure_ok dbl _ ps dbl_ok NE) as (mn' & len' & Em' & N1 & N2 & N3 & L1 & L2 & L3 & B).
  rewrite Em in Em'. assert (mn' = mn) by congruence. assert (len' = len) by congruence. subst mn' len'.
  assert (P9 : (0 < / 2 ^ 900)%R) by (apply Rinv_0_lt_compat, pow_lt; lra).
  pose proof (mk_grid_outcome dbl _ false mn len ps maxlen limited incl largest dbl_ok N1 N2 N3 ltac:(lra) L1 L2 L3
     ltac:(right; lra) (or_intror NE) B) as O. cbv zeta in O.
  destruct (mk_grid dbl false (mn, len) ps maxlen limited incl largest) as [g|e|u0]; auto.
  - destruct O as [P _]. cbn [negb andb] in P. apply placed_perm in P; auto.
    destruct largest. now apply NoDup_of_ids. apply NoDup_filter. now apply NoDup_of_ids.
  - destruct O as [(l & Hl & E)|[E _]]; auto. exfalso.
    assert (C : 1 <= max_cells false (Z.of_nat (length ps))).
    { unfold max_cells. apply icbrt_pos. destruct ps; cbn [length]; [congruence|lia]. }
    revert E. apply axis_dbl_no_ub; auto; destruct Hl as [-> | [-> | ->]]; lra.
Qed.

(** * Concrete runs *)
(** dbl: x extent just below the cell length, y extent four cell lengths *)
Definition m0 : R := (2 - / 4503599627370496)%R.     (* 2 - 2^-52 *)
Definition l0 : R := (2 - / 2251799813685248)%R.     (* 2 - 2^-51, the double before m0 *)
Definition two_particles : list gpart := [GPart 0 0 0 0 true; GPart 1 l0 (4 * m0) 0 true].

Lemma half_double : is_double (/ 2).
Proof.
  unfold is_double. replace (/ 2)%R with (bpow radix2 (-1)) by reflexivity.
  apply generic_format_bpow. unfold fexp, FLT_exp. lia.
Qed.
Lemma f_m0 : fl (1 / m0) = (/ 2 + / 9007199254740992)%R.
Proof.
  assert (E : (1 / m0 = 4503599627370496 / 9007199254740991)%R) by (unfold m0; field; lra).
  rewrite E. fl_calc 4503599627370497%Z (-53)%Z. bnorm. lra.
Qed.
Lemma dbl_of m e : Z.abs m < 2 ^ 53 -> -1074 <= e -> is_double (IZR m * bpow radix2 e).
Proof.
  intros M E. apply generic_format_FLT. exists (Float radix2 m e); auto.
Qed.
Lemma l0_double : fl l0 = l0.
Proof.
  apply fl_id. replace l0 with (IZR 9007199254740990 * bpow radix2 (-52))%R. apply dbl_of; lia.
  unfold l0. bnorm. lra.
Qed.
Lemma m4_double : fl (4 * m0) = (4 * m0)%R.
Proof.
  apply fl_id. replace (4 * m0)%R with (IZR 9007199254740991 * bpow radix2 (-50))%R. apply dbl_of; lia.
  unfold m0. bnorm. lra.
Qed.
Lemma m2_double : fl (2 * m0) = (2 * m0)%R.
Proof.
  apply fl_id. replace (2 * m0)%R with (IZR 9007199254740991 * bpow radix2 (-51))%R. apply dbl_of; lia.
  unfold m0. bnorm. lra.
Qed.
Lemma p_l0 : fl (l0 * (/ 2 + / 9007199254740992)) = 1%R.
Proof. unfold l0. fl_calc 9007199254740992%Z (-53)%Z. bnorm. lra. Qed.
Lemma p_m4 : fl (4 * m0 * (/ 2 + / 9007199254740992)) = 4%R.
Proof. unfold m0. fl_calc 4503599627370496%Z (-50)%Z. bnorm. lra. Qed.
Lemma q_m4 : fl (4 / (4 * m0)) = (/ 2 + / 9007199254740992)%R.
Proof. replace (4 / (4 * m0))%R with (1 / m0)%R. apply f_m0. unfold m0. field. Qed.
Lemma pred_f : pred radix2 fexp (/ 2 + / 9007199254740992) = (/ 2)%R.
Proof.
  replace (/ 2 + / 9007199254740992)%R with (succ radix2 fexp (/ 2)).
  - apply pred_succ; auto with typeclass_instances. apply half_double.
  - rewrite succ_eq_pos by lra. f_equal.
    replace (/ 2)%R with (bpow radix2 (-1)) by reflexivity. rewrite ulp_bpow.
    change (fexp (-1 + 1)) with (-53). bnorm. lra.
Qed.

Lemma fl_zero_mult x : fl (0 * x) = 0%R.
Proof. rewrite Rmult_0_l. apply fl_0. Qed.

Lemma Zfloor_Z n : Zfloor (IZR n) = n.
Proof. apply Zfloor_IZR. Qed.

Lemma two_particles_oob : mk_grid_auto dbl false two_particles m0 false true false = UB UB_oob.
Proof.
  assert (M0 : (1 < m0 < 2)%R) by (unfold m0; lra).
  assert (L0 : (1 < l0 < m0)%R) by (unfold l0, m0; lra).
  unfold mk_grid_auto, find_min_and_length, two_particles.
  cbn [fold_left g_x g_y g_z]. cbn [rx ry rz fst snd].
  rewrite !(Rmin_left 0 0), !(Rmax_left 0 0) by lra.
  rewrite (Rmin_left 0 l0), (Rmax_right 0 l0), (Rmin_left 0 (4 * m0)), (Rmax_right 0 (4 * m0)) by lra.
  cbn [rnd dbl]. rewrite !Rminus_0_r, l0_double, m4_double, fl_0. cbn [rbind].
  unfold mk_grid. cbn [negb andb rx ry rz fst snd].
  assert (BIG : forall x, (0 <= x <= 8)%R -> Rlt_bool (fl (IZR INT_MAX / (/ 2 + / 9007199254740992))) x = false).
  { intros x Hx. apply Rlt_bool_false. apply Rle_trans with (fl 8). rewrite fl_id; [lra|]. apply (int_double 8); lia.
    apply fl_mono. unfold INT_MAX. cbn. lra. }
  assert (LE8 : (4 * m0 <= 8)%R) by lra.
  (* x axis *)
  assert (Ax : forall maxc, axis dbl false false false maxc m0 l0 = Ok (1, (/ 2 + / 9007199254740992)%R)).
  { intros. unfold axis. cbn [rnd dbl]. rewrite f_m0, BIG by lra. cbv zeta. rewrite p_l0, Zfloor_Z.
    change (in_i32 1) with true. cbn [rbind]. cbn. rewrite Rle_bool_false by lra. reflexivity. }
  (* y axis *)
  assert (Ay : forall maxc, axis dbl false false false maxc m0 (4 * m0) = Ok (4, (/ 2)%R)).
  { intros. unfold axis. cbn [rnd dbl]. rewrite f_m0, BIG by lra. cbv zeta. rewrite p_m4, Zfloor_Z.
    change (in_i32 4) with true. cbn [rbind].
    change ((4 =? 0) && negb false) with false. change ((4 <? 2) && false) with false. cbn [andb rbind].
    rewrite Rle_bool_true by lra. rewrite q_m4.
    change 8%nat with (S (S 6)). cbn [shrink rnd prv dbl].
    replace ((/ 2 + / 9007199254740992) * (4 * m0))%R with (4 * m0 * (/ 2 + / 9007199254740992))%R by ring.
    rewrite p_m4, Rle_bool_true by lra. rewrite Req_bool_false by lra. rewrite pred_f.
    replace (/ 2 * (4 * m0))%R with (2 * m0)%R by lra. rewrite m2_double, Rle_bool_false by lra. reflexivity. }
  (* z axis *)
  assert (Az : forall maxc, axis dbl false false false maxc m0 0 = Ok (1, (/ 2 + / 9007199254740992)%R)).
  { intros. unfold axis. cbn [rnd dbl]. rewrite f_m0, BIG by lra. cbv zeta. rewrite fl_zero_mult, Zfloor_Z.
    change (in_i32 0) with true. cbn [rbind]. cbn. rewrite Rle_bool_false by lra. reflexivity. }
  rewrite Ax, Ay, Az. cbn [rbind fst snd cx cy cz]. 
  change (1 <=? 2) with true. change (4 <=? 2) with false. cbn [andb].
  unfold sint. change (in_i32 (1 * 4)) with true. cbn [rbind]. change (in_i32 (1 * 4 * 1)) with true. cbn [rbind].
  change (Z.to_nat (1 * 4 * 1)) with 4%nat. cbn [foldM].
  change (eligible true (GPart 0 0 0 0 true)) with true. change (eligible true (GPart 1 l0 (4 * m0) 0 true)) with true.
  cbn [negb]. unfold cell_index_for, coord. cbn [g_x g_y g_z rx ry rz fst snd rnd dbl].
  rewrite !Rminus_0_r, fl_0, l0_double, m4_double, !fl_zero_mult, p_l0.
  replace (4 * m0 * / 2)%R with (2 * m0)%R by lra. rewrite m2_double.
  assert (F3 : Zfloor (2 * m0) = 3). { apply Zfloor_imp. unfold m0. cbn. lra. }
  rewrite F3, (Zfloor_Z 1), (Zfloor_Z 0). vm_compute. reflexivity.
Qed.

Lemma axis_exact_int periodic maxc k : 1 <= k <= 1000000 -> (periodic = true -> 2 <= k) ->
  axis exact periodic false false maxc 1 (IZR k) = Ok (k, (IZR k / IZR k * (1 - u))%R).
Proof.
  intros K P. unfold axis. cbn [rnd exact].
  assert (K1 : (1 <= IZR k <= 1000000)%R) by (split; apply IZR_le; lia).
  rewrite Rlt_bool_false. 2:{ unfold INT_MAX. cbn. lra. }
  cbv zeta. replace (IZR k * (1 / 1))%R with (IZR k) by field. rewrite Zfloor_Z.
  replace (in_i32 k) with true by (symmetry; apply in_i32_spec; unfold INT_MIN, INT_MAX; lia).
  cbn [rbind andb]. destruct (Z.eqb_spec k 0); [lia|]. cbn [andb].
  destruct (Z.ltb_spec k 2); [destruct periodic; [exfalso; specialize (P eq_refl); lia|]|]; cbn [andb rbind];
  rewrite Rle_bool_true by lra;
  pose proof (shrink_exact (IZR k) k ltac:(lra) ltac:(lia)) as S; cbn [rnd exact] in S; rewrite S; reflexivity.
Qed.

Definition far_pair : list gpart := [GPart 0 0 0 0 true; GPart 1 2000 2000 2000 true].
Lemma far_pair_overflow : mk_grid_auto exact false far_pair 1 false true false = UB UB_signed_overflow.
Proof.
  unfold mk_grid_auto, find_min_and_length, far_pair.
  cbn [fold_left g_x g_y g_z]. cbn [rx ry rz fst snd].
  rewrite !(Rmin_left 0 0), !(Rmax_left 0 0), !(Rmin_left 0 2000), !(Rmax_right 0 2000) by lra.
  cbn [rnd exact]. rewrite !Rminus_0_r. cbn [rbind]. unfold mk_grid. cbn [negb andb rx ry rz fst snd].
  rewrite !(axis_exact_int false _ 2000) by (try lia; discriminate). cbn [rbind fst snd cx cy cz].
  reflexivity.
Qed.

(** a row of particles one unit apart and one more close to the second *)
Definition row : list gpart :=
  [GPart 3 0 0 0 true; GPart 7 1 0 0 true; GPart 8 (3/2) 0 0 true; GPart 9 4 0 0 true; GPart 12 (5/2) 0 0 false].
Lemma row_grid : exists g, mk_grid_auto exact false row 1 false false false = Ok g /\ gr_n g = (4, 1, 1).
Proof.
  unfold mk_grid_auto, find_min_and_length, row.
  cbn [fold_left g_x g_y g_z]. cbn [rx ry rz fst snd].
  rewrite !(Rmin_left 0), !(Rmax_left 0 0), (Rmax_right 0 1) by lra.
  rewrite (Rmax_right 1 (3/2)), (Rmax_right (3/2) 4), (Rmax_left 4) by lra.
  cbn [rnd exact]. rewrite !Rminus_0_r. cbn [rbind].
  assert (W : forall p, In p row -> in_box exact (0, 0, 0)%R (4, 0, 0)%R p).
  { unfold in_box, row. cbn [rnd exact rx ry rz fst snd]. intros p [<-|[<-|[<-|[<-|[<-|[]]]]]]; cbn [g_x g_y g_z]; lra. }
  fold row.
  pose proof (mk_grid_outcome exact _ false (0, 0, 0)%R (4, 0, 0)%R row 1 false false false exact_ok Logic.I Logic.I Logic.I
     ltac:(lra) ltac:(cbn; lra) ltac:(cbn; lra) ltac:(cbn; lra) (or_introl eq_refl) ltac:(right; discriminate) W) as O.
  cbv zeta in O. cbn [rx ry rz fst snd] in O.
  assert (A0 : forall maxc, axis exact false false false maxc 1 0 = Ok (1, (1 / 1)%R)).
  { intros. unfold axis. cbn [rnd exact]. rewrite Rlt_bool_false by (unfold INT_MAX; cbn; lra).
    cbv zeta. rewrite Rmult_0_l. rewrite (Zfloor_Z 0). cbn. rewrite Rle_bool_false by lra. reflexivity. }
  pose proof (axis_exact_int false (max_cells false (Z.of_nat (length row))) 4 ltac:(lia) ltac:(discriminate)) as A4.
  match type of O with match ?x with _ => _ end => destruct x as [g|e|u0] eqn:E end.
  - exists g. split; [exact E|]. clear O.
    unfold mk_grid in E. cbn [negb andb rx ry rz fst snd] in E. rewrite A4, !A0 in E. cbn [rbind fst snd cx cy cz] in E.
    change (4 <=? 2) with false in E. cbn [andb] in E.
    apply rbind_ok in E. destruct E as (? & _ & E). apply rbind_ok in E. destruct E as (? & _ & E).
    apply rbind_ok in E. destruct E as (? & _ & E). injection E as <-. reflexivity.
  - destruct O as (l & [-> | [-> | ->]] & E'); rewrite ?A0 in E'; congruence.
  - destruct O as [(l & [-> | [-> | ->]] & E')|(-> & nx & ny & nz & fx & fy & fz & E1 & E2 & E3 & E4)]; try (rewrite ?A0 in E'; congruence).
    rewrite A0 in E2, E3. assert (nx = 4) by congruence. assert (ny = 1) by congruence. assert (nz = 1) by congruence.
    subst. unfold INT_MAX in E4. lia.
Qed.
