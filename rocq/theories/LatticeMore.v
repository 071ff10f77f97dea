(** Lemmas about iteration, lookup, gradients and smearing weights. *)
From Coq Require Import ZArith Reals List Bool Lia Lra Psatz.
From Flocq Require Import Core.
From Verif Require Import Base Search GridModel GridSpec GridProofs GridOffers LatticeModel LatticeSpec LatticeProofs.
Import ListNotations.
Open Scope Z_scope.

Definition in_reach {T} (L : lat T) (p r : r3) : Prop :=
  let s := cell_size L in let o := la_orig L in
  (Rabs (rx p - rx o) + Rabs (rx r) <= 1000000000 * rx s /\
   Rabs (ry p - ry o) + Rabs (ry r) <= 1000000000 * ry s /\
   Rabs (rz p - rz o) + Rabs (rz r) <= 1000000000 * rz s)%R.
Definition in_reach_per {T} (L : lat T) (p r : r3) : Prop :=
  let s := la_len L in let o := la_orig L in let n := la_n L in
  (Rabs (rx p - rx o) + Rabs (rx r) <= 200 * rx s /\
   Rabs (ry p - ry o) + Rabs (ry r) <= 200 * ry s /\
   Rabs (rz p - rz o) + Rabs (rz r) <= 200 * rz s)%R /\
  cx n <= 4000000 /\ cy n <= 4000000 /\ cz n <= 4000000.

Section More.
Context {T : Type}.
Implicit Type L : lat T.

Definition lower L (p r : r3) : c3 :=
  (Zceil ((rx p - rx (la_orig L) + - rx r) / rx (cell_size L) - 1 / 2),
   Zceil ((ry p - ry (la_orig L) + - ry r) / ry (cell_size L) - 1 / 2),
   Zceil ((rz p - rz (la_orig L) + - rz r) / rz (cell_size L) - 1 / 2)).
Definition upper L (p r : r3) : c3 :=
  (Zceil ((rx p - rx (la_orig L) + rx r) / rx (cell_size L) - 1 / 2),
   Zceil ((ry p - ry (la_orig L) + ry r) / ry (cell_size L) - 1 / 2),
   Zceil ((rz p - rz (la_orig L) + rz r) / rz (cell_size L) - 1 / 2)).

Lemma in_window L p r c : usable L -> extended L ->
  (In c (box (lower L p r) (upper L p r)) <-> in_rect p r (center L c)).
Proof.
  intros U E. destruct (cell_size_pos L U E) as (A & B & C).
  rewrite in_box. unfold lower, upper, in_rect, center. cbn [cx cy cz rx ry rz fst snd].
  pose proof (bound_spec (rx p) (rx (la_orig L)) (- rx r) _ (cx c) A) as X1.
  pose proof (bound_spec (rx p) (rx (la_orig L)) (rx r) _ (cx c) A) as X2.
  pose proof (bound_spec (ry p) (ry (la_orig L)) (- ry r) _ (cy c) B) as Y1.
  pose proof (bound_spec (ry p) (ry (la_orig L)) (ry r) _ (cy c) B) as Y2.
  pose proof (bound_spec (rz p) (rz (la_orig L)) (- rz r) _ (cz c) C) as Z1.
  pose proof (bound_spec (rz p) (rz (la_orig L)) (rz r) _ (cz c) C) as Z2.
  assert (F : forall a b : Z, ~ (b <= a) <-> a < b) by (intros; lia).
  assert (G : forall a b : R, (~ (b <= a) <-> a < b)%R).
  { intros. split; intros. now apply Rnot_le_lt. now apply Rlt_not_le. }
  rewrite <- !F, <- !G, X1, X2, Y1, Y2, Z1, Z2. tauto.
Qed.

Lemma bounds_ok L p r : usable L -> extended L -> in_reach L p r ->
  iterate_in_rectangle L p r =
  (let n := la_n L in
   if la_per L then iterate_sublattice L (lower L p r) (upper L p r) else
   let clip l u m := ((if l <? 0 then 0 else l), (if u >? m then m else u)) in
   let '(lx, ux) := clip (cx (lower L p r)) (cx (upper L p r)) (cx n) in
   let '(ly, uy) := clip (cy (lower L p r)) (cy (upper L p r)) (cy n) in
   let '(lz, uz) := clip (cz (lower L p r)) (cz (upper L p r)) (cz n) in
   if (lx >? cx n) || (ux <? 0) || (ly >? cy n) || (uy <? 0) || (lz >? cz n) || (uz <? 0)
   then Ok [] else iterate_sublattice L (lx, ly, lz) (ux, uy, uz)).
Proof.
  intros U E (X & Y & Z). destruct (cell_size_pos L U E) as (A & B & C). unfold iterate_in_rectangle.
  rewrite !bound_ok by (rewrite ?Rabs_Ropp; auto). cbn [rbind]. reflexivity.
Qed.

Lemma rectangle_open L p r : usable L -> extended L -> la_per L = false -> in_reach L p r ->
  exists vs, iterate_in_rectangle L p r = Ok vs /\ NoDup vs /\
   forall i c, In (i, c) vs <-> is_cell (la_n L) c /\ index1d L c = Ok i /\ in_rect p r (center L c).
Proof.
  intros U E P R. rewrite (bounds_ok L p r U E R). cbv zeta. rewrite P.
  set (lo := lower L p r). set (hi := upper L p r). set (n := la_n L).
  assert (W : forall c, In c (box lo hi) <-> in_rect p r (center L c)) by (intros; now apply in_window).
  match goal with |- context [if ?b then Ok [] else _] => destruct b eqn:Out end.
  - exists []. split; [reflexivity|]. split; [constructor|]. intros i c. split; [intros []|].
    intros (C & _ & I). apply W in I. apply in_box in I. destruct C as (C1 & C2 & C3). fold n in C1, C2, C3.
    exfalso. revert Out. clear -I C1 C2 C3.
    rewrite !orb_true_iff, !Z.gtb_ltb, !Z.ltb_lt.
    repeat match goal with |- context [if ?b then _ else _] => destruct b eqn:? end; rewrite ?Z.ltb_lt, ?Z.ltb_ge in *; lia.
  - clear Out. set (lo' := (_, _, _)). set (hi' := (if cx hi >? cx n then cx n else cx hi, _, _)).
    assert (D : 0 <= cx lo' /\ 0 <= cy lo' /\ 0 <= cz lo' /\ cx hi' <= cx n /\ cy hi' <= cy n /\ cz hi' <= cz n).
    { unfold lo', hi'. cbn [cx cy cz fst snd]. rewrite !Z.gtb_ltb.
      repeat split; match goal with |- context [if ?b then _ else _] => destruct b eqn:? end; rewrite ?Z.ltb_lt, ?Z.ltb_ge in *; lia. }
    destruct D as (d1 & d2 & d3 & d4 & d5 & d6).
    rewrite (sublattice_open L lo' hi' U P d1 d2 d3 d4 d5 d6).
    eexists. split; [reflexivity|]. split.
    + apply FinFun.Injective_map_NoDup; [|apply NoDup_box]. intros a b H. congruence.
    + intros i c. rewrite in_map_iff.
      assert (BB : In c (box lo' hi') <-> is_cell n c /\ In c (box lo hi)).
      { rewrite !in_box. unfold is_cell, lo', hi'. cbn [cx cy cz fst snd]. rewrite !Z.gtb_ltb. clear.
        repeat match goal with |- context [if ?b then _ else _] => destruct b eqn:? end; rewrite ?Z.ltb_lt, ?Z.ltb_ge in *; lia. }
      split.
      * intros (c' & H & I). assert (c' = c) by congruence. subst c'. apply BB in I. destruct I as [C I].
        split; [exact C|]. split; [|now apply W]. rewrite index1d_ok by auto. congruence.
      * intros (C & I & J). exists c. split; [|now apply BB; split; [|apply W]].
        rewrite index1d_ok in I by auto. congruence.
Qed.

Lemma in_reach_per_in L p r : usable L -> extended L -> in_reach_per L p r -> in_reach L p r.
Proof.
  intros (X & Y & Z & _) (lx & ly & lz) ((A & B & C) & NX & NY & NZ). unfold in_reach, cell_size. cbn [rx ry rz fst snd].
  assert (G : forall a b l n, 1 <= n <= 4000000 -> (0 < l)%R -> (a + b <= 200 * l)%R -> (a + b <= 1000000000 * (l / IZR n))%R).
  { intros a b l n N l0 H. apply Rle_trans with (200 * l)%R; auto.
    assert (N1 : (1 <= IZR n <= 4000000)%R) by (split; apply IZR_le; lia).
    apply Rmult_le_reg_r with (IZR n); [lra|]. replace (1000000000 * (l / IZR n) * IZR n)%R with (1000000000 * l)%R by (field; lra).
    nra. }
  repeat split; apply G; auto; lia.
Qed.

Lemma window_mod p o r l n : 1 <= n <= 4000000 -> (0 < l)%R -> (Rabs (p - o) + Rabs r <= 200 * l)%R ->
  mod_ok n (Zceil ((p - o + - r) / (l / IZR n) - 1 / 2)) (Zceil ((p - o + r) / (l / IZR n) - 1 / 2)).
Proof.
  intros N L0 H. assert (N1 : (1 <= IZR n <= 4000000)%R) by (split; apply IZR_le; lia).
  assert (S : (0 < l / IZR n)%R) by (apply Rdiv_lt_0_compat; lra).
  assert (Q : forall q, (Rabs q <= 200 * l)%R -> (- (200 * IZR n) <= q / (l / IZR n) <= 200 * IZR n)%R).
  { intros q Hq. apply Rabs_le_inv in Hq.
    assert (E : (200 * IZR n * (l / IZR n) = 200 * l)%R) by (field; lra).
    split; apply Rmult_le_reg_r with (l / IZR n)%R; auto;
    replace (q / (l / IZR n) * (l / IZR n))%R with q by (field; lra); lra. }
  assert (Q1 := Q (p - o + - r)%R ltac:(pose proof (Rabs_triang (p - o) (- r)); rewrite Rabs_Ropp in *; lra)).
  assert (Q2 := Q (p - o + r)%R ltac:(pose proof (Rabs_triang (p - o) r); lra)).
  split; [|split].
  - apply le_IZR. pose proof (Zceil_ub ((p - o + - r) / (l / IZR n) - 1 / 2)). rewrite mult_IZR. lra.
  - assert (Zceil ((p - o + r) / (l / IZR n) - 1 / 2) <= 200 * n).
    { apply Zceil_glb. rewrite mult_IZR. lra. }
    unfold INT_MAX. lia.
  - unfold INT_MAX. lia.
Qed.

Lemma rectangle_per_eq L p r : usable L -> extended L -> la_per L = true -> in_reach_per L p r ->
  iterate_in_rectangle L p r =
  Ok (map (fun c => (flat (la_n L) (folded (la_n L) c), c)) (box (lower L p r) (upper L p r))).
Proof.
  intros U E P R. rewrite (bounds_ok L p r U E (in_reach_per_in L p r U E R)). cbv zeta. rewrite P.
  destruct U as (X & Y & Z & S & B). destruct E as (lx & ly & lz). destruct R as ((R1 & R2 & R3) & NX & NY & NZ).
  apply sublattice_per; try (unfold usable; auto); unfold lower, upper, cell_size; cbn [cx cy cz rx ry rz fst snd];
  apply window_mod; auto; lia.
Qed.

Lemma fold_same n i j d : 1 <= n -> Z.abs (i - j) < n -> i mod n = j mod n -> d = i - j -> i = j.
Proof.
  intros N A E _. pose proof (Z.div_mod i n ltac:(lia)) as I. pose proof (Z.div_mod j n ltac:(lia)) as J.
  rewrite E in I. assert (D : i - j = n * (i / n - j / n)) by lia.
  assert (i / n - j / n = 0); [|lia]. clear -N A D. rewrite D, Z.abs_mul, (Z.abs_eq n) in A by lia.
  assert (Z.abs (i / n - j / n) < 1); [|lia]. apply Z.mul_lt_mono_pos_l with n; lia.
Qed.

Lemma rectangle_per L p r : usable L -> extended L -> la_per L = true -> in_reach_per L p r ->
  exists vs, iterate_in_rectangle L p r = Ok vs /\ NoDup vs /\
   (forall i c, In (i, c) vs <-> index1d L (folded (la_n L) c) = Ok i /\ in_rect p r (center L c)) /\
   ((2 * rx r <= rx (la_len L) /\ 2 * ry r <= ry (la_len L) /\ 2 * rz r <= rz (la_len L))%R -> NoDup (map fst vs)).
Proof.
  intros U E P R. rewrite rectangle_per_eq by auto. eexists. split; [reflexivity|].
  set (F := fun c => (flat (la_n L) (folded (la_n L) c), c)).
  assert (ND : NoDup (map F (box (lower L p r) (upper L p r)))).
  { apply FinFun.Injective_map_NoDup; [|apply NoDup_box]. intros a b H. unfold F in H. congruence. }
  split; [exact ND|]. split.
  - intros i c. rewrite in_map_iff. rewrite index1d_ok by (auto; now apply folded_cell). split.
    + intros (c' & H & I). unfold F in H. assert (c' = c) by congruence. subst c'. apply in_window in I; auto. split; congruence.
    + intros (H & I). exists c. split; [unfold F; congruence|]. now apply in_window.
  - intros (Rx & Ry & Rz). rewrite map_map. cbn [fst].
    assert (Inj : forall a b, In a (box (lower L p r) (upper L p r)) -> In b (box (lower L p r) (upper L p r)) ->
        flat (la_n L) (folded (la_n L) a) = flat (la_n L) (folded (la_n L) b) -> a = b).
    { intros a b A B H. apply in_window in A, B; auto. apply flat_inj in H; try (now apply folded_cell).
      unfold folded in H.
      assert (H1 : cx a mod cx (la_n L) = cx b mod cx (la_n L)) by congruence.
      assert (H2 : cy a mod cy (la_n L) = cy b mod cy (la_n L)) by congruence.
      assert (H3 : cz a mod cz (la_n L) = cz b mod cz (la_n L)) by congruence.
      destruct U as (X & Y & Z & _). destruct E as (lx & ly & lz).
      destruct A as (A1 & A2 & A3), B as (B1 & B2 & B3). unfold center in *. cbn [rx ry rz fst snd] in *.
      assert (G : forall l n i j o q w, 1 <= n -> (0 < l)%R -> (2 * w <= l)%R ->
         (q - w <= o + l / IZR n * (IZR i + 1 / 2) < q + w)%R -> (q - w <= o + l / IZR n * (IZR j + 1 / 2) < q + w)%R -> Z.abs (i - j) < n).
      { clear. intros l n i j o q w N l0 W I J. apply lt_IZR. rewrite abs_IZR, minus_IZR.
        assert (N1 : (1 <= IZR n)%R) by (apply IZR_le; lia).
        assert (S : (0 < l / IZR n)%R) by (apply Rdiv_lt_0_compat; lra).
        assert (K : (Rabs ((IZR i - IZR j) * (l / IZR n)) < l)%R) by (apply Rabs_def1; lra).
        rewrite Rabs_mult, (Rabs_pos_eq (l / IZR n)) in K by lra.
        apply Rmult_lt_reg_r with (l / IZR n)%R; auto. replace (IZR n * (l / IZR n))%R with l by (field; lra). exact K. }
      unfold cell_size in *. cbn [rx ry rz fst snd] in *.
      destruct a as [[ax ay] az], b as [[bx by_] bz]. cbn [cx cy cz fst snd] in *.
      assert (ax = bx) by (eapply (fold_same (cx (la_n L))); eauto).
      assert (ay = by_) by (eapply (fold_same (cy (la_n L))); eauto).
      assert (az = bz) by (eapply (fold_same (cz (la_n L))); eauto). congruence. }
    pose proof (NoDup_box (lower L p r) (upper L p r)) as NB. revert NB Inj.
    generalize (box (lower L p r) (upper L p r)). clear. intros l. induction 1; intros Inj; cbn; constructor.
    + rewrite in_map_iff. intros (y & Hy & I). assert (y = x); [apply Inj; cbn; auto|congruence].
    + apply IHNB. intros. apply Inj; cbn; auto.
Qed.

(** the cell of a point *)
Lemma floor_spec p o s i : (0 < s)%R -> (Zfloor ((p - o) / s) = i <-> (o + s * IZR i <= p < o + s * (IZR i + 1))%R).
Proof.
  intros S. split.
  - intros <-. pose proof (Zfloor_lb ((p - o) / s)) as A. pose proof (Zfloor_ub ((p - o) / s)) as B.
    apply (Rmult_le_compat_r s) in A; [|lra]. apply (Rmult_lt_compat_r s) in B; [|lra].
    replace ((p - o) / s * s)%R with (p - o)%R in * by (field; lra). lra.
  - intros [A B]. apply Zfloor_imp. rewrite plus_IZR.
    split; [apply Rmult_le_reg_r with s|apply Rmult_lt_reg_r with s]; auto;
    replace ((p - o) / s * s)%R with (p - o)%R by (field; lra); lra.
Qed.

Lemma in_cell_box_iff L c p : in_cell_box L c p <->
  ((rx (la_orig L) + rx (cell_size L) * IZR (cx c) <= rx p < rx (la_orig L) + rx (cell_size L) * (IZR (cx c) + 1)) /\
   (ry (la_orig L) + ry (cell_size L) * IZR (cy c) <= ry p < ry (la_orig L) + ry (cell_size L) * (IZR (cy c) + 1)) /\
   (rz (la_orig L) + rz (cell_size L) * IZR (cz c) <= rz p < rz (la_orig L) + rz (cell_size L) * (IZR (cz c) + 1)))%R.
Proof.
  unfold in_cell_box, center. cbn [rx ry rz fst snd]. split; intros; repeat split; lra.
Qed.

Lemma floor_int p o s : (0 < s)%R -> (Rabs (p - o) <= 1000000000 * s)%R -> to_int (Zfloor ((p - o) / s)) = Ok (Zfloor ((p - o) / s)).
Proof.
  intros S H. apply to_int_ok. apply Rabs_le_inv in H.
  assert (A : (-1000000000 <= (p - o) / s <= 1000000000)%R).
  { split; apply Rmult_le_reg_r with s; auto; replace ((p - o) / s * s)%R with (p - o)%R by (field; lra); lra. }
  unfold INT_MIN, INT_MAX. split.
  - apply Z.le_trans with (-1000000000); [lia|]. apply Zfloor_lub. lra.
  - apply Z.le_trans with 1000000000; [|lia]. apply le_IZR. pose proof (Zfloor_lb ((p - o) / s)). lra.
Qed.

Lemma cell_of_point_ok L p : usable L -> extended L -> in_reach L p (0, 0, 0)%R ->
  exists c, cell_of_point L p = Ok c /\ in_cell_box L c p /\ (forall c', in_cell_box L c' p -> c' = c).
Proof.
  intros U E (X & Y & Z). destruct (cell_size_pos L U E) as (A & B & C).
  cbn [rx ry rz fst snd] in X, Y, Z. rewrite Rabs_R0, Rplus_0_r in X, Y, Z.
  unfold cell_of_point. rewrite !floor_int by auto. cbn [rbind].
  eexists. split; [reflexivity|]. split.
  - apply in_cell_box_iff. cbn [cx cy cz fst snd]. repeat split; apply (floor_spec _ _ _ _); auto.
  - intros c' I. apply in_cell_box_iff in I. destruct I as (I1 & I2 & I3).
    apply floor_spec in I1, I2, I3; auto. rewrite I1, I2, I3. destruct c' as [[? ?] ?]. reflexivity.
Qed.

Lemma node_open L c : usable L -> la_per L = false -> is_cell (la_n L) c ->
  exists v, node L c = Ok v /\ value_of L c v.
Proof.
  intros U P C. destruct (fetch_cell L c U C) as (v & F & V). exists v. split; auto.
  unfold node. rewrite P. destruct U as (X & Y & Z & S & B). destruct C as (C1 & C2 & C3).
  pose proof (row_bounds _ _ _ _ _ _ X Y Z B C1 C2 C3) as R. rewrite (Z.mul_comm (cy (la_n L))).
  rewrite sint_ok by (unfold INT_MIN, INT_MAX in *; lia). cbn [rbind].
  rewrite sint_ok by (unfold INT_MIN, INT_MAX in *; lia). cbn [rbind].
  rewrite sint_ok by (unfold INT_MIN, INT_MAX in *; lia). cbn [rbind].
  rewrite sint_ok by (unfold INT_MIN, INT_MAX in *; lia). cbn [rbind]. exact F.
Qed.
Lemma node_per L c : usable L -> la_per L = true ->
  mod_ok (cx (la_n L)) (cx c) (cx c) -> mod_ok (cy (la_n L)) (cy c) (cy c) -> mod_ok (cz (la_n L)) (cz c) (cz c) ->
  exists v, node L c = Ok v /\ value_of L (folded (la_n L) c) v.
Proof.
  intros U P (a1 & a2 & a3) (b1 & b2 & b3) (e1 & e2 & e3).
  pose proof (folded_cell L c U) as C. destruct (fetch_cell L _ U C) as (v & F & V). exists v. split; auto.
  unfold node. rewrite P. destruct U as (X & Y & Z & S & B). destruct C as (C1 & C2 & C3).
  pose proof (row_bounds _ _ _ _ _ _ X Y Z B C1 C2 C3) as R.
  unfold folded in R, F. cbn [cx cy cz fst snd] in R. unfold flat in F. cbn [cx cy cz fst snd] in F.
  rewrite !positive_modulo_ok by lia. cbn [rbind]. rewrite (Z.mul_comm (cy (la_n L))).
  rewrite sint_ok by (unfold INT_MIN, INT_MAX in *; lia). cbn [rbind].
  rewrite sint_ok by (unfold INT_MIN, INT_MAX in *; lia). cbn [rbind].
  rewrite sint_ok by (unfold INT_MIN, INT_MAX in *; lia). cbn [rbind].
  rewrite sint_ok by (unfold INT_MIN, INT_MAX in *; lia). cbn [rbind]. exact F.
Qed.

Lemma out_of_bounds_iff L c : la_per L = false -> out_of_bounds L c = false <-> is_cell (la_n L) c.
Proof.
  intros P. unfold out_of_bounds, is_cell. rewrite P. cbn [negb andb].
  rewrite !orb_false_iff, !Z.geb_leb, !Z.ltb_ge, !Z.leb_gt. lia.
Qed.
Lemma out_of_bounds_per L c : la_per L = true -> out_of_bounds L c = false.
Proof. intros P. unfold out_of_bounds. now rewrite P. Qed.

Lemma value_at_open L p : usable L -> extended L -> la_per L = false -> in_reach L p (0, 0, 0)%R ->
  (exists c v, is_cell (la_n L) c /\ in_cell_box L c p /\ value_of L c v /\ value_at L p = Ok (Some v)) \/
  ((forall c, is_cell (la_n L) c -> ~ in_cell_box L c p) /\ value_at L p = Ok None).
Proof.
  intros U E P R. destruct (cell_of_point_ok L p U E R) as (c & C & I & Un). unfold value_at. rewrite C. cbn [rbind].
  destruct (out_of_bounds L c) eqn:O.
  - right. split; auto. intros c' C' I'. apply Un in I'. subst c'. apply out_of_bounds_iff in C'; auto. congruence.
  - left. apply out_of_bounds_iff in O; auto. destruct (node_open L c U P O) as (v & N & V).
    exists c, v. rewrite N. cbn [rbind]. auto.
Qed.

Lemma value_at_per L p : usable L -> extended L -> la_per L = true -> in_reach_per L p (0, 0, 0)%R ->
  exists c v, in_cell_box L c p /\ value_of L (folded (la_n L) c) v /\ value_at L p = Ok (Some v).
Proof.
  intros U E P R. destruct (cell_of_point_ok L p U E (in_reach_per_in L p _ U E R)) as (c & C & I & Un).
  unfold value_at. rewrite C. cbn [rbind]. rewrite out_of_bounds_per by auto.
  assert (M : mod_ok (cx (la_n L)) (cx c) (cx c) /\ mod_ok (cy (la_n L)) (cy c) (cy c) /\ mod_ok (cz (la_n L)) (cz c) (cz c)).
  { apply in_cell_box_iff in I. destruct I as (I1 & I2 & I3). destruct U as (X & Y & Z & _). destruct E as (lx & ly & lz).
    destruct R as ((R1 & R2 & R3) & NX & NY & NZ). cbn [rx ry rz fst snd] in R1, R2, R3.
    rewrite Rabs_R0, Rplus_0_r in R1, R2, R3. unfold cell_size in I1, I2, I3. cbn [rx ry rz fst snd] in I1, I2, I3.
    assert (G : forall l n i o q, 1 <= n <= 4000000 -> (0 < l)%R -> (Rabs (q - o) <= 200 * l)%R ->
       (o + l / IZR n * IZR i <= q < o + l / IZR n * (IZR i + 1))%R -> mod_ok n i i).
    { clear. intros l n i o q N l0 A B. apply Rabs_le_inv in A.
      assert (N1 : (1 <= IZR n)%R) by (apply IZR_le; lia).
      assert (S : (0 < l / IZR n)%R) by (apply Rdiv_lt_0_compat; lra).
      assert (EQ : (200 * IZR n * (l / IZR n) = 200 * l)%R) by (field; lra).
      assert (I2 : i <= 200 * n).
      { apply le_IZR. rewrite mult_IZR. apply Rmult_le_reg_r with (l / IZR n)%R; auto. lra. }
      assert (I1 : - 200 * n <= i + 1).
      { apply le_IZR. rewrite mult_IZR, plus_IZR. apply Rmult_le_reg_r with (l / IZR n)%R; auto. lra. }
      unfold mod_ok, INT_MAX. lia. }
    split; [|split]; [exact (G _ _ _ _ _ (conj X NX) lx R1 I1)|exact (G _ _ _ _ _ (conj Y NY) ly R2 I2)|exact (G _ _ _ _ _ (conj Z NZ) lz R3 I3)]. }
  destruct M as (M1 & M2 & M3). destruct (node_per L c U P M1 M2 M3) as (v & N & V).
  exists c, v. rewrite N. cbn [rbind]. auto.
Qed.

(** nearest neighbours *)
Lemma moved_cell L c dx dy dz : usable L -> is_cell (la_n L) c ->
  is_cell (la_n L) (moved (la_per L) (cx (la_n L)) (cx c) dx, moved (la_per L) (cy (la_n L)) (cy c) dy, moved (la_per L) (cz (la_n L)) (cz c) dz).
Proof.
  intros (X & Y & Z & _) (A & B & C). unfold is_cell. cbn [cx cy cz fst snd].
  repeat split; apply moved_range; auto.
Qed.
Definition six (per : bool) (n c : c3) : list c3 :=
  [(moved per (cx n) (cx c) (-1), cy c, cz c); (moved per (cx n) (cx c) 1, cy c, cz c);
   (cx c, moved per (cy n) (cy c) (-1), cz c); (cx c, moved per (cy n) (cy c) 1, cz c);
   (cx c, cy c, moved per (cz n) (cz c) (-1)); (cx c, cy c, moved per (cz n) (cz c) 1)].
Lemma six_cells L c d : usable L -> is_cell (la_n L) c -> In d (six (la_per L) (la_n L) c) -> is_cell (la_n L) d.
Proof.
  intros (X & Y & Z & _) (A & B & C) H. unfold six in H. cbn [In] in H.
  repeat (destruct H as [<-|H]; [unfold is_cell; cbn [cx cy cz fst snd]; repeat split; try apply moved_range; auto; lia|]). destruct H.
Qed.

Lemma neighbors_ok L p c : usable L -> extended L -> in_reach L p (0, 0, 0)%R -> is_cell (la_n L) c -> in_cell_box L c p ->
  iterate_nearest_neighbors L p =
  Ok (map (fun d => (flat (la_n L) d, flat (la_n L) c)) (c :: six (la_per L) (la_n L) c)).
Proof.
  intros U E R C I. destruct (cell_of_point_ok L p U E R) as (c' & C' & I' & Un).
  assert (c = c') by now apply Un. subst c'. unfold iterate_nearest_neighbors. rewrite C'. cbn [rbind].
  rewrite (index1d_ok L c) by auto. cbn [rbind].
  assert (G : forall d, In d (c :: six (la_per L) (la_n L) c) -> exists v, fetch (la_store L) (flat (la_n L) d) = Ok v).
  { intros d Hd. assert (D : is_cell (la_n L) d). { destruct Hd as [<-|Hd]; auto. eapply six_cells; eauto. }
    destruct (fetch_cell L d U D) as (v & F & _). eauto. }
  assert (D : forall d, In d (six (la_per L) (la_n L) c) -> is_cell (la_n L) d) by (intros; eapply six_cells; eauto).
  cbn [mapM]. rewrite left_eq, right_eq, down_eq, up_eq, backward_eq, forward_eq by auto.
  unfold six in *. rewrite !index1d_ok by (auto; apply D; cbn; tauto). cbn [rbind].
  repeat match goal with |- context [fetch (la_store L) (flat (la_n L) ?d)] =>
    let v := fresh "v" in let F := fresh "F" in destruct (G d ltac:(cbn [In]; tauto)) as (v & F); rewrite !F; cbn [rbind] end.
  reflexivity.
Qed.
End More.
