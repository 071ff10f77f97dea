(** Assembling the grid theorems. *)
From Coq Require Import ZArith Reals List Bool Lia Lra Psatz Sorting.Permutation.
From Flocq Require Import Core.
From Verif Require Import Base Flt GridModel GridSpec GridProofs GridPeriodic GridBuild GridOffers GridPlace.
Import ListNotations.
Open Scope Z_scope.

(** * Calls *)
Lemma call_count_in l k : NoDup l -> In k l -> count_occ call_eq_dec l k = 1%nat.
Proof. intros N I. now apply (proj1 (NoDup_count_occ' call_eq_dec l)). Qed.
Lemma call_count_out l k : ~ In k l -> count_occ call_eq_dec l k = 0%nat.
Proof. intros. now apply count_occ_not_In. Qed.

Lemma pair_open_iff n a b w : pos_n n -> inside n a -> inside n b ->
  (In (Pair (make_index n a) w (make_index n b)) (iterate_open n) <->
   w = (0, 0, 0) /\ near a b /\ make_index n a < make_index n b).
Proof.
  intros P A B. rewrite in_iterate_open by auto. split.
  - intros (c & C & [E|(c' & C' & N & L & E)]); [discriminate|].
    assert (E1 : make_index n a = make_index n c) by congruence.
    assert (E2 : make_index n b = make_index n c') by congruence.
    apply make_index_inj in E1, E2; auto. subst. split; [congruence|auto].
  - intros (-> & N & L). exists a. split; auto. right. exists b. auto.
Qed.
Lemma pair_per_iff n a b w : big_n n -> inside n a -> inside n b ->
  (In (Pair (make_index n a) w (make_index n b)) (iterate_periodic n) <->
   near (image n a w) b /\ make_index n (image n a w) < make_index n b).
Proof.
  intros P A B. rewrite in_iterate_periodic by auto. split.
  - intros (c & C & [E|(c' & w' & C' & N & L & E)]); [discriminate|].
    assert (E1 : make_index n a = make_index n c) by congruence.
    assert (E2 : make_index n b = make_index n c') by congruence.
    assert (E3 : w' = w) by congruence.
    apply make_index_inj in E1, E2; auto. subst. auto.
  - intros (N & L). exists a. split; auto. right. exists b, w. auto.
Qed.

Lemma near_sym a b : near a b -> near b a.
Proof. unfold near. lia. Qed.

Lemma open_cell_once n c : pos_n n -> inside n c ->
  count_occ call_eq_dec (iterate_open n) (Search (make_index n c)) = 1%nat.
Proof.
  intros P I. apply call_count_in. now apply NoDup_iterate_open.
  apply in_iterate_open; auto. exists c. auto.
Qed.
Lemma open_pair_once n a b : pos_n n -> inside n a -> inside n b -> near a b -> a <> b ->
  (count_occ call_eq_dec (iterate_open n) (Pair (make_index n a) no_shift (make_index n b)) +
   count_occ call_eq_dec (iterate_open n) (Pair (make_index n b) no_shift (make_index n a)) = 1)%nat.
Proof.
  intros P A B N NE. pose proof (NoDup_iterate_open n P) as ND.
  assert (D : make_index n a <> make_index n b) by (intros E; apply make_index_inj in E; auto).
  destruct (Z.lt_ge_cases (make_index n a) (make_index n b)).
  - rewrite call_count_in; auto; [|apply pair_open_iff; auto].
    rewrite call_count_out; auto. rewrite pair_open_iff by auto. intros (_ & _ & L). lia.
  - rewrite call_count_out; [|rewrite pair_open_iff by auto; intros (_ & _ & L); lia].
    rewrite call_count_in; auto. apply pair_open_iff; auto. split; auto. split. now apply near_sym. lia.
Qed.

Lemma image_neg n a b w : make_index n a - make_index n (image n b (opposite w)) =
  - (make_index n b - make_index n (image n a w)).
Proof. unfold make_index, image, opposite. cbn [cx cy cz fst snd]. ring. Qed.
Lemma near_image_sym n a b w : near (image n a w) b -> near (image n b (opposite w)) a.
Proof. unfold near, image, opposite. cbn [cx cy cz fst snd]. lia. Qed.

Lemma near_same_cell n a b w : big_n n -> inside n a -> inside n b -> image n a w = b -> a = b /\ w = (0, 0, 0).
Proof.
  intros (X & Y & Z) (A1 & A2 & A3) (B1 & B2 & B3) E. unfold image in E. destruct b as [[bx by_] bz].
  assert (E1 := f_equal cx E). assert (E2 := f_equal cy E). assert (E3 := f_equal cz E).
  cbn [cx cy cz fst snd] in *. clear E.
  assert (T : forall x v m y, 0 <= x < m -> 0 <= y < m -> x + v * m = y -> x = y /\ v = 0).
  { intros x v m y Hx Hy E. assert (v = 0) by nia. subst. lia. }
  apply T in E1, E2, E3; auto. split; apply c3_eq; cbn [cx cy cz fst snd]; tauto.
Qed.

Lemma per_cell_once n c : big_n n -> inside n c ->
  count_occ call_eq_dec (iterate_periodic n) (Search (make_index n c)) = 1%nat.
Proof.
  intros P I. apply call_count_in. now apply NoDup_iterate_periodic.
  apply in_iterate_periodic; auto. exists c. auto.
Qed.
Lemma image_index_neq n a b w : big_n n -> near (image n a w) b -> image n a w <> b ->
  make_index n b - make_index n (image n a w) <> 0.
Proof.
  intros P (N1 & N2 & N3) NE E. rewrite <- make_index_sub in E.
  destruct (small_index n (sub3 b (image n a w)) P) as [_ S]; unfold sub3; cbn [cx cy cz fst snd]; try lia.
  apply S in E. apply NE. unfold sub3 in E.
  assert (E1 := f_equal cx E). assert (E2 := f_equal cy E). assert (E3 := f_equal cz E).
  cbn [cx cy cz fst snd] in *. apply c3_eq; lia.
Qed.
Lemma per_pair_once n a b w : big_n n -> inside n a -> inside n b -> near (image n a w) b -> image n a w <> b ->
  (count_occ call_eq_dec (iterate_periodic n) (Pair (make_index n a) w (make_index n b)) +
   count_occ call_eq_dec (iterate_periodic n) (Pair (make_index n b) (opposite w) (make_index n a)) = 1)%nat.
Proof.
  intros P A B N NE. pose proof (NoDup_iterate_periodic n P) as ND.
  pose proof (image_index_neq n a b w P N NE) as D.
  pose proof (image_neg n a b w) as E.
  destruct (Z.lt_ge_cases (make_index n (image n a w)) (make_index n b)).
  - rewrite call_count_in; auto; [|apply pair_per_iff; auto].
    rewrite call_count_out; auto. rewrite pair_per_iff by auto. intros (_ & L). lia.
  - rewrite call_count_out; [|rewrite pair_per_iff by auto; intros (_ & L); lia].
    rewrite call_count_in; auto. apply pair_per_iff; auto. split. now apply near_image_sym. lia.
Qed.

(** * Measuring the particles *)
Lemma fold_min (ps : list gpart) (get : gpart -> R) m0 :
  (fold_left (fun m q => Rmin m (get q)) ps m0 <= m0)%R /\
  (forall p, In p ps -> (fold_left (fun m q => Rmin m (get q)) ps m0 <= get p)%R).
Proof.
  revert m0. induction ps as [|q ps IH]; intros m0; cbn.
  - split; [lra|tauto].
  - destruct (IH (Rmin m0 (get q))) as [I1 I2]. pose proof (Rmin_l m0 (get q)). pose proof (Rmin_r m0 (get q)).
    split; [lra|]. intros p [->|P]; auto. lra.
Qed.
Lemma fold_max (ps : list gpart) (get : gpart -> R) m0 :
  (m0 <= fold_left (fun m q => Rmax m (get q)) ps m0)%R /\
  (forall p, In p ps -> (get p <= fold_left (fun m q => Rmax m (get q)) ps m0)%R).
Proof.
  revert m0. induction ps as [|q ps IH]; intros m0; cbn.
  - split; [lra|tauto].
  - destruct (IH (Rmax m0 (get q))) as [I1 I2]. pose proof (Rmax_l m0 (get q)). pose proof (Rmax_r m0 (get q)).
    split; [lra|]. intros p [->|P]; auto. lra.
Qed.
Lemma fold_min3 ps a b c :
  fold_left (fun m q => (Rmin (rx m) (g_x q), Rmin (ry m) (g_y q), Rmin (rz m) (g_z q))) ps (a, b, c) =
  (fold_left (fun m q => Rmin m (g_x q)) ps a, fold_left (fun m q => Rmin m (g_y q)) ps b,
   fold_left (fun m q => Rmin m (g_z q)) ps c).
Proof. revert a b c. induction ps; intros; cbn [fold_left]; auto. Qed.
Lemma fold_max3 ps a b c :
  fold_left (fun m q => (Rmax (rx m) (g_x q), Rmax (ry m) (g_y q), Rmax (rz m) (g_z q))) ps (a, b, c) =
  (fold_left (fun m q => Rmax m (g_x q)) ps a, fold_left (fun m q => Rmax m (g_y q)) ps b,
   fold_left (fun m q => Rmax m (g_z q)) ps c).
Proof. revert a b c. induction ps; intros; cbn [fold_left]; auto. Qed.

Lemma measure_ok A num ps : arith_ok A num -> ps <> [] ->
  exists mn len, find_min_and_length A ps = Ok (mn, len) /\
    num (rx len) /\ num (ry len) /\ num (rz len) /\ (0 <= rx len)%R /\ (0 <= ry len)%R /\ (0 <= rz len)%R /\
    forall p, In p ps -> in_box A mn len p.
Proof.
  intros O NE. destruct ps as [|p0 ps]; [congruence|]. unfold find_min_and_length.
  set (l := p0 :: ps). rewrite fold_min3, fold_max3.
  destruct (fold_min l g_x (g_x p0)) as [Xa Xb]. destruct (fold_max l g_x (g_x p0)) as [Xc Xd].
  destruct (fold_min l g_y (g_y p0)) as [Ya Yb]. destruct (fold_max l g_y (g_y p0)) as [Yc Yd].
  destruct (fold_min l g_z (g_z p0)) as [Za Zb]. destruct (fold_max l g_z (g_z p0)) as [Zc Zd].
  do 2 eexists. split; [reflexivity|]. cbn [rx ry rz fst snd].
  repeat (split; [apply (rnd_num _ _ O)|]).
  split; [apply (rnd_pos A num); auto; lra|]. split; [apply (rnd_pos A num); auto; lra|].
  split; [apply (rnd_pos A num); auto; lra|].
  intros p P. unfold in_box. cbn [rx ry rz fst snd].
  specialize (Xb p P). specialize (Xd p P). specialize (Yb p P). specialize (Yd p P).
  specialize (Zb p P). specialize (Zd p P).
  repeat split; auto; apply (rnd_mono _ _ O); lra.
Qed.

(** * Particle-level statements *)
Lemma ids_filter (f : gpart -> bool) ps : NoDup (map g_id ps) -> NoDup (map g_id (filter f ps)).
Proof.
  induction ps as [|p ps IH]; cbn; intros N; auto. inversion N; subst. destruct (f p); cbn; auto.
  constructor; auto. intros H. apply H1. apply in_map_iff in H. destruct H as (q & <- & Q).
  apply filter_In in Q. now apply in_map.
Qed.

Lemma ocount_in (l : list offer) o : NoDup l -> In o l -> count_occ offer_eq_dec l o = 1%nat.
Proof. intros N I. now apply (proj1 (NoDup_count_occ' offer_eq_dec l)). Qed.
Lemma ocount_out (l : list offer) o : ~ In o l -> count_occ offer_eq_dec l o = 0%nat.
Proof. intros. now apply count_occ_not_In. Qed.
Lemma once_of (l : list offer) w p q : NoDup l ->
  (In (g_id p, w, g_id q) l \/ In (g_id q, opposite w, g_id p) l) ->
  ~ (In (g_id p, w, g_id q) l /\ In (g_id q, opposite w, g_id p) l) -> times_offered l w p q = 1%nat.
Proof.
  intros N I X. unfold times_offered. destruct I as [I|I].
  - rewrite (ocount_in _ _ N I), ocount_out; auto.
  - rewrite ocount_out; auto. rewrite (ocount_in _ _ N I). auto.
Qed.
Lemma atmost_once (l : list offer) w p q : NoDup l ->
  ~ (In (g_id p, w, g_id q) l /\ In (g_id q, opposite w, g_id p) l) -> (times_offered l w p q <= 1)%nat.
Proof.
  intros N X. unfold times_offered.
  destruct (in_dec offer_eq_dec (g_id p, w, g_id q) l) as [I|I].
  - rewrite (ocount_in _ _ N I), ocount_out; auto.
  - rewrite (ocount_out _ _ I). destruct (in_dec offer_eq_dec (g_id q, opposite w, g_id p) l) as [J|J].
    + rewrite (ocount_in _ _ N J). auto.
    + rewrite (ocount_out _ _ J). auto.
Qed.

(** General form, both kinds of grid: the result of [offers] in terms of cells. *)
Lemma offers_of_placed periodic largest A mn len maxlen es g :
  placed A periodic largest mn len maxlen es g -> NoDup (map g_id es) ->
  exists os, offers periodic g = Ok os /\ NoDup os /\
   exists cc, (forall p, In p es -> inside (gr_n g) (cc p)) /\
    ((periodic = false /\ gr_n g = (1, 1, 1)) \/
     exists f limited maxc,
       1 <= maxc /\ (periodic = true -> 2 <= maxc) /\
       axis A periodic largest limited maxc maxlen (rx len) = Ok (cx (gr_n g), rx f) /\
       axis A periodic largest limited maxc maxlen (ry len) = Ok (cy (gr_n g), ry f) /\
       axis A periodic largest limited maxc maxlen (rz len) = Ok (cz (gr_n g), rz f) /\
       cc = cell_of A mn f) /\
    forall x w y, In (x, w, y) os <-> exists p q, In p es /\ In q es /\ g_id p = x /\ g_id q = y /\
      ((cc p = cc q /\ w = (0, 0, 0) /\ x < y) \/
       (if periodic then near (image (gr_n g) (cc p) w) (cc q) /\
           make_index (gr_n g) (image (gr_n g) (cc p) w) < make_index (gr_n g) (cc q)
        else w = (0, 0, 0) /\ near (cc p) (cc q) /\ make_index (gr_n g) (cc p) < make_index (gr_n g) (cc q))).
Proof.
  intros [P B L (cc & F & I & S)] ND.
  set (n := gr_n g) in *.
  destruct (offers_all (gr_cells g) (cx n * cy n * cz n) (fun p => make_index n (cc p)) es (iterate periodic n)) as (os & E & N & H); auto.
  - unfold iterate. destruct periodic; [apply NoDup_iterate_periodic; auto|apply NoDup_iterate_open; auto].
  - intros i. split.
    + intros H. assert (exists c, inside n c /\ i = make_index n c) as (c & C & ->).
      { unfold iterate in H. destruct periodic.
        - apply in_iterate_periodic in H; auto. destruct H as (c & C & [E|(?&?&?&?&?&E)]); [|discriminate].
          exists c. split; auto. congruence.
        - apply in_iterate_open in H; auto. destruct H as (c & C & [E|(?&?&?&?&E)]); [|discriminate].
          exists c. split; auto. congruence. }
      now apply make_index_range.
    + intros H. destruct P as (P1 & P2 & P3). destruct (make_index_surj n i) as (c & C & <-); try lia.
      unfold iterate. destruct periodic.
      * apply in_iterate_periodic; auto. exists c; auto.
      * apply in_iterate_open; [unfold pos_n; auto|]. exists c; auto.
  - intros i w j H. unfold iterate in H. destruct periodic.
    + apply in_iterate_periodic in H; auto. destruct H as (a & C & [E|(b&w'&J&Nr&Lt&E)]); [discriminate|].
      assert (i = make_index n a) by congruence. assert (j = make_index n b) by congruence.
      assert (w = w') by congruence. subst. split; [now apply make_index_range|]. split; [now apply make_index_range|].
      intros [E1 E2]. apply make_index_inj in E1; auto. subst. unfold image in Lt. cbn [cx cy cz fst snd] in Lt.
      rewrite !Z.mul_0_l, !Z.add_0_r, <- c3_eta in Lt. lia.
    + apply in_iterate_open in H; auto. destruct H as (a & C & [E|(b&J&Nr&Lt&E)]); [discriminate|].
      assert (i = make_index n a) by congruence. assert (j = make_index n b) by congruence.
      subst. split; [now apply make_index_range|]. split; [now apply make_index_range|]. lia.
  - exists (concat os). split. { unfold offers. fold n. rewrite E. reflexivity. }
    split; auto. exists cc. split; auto. split; auto.
    intros x w y. rewrite H. split; intros (p & q & Hp & Hq & X & Y & C); exists p, q; repeat split; auto.
    + destruct C as [(C & W & Lt)|C].
      * left. split; auto. apply (make_index_inj n); auto.
      * right. unfold iterate in C. destruct periodic.
        -- apply pair_per_iff in C; auto.
        -- apply pair_open_iff in C; auto.
    + destruct C as [(C & W & Lt)|C].
      * left. rewrite C. auto.
      * right. unfold iterate. destruct periodic.
        -- apply pair_per_iff; auto.
        -- apply pair_open_iff; auto.
Qed.

Lemma filed_perm cells N ix es : 0 <= N -> filed cells N ix es -> NoDup es -> Permutation (concat cells) es.
Proof.
  intros HN (L & R & C) ND.
  assert (E : cells = map (fun i => filter (fun p => ix p =? i) es) (zseq N)).
  { apply nth_ext with (d := []) (d' := []).
    - rewrite map_length, zseq_length. lia.
    - intros k Hk. apply nth_error_nth with (d := []).
      specialize (C (Z.of_nat k) ltac:(lia)). rewrite Nat2Z.id in C. rewrite C. f_equal.
      symmetry. apply nth_error_nth. rewrite nth_error_map. unfold zseq. rewrite nth_error_map.
      replace (nth_error (seq 0 (Z.to_nat N)) k) with (Some k). reflexivity.
      symmetry. rewrite nth_error_nth' with (d := 0%nat) by (rewrite seq_length; lia).
      f_equal. apply seq_nth. lia. }
  rewrite E. rewrite <- flat_map_concat_map. apply NoDup_Permutation; auto.
  - apply NoDup_flat_map; [apply NoDup_zseq| |].
    + intros. now apply NoDup_filter.
    + intros i j p _ _ I J. apply filter_In in I, J. destruct I as [_ I], J as [_ J]. apply Z.eqb_eq in I, J. congruence.
  - intros p. rewrite in_flat_map. split.
    + intros (i & _ & I). apply filter_In in I. tauto.
    + intros P. exists (ix p). split. { apply in_zseq. now apply R. }
      apply filter_In. split; auto. apply Z.eqb_refl.
Qed.

Lemma placed_perm A periodic largest mn len maxlen es g :
  placed A periodic largest mn len maxlen es g -> NoDup es -> Permutation (concat (gr_cells g)) es.
Proof.
  intros [P B L (cc & F & I & S)] ND. eapply filed_perm; eauto. unfold pos_n in P.
  apply Z.mul_nonneg_nonneg; nia.
Qed.

Lemma near_cells_exact periodic limited maxc mn len maxlen n f p q :
  (0 < maxlen)%R -> (0 <= rx len)%R -> (0 <= ry len)%R -> (0 <= rz len)%R ->
  1 <= maxc -> (periodic = true -> 2 <= maxc) ->
  axis exact periodic false limited maxc maxlen (rx len) = Ok (cx n, rx f) ->
  axis exact periodic false limited maxc maxlen (ry len) = Ok (cy n, ry f) ->
  axis exact periodic false limited maxc maxlen (rz len) = Ok (cz n, rz f) ->
  close maxlen p q -> near (cell_of exact mn f p) (cell_of exact mn f q).
Proof.
  intros M Lx Ly Lz C CP Ex Ey Ez (Hx & Hy & Hz).
  destruct (axis_exact _ _ _ _ _ _ _ M Lx C CP Ex) as [Fx _].
  destruct (axis_exact _ _ _ _ _ _ _ M Ly C CP Ey) as [Fy _].
  destruct (axis_exact _ _ _ _ _ _ _ M Lz C CP Ez) as [Fz _].
  unfold near, cell_of. cbn [cx cy cz fst snd rnd exact].
  split; [|split]; apply (axis_close maxlen); auto.
  - replace (g_x p - rx mn - (g_x q - rx mn))%R with (g_x p - g_x q)%R by ring. auto.
  - replace (g_y p - ry mn - (g_y q - ry mn))%R with (g_y p - g_y q)%R by ring. auto.
  - replace (g_z p - rz mn - (g_z q - rz mn))%R with (g_z p - g_z q)%R by ring. auto.
Qed.

Definition margin (maxlen : R) (len : r3) : r3 :=
  (maxlen - rx len * u, maxlen - ry len * u, maxlen - rz len * u)%R.

Lemma near_images_exact limited maxc mn len maxlen n f p q w :
  (0 < maxlen)%R -> (0 <= rx len)%R -> (0 <= ry len)%R -> (0 <= rz len)%R -> 2 <= maxc ->
  axis exact true false limited maxc maxlen (rx len) = Ok (cx n, rx f) ->
  axis exact true false limited maxc maxlen (ry len) = Ok (cy n, ry f) ->
  axis exact true false limited maxc maxlen (rz len) = Ok (cz n, rz f) ->
  within mn len p -> within mn len q ->
  close_image (margin maxlen len) len w p q ->
  near (image n (cell_of exact mn f p) w) (cell_of exact mn f q).
Proof.
  intros M Lx Ly Lz C Ex Ey Ez (Px & Py & Pz) (Qx & Qy & Qz) (Hx & Hy & Hz).
  assert (C1 : 1 <= maxc) by lia.
  destruct (axis_ok _ _ _ _ _ _ _ _ _ _ exact_ok M Lx C1 (fun _ => C) Ex) as (Nx & Nx2 & _).
  destruct (axis_ok _ _ _ _ _ _ _ _ _ _ exact_ok M Ly C1 (fun _ => C) Ey) as (Ny & Ny2 & _).
  destruct (axis_ok _ _ _ _ _ _ _ _ _ _ exact_ok M Lz C1 (fun _ => C) Ez) as (Nz & Nz2 & _).
  specialize (Nx2 eq_refl). specialize (Ny2 eq_refl). specialize (Nz2 eq_refl).
  destruct (axis_exact _ _ _ _ _ _ _ M Lx C1 (fun _ => C) Ex) as [_ Fx].
  destruct (axis_exact _ _ _ _ _ _ _ M Ly C1 (fun _ => C) Ey) as [_ Fy].
  destruct (axis_exact _ _ _ _ _ _ _ M Lz C1 (fun _ => C) Ez) as [_ Fz].
  destruct (Fx eq_refl) as (X1 & X2 & X3). destruct (Fy eq_refl) as (Y1 & Y2 & Y3).
  destruct (Fz eq_refl) as (Z1 & Z2 & Z3).
  unfold margin in Hx, Hy, Hz. cbn [rx ry rz fst snd] in Hx, Hy, Hz.
  fold (rx len) in *. fold (ry len) in *. fold (rz len) in *.
  unfold near, image, cell_of. cbn [cx cy cz fst snd rnd exact].
  fold (cx w) (cy w) (cz w) (cx n) (cy n) (cz n).
  split; [|split].
  - apply (axis_image maxlen (rx len)); auto; try lia; try lra.
    replace (g_x p - rx mn + IZR (cx w) * rx len - (g_x q - rx mn))%R with (g_x p + IZR (cx w) * rx len - g_x q)%R by ring. auto.
  - apply (axis_image maxlen (ry len)); auto; try lia; try lra.
    replace (g_y p - ry mn + IZR (cy w) * ry len - (g_y q - ry mn))%R with (g_y p + IZR (cy w) * ry len - g_y q)%R by ring. auto.
  - apply (axis_image maxlen (rz len)); auto; try lia; try lra.
    replace (g_z p - rz mn + IZR (cz w) * rz len - (g_z q - rz mn))%R with (g_z p + IZR (cz w) * rz len - g_z q)%R by ring. auto.
Qed.

(** * Open grid *)
Lemma open_offers ps maxlen limited incl g :
  (0 < maxlen)%R -> NoDup (map g_id ps) ->
  mk_grid_auto exact false ps maxlen limited incl false = Ok g ->
  exists os, offers false g = Ok os /\
   (forall p q, In p ps -> In q ps -> eligible incl p = true -> eligible incl q = true ->
     p <> q -> close maxlen p q -> times_offered os no_shift p q = 1%nat) /\
   (forall p q, (times_offered os no_shift p q <= 1)%nat) /\
   (forall x w y, In (x, w, y) os -> w = no_shift /\ exists p q, In p ps /\ In q ps /\
      eligible incl p = true /\ eligible incl q = true /\ p <> q /\ x = g_id p /\ y = g_id q).
Proof.
  intros M ND E. unfold mk_grid_auto in E.
  destruct ps as [|p0 ps']; [discriminate|]. set (ps := p0 :: ps') in *.
  assert (NE : ps <> []) by discriminate.
  destruct (measure_ok exact _ ps exact_ok NE) as (mn & len & Em & N1 & N2 & N3 & L1 & L2 & L3 & B).
  rewrite Em in E. cbn [rbind] in E.
  pose proof (mk_grid_outcome exact _ false mn len ps maxlen limited incl false exact_ok N1 N2 N3 M L1 L2 L3
     (or_introl eq_refl) (or_intror NE) B) as O. cbv zeta in O. rewrite E in O. destruct O as [P _]. cbn [negb andb] in P.
  set (es := filter (eligible incl) ps) in *.
  assert (NDe : NoDup (map g_id es)) by now apply ids_filter.
  destruct (offers_of_placed _ _ _ _ _ _ _ _ P NDe) as (os & Eo & No & cc & I & S & H).
  exists os. split; auto.
  assert (H2 : forall p q w, In p es -> In q es -> (In (g_id p, w, g_id q) os <->
     ((cc p = cc q /\ w = (0, 0, 0) /\ g_id p < g_id q) \/
      (w = (0, 0, 0) /\ near (cc p) (cc q) /\ make_index (gr_n g) (cc p) < make_index (gr_n g) (cc q))))).
  { intros p q w Hp Hq. rewrite H. split.
    - intros (p' & q' & Hp' & Hq' & X & Y & C).
      apply (id_inj es) in X; auto. apply (id_inj es) in Y; auto. subst. auto.
    - intros C. exists p, q. auto. }
  assert (X2 : forall p q, In (g_id p, no_shift, g_id q) os -> In (g_id q, opposite no_shift, g_id p) os -> False).
  { intros p q A1 A2. pose proof A1 as A1'. apply H in A1'. destruct A1' as (p' & q' & Hp' & Hq' & X & Y & _).
    rewrite <- X, <- Y in *. apply H2 in A1; auto. apply H2 in A2; auto.
    destruct A1 as [(C & _ & L)|(_ & _ & L)], A2 as [(C' & _ & L')|(_ & _ & L')]; try lia.
    rewrite C in L'. lia. rewrite C' in L. lia. }
  split; [|split].
  - intros p q Hp Hq Ep Eq D Cl.
    assert (Hp' : In p es) by (apply filter_In; auto). assert (Hq' : In q es) by (apply filter_In; auto).
    assert (NR : near (cc p) (cc q)).
    { destruct S as [[_ S]|(f & lim & maxc & C & CP & Ex & Ey & Ez & ->)].
      - pose proof (I p Hp') as Ip. pose proof (I q Hq') as Iq. rewrite S in Ip, Iq.
        unfold inside, near in *. cbn in Ip, Iq. lia.
      - eapply near_cells_exact; eauto. }
    assert (Did : g_id p <> g_id q) by (intros X; apply D; now apply (id_inj es)).
    apply once_of; auto.
    + assert (DC : {cc p = cc q} + {cc p <> cc q}) by (unfold c3 in *; repeat decide equality).
      destruct DC as [C|C].
      * destruct (Z.lt_ge_cases (g_id p) (g_id q)).
        -- left. apply H2; auto.
        -- right. apply H2; auto. left. repeat split; auto. lia.
      * assert (make_index (gr_n g) (cc p) <> make_index (gr_n g) (cc q)).
        { intros X. apply C. apply (make_index_inj (gr_n g)); auto. }
        destruct (Z.lt_ge_cases (make_index (gr_n g) (cc p)) (make_index (gr_n g) (cc q))).
        -- left. apply H2; auto.
        -- right. apply H2; auto. right. repeat split; try apply NR; try lia. all: apply near_sym; auto.
    + intros [A1 A2]. eauto.
  - intros p q. apply atmost_once; auto. intros [A1 A2]. eauto.
  - intros x w y A1. pose proof A1 as A1'. apply H in A1'. destruct A1' as (p & q & Hp & Hq & <- & <- & _).
    apply H2 in A1; auto. apply filter_In in Hp, Hq.
    split. { destruct A1 as [(_ & -> & _)|(-> & _)]; reflexivity. }
    exists p, q. repeat split; try tauto. intros ->.
    destruct A1 as [(_ & _ & L)|(_ & _ & L)]; lia.
Qed.

(** * Periodic grid *)
Lemma per_offers mn len ps maxlen limited incl g :
  (0 < maxlen)%R -> (0 <= rx len)%R -> (0 <= ry len)%R -> (0 <= rz len)%R -> NoDup (map g_id ps) ->
  (forall p, In p ps -> within mn len p) ->
  mk_grid exact true (mn, len) ps maxlen limited incl false = Ok g ->
  exists os, offers true g = Ok os /\
   (forall p q w, In p ps -> In q ps -> eligible incl p = true -> eligible incl q = true ->
     p <> q -> close_image (margin maxlen len) len w p q -> times_offered os w p q = 1%nat) /\
   (forall p q w, (times_offered os w p q <= 1)%nat) /\
   (forall x w y, In (x, w, y) os -> exists p q, In p ps /\ In q ps /\
      eligible incl p = true /\ eligible incl q = true /\ p <> q /\ x = g_id p /\ y = g_id q).
Proof.
  intros M L1 L2 L3 ND W E.
  assert (B : forall p, In p ps -> in_box exact mn len p).
  { intros p Hp. destruct (W p Hp) as (X & Y & Z). unfold in_box. cbn [rnd exact]. repeat split; lra. }
  pose proof (mk_grid_outcome exact _ true mn len ps maxlen limited incl false exact_ok Logic.I Logic.I Logic.I M L1 L2 L3
     (or_introl eq_refl) (or_introl eq_refl) B) as O. cbv zeta in O. rewrite E in O. destruct O as [P _]. cbn [negb andb] in P.
  set (es := filter (eligible incl) ps) in *.
  assert (NDe : NoDup (map g_id es)) by now apply ids_filter.
  assert (BN : big_n (gr_n g)) by (apply P; auto).
  destruct (offers_of_placed _ _ _ _ _ _ _ _ P NDe) as (os & Eo & No & cc & I & S & H).
  exists os. split; auto.
  assert (H2 : forall p q w, In p es -> In q es -> (In (g_id p, w, g_id q) os <->
     ((cc p = cc q /\ w = (0, 0, 0) /\ g_id p < g_id q) \/
      (near (image (gr_n g) (cc p) w) (cc q) /\
       make_index (gr_n g) (image (gr_n g) (cc p) w) < make_index (gr_n g) (cc q))))).
  { intros p q w Hp Hq. rewrite H. split.
    - intros (p' & q' & Hp' & Hq' & X & Y & C).
      apply (id_inj es) in X; auto. apply (id_inj es) in Y; auto. subst. auto.
    - intros C. exists p, q. auto. }
  assert (IM0 : forall a, image (gr_n g) a (0, 0, 0) = a).
  { intros a. unfold image. cbn [cx cy cz fst snd]. rewrite !Z.mul_0_l, !Z.add_0_r. symmetry. apply c3_eta. }
  assert (X2 : forall p q w, In (g_id p, w, g_id q) os -> In (g_id q, opposite w, g_id p) os -> False).
  { intros p q w A1 A2. pose proof A1 as A1'. apply H in A1'. destruct A1' as (p' & q' & Hp' & Hq' & X & Y & _).
    rewrite <- X, <- Y in *. apply H2 in A1; auto. apply H2 in A2; auto.
    pose proof (image_neg (gr_n g) (cc p') (cc q') w) as IN.
    destruct A1 as [(C & Hw & L)|(_ & L)], A2 as [(C' & Hw' & L')|(_ & L')]; try lia.
    - rewrite Hw in L'. change (opposite (0, 0, 0)) with (0, 0, 0) in L'. rewrite IM0, C in L'. lia.
    - assert (w = (0, 0, 0)). { unfold opposite in Hw'. apply c3_eq; cbn; congruence || (injection Hw'; intros; lia). }
      subst w. rewrite IM0, C' in L. lia. }
  split; [|split].
  - intros p q w Hp Hq Ep Eq D Cl.
    assert (Hp' : In p es) by (apply filter_In; auto). assert (Hq' : In q es) by (apply filter_In; auto).
    assert (NR : near (image (gr_n g) (cc p) w) (cc q)).
    { destruct S as [[S _]|(f & lim & maxc & C & CP & Ex & Ey & Ez & ->)]; [discriminate|].
      eapply near_images_exact; eauto. }
    assert (Did : g_id p <> g_id q) by (intros X; apply D; now apply (id_inj es)).
    apply once_of; auto.
    + assert (DC : {image (gr_n g) (cc p) w = cc q} + {image (gr_n g) (cc p) w <> cc q}) by (unfold c3 in *; repeat decide equality).
      destruct DC as [C|C].
      * apply near_same_cell in C; auto. destruct C as [C ->].
        change (opposite (0, 0, 0)) with (0, 0, 0).
        destruct (Z.lt_ge_cases (g_id p) (g_id q)).
        -- left. apply H2; auto.
        -- right. apply H2; auto. left. repeat split; auto. lia.
      * pose proof (image_index_neq (gr_n g) (cc p) (cc q) w BN NR C) as Dx.
        pose proof (image_neg (gr_n g) (cc p) (cc q) w) as IN.
        destruct (Z.lt_ge_cases (make_index (gr_n g) (image (gr_n g) (cc p) w)) (make_index (gr_n g) (cc q))).
        -- left. apply H2; auto.
        -- right. apply H2; auto. right. split; [now apply near_image_sym|lia].
    + intros [A1 A2]. eauto.
  - intros p q w. apply atmost_once; auto. intros [A1 A2]. eauto.
  - intros x w y A1. pose proof A1 as A1'. apply H in A1'. destruct A1' as (p & q & Hp & Hq & <- & <- & _).
    apply H2 in A1; auto. pose proof Hp as Hp0. apply filter_In in Hp, Hq.
    exists p, q. repeat split; try tauto. intros ->.
    destruct A1 as [(_ & _ & L)|(NR & L)]; [lia|].
    destruct BN as (B1 & B2 & B3). destruct NR as (N1 & N2 & N3). unfold image in *. cbn [cx cy cz fst snd] in *.
    fold (cx w) (cy w) (cz w) (cx (cc q)) (cy (cc q)) (cz (cc q)) (cx (gr_n g)) (cy (gr_n g)) (cz (gr_n g)) in *.
    assert (T : forall v m c, 2 <= m -> Z.abs (c + v * m - c) <= 1 -> v = 0) by (intros; nia).
    apply T in N1, N2, N3; auto. rewrite N1, N2, N3 in L. rewrite !Z.mul_0_l, !Z.add_0_r, <- c3_eta in L. lia.
Qed.
