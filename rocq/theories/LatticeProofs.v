(** Lemmas about the lattice model. *)
From Coq Require Import ZArith Reals List Bool Lia Lra Psatz.
From Flocq Require Import Core.
From Verif Require Import Base Search GridModel GridSpec GridProofs GridOffers LatticeModel LatticeSpec.
Import ListNotations.
Open Scope Z_scope.

Lemma sint_ok x : INT_MIN <= x <= INT_MAX -> sint x = Ok x.
Proof.
  intros [A B]. unfold sint, in_i32. apply Z.leb_le in A, B. now rewrite A, B.
Qed.
Lemma to_int_ok x : INT_MIN <= x <= INT_MAX -> to_int x = Ok x.
Proof.
  intros [A B]. unfold to_int, in_i32. apply Z.leb_le in A, B. now rewrite A, B.
Qed.

(** storage position of a cell *)
Definition flat (n c : c3) : Z := cx c + cx n * (cy c + cz c * cy n).
Lemma flat_make n c : flat n c = make_index n c.
Proof. unfold flat, make_index. ring. Qed.
Lemma flat_range n c : is_cell n c -> 0 <= flat n c < cx n * cy n * cz n.
Proof. intros. rewrite flat_make. now apply make_index_range. Qed.
Lemma flat_inj n a b : is_cell n a -> is_cell n b -> flat n a = flat n b -> a = b.
Proof. rewrite !flat_make. apply make_index_inj. Qed.

Lemma row_bounds nx ny nz x y z : 1 <= nx -> 1 <= ny -> 1 <= nz -> nx * ny * nz <= INT_MAX ->
  0 <= x < nx -> 0 <= y < ny -> 0 <= z < nz ->
  0 <= z * ny <= INT_MAX /\ 0 <= y + z * ny <= INT_MAX /\ 0 <= nx * (y + z * ny) <= INT_MAX /\
  0 <= x + nx * (y + z * ny) <= INT_MAX.
Proof.
  intros X Y Z B Hx Hy Hz.
  assert (S : y + z * ny <= ny * nz - 1).
  { assert (z * ny <= (nz - 1) * ny) by (apply Z.mul_le_mono_nonneg_r; lia). lia. }
  assert (0 <= z * ny) by (apply Z.mul_nonneg_nonneg; lia).
  assert (nx * (y + z * ny) <= nx * (ny * nz - 1)) by (apply Z.mul_le_mono_nonneg_l; lia).
  assert (0 <= nx * (y + z * ny)) by (apply Z.mul_nonneg_nonneg; lia).
  assert (ny * nz <= nx * (ny * nz)).
  { replace (ny * nz) with (1 * (ny * nz)) at 1 by ring. apply Z.mul_le_mono_nonneg_r; [|lia].
    apply Z.mul_nonneg_nonneg; lia. }
  lia.
Qed.

Section One.
Context {T : Type}.
Implicit Type L : lat T.

Lemma index1d_ok L c : usable L -> is_cell (la_n L) c -> index1d L c = Ok (flat (la_n L) c).
Proof.
  intros (X & Y & Z & S & B) (Hx & Hy & Hz). unfold index1d, flat.
  destruct (Z.ltb_spec (cx c) (cx (la_n L))); [|lia].
  destruct (Z.ltb_spec (cy c) (cy (la_n L))); [|lia].
  destruct (Z.ltb_spec (cz c) (cz (la_n L))); [|lia]. cbn [andb].
  pose proof (row_bounds _ _ _ _ _ _ X Y Z B Hx Hy Hz). unfold INT_MIN, INT_MAX in *.
  rewrite sint_ok by (unfold INT_MIN, INT_MAX; lia). cbn [rbind].
  rewrite sint_ok by (unfold INT_MIN, INT_MAX; lia). cbn [rbind].
  rewrite sint_ok by (unfold INT_MIN, INT_MAX; lia). cbn [rbind].
  rewrite sint_ok by (unfold INT_MIN, INT_MAX; lia). reflexivity.
Qed.

Lemma fetch_ok (st : list T) i : 0 <= i < Z.of_nat (length st) -> exists v, fetch st i = Ok v /\ nth_error st (Z.to_nat i) = Some v.
Proof.
  intros H. unfold fetch. destruct (Z.ltb_spec i 0); [lia|].
  destruct (nth_error st (Z.to_nat i)) as [v|] eqn:E; eauto.
  apply nth_error_None in E. lia.
Qed.
Lemma fetch_cell L c : usable L -> is_cell (la_n L) c ->
  exists v, fetch (la_store L) (flat (la_n L) c) = Ok v /\ value_of L c v.
Proof.
  intros U C. destruct (fetch_ok (la_store L) (flat (la_n L) c)) as (v & F & N).
  { destruct U as (_ & _ & _ & S & _). rewrite S. now apply flat_range. }
  exists v. split; auto. exists (flat (la_n L) c). split; auto. now apply index1d_ok.
Qed.
Lemma value_of_fun L c v w : value_of L c v -> value_of L c w -> v = w.
Proof. intros (i & I & V) (j & J & W). assert (i = j) by congruence. subst. congruence. Qed.

Lemma moved_range per n i d : 1 <= n -> 0 <= i < n -> 0 <= moved per n i d < n.
Proof.
  intros N I. unfold moved. destruct (Z.leb_spec 0 (i + d)), (Z.ltb_spec (i + d) n); cbn [andb]; try lia;
  destruct per; try lia; apply Z.mod_pos_bound; lia.
Qed.

Lemma left_eq L c : usable L -> is_cell (la_n L) c ->
  index_left L c = index1d L (moved (la_per L) (cx (la_n L)) (cx c) (-1), cy c, cz c).
Proof.
  intros (X & _) (Hx & _). destruct c as [[x y] z]. unfold index_left, moved. cbn [cx cy cz fst snd] in *.
  destruct (Z.eqb_spec x 0).
  - subst. change (0 <=? 0 + -1) with false. cbn [andb]. destruct (la_per L); auto.
    do 3 f_equal. apply Z.mod_unique with (-1); lia.
  - destruct (Z.leb_spec 0 (x + -1)); [|lia]. destruct (Z.ltb_spec (x + -1) (cx (la_n L))); [|lia]. reflexivity.
Qed.
Lemma down_eq L c : usable L -> is_cell (la_n L) c ->
  index_down L c = index1d L (cx c, moved (la_per L) (cy (la_n L)) (cy c) (-1), cz c).
Proof.
  intros (_ & Y & _) (_ & Hy & _). destruct c as [[x y] z]. unfold index_down, moved. cbn [cx cy cz fst snd] in *.
  destruct (Z.eqb_spec y 0).
  - subst. change (0 <=? 0 + -1) with false. cbn [andb]. destruct (la_per L); auto.
    do 3 f_equal. apply Z.mod_unique with (-1); lia.
  - destruct (Z.leb_spec 0 (y + -1)); [|lia]. destruct (Z.ltb_spec (y + -1) (cy (la_n L))); [|lia]. reflexivity.
Qed.
Lemma backward_eq L c : usable L -> is_cell (la_n L) c ->
  index_backward L c = index1d L (cx c, cy c, moved (la_per L) (cz (la_n L)) (cz c) (-1)).
Proof.
  intros (_ & _ & Z & _) (_ & _ & Hz). destruct c as [[x y] z]. unfold index_backward, moved. cbn [cx cy cz fst snd] in *.
  destruct (Z.eqb_spec z 0).
  - subst. change (0 <=? 0 + -1) with false. cbn [andb]. destruct (la_per L); auto.
    do 2 f_equal. apply Z.mod_unique with (-1); lia.
  - destruct (Z.leb_spec 0 (z + -1)); [|lia]. destruct (Z.ltb_spec (z + -1) (cz (la_n L))); [|lia]. reflexivity.
Qed.
Lemma right_eq L c : usable L -> is_cell (la_n L) c ->
  index_right L c = index1d L (moved (la_per L) (cx (la_n L)) (cx c) 1, cy c, cz c).
Proof.
  intros (X & _) (Hx & _). destruct c as [[x y] z]. unfold index_right, moved. cbn [cx cy cz fst snd] in *.
  destruct (Z.eqb_spec x (cx (la_n L) - 1)).
  - destruct (Z.leb_spec 0 (x + 1)); [|lia]. destruct (Z.ltb_spec (x + 1) (cx (la_n L))); [lia|]. cbn [andb].
    destruct (la_per L); auto. do 3 f_equal. apply Z.mod_unique with 1; lia.
  - destruct (Z.leb_spec 0 (x + 1)); [|lia]. destruct (Z.ltb_spec (x + 1) (cx (la_n L))); [|lia]. reflexivity.
Qed.
Lemma up_eq L c : usable L -> is_cell (la_n L) c ->
  index_up L c = index1d L (cx c, moved (la_per L) (cy (la_n L)) (cy c) 1, cz c).
Proof.
  intros (_ & Y & _) (_ & Hy & _). destruct c as [[x y] z]. unfold index_up, moved. cbn [cx cy cz fst snd] in *.
  destruct (Z.eqb_spec y (cy (la_n L) - 1)).
  - destruct (Z.leb_spec 0 (y + 1)); [|lia]. destruct (Z.ltb_spec (y + 1) (cy (la_n L))); [lia|]. cbn [andb].
    destruct (la_per L); auto. do 3 f_equal. apply Z.mod_unique with 1; lia.
  - destruct (Z.leb_spec 0 (y + 1)); [|lia]. destruct (Z.ltb_spec (y + 1) (cy (la_n L))); [|lia]. reflexivity.
Qed.
Lemma forward_eq L c : usable L -> is_cell (la_n L) c ->
  index_forward L c = index1d L (cx c, cy c, moved (la_per L) (cz (la_n L)) (cz c) 1).
Proof.
  intros (_ & _ & Z & _) (_ & _ & Hz). destruct c as [[x y] z]. unfold index_forward, moved. cbn [cx cy cz fst snd] in *.
  destruct (Z.eqb_spec z (cz (la_n L) - 1)).
  - destruct (Z.leb_spec 0 (z + 1)); [|lia]. destruct (Z.ltb_spec (z + 1) (cz (la_n L))); [lia|]. cbn [andb].
    destruct (la_per L); auto. do 2 f_equal. apply Z.mod_unique with 1; lia.
  - destruct (Z.leb_spec 0 (z + 1)); [|lia]. destruct (Z.ltb_spec (z + 1) (cz (la_n L))); [|lia]. reflexivity.
Qed.

Lemma center_index L c : usable L -> is_cell (la_n L) c -> center_of_index L (flat (la_n L) c) = center L c.
Proof.
  intros (X & Y & Z & _) (Hx & Hy & Hz). unfold center_of_index.
  assert (0 <= cz c * cy (la_n L)) by (apply Z.mul_nonneg_nonneg; lia).
  assert (R0 : 0 <= flat (la_n L) c).
  { unfold flat. assert (0 <= cx (la_n L) * (cy c + cz c * cy (la_n L))) by (apply Z.mul_nonneg_nonneg; lia). lia. }
  rewrite (Z.rem_mod_nonneg (flat (la_n L) c)), (Z.quot_div_nonneg (flat (la_n L) c)) by lia.
  assert (E1 : flat (la_n L) c mod cx (la_n L) = cx c).
  { symmetry. apply Z.mod_unique with (cy c + cz c * cy (la_n L)); [lia|]. unfold flat. ring. }
  assert (E2 : flat (la_n L) c / cx (la_n L) = cy c + cz c * cy (la_n L)).
  { symmetry. apply Z.div_unique with (cx c); [lia|]. unfold flat. ring. }
  rewrite E1, E2. rewrite Z.rem_mod_nonneg, Z.quot_div_nonneg by lia.
  assert (E3 : (cy c + cz c * cy (la_n L)) mod cy (la_n L) = cy c).
  { symmetry. apply Z.mod_unique with (cz c); [lia|]. ring. }
  assert (E4 : (cy c + cz c * cy (la_n L)) / cy (la_n L) = cz c).
  { symmetry. apply Z.div_unique with (cy c); [lia|]. ring. }
  rewrite E3, E4. destruct c as [[x y] z]. reflexivity.
Qed.

(** positive_modulo in its domain *)
Lemma positive_modulo_ok i n : 1 <= n -> - 256 * n <= i -> i + 256 * n <= INT_MAX -> n * 256 <= INT_MAX ->
  positive_modulo i n = Ok (i mod n).
Proof.
  intros N A B C. unfold positive_modulo, INT_MAX in *.
  rewrite sint_ok by (unfold INT_MIN, INT_MAX; lia). cbn [rbind].
  rewrite sint_ok by (unfold INT_MIN, INT_MAX; lia). cbn [rbind].
  destruct (Z.eqb_spec n 0); [lia|]. rewrite Z.rem_mod_nonneg by lia.
  replace (i + n * 256) with (i + 256 * n) by ring. now rewrite Z_mod_plus_full.
Qed.

Lemma in_zrange lo hi x : In x (zrange lo hi) <-> lo <= x < hi.
Proof.
  unfold zrange. rewrite in_map_iff. split.
  - intros (i & <- & I). apply in_zseq in I. lia.
  - intros H. exists (x - lo). split; [lia|]. apply in_zseq. lia.
Qed.
Lemma NoDup_zrange lo hi : NoDup (zrange lo hi).
Proof. unfold zrange. apply FinFun.Injective_map_NoDup; [|apply NoDup_zseq]. intros a b H. lia. Qed.

Definition box (lo hi : c3) : list c3 :=
  flat_map (fun z => flat_map (fun y => map (fun x => (x, y, z)) (zrange (cx lo) (cx hi)))
    (zrange (cy lo) (cy hi))) (zrange (cz lo) (cz hi)).
Lemma in_box lo hi c : In c (box lo hi) <->
  cx lo <= cx c < cx hi /\ cy lo <= cy c < cy hi /\ cz lo <= cz c < cz hi.
Proof.
  unfold box. rewrite in_flat_map. split.
  - intros (z & Z & H). apply in_flat_map in H. destruct H as (y & Y & H). apply in_map_iff in H.
    destruct H as (x & <- & X). apply in_zrange in X, Y, Z. cbn [cx cy cz fst snd]. auto.
  - intros (X & Y & Z). exists (cz c). split; [now apply in_zrange|]. apply in_flat_map. exists (cy c).
    split; [now apply in_zrange|]. apply in_map_iff. exists (cx c). split; [|now apply in_zrange].
    destruct c as [[? ?] ?]. reflexivity.
Qed.
Lemma NoDup_box lo hi : NoDup (box lo hi).
Proof.
  unfold box. apply NoDup_flat_map; [apply NoDup_zrange| |].
  - intros z _. apply NoDup_flat_map; [apply NoDup_zrange| |].
    + intros y _. apply FinFun.Injective_map_NoDup; [|apply NoDup_zrange]. intros a b H. congruence.
    + intros y y' c _ _ A B. apply in_map_iff in A, B. destruct A as (? & <- & _), B as (? & B & _). congruence.
  - intros z z' c _ _ A B. apply in_flat_map in A, B. destruct A as (? & _ & A), B as (? & _ & B).
    apply in_map_iff in A, B. destruct A as (? & <- & _), B as (? & B & _). congruence.
Qed.

Lemma map_flat_map {A B C} (f : A -> list B) (g : B -> C) l : map g (flat_map f l) = flat_map (fun a => map g (f a)) l.
Proof. induction l; cbn; auto. now rewrite map_app, IHl. Qed.

Lemma sublattice_open L lo hi : usable L -> la_per L = false ->
  0 <= cx lo -> 0 <= cy lo -> 0 <= cz lo ->
  cx hi <= cx (la_n L) -> cy hi <= cy (la_n L) -> cz hi <= cz (la_n L) ->
  iterate_sublattice L lo hi = Ok (map (fun c => (flat (la_n L) c, c)) (box lo hi)).
Proof.
  intros U P lx ly lz hx hy hz. assert (U' := U). destruct U' as (X & Y & Z & S & B).
  unfold iterate_sublattice. rewrite P.
  rewrite (mapM_ok _ _ _ (fun z => flat_map (fun y => map (fun x => (flat (la_n L) (x, y, z), (x, y, z)))
     (zrange (cx lo) (cx hi))) (zrange (cy lo) (cy hi)))).
  - cbn [rbind]. f_equal. rewrite <- flat_map_concat_map. unfold box. rewrite map_flat_map.
    apply flat_map_ext. intros z. rewrite map_flat_map. apply flat_map_ext. intros y. now rewrite map_map.
  - intros z Hz. apply in_zrange in Hz.
    assert (Z1 : 0 <= 0 < cx (la_n L)) by lia. assert (Z2 : 0 <= 0 < cy (la_n L)) by lia. assert (Z3 : 0 <= z < cz (la_n L)) by lia.
    pose proof (row_bounds _ _ _ _ _ _ X Y Z B Z1 Z2 Z3) as R.
    rewrite sint_ok by (unfold INT_MIN, INT_MAX in *; lia). cbn [rbind].
    rewrite (mapM_ok _ _ _ (fun y => map (fun x => (flat (la_n L) (x, y, z), (x, y, z))) (zrange (cx lo) (cx hi)))).
    + cbn [rbind]. now rewrite <- flat_map_concat_map.
    + intros y Hy. apply in_zrange in Hy. assert (Z4 : 0 <= y < cy (la_n L)) by lia.
      pose proof (row_bounds _ _ _ _ _ _ X Y Z B Z1 Z4 Z3) as R2.
      rewrite sint_ok by (unfold INT_MIN, INT_MAX in *; lia). cbn [rbind].
      rewrite sint_ok by (unfold INT_MIN, INT_MAX in *; lia). cbn [rbind].
      apply mapM_ok. intros x Hx. apply in_zrange in Hx. assert (Z5 : 0 <= x < cx (la_n L)) by lia.
      pose proof (row_bounds _ _ _ _ _ _ X Y Z B Z5 Z4 Z3) as R3.
      rewrite sint_ok by (unfold INT_MIN, INT_MAX in *; lia). cbn [rbind].
      destruct (fetch_cell L (x, y, z) U) as (v & F & _). { split; auto. }
      change (x + cx (la_n L) * (y + z * cy (la_n L))) with (flat (la_n L) (x, y, z)). rewrite F. reflexivity.
Qed.

(** window in which positive_modulo is right *)
Definition mod_ok (n lo hi : Z) : Prop :=
  - 256 * n <= lo /\ hi + 256 * n <= INT_MAX /\ n * 256 <= INT_MAX.
Lemma sublattice_per L lo hi : usable L -> la_per L = true ->
  mod_ok (cx (la_n L)) (cx lo) (cx hi) -> mod_ok (cy (la_n L)) (cy lo) (cy hi) -> mod_ok (cz (la_n L)) (cz lo) (cz hi) ->
  iterate_sublattice L lo hi = Ok (map (fun c => (flat (la_n L) (folded (la_n L) c), c)) (box lo hi)).
Proof.
  intros U P (a1 & a2 & a3) (b1 & b2 & b3) (c1 & c2 & c3). assert (U' := U). destruct U' as (X & Y & Z & S & B).
  unfold iterate_sublattice. rewrite P.
  rewrite (mapM_ok _ _ _ (fun z => flat_map (fun y => map (fun x => (flat (la_n L) (folded (la_n L) (x, y, z)), (x, y, z)))
     (zrange (cx lo) (cx hi))) (zrange (cy lo) (cy hi)))).
  - cbn [rbind]. f_equal. rewrite <- flat_map_concat_map. unfold box. rewrite map_flat_map.
    apply flat_map_ext. intros z. rewrite map_flat_map. apply flat_map_ext. intros y. now rewrite map_map.
  - intros z Hz. apply in_zrange in Hz. rewrite positive_modulo_ok by lia. cbn [rbind].
    assert (Z1 : 0 <= 0 < cx (la_n L)) by lia. assert (Z2 : 0 <= 0 < cy (la_n L)) by lia.
    assert (Z3 : 0 <= z mod cz (la_n L) < cz (la_n L)) by (apply Z.mod_pos_bound; lia).
    pose proof (row_bounds _ _ _ _ _ _ X Y Z B Z1 Z2 Z3) as R.
    rewrite sint_ok by (unfold INT_MIN, INT_MAX in *; lia). cbn [rbind].
    rewrite (mapM_ok _ _ _ (fun y => map (fun x => (flat (la_n L) (folded (la_n L) (x, y, z)), (x, y, z))) (zrange (cx lo) (cx hi)))).
    + cbn [rbind]. now rewrite <- flat_map_concat_map.
    + intros y Hy. apply in_zrange in Hy. rewrite positive_modulo_ok by lia. cbn [rbind].
      assert (Z4 : 0 <= y mod cy (la_n L) < cy (la_n L)) by (apply Z.mod_pos_bound; lia).
      pose proof (row_bounds _ _ _ _ _ _ X Y Z B Z1 Z4 Z3) as R2.
      rewrite sint_ok by (unfold INT_MIN, INT_MAX in *; lia). cbn [rbind].
      rewrite sint_ok by (unfold INT_MIN, INT_MAX in *; lia). cbn [rbind].
      apply mapM_ok. intros x Hx. apply in_zrange in Hx. rewrite positive_modulo_ok by lia. cbn [rbind].
      assert (Z5 : 0 <= x mod cx (la_n L) < cx (la_n L)) by (apply Z.mod_pos_bound; lia).
      pose proof (row_bounds _ _ _ _ _ _ X Y Z B Z5 Z4 Z3) as R3.
      rewrite sint_ok by (unfold INT_MIN, INT_MAX in *; lia). cbn [rbind].
      destruct (fetch_cell L (folded (la_n L) (x, y, z)) U) as (v & F & _). { split; auto. }
      change (x mod cx (la_n L) + cx (la_n L) * (y mod cy (la_n L) + z mod cz (la_n L) * cy (la_n L)))
        with (flat (la_n L) (folded (la_n L) (x, y, z))). rewrite F. reflexivity.
Qed.

Lemma folded_cell L c : usable L -> is_cell (la_n L) (folded (la_n L) c).
Proof.
  intros (X & Y & Z & _). unfold is_cell, folded. cbn [cx cy cz fst snd].
  repeat split; apply Z.mod_pos_bound; lia.
Qed.

Lemma cell_size_pos L : usable L -> extended L ->
  (0 < rx (cell_size L) /\ 0 < ry (cell_size L) /\ 0 < rz (cell_size L))%R.
Proof.
  intros (X & Y & Z & _) (A & B & C). unfold cell_size. cbn [rx ry rz fst snd].
  repeat split; apply Rdiv_lt_0_compat; auto; apply IZR_lt; lia.
Qed.
End One.

(** bounds *)
Lemma bound_spec p o r s i : (0 < s)%R ->
  (Zceil ((p - o + r) / s - 1 / 2) <= i <-> (p + r <= o + s * (IZR i + 1 / 2))%R).
Proof.
  intros S. split; intros H.
  - apply IZR_le in H. pose proof (Zceil_ub ((p - o + r) / s - 1 / 2)) as U.
    assert (E : ((p - o + r) / s <= IZR i + 1 / 2)%R) by lra.
    apply (Rmult_le_compat_r s) in E; [|lra]. replace ((p - o + r) / s * s)%R with (p - o + r)%R in E by (field; lra). lra.
  - apply Zceil_glb. assert (E : ((p - o + r) / s <= IZR i + 1 / 2)%R); [|lra].
    apply Rmult_le_reg_r with s; auto. replace ((p - o + r) / s * s)%R with (p - o + r)%R by (field; lra). lra.
Qed.
Lemma bound_ok p o r s : (0 < s)%R -> (Rabs (p - o) + Rabs r <= 1000000000 * s)%R ->
  bound p o r s = Ok (Zceil ((p - o + r) / s - 1 / 2)).
Proof.
  intros S H. unfold bound. apply to_int_ok.
  assert (A : (-1000000000 <= (p - o + r) / s <= 1000000000)%R).
  { assert (Rabs (p - o + r) <= 1000000000 * s)%R. { pose proof (Rabs_triang (p - o) r). lra. }
    pose proof (Rabs_le_inv _ _ H0).
    split; apply Rmult_le_reg_r with s; auto; replace ((p - o + r) / s * s)%R with (p - o + r)%R by (field; lra); lra. }
  unfold INT_MIN, INT_MAX. split.
  - apply Z.le_trans with (-1000000001); [lia|].
    apply le_IZR. pose proof (Zceil_ub ((p - o + r) / s - 1 / 2)). lra.
  - apply Z.le_trans with 1000000000; [|lia]. apply Zceil_glb. lra.
Qed.
