(** C21-C24, C64, C65: the rectangular lattice. *)
From Coq Require Import ZArith Reals List Bool Lia Lra Psatz.
From Flocq Require Import Core.
From Verif Require Import Base GridModel GridSpec LatticeModel LatticeSpec LatticeProofs LatticeMore LatticeGrad.
Import ListNotations.
Open Scope Z_scope.

(** a 3 x 2 x 4 lattice of unit cells used in the examples *)
Definition sample (per : bool) : lat R := Lat (repeat 0%R 24) (3, 2, 4)%R (3, 2, 4) (0, 0, 0)%R per.
Lemma sample_usable per : usable (sample per).
Proof. unfold usable, sample, INT_MAX. cbn. lia. Qed.
Lemma sample_extended per : extended (sample per).
Proof. unfold extended, sample. cbn. lra. Qed.

(** ** C21 *)
Theorem lattice_constructed_usable {T} len n orig per (zero : T) :
  match mk_lat len n orig per zero with
  | Ok L => usable L /\ la_n L = n /\ la_len L = len /\ la_orig L = orig /\ la_per L = per /\
            (forall v, In v (la_store L) -> v = zero)
  | Throw _ => cx n < 1 \/ cy n < 1 \/ cz n < 1 \/ (rx len < 0 \/ ry len < 0 \/ rz len < 0)%R
  | UB _ => ~ (INT_MIN <= cx n * cy n <= INT_MAX /\ INT_MIN <= cx n * cy n * cz n <= INT_MAX)
  end.
Proof.
  unfold mk_lat, sint. destruct (in_i32 (cx n * cy n)) eqn:A; cbn [rbind].
  2:{ apply Bool.andb_false_iff in A. rewrite !Z.leb_gt in A. lia. }
  destruct (in_i32 (cx n * cy n * cz n)) eqn:B; cbn [rbind].
  2:{ apply Bool.andb_false_iff in B. rewrite !Z.leb_gt in B. lia. }
  unfold in_i32 in A, B. rewrite Bool.andb_true_iff, !Z.leb_le in A, B.
  unfold resized. destruct (Z.ltb_spec (cx n * cy n * cz n) 0).
  - cbn [rbind]. destruct (Z.lt_ge_cases (cx n) 1); [auto|]. destruct (Z.lt_ge_cases (cy n) 1); [auto|].
    destruct (Z.lt_ge_cases (cz n) 1); [auto|]. assert (0 <= cx n * cy n * cz n); [|lia].
    apply Z.mul_nonneg_nonneg; [apply Z.mul_nonneg_nonneg|]; lia.
  - cbn [rbind]. destruct (Z.ltb_spec (cx n) 1); cbn [orb]; [auto|]. destruct (Z.ltb_spec (cy n) 1); cbn [orb]; [auto|].
    destruct (Z.ltb_spec (cz n) 1); cbn [orb]; [auto|].
    destruct (Rlt_bool_spec (rx len) 0); cbn [orb]; [auto|]. destruct (Rlt_bool_spec (ry len) 0); cbn [orb]; [auto 6|].
    destruct (Rlt_bool_spec (rz len) 0); cbn [orb]; [auto 6|].
    unfold usable. cbn [la_n la_store la_len la_orig la_per]. rewrite repeat_length. repeat split; auto; try lia.
    intros v V. now apply repeat_spec in V.
Qed.
Print Assumptions lattice_constructed_usable.

Theorem lattice_index_bijective {T} (L : lat T) : usable L ->
  (forall c, is_cell (la_n L) c -> exists i, index1d L c = Ok i /\ 0 <= i < Z.of_nat (length (la_store L))) /\
  (forall a b i, is_cell (la_n L) a -> is_cell (la_n L) b -> index1d L a = Ok i -> index1d L b = Ok i -> a = b) /\
  (forall i, 0 <= i < Z.of_nat (length (la_store L)) -> exists c, is_cell (la_n L) c /\ index1d L c = Ok i).
Proof.
  intros U. assert (U' := U). destruct U' as (X & Y & Z & S & _). split; [|split].
  - intros c C. exists (flat (la_n L) c). split; [now apply index1d_ok|]. rewrite S. now apply flat_range.
  - intros a b i A B I J. rewrite index1d_ok in I, J by auto. eapply flat_inj; eauto. congruence.
  - intros i I. rewrite S in I. destruct (GridProofs.make_index_surj (la_n L) i) as (a & A & E); try lia.
    exists a. split; auto. rewrite index1d_ok by auto. rewrite flat_make. congruence.
Qed.
Print Assumptions lattice_index_bijective.

Theorem lattice_cell_center_of_index {T} (L : lat T) c i : usable L -> is_cell (la_n L) c ->
  index1d L c = Ok i -> center_of_index L i = center L c.
Proof. intros U C I. rewrite index1d_ok in I by auto. assert (i = flat (la_n L) c) by congruence. subst. now apply center_index. Qed.
Print Assumptions lattice_cell_center_of_index.

Theorem lattice_neighbours {T} (L : lat T) c : usable L -> is_cell (la_n L) c ->
  let n := la_n L in let m := moved (la_per L) in
  index_left L c = index1d L (m (cx n) (cx c) (-1), cy c, cz c) /\
  index_right L c = index1d L (m (cx n) (cx c) 1, cy c, cz c) /\
  index_down L c = index1d L (cx c, m (cy n) (cy c) (-1), cz c) /\
  index_up L c = index1d L (cx c, m (cy n) (cy c) 1, cz c) /\
  index_backward L c = index1d L (cx c, cy c, m (cz n) (cz c) (-1)) /\
  index_forward L c = index1d L (cx c, cy c, m (cz n) (cz c) 1) /\
  (forall d, In d [index_left L c; index_right L c; index_down L c; index_up L c; index_backward L c; index_forward L c] ->
    exists i, d = Ok i /\ 0 <= i < Z.of_nat (length (la_store L))).
Proof.
  intros U C n m.
  rewrite (left_eq L c U C), (right_eq L c U C), (down_eq L c U C), (up_eq L c U C), (backward_eq L c U C), (forward_eq L c U C).
  repeat split; auto. intros d Hd. destruct (lattice_index_bijective L U) as (B & _).
  pose proof (six_cells L c) as S.
  cbn [In] in Hd. repeat (destruct Hd as [<-|Hd]; [apply B; apply (S _ U C); unfold six; cbn [In]; tauto|]). destruct Hd.
Qed.
Print Assumptions lattice_neighbours.
Example lattice_case : usable (sample true) /\ is_cell (la_n (sample true)) (0, 1, 3) /\
  index_left (sample true) (0, 1, 3) = Ok 23 /\ index_left (sample false) (0, 1, 3) = Ok 21.
Proof. split; [apply sample_usable|]. split; [unfold is_cell; cbn; lia|]. split; reflexivity. Qed.

(** ** C22 *)
(** [in_reach]: the box in units of the cell size is within a billion cells of the origin, so the bounds fit in int. *)
Theorem open_box_iteration_exact {T} (L : lat T) p r :
  usable L -> extended L -> la_per L = false -> in_reach L p r ->
  exists vs, iterate_in_rectangle L p r = Ok vs /\ NoDup vs /\
   forall i c, In (i, c) vs <-> is_cell (la_n L) c /\ index1d L c = Ok i /\ in_rect p r (center L c).
Proof. exact (rectangle_open L p r). Qed.
Print Assumptions open_box_iteration_exact.
Example open_box_case : extended (sample false) /\ in_reach (sample false) (1, 1, 1)%R (3, 1, 5)%R /\
  is_cell (la_n (sample false)) (2, 1, 0) /\ in_rect (1, 1, 1)%R (3, 1, 5)%R (center (sample false) (2, 1, 0)).
Proof.
  split; [apply sample_extended|]. unfold in_reach, is_cell, in_rect, center, cell_size, sample. cbn.
  rewrite !Rminus_0_r, !Rabs_pos_eq by lra. repeat split; lra || lia.
Qed.

(** [in_reach_per]: within 200 periods of the origin and at most four million cells per direction. *)
Theorem periodic_box_iteration_exact {T} (L : lat T) p r :
  usable L -> extended L -> la_per L = true -> in_reach_per L p r ->
  exists vs, iterate_in_rectangle L p r = Ok vs /\ NoDup vs /\
   (forall i c, In (i, c) vs <-> index1d L (folded (la_n L) c) = Ok i /\ in_rect p r (center L c)) /\
   ((2 * rx r <= rx (la_len L) /\ 2 * ry r <= ry (la_len L) /\ 2 * rz r <= rz (la_len L))%R -> NoDup (map fst vs)).
Proof. exact (rectangle_per L p r). Qed.
Print Assumptions periodic_box_iteration_exact.
Example periodic_box_case : in_reach_per (sample true) (0, 1, 1)%R (1, 1, 1)%R /\
  in_rect (0, 1, 1)%R (1, 1, 1)%R (center (sample true) (-1, 0, 0)).
Proof.
  unfold in_reach_per, in_rect, center, cell_size, sample. cbn.
  rewrite !Rminus_0_r, Rabs_R0, !Rabs_R1 by lra. repeat split; lra || lia.
Qed.

Theorem lookup_gives_value_of_containing_cell {T} (L : lat T) p :
  usable L -> extended L -> la_per L = false -> in_reach L p (0, 0, 0)%R ->
  (exists c v, is_cell (la_n L) c /\ in_cell_box L c p /\ value_of L c v /\ value_at L p = Ok (Some v)) \/
  ((forall c, is_cell (la_n L) c -> ~ in_cell_box L c p) /\ value_at L p = Ok None).
Proof. exact (value_at_open L p). Qed.
Print Assumptions lookup_gives_value_of_containing_cell.
Theorem periodic_lookup_gives_value_of_containing_cell {T} (L : lat T) p :
  usable L -> extended L -> la_per L = true -> in_reach_per L p (0, 0, 0)%R ->
  exists c v, in_cell_box L c p /\ value_of L (folded (la_n L) c) v /\ value_at L p = Ok (Some v).
Proof. exact (value_at_per L p). Qed.
Print Assumptions periodic_lookup_gives_value_of_containing_cell.

(** Finding: more than 256 periods below the origin the index becomes negative. *)
Theorem periodic_lookup_far_out_of_bounds_refuted :
  exists (L : lat R) p, usable L /\ extended L /\ la_per L = true /\ value_at L p = UB UB_oob.
Proof.
  exists (sample true), (-769, 0, 0)%R. split; [apply sample_usable|]. split; [apply sample_extended|]. split; [reflexivity|].
  unfold value_at, cell_of_point, cell_size, sample. cbn [rx ry rz cx cy cz fst snd la_len la_n la_orig].
  replace ((-769 - 0) / (3 / 3))%R with (IZR (-769)) by (unfold Rdiv; lra).
  replace ((0 - 0) / (2 / 2))%R with (IZR 0) by (unfold Rdiv; lra).
  replace ((0 - 0) / (4 / 4))%R with (IZR 0) by (unfold Rdiv; lra).
  rewrite !Zfloor_IZR. reflexivity.
Qed.
Print Assumptions periodic_lookup_far_out_of_bounds_refuted.

(** Finding: with a cut-off larger than half the lattice, nodes are visited repeatedly. *)
Theorem large_cutoff_visits_twice_refuted :
  exists (L : lat R) p r vs, usable L /\ extended L /\ la_per L = true /\
    iterate_in_cube L p r = Ok vs /\ ~ NoDup (map fst vs).
Proof.
  set (L := Lat [0%R] (1, 1, 1)%R (1, 1, 1) (0, 0, 0)%R true : lat R).
  assert (U : usable L) by (unfold usable, L, INT_MAX; cbn; lia).
  assert (E : extended L) by (unfold extended, L; cbn; lra).
  assert (R : in_reach_per L (0, 0, 0)%R (1, 1, 1)%R).
  { unfold in_reach_per, L. cbn. rewrite !Rminus_0_r, Rabs_R0, !Rabs_R1. repeat split; lra || lia. }
  destruct (rectangle_per L (0, 0, 0)%R (1, 1, 1)%R U E eq_refl R) as (vs & V & N & I & _).
  exists L, (0, 0, 0)%R, 1%R, vs. split; [exact U|]. split; [exact E|]. split; [reflexivity|]. split; [exact V|]. intros D.
  assert (A : In (0, (-1, 0, 0)) vs). { apply I. split; [reflexivity|]. unfold in_rect, center, cell_size, L. cbn. repeat split; lra. }
  assert (B : In (0, (0, 0, 0)) vs). { apply I. split; [reflexivity|]. unfold in_rect, center, cell_size, L. cbn. repeat split; lra. }
  clear -A B D. apply In_nth_error in A, B. destruct A as (a & A), B as (b & B).
  assert (a = b).
  { apply (proj1 (NoDup_nth_error (map fst vs)) D).
    - rewrite map_length. apply nth_error_Some. intros H. discriminate (eq_trans (eq_sym A) H).
    - rewrite !nth_error_map. exact (eq_trans (f_equal (option_map fst) A) (eq_sym (f_equal (option_map fst) B))). }
  subst. discriminate (eq_trans (eq_sym A) B).
Qed.
Print Assumptions large_cutoff_visits_twice_refuted.

(** Finding: iterate_nearest_neighbors does not check that the point is inside. *)
Theorem nearest_neighbours_outside_undefined_refuted :
  exists (L : lat R) p, usable L /\ extended L /\ iterate_nearest_neighbors L p = UB UB_oob.
Proof.
  exists (sample false), (-1, 0, 0)%R. split; [apply sample_usable|]. split; [apply sample_extended|].
  unfold iterate_nearest_neighbors, cell_of_point, cell_size, sample. cbn [rx ry rz cx cy cz fst snd la_len la_n la_orig].
  replace ((-1 - 0) / (3 / 3))%R with (IZR (-1)) by (unfold Rdiv; lra).
  replace ((0 - 0) / (2 / 2))%R with (IZR 0) by (unfold Rdiv; lra).
  replace ((0 - 0) / (4 / 4))%R with (IZR 0) by (unfold Rdiv; lra).
  rewrite !Zfloor_IZR. reflexivity.
Qed.
Print Assumptions nearest_neighbours_outside_undefined_refuted.

(** ** C23 *)
(** Any value type with a subtraction and a scaling by numbers: double and FourVector. *)
Theorem gradient_is_difference_quotient {T} (sub : T -> T -> T) (scale : T -> R -> T) (L : lat T) g :
  (forall v a b, scale (scale v a) b = scale v (a * b)%R) ->
  usable L -> extended L -> big2 (la_n L) -> usable g -> identical L g = true ->
  exists st, compute_gradient sub scale L g = Ok st /\ length st = length (la_store L) /\
   forall c i, is_cell (la_n L) c -> index1d L c = Ok i ->
    exists gx gy gz, nth_error st (Z.to_nat i) = Some (gx, gy, gz) /\
     let n := la_n L in let m := moved (la_per L) in let s := cell_size L in
     (forall r l, value_of L (m (cx n) (cx c) 1, cy c, cz c) r -> value_of L (m (cx n) (cx c) (-1), cy c, cz c) l ->
        gx = scale (sub r l) (1 / spacing (la_per L) (cx n) (cx c) (rx s))%R) /\
     (forall r l, value_of L (cx c, m (cy n) (cy c) 1, cz c) r -> value_of L (cx c, m (cy n) (cy c) (-1), cz c) l ->
        gy = scale (sub r l) (1 / spacing (la_per L) (cy n) (cy c) (ry s))%R) /\
     (forall r l, value_of L (cx c, cy c, m (cz n) (cz c) 1) r -> value_of L (cx c, cy c, m (cz n) (cz c) (-1)) l ->
        gz = scale (sub r l) (1 / spacing (la_per L) (cz n) (cz c) (rz s))%R).
Proof.
  intros SS U E B Ug I. destruct (la_store L) as [|d rest] eqn:Es.
  { exfalso. destruct U as (X & Y & Z & S & _). rewrite Es in S. cbn in S.
    assert (0 < cx (la_n L) * cy (la_n L) * cz (la_n L)); [|lia].
    apply Z.mul_pos_pos; [apply Z.mul_pos_pos|]; lia. }
  destruct (gradient_ok sub scale SS L g d U E B Ug I) as (st & F & Ln & V).
  exists st. split; auto. split; [congruence|]. intros c i C J. rewrite index1d_ok in J by auto.
  assert (i = flat (la_n L) c) by congruence. subst i. pose proof (V c C) as Vc. unfold gradient_of in Vc.
  do 3 eexists. split; [exact Vc|]. cbv zeta.
  assert (S := six_cells L c). 
  repeat split; intros r l R0 L0;
  match type of R0 with value_of _ ?a _ => pose proof (value_val L d a U (S a U C ltac:(unfold six; cbn [In]; tauto))) as VR end;
  match type of L0 with value_of _ ?a _ => pose proof (value_val L d a U (S a U C ltac:(unfold six; cbn [In]; tauto))) as VL end;
  rewrite (value_of_fun L _ _ _ R0 VR), (value_of_fun L _ _ _ L0 VL); reflexivity.
Qed.
Print Assumptions gradient_is_difference_quotient.

Theorem gradient_exact_for_linear_fields (L : lat R) g a bx by_ bz :
  usable L -> extended L -> la_per L = false -> big2 (la_n L) -> usable g -> identical L g = true ->
  (forall c v, is_cell (la_n L) c -> value_of L c v ->
     v = (a + bx * rx (center L c) + by_ * ry (center L c) + bz * rz (center L c))%R) ->
  exists st, compute_gradient Rminus Rmult L g = Ok st /\
   forall c i, is_cell (la_n L) c -> index1d L c = Ok i -> nth_error st (Z.to_nat i) = Some (bx, by_, bz).
Proof.
  intros U E P B Ug I Lin.
  destruct (gradient_is_difference_quotient Rminus Rmult L g ltac:(intros; ring) U E B Ug I) as (st & F & Ln & V).
  exists st. split; auto. intros c i C J. destruct (V c i C J) as (gx & gy & gz & Q & Gx & Gy & Gz). rewrite Q.
  destruct (cell_size_pos L U E) as (sx & sy & sz). cbv zeta in *.
  pose proof (six_cells L c) as S. destruct B as (BX & BY & BZ). destruct C as (C1 & C2 & C3).
  assert (W : forall d, is_cell (la_n L) d -> exists v, value_of L d v).
  { intros d D. destruct (fetch_cell L d U D) as (v & _ & X). eauto. }
  assert (M : forall n i s, 2 <= n -> 0 <= i < n -> (0 < s)%R -> 
     (IZR (moved (la_per L) n i 1) - IZR (moved (la_per L) n i (-1)) = spacing (la_per L) n i s / s)%R /\ (0 < spacing (la_per L) n i s)%R).
  { clear -P. intros n i s N I S. rewrite P. unfold moved, spacing. cbn [orb].
    destruct (Z.leb_spec 0 (i + 1)); [|lia]. destruct (Z.ltb_spec (i + -1) n); [|lia]. rewrite andb_true_r. cbn [andb].
    destruct (Z.ltb_spec (i + 1) n), (Z.leb_spec 0 (i + -1)), (Z.ltb_spec 0 i), (Z.ltb_spec i (n - 1)); cbn [andb]; try lia;
    rewrite ?plus_IZR; (split; [field; lra|lra]). }
  assert (CC : is_cell (la_n L) c) by (repeat split; lia).
  destruct (M _ (cx c) _ BX C1 sx) as [Mx Px]. destruct (M _ (cy c) _ BY C2 sy) as [My Py]. destruct (M _ (cz c) _ BZ C3 sz) as [Mz Pz].
  assert (Ax : gx = bx).
  { destruct (W _ (S (moved (la_per L) (cx (la_n L)) (cx c) 1, cy c, cz c) U CC ltac:(unfold six; cbn [In]; tauto))) as (r & R0).
    destruct (W _ (S (moved (la_per L) (cx (la_n L)) (cx c) (-1), cy c, cz c) U CC ltac:(unfold six; cbn [In]; tauto))) as (l & L0).
    rewrite (Gx r l R0 L0). apply Lin in R0, L0; try (apply (S _ U CC); unfold six; cbn [In]; tauto). subst r l.
    unfold center. cbn [rx ry rz cx cy cz fst snd]. apply Rmult_eq_reg_r with (spacing (la_per L) (cx (la_n L)) (cx c) (rx (cell_size L))); [|lra].
    rewrite Rmult_assoc. replace (1 / spacing (la_per L) (cx (la_n L)) (cx c) (rx (cell_size L)) * spacing (la_per L) (cx (la_n L)) (cx c) (rx (cell_size L)))%R with 1%R by (field; lra).
    replace (spacing (la_per L) (cx (la_n L)) (cx c) (rx (cell_size L))) with ((IZR (moved (la_per L) (cx (la_n L)) (cx c) 1) - IZR (moved (la_per L) (cx (la_n L)) (cx c) (-1))) * rx (cell_size L))%R by (rewrite Mx; field; lra).
    ring. }
  assert (Ay : gy = by_).
  { destruct (W _ (S (cx c, moved (la_per L) (cy (la_n L)) (cy c) 1, cz c) U CC ltac:(unfold six; cbn [In]; tauto))) as (r & R0).
    destruct (W _ (S (cx c, moved (la_per L) (cy (la_n L)) (cy c) (-1), cz c) U CC ltac:(unfold six; cbn [In]; tauto))) as (l & L0).
    rewrite (Gy r l R0 L0). apply Lin in R0, L0; try (apply (S _ U CC); unfold six; cbn [In]; tauto). subst r l.
    unfold center. cbn [rx ry rz cx cy cz fst snd]. apply Rmult_eq_reg_r with (spacing (la_per L) (cy (la_n L)) (cy c) (ry (cell_size L))); [|lra].
    rewrite Rmult_assoc. replace (1 / spacing (la_per L) (cy (la_n L)) (cy c) (ry (cell_size L)) * spacing (la_per L) (cy (la_n L)) (cy c) (ry (cell_size L)))%R with 1%R by (field; lra).
    replace (spacing (la_per L) (cy (la_n L)) (cy c) (ry (cell_size L))) with ((IZR (moved (la_per L) (cy (la_n L)) (cy c) 1) - IZR (moved (la_per L) (cy (la_n L)) (cy c) (-1))) * ry (cell_size L))%R by (rewrite My; field; lra).
    ring. }
  assert (Az : gz = bz).
  { destruct (W _ (S (cx c, cy c, moved (la_per L) (cz (la_n L)) (cz c) 1) U CC ltac:(unfold six; cbn [In]; tauto))) as (r & R0).
    destruct (W _ (S (cx c, cy c, moved (la_per L) (cz (la_n L)) (cz c) (-1)) U CC ltac:(unfold six; cbn [In]; tauto))) as (l & L0).
    rewrite (Gz r l R0 L0). apply Lin in R0, L0; try (apply (S _ U CC); unfold six; cbn [In]; tauto). subst r l.
    unfold center. cbn [rx ry rz cx cy cz fst snd]. apply Rmult_eq_reg_r with (spacing (la_per L) (cz (la_n L)) (cz c) (rz (cell_size L))); [|lra].
    rewrite Rmult_assoc. replace (1 / spacing (la_per L) (cz (la_n L)) (cz c) (rz (cell_size L)) * spacing (la_per L) (cz (la_n L)) (cz c) (rz (cell_size L)))%R with 1%R by (field; lra).
    replace (spacing (la_per L) (cz (la_n L)) (cz c) (rz (cell_size L))) with ((IZR (moved (la_per L) (cz (la_n L)) (cz c) 1) - IZR (moved (la_per L) (cz (la_n L)) (cz c) (-1))) * rz (cell_size L))%R by (rewrite Mz; field; lra).
    ring. }
  now rewrite Ax, Ay, Az.
Qed.
Print Assumptions gradient_exact_for_linear_fields.
Example gradient_case : big2 (la_n (sample false)) /\
  identical (sample false) (Lat (repeat (0, 0, 0)%R 24) (3, 2, 4)%R (3, 2, 4) (0, 0, 0)%R false) = true /\
  (forall c v, is_cell (la_n (sample false)) c -> value_of (sample false) c v ->
     v = (0 + 0 * rx (center (sample false) c) + 0 * ry (center (sample false) c) + 0 * rz (center (sample false) c))%R).
Proof.
  split; [unfold big2; cbn; lia|]. split.
  - unfold identical, sample, near_r. cbn [la_n la_len la_orig la_per cx cy cz rx ry rz fst snd].
    rewrite !Rminus_eq_0, Rabs_R0, Rlt_bool_true by lra. reflexivity.
  - intros c v _ (i & _ & V). apply nth_error_In in V. unfold sample in V. cbn [la_store] in V. apply repeat_spec in V. subst. ring.
Qed.

Theorem four_gradient_is_difference_quotient {T} (sub : T -> T -> T) (scale : T -> R -> T) (L old : lat T) dt g :
  (forall v a b, scale (scale v a) b = scale v (a * b)%R) ->
  usable L -> extended L -> big2 (la_n L) -> usable g -> identical L g = true -> usable old -> la_n old = la_n L ->
  exists st, compute_four_gradient sub scale L old dt g = Ok st /\ length st = length (la_store L) /\
   forall c i, is_cell (la_n L) c -> index1d L c = Ok i ->
    exists gt gx gy gz, nth_error st (Z.to_nat i) = Some (gt, (gx, gy, gz)) /\
     let n := la_n L in let m := moved (la_per L) in let s := cell_size L in
     (forall a b, value_of L c a -> value_of old c b -> gt = scale (sub a b) (1 / dt)%R) /\
     (forall r l, value_of L (m (cx n) (cx c) 1, cy c, cz c) r -> value_of L (m (cx n) (cx c) (-1), cy c, cz c) l ->
        gx = scale (sub r l) (1 / spacing (la_per L) (cx n) (cx c) (rx s))%R) /\
     (forall r l, value_of L (cx c, m (cy n) (cy c) 1, cz c) r -> value_of L (cx c, m (cy n) (cy c) (-1), cz c) l ->
        gy = scale (sub r l) (1 / spacing (la_per L) (cy n) (cy c) (ry s))%R) /\
     (forall r l, value_of L (cx c, cy c, m (cz n) (cz c) 1) r -> value_of L (cx c, cy c, m (cz n) (cz c) (-1)) l ->
        gz = scale (sub r l) (1 / spacing (la_per L) (cz n) (cz c) (rz s))%R).
Proof.
  intros SS U E B Ug I Uo No. destruct (la_store L) as [|d rest] eqn:Es.
  { exfalso. destruct U as (X & Y & Z & S & _). rewrite Es in S. cbn in S.
    assert (0 < cx (la_n L) * cy (la_n L) * cz (la_n L)); [|lia].
    apply Z.mul_pos_pos; [apply Z.mul_pos_pos|]; lia. }
  destruct (four_gradient_ok sub scale SS L old g dt d U E B Ug I Uo No) as (st & F & Ln & V).
  exists st. split; auto. split; [congruence|]. intros c i C J. rewrite index1d_ok in J by auto.
  assert (i = flat (la_n L) c) by congruence. subst i. pose proof (V c C) as Vc. unfold gradient_of in Vc.
  do 4 eexists. split; [exact Vc|]. cbv zeta.
  assert (S := six_cells L c). split.
  { intros a b A0 B0. pose proof (value_val L d c U C) as VA.
    pose proof (value_val old d c Uo ltac:(now rewrite No)) as VB.
    rewrite (value_of_fun L _ _ _ A0 VA), (value_of_fun old _ _ _ B0 VB); reflexivity. }
  repeat split; intros r l R0 L0;
  match type of R0 with value_of _ ?a _ => pose proof (value_val L d a U (S a U C ltac:(unfold six; cbn [In]; tauto))) as VR end;
  match type of L0 with value_of _ ?a _ => pose proof (value_val L d a U (S a U C ltac:(unfold six; cbn [In]; tauto))) as VL end;
  rewrite (value_of_fun L _ _ _ R0 VR), (value_of_fun L _ _ _ L0 VL); reflexivity.
Qed.
Print Assumptions four_gradient_is_difference_quotient.

(** Gradients are refused, before any write, when a direction has fewer than two cells
    or the output lattice is shaped differently (and by
    [gradient_is_difference_quotient] only then). *)
Theorem gradient_refused {T} (sub : T -> T -> T) (scale : T -> R -> T) (L old : lat T) dt g g4 :
  let thin := cx (la_n L) < 2 \/ cy (la_n L) < 2 \/ cz (la_n L) < 2 in
  (thin -> compute_gradient sub scale L g = Throw E_runtime /\
           compute_four_gradient sub scale L old dt g4 = Throw E_runtime) /\
  (~ thin -> identical L g = false -> compute_gradient sub scale L g = Throw E_invalid_argument) /\
  (~ thin -> identical L g4 = false -> compute_four_gradient sub scale L old dt g4 = Throw E_invalid_argument).
Proof.
  intros thin.
  assert (D : (cx (la_n L) <? 2) || (cy (la_n L) <? 2) || (cz (la_n L) <? 2) = true <-> thin).
  { unfold thin. rewrite !Bool.orb_true_iff, !Z.ltb_lt. tauto. }
  unfold compute_gradient, compute_four_gradient. split; [|split].
  - intros H. rewrite (proj2 D H). auto.
  - intros H I. destruct (_ || _ || _) eqn:E; [exfalso; tauto|]. rewrite I. reflexivity.
  - intros H I. destruct (_ || _ || _) eqn:E; [exfalso; tauto|]. rewrite I. reflexivity.
Qed.
Print Assumptions gradient_refused.
Example gradient_refused_case :
  compute_gradient Rminus Rmult (Lat [1; 2; 3; 4]%R (1, 1, 1)%R (2, 2, 1) (0, 0, 0)%R false)
     (Lat [] (1, 1, 1)%R (2, 2, 1) (0, 0, 0)%R false) = Throw E_runtime.
Proof. reflexivity. Qed.

(** ** C24 *)
Theorem resize_keeps_usable {T} (zero : T) (L : lat T) new_len new_orig : usable L ->
  match reset_and_resize zero L new_len new_orig None with
  | Ok L' => usable L' /\ la_n L' = la_n L /\ (forall c, is_cell (la_n L') c -> value_of L' c zero)
  | Throw _ => new_len = None /\ new_orig = None
  | UB _ => False
  end.
Proof.
  intros U. unfold reset_and_resize.
  assert (G : forall l o, let L' := Lat (map (fun _ => zero) (la_store L)) l (la_n L) o (la_per L) in
     usable L' /\ la_n L' = la_n L /\ (forall c, is_cell (la_n L') c -> value_of L' c zero)).
  { intros l o L'. assert (U' : usable L').
    { destruct U as (X & Y & Z & S & B). unfold usable, L'. cbn [la_n la_store]. rewrite map_length. auto. }
    split; auto. split; auto. intros c C. destruct (fetch_cell L' c U' C) as (v & _ & i & I & V).
    assert (v = zero). { apply nth_error_In in V. unfold L' in V. cbn [la_store] in V. apply in_map_iff in V. destruct V as (? & <- & _). auto. }
    subst. exists i. auto. }
  destruct new_len, new_orig; try apply G; auto.
Qed.
Print Assumptions resize_keeps_usable.

(** Finding: changing the number of cells does not change the storage, so cells the
    resized lattice claims to have lie outside it. *)
Theorem resize_cells_out_of_bounds_refuted :
  exists (L L' : lat R) c, usable L /\ reset_and_resize 0%R L None None (Some (4, 4, 4)) = Ok L' /\
    is_cell (la_n L') c /\ out_of_bounds L' c = false /\ node L' c = UB UB_oob.
Proof.
  eexists (sample false), _, (3, 3, 3). split; [apply sample_usable|]. split; [reflexivity|].
  split; [unfold is_cell; cbn; lia|]. split; reflexivity.
Qed.
Print Assumptions resize_cells_out_of_bounds_refuted.

(** ** C64 discrete smearing *)
(** [c] has a distinct neighbour on each side *)
Definition inner {T} (L : lat T) (c : c3) : Prop :=
  if la_per L then 2 <= cx (la_n L) /\ 2 <= cy (la_n L) /\ 2 <= cz (la_n L)
  else 0 < cx c < cx (la_n L) - 1 /\ 0 < cy c < cy (la_n L) - 1 /\ 0 < cz c < cz (la_n L) - 1.
Theorem discrete_smearing_weights_sum_to_one {T} (L : lat T) p c big :
  usable L -> extended L -> in_reach L p (0, 0, 0)%R -> is_cell (la_n L) c -> in_cell_box L c p -> inner L c ->
  exists vs, iterate_nearest_neighbors L p = Ok vs /\ length vs = 7%nat /\ total (map (discrete_weight big) vs) = 1%R.
Proof.
  intros U E R C I N. rewrite (neighbors_ok L p c U E R C I). eexists. split; [reflexivity|]. split; [reflexivity|].
  rewrite map_map. cbn [map six].
  assert (G : forall d, In d (six (la_per L) (la_n L) c) -> d <> c -> discrete_weight big (flat (la_n L) d, flat (la_n L) c) = ((1 - big) / 6)%R).
  { intros d D NE. unfold discrete_weight. cbn [fst snd]. destruct (Z.eqb_spec (flat (la_n L) d) (flat (la_n L) c)); auto.
    exfalso. apply NE. eapply flat_inj; eauto. eapply six_cells; eauto. }
  assert (D1 : discrete_weight big (flat (la_n L) c, flat (la_n L) c) = big).
  { unfold discrete_weight. cbn [fst snd]. now rewrite Z.eqb_refl. }
  assert (M : forall n i, 0 <= i < n -> (if la_per L then 2 <= n else 0 < i < n - 1) ->
     moved (la_per L) n i 1 <> i /\ moved (la_per L) n i (-1) <> i).
  { intros n i Hi H. unfold moved.
    destruct (Z.leb_spec 0 (i + 1)), (Z.ltb_spec (i + 1) n), (Z.leb_spec 0 (i + -1)), (Z.ltb_spec (i + -1) n); cbn [andb]; destruct (la_per L); try lia.
    all: split; try lia.
    all: try (assert (i = n - 1) by lia; subst i; rewrite <- (Z.mod_unique (n - 1 + 1) n 1 0) by lia; lia).
    all: try (assert (i = 0) by lia; subst i; rewrite <- (Z.mod_unique (0 + -1) n (-1) (n - 1)) by lia; lia). }
  destruct C as (C1 & C2 & C3). unfold inner in N.
  destruct (M (cx (la_n L)) (cx c) C1) as [X1 X2]. { destruct (la_per L); tauto. }
  destruct (M (cy (la_n L)) (cy c) C2) as [Y1 Y2]. { destruct (la_per L); tauto. }
  destruct (M (cz (la_n L)) (cz c) C3) as [Z1 Z2]. { destruct (la_per L); tauto. }
  rewrite D1. rewrite !G; try (unfold six; cbn [In]; tauto).
  all: try solve [intros Hc; first [apply X1; exact (f_equal cx Hc) | apply X2; exact (f_equal cx Hc)
    | apply Y1; exact (f_equal cy Hc) | apply Y2; exact (f_equal cy Hc)
    | apply Z1; exact (f_equal cz Hc) | apply Z2; exact (f_equal cz Hc)]].
  unfold total. cbn [fold_right]. field.
Qed.
Print Assumptions discrete_smearing_weights_sum_to_one.
Example discrete_case : is_cell (la_n (sample true)) (0, 1, 3) /\ in_cell_box (sample true) (0, 1, 3) (1/4, 3/2, 7/2)%R /\
  inner (sample true) (0, 1, 3) /\ in_reach (sample true) (1/4, 3/2, 7/2)%R (0, 0, 0)%R.
Proof.
  unfold is_cell, in_cell_box, inner, in_reach, center, cell_size, sample. cbn.
  rewrite !Rminus_0_r, Rabs_R0, !Rabs_pos_eq by lra. repeat split; lra || lia.
Qed.

(** Finding: at the border of an open lattice the missing neighbours count as the
    centre, so each adds the central weight; in the corner cell the default weights
    (1/3 and 1/9) add up to 5/3. *)
Theorem discrete_smearing_border_refuted :
  exists (L : lat R) p vs, usable L /\ extended L /\ la_per L = false /\
    is_cell (la_n L) (0, 0, 0) /\ in_cell_box L (0, 0, 0) p /\
    iterate_nearest_neighbors L p = Ok vs /\ total (map (discrete_weight (1 / 3)) vs) = (5 / 3)%R.
Proof.
  assert (U := sample_usable false). assert (E := sample_extended false).
  assert (R : in_reach (sample false) (0, 0, 0)%R (0, 0, 0)%R).
  { unfold in_reach, cell_size, sample. cbn. rewrite !Rminus_0_r, Rabs_R0. repeat split; lra. }
  assert (C : is_cell (la_n (sample false)) (0, 0, 0)) by (unfold is_cell; cbn; lia).
  assert (I : in_cell_box (sample false) (0, 0, 0) (0, 0, 0)%R).
  { unfold in_cell_box, center, cell_size, sample. cbn. repeat split; lra. }
  eexists (sample false), (0, 0, 0)%R, _. repeat (split; [first [assumption | reflexivity]|]).
  split. { exact (neighbors_ok _ _ (0, 0, 0) U E R C I). }
  unfold six, total, discrete_weight, flat. cbn. lra.
Qed.
Print Assumptions discrete_smearing_border_refuted.

(** ** C65 triangular smearing *)
(** With an integer range the weights integrate to one, wherever the particle is in a
    periodic lattice, and in an open one if the stencil fits inside. *)
Theorem triangular_smearing_normalised {T} (L : lat T) k p :
  usable L -> extended L -> 0 < k ->
  (if la_per L then in_reach_per L p (triangular_radius L (IZR k))
   else fits L p (triangular_radius L (IZR k)) /\ cx (la_n L) <= 500000000 /\ cy (la_n L) <= 500000000 /\ cz (la_n L) <= 500000000) ->
  exists vs, triangular_visits L (IZR k) p = Ok vs /\
   (rx (cell_size L) * ry (cell_size L) * rz (cell_size L) * total (map (triangular_weight L (IZR k) p) vs) = 1)%R.
Proof.
  intros U E K H. unfold triangular_visits. destruct (la_per L) eqn:P.
  - rewrite (rectangle_per_eq L p _ U E P H). eexists. split; [reflexivity|].
    apply (tri_total L k p (fun c => flat (la_n L) (folded (la_n L) c))); auto.
  - destruct H as (F & NX & NY & NZ). destruct (cell_size_pos L U E) as (sx & sy & sz).
    assert (K1 : (0 < IZR k)%R) by now apply IZR_lt.
    rewrite (fits_open L p _ U E P F); auto.
    + eexists. split; [reflexivity|]. apply (tri_total L k p (fun c => flat (la_n L) c)); auto.
    + unfold triangular_radius. cbn [rx ry rz fst snd] in *. repeat split; apply Rmult_le_pos; lra.
Qed.
Print Assumptions triangular_smearing_normalised.
Example triangular_case : in_reach_per (sample true) (1/4, 3/2, 7/2)%R (triangular_radius (sample true) (IZR 2)).
Proof.
  unfold in_reach_per, triangular_radius, cell_size, sample. cbn.
  rewrite !Rminus_0_r, !Rabs_pos_eq by lra. repeat split; lra || lia.
Qed.

(** Finding: for a non-integer range the weights do not integrate to one. *)
Theorem triangular_smearing_fractional_range_refuted :
  exists (L : lat R) p vs, usable L /\ extended L /\ fits L p (triangular_radius L (3 / 2)) /\
   triangular_visits L (3 / 2) p = Ok vs /\
   (rx (cell_size L) * ry (cell_size L) * rz (cell_size L) * total (map (triangular_weight L (3 / 2) p) vs) <> 1)%R.
Proof.
  set (L := Lat (repeat 0%R 512) (8, 8, 8)%R (8, 8, 8) (0, 0, 0)%R false : lat R).
  assert (U : usable L) by (unfold usable, L, INT_MAX; cbn [la_n la_store cx cy cz fst snd]; rewrite repeat_length; lia).
  assert (E : extended L) by (unfold extended, L; cbn; lra).
  set (p := (9 / 2, 9 / 2, 9 / 2)%R : r3).
  assert (F : fits L p (triangular_radius L (3 / 2))) by (unfold fits, triangular_radius, cell_size, L, p; cbn; repeat split; lra).
  assert (S : cell_size L = (8 / 8, 8 / 8, 8 / 8)%R) by reflexivity.
  eexists L, p, _. split; [exact U|]. split; [exact E|]. split; [exact F|].
  split. { unfold triangular_visits. apply fits_open; auto; unfold L; cbn; try lia. repeat split; lra. }
  rewrite map_map.
  rewrite (map_ext _ (fun c => (3 / 2 - Rabs (IZR (cx c) - 4)) * (3 / 2 - Rabs (IZR (cy c) - 4)) * (3 / 2 - Rabs (IZR (cz c) - 4)) * (64 / 729))%R).
  2:{ intros c. unfold triangular_weight, triangular_radius, center, p. rewrite S. cbn [rx ry rz fst snd la_orig L].
      replace (0 + 8 / 8 * (IZR (cx c) + 1 / 2) - 9 / 2)%R with (IZR (cx c) - 4)%R by field.
      replace (0 + 8 / 8 * (IZR (cy c) + 1 / 2) - 9 / 2)%R with (IZR (cy c) - 4)%R by field.
      replace (0 + 8 / 8 * (IZR (cz c) + 1 / 2) - 9 / 2)%R with (IZR (cz c) - 4)%R by field. field. }
  rewrite total_mul_r.
  rewrite (total_box (fun i => 3 / 2 - Rabs (IZR i - 4))%R (fun i => 3 / 2 - Rabs (IZR i - 4))%R (fun i => 3 / 2 - Rabs (IZR i - 4))%R).
  unfold lower, upper, triangular_radius, p. rewrite S. cbn [rx ry rz cx cy cz fst snd la_orig L].
  assert (Lo : Zceil ((9 / 2 - 0 + - (3 / 2 * (8 / 8))) / (8 / 8) - 1 / 2) = 3).
  { apply Zceil_imp. change (IZR (3 - 1)) with 2%R. lra. }
  assert (Hi : Zceil ((9 / 2 - 0 + 3 / 2 * (8 / 8)) / (8 / 8) - 1 / 2) = 6).
  { apply Zceil_imp. change (IZR (6 - 1)) with 5%R. lra. }
  rewrite Lo, Hi. change (zrange 3 6) with [3; 4; 5]. unfold total. cbn [map fold_right].
  replace (3 - 4)%R with (-1)%R by ring. replace (4 - 4)%R with 0%R by ring. replace (5 - 4)%R with 1%R by ring.
  rewrite Rabs_R0, Rabs_R1, Rabs_left by lra. lra.
Qed.
Print Assumptions triangular_smearing_fractional_range_refuted.
