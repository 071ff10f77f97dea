(** Gradients on the lattice, and sums of smearing weights. *)
From Coq Require Import ZArith Reals List Bool Lia Lra Psatz.
From Flocq Require Import Core.
From Verif Require Import Base Search GridModel GridSpec GridProofs GridOffers LatticeModel LatticeSpec LatticeProofs LatticeMore.
Import ListNotations.
Open Scope Z_scope.

(** storing at distinct places *)
Lemma fold_store {U} (g : c3 -> U) (f : c3 -> res U) (ix : c3 -> Z) l : forall st,
  (forall c, In c l -> f c = Ok (g c)) -> (forall c, In c l -> 0 <= ix c < Z.of_nat (length st)) ->
  (forall c d, In c l -> In d l -> ix c = ix d -> c = d) -> NoDup l ->
  exists st', foldM (fun st c => v <- f c ;; store st (ix c) v) st l = Ok st' /\ length st' = length st /\
    (forall c, In c l -> nth_error st' (Z.to_nat (ix c)) = Some (g c)) /\
    (forall i, (forall c, In c l -> Z.to_nat (ix c) <> i) -> nth_error st' i = nth_error st i).
Proof.
  induction l as [|a l IH]; intros st F R I N; cbn [foldM].
  - exists st. repeat split; auto. intros c [].
  - rewrite F by (left; auto). cbn [rbind]. unfold store at 1.
    pose proof (R a (or_introl eq_refl)) as Ra. destruct (Z.ltb_spec (ix a) 0); [lia|].
    destruct (nth_error st (Z.to_nat (ix a))) eqn:E; [|apply nth_error_None in E; lia]. cbn [rbind].
    inversion N as [|? ? N1 N2]; subst.
    destruct (IH (upd (Z.to_nat (ix a)) (g a) st)) as (st' & F' & L' & A' & O'); auto.
    { intros. apply F. now right. } { intros. rewrite upd_length. apply R. now right. }
    { intros. apply I; auto; now right. }
    exists st'. split; [exact F'|]. rewrite upd_length in L'. split; auto. split.
    + intros c [<-|C]; auto. rewrite O'.
      * apply nth_error_upd_eq. lia.
      * intros c C. intros H1. apply N1. replace a with c; auto. apply I; [now right|now left|].
        pose proof (R c (or_intror C)). lia.
    + intros i H1. rewrite O'; [|intros; apply H1; now right]. apply nth_error_upd_neq. apply H1. now left.
Qed.

Lemma all_cells_box n : all_cells n = box (0, 0, 0) n.
Proof.
  assert (E : forall k, zrange 0 k = zseq k).
  { intros. unfold zrange. rewrite Z.sub_0_r. rewrite <- (map_id (zseq k)) at 2. apply map_ext. intros; lia. }
  unfold all_cells, box. cbn [cx cy cz fst snd]. now rewrite !E.
Qed.
Lemma in_all_cells n c : In c (all_cells n) <-> is_cell n c.
Proof. rewrite all_cells_box, in_box. reflexivity. Qed.

Section Grad.
Context {T : Type}.
Variable sub : T -> T -> T.
Variable scale : T -> R -> T.
Hypothesis scale_scale : forall v a b, scale (scale v a) b = scale v (a * b)%R.
Implicit Type L : lat T.

Lemma grad_dir_ok L index i n step f s :
  2 <= n -> 0 <= i < n -> (s <> 0)%R ->
  (forall j, 0 <= j < n -> fetch (la_store L) (index + (j - i) * step) = Ok (f j)) ->
  grad_dir sub scale L index i n step (n * step) (1 / 2 / s) =
  Ok (scale (sub (f (moved (la_per L) n i 1)) (f (moved (la_per L) n i (-1)))) (1 / spacing (la_per L) n i s)).
Proof.
  intros N I S F. unfold grad_dir, spacing.
  assert (Q : (1 / 2 / s = 1 / (2 * s))%R) by (field; lra).
  assert (Q2 : (2 * (1 / (2 * s)) = 1 / s)%R) by (field; lra).
  assert (G : forall j k, 0 <= j < n -> k = index + (j - i) * step -> fetch (la_store L) k = Ok (f j)) by (intros; subst; auto).
  assert (m1 : forall per, 0 <= i + 1 < n -> moved per n i 1 = i + 1).
  { intros per H. unfold moved. destruct (Z.leb_spec 0 (i + 1)), (Z.ltb_spec (i + 1) n); cbn [andb]; lia. }
  assert (m2 : forall per, 0 <= i + -1 < n -> moved per n i (-1) = i - 1).
  { intros per H. unfold moved. destruct (Z.leb_spec 0 (i + -1)), (Z.ltb_spec (i + -1) n); cbn [andb]; lia. }
  destruct (Z.eqb_spec i 0) as [->|I0].
  - change (0 <? 0) with false. cbn [andb]. rewrite orb_false_r.
    assert (m3 : moved (la_per L) n 0 (-1) = if la_per L then n - 1 else 0).
    { unfold moved. change (0 <=? 0 + -1) with false. cbn [andb]. destruct (la_per L); auto.
      symmetry. apply Z.mod_unique with (-1); lia. }
    rewrite m1, m3 by lia. rewrite (G 1) by lia. cbn [rbind]. destruct (la_per L).
    + rewrite (G (n - 1)) by lia. cbn [rbind]. now rewrite Q.
    + rewrite (G 0) by lia. cbn [rbind]. now rewrite Q, scale_scale, Q2.
  - destruct (Z.eqb_spec i (n - 1)) as [E|E].
    + destruct (Z.ltb_spec i (n - 1)); [lia|]. rewrite andb_false_r, orb_false_r.
      assert (m3 : moved (la_per L) n i 1 = if la_per L then 0 else i).
      { unfold moved. destruct (Z.leb_spec 0 (i + 1)), (Z.ltb_spec (i + 1) n); cbn [andb]; try lia.
        destruct (la_per L); auto. symmetry. apply Z.mod_unique with 1; lia. }
      rewrite m2, m3 by lia. destruct (la_per L).
      * rewrite (G 0) by lia. rewrite (G (i - 1)) by lia. cbn [rbind]. now rewrite Q.
      * rewrite (G i) by lia. rewrite (G (i - 1)) by lia. cbn [rbind]. now rewrite Q, scale_scale, Q2.
    + destruct (Z.ltb_spec i (n - 1)); [|lia]. destruct (Z.ltb_spec 0 i); [|lia]. rewrite orb_true_r.
      rewrite m1, m2 by lia. rewrite (G (i + 1)) by lia. rewrite (G (i - 1)) by lia. cbn [rbind]. now rewrite Q.
Qed.

Definition gradient_of L (val : c3 -> T) (c : c3) : T * T * T :=
  let n := la_n L in let s := cell_size L in let per := la_per L in
  (scale (sub (val (moved per (cx n) (cx c) 1, cy c, cz c)) (val (moved per (cx n) (cx c) (-1), cy c, cz c)))
         (1 / spacing per (cx n) (cx c) (rx s)),
   scale (sub (val (cx c, moved per (cy n) (cy c) 1, cz c)) (val (cx c, moved per (cy n) (cy c) (-1), cz c)))
         (1 / spacing per (cy n) (cy c) (ry s)),
   scale (sub (val (cx c, cy c, moved per (cz n) (cz c) 1)) (val (cx c, cy c, moved per (cz n) (cz c) (-1))))
         (1 / spacing per (cz n) (cz c) (rz s))).

Definition val L (d : T) (c : c3) : T := nth (Z.to_nat (flat (la_n L) c)) (la_store L) d.
Lemma fetch_val L d c : usable L -> is_cell (la_n L) c -> fetch (la_store L) (flat (la_n L) c) = Ok (val L d c).
Proof.
  intros U C. destruct (fetch_cell L c U C) as (v & F & i & I & V). rewrite F. f_equal.
  rewrite index1d_ok in I by auto. assert (i = flat (la_n L) c) by congruence. subst i.
  unfold val. symmetry. now apply nth_error_nth.
Qed.
Lemma value_val L d c : usable L -> is_cell (la_n L) c -> value_of L c (val L d c).
Proof.
  intros U C. exists (flat (la_n L) c). split; [now apply index1d_ok|]. unfold val.
  destruct (fetch_cell L c U C) as (v & F & i & I & V). rewrite index1d_ok in I by auto.
  assert (i = flat (la_n L) c) by congruence. subst i. rewrite V. f_equal. symmetry. now apply nth_error_nth.
Qed.

Definition big2 (n : c3) : Prop := 2 <= cx n /\ 2 <= cy n /\ 2 <= cz n.

Lemma grad_at_ok L d c : usable L -> extended L -> big2 (la_n L) -> is_cell (la_n L) c ->
  grad_at sub scale L (cx c) (cy c) (cz c) = Ok (gradient_of L (val L d) c).
Proof.
  intros U E (BX & BY & BZ) C. destruct (cell_size_pos L U E) as (sx & sy & sz). unfold grad_at.
  set (n := la_n L) in *. destruct C as (C1 & C2 & C3).
  set (index := cx c + (cx n * cy c + cx n * cy n * cz c)).
  assert (X : grad_dir sub scale L index (cx c) (cx n) 1 (cx n * 1) (1 / 2 / rx (cell_size L)) =
     Ok (fst (fst (gradient_of L (val L d) c)))).
  { apply (grad_dir_ok L index (cx c) (cx n) 1 (fun j => val L d (j, cy c, cz c))); auto; [lra|].
    intros j J. rewrite <- fetch_val; auto; [|fold n; unfold is_cell; cbn [cx cy cz fst snd]; lia]. f_equal. unfold flat, index. fold n.
    cbn [cx cy cz fst snd]. ring. }
  assert (Y : grad_dir sub scale L index (cy c) (cy n) (cx n) (cy n * cx n) (1 / 2 / ry (cell_size L)) =
     Ok (snd (fst (gradient_of L (val L d) c)))).
  { apply (grad_dir_ok L index (cy c) (cy n) (cx n) (fun j => val L d (cx c, j, cz c))); auto; [lra|].
    intros j J. rewrite <- fetch_val; auto; [|fold n; unfold is_cell; cbn [cx cy cz fst snd]; lia]. f_equal. unfold flat, index. fold n.
    cbn [cx cy cz fst snd]. ring. }
  assert (Z : grad_dir sub scale L index (cz c) (cz n) (cx n * cy n) (cz n * (cx n * cy n)) (1 / 2 / rz (cell_size L)) =
     Ok (snd (gradient_of L (val L d) c))).
  { apply (grad_dir_ok L index (cz c) (cz n) (cx n * cy n) (fun j => val L d (cx c, cy c, j))); auto; [lra|].
    intros j J. rewrite <- fetch_val; auto; [|fold n; unfold is_cell; cbn [cx cy cz fst snd]; lia]. f_equal. unfold flat, index. fold n.
    cbn [cx cy cz fst snd]. ring. }
  rewrite Z.mul_1_r in X. rewrite (Z.mul_comm (cy n)) in Y. rewrite (Z.mul_comm (cz n)) in Z.
  rewrite X, Y, Z. reflexivity.
Qed.

Lemma flat_alt n c : cx c + (cx n * cy c + cx n * cy n * cz c) = flat n c.
Proof. unfold flat. ring. Qed.

Lemma gradient_ok L g d : usable L -> extended L -> big2 (la_n L) -> usable g -> identical L g = true ->
  exists st, compute_gradient sub scale L g = Ok st /\ length st = length (la_store L) /\
   forall c, is_cell (la_n L) c -> nth_error st (Z.to_nat (flat (la_n L) c)) = Some (gradient_of L (val L d) c).
Proof.
  intros U E B Ug I. unfold compute_gradient. rewrite I. cbn [negb].
  assert (L1 : length (la_store g) = length (la_store L)).
  { unfold identical in I.
    repeat match goal with H : _ && _ = true |- _ => apply andb_prop in H; destruct H end.
    rewrite Z.eqb_eq in *. destruct U as (_ & _ & _ & S & _), Ug as (_ & _ & _ & Sg & _). 
    apply Nat2Z.inj. rewrite S, Sg. congruence. }
  destruct B as (BX & BY & BZ).
  destruct (Z.ltb_spec (cx (la_n L)) 2); [lia|]. destruct (Z.ltb_spec (cy (la_n L)) 2); [lia|].
  destruct (Z.ltb_spec (cz (la_n L)) 2); [lia|]. cbn [orb].
  destruct (fold_store (gradient_of L (val L d)) (fun c => grad_at sub scale L (cx c) (cy c) (cz c))
     (fun c => cx c + (cx (la_n L) * cy c + cx (la_n L) * cy (la_n L) * cz c)) (all_cells (la_n L)) (la_store g)) as (st & F & Ln & V & _).
  - intros c C. apply in_all_cells in C. apply grad_at_ok; auto. repeat split; auto.
  - intros c C. apply in_all_cells in C. rewrite flat_alt, L1.
    destruct U as (_ & _ & _ & S & _). rewrite S. now apply flat_range.
  - intros a b A B' H'. apply in_all_cells in A, B'. rewrite !flat_alt in H'. eapply flat_inj; eauto.
  - rewrite all_cells_box. apply NoDup_box.
  - exists st. split; [exact F|]. split; [congruence|]. intros c C. rewrite <- flat_alt. apply V. now apply in_all_cells.
Qed.

Lemma four_gradient_ok L old g dt d : usable L -> extended L -> big2 (la_n L) -> usable g -> identical L g = true ->
  usable old -> la_n old = la_n L ->
  exists st, compute_four_gradient sub scale L old dt g = Ok st /\ length st = length (la_store L) /\
   forall c, is_cell (la_n L) c -> nth_error st (Z.to_nat (flat (la_n L) c)) =
     Some (scale (sub (val L d c) (val old d c)) (1 / dt), gradient_of L (val L d) c).
Proof.
  intros U E B Ug I Uo No. unfold compute_four_gradient. rewrite I. cbn [negb].
  assert (L1 : length (la_store g) = length (la_store L)).
  { unfold identical in I.
    repeat match goal with H : _ && _ = true |- _ => apply andb_prop in H; destruct H end.
    rewrite Z.eqb_eq in *. destruct U as (_ & _ & _ & S & _), Ug as (_ & _ & _ & Sg & _). 
    apply Nat2Z.inj. rewrite S, Sg. congruence. }
  destruct B as (BX & BY & BZ).
  destruct (Z.ltb_spec (cx (la_n L)) 2); [lia|]. destruct (Z.ltb_spec (cy (la_n L)) 2); [lia|].
  destruct (Z.ltb_spec (cz (la_n L)) 2); [lia|]. cbn [orb].
  destruct (fold_store (fun c => (scale (sub (val L d c) (val old d c)) (1 / dt), gradient_of L (val L d) c))
     (fun c => let index := cx c + (cx (la_n L) * cy c + cx (la_n L) * cy (la_n L) * cz c) in
       a <- fetch (la_store L) index ;; b <- fetch (la_store old) index ;;
       v <- grad_at sub scale L (cx c) (cy c) (cz c) ;; Ok (scale (sub a b) (1 / dt), v))
     (fun c => cx c + (cx (la_n L) * cy c + cx (la_n L) * cy (la_n L) * cz c)) (all_cells (la_n L)) (la_store g)) as (st & F & Ln & V & _).
  - intros c C. apply in_all_cells in C. cbv zeta. rewrite flat_alt. rewrite (fetch_val L d c) by auto. cbn [rbind].
    rewrite <- No. rewrite (fetch_val old d c) by (auto; now rewrite No). cbn [rbind].
    rewrite (grad_at_ok L d c) by (auto; repeat split; auto). reflexivity.
  - intros c C. apply in_all_cells in C. rewrite flat_alt, L1.
    destruct U as (_ & _ & _ & S & _). rewrite S. now apply flat_range.
  - intros a b A B' H'. apply in_all_cells in A, B'. rewrite !flat_alt in H'. eapply flat_inj; eauto.
  - rewrite all_cells_box. apply NoDup_box.
  - exists st. split; [|split; [congruence|]].
    + rewrite <- F. clear. generalize (la_store g). induction (all_cells (la_n L)) as [|c l IH]; intros s0; cbn [foldM]; auto.
      cbv zeta. destruct (fetch (la_store L) _); cbn [rbind]; auto. destruct (fetch (la_store old) _); cbn [rbind]; auto.
      destruct (grad_at _ _ _ _ _ _); cbn [rbind]; auto. destruct (store s0 _ _); cbn [rbind]; auto.
    + intros c C. rewrite <- flat_alt. apply V. now apply in_all_cells.
Qed.
End Grad.

(** * sums *)
Lemma total_app a b : total (a ++ b) = (total a + total b)%R.
Proof. unfold total. induction a; cbn; [ring|]. rewrite IHa. ring. Qed.
Lemma total_scale k l : total (map (Rmult k) l) = (k * total l)%R.
Proof. unfold total. induction l; cbn; [ring|]. rewrite IHl. ring. Qed.
Lemma total_flat_map {A} (f : A -> list R) l : total (flat_map f l) = total (map (fun a => total (f a)) l).
Proof. induction l; cbn; auto. rewrite total_app, IHl. reflexivity. Qed.
Lemma total_mul_r {A} (f : A -> R) k l : total (map (fun a => f a * k)%R l) = (total (map f l) * k)%R.
Proof. unfold total. induction l; cbn; [ring|]. rewrite IHl. ring. Qed.

Lemma total_box (fx fy fz : Z -> R) lo hi :
  total (map (fun c => fx (cx c) * fy (cy c) * fz (cz c))%R (box lo hi)) =
  (total (map fx (zrange (cx lo) (cx hi))) * total (map fy (zrange (cy lo) (cy hi))) * total (map fz (zrange (cz lo) (cz hi))))%R.
Proof.
  unfold box. rewrite map_flat_map, total_flat_map. erewrite map_ext.
  2:{ intros z. rewrite map_flat_map, total_flat_map. erewrite map_ext.
      2:{ intros y. rewrite map_map. cbn [cx cy cz fst snd].
          rewrite (map_ext _ (fun x => fx x * (fy y * fz z))%R) by (intros; ring). rewrite total_mul_r. reflexivity. }
      rewrite (map_ext _ (fun y => fy y * (total (map fx (zrange (cx lo) (cx hi))) * fz z))%R) by (intros; ring).
      rewrite total_mul_r. reflexivity. }
  rewrite (map_ext _ (fun z => fz z * (total (map fy (zrange (cy lo) (cy hi))) * total (map fx (zrange (cx lo) (cx hi)))))%R) by (intros; ring).
  rewrite total_mul_r. ring.
Qed.

(** the hat function sums to k^2 over any shifted grid *)
Lemma zseq_S k : 0 <= k -> zseq (k + 1) = zseq k ++ [k].
Proof.
  intros. unfold zseq. replace (Z.to_nat (k + 1)) with (S (Z.to_nat k)) by lia.
  rewrite seq_S, map_app. cbn. f_equal. f_equal. lia.
Qed.
Lemma zrange_split lo mid hi : lo <= mid <= hi -> zrange lo hi = zrange lo mid ++ zrange mid hi.
Proof.
  intros H. assert (G : forall d, 0 <= d -> zrange lo (mid + d) = zrange lo mid ++ zrange mid (mid + d)).
  { intros d Hd. pattern d. apply natlike_ind; auto.
    - rewrite Z.add_0_r. unfold zrange at 3. replace (mid - mid) with 0 by lia. cbn. now rewrite app_nil_r.
    - intros x Hx IH. unfold zrange in *. replace (mid + Z.succ x - lo) with (mid + x - lo + 1) by lia.
      replace (mid + Z.succ x - mid) with (x + 1) by lia. replace (mid + x - mid) with x in IH by lia.
      rewrite !zseq_S, !map_app, IH, <- app_assoc by lia. f_equal. f_equal. cbn. f_equal. lia. }
  replace hi with (mid + (hi - mid)) by lia. apply G. lia.
Qed.
Lemma sum_linear a b m k : 0 <= k ->
  total (map (fun j => a + b * IZR j)%R (zrange m (m + k))) = (IZR k * a + b * (IZR k * IZR m + IZR k * (IZR k - 1) / 2))%R.
Proof.
  intros K. pattern k. apply natlike_ind; auto; clear k K.
  - unfold zrange. replace (m + 0 - m) with 0 by lia. cbn. lra.
  - intros k K IH. rewrite (zrange_split m (m + k)) by lia. rewrite map_app, total_app, IH.
    replace (zrange (m + k) (m + Z.succ k)) with [m + k].
    + unfold total. cbn. rewrite succ_IZR, plus_IZR. field.
    + unfold zrange. replace (m + Z.succ k - (m + k)) with 1 by lia. change (zseq 1) with [0]. cbn [map]. now rewrite Z.add_0_r.
Qed.

Lemma hat_sum t k : 0 < k ->
  total (map (fun i => IZR k - Rabs (IZR i - t))%R (zrange (Zceil (t - IZR k)) (Zceil (t + IZR k)))) = (IZR k * IZR k)%R.
Proof.
  intros K.
  assert (S : forall j, Zceil (t + IZR j) = Zceil t + j).
  { intros. apply Zceil_imp. pose proof (Zceil_lb t). pose proof (Zceil_ub t). 
    rewrite minus_IZR, plus_IZR. lra. }
  replace (t - IZR k)%R with (t + IZR (- k))%R by (rewrite opp_IZR; ring). rewrite !S.
  rewrite (zrange_split _ (Zceil t)) by lia. rewrite map_app, total_app.
  set (m := Zceil t). assert (B : (t <= IZR m < t + 1)%R) by (split; [apply Zceil_ub|pose proof (Zceil_lb t); unfold m; lra]).
  rewrite (map_ext_in _ (fun i => (IZR k - t) + 1 * IZR i)%R (zrange (m + - k) m)).
  2:{ intros i I. apply in_zrange in I. rewrite Rabs_left1. ring.
      assert (i <= m - 1) by lia. apply IZR_le in H. rewrite minus_IZR in H. lra. }
  rewrite (map_ext_in _ (fun i => (IZR k + t) + - 1 * IZR i)%R (zrange m (m + k))).
  2:{ intros i I. apply in_zrange in I. rewrite Rabs_pos_eq. ring.
      assert (m <= i) by lia. apply IZR_le in H. lra. }
  replace (zrange (m + - k) m) with (zrange (m + - k) (m + - k + k)) by (f_equal; lia).
  rewrite !sum_linear by lia. rewrite plus_IZR, opp_IZR. field.
Qed.

Section Tri.
Context {T : Type}.
Implicit Type L : lat T.

Lemma hat_1d p o s k : (0 < s)%R -> 0 < k ->
  total (map (fun i => (IZR k * s - Rabs (o + s * (IZR i + 1 / 2) - p)) / (IZR k * s * (IZR k * s)))%R
    (zrange (Zceil ((p - o + - (IZR k * s)) / s - 1 / 2)) (Zceil ((p - o + IZR k * s) / s - 1 / 2)))) = (/ s)%R.
Proof.
  intros S K. assert (K1 : (0 < IZR k)%R) by now apply IZR_lt.
  set (t := ((p - o) / s - 1 / 2)%R).
  replace ((p - o + - (IZR k * s)) / s - 1 / 2)%R with (t - IZR k)%R by (unfold t; field; lra).
  replace ((p - o + IZR k * s) / s - 1 / 2)%R with (t + IZR k)%R by (unfold t; field; lra).
  rewrite (map_ext _ (fun i => (IZR k - Rabs (IZR i - t)) * (/ (IZR k * IZR k * s)))%R).
  - rewrite total_mul_r, hat_sum by auto. field. lra.
  - intros i. replace (o + s * (IZR i + 1 / 2) - p)%R with (s * (IZR i - t))%R by (unfold t; field; lra).
    rewrite Rabs_mult, (Rabs_pos_eq s) by lra. field. lra.
Qed.

Lemma tri_total L k p (F : c3 -> Z) : usable L -> extended L -> 0 < k ->
  (rx (cell_size L) * ry (cell_size L) * rz (cell_size L) *
   total (map (triangular_weight L (IZR k) p) (map (fun c => (F c, c))
     (box (lower L p (triangular_radius L (IZR k))) (upper L p (triangular_radius L (IZR k)))))) = 1)%R.
Proof.
  intros U E K. destruct (cell_size_pos L U E) as (A & B & C). assert (K1 : (0 < IZR k)%R) by now apply IZR_lt.
  rewrite map_map.
  rewrite (map_ext _ (fun c =>
    ((IZR k * rx (cell_size L) - Rabs (rx (la_orig L) + rx (cell_size L) * (IZR (cx c) + 1 / 2) - rx p)) / (IZR k * rx (cell_size L) * (IZR k * rx (cell_size L))) *
     ((IZR k * ry (cell_size L) - Rabs (ry (la_orig L) + ry (cell_size L) * (IZR (cy c) + 1 / 2) - ry p)) / (IZR k * ry (cell_size L) * (IZR k * ry (cell_size L)))) *
     ((IZR k * rz (cell_size L) - Rabs (rz (la_orig L) + rz (cell_size L) * (IZR (cz c) + 1 / 2) - rz p)) / (IZR k * rz (cell_size L) * (IZR k * rz (cell_size L)))))%R)).
  - rewrite (total_box (fun i => (IZR k * rx (cell_size L) - Rabs (rx (la_orig L) + rx (cell_size L) * (IZR i + 1 / 2) - rx p)) / (IZR k * rx (cell_size L) * (IZR k * rx (cell_size L))))%R
      (fun i => (IZR k * ry (cell_size L) - Rabs (ry (la_orig L) + ry (cell_size L) * (IZR i + 1 / 2) - ry p)) / (IZR k * ry (cell_size L) * (IZR k * ry (cell_size L))))%R
      (fun i => (IZR k * rz (cell_size L) - Rabs (rz (la_orig L) + rz (cell_size L) * (IZR i + 1 / 2) - rz p)) / (IZR k * rz (cell_size L) * (IZR k * rz (cell_size L))))%R).
    unfold lower, upper, triangular_radius. cbn [cx cy cz rx ry rz fst snd].
    fold (rx (cell_size L)) (ry (cell_size L)) (rz (cell_size L)).
    rewrite !hat_1d by auto. field. lra.
  - intros c. unfold triangular_weight, triangular_radius, center. cbn [rx ry rz fst snd]. field. lra.
Qed.

(** the half-open box around p lies within the lattice *)
Definition fits L (p r : r3) : Prop :=
  (rx (la_orig L) + rx r <= rx p <= rx (la_orig L) + rx (la_len L) - rx r /\
   ry (la_orig L) + ry r <= ry p <= ry (la_orig L) + ry (la_len L) - ry r /\
   rz (la_orig L) + rz r <= rz p <= rz (la_orig L) + rz (la_len L) - rz r)%R.

Lemma fits_1 p o r l n : 1 <= n -> (0 < l)%R -> (0 <= r)%R -> (o + r <= p <= o + l - r)%R ->
  0 <= Zceil ((p - o + - r) / (l / IZR n) - 1 / 2) <= Zceil ((p - o + r) / (l / IZR n) - 1 / 2) /\ Zceil ((p - o + r) / (l / IZR n) - 1 / 2) <= n /\ (Rabs (p - o) + Rabs r <= 2 * IZR n * (l / IZR n))%R.
Proof.
  intros N l0 R0 H. assert (N1 : (1 <= IZR n)%R) by (apply IZR_le; lia).
  assert (S : (0 < l / IZR n)%R) by (apply Rdiv_lt_0_compat; lra).
  assert (Q : forall q, (q / (l / IZR n) * (l / IZR n) = q)%R) by (intros; field; lra).
  assert (E : (IZR n * (l / IZR n) = l)%R) by (field; lra).
  assert (A : (0 <= (p - o + - r) / (l / IZR n))%R).
  { apply Rmult_le_reg_r with (l / IZR n)%R; auto. rewrite Q. lra. }
  assert (B : ((p - o + r) / (l / IZR n) <= IZR n)%R).
  { apply Rmult_le_reg_r with (l / IZR n)%R; auto. rewrite Q. lra. }
  split; [split|split].
  - assert (-1 < Zceil ((p - o + - r) / (l / IZR n) - 1 / 2)); [|lia]. apply lt_IZR.
    pose proof (Zceil_ub ((p - o + - r) / (l / IZR n) - 1 / 2)). lra.
  - apply Zceil_le. apply Rplus_le_compat_r. apply Rmult_le_reg_r with (l / IZR n)%R; auto. rewrite !Q. lra.
  - apply Zceil_glb. lra.
  - rewrite !Rabs_pos_eq by lra. lra.
Qed.

Lemma fits_open L p r : usable L -> extended L -> la_per L = false -> fits L p r ->
  (0 <= rx r /\ 0 <= ry r /\ 0 <= rz r)%R ->
  cx (la_n L) <= 500000000 -> cy (la_n L) <= 500000000 -> cz (la_n L) <= 500000000 ->
  iterate_in_rectangle L p r = Ok (map (fun c => (flat (la_n L) c, c)) (box (lower L p r) (upper L p r))).
Proof.
  intros U E P (F1 & F2 & F3) (R1 & R2 & R3) NX NY NZ.
  destruct (cell_size_pos L U E) as (sx & sy & sz). assert (U' := U). destruct U' as (X & Y & Z & _). assert (E' := E). destruct E' as (lx & ly & lz).
  destruct (fits_1 _ _ _ _ _ X lx R1 F1) as ([A1 A2] & A3 & A4).
  destruct (fits_1 _ _ _ _ _ Y ly R2 F2) as ([B1 B2] & B3 & B4).
  destruct (fits_1 _ _ _ _ _ Z lz R3 F3) as ([C1 C2] & C3 & C4).
  assert (G : forall n s a, n <= 500000000 -> (0 < s)%R -> (a <= 2 * IZR n * s)%R -> (a <= 1000000000 * s)%R).
  { intros n s a N S H. apply IZR_le in N. apply Rle_trans with (2 * IZR n * s)%R; auto. apply Rmult_le_compat_r; lra. }
  rewrite bounds_ok; auto.
  2:{ unfold in_reach. repeat split; eapply G; [| |eassumption| | |eassumption| | |eassumption]; auto. }
  cbv zeta. rewrite P.
  assert (Ll : forall c, lower L p r = c -> 0 <= cx c /\ 0 <= cy c /\ 0 <= cz c) by (intros c <-; auto).
  assert (Lu : forall c, upper L p r = c -> cx c <= cx (la_n L) /\ cy c <= cy (la_n L) /\ cz c <= cz (la_n L)) by (intros c <-; auto).
  assert (Lm : forall c d, lower L p r = c -> upper L p r = d -> cx c <= cx d /\ cy c <= cy d /\ cz c <= cz d) by (intros c d <- <-; auto).
  remember (lower L p r) as lo. remember (upper L p r) as hi.
  destruct (Ll lo eq_refl) as (l1 & l2 & l3). destruct (Lu hi eq_refl) as (u1 & u2 & u3). destruct (Lm lo hi eq_refl eq_refl) as (m1 & m2 & m3).
  rewrite !Z.gtb_ltb.
  repeat match goal with |- context [if ?a <? ?b then _ else _] => destruct (Z.ltb_spec a b); try lia end.
  repeat match goal with |- context [?a <? ?b] => destruct (Z.ltb_spec a b); try lia end. cbn [orb].
  replace (cx lo, cy lo, cz lo) with lo by (destruct lo as [[? ?] ?]; reflexivity).
  replace (cx hi, cy hi, cz hi) with hi by (destruct hi as [[? ?] ?]; reflexivity).
  apply sublattice_open; auto.
Qed.
End Tri.
