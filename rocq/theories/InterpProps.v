(** Claims about interpolation (C47). *)
From Coq Require Import Reals List Bool Arith Lia Lra Permutation Sorting.
From Verif Require Import Base Search VecModel KinProps InterpModel.
From Verif Require Flt QnProps.
Import ListNotations.
Open Scope R_scope.

(** ** specification *)
(** two data points with no other data point between them *)
Definition neighbours (pts : list (R * R)) (p q : R * R) : Prop :=
  In p pts /\ In q pts /\ fst p < fst q /\ (forall r, In r pts -> ~ (fst p < fst r < fst q)).
(** the two data points whose connecting line decides the value at t: t lies between them,
    or they are the outermost two on the side of t *)
Definition governs (pts : list (R * R)) (t : R) (p q : R * R) : Prop :=
  neighbours pts p q /\
  (fst p <= t \/ forall r, In r pts -> fst p <= fst r) /\
  (t <= fst q \/ forall r, In r pts -> fst r <= fst q).
Definition on_line (p q : R * R) (t v : R) : Prop :=
  (v - snd p) * (fst q - fst p) = (snd q - snd p) * (t - fst p).

(** ** sorting *)
Lemma insert_index_perm v i p : Permutation (insert_index v i p) (i :: p).
Proof.
  induction p as [|j t IH]; [reflexivity|]. cbn. destruct (rltb _ _); [|reflexivity].
  rewrite IH. apply perm_swap.
Qed.
Lemma sort_perm_from v l : Permutation (fold_right (insert_index v) [] l) l.
Proof. induction l as [|i t IH]; [reflexivity|]. cbn. rewrite insert_index_perm, IH. reflexivity. Qed.
Lemma sort_permutation_perm v : Permutation (sort_permutation v) (seq 0 (length v)).
Proof. apply sort_perm_from. Qed.

Definition below (v : list R) (i j : nat) : Prop := nth i v 0 <= nth j v 0.
Lemma insert_index_sorted v i p : StronglySorted (below v) p -> StronglySorted (below v) (insert_index v i p).
Proof.
  induction 1 as [|j t S IH F]; cbn; [constructor; constructor|].
  destruct (rltb (nth j v 0) (nth i v 0)) eqn:E.
  - apply rltb_spec in E. constructor; [exact IH|]. apply Forall_forall. intros k K.
    apply (Permutation_in _ (insert_index_perm v i t)) in K. destruct K as [<-|K]; [unfold below; lra|].
    rewrite Forall_forall in F. apply F, K.
  - apply rltb_false in E. constructor; [constructor; assumption|]. constructor; [unfold below; lra|].
    eapply Forall_impl; [|exact F]. unfold below. intros k K. lra.
Qed.
Lemma sort_permutation_sorted v : StronglySorted (below v) (sort_permutation v).
Proof.
  unfold sort_permutation. induction (seq 0 (length v)); cbn; [constructor|]. apply insert_index_sorted. assumption.
Qed.

Lemma apply_permutation_ok v p : (forall i, In i p -> (i < length v)%nat) ->
  apply_permutation v p = Ok (map (fun i => nth i v 0) p).
Proof.
  unfold apply_permutation. induction p as [|i t IH]; intros H; [reflexivity|]. cbn.
  destruct (nth_error v i) as [x|] eqn:E.
  - cbn. rewrite IH by (intros; apply H; right; assumption). cbn. f_equal. f_equal.
    symmetry. apply nth_error_nth. exact E.
  - apply nth_error_None in E. specialize (H i (or_introl eq_refl)). lia.
Qed.

Lemma map_nth_seq (v : list R) : map (fun i => nth i v 0) (seq 0 (length v)) = v.
Proof.
  induction v as [|x t IH]; [reflexivity|]. cbn [length seq map nth]. f_equal.
  rewrite <- seq_shift, map_map. exact IH.
Qed.

(** sorting the points: same points, ascending *)
Definition spoints (x y : list R) : list (R * R) :=
  map (fun i => (nth i x 0, nth i y 0)) (sort_permutation x).

Lemma combine_map A B C (f : A -> B) (g : A -> C) l : combine (map f l) (map g l) = map (fun a => (f a, g a)) l.
Proof. induction l; cbn; congruence. Qed.

Lemma spoints_perm x y : length x = length y -> Permutation (spoints x y) (combine x y).
Proof.
  intros L. unfold spoints.
  assert (C : combine x y = map (fun i => (nth i x 0, nth i y 0)) (seq 0 (length x))).
  { rewrite <- combine_map, map_nth_seq, L, map_nth_seq. reflexivity. }
  rewrite C. apply Permutation_map. apply sort_permutation_perm.
Qed.

Lemma spoints_fst x y : map fst (spoints x y) = map (fun i => nth i x 0) (sort_permutation x).
Proof. unfold spoints. rewrite map_map. reflexivity. Qed.
Lemma spoints_snd x y : map snd (spoints x y) = map (fun i => nth i y 0) (sort_permutation x).
Proof. unfold spoints. rewrite map_map. reflexivity. Qed.

Lemma sorted_map v p : StronglySorted (below v) p -> StronglySorted Rle (map (fun i => nth i v 0) p).
Proof.
  induction 1 as [|j t S IH F]; cbn; constructor; [exact IH|].
  rewrite Forall_map. exact F.
Qed.

Lemma sorted_x_perm x : Permutation (map (fun i => nth i x 0) (sort_permutation x)) x.
Proof.
  rewrite (Permutation_map (fun i => nth i x 0) (sort_permutation_perm x)). rewrite map_nth_seq. reflexivity.
Qed.

Lemma adjacent_sorted l : StronglySorted Rle l -> (adjacent_find l = false <-> NoDup l).
Proof.
  induction 1 as [|a t S IH F]; [cbn; split; [constructor|reflexivity]|].
  destruct t as [|b u]; [cbn; split; [repeat constructor; intros []|reflexivity]|].
  change (adjacent_find (a :: b :: u)) with (if Req_EM_T a b then true else adjacent_find (b :: u)).
  destruct (Req_EM_T a b) as [->|N].
  - split; [discriminate|]. intros D. inversion D as [|? ? Nb]. exfalso. apply Nb. left. reflexivity.
  - rewrite IH. split.
    + intros D. constructor; [|exact D]. intros [Q|Q]; [congruence|].
      inversion S as [|? ? _ Fb]; subst. rewrite Forall_forall in Fb. specialize (Fb a Q).
      inversion F as [|? ? Fab _]; subst. lra.
    + intros D. inversion D; assumption.
Qed.

Lemma perm_bounds x : forall i, In i (sort_permutation x) -> (i < length x)%nat.
Proof.
  intros i I. apply (Permutation_in _ (sort_permutation_perm x)) in I. apply in_seq in I. lia.
Qed.

(** C47: data with a repeated x are rejected. *)
Theorem duplicates_rejected x y : length x = length y -> ~ NoDup x ->
  make_data_linear x y = Throw E_runtime.
Proof.
  intros L D. unfold make_data_linear. rewrite L, Nat.eqb_refl. cbn [negb].
  rewrite apply_permutation_ok by apply perm_bounds. cbn [rbind]. unfold check_duplicates.
  set (sx := map _ _). assert (S : StronglySorted Rle sx) by (apply sorted_map, sort_permutation_sorted).
  destruct (adjacent_find sx) eqn:E; [reflexivity|]. exfalso. apply D.
  apply adjacent_sorted in E; [|exact S]. eapply Permutation_NoDup; [apply sorted_x_perm|exact E].
Qed.
Print Assumptions duplicates_rejected.

Example duplicates_hyps : length [1; 2; 1] = length [3; 4; 5] /\ ~ NoDup [1; 2; 1].
Proof. split; [reflexivity|]. intros D. inversion D as [|? ? N]. apply N. right; left; reflexivity. Qed.

(** strictly ascending points *)
Fixpoint lines (pts : list (R * R)) : list linear :=
  match pts with
  | p :: ((q :: _) as t) =>
      let s := (snd q - snd p) / (fst q - fst p) in mkLinear s (snd p - s * fst p) :: lines t
  | _ => []
  end.

Definition ltp (p q : R * R) : Prop := fst p < fst q.

Lemma pieces_lines pts : StronglySorted ltp pts ->
  pieces (map fst pts) (map snd pts) = Ok (lines pts).
Proof.
  induction 1 as [|p t S IH F]; [reflexivity|]. destruct t as [|q u]; [reflexivity|].
  change (pieces (map fst (p :: q :: u)) (map snd (p :: q :: u))) with
    (f <- make_linear (fst p) (snd p) (fst q) (snd q) ;; r <- pieces (map fst (q :: u)) (map snd (q :: u)) ;; Ok (f :: r)).
  rewrite IH. unfold make_linear. inversion F as [|? ? Fq _]; subst. unfold ltp in Fq.
  destruct (Req_EM_T (fst p) (fst q)) as [E|_]; [lra|]. reflexivity.
Qed.

Lemma lines_length pts : length (lines pts) = (length pts - 1)%nat.
Proof.
  induction pts as [|p t IH]; [reflexivity|]. destruct t as [|q u]; [reflexivity|].
  change (length (lines (p :: q :: u))) with (S (length (lines (q :: u)))). rewrite IH. cbn. lia.
Qed.

Lemma lines_nth pts i f : nth_error (lines pts) i = Some f ->
  exists p q, nth_error pts i = Some p /\ nth_error pts (S i) = Some q /\
    f = mkLinear ((snd q - snd p) / (fst q - fst p)) (snd p - (snd q - snd p) / (fst q - fst p) * fst p).
Proof.
  revert i; induction pts as [|p t IH]; intros i; [destruct i; discriminate|].
  destruct t as [|q u]; [destruct i; discriminate|]. destruct i as [|i]; cbn [nth_error].
  - intros E. exists p, q. splits; auto. cbn in E. congruence.
  - intros E. change (nth_error (lines (q :: u)) i = Some f) in E. apply IH in E. exact E.
Qed.

Lemma sorted_nth pts i j p q : StronglySorted ltp pts -> nth_error pts i = Some p ->
  nth_error pts j = Some q -> (i < j)%nat <-> fst p < fst q.
Proof.
  intros S. revert i j; induction S as [|a t S IH F]; intros i j Hp Hq; [destruct i; discriminate|].
  rewrite Forall_forall in F.
  destruct i as [|i], j as [|j]; cbn in Hp, Hq.
  - assert (p = q) by congruence. subst. split; [lia|lra].
  - assert (a = p) by congruence. subst a. split; [|lia]. intros _. apply (F q). eapply nth_error_In; eauto.
  - assert (a = q) by congruence. subst a. split; [lia|]. intros L.
    assert (ltp q p) by (apply F; eapply nth_error_In; eauto). unfold ltp in *. lra.
  - rewrite <- (IH i j); auto. lia.
Qed.

Lemma spoints_sorted x y : NoDup x -> StronglySorted ltp (spoints x y).
Proof.
  intros D. pose proof (sorted_map x _ (sort_permutation_sorted x)) as S.
  assert (N : NoDup (map (fun i => nth i x 0) (sort_permutation x)))
    by (eapply Permutation_NoDup; [symmetry; apply sorted_x_perm|exact D]).
  rewrite <- (spoints_fst x y) in S, N. induction (spoints x y) as [|p t IH]; [constructor|].
  cbn in S, N. inversion S as [|? ? S' F]; subst. inversion N as [|? ? Np N']; subst.
  constructor; [apply IH; assumption|]. rewrite Forall_map in F. rewrite Forall_forall in *.
  intros q I. specialize (F q I). unfold ltp. destruct F as [F|F]; [exact F|].
  exfalso. apply Np. rewrite F. apply in_map, I.
Qed.

Lemma make_ok x y : length x = length y -> NoDup x -> x <> [] ->
  make_data_linear x y = Ok (mkData (map fst (spoints x y)) (lines (spoints x y))).
Proof.
  intros L D N. unfold make_data_linear. rewrite <- L, Nat.eqb_refl. cbn [negb].
  rewrite apply_permutation_ok by apply perm_bounds. cbn [rbind]. unfold check_duplicates.
  assert (A : adjacent_find (map (fun i => nth i x 0) (sort_permutation x)) = false).
  { apply adjacent_sorted; [apply sorted_map, sort_permutation_sorted|].
    eapply Permutation_NoDup; [symmetry; apply sorted_x_perm|exact D]. }
  rewrite A. cbn [rbind]. rewrite apply_permutation_ok by (rewrite <- L; apply perm_bounds). cbn [rbind].
  destruct x as [|x0 x]; [congruence|]. cbn [length Nat.eqb]. set (xx := x0 :: x) in *.
  rewrite <- (spoints_fst xx y), <- (spoints_snd xx y), pieces_lines by (apply spoints_sorted; exact D).
  reflexivity.
Qed.

Lemma find_index_spec pts t : StronglySorted ltp pts -> pts <> [] ->
  let i := find_index (map fst pts) t in
  (i < length pts)%nat /\
  (forall p, nth_error pts i = Some p -> fst p < t \/ i = 0%nat) /\
  (forall q, nth_error pts (S i) = Some q -> t <= fst q).
Proof.
  intros SS N.
  destruct (sorted_split Rlt (fun a => rltb a t) (map fst pts)) as (l1 & l2 & E & F1 & F2).
  { clear N. induction SS as [|p r SS IH F]; cbn; constructor; [exact IH|]. rewrite Forall_map. exact F. }
  { intros a b Hab Hb. apply rltb_spec in Hb. apply rltb_spec. lra. }
  unfold find_index. rewrite E, partition_point_split by assumption.
  assert (Len : length pts = (length l1 + length l2)%nat) by (rewrite <- app_length, <- E, map_length; reflexivity).
  assert (M : forall k p, nth_error pts k = Some p -> nth_error (l1 ++ l2) k = Some (fst p)).
  { intros k p Hk. rewrite <- E. apply map_nth_error. exact Hk. }
  destruct l1 as [|a l1]; cbn [length Nat.eqb].
  - splits.
    + destruct pts; [congruence|cbn; lia].
    + intros p _. right; reflexivity.
    + intros q Hq. apply M in Hq. cbn [app] in Hq. apply nth_error_In in Hq.
      rewrite Forall_forall in F2. apply F2 in Hq. apply rltb_false in Hq. lra.
  - set (m := length l1) in *. replace (S m - 1)%nat with m by lia. splits.
    + rewrite Len. cbn [length]. fold m. lia.
    + intros p Hp. left. apply M in Hp. rewrite nth_error_app1 in Hp by (cbn; fold m; lia).
      apply nth_error_In in Hp. rewrite Forall_forall in F1. apply F1 in Hp. apply rltb_spec in Hp. exact Hp.
    + intros q Hq. apply M in Hq. rewrite nth_error_app2 in Hq by (cbn; fold m; lia).
      apply nth_error_In in Hq. rewrite Forall_forall in F2. apply F2 in Hq. apply rltb_false in Hq. lra.
Qed.

Lemma on_line_unique p q t v w : fst p < fst q -> on_line p q t v -> on_line p q t w -> v = w.
Proof.
  unfold on_line. intros L A B. rewrite <- B in A. apply Rmult_eq_reg_r in A; lra.
Qed.

(** at a data point, every line governing there passes through it *)
Lemma eval_spec x y t : length x = length y -> NoDup x -> (2 <= length x)%nat ->
  exists d v p q, make_data_linear x y = Ok d /\ eval_data_linear d t = Ok v /\
    governs (combine x y) t p q /\ on_line p q t v.
Proof.
  intros L D N. assert (Nx : x <> []) by (destruct x; [cbn in N; lia|discriminate]).
  pose proof (make_ok x y L D Nx) as M. pose proof (spoints_sorted x y D) as SS.
  pose proof (spoints_perm x y L) as P. set (pts := spoints x y) in *.
  assert (Len : length pts = length x).
  { rewrite (Permutation_length P), combine_length, <- L. apply Nat.min_id. }
  assert (Np : pts <> []) by (intros Q; rewrite Q in Len; cbn in Len; lia).
  destruct (find_index_spec pts t SS Np) as (B1 & B2 & B3). cbv zeta in *.
  set (i := find_index (map fst pts) t) in *.
  set (i' := if Nat.leb (length (lines pts)) i then (length (lines pts) - 1)%nat else i).
  assert (I' : (i' < length (lines pts))%nat).
  { unfold i'. rewrite lines_length. destruct (Nat.leb_spec (length pts - 1) i); lia. }
  destruct (nth_error (lines pts) i') as [f|] eqn:E; [|apply nth_error_None in E; lia].
  destruct (lines_nth _ _ _ E) as (p & q & Hp & Hq & Ef).
  assert (Lt : fst p < fst q) by (apply (sorted_nth pts i' (S i')); auto).
  exists (mkData (map fst pts) (lines pts)), (apply_linear f t), p, q. splits.
  - exact M.
  - unfold eval_data_linear. cbn [xs fs]. fold i. fold i'. rewrite E. reflexivity.
  - assert (In' : forall r, In r (combine x y) -> exists k, nth_error pts k = Some r).
    { intros r Hr. apply (Permutation_in _ (Permutation_sym P)) in Hr. apply In_nth_error in Hr. exact Hr. }
    unfold governs, neighbours. splits.
    + apply (Permutation_in _ P). eapply nth_error_In; exact Hp.
    + apply (Permutation_in _ P). eapply nth_error_In; exact Hq.
    + exact Lt.
    + intros r Hr [R1 R2]. destruct (In' r Hr) as [k Hk].
      apply (sorted_nth pts i' k p r SS Hp Hk) in R1. apply (sorted_nth pts k (S i') r q SS Hk Hq) in R2. lia.
    + unfold i' in *. rewrite lines_length in *. destruct (Nat.leb_spec (length pts - 1) i) as [C|C].
      * left. assert (Ei : i = (length pts - 1)%nat) by lia.
        destruct (nth_error pts i) as [r|] eqn:Er; [|apply nth_error_None in Er; lia].
        destruct (B2 r eq_refl) as [B|B]; [|lia].
        assert (fst p < fst r) by (apply (sorted_nth pts (length pts - 1 - 1) i p r SS Hp Er); lia). lra.
      * destruct (B2 p Hp) as [B|B]; [left; lra|]. right. intros r Hr. destruct (In' r Hr) as [k Hk].
        destruct (Rle_or_lt (fst p) (fst r)) as [Z|Z]; [exact Z|].
        apply (sorted_nth pts k i r p SS Hk Hp) in Z. lia.
    + unfold i' in *. rewrite lines_length in *. destruct (Nat.leb_spec (length pts - 1) i) as [C|C].
      * right. intros r Hr. destruct (In' r Hr) as [k Hk].
        destruct (Rle_or_lt (fst r) (fst q)) as [Z|Z]; [exact Z|].
        apply (sorted_nth pts _ k q r SS Hq Hk) in Z.
        assert (k < length pts)%nat by (apply nth_error_Some; congruence). lia.
      * left. apply B3. exact Hq.
  - unfold on_line. rewrite Ef. unfold apply_linear. cbn [slope yintercept]. field. lra.
Qed.

Lemma governs_unique_value pts t p q p' q' v v' :
  NoDup (map fst pts) -> governs pts t p q -> governs pts t p' q' ->
  on_line p q t v -> on_line p' q' t v' -> v = v'.
Proof.
  intros D ((Ip & Iq & L & B) & G1 & G2) ((Ip' & Iq' & L' & B') & G1' & G2') V V'.
  assert (U : forall a b, In a pts -> In b pts -> fst a = fst b -> a = b).
  { clear - D. induction pts as [|c u IH]; [intros a b []|]. inversion D as [|? ? Nc D']; subst.
    intros a b [<-|Ia] [<-|Ib] E; auto.
    - exfalso. apply Nc. rewrite E. apply in_map, Ib.
    - exfalso. apply Nc. rewrite <- E. apply in_map, Ia. }
  destruct (Rtotal_order (fst p) (fst p')) as [H|[H|H]].
  - (* p before p' : then q is at or before p', and t is both at most q and at least p' *)
    assert (Hq : fst q <= fst p') by (destruct (Rle_or_lt (fst q) (fst p')); [assumption|exfalso; apply (B p'); auto]).
    assert (T1 : fst p' <= t) by (destruct G1' as [G|G]; [exact G|specialize (G p Ip); lra]).
    assert (T2 : t <= fst q) by (destruct G2 as [G|G]; [exact G|specialize (G q' Iq'); lra]).
    assert (q = p') by (apply U; auto; lra). subst p'.
    assert (t = fst q) by lra. subst t. unfold on_line in V, V'.
    assert (v = snd q) by (apply (Rmult_eq_reg_r (fst q - fst p)); lra).
    assert (v' = snd q) by (apply (Rmult_eq_reg_r (fst q' - fst q)); lra). congruence.
  - assert (p = p') by (apply U; auto). subst p'.
    assert (q = q').
    { apply U; auto. destruct (Rtotal_order (fst q) (fst q')) as [Z|[Z|Z]]; [exfalso; apply (B' q); auto|exact Z|exfalso; apply (B q'); auto]. }
    subst q'. eapply on_line_unique; eauto.
  - assert (Hq : fst q' <= fst p) by (destruct (Rle_or_lt (fst q') (fst p)); [assumption|exfalso; apply (B' p); auto]).
    assert (T1 : fst p <= t) by (destruct G1 as [G|G]; [exact G|specialize (G p' Ip'); lra]).
    assert (T2 : t <= fst q') by (destruct G2' as [G|G]; [exact G|specialize (G q Iq); lra]).
    assert (q' = p) by (apply U; auto; lra). subst p.
    assert (t = fst q') by lra. subst t. unfold on_line in V, V'.
    assert (v' = snd q') by (apply (Rmult_eq_reg_r (fst q' - fst p')); lra).
    assert (v = snd q') by (apply (Rmult_eq_reg_r (fst q - fst q')); lra). congruence.
Qed.

Lemma combine_fst (x y : list R) : length x = length y -> map fst (combine x y) = x.
Proof. revert y; induction x as [|a x IH]; intros [|b y] L; try discriminate; [reflexivity|]. cbn. f_equal. apply IH. cbn in L; lia. Qed.

(** C47: for any two or more points with distinct x, in any order, the value at t is the one
    on the line through the two data points around t (through the outermost two if t is
    outside), whichever pair of data points qualifies. *)
Theorem interpolation_exact_partial x y : length x = length y -> NoDup x -> (2 <= length x)%nat ->
  exists d, make_data_linear x y = Ok d /\ forall t, exists v,
    eval_data_linear d t = Ok v /\
    (exists p q, governs (combine x y) t p q) /\
    (forall p q, governs (combine x y) t p q -> on_line p q t v).
Proof.
  intros L D N. destruct (eval_spec x y 0 L D N) as (d & _ & _ & _ & Hd & _). exists d. split; [exact Hd|].
  intros t. destruct (eval_spec x y t L D N) as (d' & v & p & q & Hd' & Hv & G & O).
  assert (d' = d) by congruence. subst d'. exists v. splits; [exact Hv|exists p, q; exact G|].
  intros p' q' G'. assert (W : exists w, on_line p' q' t w).
  { exists (snd p' + (snd q' - snd p') / (fst q' - fst p') * (t - fst p')).
    destruct G' as ((_ & _ & Lt & _) & _). unfold on_line. field. lra. }
  destruct W as [w W]. assert (v = w).
  { eapply (governs_unique_value (combine x y) t p q p' q'); eauto. rewrite combine_fst by exact L. exact D. }
  subst w. exact W.
Qed.
Print Assumptions interpolation_exact_partial.

(** C47: the data are reproduced. *)
Theorem interpolation_reproduces_partial x y d i xi yi : length x = length y -> NoDup x -> (2 <= length x)%nat ->
  make_data_linear x y = Ok d -> nth_error x i = Some xi -> nth_error y i = Some yi ->
  eval_data_linear d xi = Ok yi.
Proof.
  intros L D N Hd Hx Hy. destruct (eval_spec x y xi L D N) as (d' & v & p & q & Hd' & Hv & G & O).
  assert (d' = d) by congruence. subst d'. rewrite Hv. f_equal.
  assert (I : In (xi, yi) (combine x y)).
  { clear - Hx Hy. revert y i Hx Hy; induction x as [|a x IH]; intros [|b y] [|i] Hx Hy; cbn in *; try discriminate.
    - left. congruence.
    - right. eapply IH; eauto. }
  destruct G as ((Ip & Iq & Lt & B) & G1 & G2).
  assert (U : forall a b, In a (combine x y) -> In b (combine x y) -> fst a = fst b -> a = b).
  { rewrite <- (combine_fst x y L) in D. clear - D. induction (combine x y) as [|c u IH]; [intros a b []|].
    cbn in D. inversion D as [|? ? Nc D']; subst.
    intros a b [<-|Ia] [<-|Ib] E; auto.
    - exfalso. apply Nc. rewrite E. apply in_map, Ib.
    - exfalso. apply Nc. rewrite <- E. apply in_map, Ia. }
  assert (P1 : fst p <= xi) by (destruct G1 as [G|G]; [exact G|apply (G _ I)]).
  assert (P2 : xi <= fst q) by (destruct G2 as [G|G]; [exact G|apply (G _ I)]).
  unfold on_line in O. destruct P1 as [P1|P1].
  - destruct P2 as [P2|P2]; [exfalso; apply (B _ I); cbn; lra|].
    assert (q = (xi, yi)) by (apply U; auto). subst q. cbn in *. apply (Rmult_eq_reg_r (xi - fst p)); lra.
  - assert (p = (xi, yi)) by (apply U; auto). subst p. cbn in *. apply (Rmult_eq_reg_r (fst q - xi)); lra.
Qed.
Print Assumptions interpolation_reproduces_partial.

(** C47: between two neighbouring points the value lies between theirs. *)
Theorem interpolation_between_partial x y d p q t v : length x = length y -> NoDup x -> (2 <= length x)%nat ->
  make_data_linear x y = Ok d -> neighbours (combine x y) p q -> fst p <= t <= fst q ->
  eval_data_linear d t = Ok v -> Rmin (snd p) (snd q) <= v <= Rmax (snd p) (snd q).
Proof.
  intros L D N Hd G T Hv. destruct (interpolation_exact_partial x y L D N) as (d' & Hd' & H).
  assert (d' = d) by congruence. subst d'. destruct (H t) as (v' & Hv' & _ & O).
  assert (v' = v) by congruence. subst v'. assert (Gv : governs (combine x y) t p q) by (split; [exact G|split; left; lra]).
  specialize (O p q Gv). destruct G as (_ & _ & Lt & _). unfold on_line in O.
  set (a := (t - fst p) / (fst q - fst p)).
  assert (A : 0 <= a <= 1).
  { unfold a. split.
    - apply Rle_mult_inv_pos; lra.
    - apply (Rmult_le_reg_r (fst q - fst p)); [lra|]. unfold Rdiv. rewrite Rmult_assoc, Rinv_l by lra. lra. }
  assert (V : v = snd p + a * (snd q - snd p)).
  { unfold a. apply (Rmult_eq_reg_r (fst q - fst p)); [|lra]. field_simplify; [|lra]. lra. }
  rewrite V. unfold Rmin, Rmax. destruct (Rle_dec (snd p) (snd q)); split; nra.
Qed.
Print Assumptions interpolation_between_partial.

Example interpolation_hyps : length [3; 1; 2] = length [9; 1; 4] /\ NoDup [3; 1; 2] /\ (2 <= length [3; 1; 2])%nat /\
  neighbours (combine [3; 1; 2] [9; 1; 4]) (1, 1) (2, 4).
Proof.
  unfold neighbours. splits; try (cbn; auto; fail).
  - repeat constructor; cbn; intros H; repeat (destruct H as [H|H]; [lra|]); destruct H.
  - cbn. lra.
  - cbn. intros r [<-|[<-|[<-|[]]]]; cbn; lra.
Qed.

(** A single point is accepted, but evaluating it reads outside the (empty) list of lines. *)
Theorem interpolation_one_point_refuted a b t :
  exists d, make_data_linear [a] [b] = Ok d /\ eval_data_linear d t = UB UB_oob.
Proof.
  exists (mkData [a] []). split; [reflexivity|]. unfold eval_data_linear. cbn [xs fs length].
  destruct (Nat.leb 0 (find_index [a] t)); [reflexivity|]. destruct (find_index [a] t); reflexivity.
Qed.
Print Assumptions interpolation_one_point_refuted.

(** ... and no point at all is a length_error. *)
Theorem interpolation_no_point : make_data_linear [] [] = Throw E_length.
Proof. reflexivity. Qed.

(** In double arithmetic the data need not be reproduced: through (1, 1) and (2, 2^60) the
    interpolation gives 0 instead of 1 at x = 1. *)
Theorem interpolation_rounding_refuted :
  let x0 := 1 in let y0 := 1 in let x1 := 2 in let y1 := IZR (2 ^ 60) in
  let s := Flt.fdiv (Flt.fsub y1 y0) (Flt.fsub x1 x0) in
  let c := Flt.fsub y0 (Flt.fmul s x0) in
  Flt.fadd (Flt.fmul s x0) c = 0.
Proof.
  cbv zeta.
  assert (B : Flocq.Core.Raux.bpow Flocq.Core.Zaux.radix2 7 = 128) by (cbn; lra).
  assert (B1 : Flocq.Core.Raux.bpow Flocq.Core.Zaux.radix2 (7 + 52) = IZR (2 ^ 59)) by (cbn; lra).
  assert (B2 : Flocq.Core.Raux.bpow Flocq.Core.Zaux.radix2 (7 + 53) = IZR (2 ^ 60)) by (cbn; lra).
  assert (B3 : Flocq.Core.Raux.bpow Flocq.Core.Zaux.radix2 (-(7)) = / 128) by (cbn; lra).
  assert (E1 : Flt.fl (IZR (2 ^ 60) - 1) = IZR (2 ^ 60)).
  { rewrite (Flt.fl_at _ (2 ^ 53) 7).
    - rewrite B. rewrite <- mult_IZR. reflexivity.
    - lia.
    - rewrite B1, B2. cbn. lra.
    - rewrite B3. cbn. unfold Rabs. destruct (Rcase_abs _); lra. }
  assert (D1 : Flt.fl 1 = 1) by (apply (Flt.fl_int 1); lia).
  assert (D60 : Flt.fl (IZR (2 ^ 60)) = IZR (2 ^ 60)) by (rewrite <- E1 at 1; rewrite Flt.fl_id by apply Flt.fl_double; exact E1).
  unfold Flt.fsub, Flt.fdiv, Flt.fmul, Flt.fadd. rewrite E1. replace (2 - 1) with 1 by lra. rewrite D1.
  replace (IZR (2 ^ 60) / 1) with (IZR (2 ^ 60)) by lra. rewrite D60, Rmult_1_r, D60.
  replace (1 - IZR (2 ^ 60)) with (- (IZR (2 ^ 60) - 1)) by lra. rewrite QnProps.fl_opp, E1.
  replace (IZR (2 ^ 60) + - IZR (2 ^ 60)) with 0 by lra. apply Flt.fl_0.
Qed.
Print Assumptions interpolation_rounding_refuted.

(** ** Trilinear interpolation: exact for every function of the form
    (a + b x)(c + d y)(e + f z), hence exact at the corners and affine along each edge; and
    between the smallest and the largest corner value. *)
Theorem trilinear_corners ax ay az f1 f2 f3 f4 f5 f6 f7 f8 (i j k : bool) :
  let b2r (b : bool) := if b then 1 else 0 in
  ax = b2r i -> ay = b2r j -> az = b2r k ->
  interpolate_trilinear ax ay az f1 f2 f3 f4 f5 f6 f7 f8 =
  (if k then (if i then (if j then f8 else f6) else (if j then f7 else f5))
   else (if i then (if j then f4 else f2) else (if j then f3 else f1))).
Proof. intros b2r -> -> ->. unfold interpolate_trilinear, b2r. destruct i, j, k; ring. Qed.
Print Assumptions trilinear_corners.

Theorem trilinear_between ax ay az f1 f2 f3 f4 f5 f6 f7 f8 lo hi :
  0 <= ax <= 1 -> 0 <= ay <= 1 -> 0 <= az <= 1 ->
  (forall f, In f [f1; f2; f3; f4; f5; f6; f7; f8] -> lo <= f <= hi) ->
  lo <= interpolate_trilinear ax ay az f1 f2 f3 f4 f5 f6 f7 f8 <= hi.
Proof.
  intros X Y Z H.
  assert (M : forall a u v, 0 <= a <= 1 -> lo <= u <= hi -> lo <= v <= hi -> lo <= a * u + (1 - a) * v <= hi)
    by (intros; split; nra).
  unfold interpolate_trilinear.
  repeat (apply M; [assumption| |]); apply H; cbn; tauto.
Qed.
Print Assumptions trilinear_between.

Theorem trilinear_exact ax ay az a b c d e f :
  let g x y z := (a + b * x) * (c + d * y) * (e + f * z) in
  interpolate_trilinear ax ay az (g 0 0 0) (g 1 0 0) (g 0 1 0) (g 1 1 0) (g 0 0 1) (g 1 0 1) (g 0 1 1) (g 1 1 1)
  = g ax ay az.
Proof. intros g. unfold interpolate_trilinear, g. ring. Qed.
Print Assumptions trilinear_exact.

(** ** Spline: what is checked, and constant continuation outside the data *)
Theorem spline_checks x y :
  (length x <> length y \/ (length x < 3)%nat \/ ~ NoDup x) <-> make_data_spline x y = Throw E_runtime.
Proof.
  unfold make_data_spline. destruct (Nat.eqb_spec (length y) (length x)) as [L|L]; cbn [negb].
  2: { split; [reflexivity|]. intros _. left. congruence. }
  destruct (Nat.ltb_spec (length x) 3) as [T|T]; [split; auto|].
  rewrite apply_permutation_ok by apply perm_bounds. cbn [rbind].
  rewrite apply_permutation_ok by (rewrite L; apply perm_bounds). cbn [rbind]. unfold check_duplicates.
  set (sx := map (fun i => nth i x 0) _).
  assert (S : StronglySorted Rle sx) by (apply sorted_map, sort_permutation_sorted).
  assert (P : Permutation sx x) by apply sorted_x_perm.
  destruct (adjacent_find sx) eqn:E; cbn [rbind].
  - split; [reflexivity|]. intros _. right; right. intros D.
    assert (NoDup sx) by (eapply Permutation_NoDup; [symmetry; exact P|exact D]).
    apply (proj2 (adjacent_sorted sx S)) in H. congruence.
  - split; [|discriminate]. apply adjacent_sorted in E; [|exact S].
    intros [Q|[Q|Q]]; [congruence|lia|]. exfalso. apply Q. eapply Permutation_NoDup; eauto.
Qed.
Print Assumptions spline_checks.

Lemma sorted_last l d x : StronglySorted Rle l -> In x l -> x <= last l d.
Proof.
  induction 1 as [|a t S IH F]; [intros []|]. intros [->|I].
  - destruct t as [|b u]; [cbn; lra|]. cbn [last].
    rewrite Forall_forall in F. apply F.
    assert (G : forall (w : list R) e, w <> [] -> In (last w e) w).
    { clear. induction w as [|z w IH]; intros e N; [congruence|]. destruct w; [left; reflexivity|]. right. apply IH. discriminate. }
    apply (G (b :: u) d). discriminate.
  - destruct t as [|b u]; [destruct I|]. apply IH. exact I.
Qed.

(** Outside the data the value is that of the outermost data point. *)
Theorem spline_constant_outside spline x y d t : make_data_spline x y = Ok d ->
  ((forall a, In a x -> t < a) -> In (first_x d, first_y d) (combine x y) /\
      (forall a, In a x -> first_x d <= a) /\ eval_data_spline spline d t = first_y d) /\
  ((forall a, In a x -> a < t) -> In (last_x d, last_y d) (combine x y) /\
      (forall a, In a x -> a <= last_x d) /\ eval_data_spline spline d t = last_y d).
Proof.
  unfold make_data_spline. destruct (Nat.eqb_spec (length y) (length x)) as [L|L]; cbn [negb]; [|discriminate].
  destruct (Nat.ltb_spec (length x) 3) as [T|T]; [discriminate|].
  rewrite apply_permutation_ok by apply perm_bounds. cbn [rbind].
  rewrite apply_permutation_ok by (rewrite L; apply perm_bounds). cbn [rbind]. unfold check_duplicates.
  pose proof (sorted_map x _ (sort_permutation_sorted x)) as S.
  pose proof (sorted_x_perm x) as P. pose proof (spoints_perm x y (eq_sym L)) as Q.
  rewrite <- (spoints_fst x y) in *. rewrite <- (spoints_snd x y).
  destruct (adjacent_find _); cbn [rbind]; [discriminate|]. intros E.
  assert (Ed : d = mkSpline (hd 0 (map fst (spoints x y))) (last (map fst (spoints x y)) 0)
     (hd 0 (map snd (spoints x y))) (last (map snd (spoints x y)) 0)
     (combine (map fst (spoints x y)) (map snd (spoints x y)))) by congruence.
  subst d. clear E. cbn [first_x last_x first_y last_y].
  set (pts := spoints x y) in *.
  assert (Np : pts <> []).
  { intros Z. rewrite Z in P. cbn in P. apply Permutation_nil in P. subst x. cbn in T. lia. }
  split; intros H.
  - destruct pts as [|p u]; [congruence|]. cbn [map hd] in *. splits.
    + replace (fst p, snd p) with p by (destruct p; reflexivity). apply (Permutation_in _ Q). left; reflexivity.
    + intros a I. apply (Permutation_in _ (Permutation_sym P)) in I. destruct I as [<-|I]; [lra|].
      inversion S as [|? ? _ F]; subst. rewrite Forall_forall in F. apply F, I.
    + unfold eval_data_spline. cbn [first_x first_y]. assert (A : t < fst p) by (apply H; apply (Permutation_in _ P); left; reflexivity).
      destruct (rltb t (fst p)) eqn:Z; [reflexivity|]. apply rltb_false in Z. lra.
  - destruct (exists_last Np) as (u & p & Ep). rewrite Ep in *. rewrite !map_app in *. cbn [map] in *.
    rewrite !last_last in *. splits.
    + replace (fst p, snd p) with p by (destruct p; reflexivity). apply (Permutation_in _ Q).
      apply in_or_app; right; left; reflexivity.
    + intros a I. apply (Permutation_in _ (Permutation_sym P)) in I.
      pose proof (sorted_last _ 0 a S I) as Z. rewrite last_last in Z. exact Z.
    + unfold eval_data_spline. cbn [first_x last_x last_y].
      assert (A : forall a, In a (map fst u ++ [fst p]) -> a < t) by (intros a I; apply H, (Permutation_in _ P), I).
      assert (A1 : fst p < t) by (apply A, in_or_app; right; left; reflexivity).
      assert (A2 : hd 0 (map fst u ++ [fst p]) < t).
      { destruct u as [|w u]; cbn [map app hd]; [exact A1|]. apply A. left. reflexivity. }
      destruct (rltb t (hd 0 (map fst u ++ [fst p]))) eqn:Z; [apply rltb_spec in Z; lra|].
      destruct (rltb (fst p) t) eqn:Z2; [reflexivity|]. apply rltb_false in Z2. lra.
Qed.
Print Assumptions spline_constant_outside.

Example spline_hyps : exists d, make_data_spline [3; 1; 2] [9; 1; 4] = Ok d.
Proof.
  destruct (make_data_spline [3; 1; 2] [9; 1; 4]) as [d|e|u] eqn:E; [exists d; reflexivity| |]; exfalso.
  - assert (e = E_runtime).
    { unfold make_data_spline in E. cbn [length Nat.eqb negb Nat.ltb Nat.leb] in E.
      rewrite apply_permutation_ok in E by apply perm_bounds. cbn [rbind] in E.
      rewrite apply_permutation_ok in E by (apply (perm_bounds [3; 1; 2])). cbn [rbind] in E. unfold check_duplicates in E.
      destruct (adjacent_find _); cbn [rbind] in E; congruence. }
    subst e. apply (spline_checks [3; 1; 2] [9; 1; 4]) in E as [E|[E|E]].
    + apply E; reflexivity.
    + cbn in E. lia.
    + apply E. repeat constructor; cbn; intros H; repeat (destruct H as [H|H]; [lra|]); destruct H.
  - unfold make_data_spline in E. cbn [length Nat.eqb negb Nat.ltb Nat.leb] in E.
    rewrite apply_permutation_ok in E by apply perm_bounds. cbn [rbind] in E.
    rewrite apply_permutation_ok in E by (apply (perm_bounds [3; 1; 2])). cbn [rbind] in E. unfold check_duplicates in E.
    destruct (adjacent_find _); cbn [rbind] in E; congruence.
Qed.
