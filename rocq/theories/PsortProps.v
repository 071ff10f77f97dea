(** Partial sort of the LOWESS smoother: src/include/smash/lowess.h:97-131.
    Values are only compared; every finite double is an integer multiple of 2^-1074, so an
    integer stands for a double (NaN is not modelled).  Indices are size_t. *)
From Coq Require Import ZArith List Bool Lia Permutation.
From Verif Require Import Base.
Import ListNotations.
Open Scope Z_scope.

Definition SIZE : Z := 2 ^ 64.
Definition at_ (x : list Z) (i : Z) : Z := nth (Z.to_nat i) x 0.
(** x[i] *)
Definition rd (x : list Z) (i : Z) : res Z :=
  if (0 <=? i) && (i <? Z.of_nat (length x)) then Ok (at_ x i) else UB UB_oob.
Definition swap (x : list Z) (i j : Z) : list Z :=
  upd (Z.to_nat j) (at_ x i) (upd (Z.to_nat i) (at_ x j) x).

(** while (x[i] < v) i++;  lowess.h:108-110; the fuel is a bound on the steps, running out is
    reported as such *)
Fixpoint up (fuel : nat) (x : list Z) (v i : Z) : res Z :=
  match fuel with
  | O => UB UB_no_progress
  | S n => a <- rd x i ;; if a <? v then up n x v (wrap 64 (i + 1)) else Ok i
  end.
(** while (v < x[j]) j--;  lowess.h:111-113 *)
Fixpoint down (fuel : nat) (x : list Z) (v j : Z) : res Z :=
  match fuel with
  | O => UB UB_no_progress
  | S n => a <- rd x j ;; if v <? a then down n x v (wrap 64 (j - 1)) else Ok j
  end.
(** for (i = pL, j = pR; i <= j;) {...}  lowess.h:107-119 *)
Fixpoint part (fuel : nat) (x : list Z) (v i j : Z) : res (list Z * Z * Z) :=
  match fuel with
  | O => UB UB_no_progress
  | S n =>
    if i <=? j then
      i' <- up (S (length x)) x v i ;;
      j' <- down (S (length x)) x v j ;;
      if i' <=? j' then part n (swap x i' j') v (wrap 64 (i' + 1)) (wrap 64 (j' - 1))
      else part n x v i' j'
    else Ok (x, i, j)
  end.
(** psort, lowess.h:102-131 *)
Fixpoint psort_loop (fuel : nat) (x : list Z) (k pL pR : Z) : res (list Z) :=
  match fuel with
  | O => UB UB_no_progress
  | S n =>
    if pL <? pR then
      v <- rd x k ;;
      '(x', i, j) <- part (S (length x)) x v pL pR ;;
      psort_loop n x' k (if j <? k then i else pL) (if k <? i then j else pR)
    else Ok x
  end.
Definition psort (x : list Z) (k : Z) : res (list Z) :=
  psort_loop (S (length x)) x k 0 (wrap 64 (Z.of_nat (length x) - 1)).

(** *** specification *)
Definition selected (x y : list Z) (k : Z) : Prop :=
  Permutation x y /\
  (forall a, 0 <= a < k -> at_ y a <= at_ y k) /\
  (forall b, k < b < Z.of_nat (length y) -> at_ y k <= at_ y b).

Notation len x := (Z.of_nat (length x)).

Lemma rd_ok x i : 0 <= i < len x -> rd x i = Ok (at_ x i).
Proof. intros H. unfold rd. rewrite (proj2 (Z.leb_le 0 i)), (proj2 (Z.ltb_lt i _)) by lia. reflexivity. Qed.

Lemma nth_upd (k : nat) z (g : list Z) m : (k < length g)%nat -> nth m (upd k z g) 0 = if Nat.eqb m k then z else nth m g 0.
Proof.
  intros K. destruct (Nat.eqb_spec m k) as [-> |N].
  - apply nth_error_nth. apply nth_error_upd_eq. exact K.
  - assert (X : nth_error (upd k z g) m = nth_error g m) by (apply nth_error_upd_neq; auto).
    destruct (nth_error g m) as [v|] eqn:E.
    + rewrite (nth_error_nth _ _ _ X), (nth_error_nth _ _ _ E). reflexivity.
    + apply nth_error_None in X. apply nth_error_None in E. rewrite !nth_overflow by assumption. reflexivity.
Qed.
Lemma swap_length x i j : length (swap x i j) = length x.
Proof. unfold swap. rewrite !upd_length. reflexivity. Qed.
Lemma swap_at x i j m : 0 <= i < len x -> 0 <= j < len x -> 0 <= m ->
  at_ (swap x i j) m = if m =? j then at_ x i else if m =? i then at_ x j else at_ x m.
Proof.
  intros I J M. unfold swap, at_ at 1. rewrite nth_upd by (rewrite upd_length; lia). rewrite nth_upd by lia.
  destruct (Z.eqb_spec m j) as [-> |N]; [rewrite Nat.eqb_refl; reflexivity|].
  destruct (Nat.eqb_spec (Z.to_nat m) (Z.to_nat j)); [lia|].
  destruct (Z.eqb_spec m i) as [-> |N']; [rewrite Nat.eqb_refl; reflexivity|].
  destruct (Nat.eqb_spec (Z.to_nat m) (Z.to_nat i)); [lia|]. reflexivity.
Qed.
Lemma swap_perm x i j : 0 <= i < len x -> 0 <= j < len x -> Permutation x (swap x i j).
Proof.
  intros I J. apply (Permutation_nth x (swap x i j) 0). split; [apply swap_length|].
  set (f := fun m => if Nat.eqb m (Z.to_nat j) then Z.to_nat i else if Nat.eqb m (Z.to_nat i) then Z.to_nat j else m).
  exists f. split; [|split].
  - intros m M. unfold f. destruct (Nat.eqb m _); [lia|]. destruct (Nat.eqb m _); lia.
  - intros a b A B. unfold f. repeat match goal with |- context [Nat.eqb ?a ?b] => destruct (Nat.eqb_spec a b) end; lia.
  - intros m M. pose proof (swap_at x i j (Z.of_nat m) I J ltac:(lia)) as Q. unfold at_ in Q. rewrite Nat2Z.id in Q. rewrite Q. unfold f.
    assert (B1 : (Z.of_nat m =? j) = Nat.eqb m (Z.to_nat j)) by (destruct (Z.eqb_spec (Z.of_nat m) j); destruct (Nat.eqb_spec m (Z.to_nat j)); lia).
    assert (B2 : (Z.of_nat m =? i) = Nat.eqb m (Z.to_nat i)) by (destruct (Z.eqb_spec (Z.of_nat m) i); destruct (Nat.eqb_spec m (Z.to_nat i)); lia).
    rewrite B1, B2. destruct (Nat.eqb m (Z.to_nat j)); [reflexivity|]. destruct (Nat.eqb m (Z.to_nat i)); reflexivity.
Qed.

Lemma wrap_ok n : 0 <= n < SIZE -> wrap 64 n = n.
Proof. intros H. unfold wrap. apply Z.mod_small. exact H. Qed.

(** the scans stop at the first element that is not on the right side, if a sentinel exists *)
Lemma up_spec x v m : len x < SIZE -> 0 <= m < len x -> v <= at_ x m -> forall fuel i, 0 <= i <= m -> m - i < Z.of_nat fuel ->
  exists i', up fuel x v i = Ok i' /\ i <= i' <= m /\ v <= at_ x i' /\ forall a, i <= a < i' -> at_ x a < v.
Proof.
  intros Hx Hm Hv. induction fuel as [|n IH]; intros i Hi Hf; [lia|]. cbn [up]. rewrite rd_ok by lia. cbn [rbind].
  destruct (Z.ltb_spec (at_ x i) v) as [L|L].
  - assert (i <> m) by (intros ->; lia). rewrite wrap_ok by lia. destruct (IH (i + 1)) as (i' & E & B & V & A); [lia|lia|].
    exists i'. split; [exact E|]. split; [lia|]. split; [exact V|]. intros a Ha. destruct (Z.eq_dec a i) as [-> |]; [exact L|apply A; lia].
  - exists i. split; [reflexivity|]. split; [lia|]. split; [exact L|]. intros a Ha. lia.
Qed.
Lemma down_spec x v m : len x < SIZE -> 0 <= m < len x -> at_ x m <= v -> forall fuel j, m <= j < len x -> j - m < Z.of_nat fuel ->
  exists j', down fuel x v j = Ok j' /\ m <= j' <= j /\ at_ x j' <= v /\ forall a, j' < a <= j -> v < at_ x a.
Proof.
  intros Hx Hm Hv. induction fuel as [|n IH]; intros j Hj Hf; [lia|]. cbn [down]. rewrite rd_ok by lia. cbn [rbind].
  destruct (Z.ltb_spec v (at_ x j)) as [L|L].
  - assert (j <> m) by (intros ->; lia). rewrite wrap_ok by lia. destruct (IH (j - 1)) as (j' & E & B & V & A); [lia|lia|].
    exists j'. split; [exact E|]. split; [lia|]. split; [exact V|]. intros a Ha. destruct (Z.eq_dec a j) as [-> |]; [exact L|apply A; lia].
  - exists j. split; [reflexivity|]. split; [lia|]. split; [exact L|]. intros a Ha. lia.
Qed.

(** rearranged inside [pL, pR] only *)
Definition inside (pL pR : Z) (x y : list Z) : Prop :=
  Permutation x y /\ length x = length y /\
  exists f : Z -> Z, (forall m, 0 <= m < len x -> 0 <= f m < len x /\ at_ y m = at_ x (f m) /\ (pL <= m <= pR -> pL <= f m <= pR) /\ (~ pL <= m <= pR -> f m = m)).
Lemma inside_refl pL pR x : inside pL pR x x.
Proof. split; [reflexivity|]. split; [reflexivity|]. exists (fun m => m). intros m M. splits; auto; lia. Qed.
Lemma inside_trans pL pR x y z : inside pL pR x y -> inside pL pR y z -> inside pL pR x z.
Proof.
  intros (P1 & L1 & f & F) (P2 & L2 & g & G). split; [eapply Permutation_trans; eassumption|]. split; [congruence|].
  exists (fun m => f (g m)). intros m M. rewrite L1 in F, M. destruct (G m M) as (A & B & C & D).
  destruct (F (g m) A) as (A' & B' & C' & D'). rewrite L1. split; [exact A'|]. split; [congruence|]. split.
  - intros I. apply C', C, I.
  - intros I. rewrite (D I) in *. apply D', I.
Qed.
Lemma inside_swap pL pR x i j : 0 <= pL -> pR < len x -> pL <= i <= pR -> pL <= j <= pR -> inside pL pR x (swap x i j).
Proof.
  intros L R I J. split; [apply swap_perm; lia|]. split; [symmetry; apply swap_length|].
  exists (fun m => if m =? j then i else if m =? i then j else m). intros m M.
  rewrite swap_at by lia. destruct (Z.eqb_spec m j) as [-> |]; [splits; auto; lia|]. destruct (Z.eqb_spec m i) as [-> |]; splits; auto; lia.
Qed.

(** state of the partition loop: everything left of i is at most v, everything right of j at
    least v; at the start the pivot lies in the range, later both ends have moved *)
Definition pinv (pL pR : Z) (x : list Z) (v i j : Z) : Prop :=
  pL <= i <= pR + 1 /\ pL - 1 <= j <= pR /\ 0 <= j /\
  (forall a, pL <= a < i -> at_ x a <= v) /\ (forall b, j < b <= pR -> v <= at_ x b).
Definition fresh (pL pR : Z) (x : list Z) (v i j : Z) : Prop :=
  i = pL /\ j = pR /\ exists k, 1 <= k /\ pL <= k <= pR /\ at_ x k = v.
Definition moved (pL pR i j : Z) : Prop := pL < i /\ j < pR.

Lemma part_spec pL pR v : 0 <= pL -> forall fuel x i j, len x < SIZE -> pR < len x ->
  pinv pL pR x v i j -> fresh pL pR x v i j \/ moved pL pR i j ->
  Z.max 0 (j - i + 1) < Z.of_nat fuel ->
  exists x' i' j', part fuel x v i j = Ok (x', i', j') /\ inside pL pR x x' /\ j' < i' /\
    pinv pL pR x' v i' j' /\ (pL <= pR -> moved pL pR i' j').
Proof.
  intros HL. induction fuel as [|n IH]; intros x i j Hx HR HI St Hf; [lia|]. cbn [part].
  pose proof HI as (I1 & I2 & I3 & IA & IB).
  destruct (Z.leb_spec i j) as [Le|Gt].
  2:{ exists x, i, j. split; [reflexivity|]. split; [apply inside_refl|]. split; [lia|]. split; [exact HI|].
      intros LR. destruct St as [(-> & -> & _)|M]; [lia|exact M]. }
  assert (Se : exists m1 m2, i <= m1 <= pR /\ v <= at_ x m1 /\ pL <= m2 <= j /\ at_ x m2 <= v /\
    (m1 = m2 /\ 1 <= m2 \/ moved pL pR i j /\ m1 = j + 1 /\ m2 = i - 1)).
  { destruct St as [(-> & -> & k & K1 & K2 & K3)|M].
    - exists k, k. splits; lia.
    - unfold moved in M. exists (j + 1), (i - 1). unfold moved. splits; try lia; [apply IB; lia|apply IA; lia]. }
  destruct Se as (m1 & m2 & M1 & V1 & M2 & V2 & Md).
  destruct (up_spec x v m1 Hx ltac:(lia) V1 (S (length x)) i ltac:(lia) ltac:(lia)) as (i' & Ei & Bi & Vi & Ai).
  destruct (down_spec x v m2 Hx ltac:(lia) V2 (S (length x)) j ltac:(lia) ltac:(lia)) as (j' & Ej & Bj & Vj & Aj).
  rewrite Ei, Ej. cbn [rbind].
  destruct (Z.leb_spec i' j') as [Le'|Gt'].
  - assert (J1 : 1 <= j') by (unfold moved in Md; lia).
    rewrite !wrap_ok by (unfold SIZE in *; lia).
    assert (Sw : forall m, 0 <= m -> at_ (swap x i' j') m = if m =? j' then at_ x i' else if m =? i' then at_ x j' else at_ x m)
      by (intros; apply swap_at; lia).
    assert (PI : pinv pL pR (swap x i' j') v (i' + 1) (j' - 1)).
    { unfold pinv. split; [lia|]. split; [lia|]. split; [lia|]. split.
      - intros a Ha. rewrite Sw by lia. destruct (Z.eqb_spec a j') as [-> |]; [assert (i' = j') by lia; subst; lia|].
        destruct (Z.eqb_spec a i'); [lia|]. destruct (Z.lt_ge_cases a i); [apply IA; lia|]. assert (at_ x a < v) by (apply Ai; lia). lia.
      - intros b Hb. rewrite Sw by lia. destruct (Z.eqb_spec b j') as [-> |]; [lia|].
        destruct (Z.eqb_spec b i') as [-> |]; [lia|]. destruct (Z.le_gt_cases b j); [assert (v < at_ x b) by (apply Aj; lia); lia|apply IB; lia]. }
    assert (In1 : inside pL pR x (swap x i' j')) by (apply inside_swap; lia).
    destruct (IH (swap x i' j') (i' + 1) (j' - 1)) as (x2 & i2 & j2 & E2 & In2 & R2); try (rewrite ?swap_length; auto; lia).
    { right. unfold moved. lia. }
    exists x2, i2, j2. split; [exact E2|]. split; [eapply inside_trans; eassumption|]. exact R2.
  - assert (Mv : moved pL pR i j /\ m1 = j + 1 /\ m2 = i - 1) by (destruct Md as [[-> _]|?]; [lia|assumption]).
    unfold moved in Mv. apply (IH x i' j'); auto; try lia.
    + unfold pinv. split; [lia|]. split; [lia|]. split; [lia|]. split.
      * intros a Ha. destruct (Z.lt_ge_cases a i); [apply IA; lia|]. assert (at_ x a < v) by (apply Ai; lia). lia.
      * intros b Hb. destruct (Z.le_gt_cases b j); [assert (v < at_ x b) by (apply Aj; lia); lia|apply IB; lia].
    + right. unfold moved. lia.
Qed.

(** everything left of the range is at most everything in or right of it, and so on *)
Definition split_at (x : list Z) (c : Z) : Prop := forall a b, 0 <= a < c -> c <= b < len x -> at_ x a <= at_ x b.
Lemma split_inside_left pL pR x y : inside pL pR x y -> split_at x pL -> split_at y pL.
Proof.
  intros (_ & L & f & F) H a b A B. rewrite <- L in *. destruct (F a ltac:(lia)) as (Fa & -> & _ & Oa). destruct (F b ltac:(lia)) as (Fb & -> & Ib & Ob).
  rewrite (Oa ltac:(lia)). apply H; [lia|]. destruct (Z.le_gt_cases b pR); [specialize (Ib ltac:(lia)); lia|rewrite (Ob ltac:(lia)); lia].
Qed.
Lemma split_inside_right pL pR x y : inside pL pR x y -> split_at x (pR + 1) -> split_at y (pR + 1).
Proof.
  intros (_ & L & f & F) H a b A B. rewrite <- L in *. destruct (F a ltac:(lia)) as (Fa & -> & Ia & Oa). destruct (F b ltac:(lia)) as (Fb & -> & _ & Ob).
  rewrite (Ob ltac:(lia)). apply H; [|lia]. destruct (Z.le_gt_cases pL a); [specialize (Ia ltac:(lia)); lia|rewrite (Oa ltac:(lia)); lia].
Qed.

Lemma loop_spec k : 1 <= k -> forall fuel x pL pR, len x < SIZE -> 0 <= pL -> pR < len x -> pL <= k <= pR ->
  split_at x pL -> split_at x (pR + 1) -> pR - pL < Z.of_nat fuel ->
  exists y, psort_loop fuel x k pL pR = Ok y /\ selected x y k.
Proof.
  intros K. induction fuel as [|n IH]; intros x pL pR Hx HL HR HK S1 S2 Hf; [lia|]. cbn [psort_loop].
  destruct (Z.ltb_spec pL pR) as [Lt|Ge].
  2:{ exists x. split; [reflexivity|]. split; [reflexivity|]. assert (pL = k /\ pR = k) as [-> ->] by lia.
      split; [intros a A; apply S1; lia|intros b B; apply S2; lia]. }
  rewrite rd_ok by lia. cbn [rbind].
  destruct (part_spec pL pR (at_ x k) HL (S (length x)) x pL pR Hx HR) as (y & i & j & E & In1 & Ji & (P1 & P2 & P3 & PA & PB) & Mv).
  { unfold pinv. splits; intros; lia. }
  { left. unfold fresh. splits; try lia. exists k. splits; lia. }
  { lia. }
  rewrite E. cbn [rbind]. specialize (Mv ltac:(lia)). unfold moved in Mv.
  pose proof (split_inside_left _ _ _ _ In1 S1) as T1. pose proof (split_inside_right _ _ _ _ In1 S2) as T2.
  pose proof In1 as (Pm & Ln & _). set (v := at_ x k) in *. clearbody v.
  assert (Ti : split_at y i).
  { intros a b A B. destruct (Z.lt_ge_cases a pL); [apply T1; lia|]. destruct (Z.le_gt_cases b pR); [|apply T2; lia].
    assert (at_ y a <= v) by (apply PA; lia). assert (v <= at_ y b) by (apply PB; lia). lia. }
  assert (Tj : split_at y (j + 1)).
  { intros a b A B. destruct (Z.lt_ge_cases a pL); [apply T1; lia|]. destruct (Z.le_gt_cases b pR); [|apply T2; lia].
    assert (at_ y a <= v) by (apply PA; lia). assert (v <= at_ y b) by (apply PB; lia). lia. }
  assert (Q : forall z, selected y z k -> selected x z k).
  { intros z (A & B & C). split; [eapply Permutation_trans; eassumption|]. split; assumption. }
  destruct (Z.ltb_spec j k) as [Jk|Jk]; destruct (Z.ltb_spec k i) as [Ki|Ki].
  - (* the middle *)
    destruct n as [|n]; [lia|]. cbn [psort_loop]. destruct (Z.ltb_spec i j); [lia|]. exists y. split; [reflexivity|].
    split; [exact Pm|]. split.
    + intros a A. destruct (Z.lt_ge_cases a pL); [apply T1; lia|].
      assert (at_ y a <= v) by (apply PA; lia). assert (v <= at_ y k) by (apply PB; lia). lia.
    + intros b B. destruct (Z.le_gt_cases b pR); [|apply T2; lia].
      assert (at_ y k <= v) by (apply PA; lia). assert (v <= at_ y b) by (apply PB; lia). lia.
  - destruct (IH y i pR) as (z & Ez & Sz); try lia; auto. exists z. auto.
  - destruct (IH y pL j) as (z & Ez & Sz); try lia; auto. exists z. auto.
  - lia.
Qed.

(** C59: for every array and every position k from 1 on, psort ends, stays inside the array and
    puts the k-th smallest element at position k. *)
Theorem psort_selects x k : len x < SIZE -> 1 <= k < len x -> exists y, psort x k = Ok y /\ selected x y k.
Proof.
  intros Hx K. unfold psort. rewrite wrap_ok by (unfold SIZE in *; lia). apply loop_spec; try lia.
  - intros a b A. lia.
  - intros a b A B. lia.
Qed.
Print Assumptions psort_selects.
Example psort_example : exists y, psort [5; 3; 9; 3; 1; 7] 3 = Ok y /\ at_ y 3 = 5.
Proof. eexists. split; vm_compute; reflexivity. Qed.

(** C59 is refuted for k = 0, which the smoother asks for with two points: the index j wraps
    below zero and the array is read out of bounds. *)
Theorem psort_zero_refuted : exists x, len x < SIZE /\ 0 < len x /\ psort x 0 = UB UB_oob.
Proof. exists [1; 2]. splits; [reflexivity|reflexivity|vm_compute; reflexivity]. Qed.
Print Assumptions psort_zero_refuted.
