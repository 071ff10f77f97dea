(** The scheduler's array is always a heap containing exactly the pending actions. *)
From Coq Require Import ZArith List Bool Lia Arith Sorting.Permutation.
From Verif Require Import Base ActionsModel.
Import ListNotations.
Open Scope nat_scope.

Definition tm (l : list action) (i : nat) : Z := a_time (get l i).
(** parent time <= child time for all positions whose parent is at or after [k] *)
Definition heap_from (k : nat) (l : list action) : Prop :=
  forall i, 0 < i < length l -> k <= parent i -> (tm l (parent i) <= tm l i)%Z.

Lemma parent_lt i : 0 < i -> parent i < i.
Proof. intros. unfold parent. apply Nat.div_lt_upper_bound; lia. Qed.
Lemma parent_child i p : 0 < i -> parent i = p <-> i = 2 * p + 1 \/ i = 2 * p + 2.
Proof.
  intros H. unfold parent. split.
  - intros E. pose proof (Nat.div_mod (i - 1) 2 ltac:(lia)). pose proof (Nat.mod_upper_bound (i - 1) 2 ltac:(lia)). lia.
  - intros [-> | ->].
    + replace (2 * p + 1 - 1) with (p * 2) by lia. apply Nat.div_mul. lia.
    + replace (2 * p + 2 - 1) with (1 + p * 2) by lia. rewrite Nat.div_add by lia. reflexivity.
Qed.

Lemma get_upd l i j x : j < length l -> get (upd i x l) j = if i =? j then x else get l j.
Proof.
  intros H. unfold get. 
  assert (E : nth_error (upd i x l) j = Some (nth j (upd i x l) dummy)) by (apply nth_error_nth'; now rewrite upd_length).
  rewrite nth_error_upd in E. destruct (Nat.eqb_spec i j).
  - replace (j <? length l) with true in E by (symmetry; apply Nat.ltb_lt; auto). congruence.
  - rewrite (nth_error_nth' l dummy H) in E. congruence.
Qed.
Lemma tm_upd_eq l i x : i < length l -> tm (upd i x l) i = a_time x.
Proof. intros. unfold tm. rewrite get_upd by auto. now rewrite Nat.eqb_refl. Qed.
Lemma tm_upd_neq l i j x : j < length l -> i <> j -> tm (upd i x l) j = tm l j.
Proof. intros. unfold tm. rewrite get_upd by auto. destruct (Nat.eqb_spec i j); congruence. Qed.

Lemma upd_twice A i (x y : A) l : upd i x (upd i y l) = upd i x l.
Proof. revert i; induction l; intros [|i]; cbn; congruence. Qed.
Lemma upd_get l i : i < length l -> upd i (get l i) l = l.
Proof. unfold get. revert i; induction l; intros [|i] H; cbn in *; try lia; auto. f_equal. apply IHl. lia. Qed.

(** moving the element at h' into the hole h and the value into h' only permutes *)
Lemma perm_upd_cons l i x : i < length l -> Permutation (get l i :: upd i x l) (x :: l).
Proof.
  unfold get. revert i; induction l as [|a l IH]; intros [|i] H; cbn in *; try lia.
  - apply perm_swap.
  - rewrite perm_swap. rewrite IH by lia. apply perm_swap.
Qed.
Lemma move_perm l h h' v : h < length l -> h' < length l -> h <> h' ->
  Permutation (upd h' v (upd h (get l h') l)) (upd h v l).
Proof.
  intros H H' N.
  apply Permutation_cons_inv with (a := get l h').
  assert (A : Permutation (get l h' :: upd h' v (upd h (get l h') l)) (v :: upd h (get l h') l)).
  { replace (get l h') with (get (upd h (get l h') l) h') at 1.
    - apply perm_upd_cons. now rewrite upd_length.
    - rewrite get_upd by auto. destruct (Nat.eqb_spec h h'); congruence. }
  rewrite A. apply Permutation_cons_inv with (a := get l h).
  rewrite perm_swap. rewrite (perm_upd_cons l h (get l h') H).
  rewrite (perm_swap (get l h') (get l h)). rewrite (perm_upd_cons l h v H). apply perm_swap.
Qed.

(** [h] is in the subtree of [top] *)
Inductive below (top : nat) : nat -> Prop :=
| below_top : below top top
| below_child h : 0 < h -> below top (parent h) -> below top h.
Lemma below_le top h : below top h -> top <= h.
Proof. induction 1; auto. pose proof (parent_lt h H). lia. Qed.
Lemma below_parent top h : below top h -> h <> top -> 0 < h /\ below top (parent h).
Proof. intros H N. destruct H; [congruence|auto]. Qed.

Section Hole.
  Variable top : nat.
  (** [l] is a heap from [top] except at the hole [h] *)
  Definition hole_ok (l : list action) (h : nat) : Prop :=
    h < length l /\ below top h /\
    (forall i, 0 < i < length l -> i <> h -> parent i <> h -> top <= parent i -> (tm l (parent i) <= tm l i)%Z) /\
    (top < h -> forall c, 0 < c < length l -> parent c = h -> (tm l (parent h) <= tm l c)%Z).

  Lemma hole_top l h : hole_ok l h -> top <= h.
  Proof. intros (_ & A & _). now apply below_le. Qed.

  Lemma sift_step l h s : hole_ok l h -> 0 < s < length l -> parent s = h ->
    (forall c, 0 < c < length l -> parent c = h -> (tm l s <= tm l c)%Z) ->
    hole_ok (upd h (get l s) l) s.
  Proof.
    intros Hk Hs Ps Min. pose proof (hole_top l h Hk) as Th. destruct Hk as (Hh & An & A & B).
    pose proof (parent_lt s ltac:(lia)).
    unfold hole_ok. rewrite upd_length. splits.
    - lia.
    - apply below_child. lia. now rewrite Ps.
    - intros i Hi Ni Npi Tp. assert (parent i < i) by (apply parent_lt; lia).
      destruct (Nat.eq_dec i h) as [->|Nh].
      + rewrite tm_upd_eq, tm_upd_neq by lia. destruct (Nat.eq_dec h top) as [->|]; [lia|]. fold (tm l s). apply B; lia.
      + rewrite (tm_upd_neq l h i) by lia. destruct (Nat.eq_dec (parent i) h) as [E|Np].
        * rewrite E, tm_upd_eq by lia. apply Min; lia.
        * rewrite tm_upd_neq by lia. apply A; lia.
    - intros _ c Hc Pc. rewrite Ps, tm_upd_eq by lia. pose proof (parent_lt c ltac:(lia)).
      rewrite tm_upd_neq by lia. fold (tm l s). rewrite <- Pc. apply A; lia.
  Qed.

  Lemma push_up_spec fuel : forall l h v, hole_ok l h -> h < fuel ->
    (forall c, 0 < c < length l -> parent c = h -> (a_time v <= tm l c)%Z) ->
    heap_from top (push_up fuel l h top v) /\ Permutation (push_up fuel l h top v) (upd h v l) /\ length (push_up fuel l h top v) = length l.
  Proof.
    induction fuel as [|f IH]; intros l h v Hk F C; [lia|]. pose proof (hole_top l h Hk) as Th. destruct Hk as (Hh & An & A & B). cbn [push_up].
    destruct (Nat.ltb_spec top h) as [L|L]; cbn [andb].
    - unfold cmp. destruct (Z.ltb_spec (a_time v) (a_time (get l (parent h)))) as [V|V]; fold (tm l (parent h)) in V.
      + assert (0 < h) by lia. pose proof (parent_lt h ltac:(lia)) as Pl.
        destruct (below_parent _ _ An ltac:(lia)) as [_ Bp]. pose proof (below_le _ _ Bp) as Tp.
        set (q := parent h) in *.
        destruct (IH (upd h (get l q) l) q v) as (I1 & I2 & I3).
        * unfold hole_ok. rewrite upd_length. splits.
          -- lia.
          -- exact Bp.
          -- intros i Hi Ni Npi Tpi. pose proof (parent_lt i ltac:(lia)).
             destruct (Nat.eq_dec i h) as [->|Nh]; [tauto|]. rewrite (tm_upd_neq l h i) by lia.
             destruct (Nat.eq_dec (parent i) h) as [E|Np].
             ++ rewrite E, tm_upd_eq by lia. apply B; lia.
             ++ rewrite tm_upd_neq by lia. apply A; lia.
          -- intros Tq c Hc Pc.
             destruct (below_parent _ _ Bp ltac:(lia)) as [Q0 Bq]. pose proof (below_le _ _ Bq). pose proof (parent_lt q Q0).
             assert (PQ : (tm l (parent q) <= tm l q)%Z) by (apply A; lia).
             rewrite (tm_upd_neq l h (parent q)) by lia.
             destruct (Nat.eq_dec c h) as [->|Nc].
             ++ rewrite tm_upd_eq by lia. exact PQ.
             ++ rewrite tm_upd_neq by lia. specialize (A c). rewrite Pc in A. lia.
        * lia.
        * rewrite upd_length. intros c Hc Pc. destruct (Nat.eq_dec c h) as [->|Nc].
          -- rewrite tm_upd_eq by lia. fold (tm l q). lia.
          -- rewrite tm_upd_neq by lia. specialize (A c). rewrite Pc in A. lia.
        * splits; auto.
          -- rewrite I2. apply move_perm; lia.
          -- rewrite I3. apply upd_length.
      + splits; auto using upd_length. intros i Hi Tp. rewrite upd_length in Hi. pose proof (parent_lt i ltac:(lia)).
        destruct (Nat.eq_dec i h) as [->|Ni].
        * rewrite tm_upd_eq, tm_upd_neq by lia. lia.
        * rewrite (tm_upd_neq l h i) by lia. destruct (Nat.eq_dec (parent i) h) as [E|Np].
          -- rewrite E, tm_upd_eq by lia. apply C; lia.
          -- rewrite tm_upd_neq by lia. apply A; lia.
    - splits; auto using upd_length. assert (h = top) by lia. subst h.
      intros i Hi Tp. rewrite upd_length in Hi. pose proof (parent_lt i ltac:(lia)).
      rewrite (tm_upd_neq l top i) by lia. destruct (Nat.eq_dec (parent i) top) as [E|Np].
      + rewrite E, tm_upd_eq by lia. apply C; lia.
      + rewrite tm_upd_neq by lia. apply A; lia.
  Qed.
End Hole.

(** downward phase *)
Lemma sift_down_spec top fuel : forall l h, hole_ok top l h -> length l <= h + fuel -> 0 < fuel ->
  let '(l', h') := sift_down fuel l h in
  hole_ok top l' h' /\ length l' = length l /\
  (forall c, 0 < c < length l' -> parent c <> h') /\
  (forall v, Permutation (upd h' v l') (upd h v l)).
Proof.
  induction fuel as [|f IH]; intros l h Hk Hf Pf; [lia|]. cbn [sift_down].
  assert (Hh : h < length l) by apply Hk.
  destruct (Nat.ltb_spec h ((length l - 1) / 2)) as [L|L].
  - assert (R : 2 * h + 2 < length l).
    { pose proof (Nat.div_mod (length l - 1) 2 ltac:(lia)). pose proof (Nat.mod_upper_bound (length l - 1) 2 ltac:(lia)). lia. }
    set (r := 2 * (h + 1)). set (s := if cmp (get l r) (get l (r - 1)) then r - 1 else r).
    assert (Ps : 0 < s < length l /\ parent s = h /\ h < s).
    { unfold s, r. destruct (cmp _ _); splits; try lia; apply parent_child; lia. }
    destruct Ps as (S1 & S2 & S3).
    assert (K : hole_ok top (upd h (get l s) l) s).
    { apply sift_step; auto. intros c Hc Pc. apply parent_child in Pc; [|lia].
      unfold s, cmp, tm. destruct (Z.ltb_spec (a_time (get l (r - 1))) (a_time (get l r))).
      - destruct Pc as [-> | ->]; [replace (r - 1) with (2 * h + 1) by lia; lia|]. replace (2 * h + 2) with r by lia. lia.
      - destruct Pc as [-> | ->]; [replace (2 * h + 1) with (r - 1) by lia; lia|]. replace (2 * h + 2) with r by lia. lia. }
    assert (LU : length (upd h (get l s) l) = length l) by apply upd_length.
    destruct f as [|f'].
    { exfalso. lia. }
    specialize (IH (upd h (get l s) l) s K ltac:(lia) ltac:(lia)).
    destruct (sift_down (S f') (upd h (get l s) l) s) as [l' h']. destruct IH as (I1 & I2 & I3 & I4). splits; auto.
    + lia.
    + intros v. rewrite I4. apply move_perm; lia.
  - destruct (Nat.even (length l) && (h =? (length l - 2) / 2) && (0 <? length l)) eqn:E.
    + apply andb_true_iff in E. destruct E as [E _]. apply andb_true_iff in E. destruct E as [E1 E2]. apply Nat.eqb_eq in E2.
      apply Nat.even_spec in E1. destruct E1 as [m Em].
      assert (H2 : h = m - 1). { rewrite E2, Em. replace (2 * m - 2) with ((m - 1) * 2) by lia. apply Nat.div_mul. lia. }
      set (r := 2 * (h + 1)). assert (P : parent (r - 1) = h) by (apply parent_child; lia).
      assert (K : hole_ok top (upd h (get l (r - 1)) l) (r - 1)).
      { apply sift_step; auto. lia. intros c Hc Pc. apply parent_child in Pc; [|lia].
        assert (c = r - 1) by lia. subst c. lia. }
      splits; auto.
      * apply upd_length.
      * rewrite upd_length. intros c Hc Pc. apply parent_child in Pc; lia.
      * intros v. apply move_perm; lia.
    + splits; auto. intros c Hc Pc. apply parent_child in Pc; [|lia].
      (* h has a child: then h < (n-1)/2 or h is the last inner node of an even array *)
      assert (2 * h + 1 < length l) by lia.
      destruct (Nat.Even_or_Odd (length l)) as [[m Em]|[m Em]].
      * assert ((length l - 2) / 2 = m - 1). { rewrite Em. replace (2 * m - 2) with ((m - 1) * 2) by lia. apply Nat.div_mul. lia. }
        assert ((length l - 1) / 2 = m - 1). { rewrite Em. replace (2 * m - 1) with (1 + (m - 1) * 2) by lia. rewrite Nat.div_add by lia. reflexivity. }
        assert (Ev : Nat.even (length l) = true) by (apply Nat.even_spec; exists m; auto).
        rewrite Ev in E. replace (h =? (length l - 2) / 2) with true in E by (symmetry; apply Nat.eqb_eq; lia).
        replace (0 <? length l) with true in E by (symmetry; apply Nat.ltb_lt; lia). discriminate.
      * assert ((length l - 1) / 2 = m). { rewrite Em. replace (2 * m + 1 - 1) with (m * 2) by lia. apply Nat.div_mul. lia. }
        lia.
Qed.

Lemma adjust_heap_spec top l v : top < length l -> heap_from (S top) l ->
  heap_from top (adjust_heap l top v) /\ Permutation (adjust_heap l top v) (upd top v l) /\ length (adjust_heap l top v) = length l.
Proof.
  intros T H. unfold adjust_heap.
  assert (K : hole_ok top l top).
  { unfold hole_ok. splits; auto.
    - constructor.
    - intros i Hi Ni Np Tp. apply H; auto. lia.
    - lia. }
  pose proof (sift_down_spec top (length l) l top K ltac:(lia) ltac:(lia)) as S.
  destruct (sift_down (length l) l top) as [l' h]. destruct S as (S1 & S2 & S3 & S4).
  rewrite <- S2. destruct (push_up_spec top (length l') l' h v S1) as (P1 & P2 & P3).
  - apply S1.
  - intros c Hc Pc. exfalso. eapply S3; eauto.
  - splits; auto. now rewrite P2.
Qed.

Lemma heap_min l : heap_from 0 l -> forall b, In b l -> (tm l 0 <= a_time b)%Z.
Proof.
  intros H b I. apply In_nth with (d := dummy) in I. destruct I as (i & Hi & <-). fold (get l i). fold (tm l i).
  induction i as [i IH] using (well_founded_induction lt_wf). destruct (Nat.eq_dec i 0) as [->|N]; [lia|].
  pose proof (parent_lt i ltac:(lia)). specialize (IH (parent i) ltac:(lia) ltac:(lia)).
  specialize (H i ltac:(lia) ltac:(lia)). lia.
Qed.

Lemma push_heap_spec l v : heap_from 0 l -> heap_from 0 (push_heap l v) /\ Permutation (push_heap l v) (v :: l).
Proof.
  intros H. unfold push_heap.
  assert (G : forall i, i < length l -> tm (l ++ [v]) i = tm l i). { intros i Hi. unfold tm, get. now rewrite app_nth1. }
  destruct (push_up_spec 0 (length l + 1) (l ++ [v]) (length l) v) as (P1 & P2 & _).
  - unfold hole_ok. rewrite app_length. cbn [length]. splits.
    + lia.
    + clear. induction (length l) as [n IH] using (well_founded_induction lt_wf). destruct n. constructor.
      apply below_child. lia. apply IH. apply parent_lt. lia.
    + intros i Hi Ni Np _. pose proof (parent_lt i ltac:(lia)). rewrite !G by lia. apply H; lia.
    + intros _ c Hc Pc. pose proof (parent_lt c ltac:(lia)). lia.
  - lia.
  - rewrite app_length. cbn [length]. intros c Hc Pc. pose proof (parent_lt c ltac:(lia)). lia.
  - split; auto. rewrite P2. rewrite upd_split. symmetry. apply Permutation_cons_append.
Qed.

Lemma insert_all_spec l : forall d, heap_from 0 d -> heap_from 0 (insert_all d l) /\ Permutation (insert_all d l) (l ++ d).
Proof.
  induction l as [|a l IH]; intros d H; cbn; auto.
  destruct (push_heap_spec d a H) as (A & B). destruct (IH _ A) as (C & D). split; auto.
  fold (insert_all (insert d a) l). rewrite D. unfold insert. rewrite B. symmetry. apply Permutation_middle.
Qed.

Lemma make_heap_from_spec k : forall l, k < length l -> heap_from (S k) l ->
  heap_from 0 (make_heap_from k l) /\ Permutation (make_heap_from k l) l.
Proof.
  induction k as [|k IH]; intros l K H; cbn [make_heap_from].
  - destruct (adjust_heap_spec 0 l (get l 0) K H) as (A & B & C). split; auto. now rewrite upd_get in B.
  - destruct (adjust_heap_spec (S k) l (get l (S k)) K H) as (A & B & C).
    destruct (IH (adjust_heap l (S k) (get l (S k)))) as (D & E). lia. auto. split; auto. rewrite E, B. now rewrite upd_get.
Qed.
Lemma make_heap_spec l : heap_from 0 (make_heap l) /\ Permutation (make_heap l) l.
Proof.
  unfold make_heap. destruct (Nat.ltb_spec (length l) 2).
  - split; auto. intros i Hi. lia.
  - apply make_heap_from_spec.
    + apply Nat.div_lt_upper_bound; lia.
    + intros i Hi Hp. exfalso. unfold parent in Hp.
      assert ((i - 1) / 2 <= (length l - 2) / 2) by (apply Nat.div_le_mono; lia). lia.
Qed.

Lemma heap_removelast a b l : heap_from 0 (a :: b :: l) -> heap_from 0 (removelast (a :: b :: l)).
Proof.
  intros H i Hi _. assert (E := @app_removelast_last _ (a :: b :: l) dummy ltac:(discriminate)).
  set (x := removelast (a :: b :: l)) in *. set (y := last (a :: b :: l) dummy) in *.
  rewrite E in H. specialize (H i). rewrite app_length in H. cbn [length] in H.
  assert (G : forall i, i < length x -> tm (x ++ [y]) i = tm x i). { intros j Hj. unfold tm, get. now rewrite app_nth1. }
  pose proof (parent_lt i ltac:(lia)). rewrite !G in H by lia. apply H; lia.
Qed.

Lemma pop_spec d : heap_from 0 d ->
  match pop d with
  | Ok (a, d') => heap_from 0 d' /\ Permutation d (a :: d') /\ (forall b, In b d -> (a_time a <= a_time b)%Z) /\ earliest_time d = Ok (a_time a)
  | Throw e => d = [] /\ e = E_runtime
  | UB _ => False
  end.
Proof.
  intros H. destruct d as [|a [|b l]]; cbn [pop]; auto.
  - splits; auto. intros i Hi; cbn in Hi; lia. intros b [<-|[]]. lia.
  - assert (E := @app_removelast_last _ (a :: b :: l) dummy ltac:(discriminate)).
    pose proof (heap_removelast a b l H) as HR. 
    set (x := removelast (a :: b :: l)) in *. set (y := last (a :: b :: l) dummy) in *.
    assert (X0 : exists t, x = a :: t) by (unfold x; cbn; eexists; reflexivity). destruct X0 as [t X0].
    assert (Lx : 0 < length x) by (rewrite X0; cbn; lia).
    destruct (adjust_heap_spec 0 x y Lx) as (A & B & _).
    { intros i Hi _. apply HR; lia. }
    splits; auto.
    + rewrite B. rewrite E. rewrite X0. cbn. apply perm_skip. symmetry. apply Permutation_cons_append.
    + intros c I. apply (heap_min _ H c I).
Qed.
