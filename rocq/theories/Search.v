(** std::lower_bound / std::upper_bound as the binary search the standard library
    performs, over positions 0..n-1 and a predicate "keep going right". *)
From Coq Require Import ZArith List Bool Lia Arith Sorting.Sorted.
From Verif Require Import Base.
Import ListNotations.
Open Scope nat_scope.

(** libstdc++ __lower_bound: first, len; half = len/2.  [p i] is comp(element i, value)
    for lower_bound and !comp(value, element i) for upper_bound. *)
Fixpoint bsearch (fuel : nat) (first len : nat) (p : nat -> bool) : nat :=
  match fuel with
  | O => first
  | S f =>
    match len with
    | O => first
    | _ => let half := Nat.div2 len in
           let mid := first + half in
           if p mid then bsearch f (S mid) (len - half - 1) p
           else bsearch f first half p
    end
  end.
Definition partition_point (n : nat) (p : nat -> bool) : nat := bsearch n 0 n p.

Lemma bsearch_spec k p : forall fuel first len, len <= fuel -> first <= k <= first + len ->
  (forall i, first <= i < first + len -> p i = (i <? k)) -> bsearch fuel first len p = k.
Proof.
  induction fuel as [|f IH]; intros first len L B P; cbn [bsearch].
  - lia.
  - destruct len as [|len']; [lia|]. set (len := S len') in *.
    assert (HH : Nat.div2 len < len) by (apply Nat.lt_div2; lia).
    set (half := Nat.div2 len) in *.
    rewrite (P (first + half)) by lia.
    destruct (Nat.ltb_spec (first + half) k).
    + apply IH; try lia. intros; apply P; lia.
    + apply IH; try lia. intros; apply P; lia.
Qed.
Lemma partition_point_spec n k p : k <= n -> (forall i, i < n -> p i = (i <? k)) -> partition_point n p = k.
Proof. intros. unfold partition_point. apply bsearch_spec; try lia. intros; apply H0; lia. Qed.

Section Lists.
  Context {A : Type}.
  Definition pos_test (l : list A) (q : A -> bool) (i : nat) : bool :=
    match nth_error l i with Some x => q x | None => false end.

  Lemma partition_point_split (q : A -> bool) l1 l2 :
    Forall (fun x => q x = true) l1 -> Forall (fun x => q x = false) l2 ->
    partition_point (length (l1 ++ l2)) (pos_test (l1 ++ l2) q) = length l1.
  Proof.
    intros H1 H2. apply partition_point_spec.
    - rewrite app_length. lia.
    - intros i Hi. unfold pos_test. destruct (Nat.ltb_spec i (length l1)).
      + rewrite nth_error_app1 by auto. destruct (nth_error l1 i) eqn:E.
        * rewrite Forall_forall in H1. apply H1. eapply nth_error_In; eauto.
        * apply nth_error_None in E. lia.
      + rewrite nth_error_app2 by auto. destruct (nth_error l2 (i - length l1)) eqn:E; auto.
        rewrite Forall_forall in H2. apply H2. eapply nth_error_In; eauto.
  Qed.

  (** In a list ordered by R, a predicate closed towards smaller elements splits it. *)
  Lemma sorted_split (R : A -> A -> Prop) (q : A -> bool) l :
    StronglySorted R l -> (forall a b, R a b -> q b = true -> q a = true) ->
    exists l1 l2, l = l1 ++ l2 /\ Forall (fun x => q x = true) l1 /\ Forall (fun x => q x = false) l2.
  Proof.
    intros S Q. induction S as [|x l S IH F].
    - exists [], []. auto.
    - destruct (q x) eqn:E.
      + destruct IH as (l1 & l2 & -> & H1 & H2). exists (x :: l1), l2. auto.
      + exists [], (x :: l). splits; auto. constructor; auto.
        rewrite Forall_forall in *. intros y Hy. specialize (F y Hy). destruct (q y) eqn:Ey; auto.
        rewrite (Q x y) in E; auto.
  Qed.
End Lists.
