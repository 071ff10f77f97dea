(** C17: the action scheduler. *)
From Coq Require Import ZArith List Bool Lia Sorting.Permutation.
From Verif Require Import Base ActionsModel ActionsProofs.
Import ListNotations.
Open Scope Z_scope.

(** Specification: a bag of pending actions.  [serves bag ops outs rest]: the calls
    [ops] on a scheduler holding [bag] may give the results [outs] and leave [rest]. *)
Inductive serves : list action -> list op -> list out -> list action -> Prop :=
| serves_end bag rest : Permutation bag rest -> serves bag [] [] rest
| serves_insert bag l ops outs rest : serves (l ++ bag) ops outs rest -> serves bag (Insert l :: ops) outs rest
| serves_clear bag ops outs rest : serves [] ops outs rest -> serves bag (Clear :: ops) outs rest
| serves_empty ops outs rest : serves [] ops outs rest -> serves [] (Pop :: ops) (PopFailed :: outs) rest
| serves_pop bag a bag' ops outs rest : Permutation bag (a :: bag') ->
    (forall b, In b bag -> a_time a <= a_time b) ->
    serves bag' ops outs rest -> serves bag (Pop :: ops) (Popped a :: outs) rest.

Lemma serves_perm bag bag' ops outs rest : Permutation bag bag' -> serves bag ops outs rest -> serves bag' ops outs rest.
Proof.
  intros P S. revert bag' P; induction S; intros bag1 P.
  - constructor. rewrite <- P. auto.
  - constructor. apply IHS. now apply Permutation_app_head.
  - constructor. auto.
  - apply Permutation_nil in P. subst. constructor; auto.
  - econstructor; [rewrite <- P; eassumption| |apply IHS; auto].
    intros b I. apply H0. eapply Permutation_in; [symmetry; exact P|auto].
Qed.
Lemma run_serves ops : forall d, heap_from 0 d -> let '(o, e) := run d ops in serves d ops o e.
Proof.
  induction ops as [|[l| |] ops IH]; intros d H; cbn [run].
  - constructor. auto.
  - destruct (insert_all_spec l d H) as (A & B). specialize (IH _ A). destruct (run (insert_all d l) ops) as [o e].
    constructor. eapply serves_perm; [exact B|auto].
  - pose proof (pop_spec d H) as P. destruct (pop d) as [[a d']|e|u].
    + destruct P as (A & B & C & _). specialize (IH _ A). destruct (run d' ops) as [o e]. econstructor; eauto.
    + destruct P as [-> ->]. specialize (IH [] H). destruct (run [] ops) as [o e]. constructor; auto.
    + destruct P.
  - assert (N : heap_from 0 []) by (intros i Hi; cbn in Hi; lia). specialize (IH [] N). destruct (run [] ops). constructor; auto.
Qed.

(** C17.  Whatever list the scheduler is built from and whatever sequence of insert,
    pop and clear follows: every pop on a non-empty scheduler returns a pending action
    with the smallest time of execution and removes exactly that one, pop on an empty
    scheduler throws, and nothing is lost, duplicated or invented. *)
Theorem scheduler_serves_in_time_order init ops :
  let '(outs, rest) := run (make_actions init) ops in serves init ops outs rest.
Proof.
  destruct (make_heap_spec init) as (A & B). pose proof (run_serves ops _ A) as R. unfold make_actions.
  destruct (run (make_heap init) ops) as [o e]. eapply serves_perm; eauto.
Qed.
Print Assumptions scheduler_serves_in_time_order.

(** Consequence: draining the scheduler returns a permutation of what was put in, with
    non-decreasing times. *)
Fixpoint drain (n : nat) (d : list action) : list action :=
  match n with
  | O => []
  | S k => match pop d with Ok (a, d') => a :: drain k d' | _ => [] end
  end.
Fixpoint nondecreasing (l : list action) : Prop :=
  match l with
  | [] => True
  | a :: r => (forall b, In b r -> a_time a <= a_time b) /\ nondecreasing r
  end.
Theorem draining_sorts init : let d := make_actions init in
  Permutation (drain (length init) d) init /\ nondecreasing (drain (length init) d).
Proof.
  destruct (make_heap_spec init) as (A & B). cbn zeta. unfold make_actions.
  assert (G : forall n d, heap_from 0 d -> length d = n -> Permutation (drain n d) d /\ nondecreasing (drain n d)).
  { induction n as [|n IH]; intros d H L; cbn [drain].
    - destruct d; [cbn; auto|discriminate].
    - pose proof (pop_spec d H) as P. destruct (pop d) as [[a d']|e|u].
      + destruct P as (A1 & B1 & C1 & _). assert (L' : length d' = n) by (apply Permutation_length in B1; cbn in B1; lia).
        destruct (IH d' A1 L') as (D1 & E1). split.
        * rewrite D1. now symmetry.
        * cbn. split; auto. intros b I. apply C1. eapply Permutation_in; [symmetry; exact B1|]. right. eapply Permutation_in; eauto.
      + destruct P as [-> _]. discriminate.
      + destruct P. }
  rewrite <- (Permutation_length B). destruct (G (length (make_heap init)) (make_heap init) A eq_refl) as (X & Y).
  split; auto. now rewrite X.
Qed.
Print Assumptions draining_sorts.

(** earliest_time agrees with the next pop; it is undefined exactly on an empty scheduler. *)
Theorem earliest_time_is_next d a d' : pop d = Ok (a, d') -> earliest_time d = Ok (a_time a) /\ is_empty d = false.
Proof. destruct d as [|x [|y l]]; cbn [pop]; try discriminate; intros [= <- _]; auto. Qed.
Theorem earliest_time_empty_refuted : earliest_time (make_actions []) = UB UB_oob.
Proof. reflexivity. Qed.
Print Assumptions earliest_time_is_next.

Example scheduler_example :
  fst (run (make_actions [Action 1 50; Action 2 20; Action 3 70; Action 4 20])
        [Pop; Insert [Action 5 10; Action 6 60]; Pop; Pop; Pop; Pop; Pop; Pop])
  = [Popped (Action 4 20); Popped (Action 5 10); Popped (Action 2 20); Popped (Action 1 50);
     Popped (Action 6 60); Popped (Action 3 70); PopFailed].
Proof. reflexivity. Qed.
