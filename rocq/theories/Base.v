(** Shared vocabulary of the model: outcomes of C++ code, fixed-width integers,
    small list utilities.  No property is stated here. *)
From Coq Require Import ZArith List Bool Lia.
Import ListNotations.

(** C++ exception classes that the modelled code throws.  Messages are not
    modelled. *)
Inductive exn :=
| E_out_of_range | E_overflow | E_range | E_domain | E_runtime | E_logic
| E_invalid_argument | E_length | E_bad_file | E_invalid_pdg | E_pdg_not_found
| E_load_failure | E_other.

(** Undefined behaviour of the C++ program (or a failed [assert], which in
    release builds lets the code continue into undefined behaviour). *)
Inductive ub :=
| UB_oob              (* access outside an array / past-the-end dereference *)
| UB_signed_overflow
| UB_assert
| UB_float_cast       (* floating value not representable in the target integer *)
| UB_div_zero
| UB_no_progress.     (* loop that does not terminate *)

(** Outcome of running a piece of C++. *)
Inductive res (A : Type) :=
| Ok (a : A)
| Throw (e : exn)
| UB (u : ub).
Arguments Ok {A} _.
Arguments Throw {A} _.
Arguments UB {A} _.

Definition rbind {A B} (r : res A) (f : A -> res B) : res B :=
  match r with
  | Ok a => f a
  | Throw e => Throw e
  | UB u => UB u
  end.
Notation "x <- r ;; k" := (rbind r (fun x => k))
  (at level 61, r at next level, right associativity).
Notation "' p <- r ;; k" := (rbind r (fun x => let 'p := x in k))
  (at level 61, p pattern, r at next level, right associativity).

Definition is_ok {A} (r : res A) : Prop := exists a, r = Ok a.
Definition no_ub {A} (r : res A) : Prop := forall u, r <> UB u.

Lemma rbind_ok A B (r : res A) (f : A -> res B) b :
  rbind r f = Ok b -> exists a, r = Ok a /\ f a = Ok b.
Proof. destruct r; simpl; intros; try discriminate; eauto. Qed.

(** Fixed-width integer arithmetic. *)
Open Scope Z_scope.
Definition wrap (bits : Z) (x : Z) : Z := x mod 2 ^ bits.
Definition u8 (x : Z) : Z := x mod 2 ^ 8.
Definition u16 (x : Z) : Z := x mod 2 ^ 16.
Definition u32 (x : Z) : Z := x mod 2 ^ 32.
Definition u64 (x : Z) : Z := x mod 2 ^ 64.
(** conversion to a two's complement type (defined since C++20, and by gcc/clang) *)
Definition to_signed (bits x : Z) : Z :=
  let y := x mod 2 ^ bits in if y <? 2 ^ (bits - 1) then y else y - 2 ^ bits.
Definition i32 (x : Z) : Z := to_signed 32 x.
Definition i64 (x : Z) : Z := to_signed 64 x.
Definition INT_MAX : Z := 2 ^ 31 - 1.
Definition INT_MIN : Z := - 2 ^ 31.
Definition INT64_MAX : Z := 2 ^ 63 - 1.
Definition INT64_MIN : Z := - 2 ^ 63.
Definition UINT32_MAX : Z := 2 ^ 32 - 1.
Definition SIZE_MAX : Z := 2 ^ 64 - 1.
Definition in_i32 (x : Z) : bool := (INT_MIN <=? x) && (x <=? INT_MAX).
Definition in_i64 (x : Z) : bool := (INT64_MIN <=? x) && (x <=? INT64_MAX).
(** signed arithmetic: out of range is undefined behaviour *)
Definition sint (x : Z) : res Z := if in_i32 x then Ok x else UB UB_signed_overflow.
Definition sint64 (x : Z) : res Z := if in_i64 x then Ok x else UB UB_signed_overflow.

(** Functional update of a list element ([v[n] = x] with n in range). *)
Fixpoint upd {A} (n : nat) (x : A) (l : list A) : list A :=
  match l, n with
  | [], _ => []
  | _ :: t, O => x :: t
  | h :: t, S n' => h :: upd n' x t
  end.

Lemma upd_length A n (x : A) l : length (upd n x l) = length l.
Proof. revert n; induction l; intros [|n]; simpl; auto. Qed.

Lemma nth_error_upd_eq A n (x : A) l :
  (n < length l)%nat -> nth_error (upd n x l) n = Some x.
Proof. revert n; induction l; intros [|n]; simpl; intros; try lia; auto. apply IHl; lia. Qed.

Lemma nth_error_upd_neq A n m (x : A) l :
  n <> m -> nth_error (upd n x l) m = nth_error l m.
Proof.
  revert n m; induction l; intros [|n] [|m]; simpl; intros; auto; try congruence.
Qed.

Lemma nth_error_upd A n m (x : A) l :
  nth_error (upd n x l) m =
  if Nat.eqb n m then (if Nat.ltb m (length l) then Some x else None) else nth_error l m.
Proof.
  destruct (Nat.eqb_spec n m).
  - subst. destruct (Nat.ltb_spec m (length l)).
    + apply nth_error_upd_eq; auto.
    + apply nth_error_None. rewrite upd_length. auto.
  - apply nth_error_upd_neq; auto.
Qed.

Lemma upd_split A (l1 l2 : list A) x y :
  upd (length l1) y (l1 ++ x :: l2) = l1 ++ y :: l2.
Proof. induction l1; simpl; congruence. Qed.

(** Run [f] over a list from left to right, stopping at the first non-[Ok]. *)
Fixpoint foldM {A B} (f : A -> B -> res A) (a : A) (l : list B) : res A :=
  match l with
  | [] => Ok a
  | b :: t => a' <- f a b ;; foldM f a' t
  end.

Fixpoint mapM {A B} (f : A -> res B) (l : list A) : res (list B) :=
  match l with
  | [] => Ok []
  | a :: t => b <- f a ;; bs <- mapM f t ;; Ok (b :: bs)
  end.

(** Split conjunctions only (not records or iff). *)
Ltac splits := repeat match goal with |- _ /\ _ => split end.
