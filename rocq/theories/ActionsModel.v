(** Model of the action scheduler /repo/src/include/smash/actions.h, with the heap
    algorithms of libstdc++ (bits/stl_heap.h: __push_heap, __adjust_heap, __make_heap,
    __pop_heap).  An action is an identity and a time of execution; times are integers
    standing for any totally ordered, NaN-free set of doubles. *)
From Coq Require Import ZArith List Bool.
From Verif Require Import Base.
Import ListNotations.
Open Scope nat_scope.

Record action := Action { a_id : Z; a_time : Z }.
Definition dummy := Action 0 0.
(** first[i] *)
Definition get (l : list action) (i : nat) : action := nth i l dummy.
(** Actions::cmp, actions.h:126-128: later than *)
Definition cmp (a b : action) : bool := (a_time b <? a_time a)%Z.
Definition parent (i : nat) : nat := (i - 1) / 2.

(** __push_heap(first, hole, top, value); the fuel bounds the path to the top *)
Fixpoint push_up (fuel : nat) (l : list action) (hole top : nat) (v : action) : list action :=
  match fuel with
  | O => upd hole v l
  | S f =>
    if (top <? hole) && cmp (get l (parent hole)) v
    then push_up f (upd hole (get l (parent hole)) l) (parent hole) top v
    else upd hole v l
  end.
(** the downward loop of __adjust_heap; returns the array and the final hole *)
Fixpoint sift_down (fuel : nat) (l : list action) (hole : nat) : list action * nat :=
  match fuel with
  | O => (l, hole)
  | S f =>
    if hole <? (length l - 1) / 2 then
      let r := 2 * (hole + 1) in
      let s := if cmp (get l r) (get l (r - 1)) then r - 1 else r in
      sift_down f (upd hole (get l s) l) s
    else if Nat.even (length l) && (hole =? (length l - 2) / 2) && (0 <? length l) then
      let r := 2 * (hole + 1) in
      (upd hole (get l (r - 1)) l, r - 1)
    else (l, hole)
  end.
Definition adjust_heap (l : list action) (hole : nat) (v : action) : list action :=
  let '(l', h) := sift_down (length l) l hole in push_up (length l) l' h hole v.

(** std::push_heap after push_back *)
Definition push_heap (l : list action) (v : action) : list action :=
  push_up (length l + 1) (l ++ [v]) (length l) 0 v.
(** std::make_heap *)
Fixpoint make_heap_from (k : nat) (l : list action) : list action :=
  let l' := adjust_heap l k (get l k) in
  match k with O => l' | S k' => make_heap_from k' l' end.
Definition make_heap (l : list action) : list action :=
  if length l <? 2 then l else make_heap_from ((length l - 2) / 2) l.

(** Actions(ActionList&&), actions.h:41-43 *)
Definition make_actions (l : list action) : list action := make_heap l.
(** insert(ActionPtr&&) and insert(ActionList&&), actions.h:79-97 *)
Definition insert (d : list action) (a : action) : list action := push_heap d a.
Definition insert_all (d : list action) (l : list action) : list action := fold_left insert l d.
(** pop, actions.h:58-66: std::pop_heap moves the first element to the back and
    re-heapifies the others (nothing to do for one element). *)
Definition pop (d : list action) : res (action * list action) :=
  match d with
  | [] => Throw E_runtime
  | [a] => Ok (a, [])
  | a :: _ => let l := removelast d in Ok (a, adjust_heap l 0 (last d dummy))
  end.
(** earliest_time, actions.h:69: front() of an empty vector is undefined *)
Definition earliest_time (d : list action) : res Z :=
  match d with [] => UB UB_oob | a :: _ => Ok (a_time a) end.
Definition is_empty (d : list action) : bool := match d with [] => true | _ => false end.

(** A client of the scheduler: any sequence of calls. *)
Inductive op := Insert (l : list action) | Pop | Clear.
Inductive out := Popped (a : action) | PopFailed.
Fixpoint run (d : list action) (ops : list op) : list out * list action :=
  match ops with
  | [] => ([], d)
  | Insert l :: r => run (insert_all d l) r
  | Clear :: r => run [] r
  | Pop :: r => match pop d with
                | Ok (a, d') => let '(o, e) := run d' r in (Popped a :: o, e)
                | _ => let '(o, e) := run d r in (PopFailed :: o, e)
                end
  end.
