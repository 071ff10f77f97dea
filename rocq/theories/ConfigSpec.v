(** Vocabulary for the statements about configurations: which keys a tree contains. *)
From Coq Require Import ZArith List Bool String.
Import ListNotations.
From Verif Require Import Base ConfigModel.
Local Open Scope nat_scope.

(** [at_path t p n]: following the labels [p] from [t] through the sections leads to [n]. *)
Inductive at_path : node -> label_path -> node -> Prop :=
| at_here n : at_path n [] n
| at_below l k c p n : In (k, c) l -> at_path c p n -> at_path (Map l) (k :: p) n.

Definition leaf (n : node) : Prop := forall l, n <> Map l.
(** the key with labels [p] has the value [v] *)
Definition key_value (t : node) (p : label_path) (v : node) : Prop := at_path t p v /\ leaf v.

Definition prefix (p q : label_path) : Prop := exists r, q = (p ++ r)%list.

(** every section has pairwise different keys, none of them the empty text *)
Definition tidy (t : node) : Prop :=
  forall p l, at_path t p (Map l) -> NoDup (map fst l) /\ ~ In ""%string (map fst l).
(** no section below the root is empty *)
Definition compact (t : node) : Prop := forall p l, at_path t p (Map l) -> p <> [] -> l <> [].

(** a list stands where the labels [p] expect a section *)
Definition blocked (t : node) (p : label_path) : Prop :=
  exists q k r x l, p = (q ++ k :: r)%list /\ at_path t q (Seq (x :: l)).

(** merging in [b] replaces what [p] was before: [b] has a key at [p] or above it, or a
    non-empty section at [p] *)
Definition overridden (b : node) (p : label_path) : Prop :=
  (exists q w, key_value b q w /\ prefix q p) \/ (exists e l, at_path b p (Map (e :: l))).
(** a value of [a] stands where [b] has a non-empty section *)
Definition value_under_section (a b : node) (v : node) (p : label_path) : Prop :=
  exists e l, at_path a p v /\ at_path b p (Map (e :: l)).

(** * Validation *)
(** [worst P v]: [v] is the most severe of the verdicts satisfying [P] *)
Definition worst (P : verdict -> Prop) (v : verdict) : Prop :=
  match v with
  | Invalid => P Invalid
  | Deprecated => ~ P Invalid /\ P Deprecated
  | Valid => ~ P Invalid /\ ~ P Deprecated
  end.
(** the list of known keys makes sense: different keys have different labels, none is a
    section of another, and each has one, two or three versions *)
Definition sensible (db : list key_info) : Prop :=
  NoDup (map ki_labels db) /\
  (forall a b, In a db -> In b db -> prefix (ki_labels a) (ki_labels b) -> ki_labels a = ki_labels b) /\
  (forall a, In a db -> ki_labels a <> [] /\ (ki_versions a = 1 \/ ki_versions a = 2 \/ ki_versions a = 3)).
(** what the documentation says about a key with these labels *)
Definition status (db : list key_info) (labels : label_path) (v : verdict) : Prop :=
  match v with
  | Valid => exists k, In k db /\ ki_labels k = labels /\ ki_versions k = 1
  | Deprecated => exists k, In k db /\ ki_labels k = labels /\ ki_versions k = 2
  | Invalid => ~ exists k, In k db /\ ki_labels k = labels /\ ki_versions k <> 3
  end.
(** the known key a value in the file belongs to: a map-valued key containing it, or else
    the key with its own labels *)
Definition belongs (db : list key_info) (p q : label_path) : Prop :=
  (exists k, In k db /\ ki_map k = true /\ ki_labels k = q /\ prefix q p) \/
  ((forall k, In k db -> ki_map k = true -> ~ prefix (ki_labels k) p) /\ q = p).
(** verdicts of the values in a tree *)
Definition verdicts (db : list key_info) (t : node) (v : verdict) : Prop :=
  exists p n q, key_value t p n /\ p <> [] /\ belongs db p q /\ status db q v.
(** some value stands at a section that leads to a map-valued key *)
Definition too_short (db : list key_info) (t : node) : Prop :=
  exists p n k, key_value t p n /\ p <> [] /\ In k db /\ ki_map k = true /\ prefix p (ki_labels k) /\ p <> ki_labels k.
