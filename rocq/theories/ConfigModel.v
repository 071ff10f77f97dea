(** Model of class Configuration (src/configuration.cc, src/include/smash/configuration.h)
    and of the parts of class Key (src/include/smash/key.h) it uses.

    Simplifications, for the whole file.
    - A YAML node is a finite tree: no anchors/aliases, so no two places of a tree share
      memory.  Map keys are scalars (a YAML key that is itself a map or a list is not
      represented).  Undefined entries that yaml-cpp leaves behind after a failed lookup
      are invisible through its interface and are not represented.
    - yaml-cpp itself is not part of /repo.  Its operations are modelled after the 0.6-0.8
      sources: [operator\[\]] and [remove] act on the first entry with the key; subscripting
      a scalar throws; subscripting a list turns it into a map with keys 0, 1, ...;
      iterating over a list and asking for [first.Scalar()] throws; the handle of an empty
      document, and a handle after [reset()], own no node, and copies of such a handle
      share nothing with it.
    - YAML parsing and writing, conversion of a node to a C++ type and messages are not
      modelled; a key brings its conversion functions along. *)
From Coq Require Import ZArith List Bool String.
Import ListNotations.
From Verif Require Import Base.
Local Open Scope string_scope.
Local Open Scope nat_scope.

(** The tree of a YAML document. *)
Inductive node :=
| Null
| Scalar (s : string)
| Seq (l : list node)
| Map (l : list (string * node)).

Definition label_path := list string.

(** * yaml-cpp operations *)
Definition is_map (n : node) : bool := match n with Map _ => true | _ => false end.
Definition is_null (n : node) : bool := match n with Null => true | _ => false end.
Definition size (n : node) : nat :=
  match n with Seq l => List.length l | Map l => List.length l | _ => 0 end.

Fixpoint assoc (k : string) (l : list (string * node)) : option node :=
  match l with
  | [] => None
  | (k', v) :: r => if String.eqb k' k then Some v else assoc k r
  end.
(** Node::remove *)
Fixpoint remove_first (k : string) (l : list (string * node)) : list (string * node) :=
  match l with
  | [] => []
  | (k', v) :: r => if String.eqb k' k then r else (k', v) :: remove_first k r
  end.
Definition remove (k : string) (n : node) : node :=
  match n with Map l => Map (remove_first k l) | _ => n end.
(** assignment to [node\[k\]] of a map *)
Fixpoint assoc_set (k : string) (v : node) (l : list (string * node)) : list (string * node) :=
  match l with
  | [] => [(k, v)]
  | (k', v') :: r => if String.eqb k' k then (k', v) :: r else (k', v') :: assoc_set k v r
  end.

(** decimal text of a list position, as used when a list is turned into a map *)
Definition digit (d : nat) : string :=
  match d with 0 => "0" | 1 => "1" | 2 => "2" | 3 => "3" | 4 => "4" | 5 => "5"
             | 6 => "6" | 7 => "7" | 8 => "8" | _ => "9" end.
Fixpoint decimal (fuel n : nat) : string :=
  match fuel with
  | O => ""
  | S f => if n <? 10 then digit n else decimal f (n / 10) ++ digit (n mod 10)
  end.
Fixpoint numbered (i : nat) (l : list node) : list (string * node) :=
  match l with [] => [] | x :: r => (decimal (S i) i, x) :: numbered (S i) r end.

(** node_data::get, non-const: the entries of the node seen as a map, converting it if
    needed; None = BadSubscript.  An absent node ([None]) counts as undefined. *)
Definition entries (a : option node) : option (list (string * node)) :=
  match a with
  | None => Some []
  | Some Null => Some []
  | Some (Scalar _) => None
  | Some (Seq l) => Some (numbered 0 l)
  | Some (Map l) => Some l
  end.
(** the node [a] after [a\[k\]] was created and given the content [c] (None: left undefined);
    [l] = entries a *)
Definition put (a : option node) (l : list (string * node)) (k : string) (c : option node) : option node :=
  match c with
  | Some n => Some (Map (assoc_set k n l))
  | None => match a with None => None | Some _ => Some (Map l) end
  end.

(** * Helpers of configuration.cc *)
(** configuration.cc:40-62 descend_one_existing_level, on a present node *)
Definition descend (n : node) (k : string) : res (option node) :=
  match n with
  | Map l => Ok (assoc k l)
  | Seq (_ :: _) => Throw E_other          (* YAML::InvalidNode *)
  | _ => Ok None
  end.
Definition descend_opt (n : option node) (k : string) : res (option node) :=
  match n with None => Ok None | Some n => descend n k end.

(** configuration.cc:71-86 remove_empty_maps.  [to_remove] starts with size() empty strings. *)
Fixpoint remove_empty_maps (n : node) : node :=
  match n with
  | Map l =>
      let l' := map (fun kc => match kc with (k, c) => (k, remove_empty_maps c) end) l in
      let empties := flat_map (fun kc => match snd kc with Map [] => [fst kc] | _ => [] end) l' in
      let to_remove := (repeat "" (List.length l) ++ empties)%list in
      Map (fold_left (fun m k => remove_first k m) to_remove l')
  | _ => n
  end.

(** configuration.cc:95-104 operator|=; the result is the new content of the left node and
    whether no BadSubscript was thrown *)
Fixpoint merge (a : option node) (b : node) {struct b} : option node * bool :=
  match b with
  | Map kvs =>
      (fix go (a : option node) (kvs : list (string * node)) {struct kvs} : option node * bool :=
         match kvs with
         | [] => (a, true)
         | (k, v) :: r =>
             match entries a with
             | None => (a, false)
             | Some l =>
                 match merge (assoc k l) v with
                 | (c, true) => go (put a l k c) r
                 | (c, false) => (put a l k c, false)
                 end
             end
         end) a kvs
  | _ => (Some b, true)
  end.

(** Apply [f] to the node reached by the (existing) path: what a modification through the
    handle returned by find_existing_node does to the tree. *)
Fixpoint update_at (n : node) (p : label_path) (f : node -> node) : node :=
  match p with
  | [] => f n
  | k :: r => match n with
              | Map l => match assoc k l with
                         | Some c => Map (assoc_set k (update_at c r f) l)
                         | None => n
                         end
              | _ => n
              end
  end.

(** * The class *)
(** root_node_: None is a handle that owns no node.  [born] = uncaught_exceptions_. *)
Record conf := Conf { root : option node; taken : list label_path; born : nat }.
Definition view (r : option node) : node := match r with None => Null | Some n => n end.
Definition tree (c : conf) : node := view (root c).

(** key.h:170-420: the parts of a Key used by Configuration.  [k_decode] is the conversion
    Value -> T (configuration.h:870-888), which may throw; [k_encode] is YAML::convert. *)
Record key (T : Type) := Key {
  k_labels : label_path;
  k_default : option T;
  k_dependent : bool;
  k_valid : T -> bool;
  k_is_map : bool;
  k_decode : node -> res T;
  k_encode : T -> node }.
Arguments k_labels {T}. Arguments k_default {T}. Arguments k_dependent {T}. Arguments k_valid {T}.
Arguments k_is_map {T}. Arguments k_decode {T}. Arguments k_encode {T}.

(** configuration.cc:366-377 find_existing_node *)
Definition find_existing_node (n : node) (keys : label_path) : res (option node) :=
  fold_left (fun acc k => m <- acc ;; descend_opt m k) keys (Ok (Some n)).

(** configuration.h:759-789 has_key, has_value, has_section *)
Definition has_key (c : conf) (labels : label_path) : res bool :=
  m <- find_existing_node (tree c) labels ;;
  Ok (match m with Some n => negb (is_map n) | None => false end).
Definition has_value (c : conf) (labels : label_path) : res bool :=
  m <- find_existing_node (tree c) labels ;;
  Ok (match m with Some n => negb (is_null n) && negb (is_map n) | None => false end).
Definition has_section (c : conf) (labels : label_path) : res bool :=
  m <- find_existing_node (tree c) labels ;;
  Ok (match m with Some n => is_map n | None => false end).
(** configuration.h:795 *)
Definition is_empty (c : conf) : bool := size (tree c) =? 0.
(** configuration.h:1686-1690 did_key_exist_and_was_it_already_taken *)
Definition path_eqb (p q : label_path) : bool := if list_eq_dec string_dec p q then true else false.
Definition already_taken (c : conf) (labels : label_path) : bool := existsb (path_eqb labels) (taken c).

(** configuration.h:852-860, constructor of Value *)
Definition mk_value (n : node) : res node := if is_null n then Throw E_runtime else Ok n.

(** configuration.cc:215-243 private take *)
Definition take_node (c : conf) (labels : label_path) : res node * conf :=
  match rev labels with
  | [] => (UB UB_assert, c)
  | last :: rprev =>
      let prev := rev rprev in
      match (p <- find_existing_node (tree c) prev ;; r <- descend_opt p last ;; Ok (p, r)) with
      | Ok (Some _, Some r) =>
          let t := remove_empty_maps (update_at (tree c) prev (remove last)) in
          let tk := if already_taken c labels then taken c else (taken c ++ [labels])%list in
          (mk_value r, Conf (Some t) tk (born c))
      | Ok _ => (Throw E_runtime, c)
      | Throw e => (Throw e, c)
      | UB u => (UB u, c)
      end
  end.
(** configuration.cc:245-256 private read *)
Definition read_node (c : conf) (labels : label_path) : res node :=
  m <- find_existing_node (tree c) labels ;;
  match m with Some n => mk_value n | None => Throw E_runtime end.

(** configuration.h:1606-1652 get_validated_key_value and the two unconditional accessors *)
Definition validated {T} (k : key T) (v : T) : res T := if k_valid k v then Ok v else Throw E_invalid_argument.
Definition convert {T} (k : key T) (r : res node) : res T := n <- r ;; v <- k_decode k n ;; validated k v.
(** configuration.h:530-543: the default value of the key *)
Definition default_of {T} (k : key T) : res T :=
  match k_default k with Some v => Ok v | None => Throw E_invalid_argument end.

(** configuration.h:513-543 take(key).  E_domain stands for TakeSameKeyTwice. *)
Definition take {T} (c : conf) (k : key T) : res T * conf :=
  match has_value c (k_labels k) with
  | Ok true => let '(r, c') := take_node c (k_labels k) in (convert k r, c')
  | Ok false =>
      match has_section c (k_labels k) with
      | Ok true => if k_is_map k then let '(r, c') := take_node c (k_labels k) in (convert k r, c')
                   else (Throw E_logic, c)
      | Ok false => if already_taken c (k_labels k) then (Throw E_domain, c) else (default_of k, c)
      | Throw e => (Throw e, c)
      | UB u => (UB u, c)
      end
  | Throw e => (Throw e, c)
  | UB u => (UB u, c)
  end.
(** configuration.h:561-577 take(key, default) *)
Definition take_or {T} (c : conf) (k : key T) (d : T) : res T * conf :=
  if negb (k_dependent k) then (Throw E_logic, c) else
  if negb (k_valid k d) then (Throw E_logic, c) else
  match has_value c (k_labels k) with
  | Ok true => take c k
  | Ok false => (Ok d, c)
  | Throw e => (Throw e, c)
  | UB u => (UB u, c)
  end.
(** configuration.h:605-631 read(key) *)
Definition read {T} (c : conf) (k : key T) : res T :=
  hv <- has_value c (k_labels k) ;;
  if (hv : bool) then convert k (read_node c (k_labels k)) else
  hs <- has_section c (k_labels k) ;;
  if (hs : bool) then if k_is_map k then convert k (read_node c (k_labels k)) else Throw E_logic
  else default_of k.
(** configuration.h:649-665 read(key, default) *)
Definition read_or {T} (c : conf) (k : key T) (d : T) : res T :=
  if negb (k_dependent k) then Throw E_logic else
  if negb (k_valid k d) then Throw E_logic else
  hv <- has_value c (k_labels k) ;;
  if (hv : bool) then read c k else Ok d.

(** configuration.cc:379-388 find_node_creating_it_if_not_existing followed by the
    assignment in set_value: new content of the node [a]; the flag tells whether no
    BadSubscript was thrown (entries created before the throw stay undefined, but nodes
    already converted to maps stay converted) *)
Fixpoint set_path (a : option node) (p : label_path) (v : node) : option node * bool :=
  match p with
  | [] => (Some v, true)
  | k :: r => match entries a with
              | None => (a, false)
              | Some l => let '(c, ok) := set_path (assoc k l) r v in (put a l k c, ok)
              end
  end.
(** configuration.h:690-695 set_value; a root handle without node is copied, so nothing
    is stored.  Empty label lists fail the assertion of find_node_creating_…. *)
Definition set_value {T} (c : conf) (k : key T) (v : T) : res unit * conf :=
  match k_labels k with
  | [] => (UB UB_assert, c)
  | _ => match root c with
         | None => (Ok tt, c)
         | Some n => let '(n', ok) := set_path (Some n) (k_labels k) (k_encode k v) in
                     (if ok then Ok tt else Throw E_other, Conf n' (taken c) (born c))
         end
  end.

(** configuration.cc:192-204 merge_yaml after parsing; [doc] is None for a document without
    content (empty text or comments only), which is not a map and replaces the root *)
Definition merge_yaml (c : conf) (doc : option node) : res unit * conf :=
  match root c with
  | None => (Ok tt, c)
  | Some n => let '(n', ok) := merge (Some n) (view doc) in
              (if ok then Ok tt else Throw E_other, Conf n' (taken c) (born c))
  end.

(** configuration.cc:206-213 list_upmost_nodes *)
Definition list_upmost_nodes (c : conf) : res (list string) :=
  match tree c with
  | Map l => Ok (map fst l)
  | Seq (_ :: _) => Throw E_other
  | _ => Ok []
  end.

(** configuration.cc:258-291 remove_all_entries_in_section_but_one *)
Definition remove_all_but (c : conf) (k : string) (section : label_path) : res unit * conf :=
  match find_existing_node (tree c) section with
  | Ok (Some (Map l)) =>
      if existsb (fun e => String.eqb (fst e) k) l then
        let to_remove := filter (fun k' => negb (String.eqb k' k)) (map fst l) in
        let strip n := fold_left (fun m k' => remove k' m) to_remove n in
        (Ok tt, Conf (Some (update_at (tree c) section strip)) (taken c) (born c))
      else (Throw E_invalid_argument, c)
  | Ok (Some (Seq (_ :: _))) => (Throw E_other, c)
  | Ok _ => (Throw E_invalid_argument, c)
  | Throw e => (Throw e, c)
  | UB u => (UB u, c)
  end.

(** configuration.cc:293-328 extract_sub_configuration: result, and the object afterwards.
    [unc] = std::uncaught_exceptions() at the call. *)
Definition extract (unc : nat) (c : conf) (section : label_path) (empty_ok : bool) : res conf * conf :=
  match rev section with
  | [] => (UB UB_assert, c)
  | last :: rprev =>
      let prev := rev rprev in
      match (p <- find_existing_node (tree c) prev ;; r <- descend_opt p last ;; Ok (p, r)) with
      | Ok (Some _, Some (Map (e :: l))) =>
          (Ok (Conf (Some (Map (e :: l))) [] unc),
           Conf (Some (remove_empty_maps (update_at (tree c) prev (remove last)))) (taken c) (born c))
      | Ok (Some _, Some _) => (Throw E_runtime, c)
      | Ok _ => (if empty_ok then Ok (Conf None [] unc) else Throw E_runtime, c)
      | Throw e => (Throw e, c)
      | UB u => (UB u, c)
      end
  end.
(** configuration.cc:338-358 enclose_into_section *)
Fixpoint nest (section : label_path) (n : node) : node :=
  match section with [] => n | k :: r => Map [(k, nest r n)] end.
Definition enclose (c : conf) (section : label_path) : conf :=
  let n := if size (tree c) =? 0 then Map [] else tree c in
  Conf (Some (nest section n)) (taken c) (born c).
(** configuration.cc:330-336 extract_complete_sub_configuration *)
Definition extract_complete (unc : nat) (c : conf) (section : label_path) (empty_ok : bool) : res conf * conf :=
  let '(r, c') := extract unc c section empty_ok in
  (s <- r ;; Ok (enclose s section), c').

(** configuration.h:808 clear *)
Definition clear (c : conf) : conf := Conf None (taken c) (born c).
(** configuration.cc:155-163 move constructor: new object, moved-from object *)
Definition move_construct (other : conf) : conf * conf :=
  (Conf (root other) (taken other) (born other), Conf None [] 0).
(** configuration.cc:165-177 move assignment between objects with different nodes *)
Definition move_assign (self other : conf) : conf * conf :=
  (Conf (Some (tree other)) (taken other) (born other), Conf None [] 0).
(** configuration.cc:179-190 destructor; [unc] = std::uncaught_exceptions() *)
Definition destroy (unc : nat) (c : conf) : res unit :=
  if (unc =? born c) && negb (size (tree c) =? 0) then Throw E_logic else Ok tt.

(** * Validation *)
(** key.h:383-398: one entry of the list of known keys: labels, number of versions given
    (1: valid, 2: deprecated, 3: removed), whether the value type is a std::map *)
Record key_info := KeyInfo { ki_labels : label_path; ki_versions : nat; ki_map : bool }.
Inductive verdict := Invalid | Deprecated | Valid.

(** configuration.cc:410-424 fill_list_of_labels_per_key_in_yaml_tree *)
Fixpoint labels_in (pre : label_path) (n : node) : list label_path :=
  match n with
  | Map l => flat_map (fun kc => match kc with (k, c) =>
               if is_map c then labels_in (pre ++ [k])%list c else [(pre ++ [k])%list] end) l
  | _ => []
  end.
Definition list_labels (n : node) : res (list label_path) :=
  match n with Seq (_ :: _) => Throw E_other | _ => Ok (labels_in [] n) end.

(** configuration.cc:527-530: std::equal over \[labels.begin, labels.end) and
    \[input.begin, input.begin + labels.size); an element past the end of [input] is read
    when all earlier ones agree.  (Merely forming the past-the-end iterator is not counted.) *)
Fixpoint equal_prefix (labels input : label_path) : res bool :=
  match labels with
  | [] => Ok true
  | a :: r => match input with
              | [] => UB UB_oob
              | b :: s => if String.eqb a b then equal_prefix r s else Ok false
              end
  end.
Fixpoint mapM {A B} (f : A -> res B) (l : list A) : res (list B) :=
  match l with [] => Ok [] | x :: r => y <- f x ;; ys <- mapM f r ;; Ok (y :: ys) end.
Fixpoint foldM {A B} (f : B -> A -> res B) (b : B) (l : list A) : res B :=
  match l with [] => Ok b | x :: r => b' <- f b x ;; foldM f b' r end.
(** std::unique *)
Fixpoint unique (l : list label_path) : list label_path :=
  match l with
  | [] => []
  | x :: r => match r with
              | y :: _ => if path_eqb x y then unique r else x :: unique r
              | [] => [x]
              end
  end.
(** configuration.cc:519-539 adjust_list_of_labels_dealing_with_keys_taken_as_maps *)
Definition adjust (db : list key_info) (l : list label_path) : res (list label_path) :=
  l' <- foldM (fun l labels => mapM (fun inp => b <- equal_prefix labels inp ;; Ok (if (b : bool) then labels else inp)) l)
          l (map ki_labels (filter ki_map db)) ;;
  Ok (unique l').
(** configuration.cc:555-594 validate_key *)
Definition validate_key (db : list key_info) (labels : label_path) : verdict :=
  match find (fun k => path_eqb (ki_labels k) labels) db with
  | None => Invalid
  | Some k => if 3 <=? ki_versions k then Invalid else if 2 <=? ki_versions k then Deprecated else Valid
  end.
(** configuration.cc:607-621 accumulate_validation *)
Definition accumulate (r v : verdict) : verdict :=
  match r with
  | Invalid => Invalid
  | Deprecated => match v with Valid => Deprecated | _ => v end
  | Valid => v
  end.
(** configuration.cc:625-639 validate *)
Definition validate (db : list key_info) (full : bool) (c : conf) : res verdict :=
  l <- list_labels (tree c) ;; l <- adjust db l ;;
  Ok (if full then fold_left (fun r k => accumulate r (validate_key db k)) l Valid
      else match find (fun k => match validate_key db k with Valid => false | _ => true end) l with
           | Some k => validate_key db k
           | None => Valid
           end).
