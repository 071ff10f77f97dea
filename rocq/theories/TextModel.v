(** Text handling: src/stringfunctions.cc and src/inputfunctions.cc.

    A [std::string] is the list of its bytes (0..255).  Not modelled: memory
    exhaustion, logging. *)
From Coq Require Import ZArith List Bool Lia.
From Coq Require Ascii String.
From Verif Require Import Base.
Import ListNotations.

Notation text := (list Z).

(** the bytes of a literal (for examples only) *)
Fixpoint codes (s : String.string) : text :=
  match s with
  | String.EmptyString => []
  | String.String c t => Z.of_N (Ascii.N_of_ascii c) :: codes t
  end.

Definition HASH : Z := 35.
Definition SPACE : Z := 32.
Definition TAB : Z := 9.
Definition NEWLINE : Z := 10.
Definition RETURN : Z := 13.

(** membership in the literal " \t\n\r" (stringfunctions.cc:77, 81) *)
Definition is_white (c : Z) : bool :=
  (c =? SPACE) || (c =? TAB) || (c =? NEWLINE) || (c =? RETURN).
(** membership in the literal " \t" (inputfunctions.cc:36) *)
Definition is_blank (c : Z) : bool := (c =? SPACE) || (c =? TAB).

(** [s.find_first_not_of(set)], as the remainder of s from there on ([] when npos) *)
Fixpoint drop_while (f : Z -> bool) (s : text) : text :=
  match s with
  | [] => []
  | c :: t => if f c then drop_while f t else s
  end.

(** [s.find('#')] followed by [substr(0, hash_pos)] (inputfunctions.cc:31-35) *)
Fixpoint take_until (d : Z) (s : text) : text :=
  match s with
  | [] => []
  | c :: t => if c =? d then [] else c :: take_until d t
  end.

(** trim, stringfunctions.cc:76-83: from the first to the last character that is not
    white.  The two index searches are written as dropping from either end. *)
Definition trim (s : text) : text :=
  rev (drop_while is_white (rev (drop_while is_white s))).

(** one std::getline on a stream whose unread characters are s (s not empty):
    the item and the characters left unread *)
Fixpoint getline (d : Z) (s : text) : text * text :=
  match s with
  | [] => ([], [])
  | c :: t => if c =? d then ([], t) else let '(a, b) := getline d t in (c :: a, b)
  end.

(** [while (std::getline(ss, item, delim))], stringfunctions.cc:116 and
    inputfunctions.cc:29.  getline fails exactly when no character is left.  The fuel is
    the number of characters, every turn consumes at least one. *)
Fixpoint getlines (fuel : nat) (d : Z) (s : text) : list text :=
  match s, fuel with
  | [], _ => []
  | _, O => []
  | _, S f => let '(a, b) := getline d s in a :: getlines f d b
  end.

(** split, stringfunctions.cc:111-125 *)
Definition split (s : text) (d : Z) : list text := getlines (length s) d s.

(** join, stringfunctions.cc:127-132: std::accumulate from the empty string *)
Definition join (v : list text) (d : text) : text :=
  fold_left (fun ss s => match ss with [] => s | _ => ss ++ d ++ s end) v [].

(** quote, stringfunctions.cc:134 *)
Definition quote (s : text) : text := 34 :: s ++ [34].

(** Line, inputfunctions.h:23-32 *)
Record line := mkLine { number : Z; content : text }.

(** body of the loop of line_parser, inputfunctions.cc:30-42; the counter is an int *)
Definition parse_step (st : Z * list line) (raw : text) : res (Z * list line) :=
  let '(n, acc) := st in
  n' <- sint (n + 1) ;;
  let cut := take_until HASH raw in
  match drop_while is_blank cut with
  | [] => Ok (n', acc)
  | _ => Ok (n', acc ++ [mkLine n' (trim cut)])
  end.

(** line_parser, inputfunctions.cc:21-45 *)
Definition line_parser (input : text) : res (list line) :=
  '(_, l) <- foldM parse_step (0, []) (getlines (length input) NEWLINE input) ;; Ok l.

(** utf8 adjust, stringfunctions.cc:28-46: size_t arithmetic wraps *)
Definition extra_bytes (c : Z) : Z :=
  if 0xFC <=? c then 5
  else if 0xF8 <=? c then 4
  else if 0xF0 <=? c then 3
  else if 0xE0 <=? c then 2
  else if (c =? 0xCC) || (c =? 0xCD) then 2
  else if 0xC0 <=? c then 1
  else 0.
Definition adjust (s : text) (width : Z) : Z :=
  fold_left (fun w c => u64 (w + extra_bytes c)) s width.

(** std::string(n, fill): throws std::length_error above max_size() = 2^63 - 1
    (libstdc++ on 64 bit) *)
Definition make_string (n : Z) (fill : Z) : res text :=
  if n <=? 2 ^ 63 - 1 then Ok (repeat fill (Z.to_nat n)) else Throw E_length.

(** fill_left, fill_right, stringfunctions.cc:48-62; s.size() < 2^63 *)
Definition fill_left (s : text) (width fill : Z) : res text :=
  let w := adjust s (u64 (width - Z.of_nat (length s))) in
  if 0 <? w then (p <- make_string w fill ;; Ok (p ++ s)) else Ok s.
Definition fill_right (s : text) (width fill : Z) : res text :=
  let w := adjust s (u64 (width - Z.of_nat (length s))) in
  if 0 <? w then (p <- make_string w fill ;; Ok (s ++ p)) else Ok s.
(** fill_both, stringfunctions.cc:64-72: the halves go through int and are converted
    back to size_t by the string constructor *)
Definition fill_both (s : text) (width fill : Z) : res text :=
  let w := adjust s (u64 (width - Z.of_nat (length s))) in
  if 0 <? w then
    let l := i32 (w / 2) in
    let r := i32 (u64 (w - l)) in
    a <- make_string (u64 l) fill ;;
    b <- make_string (u64 r) fill ;;
    Ok (a ++ s ++ b)
  else Ok s.

(** does s start with p? *)
Fixpoint prefixb (p s : text) : bool :=
  match p, s with
  | [], _ => true
  | a :: p', b :: s' => (a =? b) && prefixb p' s'
  | _ :: _, [] => false
  end.
(** s.find(p): position of the first occurrence *)
Fixpoint find_str (p s : text) : option nat :=
  if prefixb p s then Some 0%nat
  else match s with
       | [] => None
       | _ :: t => match find_str p t with Some i => Some (S i) | None => None end
       end.
(** s.erase(i, n) *)
Definition erase (i n : nat) (s : text) : text := firstn i s ++ skipn (i + n) s.
(** remove_substr, stringfunctions.cc:85-91; running out of fuel models the loop that
    never ends *)
Fixpoint remove_loop (fuel : nat) (s p : text) : res text :=
  match find_str p s with
  | None => Ok s
  | Some i => match fuel with
              | O => UB UB_no_progress
              | S f => remove_loop f (erase i (length p) s) p
              end
  end.
Definition remove_substr (s p : text) : res text := remove_loop (S (length s)) s p.

(** isoclean, stringfunctions.cc:93-97: the three superscripts U+207A, U+207B, U+2070 *)
Definition SUP_PLUS : text := [0xE2; 0x81; 0xBA].
Definition SUP_MINUS : text := [0xE2; 0x81; 0xBB].
Definition SUP_ZERO : text := [0xE2; 0x81; 0xB0].
Definition isoclean (s : text) : res text :=
  s1 <- remove_substr s SUP_PLUS ;;
  s2 <- remove_substr s1 SUP_MINUS ;;
  remove_substr s2 SUP_ZERO.
