(** Model of the particle-type list (/repo/src/particletype.cc:30-362) and the isospin
    multiplets (/repo/src/isoparticletype.cc:39-182).  Strings are byte lists; masses and
    widths are opaque numbers; a line of particles.txt is already split into its
    whitespace-separated words, the numeric ones read. *)
From Coq Require Import ZArith List Bool.
From Verif Require Import Base PdgModel Search.
Import ListNotations.
Open Scope Z_scope.

Definition bytes := list Z.

Record ptype := PType { t_name : bytes; t_mass : Z; t_width : Z; t_parity : bool (* Pos *); t_code : pdg }.

(** a parsed line: particletype.cc:222-262.  [l_parity] is None unless "+" or "-". *)
Record line := Line { l_name : bytes; l_mass : Z; l_width : Z; l_parity : option bool; l_codes : list bytes }.

(** UTF-8 of the superscript signs *)
Definition sup_plus : bytes := [226; 129; 186].
Definition sup_minus : bytes := [226; 129; 187].
Definition sup_zero : bytes := [226; 129; 176].
Definition bar : bytes := [204; 133].   (* U+0305 *)

Fixpoint is_prefix (p s : bytes) : bool :=
  match p, s with
  | [], _ => true
  | a :: p', b :: s' => (a =? b) && is_prefix p' s'
  | _ :: _, [] => false
  end.
(** std::string::find(p) != npos *)
Fixpoint contains (p s : bytes) : bool :=
  is_prefix p s || match s with [] => false | _ :: t => contains p t end.
(** name.substr(0, name.length() - n); the name contains the suffix so n <= length *)
Definition drop_last (n : nat) (s : bytes) : bytes := firstn (length s - n) s.

(** multiplet_name, isoparticletype.cc:86-100; also the base name in antiname,
    particletype.cc:147-165 *)
Definition split_charge (name : bytes) : bytes * bytes :=
  if contains (sup_plus ++ sup_plus) name then (drop_last 6 name, sup_minus ++ sup_minus)
  else if contains sup_plus name then (drop_last 3 name, sup_minus)
  else if contains (sup_minus ++ sup_minus) name then (drop_last 6 name, sup_plus ++ sup_plus)
  else if contains sup_minus name then (drop_last 3 name, sup_plus)
  else if contains sup_zero name then (drop_last 3 name, sup_zero)
  else (name, []).
Definition multiplet_name (name : bytes) : bytes := fst (split_charge name).

(** utf8::sequence_length of the first character *)
Definition sequence_length (s : bytes) : nat :=
  match s with
  | [] => 0
  | c :: _ => if c <? 128 then 1 else if c / 32 =? 6 then 2 else if c / 16 =? 14 then 3
              else if c / 8 =? 30 then 4 else 0
  end.
Definition is_neutrino (w : pdg) : bool := is_lepton w && (n_J w mod 2 =? 0).   (* pdgcode.h:378-380 *)

(** antiname, particletype.cc:146-177 *)
Definition antiname (name : bytes) (w : pdg) : bytes :=
  let '(base, ch) := split_charge name in
  let base' :=
    if negb (baryon_number w =? 0) || negb (strangeness w =? 0) || negb (charmness w =? 0) || is_neutrino w
    then firstn (sequence_length base) base ++ bar ++ skipn (sequence_length base) base
    else base in
  base' ++ ch.

(** chargestr, particletype.cc:186-201 *)
Definition chargestr (c : Z) : res bytes :=
  if c =? 2 then Ok (sup_plus ++ sup_plus) else if c =? 1 then Ok sup_plus
  else if c =? 0 then Ok sup_zero else if c =? -1 then Ok sup_minus
  else if c =? -2 then Ok (sup_minus ++ sup_minus) else Throw E_runtime.

(** Adding the states of one multiplet, particletype.cc:292-312.  [many] is
    pdgcode.size() > 1. *)
Definition states_of (l : line) (par many : bool) (w : pdg) : res (list ptype) :=
  ch <- (if many then chargestr (charge w) else Ok []) ;;
  let full := l_name l ++ ch in
  let t := PType full (l_mass l) (l_width l) par w in
  if has_antiparticle w then
    let a := get_antiparticle w in
    j <- spin a ;;
    Ok [t; PType (antiname full w) (l_mass l) (l_width l) (if Z.even j then par else negb par) a]
  else Ok [t].

(** One line, particletype.cc:211-313.  [mass_ok] is the comparison with the hard-coded
    masses (265-290). *)
Definition load_line (mass_ok : pdg -> Z -> bool) (l : line) : res (list ptype) :=
  match l_parity l with
  | None => Throw E_load_failure
  | Some par =>
    match l_codes l with
    | [] => Throw E_load_failure
    | _ =>
      ws <- mapM set_from_string (l_codes l) ;;
      if negb (mass_ok (hd 0 ws) (l_mass l)) then Throw E_runtime
      else ts <- mapM (states_of l par (Nat.ltb 1 (length ws))) ws ;; Ok (concat ts)
    end
  end.
Definition load_lines (mass_ok : pdg -> Z -> bool) (ls : list line) : res (list ptype) :=
  ts <- mapM (load_line mass_ok) ls ;; Ok (concat ts).

(** std::sort by PDG code, particletype.cc:317 (the order of equal codes does not
    matter: they are rejected right after). *)
Fixpoint insert_type (t : ptype) (l : list ptype) : list ptype :=
  match l with
  | [] => [t]
  | x :: r => if t_code t <=? t_code x then t :: l else x :: insert_type t r
  end.
Fixpoint sort_types (l : list ptype) : list ptype :=
  match l with [] => [] | t :: r => insert_type t (sort_types r) end.

(** Look for duplicates, particletype.cc:319-327 *)
Fixpoint check_duplicates (prev : pdg) (l : list ptype) : res unit :=
  match l with
  | [] => Ok tt
  | t :: r => if pdg_eq (t_code t) prev then Throw E_load_failure else check_duplicates (t_code t) r
  end.

(** The static list and the global pointer to it (particletype.cc:36, 204-206). *)
Record globals := Globals { g_built : bool; g_types : list ptype }.
Definition no_globals := Globals false [].

(** create_type_list up to the publication of the list, particletype.cc:204-335: the
    static list is cleared and refilled before the checks.  When reading a line fails,
    the list keeps the entries read so far; that content is abstracted to []. *)
Definition create_type_list (mass_ok : pdg -> Z -> bool) (g : globals) (ls : list line) : globals * res unit :=
  match load_lines mass_ok ls with
  | Throw e => (Globals (g_built g) [], Throw e)
  | UB u => (Globals (g_built g) [], UB u)
  | Ok ts =>
    let l := sort_types ts in
    match check_duplicates 0 l with
    | Throw e => (Globals (g_built g) l, Throw e)
    | UB u => (Globals (g_built g) l, UB u)
    | Ok _ => if g_built g then (Globals true l, Throw E_runtime) else (Globals true l, Ok tt)
    end
  end.

(** try_find, particletype.cc:92-100, with operator& (57-68): the position must fit the
    16-bit pointer type.  Before the list is built all_particle_types is null. *)
Definition try_find (g : globals) (c : pdg) : res (option nat) :=
  if negb (g_built g) then UB UB_oob
  else
    let l := g_types g in
    let i := partition_point (length l)
               (fun i => match nth_error l i with Some t => pdg_lt (t_code t) c | None => false end) in
    match nth_error l i with
    | None => Ok None
    | Some t => if negb (pdg_eq (t_code t) c) then Ok None
                else if (Z.of_nat i <? 65535) then Ok (Some i) else UB UB_assert
    end.
(** find, exists: particletype.cc:102-114 *)
Definition find (g : globals) (c : pdg) : res ptype :=
  o <- try_find g c ;;
  match o with
  | None => Throw E_pdg_not_found
  | Some i => match nth_error (g_types g) i with Some t => Ok t | None => UB UB_oob end
  end.
Definition exists_code (g : globals) (c : pdg) : res bool :=
  o <- try_find g c ;; Ok (match o with Some _ => true | None => false end).

(** * Isospin multiplets *)

(** std::string operator<, by bytes *)
Fixpoint str_lt (a b : bytes) : bool :=
  match a, b with
  | _, [] => false
  | [], _ :: _ => true
  | x :: a', y :: b' => (x <? y) || ((x =? y) && str_lt a' b')
  end.
Fixpoint str_eq (a b : bytes) : bool :=
  match a, b with
  | [], [] => true
  | x :: a', y :: b' => (x =? y) && str_eq a' b'
  | _, _ => false
  end.

Record multiplet := Mult { m_name : bytes; m_states : list ptype }.

(** try_find_private, isoparticletype.cc:44-55 *)
Definition iso_find (ms : list multiplet) (n : bytes) : option nat :=
  let i := partition_point (length ms)
             (fun i => match nth_error ms i with Some m => str_lt (m_name m) n | None => false end) in
  match nth_error ms i with
  | Some m => if str_eq (m_name m) n then Some i else None
  | None => None
  end.
(** std::sort by name, isoparticletype.cc:172-175 *)
Fixpoint insert_mult (m : multiplet) (l : list multiplet) : list multiplet :=
  match l with
  | [] => [m]
  | x :: r => if str_lt (m_name x) (m_name m) then x :: insert_mult m r else m :: l
  end.
Fixpoint sort_mults (l : list multiplet) : list multiplet :=
  match l with [] => [] | m :: r => insert_mult m (sort_mults r) end.

(** create_multiplet, isoparticletype.cc:160-182 *)
Definition create_multiplet (ms : list multiplet) (t : ptype) : res (list multiplet) :=
  let n := multiplet_name (t_name t) in
  let ms1 := match iso_find ms n with Some _ => ms | None => ms ++ [Mult n []] end in
  let ms2 := sort_mults ms1 in
  match iso_find ms2 n with
  | None => Throw E_runtime
  | Some i => match nth_error ms2 i with
              | Some m => Ok (upd i (Mult (m_name m) (m_states m ++ [t])) ms2)
              | None => UB UB_oob
              end
  end.
(** particletype.cc:338-345 *)
Definition create_multiplets (ts : list ptype) : res (list multiplet) := foldM create_multiplet [] ts.

(** find(type), isoparticletype.cc:138-142 *)
Definition iso_multiplet (ms : list multiplet) (t : ptype) : option multiplet :=
  match iso_find ms (multiplet_name (t_name t)) with Some i => nth_error ms i | None => None end.
