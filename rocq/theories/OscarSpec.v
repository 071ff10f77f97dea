(** A reader of OSCAR files, written from the documentation (doxypage_output_oscar, oscaroutput.cc:36-83, and the pages
    on particles and collisions, 281-860): a file is lines, a line is words; after the header, every output block has a
    line that says how many particle lines follow. Also what each call of the simulation must leave in the file. *)
From Coq Require Import ZArith Reals Ascii String List Bool.
From Verif Require Import Base TextModel OutModel OutSpec PrintfProps OscarModel.
Import ListNotations.
Open Scope list_scope.
Open Scope Z_scope.

(** ** lines, words, numbers *)
Fixpoint cut (d : Z) (t : text) : list text :=
  match t with
  | [] => [[]]
  | c :: r => if c =? d then [] :: cut d r else match cut d r with h :: q => (c :: h) :: q | [] => [[c]] end
  end.
(** every line ends with a newline *)
Definition lines (t : text) : list text := removelast (cut 10 t).
Definition words (l : text) : list text := filter (fun w => match w with [] => false | _ => true end) (cut 32 l).
Definition read_nat (t : text) : option Z := match take_digits t with (d :: ds, []) => Some (value (d :: ds)) | _ => None end.
Definition read_int (t : text) : option Z :=
  match t with 45 :: r => match read_nat r with Some n => Some (- n) | None => None end | _ => read_nat t end.
Definition is (s : string) (t : text) : bool := if list_eq_dec Z.eq_dec (codes s) t then true else false.

(** ** blocks *)
Inductive head :=
| HIn (event ensemble : Z)                      (* # event i ensemble j in n *)
| HOut (event ensemble : Z)                     (* # event i ensemble j out n *)
| HLists (nin nout event ensemble : Z)          (* nin nout i j, OSCAR1999 *)
| HStart (event ensemble : Z)                   (* # event i ensemble j start *)
| HFinish (event ensemble : Z)                  (* # event i ensemble j end *)
| HEnd (event ensemble : Z) (impact : text) (scattered : option bool)
| HInter (nin nout : Z) (density total partial : text) (type : Z)
| HRow (row : list text).
Definition block : Type := head * list (list text).

Definition header_modern (ws : list text) : option (head * Z) :=
  match ws with
  | [a; b; e; c; m; k; n] =>
      if is "#" a && is "event" b && is "ensemble" c then
        match read_int e, read_int m, read_nat n with
        | Some e, Some m, Some n => if is "in" k then Some (HIn e m, n) else if is "out" k then Some (HOut e m, n) else None
        | _, _, _ => None
        end
      else None
  | [a; b; e; c; m; k] =>
      if is "#" a && is "event" b && is "ensemble" c then
        match read_int e, read_int m with
        | Some e, Some m => if is "start" k then Some (HStart e m, 0) else if is "end" k then Some (HFinish e m, 0) else None
        | _, _ => None
        end
      else None
  | [a; b; e; c; m; k; z; i; x; s; y] =>
      if is "#" a && is "event" b && is "ensemble" c && is "end" k && is "0" z && is "impact" i &&
         is "scattering_projectile_target" s then
        match read_int e, read_int m with
        | Some e, Some m => if is "yes" y then Some (HEnd e m x (Some true), 0)
                            else if is "no" y then Some (HEnd e m x (Some false), 0) else None
        | _, _ => None
        end
      else None
  | [a; b; c; n; d; m; r; x; w; y; p; z; t; k] =>
      if is "#" a && is "interaction" b && is "in" c && is "out" d && is "rho" r && is "weight" w && is "partial" p &&
         is "type" t then
        match read_nat n, read_nat m, read_int k with
        | Some n, Some m, Some k => Some (HInter n m x y z k, n + m)
        | _, _, _ => None
        end
      else None
  | _ => None
  end.
Definition header_1999 (ws : list text) : option (head * Z) :=
  match ws with
  | [a; b; e; m] =>
      match read_nat a, read_nat b, read_int e, read_int m with
      | Some a, Some b, Some e, Some m => Some (HLists a b e m, a + b)
      | _, _, _, _ => None
      end
  | [a; b; e; m; x] =>
      match read_nat a, read_nat b, read_int e, read_int m with
      | Some 0, Some 0, Some e, Some m => Some (HEnd e m x None, 0)
      | _, _, _, _ => None
      end
  | [a; b; x; y; z; t] =>
      match read_nat a, read_nat b, read_int t with
      | Some a, Some b, Some t => Some (HInter a b x y z t, a + b)
      | _, _, _ => None
      end
  | _ => None
  end.
(** in a file of initial conditions every other line is a particle *)
Definition header_of (f : format) (ic : bool) (ws : list text) : option (head * Z) :=
  match (if modern f then header_modern ws else header_1999 ws) with
  | Some h => Some h
  | None => if ic then Some (HRow ws, 0) else None
  end.
Fixpoint read_blocks (f : format) (ic : bool) (fuel : nat) (ls : list (list text)) : option (list block) :=
  match fuel, ls with
  | _, [] => Some []
  | O, _ => None
  | S k, h :: t =>
      match header_of f ic h with
      | Some (hd, n) =>
          if Z.of_nat (length t) <? n then None
          else match read_blocks f ic k (skipn (Z.to_nat n) t) with
               | Some bs => Some ((hd, firstn (Z.to_nat n) t) :: bs)
               | None => None
               end
      | None => None
      end
  end.
(** names of the columns and blocks of a file *)
Definition begins_with_hash (l : text) : bool := match l with 35 :: _ => true | _ => false end.
Definition read_oscar (f : format) (ic : bool) (t : text) : option (list text * list block) :=
  let ls := lines t in
  if modern f then
    match ls with
    | l1 :: l2 :: l3 :: rest =>
        match words l1 with
        | a :: name :: qs =>
            if is ("#!" ++ format_name f) a && begins_with_hash l2 && begins_with_hash l3 then
              match read_blocks f ic (length rest) (map words rest) with Some bs => Some (qs, bs) | None => None end
            else None
        | _ => None
        end
    | _ => None
    end
  else
    (* comment lines, the sixth of which names the columns *)
    match words (nth 5 ls []) with
    | a :: qs =>
        let rest := filter (fun l => negb (begins_with_hash l)) ls in
        match read_blocks f ic (length rest) (map words rest) with Some bs => Some (qs, bs) | None => None end
    | [] => None
    end.

(** ** what must be in the file *)
Inductive item :=
| InList (l : label) (ps : list particle) | OutList (l : label) (ps : list particle) | Ended (l : label) (i : info)
| Inter (a : action) (density : Z) | ICStart (l : label) | ICEnd (l : label) (i : info) | ICRow (p : particle).
Definition is_ic (content : string) : bool := String.eqb content "Initial_Conditions".
(** the documented contents (oscaroutput.cc:285-330, 560-640; input_output_content_specific_) *)
Definition recorded (content : string) (par : parameters) (c : call) : list item :=
  if String.eqb content "Particles" then
    match c, part_only_final par with
    | at_eventstart ps l, OnlyFinalNo => [InList l ps]
    | at_intermediate_time ps l, OnlyFinalNo => [OutList l ps]
    | at_eventend ps l i, IfNotEmpty => if empty_event i then [Ended l i] else [OutList l ps; Ended l i]
    | at_eventend ps l i, _ => [OutList l ps; Ended l i]
    | _, _ => []
    end
  else if is_ic content then
    match c with
    | at_eventstart _ l => [ICStart l]
    | at_eventend _ l i => [ICEnd l i]
    | at_interaction a _ => map ICRow (incoming a)
    | _ => []
    end
  else
    let lists := String.eqb content "Collisions" && coll_printstartend par in
    match c with
    | at_eventstart ps l => if lists then [InList l ps] else []
    | at_eventend ps l i => (if lists then [OutList l ps] else []) ++ [Ended l i]
    | at_interaction a d => [Inter a d]
    | _ => []
    end.

(** a word that denotes a column of a particle: integers exactly, momenta to nine, other numbers to six digits *)
Definition momentum_column (q : string) : bool :=
  String.eqb q "p0" || String.eqb q "px" || String.eqb q "py" || String.eqb q "pz".
Definition within (eps : R) (v : R) (t : text) : Prop := exists m, read_decimal t = Some m /\ (Rabs (dec m - v) <= eps)%R.
Definition tells (q : string) (p : particle) (w : text) : Prop :=
  match lookup q table with
  | Some (true, _) => read_int w = Some (column q p)
  | Some (false, _) => forall v, double_value (column q p) = Some v ->
      within ((if momentum_column q then 5 / 1000000000 else 5 / 1000000) * Rabs v)%R v w
  | None => False
  end.
Definition row_of (qs : list string) (p : particle) (r : list text) : Prop := Forall2 (fun q w => tells q p w) qs r.
(** a number with [P] decimals *)
Definition decimals (P : Z) (bits : Z) (t : text) : Prop :=
  forall v, double_value bits = Some v -> within (1 / 2 * powerRZ 10 (- P))%R v t.
Definition digits7 (bits : Z) (t : text) : Prop :=
  forall v, double_value bits = Some v -> within (5 / 10000000 * Rabs v)%R v t.

Definition says (f : format) (qs : list string) (it : item) (b : block) : Prop :=
  let n (ps : list particle) := Z.of_nat (length ps) in
  match it with
  | InList l ps => Forall2 (row_of qs) ps (snd b) /\
      fst b = if modern f then HIn (event_number l) (ensemble_number l) else HLists 0 (n ps) (event_number l) (ensemble_number l)
  | OutList l ps => Forall2 (row_of qs) ps (snd b) /\
      fst b = if modern f then HOut (event_number l) (ensemble_number l) else HLists (n ps) 0 (event_number l) (ensemble_number l)
  | Ended l i => snd b = [] /\ exists x, decimals 3 (impact_parameter i) x /\
      fst b = HEnd (event_number l) (ensemble_number l) x (if modern f then Some (negb (empty_event i)) else None)
  | Inter a d => exists ri ro x y z, Forall2 (row_of qs) (incoming a) ri /\ Forall2 (row_of qs) (outgoing a) ro /\
      b = (HInter (n (incoming a)) (n (outgoing a)) x y z (process_type a), ri ++ ro) /\
      decimals 7 d x /\ decimals 7 (partial_weight a) z /\
      if modern f then digits7 (total_weight a) y else decimals 7 (total_weight a) y
  | ICStart l => b = (if modern f then HStart (event_number l) (ensemble_number l) else HLists 0 0 (event_number l) (ensemble_number l), [])
  | ICEnd l i => snd b = [] /\
      if modern f then fst b = HFinish (event_number l) (ensemble_number l)
      else exists x, decimals 3 (impact_parameter i) x /\ fst b = HEnd (event_number l) (ensemble_number l) x None
  | ICRow p => exists r, row_of qs p r /\ b = (HRow r, [])
  end.

(** numbers that fit the buffers (C120): not negative with an exponent of three digits *)
Definition printable (p : particle) : Prop :=
  forall q f v, lookup q table = Some (false, Value f) -> double_value (p f) = Some v ->
    (0 <= v \/ powerRZ 10 (-99) <= Rabs v < powerRZ 10 99)%R.
Definition printable_call (c : call) : Prop :=
  match c with
  | at_eventstart ps _ | at_eventend ps _ _ | at_intermediate_time ps _ => Forall printable ps
  | at_interaction a _ => Forall printable (incoming a) /\ Forall printable (outgoing a)
  end.
