(** Flavour bookkeeping of string processes: src/stringprocess.cc.

    Flavours and parton codes are small C++ ints, written as Z (no value exceeds a few
    thousand).  Every random draw is an argument; [random::uniform_int(0, n - 1)] is
    [draw mod n] for an arbitrary draw, so that every value in the range occurs.  PYTHIA's
    event record is the list of its entries without the zeroth one, each given by its PDG
    code; masses, momenta and colours are left out here (see StringColor.v, StringKin.v).
    Logging is left out. *)
From Coq Require Import ZArith List Bool Lia.
From Verif Require Import Base PdgModel.
Import ListNotations.
Open Scope Z_scope.

(** quarks_from_diquark, stringprocess.cc:1694-1708; [Z.quot] is C++ division *)
Definition quarks_from_diquark (d : Z) : res (Z * Z * Z) :=
  let a := Z.abs d in
  if (1000 <? a) && (a <? 5510) && (a mod 100 <? 10) then
    let deg_spin := a mod 10 in
    let s := if 0 <? d then 1 else -1 in
    Ok (Z.quot (s * (a - a mod 1000)) 1000, Z.quot (s * (a mod 1000 - deg_spin)) 100, deg_spin)
  else UB UB_assert.

(** diquark_from_quarks, stringprocess.cc:1710-1721 *)
Definition diquark_from_quarks (q1 q2 draw : Z) : res Z :=
  if ((0 <? q1) && (0 <? q2)) || ((q1 <? 0) && (q2 <? 0)) then
    let '(q1, q2) := if Z.abs q1 <? Z.abs q2 then (q2, q1) else (q1, q2) in
    let d := Z.abs (q1 * 1000 + q2 * 100) in
    let d := d + (if negb (q1 =? q2) && (draw mod 4 =? 0) then 1 else 3) in
    Ok (if q1 <? 0 then - d else d)
  else UB UB_assert.

(** is_nucleon, pdgcode.h:404-407: the code without its antiparticle bit is 0x2212 or 0x2112 *)
Definition is_nucleon (w : pdg) : bool :=
  (w mod 2 ^ 31 =? 0x2212) || (w mod 2 ^ 31 =? 0x2112).

Definition at3 (l : list Z) (i : Z) : Z := nth (Z.to_nat i) l 0.

(** make_string_ends, stringprocess.cc:1723-1768.  [below] is the outcome of
    [uniform(0., 1.) < xi], [r] the draw for mesons and baryons, [dr] the one inside
    diquark_from_quarks. *)
Definition make_string_ends (w : pdg) (below : bool) (r dr : Z) : res (Z * Z) :=
  let q := quark_content w in
  '(idq1, idq2) <-
    (if is_nucleon w then
       if charge w =? 0 then
         if below then d <- diquark_from_quarks (at3 q 1) (at3 q 2) dr ;; Ok (at3 q 0, d)
         else d <- diquark_from_quarks (at3 q 0) (at3 q 2) dr ;; Ok (at3 q 1, d)
       else
         if below then d <- diquark_from_quarks (at3 q 0) (at3 q 1) dr ;; Ok (at3 q 2, d)
         else d <- diquark_from_quarks (at3 q 1) (at3 q 2) dr ;; Ok (at3 q 0, d)
     else if is_meson w then
       if (at3 q 1 =? 1) && (at3 q 2 =? -1) && (r mod 2 =? 0) then Ok (2, -2)
       else Ok (at3 q 1, at3 q 2)
     else if is_baryon w then
       let k := r mod 3 in
       let q' := if k =? 0 then q
                 else if k =? 1 then [at3 q 1; at3 q 0; at3 q 2]
                 else [at3 q 2; at3 q 1; at3 q 0] in
       d <- diquark_from_quarks (at3 q' 1) (at3 q' 2) dr ;; Ok (at3 q' 0, d)
     else UB UB_assert) ;;
  Ok (if idq1 <? 0 then (idq2, idq1) else (idq1, idq2)).

(** pdg_map_for_pythia, stringprocess.cc:3263-3284 (the code instead of its decimal form) *)
Definition PROTON : pdg := 0x2212.
Definition NEUTRON : pdg := 0x2112.
Definition PIPLUS : pdg := 0x211.
Definition ANTI : Z := 2 ^ 31.
Definition map_for_pythia (w : pdg) : res pdg :=
  if baryon_number w =? 1 then Ok (if 0 <? charge w then PROTON else NEUTRON)
  else if baryon_number w =? -1 then Ok (if charge w <? 0 then PROTON + ANTI else NEUTRON + ANTI)
  else if is_hadron w then Ok (if 0 <=? charge w then PIPLUS else PIPLUS + ANTI)
  else if is_lepton w then Ok (if charge w <? 0 then 0x11 else 0x11 + ANTI)
  else Throw E_runtime.

(** std::array<int, 5>: reading and adding at an index, out of bounds is undefined *)
Definition get5 (e : list Z) (j : Z) : res Z :=
  if (0 <=? j) && (j <? 5) then Ok (nth (Z.to_nat j) e 0) else UB UB_oob.
Definition add5 (e : list Z) (j x : Z) : res (list Z) :=
  if (0 <=? j) && (j <? 5) then Ok (upd (Z.to_nat j) (nth (Z.to_nat j) e 0 + x) e) else UB UB_oob.
Definition zero5 : list Z := [0; 0; 0; 0; 0].

(** find_excess_constituent, stringprocess.cc:778-810 *)
Definition excess_step (actual mapped : list Z) (st : list Z * list Z) (i : nat) : res (list Z * list Z) :=
  let '(eq, ea) := st in
  let a := nth i actual 0 in
  let m := nth i mapped 0 in
  eq <- (if 0 <? a then add5 eq (a - 1) 1 else Ok eq) ;;
  eq <- (if 0 <? m then add5 eq (m - 1) (-1) else Ok eq) ;;
  ea <- (if a <? 0 then add5 ea (Z.abs a - 1) 1 else Ok ea) ;;
  ea <- (if m <? 0 then add5 ea (Z.abs m - 1) (-1) else Ok ea) ;;
  Ok (eq, ea).
Definition find_excess (actual mapped : pdg) : res (list Z * list Z) :=
  foldM (excess_step (quark_content actual) (quark_content mapped)) (zero5, zero5) [0; 1; 2]%nat.

(** Pythia8::Particle::isQuark, isDiquark, isGluon *)
Definition isQuark (id : Z) : bool := (0 <? Z.abs id) && (Z.abs id <? 9).
Definition isDiquark (id : Z) : bool :=
  (1000 <? Z.abs id) && (Z.abs id <? 10000) && ((Z.abs id / 10) mod 10 =? 0).
Definition isGluon (id : Z) : bool := id =? 21.

(** one turn of the loop in replace_constituent, stringprocess.cc:837-862: the (possibly
    converted) constituent and the excess *)
Definition convert (e : list Z) (q draw : Z) : res (Z * list Z) :=
  let jq := Z.abs q - 1 in
  x <- get5 e jq ;;
  let found := if x <? 0
               then filter (fun k => negb (k =? jq) && (0 <? nth (Z.to_nat k) e 0)) [0; 1; 2; 3; 4]
               else [] in
  match found with
  | [] => Ok (q, e)
  | _ =>
    let k := nth (Z.to_nat (draw mod Z.of_nat (length found))) found 0 in
    e <- add5 e jq 1 ;;
    e <- add5 e k (-1) ;;
    Ok (if 0 <? q then k + 1 else - (k + 1), e)
  end.

(** replace_constituent, stringprocess.cc:812-895 (energy and mass left out) *)
Definition replace_constituent (id : Z) (e : list Z) (r0 r1 : Z) : res (Z * list Z) :=
  if negb (isQuark id) && negb (isDiquark id) then Ok (id, e)
  else if list_eq_dec Z.eq_dec e zero5 then Ok (id, e)
  else if isQuark id then convert e id r0
  else
    '(qs, deg_spin) <- quarks_from_diquark id ;;
    let '(q0, q1) := qs in
    '(q0, e) <- convert e q0 r0 ;;
    '(q1, e) <- convert e q1 r1 ;;
    let '(q0, q1) := if Z.abs q0 <? Z.abs q1 then (q1, q0) else (q0, q1) in
    let new := Z.abs q0 * 1000 + Z.abs q1 * 100 in
    let new := new + (if Z.abs q0 =? Z.abs q1 then 3 else deg_spin) in
    Ok (if id <? 0 then - new else new, e).

(** Pythia8 nQuarksInCode for quarks, diquarks and gluons: how often flavour f occurs *)
Definition n_quarks (id f : Z) : Z :=
  if isQuark id then b2z (id =? f)
  else if isDiquark id then b2z (id / 1000 =? f) + b2z ((id / 100) mod 10 =? f)
  else 0.
(** find_total_number_constituent, stringprocess.cc:897-924 (all entries are final) *)
Definition flavours5 : list Z := [1; 2; 3; 4; 5].
Definition add_list (a b : list Z) : list Z := map (fun p => fst p + snd p) (combine a b).
Definition total_step (st : list Z * list Z) (id : Z) : list Z * list Z :=
  let '(nq, na) := st in
  if 0 <? id then (add_list nq (map (n_quarks id) flavours5), na)
  else (nq, add_list na (map (n_quarks (Z.abs id)) flavours5)).
Definition find_total (ev : list Z) : list Z * list Z := fold_left total_step ev (zero5, zero5).

(** one gluon split, stringprocess.cc:957-1044.  Which gluon is taken depends on rapidities:
    [pick] is the index found, or None when the search ends on an entry that is no gluon. *)
Definition split_gluon (ev : list Z) (f : Z) (pick : option nat) : option (list Z) :=
  match pick with
  | None => None
  | Some i => if isGluon (nth i ev 0) then Some (firstn i ev ++ skipn (S i) ev ++ [f; - f]) else None
  end.
(** the loop [for ic < abs(nquark_final)], returning what is left when a split fails *)
Fixpoint split_many (n : nat) (ev nq na : list Z) (f : Z) (picks : nat -> option nat)
  : bool * (list Z * list Z * list Z) :=
  match n with
  | O => (true, (ev, nq, na))
  | S m =>
    match split_gluon ev f (picks m) with
    | None => (false, (ev, nq, na))
    | Some ev' =>
      let j := Z.to_nat (f - 1) in
      split_many m ev' (upd j (nth j nq 0 + 1) nq) (upd j (nth j na 0 + 1) na) f picks
    end
  end.
(** splitting_gluon_qqbar, stringprocess.cc:926-1057; [sign] selects quarks or antiquarks *)
Fixpoint split_flavours (fs : list Z) (sign : bool) (e0 e1 : list Z) (ev nq na : list Z)
    (picks : Z -> nat -> option nat) : bool * (list Z * list Z * list Z) :=
  match fs with
  | [] => (true, (ev, nq, na))
  | f :: r =>
    let j := Z.to_nat (f - 1) in
    let final := nth j e0 0 + nth j e1 0 + (if sign then nth j nq 0 else nth j na 0) in
    if 0 <=? final then split_flavours r sign e0 e1 ev nq na picks
    else
      let '(ok, st) := split_many (Z.to_nat (Z.abs final)) ev nq na f (picks f) in
      let '(ev', nq', na') := st in
      if ok then split_flavours r sign e0 e1 ev' nq' na' picks else (false, st)
  end.
Definition splitting_gluon (ev : list Z) (sign : bool) (e0 e1 : list Z) (picks : Z -> nat -> option nat)
  : bool * (list Z * list Z * list Z) :=
  let '(nq, na) := find_total ev in
  split_flavours flavours5 sign e0 e1 ev nq na picks.

(** rearrange_excess, stringprocess.cc:1059-1114; the two hadrons' excesses are a pair *)
Definition arr2 := (list Z * list Z)%type.
Definition first_positive (e : list Z) (i : Z) : option Z :=
  find (fun j => negb (j =? i) && (0 <? nth (Z.to_nat j) e 0)) [0; 1; 2; 3; 4].
Definition bump (e : list Z) (j : Z) (x : Z) : list Z := upd (Z.to_nat j) (nth (Z.to_nat j) e 0 + x) e.
Definition rearrange_one (i : Z) (eq ea : list Z) : list Z * list Z :=
  let eq := bump eq i 1 in
  let ea := bump ea i 1 in
  match first_positive eq i with
  | Some j => (bump eq j (-1), bump ea j (-1))
  | None => (eq, ea)
  end.
Fixpoint rearrange_many (n : nat) (i : Z) (eq ea : arr2) : arr2 * arr2 :=
  match n with
  | O => (eq, ea)
  | S m =>
    if nth (Z.to_nat i) (fst eq) 0 <? 0 then
      let '(q, a) := rearrange_one i (fst eq) (fst ea) in
      rearrange_many m i (q, snd eq) (a, snd ea)
    else
      let '(q, a) := rearrange_one i (snd eq) (snd ea) in
      rearrange_many m i (fst eq, q) (fst ea, a)
  end.
Definition rearrange_flavour (nq : list Z) (st : arr2 * arr2) (i : Z) : arr2 * arr2 :=
  let '(eq, ea) := st in
  let final := nth (Z.to_nat i) nq 0 + nth (Z.to_nat i) (fst eq) 0 + nth (Z.to_nat i) (snd eq) 0 in
  if 0 <=? final then (eq, ea) else rearrange_many (Z.to_nat (Z.abs final)) i eq ea.
Definition rearrange (nq : list Z) (eq ea : arr2) : arr2 * arr2 :=
  fold_left (rearrange_flavour nq) [0; 1; 2; 3; 4] (eq, ea).

(** one hadron's sweep over the partons, stringprocess.cc:1173-1222.  Which of the partons
    not yet treated is taken (get_index_forward) and the draws are the choice. *)
Definition choice := (nat * Z * Z)%type.
Fixpoint sweep (n : nat) (todo done : list Z) (eq ea : list Z) (o : nat -> choice)
  : res (list Z * list Z * list Z) :=
  match n with
  | O => Ok (todo ++ done, eq, ea)
  | S m =>
    let '(pos, r0, r1) := o m in
    let i := (pos mod length todo)%nat in
    let id := nth i todo 0 in
    let rest := firstn i todo ++ skipn (S i) todo in
    if 0 <? id then
      '(id', eq') <- replace_constituent id eq r0 r1 ;; sweep m rest (done ++ [id']) eq' ea o
    else
      '(id', ea') <- replace_constituent id ea r0 r1 ;; sweep m rest (done ++ [id']) eq ea' o
  end.
Definition no_excess (eq ea : arr2) : bool :=
  forallb (fun j => nth j (fst eq) 0 - nth j (fst ea) 0 + (nth j (snd eq) 0 - nth j (snd ea) 0) =? 0)
    [0; 1; 2; 3; 4]%nat.
(** one turn of [while (!recovered_quarks)], stringprocess.cc:1165-1233 *)
Definition pass (ev : list Z) (eq ea : arr2) (o : bool -> nat -> choice)
  : res (list Z * arr2 * arr2) :=
  '(a, ea0) <- sweep (length ev) ev [] (fst eq) (fst ea) (o false) ;;
  let '(ev1, eq0) := a in
  '(b, ea1) <- sweep (length ev1) ev1 [] (snd eq) (snd ea) (o true) ;;
  let '(ev2, eq1) := b in
  Ok (ev2, (eq0, eq1), (ea0, ea1)).
(** the loop; running out of fuel would be a loop that does not end *)
Fixpoint recover (fuel : nat) (ev : list Z) (eq ea : arr2) (o : nat -> bool -> nat -> choice)
  : res (list Z) :=
  match fuel with
  | O => UB UB_no_progress
  | S f =>
    '(a, ea') <- pass ev eq ea (o f) ;;
    let '(ev', eq') := a in
    if no_excess eq' ea' then Ok ev' else recover f ev' eq' ea' o
  end.

(** the check, stringprocess.cc:1142-1156 *)
Definition enough (n : list Z) (e : arr2) : bool :=
  forallb (fun j => 0 <=? nth j n 0 + nth j (fst e) 0 + nth j (snd e) 0) [0; 1; 2; 3; 4]%nat.
(** restore_constituent up to the rescaling of momenta, stringprocess.cc:1116-1234;
    None: the function returns false *)
Definition restore (fuel : nat) (ev : list Z) (eq ea : arr2)
    (picks : bool -> Z -> nat -> option nat) (o : nat -> bool -> nat -> choice) : res (option (list Z)) :=
  let '(ok1, st1) := splitting_gluon ev true (fst eq) (snd eq) (picks true) in
  let '(ev1, _, _) := st1 in
  let '(ok2, st2) := splitting_gluon ev1 false (fst ea) (snd ea) (picks false) in
  let '(ev2, nq, na) := st2 in
  let '(eq, ea) :=
    if negb ok1 || negb ok2 then
      let '(eq1, ea1) := rearrange nq eq ea in
      let '(ea2, eq2) := rearrange na ea1 eq1 in (eq2, ea2)
    else (eq, ea) in
  if enough nq eq && enough na ea then
    ev3 <- recover fuel ev2 eq ea o ;; Ok (Some ev3)
  else Ok None.

(** next_BBbarAnn, stringprocess.cc:1538-1604: the two quarks and two antiquarks left after
    an annihilation; None: no pair to annihilate, the particles stay as they are.
    discrete_distribution gives some flavour of positive weight, chosen by [pick]; [s1], [s2]
    are the two coin flips.  Thresholds and fragmentation are left out. *)
Definition repeat_flavours (c : list Z) (sign : Z) : list Z :=
  flat_map (fun i => repeat (sign * i) (Z.to_nat (nth (Z.to_nat (i - 1)) c 0))) flavours5.
Definition swap2 (l : list Z) : list Z := match l with [a; b] => [b; a] | _ => l end.
Definition annihilate (w0 w1 : pdg) (pick : nat) (s1 s2 : bool) : res (option (list Z * list Z)) :=
  let '(b, a) := if baryon_number w0 =? -1 then (w1, w0) else (w0, w1) in
  if negb (baryon_number b =? 1) || negb (baryon_number a =? -1) then Throw E_invalid_argument
  else
    cb <- mapM (net_quark_number b) flavours5 ;;
    ca0 <- mapM (net_quark_number a) flavours5 ;;
    let ca := map Z.opp ca0 in
    let n := map (fun p => fst p * snd p) (combine cb ca) in
    match filter (fun f => 0 <? nth (Z.to_nat (f - 1)) n 0) flavours5 with
    | [] => Ok None
    | possible =>
      let q := nth (pick mod length possible)%nat possible 0 in
      let qs := repeat_flavours (bump cb (q - 1) (-1)) 1 in
      let as_ := repeat_flavours (bump ca (q - 1) (-1)) (-1) in
      if (length qs =? 2)%nat && (length as_ =? 2)%nat then
        Ok (Some (if s1 then swap2 qs else qs, if s2 then swap2 as_ else as_))
      else UB UB_assert
    end.
