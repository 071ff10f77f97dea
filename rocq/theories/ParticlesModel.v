(** Model of the particle container.
    /repo/src/include/smash/particles.h and /repo/src/particles.cc *)
From Coq Require Import ZArith List Bool.
From Verif Require Import Base.
Import ListNotations.
Open Scope Z_scope.

(** Everything in a ParticleData except id_, index_ and hole_
    (particledata.h:498-560).  [pl_type] stands for the ParticleType pointer,
    [pl_idproc] for HistoryData::id_process; all other fields that copy_to copies
    (history, momentum, position, spin vector, formation times, scaling factor,
    belongs_to, core, perturbative weight; particledata.h:484-495) are kept
    verbatim as machine words [pl_rest]. *)
Record payload := { pl_type : Z; pl_idproc : Z; pl_rest : list Z }.

(** ParticleData, particledata.h:498-560. *)
Record pdata := { p_id : Z; p_index : nat; p_hole : bool; p_pl : payload }.

(** ParticleData::copy_to, particledata.h:484-495: copies everything but id_,
    index_, hole_ and type_. *)
Definition copy_to (from to : pdata) : pdata :=
  {| p_id := p_id to; p_index := p_index to; p_hole := p_hole to;
     p_pl := {| pl_type := pl_type (p_pl to);
                pl_idproc := pl_idproc (p_pl from);
                pl_rest := pl_rest (p_pl from) |} |}.
Definition set_type (t : Z) (d : pdata) : pdata :=
  {| p_id := p_id d; p_index := p_index d; p_hole := p_hole d;
     p_pl := {| pl_type := t; pl_idproc := pl_idproc (p_pl d);
                pl_rest := pl_rest (p_pl d) |} |}.
Definition set_id (i : Z) (d : pdata) : pdata :=
  {| p_id := i; p_index := p_index d; p_hole := p_hole d; p_pl := p_pl d |}.
Definition set_index (i : nat) (d : pdata) : pdata :=
  {| p_id := p_id d; p_index := i; p_hole := p_hole d; p_pl := p_pl d |}.
Definition set_hole (h : bool) (d : pdata) : pdata :=
  {| p_id := p_id d; p_index := p_index d; p_hole := h; p_pl := p_pl d |}.

(** Default constructed slot with its index_ set
    (particles.cc:17-21 and 38-40). *)
Definition default_payload : payload := {| pl_type := 0; pl_idproc := 0; pl_rest := [] |}.
Definition fresh_slot (i : nat) : pdata :=
  {| p_id := -1; p_index := i; p_hole := false; p_pl := default_payload |}.

(** Class Particles, particles.h:441-505.  [data] is the allocated array, so
    data_capacity_ is its length.  [dirty] is the vector dirty_ with its back
    first. *)
Record pstate := {
  id_max : Z;
  data_size : nat;
  data : list pdata;
  dirty : list nat }.

Definition capacity (st : pstate) : Z := Z.of_nat (length (data st)).

(** Particles::Particles, particles.cc:17-21; initial values particles.h:446-492. *)
Definition init_particles : pstate :=
  {| id_max := -1; data_size := 0; data := map fresh_slot (seq 0 100); dirty := [] |}.

Definition with_data (d : list pdata) (st : pstate) : pstate :=
  {| id_max := id_max st; data_size := data_size st; data := d; dirty := dirty st |}.

(** Particles::increase_capacity, particles.cc:30-42.  The failed assertion (or,
    in release builds, the out-of-bounds copy that follows) is UB. *)
Definition increase_capacity (st : pstate) (new_capacity : Z) : res pstate :=
  if new_capacity <=? capacity st then UB UB_assert
  else Ok (with_data
    (firstn (data_size st) (data st) ++
     map fresh_slot (seq (data_size st) (Z.to_nat new_capacity - data_size st))) st).

(** Particles::ensure_capacity, particles.cc:23-28; [to_add] is [unsigned], all
    arithmetic modulo 2^32. *)
Definition ensure_capacity (st : pstate) (to_add : Z) : res pstate :=
  if capacity st <=? u32 (Z.of_nat (data_size st) + to_add)
  then st' <- increase_capacity st (u32 ((capacity st + to_add) * 2)) ;;
       if u32 (Z.of_nat (data_size st) + to_add) <? capacity st'
       then Ok st' else UB UB_assert
  else Ok st.

(** [++id_max_] on an [int]. *)
Definition next_id (st : pstate) : res Z := sint (id_max st + 1).

(** Array access data_[i]. *)
Definition slot (st : pstate) (i : nat) : res pdata :=
  match nth_error (data st) i with Some d => Ok d | None => UB UB_oob end.

(** Particles::copy_in into slot [i], particles.cc:44-48. *)
Definition copy_in (st : pstate) (i : nat) (from : pdata) : res pstate :=
  to <- slot st i ;;
  n <- next_id st ;;
  let to1 := copy_to from (set_type (pl_type (p_pl from)) (set_id n to)) in
  Ok {| id_max := n; data_size := data_size st; data := upd i to1 (data st);
        dirty := dirty st |}.

Definition unhole (i : nat) (st : pstate) : res pstate :=
  d <- slot st i ;; Ok (with_data (upd i (set_hole false d) (data st)) st).

(** Particles::insert, particles.cc:50-64.  Returns the container and the inserted
    particle. *)
Definition insert (st : pstate) (p : pdata) : res (pstate * pdata) :=
  match dirty st with
  | [] =>
      st1 <- ensure_capacity st 1 ;;
      st2 <- copy_in st1 (data_size st1) p ;;
      let st3 := {| id_max := id_max st2; data_size := S (data_size st2);
                    data := data st2; dirty := dirty st2 |} in
      d <- slot st3 (data_size st2) ;; Ok (st3, d)
  | off :: dirty' =>
      let st1 := {| id_max := id_max st; data_size := data_size st;
                    data := data st; dirty := dirty' |} in
      st2 <- copy_in st1 off p ;;
      st3 <- unhole off st2 ;;
      d <- slot st3 off ;; Ok (st3, d)
  end.

(** ParticleData(ParticleType::find(pdg)): default particle of a type
    (particledata.h: constructor).  An unknown code throws; here [pdg] is the found
    type. *)
Definition particle_of_type (t : Z) : pdata :=
  {| p_id := -1; p_index := 0; p_hole := false;
     p_pl := {| pl_type := t; pl_idproc := 0; pl_rest := [] |} |}.

(** First loop of Particles::create(size_t, PdgCode), particles.cc:68-76: fill the
    holes.  Recursion over the hole stack. *)
Fixpoint create_in_holes (holes : list nat) (number : Z) (pd : pdata) (st : pstate)
  : res (pstate * Z) :=
  match holes with
  | [] => Ok (st, number)
  | off :: rest =>
      if number =? 0 then Ok (st, number)
      else
        let st1 := {| id_max := id_max st; data_size := data_size st;
                      data := data st; dirty := rest |} in
        st2 <- copy_in st1 off pd ;;
        st3 <- unhole off st2 ;;
        create_in_holes rest (number - 1) pd st3
  end.

(** Second loop of Particles::create(size_t, PdgCode), particles.cc:79-84:
    consecutive slots from [i] on. *)
Fixpoint create_at_end (n : nat) (i : nat) (pd : pdata) (st : pstate) : res pstate :=
  match n with
  | O => Ok st
  | S n' => st1 <- copy_in st i pd ;; create_at_end n' (S i) pd st1
  end.

(** Particles::create(size_t, PdgCode), particles.cc:66-87.  [number] is a size_t;
    ensure_capacity takes an unsigned, so it is truncated in the call; forming
    &data_[data_size_ + number] outside the array is UB. *)
Definition create_n (st : pstate) (number : Z) (t : Z) : res pstate :=
  let pd := particle_of_type t in
  '(st1, number1) <- create_in_holes (dirty st) number pd st ;;
  if number1 =? 0 then Ok st1
  else
    st2 <- ensure_capacity st1 (u32 number1) ;;
    if capacity st2 <? Z.of_nat (data_size st2) + number1 then UB UB_oob
    else
      st3 <- create_at_end (Z.to_nat number1) (data_size st2) pd st2 ;;
      Ok {| id_max := id_max st3; data_size := data_size st3 + Z.to_nat number1;
            data := data st3; dirty := dirty st3 |}.

(** Particles::create(PdgCode), particles.cc:89-106. *)
Definition create1 (st : pstate) (t : Z) : res (pstate * pdata) :=
  let pd := particle_of_type t in
  '(st1, i) <-
    match dirty st with
    | [] =>
        st1 <- ensure_capacity st 1 ;;
        Ok ({| id_max := id_max st1; data_size := S (data_size st1);
               data := data st1; dirty := dirty st1 |}, data_size st1)
    | off :: dirty' =>
        st1 <- unhole off {| id_max := id_max st; data_size := data_size st;
                             data := data st; dirty := dirty' |} ;;
        Ok (st1, off)
    end ;;
  st2 <- copy_in st1 i pd ;;
  d <- slot st2 i ;; Ok (st2, d).

(** Particles::is_valid, particles.h:120-131.  [data_size <= capacity] makes the
    access safe; an access outside the array would be UB, modelled in [is_valid_r]. *)
Definition is_valid_r (st : pstate) (c : pdata) : res bool :=
  if Nat.leb (data_size st) (p_index c) then Ok false
  else d <- slot st (p_index c) ;;
       Ok ((p_id d =? p_id c) && (pl_idproc (p_pl d) =? pl_idproc (p_pl c))).
Definition assert_valid (st : pstate) (c : pdata) : res unit :=
  b <- is_valid_r st c ;; if b : bool then Ok tt else UB UB_assert.

(** Particles::remove, particles.cc:108-118. *)
Definition remove (st : pstate) (p : pdata) : res pstate :=
  _ <- assert_valid st p ;;
  let i := p_index p in
  if Nat.eqb (S i) (data_size st)
  then Ok {| id_max := id_max st; data_size := Nat.pred (data_size st);
             data := data st; dirty := dirty st |}
  else
    d <- slot st i ;;
    Ok {| id_max := id_max st; data_size := data_size st;
          data := upd i (set_hole true (set_id (-1) d)) (data st);
          dirty := i :: dirty st |}.

(** Loops of Particles::replace, particles.cc:122-136.  Returns the updated
    [to_add] list (ids and indices are written back). *)
Fixpoint remove_all (st : pstate) (l : list pdata) : res pstate :=
  match l with
  | [] => Ok st
  | p :: t => st1 <- remove st p ;; remove_all st1 t
  end.
Fixpoint insert_all (st : pstate) (l : list pdata) : res (pstate * list pdata) :=
  match l with
  | [] => Ok (st, [])
  | p :: t =>
      '(st1, d) <- insert st p ;;
      '(st2, t') <- insert_all st1 t ;;
      Ok (st2, set_index (p_index d) (set_id (p_id d) p) :: t')
  end.
Fixpoint replace (st : pstate) (to_remove to_add : list pdata)
  : res (pstate * list pdata) :=
  match to_remove, to_add with
  | r :: rs, a :: adds =>
      _ <- assert_valid st r ;;
      st1 <- copy_in st (p_index r) a ;;
      d <- slot st1 (p_index r) ;;
      '(st2, adds') <- replace st1 rs adds ;;
      Ok (st2, set_index (p_index r) (set_id (p_id d) a) :: adds')
  | rs, [] => st1 <- remove_all st rs ;; Ok (st1, [])
  | [], adds => insert_all st adds
  end.

(** Particles::update_particle, particles.h:175-182. *)
Definition update_particle (st : pstate) (p new_state : pdata) : res (pstate * pdata) :=
  _ <- assert_valid st p ;;
  if negb (pl_type (p_pl p) =? pl_type (p_pl new_state)) then UB UB_assert
  else
    d <- slot st (p_index p) ;;
    let d' := copy_to new_state d in
    Ok (with_data (upd (p_index p) d' (data st)) st, d').

(** Particles::update, particles.h:200-209. *)
Fixpoint update_all (st : pstate) (old_state new_state : list pdata)
  : res (pstate * list pdata) :=
  match old_state, new_state with
  | [], ns => Ok (st, ns)
  | _ :: _, [] => UB UB_oob
  | o :: os, n :: ns =>
      '(st1, d) <- update_particle st o n ;;
      '(st2, ns') <- update_all st1 os ns ;;
      Ok (st2, d :: ns')
  end.
Definition update (st : pstate) (old_state new_state : list pdata) (do_replace : bool)
  : res (pstate * list pdata) :=
  if do_replace then replace st old_state new_state
  else update_all st old_state new_state.

(** Particles::reset, particles.cc:139-146. *)
Fixpoint unhole_all (holes : list nat) (st : pstate) : res pstate :=
  match holes with
  | [] => Ok st
  | i :: t => st1 <- unhole i st ;; unhole_all t st1
  end.
Definition reset (st : pstate) : res pstate :=
  st1 <- unhole_all (dirty st)
           {| id_max := -1; data_size := 0; data := data st; dirty := dirty st |} ;;
  Ok {| id_max := id_max st1; data_size := data_size st1; data := data st1; dirty := [] |}.

(** Particles::size (size_t arithmetic) and is_empty, particles.h:87-90. *)
Definition size (st : pstate) : Z :=
  u64 (Z.of_nat (data_size st) - Z.of_nat (length (dirty st))).
Definition is_empty (st : pstate) : bool := Nat.eqb (data_size st) 0.

(** Iteration.  [scan] is the "skip holes" loop of begin() and operator++
    (particles.h:286-291, 395-401): first index from [i] on whose hole_ flag is
    false; running off the array is UB.  [fuel] bounds the number of slots looked
    at; callers pass more than the array length. *)
Fixpoint scan (fuel : nat) (d : list pdata) (i : nat) : res nat :=
  match fuel with
  | O => UB UB_oob
  | S f => match nth_error d i with
           | None => UB UB_oob
           | Some s => if p_hole s then scan f d (S i) else Ok i
           end
  end.
Definition begin_ (st : pstate) : res nat := scan (S (length (data st))) (data st) 0.
Definition end_ (st : pstate) : nat := data_size st.
Definition succ_ (st : pstate) (i : nat) : res nat :=
  scan (S (length (data st))) (data st) (S i).

(** [for (p : particles)]: from begin() until the iterator equals end(). *)
Fixpoint iter_loop (fuel : nat) (st : pstate) (i : nat) : res (list pdata) :=
  if Nat.eqb i (end_ st) then Ok []
  else match fuel with
       | O => UB UB_oob
       | S f =>
           d <- slot st i ;;
           j <- succ_ st i ;;
           t <- iter_loop f st j ;;
           Ok (d :: t)
       end.
Definition iterate (st : pstate) : res (list pdata) :=
  i <- begin_ st ;; iter_loop (S (length (data st))) st i.

(** copy_to_vector, particles.h:44-49. *)
Definition copy_to_vector (st : pstate) : res (list pdata) :=
  match dirty st with
  | [] => if Nat.leb (data_size st) (length (data st))
          then Ok (firstn (data_size st) (data st)) else UB UB_oob
  | _ => iterate st
  end.

(** front() = *begin(), back() = *(--end()), particles.h:374-389.  Dereferencing
    the end iterator is UB, and so is decrementing past the first slot. *)
Definition front (st : pstate) : res pdata :=
  i <- begin_ st ;; if Nat.ltb i (end_ st) then slot st i else UB UB_oob.
Fixpoint scan_down (d : list pdata) (i : nat) : res nat :=
  match i with
  | O => UB UB_oob
  | S i' => match nth_error d i' with
            | None => UB UB_oob
            | Some s => if p_hole s then scan_down d i' else Ok i'
            end
  end.
Definition back (st : pstate) : res pdata :=
  i <- scan_down (data st) (end_ st) ;; slot st i.

(** Writing to a particle through a non-const iterator or a returned reference
    (setters of ParticleData; the type, id and index stay).  [k] counts particles
    in iteration order. *)
Definition write_kth (st : pstate) (k : nat) (idproc : Z) (rest : list Z) : res pstate :=
  l <- iterate st ;;
  match nth_error l k with
  | None => Ok st
  | Some c =>
      d <- slot st (p_index c) ;;
      Ok (with_data (upd (p_index c)
           {| p_id := p_id d; p_index := p_index d; p_hole := p_hole d;
              p_pl := {| pl_type := pl_type (p_pl d); pl_idproc := idproc;
                         pl_rest := rest |} |} (data st)) st)
  end.

(** The operations of the public interface. *)
Inductive op :=
| OInsert (p : pdata)
| OCreateN (number : Z) (t : Z)
| OCreate (t : Z)
| ORemove (c : pdata)
| OReplace (to_remove to_add : list pdata)
| OUpdateParticle (c new_state : pdata)
| OUpdate (old_state new_state : list pdata) (do_replace : bool)
| OWrite (k : nat) (idproc : Z) (rest : list Z)
| OIterate
| OReset.

(** One call; the second component lists the particle copies the caller gets to
    see. *)
Definition step (st : pstate) (o : op) : res (pstate * list pdata) :=
  match o with
  | OInsert p => '(st', d) <- insert st p ;; Ok (st', [d])
  | OCreateN n t => st' <- create_n st n t ;; Ok (st', [])
  | OCreate t => '(st', d) <- create1 st t ;; Ok (st', [d])
  | ORemove c => st' <- remove st c ;; Ok (st', [])
  | OReplace r a => replace st r a
  | OUpdateParticle c n => '(st', d) <- update_particle st c n ;; Ok (st', [d])
  | OUpdate os ns b => update st os ns b
  | OWrite k i r => st' <- write_kth st k i r ;; Ok (st', [])
  | OIterate => l <- iterate st ;; Ok (st, l)
  | OReset => st' <- reset st ;; Ok (st', [])
  end.
