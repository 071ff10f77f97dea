(** Abstract specification of the particle container: a bag of particles, each
    with an id; ids are handed out consecutively.  Nothing here mentions slots,
    holes or capacities. *)
From Coq Require Import ZArith List Bool.
From Verif Require Import Base ParticlesModel.
Import ListNotations.
Open Scope Z_scope.

(** [b_next] is the next id; [b_parts] the particles present (order irrelevant). *)
Record bag := { b_next : Z; b_parts : list (Z * payload) }.
Definition empty_bag : bag := {| b_next := 0; b_parts := [] |}.

Definition b_add (b : bag) (p : payload) : bag :=
  {| b_next := b_next b + 1; b_parts := b_parts b ++ [(b_next b, p)] |}.
Definition b_del (b : bag) (i : Z) : bag :=
  {| b_next := b_next b; b_parts := filter (fun e => negb (fst e =? i)) (b_parts b) |}.
(** overwrite everything but the type *)
Definition b_set (b : bag) (i : Z) (idproc : Z) (rest : list Z) : bag :=
  {| b_next := b_next b;
     b_parts := map (fun e => if fst e =? i
                              then (fst e, {| pl_type := pl_type (snd e);
                                              pl_idproc := idproc; pl_rest := rest |})
                              else e) (b_parts b) |}.

Definition b_add_all (b : bag) (l : list pdata) : bag :=
  fold_left (fun b a => b_add b (p_pl a)) l b.
Definition b_del_all (b : bag) (l : list pdata) : bag :=
  fold_left (fun b r => b_del b (p_id r)) l b.
Definition b_update1 (b : bag) (on : pdata * pdata) : bag :=
  b_set b (p_id (fst on)) (pl_idproc (p_pl (snd on))) (pl_rest (p_pl (snd on))).

(** Effect of one call.  [ids] is the iteration order seen by the caller (only
    used to say which particle the k-th one is). *)
Definition bag_step (b : bag) (ids : list Z) (o : op) : bag :=
  match o with
  | OInsert p => b_add b (p_pl p)
  | OCreateN n t => b_add_all b (repeat (particle_of_type t) (Z.to_nat n))
  | OCreate t => b_add b (p_pl (particle_of_type t))
  | ORemove c => b_del b (p_id c)
  | OReplace r a => b_add_all (b_del_all b r) a
  | OUpdateParticle c n => b_update1 b (c, n)
  | OUpdate os ns true => b_add_all (b_del_all b os) ns
  | OUpdate os ns false => fold_left b_update1 (combine os ns) b
  | OWrite k i r => match nth_error ids k with
                    | Some j => b_set b j i r
                    | None => b
                    end
  | OIterate => b
  | OReset => empty_bag
  end.

(** A particle copy [c] denotes a particle that is present and has not interacted
    since. *)
Definition alive (b : bag) (c : pdata) : Prop :=
  exists p, In (p_id c, p) (b_parts b) /\ pl_idproc p = pl_idproc (p_pl c).

(** [seen] lists (id, index) of all copies handed out since the last reset.  A
    caller may only pass copies it got from the container (possibly with other
    fields edited). *)
Definition handed_out (seen : list (Z * nat)) (c : pdata) : Prop :=
  In (p_id c, p_index c) seen.
Definition good (b : bag) (seen : list (Z * nat)) (c : pdata) : Prop :=
  handed_out seen c /\ alive b c.
Definition distinct (l : list pdata) : Prop := NoDup (map p_id l).

(** What a caller must respect. *)
Definition allowed (b : bag) (seen : list (Z * nat)) (o : op) : Prop :=
  match o with
  | OInsert _ | OCreate _ | OWrite _ _ _ | OIterate | OReset => True
  | OCreateN n _ => 0 <= n
  | ORemove c => good b seen c
  | OReplace r _ => Forall (good b seen) r /\ distinct r
  | OUpdateParticle c n => good b seen c /\ pl_type (p_pl c) = pl_type (p_pl n)
  | OUpdate os ns true => Forall (good b seen) os /\ distinct os
  | OUpdate os ns false =>
      Forall (good b seen) os /\ distinct os /\ length os = length ns /\
      Forall (fun on => pl_type (p_pl (fst on)) = pl_type (p_pl (snd on))) (combine os ns)
  end.

(** Number of particles added by a call. *)
Definition added (o : op) : Z :=
  match o with
  | OInsert _ | OCreate _ => 1
  | OCreateN n _ => n
  | OReplace _ a => Z.of_nat (length a)
  | OUpdate _ ns true => Z.of_nat (length ns)
  | _ => 0
  end.
(** Particles added since the last reset (latest call first). *)
Fixpoint event_added (ops : list op) : Z :=
  match ops with
  | [] => 0
  | OReset :: _ => 0
  | o :: r => added o + event_added r
  end.
(** At most 2^29 particles are added between two resets, i.e. in one event. *)
Fixpoint within_limits (ops : list op) : Prop :=
  match ops with
  | [] => True
  | _ :: r => event_added ops <= 2 ^ 29 /\ within_limits r
  end.

Definition key (d : pdata) : Z * payload := (p_id d, p_pl d).
Definition handle (d : pdata) : Z * nat := (p_id d, p_index d).

(** Histories: a caller performs allowed calls on a container that starts empty.
    The container state is paired with the abstract bag and with the set of copies
    seen since the last reset. *)
Inductive history : list op -> pstate -> bag -> list (Z * nat) -> Prop :=
| H_start : history [] init_particles empty_bag []
| H_step : forall ops st b seen o st' out l,
    history ops st b seen ->
    allowed b seen o ->
    iterate st = Ok l ->
    step st o = Ok (st', out) ->
    history (o :: ops) st' (bag_step b (map p_id l) o)
      (match o with OReset => [] | _ => map handle out ++ seen end).
