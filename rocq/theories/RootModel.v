(** The ROOT output: src/rootoutput.cc. A particle is whatever the branches read of it (type [A]); the parts of EventInfo that are only
    passed on (time, energies, modus length, test particles) are a value of type [I]. What TTree::Fill stores is a copy of the branch
    variables and of the first npart elements of the arrays. File handling, logging and the ROOT library are left out. *)
From Coq Require Import ZArith Reals List Bool.
From Verif Require Import Base.
Import ListNotations.
Open Scope Z_scope.

Section Root.
Context {A I : Type}.
(** OutputOnlyFinal, outputparameters.h / input_keys.h *)
Inductive only_final := OF_Yes | OF_IfNotEmpty | OF_No.
(** rootoutput.cc:266-277: what the output writes; [size] is max_buffer_size_ (rootoutput.cc:21: 500000) *)
Record config := Config { c_coll : bool; c_part : bool; c_ic : bool; c_only : only_final; c_size : nat }.
Record info := Info { i_pass : I; i_impact : R; i_empty : bool; i_ensembles : Z }.
(** one entry of the tree of particles (rootoutput.cc:289-315) and of collisions (333-360) *)
Record entry := Entry { n_ev : Z; n_ens : Z; n_counter : Z; n_pass : I; n_impact : R; n_empty : bool; n_parts : list A }.
Record centry := CEntry { m_ev : Z; m_ens : Z; m_nin : nat; m_nout : nat; m_weight : R; m_partial : R; m_parts : list A }.
(** the object, rootoutput.h:138-222; [r_buf] the arrays (all of length max_buffer_size_), [r_freq] autosave_frequency_, [r_saved] the
    events after which the trees were saved *)
Record root := Root { r_ev : Z; r_ens : Z; r_counter : Z; r_pass : I; r_impact : R; r_empty : bool; r_buf : list A; r_freq : Z;
  r_tree : list entry; r_coll : list centry; r_saved : list Z }.

(** id_[i] = ... and so on: undefined beyond the end *)
Fixpoint store (i : nat) (p : A) (b : list A) : res (list A) :=
  match b, i with [], _ => UB UB_oob | _ :: r, O => Ok (p :: r) | x :: r, S i => r <- store i p r ;; Ok (x :: r) end.
(** the loop of particles_to_tree, rootoutput.cc:507-557: arrays, number of particles in them, arrays filled so far *)
Definition tree_step (n : nat) (s : list A * nat * list (list A)) (p : A) : res (list A * nat * list (list A)) :=
  let '(b, i, out) := s in
  if (n <=? i)%nat then Ok (b, 0%nat, out ++ [firstn n b])
  else b <- store i p b ;; Ok (b, S i, out).
(** particles_to_tree, rootoutput.cc:499-563 *)
Definition blocks (n : nat) (b : list A) (ps : list A) : res (list A * list (list A)) :=
  '(b, i, out) <- foldM (tree_step n) (b, 0%nat, []) ps ;;
  Ok (b, if (0 <? i)%nat then out ++ [firstn i b] else out).
Definition particles_to_tree (c : config) (s : root) (ps : list A) : res root :=
  '(b, out) <- blocks (c_size c) (r_buf s) ps ;;
  Ok (Root (r_ev s) (r_ens s) (r_counter s) (r_pass s) (r_impact s) (r_empty s) b (r_freq s)
    (r_tree s ++ map (Entry (r_ev s) (r_ens s) (r_counter s) (r_pass s) (r_impact s) (r_empty s)) out) (r_coll s) (r_saved s)).
(** collisions_to_tree, rootoutput.cc:565-622 *)
Definition fill_one (s : list A * nat) (p : A) : res (list A * nat) := let '(b, i) := s in b <- store i p b ;; Ok (b, S i).
Definition collisions_to_tree (s : root) (ins outs : list A) (w pw : R) : res root :=
  '(b, i) <- foldM fill_one (r_buf s, 0%nat) (ins ++ outs) ;;
  Ok (Root (r_ev s) (r_ens s) (r_counter s) (r_pass s) (r_impact s) (r_empty s) b (r_freq s) (r_tree s)
    (r_coll s ++ [CEntry (r_ev s) (r_ens s) (length ins) (length outs) w pw (firstn (length ins + length outs) b)]) (r_saved s)).

Definition count (s : root) : root :=
  Root (r_ev s) (r_ens s) (r_counter s + 1) (r_pass s) (r_impact s) (r_empty s) (r_buf s) (r_freq s) (r_tree s) (r_coll s) (r_saved s).
Definition writes_all (c : config) : bool := c_part c && match c_only c with OF_No => true | _ => false end.
(** at_eventstart, rootoutput.cc:400-422 *)
Definition at_eventstart (c : config) (s : root) (ps : list A) (ev ens : Z) (e : info) : res root :=
  let s := Root ev ens (r_counter s) (i_pass e) (r_impact s) (r_empty s) (r_buf s) (r_freq s) (r_tree s) (r_coll s) (r_saved s) in
  if writes_all c then
    s <- particles_to_tree c (Root (r_ev s) (r_ens s) 0 (r_pass s) (-1) false (r_buf s) (r_freq s) (r_tree s) (r_coll s) (r_saved s)) ps ;;
    Ok (count s)
  else Ok s.
(** at_intermediate_time, rootoutput.cc:424-441 *)
Definition at_intermediate_time (c : config) (s : root) (ps : list A) (ens : Z) (e : info) : res root :=
  let s := Root (r_ev s) ens (r_counter s) (i_pass e) (r_impact s) (r_empty s) (r_buf s) (r_freq s) (r_tree s) (r_coll s) (r_saved s) in
  if writes_all c then s <- particles_to_tree c s ps ;; Ok (count s) else Ok s.
(** at_eventend, rootoutput.cc:443-483; integer division truncates towards zero *)
Definition at_eventend (c : config) (s : root) (ps : list A) (ens : Z) (e : info) : res root :=
  let s := Root (r_ev s) ens (r_counter s) (i_pass e) (i_impact e) (i_empty e) (r_buf s) (r_freq s) (r_tree s) (r_coll s) (r_saved s) in
  s <- (if c_part c && negb (i_empty e && match c_only c with OF_IfNotEmpty => true | _ => false end) then particles_to_tree c s ps else Ok s) ;;
  f <- (if r_freq s <? 0 then
          if i_ensembles e =? 0 then UB UB_div_zero
          else let f := Z.quot 1000 (i_ensembles e) in Ok (if f =? 0 then 1 else f)
        else Ok (r_freq s)) ;;
  sv <- (if 0 <? r_ev s then if f =? 0 then UB UB_div_zero else Ok (Z.rem (r_ev s) f =? 0) else Ok false) ;;
  Ok (Root (r_ev s) (r_ens s) (r_counter s) (r_pass s) (r_impact s) (r_empty s) (r_buf s) f (r_tree s) (r_coll s)
    (if sv : bool then r_saved s ++ [r_ev s] else r_saved s)).
(** at_interaction, rootoutput.cc:485-497; [fluid]: the process is Fluidization or FluidizationNoRemoval *)
Definition at_interaction (c : config) (s : root) (fluid : bool) (ins outs : list A) (w pw : R) : res root :=
  s <- (if c_coll c then collisions_to_tree s ins outs w pw else Ok s) ;;
  if c_ic c && fluid then particles_to_tree c s ins else Ok s.
End Root.
Arguments entry : clear implicits.
Arguments centry : clear implicits.
Arguments root : clear implicits.
Arguments info : clear implicits.
