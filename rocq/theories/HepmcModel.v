(** The HepMC event record: src/hepmcinterface.cc, src/hepmcoutput.cc. Doubles are exact reals. What the HepMC3 library does with
    particles and vertices is modelled from its documented behaviour: a particle has at most one vertex it comes from and at most one
    it goes to, and adding it to another vertex moves it. Run information, heavy-ion header, dummy cross section and the formatting of
    the written event are left out. *)
From Coq Require Import ZArith Reals List Bool.
From Verif Require Import Base VecModel.
Import ListNotations.
Open Scope Z_scope.

(** What the output reads of a particle (ParticleData): identifier, PDG code as a decimal number, momentum, pole mass and charge of its
    species, and the nucleus it belongs to (BelongsTo) *)
Inductive belongs := Nothing | Projectile | Target.
Record pdata := PD { p_id : Z; p_pdg : Z; p_mom : vec4; p_mass : R; p_charge : Z; p_side : belongs }.
(** What it reads of an action: process type (ProcessType, processbranch.h:39-121, as a number), interaction point, weights,
    particles *)
Record action := Act { a_type : Z; a_point : vec4; a_weight : R; a_partial : R; a_in : list pdata; a_out : list pdata }.
(** EventInfo, outputinterface.h: impact parameter, number of ensembles, whether projectile and target did not interact *)
Record einfo := EI { e_impact : R; e_ensembles : Z; e_empty : bool }.

(** HepMC3::GenParticle: PDG code, status, momentum, generated mass if set, production and end vertex (numbers of vertices) *)
Record gen := Gen { g_pdg : Z; g_status : Z; g_mom : vec4; g_mass : option R; g_prod : option nat; g_end : option nat }.
(** HepMC3::GenVertex: position and, for interactions, weight and partial weight *)
Record vertex := Vtx { v_pos : vec4; v_weights : option (R * R) }.
(** HepMcInterface, hepmcinterface.h:180-215: the particles of the event in the order they are made, its vertices (number 0 is the
    interaction point), the map from identifiers to particles (latest entry first), the flag full_event_ *)
Record hep := Hep { h_full : bool; h_gens : list gen; h_verts : list vertex; h_map : list (Z * nat) }.

(** Status, hepmcinterface.h:129-134 *)
Definition st_beam : Z := 4.
Definition st_final : Z := 1.
Definition st_decay : Z := 2.
Definition st_off : Z := 100.
(** ProcessType::Decay, processbranch.h:55 *)
Definition t_decay : Z := 5.
(** get_status, hepmcinterface.cc:221-227 *)
Definition get_status (t : Z) : Z := if t =? t_decay then st_decay else t + st_off.
(** ion_pdg, hepmcinterface.cc:263-270; [a] nucleons, [z] charges *)
Definition ion_pdg (a z : Z) : Z :=
  if (z =? 1) && (a =? 1) then 2212
  else if (z =? 1) && (a =? 0) then 2112
  else 1000 * 1000 * 1000 + z * 10 * 1000 + a * 10.

(** clear, hepmcinterface.cc:212-219 *)
Definition clear (h : hep) : hep := Hep (h_full h) [] [] [].
(** make_gen, hepmcinterface.cc:228-237: its number and the event with it *)
Definition make_gen (h : hep) (pdg status : Z) (mom : vec4) (mass : R) : hep * nat :=
  (Hep (h_full h) (h_gens h ++ [Gen pdg status mom (if Rlt_dec 0 mass then Some mass else None) None None]) (h_verts h) (h_map h),
   length (h_gens h)).
(** make_register, hepmcinterface.cc:239-247 *)
Definition make_register (h : hep) (p : pdata) (status : Z) : hep * nat :=
  let '(h, i) := make_gen h (p_pdg p) status (p_mom p) (p_mass p) in
  (Hep (h_full h) (h_gens h) (h_verts h) ((p_id p, i) :: h_map h), i).
(** std::map::find *)
Fixpoint find_id (id : Z) (m : list (Z * nat)) : option nat :=
  match m with [] => None | (k, i) :: r => if id =? k then Some i else find_id id r end.
(** find_or_make (force_new is never set), hepmcinterface.cc:249-261 *)
Definition find_or_make (h : hep) (p : pdata) (status : Z) : hep * nat :=
  match find_id (p_id p) (h_map h) with Some i => (h, i) | None => make_register h p status end.
(** changes of one particle of the event *)
Fixpoint change (i : nat) (f : gen -> gen) (l : list gen) : list gen :=
  match l, i with [], _ => [] | g :: r, O => f g :: r | g :: r, S i => g :: change i f r end.
Definition change_gen (i : nat) (f : gen -> gen) (h : hep) : hep := Hep (h_full h) (change i f (h_gens h)) (h_verts h) (h_map h).
(** HepMC3::GenParticle::set_status, GenVertex::add_particle_in, add_particle_out *)
Definition set_status (s : Z) (i : nat) : hep -> hep := change_gen i (fun g => Gen (g_pdg g) s (g_mom g) (g_mass g) (g_prod g) (g_end g)).
Definition add_in (v i : nat) : hep -> hep :=
  change_gen i (fun g => Gen (g_pdg g) (g_status g) (g_mom g) (g_mass g) (g_prod g) (Some v)).
Definition add_out (v i : nat) : hep -> hep :=
  change_gen i (fun g => Gen (g_pdg g) (g_status g) (g_mom g) (g_mass g) (Some v) (g_end g)).
(** HepMC3::GenEvent::add_vertex *)
Definition add_vertex (x : vertex) (h : hep) : hep * nat :=
  (Hep (h_full h) (h_gens h) (h_verts h ++ [x]) (h_map h), length (h_verts h)).

(** the loop over the initial particles, hepmcinterface.cc:85-120: momentum, number and charge of projectile and target so far *)
Record beams := Beams { b_proj : vec4; b_targ : vec4; a_proj : Z; z_proj : Z; a_targ : Z; z_targ : Z }.
Definition count_beam (b : beams) (p : pdata) : beams :=
  match p_side p with
  | Projectile => Beams (add4 (b_proj b) (p_mom p)) (b_targ b) (a_proj b + 1) (z_proj b + p_charge p) (a_targ b) (z_targ b)
  | Target => Beams (b_proj b) (add4 (b_targ b) (p_mom p)) (a_proj b) (z_proj b) (a_targ b + 1) (z_targ b + p_charge p)
  | Nothing => b
  end.
Definition start_particle (is_coll : bool) (s : hep * beams) (p : pdata) : res (hep * beams) :=
  let '(h, b) := s in
  if is_coll && negb (p_pdg p =? 2112) && negb (p_pdg p =? 2212) then Throw E_runtime
  else
    let b := if is_coll then count_beam b p else b in
    if negb (h_full h) && is_coll then Ok (h, b)
    else let '(h, i) := make_register h p st_final in Ok (if is_coll then add_out 0 i h else add_in 0 i h, b).
(** at_eventstart, hepmcinterface.cc:57-132 *)
Definition is_collision (e : einfo) : bool := if Rle_dec 0 (e_impact e) then true else false.
Definition at_eventstart (h : hep) (ps : list pdata) (e : einfo) : res hep :=
  if negb (e_ensembles e =? 1) then Throw E_logic
  else
    let '(h, _) := add_vertex (Vtx zero4 None) (clear h) in
    '(h, b) <- foldM (start_particle (is_collision e)) (h, Beams zero4 zero4 0 0 0 0) ps ;;
    Ok (if is_collision e then
          let '(h, i) := make_gen h (ion_pdg (a_proj b) (z_proj b)) st_beam (b_proj b) (-1) in
          let '(h, j) := make_gen h (ion_pdg (a_targ b) (z_targ b)) st_beam (b_targ b) (-1) in
          add_in 0 j (add_in 0 i h)
        else h).
(** at_interaction, hepmcinterface.cc:134-168 *)
Definition consume (v : nat) (status : Z) (h : hep) (p : pdata) : hep :=
  let '(h, i) := find_or_make h p status in add_in v i (set_status status i h).
Definition produce (v : nat) (h : hep) (p : pdata) : hep :=
  let '(h, i) := make_register h p st_final in add_out v i h.
Definition at_interaction (h : hep) (a : action) : hep :=
  if h_full h then
    let '(h, v) := add_vertex (Vtx (a_point a) (Some (a_weight a, a_partial a))) h in
    fold_left (produce v) (a_out a) (fold_left (consume v (get_status (a_type a))) (a_in a) h)
  else h.
(** at_eventend, hepmcinterface.cc:170-210 *)
Definition end_particle (h : hep) (p : pdata) : res hep :=
  if negb (h_full h) then Ok (produce 0 h p)
  else match find_id (p_id p) (h_map h) with None => Throw E_runtime | Some _ => Ok h end.
Definition at_eventend (h : hep) (ps : list pdata) (e : einfo) : res hep :=
  if negb (e_ensembles e =? 1) then Throw E_logic
  else if e_empty e && is_collision e then Ok (clear h)
  else foldM end_particle h ps.
(** one event as the experiment reports it (experiment.h:2365-2368 for interactions): what HepMcOutput::at_eventend writes,
    hepmcoutput.cc:281-290. Impact parameter and number of ensembles are the same at both ends *)
Definition record_event (h : hep) (e : einfo) (initial : list pdata) (hist : list action) (final : list pdata) : res hep :=
  h <- at_eventstart h initial e ;; at_eventend (fold_left at_interaction hist h) final e.
