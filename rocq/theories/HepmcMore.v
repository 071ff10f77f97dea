(** C127, continued: conservation at the vertices, records of the final state only, errors, ion codes. *)
From Coq Require Import ZArith Reals List Bool Permutation Lia Lra.
From Verif Require Import Base VecModel FinalProps HepmcModel HepmcBase HepmcHistory HepmcProps.
Import ListNotations.
Open Scope Z_scope.

(** ** Conservation *)
Lemma sum4_perm a b : Permutation a b -> sum4 a = sum4 b.
Proof.
  induction 1; cbn; auto.
  - unfold sum4 in IHPermutation. now rewrite IHPermutation.
  - rewrite !add4_assoc. f_equal. unfold add4. f_equal; ring.
  - congruence.
Qed.
Lemma moms_of_contents l : map g_mom l = map snd (map content l).
Proof. now rewrite map_map. Qed.
Lemma moms_of_seen l : map p_mom l = map snd (map seen l).
Proof. now rewrite map_map. Qed.
(** actions that report their incoming particles as they were left, and conserve momentum *)
Fixpoint conserving (live : list pdata) (hist : list action) : Prop :=
  match hist with
  | [] => True
  | a :: r => incl (a_in a) live /\ sum4 (map p_mom (a_in a)) = sum4 (map p_mom (a_out a)) /\ conserving (after live a) r
  end.
Lemma conserving_app l r : forall live, conserving live (l ++ r) <-> conserving live l /\ conserving (fold_left after l live) r.
Proof. induction l as [|a l IH]; intros live; cbn; [tauto|]. rewrite IH. tauto. Qed.
Lemma history_ids hist : forall live, NoDup (map p_id live) -> history live hist -> NoDup (map p_id (fold_left after hist live)).
Proof. induction hist as [|a r IH]; intros live N H; cbn in *; [exact N|]. destruct H as ((_ & _ & _ & D) & H). now apply IH. Qed.
Lemma same_particles live l qs : NoDup (map p_id live) -> incl l live -> Forall2 (fun p q => In q live /\ p_id q = p_id p) l qs -> qs = l.
Proof.
  intros N L H. induction H as [|p q r s (Q & E) H IH]; [reflexivity|]. f_equal.
  - apply (in_live_unique live); auto. apply L. now left.
  - apply IH. intros x X. apply L. now right.
Qed.
Lemma sides_total ps : (forall p, In p ps -> p_side p <> Nothing) ->
  add4 (total (filter (side_is Projectile) ps)) (total (filter (side_is Target) ps)) = total ps.
Proof.
  induction ps as [|p r IH]; intros H; [unfold total, sum4, add4, zero4; cbn; f_equal; ring|].
  assert (IH' := IH (fun q Q => H q (or_intror Q))). specialize (H p (or_introl eq_refl)).
  cbn [filter].
  assert (S1 : side_is Projectile p = match p_side p with Projectile => true | _ => false end) by (unfold side_is; now destruct (p_side p)).
  assert (S2 : side_is Target p = match p_side p with Target => true | _ => false end) by (unfold side_is; now destruct (p_side p)).
  rewrite S1, S2. destruct (p_side p) eqn:E; [congruence| |]; unfold total in *; cbn [map sum4 fold_right] in *;
    fold (sum4 (map p_mom r)); rewrite <- IH'.
  - fold (sum4 (map p_mom (filter (side_is Projectile) r))). now rewrite add4_assoc.
  - fold (sum4 (map p_mom (filter (side_is Target) r))). rewrite !add4_assoc. f_equal. unfold add4. f_equal; ring.
Qed.
(** If every action conserves momentum, so does every vertex of the full record, including the one where the nuclei meet. *)
Theorem vertices_conserve_momentum h0 e initial hist final : h_full h0 = true -> ordinary h0 e initial -> history initial hist ->
  conserving initial hist -> incl (map p_id final) (map p_id (fold_left after hist initial)) ->
  (forall p, In p initial -> p_side p <> Nothing) ->
  exists h, record_event h0 e initial hist final = Ok h /\
    forall v, (v < length (h_verts h))%nat -> v <> 0%nat \/ is_collision e = true ->
      sum4 (map g_mom (entering v h)) = sum4 (map g_mom (leaving v h)).
Proof.
  intros F O H K L B. destruct (record_full h0 e initial hist final F O H L) as (hs & h & E0 & Eh & E & _). exists h. split; [exact E|].
  intros [|v] V C.
  - destruct C as [C|C]; [congruence|]. destruct (nuclei_at_interaction_point h0 e initial hist final F O C H L) as (h' & E' & A1 & A2).
    rewrite E in E'. injection E' as <-. rewrite A1, moms_of_contents with (l := leaving 0 h), A2, <- moms_of_seen. cbn [map beam g_mom].
    cbn [sum4 fold_right]. replace (add4 (total (filter (side_is Target) initial)) zero4) with (total (filter (side_is Target) initial)).
    + now apply sides_total.
    + destruct (total _). unfold add4, zero4. cbn. f_equal; ring.
  - clear C. destruct (nth_error hist v) as [a|] eqn:A.
    + apply nth_error_split in A as (pre & post & Eq & Lp). subst hist v.
      destruct (vertex_of_each_interaction h0 e initial pre a post final F O H L) as (h' & E' & _ & A1 & A2 & (qs & A3 & A4) & _).
      rewrite E in E'. injection E' as <-. apply conserving_app in K as (_ & K1 & K2 & _). apply history_app in H as (H1 & _).
      assert (Q : qs = a_in a) by (eapply same_particles; [|exact K1|exact A3]; apply history_ids; [apply O|exact H1]). subst qs.
      rewrite !moms_of_contents, A2, <- moms_of_seen, <- K2. rewrite (moms_of_seen (a_in a)). apply sum4_perm, Permutation_map, A4.
    + apply nth_error_None in A. exfalso. destruct (start_inv h0 initial e F O) as (hs' & E1 & I & Kc & Vs & _). rewrite E0 in E1. injection E1 as <-.
      destruct (run_inv hist initial hs) as (_ & _ & Vv & _); auto; [rewrite Vs; cbn; lia|]. rewrite <- Eh, Vs in Vv. rewrite Vv in V. cbn in V. rewrite map_length in V. lia.
Qed.
Print Assumptions vertices_conserve_momentum.

(** ** The final state only *)
Lemma no_history hist : forall h, h_full h = false -> fold_left at_interaction hist h = h.
Proof. induction hist as [|a r IH]; intros h F; cbn; [reflexivity|]. unfold at_interaction at 2. rewrite F. now apply IH. Qed.
Lemma end_final ps : forall h, h_full h = false -> exists m, foldM end_particle h ps =
  Ok (Hep false (h_gens h ++ map (record (Some 0%nat) None) ps) (h_verts h) m).
Proof.
  induction ps as [|p r IH]; intros h F; cbn [foldM map].
  - exists (h_map h). rewrite app_nil_r. destruct h. cbn in *. now subst.
  - unfold end_particle at 1, rbind. rewrite F. cbn [negb]. destruct (IH (produce 0 h p)) as (m & E); [now rewrite produce_full|]. exists m. rewrite E.
    rewrite produce_eq. unfold place. cbn. now rewrite <- app_assoc.
Qed.
Lemma filter_records (P : gen -> bool) po eo b ps : (forall p, P (record po eo p) = b) ->
  filter P (map (record po eo) ps) = if b then map (record po eo) ps else [].
Proof. intros H. induction ps as [|p r IH]; cbn; [now destruct b|]. rewrite H, IH. now destruct b. Qed.
(** Whatever happens in between, a record of the final state has one vertex; the final particles leave it in the order of the list; in a
    collision the two nuclei enter it and the particles marked final are the final particles, otherwise the initial particles enter it. *)
Theorem final_state_record h0 e initial hist final : h_full h0 = false -> e_ensembles e = 1 -> e_empty e && is_collision e = false ->
  (is_collision e = true -> forallb nucleon initial = true) ->
  exists h, record_event h0 e initial hist final = Ok h /\ h_verts h = [ip] /\ map content (leaving 0 h) = map seen final /\
    (is_collision e = true -> entering 0 h = [beam Projectile initial; beam Target initial] /\
       map content (with_status st_final h) = map seen final) /\
    (is_collision e = false -> map content (entering 0 h) = map seen initial).
Proof.
  intros F N EE C. unfold record_event. rewrite (start_spec h0 initial e N C). cbn zeta. rewrite F. cbn [negb andb rbind].
  unfold at_eventend. rewrite N, EE. cbn [negb Z.eqb Pos.eqb].
  destruct (is_collision e).
  - cbn [h_gens h_map app]. rewrite no_history by reflexivity.
    destruct (end_final final (Hep false [beam Projectile initial; beam Target initial] [ip] [])) as (m & E); [reflexivity|].
    rewrite E. eexists. split; [reflexivity|]. cbn [h_verts h_gens]. unfold leaving, entering, with_status. cbn [h_gens].
    rewrite !filter_app. rewrite (filter_records (fun g => at_vertex (g_prod g) 0) _ _ true), (filter_records (fun g => g_status g =? st_final) _ _ true) by reflexivity.
    rewrite (filter_records (fun g => at_vertex (g_end g) 0) _ _ false) by reflexivity.
    cbn. rewrite !map_map. splits; auto; intros; discriminate.
  - destruct (place_all false initial (Hep false [] [ip] [])) as (m & E). cbn in E. rewrite E, no_history by reflexivity.
    destruct (end_final final (Hep false (map (record None (Some 0%nat)) initial) [ip] m)) as (m' & E'); [reflexivity|].
    rewrite E'. eexists. split; [reflexivity|]. cbn [h_verts h_gens]. unfold leaving, entering. cbn [h_gens]. rewrite !filter_app.
    rewrite (filter_records (fun g => at_vertex (g_prod g) 0) None _ false), (filter_records (fun g => at_vertex (g_prod g) 0) (Some 0%nat) _ true) by reflexivity.
    rewrite (filter_records (fun g => at_vertex (g_end g) 0) None _ true), (filter_records (fun g => at_vertex (g_end g) 0) (Some 0%nat) _ false) by reflexivity.
    cbn. rewrite !map_map, app_nil_r, !map_map. splits; auto; intros; discriminate.
Qed.
Print Assumptions final_state_record.

(** ** Errors and independence of events *)
(** identifiers that occur in an event *)
Definition ids (initial : list pdata) (hist : list action) : list Z := map p_id initial ++ flat_map (fun a => map p_id (a_in a) ++ map p_id (a_out a)) hist.
Definition known (h : hep) (k : Z) : Prop := find_id k (h_map h) <> None.
Lemma known_place po eo h p k : known (place po eo h p) k <-> k = p_id p \/ known h k.
Proof. unfold known, place. cbn. destruct (Z.eqb_spec k (p_id p)); [split; [auto|discriminate]|]. tauto. Qed.
Lemma known_consume v s h p k : known (consume v s h p) k <-> k = p_id p \/ known h k.
Proof.
  unfold known, consume, find_or_make, make_register, make_gen, add_in, set_status, change_gen. cbn.
  destruct (find_id (p_id p) (h_map h)) eqn:E; cbn.
  - split; [auto|]. intros [->|H]; [now rewrite E|exact H].
  - destruct (Z.eqb_spec k (p_id p)); [split; [auto|discriminate]|]. tauto.
Qed.
Lemma known_fold {A} (f : hep -> A -> hep) (g : A -> Z) l : (forall h x k, known (f h x) k <-> k = g x \/ known h k) ->
  forall h k, known (fold_left f l h) k <-> In k (map g l) \/ known h k.
Proof. intros H. induction l as [|x r IH]; intros h k; cbn; [tauto|]. rewrite IH, H. intuition congruence. Qed.
Lemma known_interaction h a k : h_full h = true -> known (at_interaction h a) k <-> In k (map p_id (a_in a) ++ map p_id (a_out a)) \/ known h k.
Proof.
  intros F. unfold at_interaction. rewrite F. unfold add_vertex. rewrite (known_fold _ p_id) by (intros; rewrite produce_eq; apply known_place).
  rewrite (known_fold _ p_id) by (intros; apply known_consume). rewrite in_app_iff. unfold known. cbn. tauto.
Qed.
Lemma fold_full {A} (f : hep -> A -> hep) l : (forall h x, h_full (f h x) = h_full h) -> forall h, h_full (fold_left f l h) = h_full h.
Proof. intros H. induction l as [|x r IH]; intros h; cbn; [reflexivity|]. now rewrite IH, H. Qed.
Lemma interaction_full h a : h_full (at_interaction h a) = h_full h.
Proof.
  unfold at_interaction. destruct (h_full h) eqn:F; [|exact F]. unfold add_vertex.
  rewrite fold_full by (intros; apply produce_full). rewrite fold_full by (intros; apply consume_full). exact F.
Qed.
Lemma known_history hist : forall h k, h_full h = true ->
  known (fold_left at_interaction hist h) k <-> In k (flat_map (fun a => map p_id (a_in a) ++ map p_id (a_out a)) hist) \/ known h k.
Proof.
  induction hist as [|a r IH]; intros h k F; cbn; [tauto|]. rewrite IH by now rewrite interaction_full. rewrite known_interaction by exact F.
  rewrite (in_app_iff (map p_id (a_in a) ++ map p_id (a_out a))). tauto.
Qed.
(** For every history whatsoever, also an impossible one, writing a full event fails exactly if a final particle was never mentioned. *)
Theorem dangling_particles h0 e initial hist final : h_full h0 = true -> e_ensembles e = 1 -> e_empty e && is_collision e = false ->
  (is_collision e = true -> forallb nucleon initial = true) ->
  (incl (map p_id final) (ids initial hist) <-> exists h, record_event h0 e initial hist final = Ok h) /\
  (~ incl (map p_id final) (ids initial hist) -> record_event h0 e initial hist final = Throw E_runtime).
Proof.
  intros F N EE C. unfold record_event. rewrite (start_spec h0 initial e N C). cbn zeta. rewrite F. cbn [negb andb rbind].
  set (h := if is_collision e then _ else _).
  assert (HF : h_full h = true).
  { unfold h. destruct (is_collision e); [reflexivity|]. now rewrite fold_full. }
  assert (HK : forall k, known h k <-> In k (map p_id initial)).
  { intros k. assert (Q : known h k <-> known (fold_left (place_initial (is_collision e)) initial (Hep true [] [ip] [])) k).
    { unfold h. destruct (is_collision e); unfold known; cbn; tauto. }
    rewrite Q, (known_fold _ p_id) by (intros; apply known_place). unfold known. cbn. tauto. }
  unfold at_eventend. rewrite N, EE. cbn [negb Z.eqb Pos.eqb].
  rewrite end_full by (rewrite fold_full; [exact HF|intros; apply interaction_full]).
  set (h' := fold_left at_interaction hist h).
  assert (K : forall k, known h' k <-> In k (ids initial hist)).
  { intros k. unfold h', ids. rewrite known_history by exact HF. rewrite HK, in_app_iff. tauto. }
  assert (Q : forallb (fun p => match find_id (p_id p) (h_map h') with Some _ => true | None => false end) final = true <-> incl (map p_id final) (ids initial hist)).
  { rewrite forallb_forall. split.
    - intros H k X. apply in_map_iff in X as (p & <- & P). apply K. unfold known. specialize (H p P). destruct (find_id (p_id p) (h_map h')); congruence.
    - intros H p P. assert (X : known h' (p_id p)) by (apply K, H; now apply in_map). unfold known in X. now destruct (find_id (p_id p) (h_map h')). }
  destruct (forallb _ final).
  - split; [|intros X; exfalso; apply X; now apply Q]. split; [intros _; eauto|intros _; now apply Q].
  - split; [|reflexivity]. split; [intros X; apply Q in X; discriminate|intros (x & X); discriminate].
Qed.
Print Assumptions dangling_particles.

(** Several ensembles are refused, at both ends; a collision starting with anything but nucleons is refused. *)
Theorem refused_events h ps e :
  (e_ensembles e <> 1 -> at_eventstart h ps e = Throw E_logic /\ at_eventend h ps e = Throw E_logic) /\
  (e_ensembles e = 1 -> is_collision e = true -> (exists p, In p ps /\ p_pdg p <> 2112 /\ p_pdg p <> 2212) -> at_eventstart h ps e = Throw E_runtime).
Proof.
  split.
  - intros N. unfold at_eventstart, at_eventend. apply Z.eqb_neq in N. rewrite N. auto.
  - intros N C (p & P & A & B). unfold at_eventstart. rewrite N. cbn [negb Z.eqb Pos.eqb]. unfold add_vertex, rbind. rewrite start_all, C. cbn [andb].
    destruct (forallb nucleon ps) eqn:E; [|reflexivity]. rewrite forallb_forall in E. specialize (E p P). unfold nucleon in E.
    apply Z.eqb_neq in A, B. rewrite A, B in E. discriminate.
Qed.
Print Assumptions refused_events.
(** Nothing of an earlier event, complete or not, is left in the next one; an event without interaction between the nuclei is written
    empty. *)
Theorem events_are_independent h h' e initial hist final : h_full h = h_full h' ->
  record_event h e initial hist final = record_event h' e initial hist final /\
  (e_ensembles e = 1 -> is_collision e = true -> e_empty e = true -> forallb nucleon initial = true ->
   exists r, record_event h e initial hist final = Ok r /\ h_gens r = [] /\ h_verts r = []).
Proof.
  intros F. split.
  - unfold record_event, at_eventstart. destruct (negb (e_ensembles e =? 1)); [reflexivity|]. unfold clear. now rewrite F.
  - intros N C E Nu. unfold record_event. rewrite (start_spec h initial e N (fun _ => Nu)). cbn [rbind]. unfold at_eventend. rewrite N, E, C. cbn. eauto.
Qed.
Print Assumptions events_are_independent.

(** ** Ion codes *)
(** The code of a nucleus is 10LZZZAAAI of the PDG numbering with L = I = 0; a proton keeps its own code. *)
Theorem ion_code a z : 1 <= a < 1000 -> 0 <= z <= a ->
  (a = 1 -> z = 1 -> ion_pdg a z = 2212) /\
  (a <> 1 \/ z <> 1 -> 1000000000 <= ion_pdg a z < 1010000000 /\ ion_pdg a z / 10 mod 1000 = a /\ ion_pdg a z / 10000 mod 1000 = z /\ ion_pdg a z mod 10 = 0).
Proof.
  intros A B. unfold ion_pdg. split.
  - intros -> ->. reflexivity.
  - intros H. destruct (Z.eqb_spec z 1), (Z.eqb_spec a 1); cbn [andb]; try (exfalso; lia); destruct (Z.eqb_spec a 0); try (exfalso; lia);
      (split; [lia|]; replace (1000 * 1000 * 1000 + z * 10 * 1000 + a * 10) with ((100000000 + z * 1000 + a) * 10) by ring;
       split; [rewrite Z.div_mul by lia; replace (100000000 + z * 1000 + a) with (a + (100000 + z) * 1000) by ring; rewrite Z.mod_add by lia; now apply Z.mod_small; lia|];
       split; [|apply Z.mod_mul; lia]; change 10000 with (10 * 1000); rewrite <- Z.div_div by lia; rewrite Z.div_mul by lia;
       replace (100000000 + z * 1000 + a) with (a + (100000 + z) * 1000) by ring; rewrite Z.div_add by lia; rewrite Z.div_small by lia;
       replace (0 + (100000 + z)) with (z + 100 * 1000) by ring; rewrite Z.mod_add by lia; now apply Z.mod_small; lia).
Qed.
Print Assumptions ion_code.
(** A single neutron does not get its own code: the test is for one charge and no nucleon (hepmcinterface.cc:266), so a neutron beam is
    recorded as a nucleus of one neutron, 1000000010. *)
Theorem neutron_code_refuted : ~ (forall a z, a = 1 -> z = 0 -> ion_pdg a z = 2112).
Proof. intros H. specialize (H 1 0 eq_refl eq_refl). vm_compute in H. discriminate. Qed.
Print Assumptions neutron_code_refuted.

(** ** Examples and what does not hold *)
Definition at_rest (m : R) : vec4 := V4 m 0 0 0.
Definition nuc (k c : Z) (m : R) (s : belongs) : pdata := PD k c (at_rest m) m (if c =? 2212 then 1 else 0) s.
Definition box_event : einfo := EI (-1) 1 false.
Lemma no_collision : is_collision box_event = false.
Proof. unfold is_collision, box_event. cbn. destruct (Rle_dec 0 (-1)); [exfalso; lra|reflexivity]. Qed.
(** In modi without colliding nuclei a record of the final state marks the initial particles as final too (hepmcinterface.cc:114): a
    reader who selects final particles gets both. *)
Theorem final_marks_initial_refuted : ~ (forall h0 e initial hist final h, h_full h0 = false -> e_ensembles e = 1 -> e_empty e && is_collision e = false ->
  is_collision e = false -> record_event h0 e initial hist final = Ok h ->
  Permutation (map content (with_status st_final h)) (map seen final)).
Proof.
  intros H. specialize (H (Hep false [] [] []) box_event [nuc 0 111 1 Nothing] [] []).
  unfold record_event in H. rewrite (start_spec _ [nuc 0 111 1 Nothing] box_event) in H; [|reflexivity|rewrite no_collision; discriminate].
  rewrite no_collision in H. cbn [h_full negb andb rbind fold_left] in H. cbn in H. specialize (H _ eq_refl eq_refl eq_refl eq_refl eq_refl).
  cbn in H. apply Permutation_sym, Permutation_nil in H. discriminate.
Qed.
Print Assumptions final_marks_initial_refuted.
(** In the same modi a full record has final particles that enter a vertex: the initial particles that never interact enter the
    interaction point. *)
Theorem final_has_no_end_refuted : ~ (forall h0 e initial hist final h, h_full h0 = true -> ordinary h0 e initial -> history initial hist ->
  record_event h0 e initial hist final = Ok h -> forall g, In g (with_status st_final h) -> g_end g = None).
Proof.
  intros H. set (p := nuc 0 111 1 Nothing). specialize (H (Hep true [] [] []) box_event [p] [] [p]).
  assert (O : ordinary (Hep true [] [] []) box_event [p]).
  { unfold ordinary. rewrite no_collision. splits; auto; try discriminate. repeat constructor. intros []. }
  unfold record_event in H. rewrite (start_spec _ [p] box_event) in H; [|reflexivity|rewrite no_collision; discriminate].
  rewrite no_collision in H. cbn in H. specialize (H _ eq_refl O I eq_refl _ (or_introl eq_refl)). discriminate.
Qed.
Print Assumptions final_has_no_end_refuted.
(** The full record does not see what happens to a particle between interactions: with potentials the momentum of a final particle is
    the one of its last interaction, not the one it has. *)
Theorem final_momentum_refuted : ~ (forall h0 e initial hist final h, h_full h0 = true -> ordinary h0 e initial -> history initial hist ->
  map p_id final = map p_id (fold_left after hist initial) -> record_event h0 e initial hist final = Ok h ->
  Permutation (map content (with_status st_final h)) (map seen final)).
Proof.
  intros H. set (p := nuc 0 111 1 Nothing). set (q := PD 0 111 (V4 2 0 0 1) 1 0 Nothing). specialize (H (Hep true [] [] []) box_event [p] [] [q]).
  assert (O : ordinary (Hep true [] [] []) box_event [p]).
  { unfold ordinary. rewrite no_collision. splits; auto; try discriminate. repeat constructor. intros []. }
  unfold record_event in H. rewrite (start_spec _ [p] box_event) in H; [|reflexivity|rewrite no_collision; discriminate].
  rewrite no_collision in H. cbn in H. specialize (H _ eq_refl O I eq_refl eq_refl). cbn in H.
  apply Permutation_length_1 in H. unfold content, seen in H. cbn in H. unfold at_rest in H. injection H as E _. lra.
Qed.
Print Assumptions final_momentum_refuted.
(** The mass written with a particle is the pole mass of its species, so that of a resonance is not the one its momentum has. *)
Theorem record_mass_refuted : ~ (forall h p v g, In g (leaving v (produce v h p)) -> content g = seen p -> forall m, g_mass g = Some m ->
  (y0 (g_mom g) * y0 (g_mom g) - y3 (g_mom g) * y3 (g_mom g) = m * m)%R).
Proof.
  intros H. set (p := PD 0 2224 (V4 (11/10) 0 0 0) (1232/1000) 2 Nothing). specialize (H (Hep true [] [] []) p 0%nat).
  rewrite produce_eq in H. unfold place, leaving in H. cbn in H. specialize (H _ (or_introl eq_refl) eq_refl). cbn in H.
  destruct (Rlt_dec 0 (1232/1000)) as [_|X]; [|apply X; lra]. specialize (H _ eq_refl). lra.
Qed.
Print Assumptions record_mass_refuted.

(** an event with an elastic scattering, which keeps the identifiers, and a decay *)
Definition n1 := nuc 0 2212 1 Projectile.
Definition n2 := nuc 1 2112 1 Target.
Definition delta := nuc 1 2214 (5/4) Nothing.
Definition n1' := nuc 0 2212 (3/4) Nothing.
Definition pion := nuc 2 211 (1/4) Nothing.
Definition n3 := nuc 3 2112 1 Nothing.
Definition scatter : action := Act 3 zero4 1 1 [n1; n2] [n1'; delta].
Definition decay : action := Act 5 zero4 1 1 [delta] [n3; pion].
Definition collision : einfo := EI 0 1 false.
Example example_event : let h0 := Hep true [] [] [] in
  ordinary h0 collision [n1; n2] /\ is_collision collision = true /\ history [n1; n2] [scatter; decay] /\ conserving [n1; n2] [scatter; decay] /\
  fold_left after [scatter; decay] [n1; n2] = [n1'; n3; pion] /\ (forall p, In p [n1; n2] -> p_side p <> Nothing).
Proof.
  cbn zeta. splits.
  - unfold ordinary. splits; auto. repeat constructor; cbn; intuition discriminate.
  - unfold is_collision. cbn. destruct (Rle_dec 0 0); [reflexivity|exfalso; lra].
  - cbn [history]. splits; auto; unfold possible; cbn; splits; try lia; try (intros x [<-|[<-|[]]]; cbn; auto); try (intros x [<-|[]]; cbn; auto);
      repeat constructor; cbn; intuition discriminate.
  - cbn. unfold add4, zero4. cbn. splits; auto; try (intros x [<-|[<-|[]]]; cbn; auto); try (intros x [<-|[]]; cbn; auto); f_equal; lra.
  - reflexivity.
  - intros p [<-|[<-|[]]]; discriminate.
Qed.
