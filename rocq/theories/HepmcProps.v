(** C127: what the HepMC event record says about an event. *)
From Coq Require Import ZArith Reals List Bool Permutation Lia Lra.
From Verif Require Import Base VecModel FinalProps HepmcModel HepmcBase HepmcHistory.
Import ListNotations.
Open Scope Z_scope.

(** ** The start of an event *)
Definition nucleon (p : pdata) : bool := (p_pdg p =? 2112) || (p_pdg p =? 2212).
Definition place_initial (c : bool) : hep -> pdata -> hep := place (if c then Some 0%nat else None) (if c then None else Some 0%nat).
Lemma start_all c ps : forall h b, foldM (start_particle c) (h, b) ps =
  if c && negb (forallb nucleon ps) then Throw E_runtime
  else Ok (if negb (h_full h) && c then h else fold_left (place_initial c) ps h, if c then fold_left count_beam ps b else b).
Proof.
  induction ps as [|p r IH]; intros h b; cbn [foldM].
  - cbn. now destruct c, (h_full h).
  - unfold start_particle at 1, rbind. cbn [forallb]. unfold nucleon at 1.
    replace (c && negb (p_pdg p =? 2112) && negb (p_pdg p =? 2212)) with (c && negb ((p_pdg p =? 2112) || (p_pdg p =? 2212)))
      by (rewrite negb_orb, andb_assoc; reflexivity).
    destruct c; cbn [andb].
    + destruct ((p_pdg p =? 2112) || (p_pdg p =? 2212)); cbn [negb andb]; [|reflexivity].
      rewrite andb_true_r. destruct (h_full h) eqn:F; cbn [negb].
      * cbn. rewrite IH. destruct (negb (forallb nucleon r)); [reflexivity|].
        assert (E : add_out 0 (length (h_gens h)) (Hep (h_full h) (h_gens h ++ [Gen (p_pdg p) st_final (p_mom p) (if Rlt_dec 0 (p_mass p) then Some (p_mass p) else None) None None]) (h_verts h) ((p_id p, length (h_gens h)) :: h_map h)) = place_initial true h p).
        { unfold place_initial, place, record, add_out, change_gen. cbn. now rewrite change_last. }
        cbn [andb]. cbn in E |- *. rewrite E. cbn. rewrite F. reflexivity.
      * rewrite IH. cbn [andb]. rewrite F. cbn. reflexivity.
    + rewrite andb_false_r. cbn. rewrite IH. cbn [andb].
      assert (E : add_in 0 (length (h_gens h)) (Hep (h_full h) (h_gens h ++ [Gen (p_pdg p) st_final (p_mom p) (if Rlt_dec 0 (p_mass p) then Some (p_mass p) else None) None None]) (h_verts h) ((p_id p, length (h_gens h)) :: h_map h)) = place_initial false h p).
      { unfold place_initial, place, record, add_in, change_gen. cbn. now rewrite change_last. }
      cbn in E |- *. rewrite E. rewrite !andb_false_r. reflexivity.
Qed.
Lemma place_all c ps : forall h, exists m, fold_left (place_initial c) ps h =
  Hep (h_full h) (h_gens h ++ map (record (if c then Some 0%nat else None) (if c then None else Some 0%nat)) ps) (h_verts h) m.
Proof.
  induction ps as [|p r IH]; intros h; cbn [fold_left map].
  - exists (h_map h). rewrite app_nil_r. now destruct h.
  - destruct (IH (place_initial c h p)) as (m & E). exists m. rewrite E. unfold place_initial, place. cbn. now rewrite <- app_assoc.
Qed.
Lemma place_all_inv c ps : forall live h, (0 < length (h_verts h))%nat -> Inv live h -> NoDup (map p_id (live ++ ps)) ->
  Inv (live ++ ps) (fold_left (place_initial c) ps h).
Proof.
  induction ps as [|p r IH]; intros live h V I N; cbn [fold_left]; [now rewrite app_nil_r|].
  assert (E : live ++ p :: r = (live ++ [p]) ++ r) by (rewrite <- app_assoc; reflexivity). rewrite E in N |- *.
  apply IH; [exact V| |exact N]. apply place_inv; auto.
  - intros v [H|H]; destruct c; try discriminate; injection H as <-; exact V.
  - destruct c; auto.
  - rewrite <- E, map_app in N. cbn in N. apply NoDup_remove_2 in N. intros H. apply N. apply in_or_app. now left.
Qed.
(** the sums over projectile and target *)
Definition side_is (s : belongs) (p : pdata) : bool :=
  match s, p_side p with Projectile, Projectile | Target, Target | Nothing, Nothing => true | _, _ => false end.
Definition total (ps : list pdata) : vec4 := sum4 (map p_mom ps).
Definition charge (ps : list pdata) : Z := fold_right Z.add 0 (map p_charge ps).
Definition size (ps : list pdata) : Z := Z.of_nat (length ps).
Lemma add4_zero a : add4 zero4 a = a.
Proof. destruct a. unfold add4, zero4. cbn. f_equal; ring. Qed.
Lemma count_all ps : forall b, fold_left count_beam ps b =
  let P := filter (side_is Projectile) ps in let T := filter (side_is Target) ps in
  Beams (add4 (b_proj b) (total P)) (add4 (b_targ b) (total T)) (a_proj b + size P) (z_proj b + charge P) (a_targ b + size T) (z_targ b + charge T).
Proof.
  assert (Z4 : forall a, add4 a zero4 = a) by (intros []; unfold add4, zero4; cbn; f_equal; ring).
  induction ps as [|p r IH]; intros b; cbn [fold_left].
  - cbn. rewrite !Z4, !Z.add_0_r. now destruct b.
  - rewrite IH. cbn zeta. unfold count_beam. cbn [filter]. unfold side_is at 5 7 9 11 13 15. 
    unfold size, charge, total. destruct (p_side p) eqn:E; unfold side_is; rewrite E; cbn -[add4 Z.of_nat sum4]; fold (side_is Projectile) (side_is Target).
    + reflexivity.
    + cbn [sum4 fold_right]. fold (sum4 (map p_mom (filter (side_is Projectile) r))). rewrite add4_assoc. f_equal; lia.
    + cbn [sum4 fold_right]. fold (sum4 (map p_mom (filter (side_is Target) r))). rewrite add4_assoc. f_equal; lia.
Qed.
(** a beam as it should be recorded *)
Definition beam (s : belongs) (ps : list pdata) : gen :=
  let B := filter (side_is s) ps in Gen (ion_pdg (size B) (charge B)) st_beam (total B) None None (Some 0%nat).
Definition ip : vertex := Vtx zero4 None.
Lemma start_spec h0 ps e : e_ensembles e = 1 -> (is_collision e = true -> forallb nucleon ps = true) ->
  at_eventstart h0 ps e = Ok
    (let h := Hep (h_full h0) [] [ip] [] in
     let h := if negb (h_full h0) && is_collision e then h else fold_left (place_initial (is_collision e)) ps h in
     if is_collision e then Hep (h_full h0) (h_gens h ++ [beam Projectile ps; beam Target ps]) [ip] (h_map h) else h).
Proof.
  intros N C. unfold at_eventstart. rewrite N. cbn [negb Z.eqb Pos.eqb]. unfold add_vertex, clear, rbind.
  cbn [h_full h_gens h_verts h_map length app]. fold ip. rewrite start_all. cbn [h_full].
  destruct (is_collision e) eqn:K; cbn [andb negb].
  - rewrite (C eq_refl). cbn [negb]. rewrite andb_true_r, count_all. cbn zeta. cbn [b_proj b_targ a_proj a_targ z_proj z_targ].
    rewrite !add4_zero, !Z.add_0_l. unfold make_gen. cbn [h_full h_gens h_verts h_map].
    f_equal. set (h := if negb (h_full h0) then _ else _).
    assert (E : h_full h = h_full h0 /\ h_verts h = [ip]).
    { unfold h. destruct (negb (h_full h0)); [auto|]. destruct (place_all true ps (Hep (h_full h0) [] [ip] [])) as (m & ->). auto. }
    destruct E as (E1 & E2). unfold add_in, change_gen. cbn [h_full h_gens h_verts h_map]. rewrite E1, E2. f_equal.
    destruct (Rlt_dec 0 (-1)) as [X|_]; [exfalso; lra|].
    rewrite change_app by (rewrite app_length; cbn; lia). rewrite change_last.
    match goal with |- change ?n _ (?l ++ _) = _ => replace n with (length l) by (rewrite !app_length; reflexivity) end.
    rewrite change_last, <- app_assoc. reflexivity.
  - rewrite andb_false_r. cbn. reflexivity.
Qed.

(** ** The whole history in a full record *)
Definition ordinary (h0 : hep) (e : einfo) (initial : list pdata) : Prop :=
  e_ensembles e = 1 /\ e_empty e && is_collision e = false /\ (is_collision e = true -> forallb nucleon initial = true) /\ NoDup (map p_id initial).
Lemma start_inv h0 ps e : h_full h0 = true -> ordinary h0 e ps ->
  exists h, at_eventstart h0 ps e = Ok h /\ Inv ps h /\ causal h /\ h_verts h = [ip] /\
    (is_collision e = true -> beam_ends h /\ entering 0 h = [beam Projectile ps; beam Target ps] /\ map content (leaving 0 h) = map seen ps) /\
    (is_collision e = false -> map content (entering 0 h) = map seen ps /\ leaving 0 h = []).
Proof.
  intros F (N & _ & C & D). rewrite (start_spec h0 ps e N C). eexists. split; [reflexivity|]. cbn zeta. rewrite F. cbn [negb andb].
  set (h1 := Hep true [] [ip] []). set (c := is_collision e) in *.
  assert (I0 : Inv [] h1).
  { unfold Inv, h1. cbn. splits; auto; try (intros; contradiction); try (intros; discriminate).
    - constructor.
    - intros [|i] g; discriminate. }
  assert (I1 : Inv ps (fold_left (place_initial c) ps h1)) by (apply (place_all_inv c ps [] h1); [cbn; lia|exact I0|exact D]).
  destruct (place_all c ps h1) as (m & E). cbn in E. rewrite E in I1 |- *. cbn [h_gens h_map h_verts].
  assert (FA : forall (P : gen -> bool) po eo b, (forall p, P (record po eo p) = b) ->
    filter P (map (record po eo) ps) = if b then map (record po eo) ps else []).
  { intros P po eo b H. clear -H. induction ps as [|p r IH]; cbn; [now destruct b|]. rewrite H, IH. now destruct b. }
  destruct c.
  - splits.
    + destruct I1 as (A0 & A1 & A2 & A3 & A4 & A5 & A6). cbn [h_full h_gens h_verts h_map] in *. unfold Inv. cbn [h_full h_gens h_verts h_map]. splits; auto.
      * intros p P. destruct (A2 p P) as (i & g & X1 & X2 & X3). exists i, g. split; [exact X1|]. split; [|exact X3].
        rewrite nth_error_app1; [exact X2|]. apply nth_error_Some. now rewrite X2.
      * intros i g G S. destruct (Nat.lt_ge_cases i (length (map (record (Some 0%nat) None) ps))) as [L|L].
        -- rewrite nth_error_app1 in G by exact L. now apply (A4 i g).
        -- rewrite nth_error_app2 in G by exact L. apply nth_error_In in G. destruct G as [<-|[<-|[]]]; discriminate.
      * intros k i K. rewrite app_length. specialize (A5 k i K). lia.
      * intros g v G K. apply in_app_or in G as [G|[<-|[<-|[]]]]; [now apply (A6 g)| |]; cbn in K; destruct K as [K|K]; try discriminate; injection K as <-; cbn; lia.
    + intros g v w G P Q. cbn in G. apply in_app_or in G as [G|[<-|[<-|[]]]]; [|discriminate|discriminate].
      apply in_map_iff in G as (p & <- & _). discriminate.
    + reflexivity.
    + intros _. splits.
      * intros g G K. cbn in G. apply in_app_or in G as [G|[<-|[<-|[]]]]; [|reflexivity|reflexivity].
        apply in_map_iff in G as (p & <- & _). discriminate.
      * unfold entering. cbn [h_gens]. rewrite filter_app, (FA _ _ _ false) by reflexivity. reflexivity.
      * unfold leaving. cbn [h_gens]. rewrite filter_app, (FA _ _ _ true) by reflexivity. cbn. rewrite app_nil_r, map_map. reflexivity.
    + discriminate.
  - splits.
    + exact I1.
    + intros g v w G P Q. cbn in G. apply in_map_iff in G as (p & <- & _). discriminate.
    + reflexivity.
    + discriminate.
    + intros _. unfold entering, leaving. cbn [h_gens]. rewrite (FA _ _ _ true), (FA _ _ _ false) by reflexivity. rewrite map_map. split; reflexivity.
Qed.

(** histories *)
Lemma history_app l r : forall live, history live (l ++ r) <-> history live l /\ history (fold_left after l live) r.
Proof. induction l as [|a l IH]; intros live; cbn; [tauto|]. rewrite IH. tauto. Qed.
Lemma run_inv hist : forall live h, (0 < length (h_verts h))%nat -> Inv live h -> causal h -> history live hist ->
  let h' := fold_left at_interaction hist h in
  Inv (fold_left after hist live) h' /\ causal h' /\
  h_verts h' = h_verts h ++ map (fun a => Vtx (a_point a) (Some (a_weight a, a_partial a))) hist /\
  (forall w, (0 < w < length (h_verts h))%nat -> entering w h' = entering w h) /\
  (forall w, (w < length (h_verts h))%nat -> map content (leaving w h') = map content (leaving w h)) /\
  (beam_ends h -> entering 0 h' = entering 0 h).
Proof.
  induction hist as [|a r IH]; intros live h V I K H; cbn [fold_left map]; cbn zeta.
  - rewrite app_nil_r. splits; auto.
  - destruct H as (P & H). destruct (interaction_step live h a V I K P) as (A1 & A2 & A3 & A4 & A5 & A6 & A7 & A8 & A9).
    assert (L : length (h_verts (at_interaction h a)) = S (length (h_verts h))) by (rewrite A3, app_length; cbn; lia).
    destruct (IH (after live a) (at_interaction h a)) as (B1 & B2 & B3 & B4 & B5 & B6); auto; [rewrite L; lia|].
    splits; auto.
    + rewrite B3, A3, <- app_assoc. reflexivity.
    + intros w W. rewrite B4 by (rewrite L; lia). now apply A7.
    + intros w W. rewrite B5 by (rewrite L; lia). now apply A8.
    + intros X. destruct (A9 X) as (Y1 & Y2). rewrite B6 by exact Y2. exact Y1.
Qed.
Lemma end_full ps : forall h, h_full h = true -> foldM end_particle h ps =
  if forallb (fun p => match find_id (p_id p) (h_map h) with Some _ => true | None => false end) ps then Ok h else Throw E_runtime.
Proof.
  induction ps as [|p r IH]; intros h F; cbn [foldM forallb]; [reflexivity|]. unfold end_particle, rbind. rewrite F. cbn [negb].
  destruct (find_id (p_id p) (h_map h)); [|reflexivity]. cbn [andb]. now apply IH.
Qed.
Lemma record_full h0 e initial hist final : h_full h0 = true -> ordinary h0 e initial -> history initial hist ->
  incl (map p_id final) (map p_id (fold_left after hist initial)) ->
  exists hs h, at_eventstart h0 initial e = Ok hs /\ h = fold_left at_interaction hist hs /\ record_event h0 e initial hist final = Ok h /\
   Inv (fold_left after hist initial) h.
Proof.
  intros F O H L. destruct (start_inv h0 initial e F O) as (hs & E & I & K & V & _).
  destruct (run_inv hist initial hs) as (I' & _); auto; [rewrite V; cbn; lia|].
  exists hs, (fold_left at_interaction hist hs). splits; auto.
  unfold record_event, rbind. rewrite E. unfold at_eventend. destruct O as (O1 & O2 & _). rewrite O1, O2. cbn [negb Z.eqb Pos.eqb].
  rewrite end_full by apply I'. replace (forallb _ final) with true; [reflexivity|]. symmetry. apply forallb_forall. intros p P.
  assert (Q : In (p_id p) (map p_id (fold_left after hist initial))) by (apply L; now apply in_map).
  apply in_map_iff in Q as (q & Q1 & Q2). destruct I' as (_ & _ & B & _). destruct (B q Q2) as (i & g & X & _). rewrite Q1 in X. now rewrite X.
Qed.

(** With the full history, whatever happens in the event, writing it succeeds and the particles marked final are exactly the particles
    that exist at the end, with the code and momentum they were last reported with. *)
Theorem final_particles_of_history h0 e initial hist final : h_full h0 = true -> ordinary h0 e initial -> history initial hist ->
  incl (map p_id final) (map p_id (fold_left after hist initial)) ->
  exists h, record_event h0 e initial hist final = Ok h /\
    Permutation (map content (with_status st_final h)) (map seen (fold_left after hist initial)).
Proof.
  intros F O H L. destruct (record_full h0 e initial hist final F O H L) as (hs & h & _ & _ & E & I). exists h. split; [exact E|]. now apply inv_final.
Qed.
Print Assumptions final_particles_of_history.

(** Every interaction has its own vertex, in the order of the history, with position and weights; what leaves it are the outgoing
    particles; what enters it are the particles with the identifiers of the incoming ones as last reported, and their status tells the
    process. *)
Theorem vertex_of_each_interaction h0 e initial pre a post final : h_full h0 = true -> ordinary h0 e initial ->
  history initial (pre ++ a :: post) -> incl (map p_id final) (map p_id (fold_left after (pre ++ a :: post) initial)) ->
  exists h, record_event h0 e initial (pre ++ a :: post) final = Ok h /\ length (h_verts h) = S (length (pre ++ a :: post)) /\
    let v := S (length pre) in
    nth_error (h_verts h) v = Some (Vtx (a_point a) (Some (a_weight a, a_partial a))) /\
    map content (leaving v h) = map seen (a_out a) /\
    (exists qs, Forall2 (fun p q => In q (fold_left after pre initial) /\ p_id q = p_id p) (a_in a) qs /\
       Permutation (map content (entering v h)) (map seen qs)) /\
    (forall g, In g (entering v h) -> g_status g = if a_type a =? 5 then 2 else 100 + a_type a).
Proof.
  intros F O H L. destruct (record_full h0 e initial _ final F O H L) as (hs & h & E0 & Eh & E & _). exists h. split; [exact E|].
  destruct (start_inv h0 initial e F O) as (hs' & E1 & I & K & V & _). rewrite E0 in E1. injection E1 as <-.
  rewrite fold_left_app in Eh. cbn [fold_left] in Eh. apply history_app in H as (H1 & H2 & H3).
  assert (V0 : (0 < length (h_verts hs))%nat) by (rewrite V; cbn; lia).
  destruct (run_inv pre initial hs V0 I K H1) as (I1 & K1 & V1 & _).
  set (h1 := fold_left at_interaction pre hs) in *.
  assert (L1 : length (h_verts h1) = S (length pre)) by (rewrite V1, V, app_length, map_length; reflexivity).
  destruct (interaction_step (fold_left after pre initial) h1 a) as (A1 & A2 & A3 & A4 & A5 & A6 & _); auto; [lia|].
  rewrite L1 in A4, A5, A6.
  assert (L2 : length (h_verts (at_interaction h1 a)) = S (S (length pre))) by (rewrite A3, app_length, L1; cbn; lia).
  destruct (run_inv post (after (fold_left after pre initial) a) (at_interaction h1 a)) as (B1 & B2 & B3 & B4 & B5 & _); auto; [lia|].
  rewrite <- Eh in *. cbn zeta. splits.
  - rewrite B3, app_length, map_length, L2, app_length. cbn. lia.
  - rewrite B3, nth_error_app1 by lia. rewrite A3, nth_error_app2 by lia. rewrite L1, Nat.sub_diag. reflexivity.
  - rewrite B5 by lia. exact A6.
  - rewrite B4 by lia. exact A4.
  - rewrite B4 by lia. intros g G. rewrite (A5 g G). unfold get_status, t_decay, st_decay, st_off. destruct (a_type a =? 5); lia.
Qed.
Print Assumptions vertex_of_each_interaction.

(** No particle of a full record ends at or before the vertex it comes from: the record has no cycles. *)
Theorem record_is_causal h0 e initial hist final h : h_full h0 = true -> ordinary h0 e initial -> history initial hist ->
  incl (map p_id final) (map p_id (fold_left after hist initial)) -> record_event h0 e initial hist final = Ok h ->
  forall g v w, In g (h_gens h) -> g_prod g = Some v -> g_end g = Some w -> (v < w < length (h_verts h))%nat.
Proof.
  intros F O H L R g v w G P Q. destruct (record_full h0 e initial _ final F O H L) as (hs & h' & E0 & Eh & E & I).
  rewrite E in R. injection R as <-. destruct (start_inv h0 initial e F O) as (hs' & E1 & I1 & K & V & _). rewrite E0 in E1. injection E1 as <-.
  destruct (run_inv hist initial hs) as (_ & K' & _); auto; [rewrite V; cbn; lia|]. rewrite <- Eh in K'. split; [now apply (K' g)|].
  apply I with (g := g); auto.
Qed.
Print Assumptions record_is_causal.

(** In a collision the interaction point joins the two nuclei, with their total momenta and their codes, to what came of them: their
    nucleons in the full record. *)
Theorem nuclei_at_interaction_point h0 e initial hist final : h_full h0 = true -> ordinary h0 e initial -> is_collision e = true ->
  history initial hist -> incl (map p_id final) (map p_id (fold_left after hist initial)) ->
  exists h, record_event h0 e initial hist final = Ok h /\ entering 0 h = [beam Projectile initial; beam Target initial] /\
    map content (leaving 0 h) = map seen initial.
Proof.
  intros F O C H L. destruct (record_full h0 e initial _ final F O H L) as (hs & h & E0 & Eh & E & _). exists h. split; [exact E|].
  destruct (start_inv h0 initial e F O) as (hs' & E1 & I1 & K & V & D & _). rewrite E0 in E1. injection E1 as <-.
  destruct (D C) as (D1 & D2 & D3). destruct (run_inv hist initial hs) as (_ & _ & _ & _ & A & B); auto; [rewrite V; cbn; lia|].
  rewrite <- Eh in A, B. split; [now rewrite B|]. rewrite A by (rewrite V; cbn; lia). exact D3.
Qed.
Print Assumptions nuclei_at_interaction_point.
