(** C12 (and C63): the particle-type list and the isospin multiplets. *)
From Coq Require Import String.
From Coq Require Import ZArith List Bool Lia Sorting.Permutation Sorting.Sorted.
From Verif Require Import Base PdgModel PdgProofs PdgMore PdgStrings Search TypesModel TypesProofs.
Import ListNotations.
Open Scope Z_scope.

(** Spec: the codes a file declares -- every listed code, and the antiparticle of each
    one that has an antiparticle -- in file order. *)
Definition codes_of_word (w : pdg) : list pdg :=
  if has_antiparticle w then [w; get_antiparticle w] else [w].
Definition declared (ls : list line) : res (list pdg) :=
  ws <- mapM set_from_string (concat (map l_codes ls)) ;; Ok (concat (map codes_of_word ws)).

Lemma set_from_string_word s w : set_from_string s = Ok w -> 0 <= w < 2 ^ 32.
Proof. intros H. apply (proj1 (shape_word w (shape_string s w H))). Qed.
Lemma anti_word w : 0 <= w < 2 ^ 32 -> 0 <= get_antiparticle w < 2 ^ 32.
Proof. intros H. apply (proj1 (anti_fields w H)). Qed.
Lemma has_anti_anti w : 0 <= w < 2 ^ 32 -> has_antiparticle (get_antiparticle w) = has_antiparticle w.
Proof.
  intros H. destruct (anti_fields w H) as (_ & EJ & E3 & E2 & E1 & _ & _ & _ & _ & En & _).
  unfold has_antiparticle. rewrite baryon_number_anti by exact H. unfold is_hadron, is_nucleus. rewrite E3, E2, En.
  destruct (nucleus_bit w =? 1); auto. destruct (_ && _); auto. f_equal. f_equal.
  destruct (Z.eqb_spec (- baryon_number w) 0); destruct (Z.eqb_spec (baryon_number w) 0); auto; lia.
Qed.

Lemma mapM_app A B (f : A -> res B) l1 l2 r1 r2 : mapM f l1 = Ok r1 -> mapM f l2 = Ok r2 -> mapM f (l1 ++ l2) = Ok (r1 ++ r2).
Proof.
  revert r1; induction l1 as [|a l IH]; intros r1 H1 H2; cbn in *.
  - injection H1 as <-. auto.
  - destruct (f a); cbn [rbind] in *; try discriminate. destruct (mapM f l) eqn:E; cbn [rbind] in *; try discriminate.
    injection H1 as <-. now rewrite (IH _ eq_refl H2).
Qed.

Lemma states_of_codes l par many w ts : states_of l par many w = Ok ts -> map t_code ts = codes_of_word w.
Proof.
  unfold states_of, codes_of_word. destruct (if many then _ else _); cbn [rbind]; try discriminate.
  destruct (has_antiparticle w).
  - destruct (spin _); cbn [rbind]; try discriminate. now intros [= <-].
  - now intros [= <-].
Qed.
Lemma states_list_codes l par many ws tss : mapM (states_of l par many) ws = Ok tss ->
  map t_code (List.concat tss) = List.concat (map codes_of_word ws).
Proof.
  revert tss; induction ws as [|w ws IH]; intros tss H; cbn in H.
  - injection H as <-. reflexivity.
  - destruct (states_of l par many w) eqn:E; cbn [rbind] in H; try discriminate.
    destruct (mapM (states_of l par many) ws) eqn:E2; cbn [rbind] in H; try discriminate. injection H as <-.
    cbn. rewrite map_app, (states_of_codes _ _ _ _ _ E), (IH _ eq_refl). reflexivity.
Qed.
Lemma load_line_codes ok l ts : load_line ok l = Ok ts ->
  exists ws, mapM set_from_string (l_codes l) = Ok ws /\ map t_code ts = List.concat (map codes_of_word ws).
Proof.
  unfold load_line. destruct (l_parity l) as [par|]; [|discriminate]. destruct (l_codes l) eqn:E; [discriminate|]. rewrite <- E.
  destruct (mapM set_from_string (l_codes l)) as [ws| |]; cbn [rbind]; try discriminate.
  destruct (negb _); [discriminate|].
  destruct (mapM (states_of l par (Nat.ltb 1 (length ws))) ws) as [tss| |] eqn:E2; cbn [rbind]; try discriminate.
  intros [= <-]. exists ws. split; auto. eapply states_list_codes; eauto.
Qed.
Lemma load_lines_codes ok ls ts : load_lines ok ls = Ok ts -> declared ls = Ok (map t_code ts).
Proof.
  unfold load_lines. destruct (mapM (load_line ok) ls) as [tss| |] eqn:E; cbn [rbind]; try discriminate. intros [= <-].
  unfold declared.
  enough (G : exists ws, mapM set_from_string (List.concat (map l_codes ls)) = Ok ws /\ map t_code (List.concat tss) = List.concat (map codes_of_word ws)).
  { destruct G as (ws & -> & ->). reflexivity. }
  revert tss E; induction ls as [|l ls IH]; intros tss E; cbn in E.
  - injection E as <-. exists []. auto.
  - destruct (load_line ok l) eqn:El; cbn [rbind] in E; try discriminate.
    destruct (mapM (load_line ok) ls) eqn:E2; cbn [rbind] in E; try discriminate. injection E as <-.
    destruct (load_line_codes _ _ _ El) as (w1 & A1 & B1). destruct (IH _ eq_refl) as (w2 & A2 & B2).
    exists (w1 ++ w2). cbn. split.
    + now apply mapM_app.
    + rewrite map_app, B1, B2, map_app, concat_app. reflexivity.
Qed.
Lemma declared_nonneg ls cs : declared ls = Ok cs -> Forall (fun c => 0 <= c < 2 ^ 32) cs.
Proof.
  unfold declared. destruct (mapM _ _) as [ws| |] eqn:E; cbn [rbind]; try discriminate. intros [= <-].
  apply Forall_forall. intros c I. apply in_concat in I. destruct I as (x & I & Ic). apply in_map_iff in I. destruct I as (w & <- & Iw).
  rewrite (mapM_In _ _ _ _ _ E) in Iw. destruct Iw as (s & _ & Es). apply set_from_string_word in Es.
  unfold codes_of_word in Ic. destruct (has_antiparticle w); cbn in Ic.
  - destruct Ic as [<-|[<-|[]]]; auto. now apply anti_word.
  - destruct Ic as [<-|[]]; auto.
Qed.

(** Result of a first load, in terms of what was read. *)
Lemma create_cases ok ls ts : load_lines ok ls = Ok ts ->
  (NoDup (0 :: map t_code ts) /\
    exists l, create_type_list ok no_globals ls = (Globals true l, Ok tt) /\ Permutation l ts /\ StronglySorted code_lt l) \/
  (~ NoDup (0 :: map t_code ts) /\ snd (create_type_list ok no_globals ls) = Throw E_load_failure).
Proof.
  intros L. unfold create_type_list. rewrite L. cbn [g_built].
  pose proof (sort_types_sorted ts) as S. pose proof (sort_types_perm ts) as P.
  assert (F : Forall (fun t => 0 <= t_code t) (sort_types ts)).
  { eapply Permutation_Forall; [symmetry; exact P|]. pose proof (declared_nonneg _ _ (load_lines_codes _ _ _ L)) as D.
    rewrite Forall_map in D. eapply Forall_impl; [|exact D]. cbn. intros; lia. }
  assert (PN : forall A, NoDup (0 :: map t_code (sort_types ts)) -> A \/ NoDup (0 :: map t_code ts)).
  { intros A N. right. eapply Permutation_NoDup; [|exact N]. constructor. now apply Permutation_map. }
  destruct (check_duplicates_fail 0 (sort_types ts) S F) as [A|[A B]].
  - left. destruct (check_duplicates_ok _ _ S F A) as (SS & FF). rewrite A.
    destruct (PN False) as [[]|N]; [|split; [exact N|exists (sort_types ts); auto]].
    constructor.
    + rewrite in_map_iff. intros (t & E & I). rewrite Forall_forall in FF. specialize (FF t I). cbn in FF. lia.
    + now apply strict_nodup.
  - right. rewrite A. split; auto. intros N. apply B. eapply Permutation_NoDup; [|exact N].
    constructor. symmetry. now apply Permutation_map.
Qed.

(** C12.  After a successful load of any particle file, with at most 65535 types, find
    returns a type of the list with exactly the requested code iff that code was
    declared (directly or as an antiparticle), and throws PdgNotFound iff it was not. *)
Theorem find_finds_exactly_declared ok ls g cs c :
  create_type_list ok no_globals ls = (g, Ok tt) -> declared ls = Ok cs -> Z.of_nat (List.length cs) <= 65535 ->
  (In c cs -> exists t, find g c = Ok t /\ t_code t = c /\ In t (g_types g) /\ exists_code g c = Ok true /\
                        forall t', In t' (g_types g) -> t_code t' = c -> t' = t) /\
  (~ In c cs -> find g c = Throw E_pdg_not_found /\ exists_code g c = Ok false).
Proof.
  intros C D L.
  destruct (load_lines ok ls) as [ts|e|u] eqn:E; [|unfold create_type_list in C; rewrite E in C; discriminate..].
  rewrite (load_lines_codes _ _ _ E) in D. injection D as <-. rewrite map_length in L.
  destruct (create_cases ok ls ts E) as [(N & l & C' & P & S)|(N & C')]; [|rewrite C in C'; discriminate].
  rewrite C' in C. injection C as <-. cbn [g_types].
  assert (IN : forall x, In x (map t_code ts) <-> In x (map t_code l)).
  { intros x. split; apply Permutation_in; apply Permutation_map; auto. now symmetry. }
  rewrite (IN c). rewrite in_map_iff.
  destruct (find_sorted l c S) as [(t & I & Et & F & X)|(Nf & F & X)].
  { rewrite (Permutation_length P). exact L. }
  - split.
    + intros _. exists t. splits; auto. intros t' I' E'.
      pose proof (strict_nodup l S) as ND. clear - ND I I' Et E'.
      induction l as [|h r IH]; cbn in *; [tauto|]. inversion ND; subst.
      destruct I as [->|I], I' as [->|I']; auto.
      * exfalso. apply H1. rewrite <- E'. now apply in_map.
      * exfalso. apply H1. rewrite E'. now apply in_map.
    + intros H. exfalso. apply H. eauto.
  - split; auto. intros (t & Et & I). exfalso. eapply Nf; eauto.
Qed.
Print Assumptions find_finds_exactly_declared.

(** C12.  A file that declares the same code twice (also when one of the two is the
    antiparticle of a listed code) is rejected with LoadFailure. *)
Theorem duplicate_codes_rejected ok ls cs : declared ls = Ok cs -> ~ NoDup cs ->
  snd (create_type_list ok no_globals ls) <> Ok tt /\
  (forall ts, load_lines ok ls = Ok ts -> snd (create_type_list ok no_globals ls) = Throw E_load_failure).
Proof.
  intros D N.
  assert (H : forall ts, load_lines ok ls = Ok ts -> snd (create_type_list ok no_globals ls) = Throw E_load_failure).
  { intros ts E. rewrite (load_lines_codes _ _ _ E) in D. injection D as <-.
    destruct (create_cases ok ls ts E) as [(ND & _)|(_ & C)]; auto. inversion ND; subst. tauto. }
  split; auto.
  destruct (load_lines ok ls) as [ts|e|u] eqn:E.
  - rewrite (H ts eq_refl). discriminate.
  - unfold create_type_list. rewrite E. discriminate.
  - unfold create_type_list. rewrite E. discriminate.
Qed.
Print Assumptions duplicate_codes_rejected.

(** ... and a readable file without duplicates (and without the code 0) is accepted. *)
Theorem distinct_codes_accepted ok ls ts : load_lines ok ls = Ok ts ->
  NoDup (map t_code ts) -> ~ In 0 (map t_code ts) ->
  exists l, create_type_list ok no_globals ls = (Globals true l, Ok tt) /\ Permutation l ts.
Proof.
  intros E N Z. destruct (create_cases ok ls ts E) as [(_ & l & C & P & _)|(A & _)]; eauto.
  exfalso. apply A. constructor; auto.
Qed.
Print Assumptions distinct_codes_accepted.

(** The loaded list is closed under antiparticles: same mass and width. *)
Definition file : list line :=
  [Line (str "N") 938 0 (Some true) [str "2212"; str "2112"]; Line (str "eta") 548 0 (Some false) [str "221"]].
Theorem antiparticle_is_listed ok ls g cs c : create_type_list ok no_globals ls = (g, Ok tt) ->
  declared ls = Ok cs -> Z.of_nat (List.length cs) <= 65535 ->
  In c cs -> has_antiparticle c = true ->
  exists t ta, find g c = Ok t /\ find g (get_antiparticle c) = Ok ta /\ t_mass ta = t_mass t /\ t_width ta = t_width t.
Proof.
  intros C D L I A.
  assert (W := declared_nonneg _ _ D). rewrite Forall_forall in W. specialize (W c I).
  destruct (find_finds_exactly_declared ok ls g cs c C D L) as [F _]. destruct (F I) as (t & Ft & Et & It & _ & _).
  assert (PA : exists ta, In ta (g_types g) /\ t_code ta = get_antiparticle c /\ t_mass ta = t_mass t /\ t_width ta = t_width t).
  { destruct (load_lines ok ls) as [ts|e|u] eqn:E; [|unfold create_type_list in C; rewrite E in C; discriminate..].
    destruct (create_cases ok ls ts E) as [(N & l & C' & P & S)|(N & C')]; [|rewrite C in C'; discriminate].
    rewrite C' in C. injection C as <-. cbn [g_types] in *.
    assert (Its : In t ts) by (eapply Permutation_in; eauto).
    enough (exists ta, In ta ts /\ t_code ta = get_antiparticle c /\ t_mass ta = t_mass t /\ t_width ta = t_width t) as (ta & Ia & X).
    { exists ta. split; auto. eapply Permutation_in; [symmetry; exact P|auto]. }
    clear - E Its Et A W. unfold load_lines in E. destruct (mapM (load_line ok) ls) as [tss| |] eqn:M; cbn [rbind] in E; try discriminate.
    injection E as <-. apply in_concat in Its. destruct Its as (tl & Itl & It).
    assert (Itl' := Itl). rewrite (mapM_In _ _ _ _ _ M) in Itl'. destruct Itl' as (l & _ & Ll).
    unfold load_line in Ll. destruct (l_parity l) as [par|]; [|discriminate]. destruct (l_codes l) eqn:El; [discriminate|]. rewrite <- El in Ll.
    destruct (mapM set_from_string (l_codes l)) as [ws| |] eqn:Mw; cbn [rbind] in Ll; try discriminate.
    destruct (negb _); [discriminate|].
    destruct (mapM (states_of l par _) ws) as [sss| |] eqn:Ms; cbn [rbind] in Ll; try discriminate. injection Ll as <-.
    apply in_concat in It. destruct It as (sl & Isl & It). assert (Isl' := Isl). rewrite (mapM_In _ _ _ _ _ Ms) in Isl'. destruct Isl' as (w & Iw & Sw).
    rewrite (mapM_In _ _ _ _ _ Mw) in Iw. destruct Iw as (s' & _ & Es'). apply set_from_string_word in Es'.
    assert (Q : exists ta, In ta sl /\ t_code ta = get_antiparticle c /\ t_mass ta = t_mass t /\ t_width ta = t_width t).
    { unfold states_of in Sw. match type of Sw with rbind ?x _ = _ => destruct x as [ch| |] end; cbn [rbind] in Sw; try discriminate.
      destruct (has_antiparticle w) eqn:HA.
      - destruct (spin _) as [j| |]; cbn [rbind] in Sw; try discriminate. injection Sw as <-. cbn in It. destruct It as [<-|[<-|[]]]; cbn in Et; subst c.
        + eexists; split; [right; left; reflexivity|]. cbn. auto.
        + eexists; split; [left; reflexivity|]. cbn. rewrite antiparticle_involutive; auto.
      - injection Sw as <-. cbn in It. destruct It as [<-|[]]. cbn in Et. congruence. }
    destruct Q as (ta & Ia & X). exists ta. split; auto. apply in_concat. exists (List.concat sss). split; auto. apply in_concat. eauto. }
  destruct PA as (ta & Ia & Ea & Em & Ew).
  assert (Ica : In (get_antiparticle c) cs).
  { destruct (In_dec Z.eq_dec (get_antiparticle c) cs) as [|NI]; auto. exfalso.
    destruct (find_finds_exactly_declared ok ls g cs (get_antiparticle c) C D L) as [_ F2]. destruct (F2 NI) as [_ X].
    destruct (load_lines ok ls) as [ts|e|u] eqn:E; [|unfold create_type_list in C; rewrite E in C; discriminate..].
    destruct (create_cases ok ls ts E) as [(N & l & C' & P & S)|(N & C')]; [|rewrite C in C'; discriminate].
    rewrite C' in C. injection C as <-. cbn [g_types] in *. apply NI. rewrite (load_lines_codes _ _ _ E) in D. injection D as <-.
    rewrite <- Ea. apply in_map. eapply Permutation_in; eauto. }
  destruct (find_finds_exactly_declared ok ls g cs (get_antiparticle c) C D L) as [F2 _]. destruct (F2 Ica) as (ta' & Fa & _ & _ & _ & U).
  exists t, ta'. rewrite <- (U ta Ia Ea). splits; auto. rewrite (U ta Ia Ea). auto.
Qed.
Print Assumptions antiparticle_is_listed.

(** The hypotheses are met: a small file with a doublet and a neutral meson. *)
Example find_example :
  let g := fst (create_type_list (fun _ _ => true) no_globals file) in
  snd (create_type_list (fun _ _ => true) no_globals file) = Ok tt /\
  declared file = Ok [0x2212; 0x80002212; 0x2112; 0x80002112; 0x221] /\
  (exists t, find g 0x80002112 = Ok t /\ t_code t = 0x80002112) /\ find g 0x333 = Throw E_pdg_not_found /\
  snd (create_type_list (fun _ _ => true) no_globals (file ++ [Line (str "p") 938 0 (Some true) [str "-2212"]])) = Throw E_load_failure.
Proof.
  cbv zeta. splits; try (vm_compute; reflexivity). eexists. split; vm_compute; reflexivity.
Qed.

(** Finding: loading a second time is reported as an error, but the list that was in use
    has been replaced by then (particletype.cc:205, 329): lookups now answer from the
    rejected file. *)
Theorem failed_reload_replaces_list_refuted : exists ls1 ls2 g1 g2,
  create_type_list (fun _ _ => true) no_globals ls1 = (g1, Ok tt) /\
  create_type_list (fun _ _ => true) g1 ls2 = (g2, Throw E_runtime) /\
  (exists t, find g1 0x2212 = Ok t) /\ find g2 0x2212 = Throw E_pdg_not_found.
Proof.
  exists file, [Line (str "eta") 548 0 (Some false) [str "221"]].
  eexists; eexists. split; [vm_compute; reflexivity|]. split; [vm_compute; reflexivity|].
  split; [eexists|]; vm_compute; reflexivity.
Qed.
Print Assumptions failed_reload_replaces_list_refuted.

(** C63.  The isospin multiplets partition the types: for any list of types the
    construction succeeds, multiplet names are unique, every multiplet is non-empty and
    contains exactly the types whose name without charge is its name, in list order;
    and looking up the multiplet of a type gives the one that contains it. *)
Theorem multiplets_partition_types ts : exists ms, create_multiplets ts = Ok ms /\
  NoDup (map m_name ms) /\
  (forall m, In m ms -> m_states m <> [] /\ forall t, In t (m_states m) <-> In t ts /\ multiplet_name (t_name t) = m_name m) /\
  (forall t, In t ts -> exists m, iso_multiplet ms t = Some m /\ In m ms /\ m_name m = multiplet_name (t_name t) /\ In t (m_states m)).
Proof.
  destruct (create_multiplets_inv ts) as (ms & E & S & M & T). exists ms. splits; auto.
  - now apply strict_names_nodup.
  - intros m I. destruct (M m I) as [Es Ne]. split; auto. intros t. rewrite Es, filter_In. unfold of_mult.
    destruct (str_eq_spec (multiplet_name (t_name t)) (m_name m)); intuition congruence.
  - intros t I. specialize (T t I). unfold iso_multiplet. pose proof (iso_find_sorted ms (multiplet_name (t_name t)) S) as F.
    destruct (iso_find ms _) as [i|]; [|tauto]. destruct F as (m & Em & En). exists m. rewrite Em.
    assert (Im : In m ms) by (eapply nth_error_In; eauto). splits; auto.
    destruct (M m Im) as [-> _]. rewrite filter_In. split; auto. unfold of_mult. rewrite En.
    now destruct (str_eq_spec (multiplet_name (t_name t)) (multiplet_name (t_name t))).
Qed.
Print Assumptions multiplets_partition_types.
Example multiplets_example : exists ms, create_multiplets (g_types (fst (create_type_list (fun _ _ => true) no_globals file))) = Ok ms
  /\ map (fun m => map t_code (m_states m)) ms = [[0x2112; 0x2212]; [0x80002112; 0x80002212]; [0x221]].
Proof. eexists. split; vm_compute; reflexivity. Qed.
