(** What one event adds up to in the record, for every history of interactions. *)
From Coq Require Import ZArith Reals List Bool Permutation Lia.
From Verif Require Import Base VecModel HepmcModel HepmcBase.
Import ListNotations.
Open Scope Z_scope.

(** ** Specification: which particles exist *)
(** An action uses up the particles it lists as incoming and leaves its outgoing ones; identifiers of what is used up may be used again *)
Definition uses (a : action) (p : pdata) : bool := existsb (fun q => p_id q =? p_id p) (a_in a).
Definition after (live : list pdata) (a : action) : list pdata := filter (fun p => negb (uses a p)) live ++ a_out a.
(** It is possible if it uses existing particles, each once, and the identifiers of what results are distinct *)
Definition possible (live : list pdata) (a : action) : Prop :=
  0 <= a_type a /\ incl (map p_id (a_in a)) (map p_id live) /\ NoDup (map p_id (a_in a)) /\ NoDup (map p_id (after live a)).
Fixpoint history (live : list pdata) (hist : list action) : Prop :=
  match hist with [] => True | a :: r => possible live a /\ history (after live a) r end.

Lemma uses_without live l : fold_left (fun s p => without (p_id p) s) l live = filter (fun p => negb (existsb (fun q => p_id q =? p_id p) l)) live.
Proof.
  revert live; induction l as [|q r IH]; intros live; cbn [fold_left existsb].
  - induction live as [|x s IHs]; cbn; [reflexivity|]. f_equal. exact IHs.
  - rewrite IH. unfold without. induction live as [|x s IHs]; cbn; [reflexivity|]. rewrite (Z.eqb_sym (p_id q)).
    destruct (p_id x =? p_id q); cbn; [exact IHs|]. destruct (existsb _ r); cbn; [exact IHs|]. now rewrite IHs.
Qed.

Lemma weaken2 {A B} (P Q : A -> B -> Prop) l m : (forall a b, P a b -> Q a b) -> Forall2 P l m -> Forall2 Q l m.
Proof. intros H. induction 1; constructor; auto. Qed.

Definition beam_ends (h : hep) : Prop := forall g, In g (h_gens h) -> g_end g = Some 0%nat -> g_status g = st_beam.
Definition causal (h : hep) : Prop := forall g v w, In g (h_gens h) -> g_prod g = Some v -> g_end g = Some w -> (v < w)%nat.

Lemma not_at_fresh g v : fresh_end g -> (0 < v)%nat -> at_vertex (g_end g) v = false.
Proof. intros [-> | ->] L; cbn; [reflexivity|]. destruct v; [lia|reflexivity]. Qed.

(** one particle used up *)
Lemma consume_step v s live h p : (0 < v < length (h_verts h))%nat -> s <> st_final -> Inv live h -> In (p_id p) (map p_id live) ->
  exists q, In q live /\ p_id q = p_id p /\ Permutation (map content (entering v (consume v s h p))) (seen q :: map content (entering v h)) /\
    (forall g, In g (entering v (consume v s h p)) -> g_status g = s \/ In g (entering v h)) /\
    (forall w, (0 < w)%nat -> w <> v -> entering w (consume v s h p) = entering w h) /\
    (beam_ends h -> entering 0 (consume v s h p) = entering 0 h /\ beam_ends (consume v s h p)) /\
    (forall w, map content (leaving w (consume v s h p)) = map content (leaving w h)) /\
    (causal h -> (forall g, In g (h_gens h) -> forall w, g_prod g = Some w -> (w < v)%nat) -> causal (consume v s h p)) /\
    ((forall g, In g (h_gens h) -> forall w, g_prod g = Some w -> (w < v)%nat) ->
     (forall g, In g (h_gens (consume v s h p)) -> forall w, g_prod g = Some w -> (w < v)%nat)).
Proof.
  intros V S (F & N & B & C & D & M & W) X. apply in_map_iff in X as (q & E0 & Q0).
  destruct (B q Q0) as (i & g & A1 & A2 & A3 & A4 & A5). rewrite E0 in A1.
  exists q. rewrite (consume_eq v s h p i A1). unfold entering, leaving, beam_ends, causal. cbn [h_gens].
  splits; auto.
  - etransitivity; [apply Permutation_map, (filter_change_new _ i _ _ g A2)|].
    + apply not_at_fresh; [exact A5|lia].
    + cbn. apply Nat.eqb_refl.
    + cbn [map]. unfold content at 1, used. cbn. unfold content in A4. rewrite A4. reflexivity.
  - intros g' G. eapply Permutation_in in G; [|apply (filter_change_new _ i _ _ g A2); [apply not_at_fresh; [exact A5|lia]|cbn; apply Nat.eqb_refl]].
    destruct G as [<-|G]; [now left|now right].
  - intros w W0 W1. apply (filter_change_same _ i _ _ g A2); [now apply not_at_fresh|]. cbn. apply Nat.eqb_neq. congruence.
  - intros H. split.
    + apply (filter_change_same _ i _ _ g A2).
      * destruct A5 as [A5|A5]; [now rewrite A5|]. apply H in A5; [|eapply nth_error_In; eauto]. rewrite A3 in A5. discriminate.
      * cbn. destruct v; [lia|reflexivity].
    + intros g' G. apply in_change in G as [G|(g0 & G & ->)]; [now apply H|]. cbn. intros [= ->]. lia.
  - intros w. apply filter_change_content; reflexivity.
  - intros H K g' x y G. apply in_change in G as [G|(g0 & G & ->)]; [now apply H|]. cbn. intros E [= <-]. now apply (K g0).
  - intros K g' G. apply in_change in G as [G|(g0 & G & ->)]; [now apply K|]. cbn. now apply K.
Qed.

Lemma consume_all v s l : forall live h, (0 < v < length (h_verts h))%nat -> s <> st_final -> Inv live h ->
  incl (map p_id l) (map p_id live) -> NoDup (map p_id l) ->
  let h' := fold_left (consume v s) l h in
  Inv (fold_left (fun x p => without (p_id p) x) l live) h' /\ h_verts h' = h_verts h /\
  exists qs, Forall2 (fun p q => In q live /\ p_id q = p_id p) l qs /\
    Permutation (map content (entering v h')) (map seen qs ++ map content (entering v h)) /\
    (forall g, In g (entering v h') -> g_status g = s \/ In g (entering v h)) /\
    (forall w, (0 < w)%nat -> w <> v -> entering w h' = entering w h) /\
    (beam_ends h -> entering 0 h' = entering 0 h /\ beam_ends h') /\
    (forall w, map content (leaving w h') = map content (leaving w h)) /\
    ((forall g, In g (h_gens h) -> forall w, g_prod g = Some w -> (w < v)%nat) -> causal h -> causal h' /\
     (forall g, In g (h_gens h') -> forall w, g_prod g = Some w -> (w < v)%nat)).
Proof.
  induction l as [|p r IH]; intros live h V S I L N; cbn [fold_left].
  - split; [exact I|]. split; [reflexivity|]. exists []. splits; auto.
  - cbn in L. destruct (consume_step v s live h p V S I (L _ (or_introl eq_refl))) as (q & Q1 & Q2 & Q3 & Q4 & Q5 & Q6 & Q7 & Q8 & Q9).
    inversion N as [|? ? N1 N2]; subst.
    assert (L' : incl (map p_id r) (map p_id (without (p_id p) live))).
    { intros k K. assert (K2 : In k (map p_id live)) by (apply L; now right). apply in_map_iff in K2 as (x & X1 & X2).
      apply in_map_iff. exists x. split; [exact X1|]. apply in_without. split; [exact X2|]. intros E. apply N1. rewrite <- E, X1. exact K. }
    destruct (IH (without (p_id p) live) (consume v s h p)) as (I' & E' & qs & A1 & A2 & A3 & A4 & A5 & A6 & A7); auto.
    + now rewrite consume_verts.
    + apply consume_inv; auto; [lia|]. apply L. now left.
    + split; [exact I'|]. split; [now rewrite E', consume_verts|]. exists (q :: qs). splits.
      * constructor; [auto|]. eapply weaken2; [|exact A1]. cbn. intros x y (Y1 & Y2). split; [|exact Y2]. now apply in_without in Y1.
      * etransitivity; [exact A2|]. etransitivity; [apply Permutation_app_head, Q3|]. cbn. symmetry. apply Permutation_middle.
      * intros g G. destruct (A3 g G) as [G1|G1]; [now left|]. now apply Q4.
      * intros w W0 W1. rewrite A4 by auto. now apply Q5.
      * intros H. destruct (Q6 H) as (H1 & H2). destruct (A5 H2) as (H3 & H4). split; [congruence|exact H4].
      * intros w. rewrite A6. apply Q7.
      * intros K H. apply A7; [now apply Q9|now apply Q8].
Qed.

Lemma produce_all v l : forall live h, (v < length (h_verts h))%nat -> Inv live h -> NoDup (map p_id (live ++ l)) ->
  let h' := fold_left (produce v) l h in
  Inv (live ++ l) h' /\ h_verts h' = h_verts h /\ (forall w, entering w h' = entering w h) /\
  (forall w, w <> v -> leaving w h' = leaving w h) /\ map content (leaving v h') = map content (leaving v h) ++ map seen l /\
  (beam_ends h -> beam_ends h') /\ (causal h -> causal h') /\
  (forall g, In g (leaving v h') -> In g (leaving v h) \/ g_status g = st_final).
Proof.
  induction l as [|p r IH]; intros live h V I N; cbn [fold_left].
  - rewrite app_nil_r. splits; auto. cbn. now rewrite app_nil_r.
  - assert (N0 : ~ In (p_id p) (map p_id live)).
    { rewrite map_app in N. cbn in N. apply NoDup_remove_2 in N. intros H. apply N. apply in_or_app. now left. }
    assert (E : live ++ p :: r = (live ++ [p]) ++ r) by (rewrite <- app_assoc; reflexivity).
    rewrite E in N |- *. destruct (IH (live ++ [p]) (produce v h p)) as (A1 & A2 & A3 & A4 & A5 & A6 & A7 & A8); auto.
    + now apply produce_inv.
    + assert (P1 : forall w, entering w (produce v h p) = entering w h).
      { intros w. rewrite produce_eq. unfold entering, place. cbn [h_gens]. rewrite filter_app. cbn. apply app_nil_r. }
      assert (P2 : forall w, leaving w (produce v h p) = leaving w h ++ (if Nat.eqb v w then [record (Some v) None p] else [])).
      { intros w. rewrite produce_eq. unfold leaving, place. cbn [h_gens]. rewrite filter_app. cbn. now destruct (Nat.eqb v w). }
      splits.
      * exact A1.
      * now rewrite A2, produce_verts.
      * intros w. now rewrite A3, P1.
      * intros w Hw. rewrite A4 by exact Hw. rewrite P2. destruct (Nat.eqb_spec v w); [congruence|]. apply app_nil_r.
      * rewrite A5, P2, Nat.eqb_refl, map_app, <- app_assoc. reflexivity.
      * intros H. apply A6. rewrite produce_eq. intros g G. cbn in G. apply in_app_or in G as [G|[<-|[]]]; [now apply H|discriminate].
      * intros H. apply A7. rewrite produce_eq. intros g x y G. cbn in G. apply in_app_or in G as [G|[<-|[]]]; [now apply H|discriminate].
      * intros g G. destruct (A8 g G) as [G1|G1]; [|now right]. rewrite P2, Nat.eqb_refl in G1. apply in_app_or in G1 as [G1|[<-|[]]]; [now left|now right].
Qed.

Lemma status_not_final t : 0 <= t -> get_status t <> st_final.
Proof. intros H. unfold get_status, st_final, st_decay, st_off. destruct (t =? t_decay); lia. Qed.
Lemma filter_none {A} (P : A -> bool) l : (forall x, In x l -> P x = false) -> filter P l = [].
Proof. induction l as [|x r IH]; intros H; cbn; [reflexivity|]. rewrite (H x) by now left. apply IH. intros y Y. apply H. now right. Qed.

(** one action *)
Lemma interaction_step live h a : (0 < length (h_verts h))%nat -> Inv live h -> causal h -> possible live a ->
  let h' := at_interaction h a in let v := length (h_verts h) in
  Inv (after live a) h' /\ causal h' /\ h_verts h' = h_verts h ++ [Vtx (a_point a) (Some (a_weight a, a_partial a))] /\
  (exists qs, Forall2 (fun p q => In q live /\ p_id q = p_id p) (a_in a) qs /\ Permutation (map content (entering v h')) (map seen qs)) /\
  (forall g, In g (entering v h') -> g_status g = get_status (a_type a)) /\
  map content (leaving v h') = map seen (a_out a) /\
  (forall w, (0 < w < v)%nat -> entering w h' = entering w h) /\ (forall w, (w < v)%nat -> map content (leaving w h') = map content (leaving w h)) /\
  (beam_ends h -> entering 0 h' = entering 0 h /\ beam_ends h').
Proof.
  intros V0 I K (T & L & N & N2). cbn zeta. unfold at_interaction. pose proof I as (F & _ & _ & _ & _ & _ & W). rewrite F. unfold add_vertex.
  set (x := Vtx _ _). set (v := length (h_verts h)).
  set (h1 := Hep (h_full h) (h_gens h) (h_verts h ++ [x]) (h_map h)).
  assert (LV : length (h_verts h1) = S v) by (cbn; rewrite app_length; cbn; lia).
  assert (I1 : Inv live h1).
  { destruct I as (F0 & A1 & A2 & A3 & A4 & A5 & A6). unfold Inv, h1. cbn [h_full h_gens h_map h_verts]. splits; auto.
    intros g w G E. rewrite app_length. specialize (A6 g w G E). lia. }
  assert (K1 : causal h1) by exact K.
  assert (EN : entering v h1 = []).
  { apply filter_none. intros g G. cbn in G. destruct (g_end g) as [w|] eqn:E; [|reflexivity]. cbn. apply Nat.eqb_neq. specialize (W g w G (or_introl E)). fold v in W. lia. }
  assert (LN : leaving v h1 = []).
  { apply filter_none. intros g G. cbn in G. destruct (g_prod g) as [w|] eqn:E; [|reflexivity]. cbn. apply Nat.eqb_neq. specialize (W g w G (or_intror E)). fold v in W. lia. }
  assert (PV : forall g, In g (h_gens h1) -> forall w, g_prod g = Some w -> (w < v)%nat) by (intros g G w E; apply (W g w G); now right).
  destruct (consume_all v (get_status (a_type a)) (a_in a) live h1) as (I2 & E2 & qs & A1 & A2 & A3 & A4 & A5 & A6 & A7); auto.
  { rewrite LV. fold v in V0. lia. }
  { now apply status_not_final. }
  set (h2 := fold_left (consume v (get_status (a_type a))) (a_in a) h1) in *.
  rewrite uses_without in I2. fold (uses a) in I2.
  assert (N2' : NoDup (map p_id (filter (fun p => negb (uses a p)) live ++ a_out a))) by exact N2.
  assert (V2 : (v < length (h_verts h2))%nat) by (rewrite E2, LV; lia).
  destruct (produce_all v (a_out a) (filter (fun p => negb (uses a p)) live) h2) as (B1 & B2 & B3 & B4 & B5 & B6 & B7 & B8); auto.
  set (h3 := fold_left (produce v) (a_out a) h2) in *.
  splits.
  - exact B1.
  - apply B7. now apply A7.
  - now rewrite B2, E2.
  - exists qs. split; [exact A1|]. rewrite B3. rewrite EN in A2. cbn in A2. rewrite app_nil_r in A2. exact A2.
  - intros g G. rewrite B3 in G. destruct (A3 g G) as [G1|G1]; [exact G1|]. rewrite EN in G1. destruct G1.
  - rewrite B5, A6, LN. reflexivity.
  - intros w Hw. rewrite B3, A4 by lia. reflexivity.
  - intros w Hw. rewrite B4 by lia. rewrite A6. reflexivity.
  - intros H. destruct (A5 H) as (H1 & H2). split; [rewrite B3, H1; reflexivity|now apply B6].
Qed.
