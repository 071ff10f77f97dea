(** Lemmas about modification of a subtree, take and histories of takes. *)
From Coq Require Import ZArith List Bool String Lia.
Import ListNotations.
From Verif Require Import Base ConfigModel ConfigSpec ConfigProofs.
Local Open Scope string_scope.
Local Open Scope list_scope.

Lemma update_keys f t q n p v : tidy t -> at_path t q n -> leaf v ->
  (at_path (update_at t q f) p v <->
   (exists r, p = q ++ r /\ at_path (f n) r v) \/ (~ prefix q p /\ at_path t p v)).
Proof.
  intros T Q L. revert t T Q p. induction q as [|k q IH]; intros t T Q p.
  - apply at_nil in Q. subst. cbn [update_at List.app]. split.
    + intros A. left. eauto.
    + intros [(r & -> & A) | (X & _)]; auto. destruct X. apply prefix_nil.
  - apply at_cons in Q. destruct Q as (l & c & -> & I & Q). cbn [update_at].
    apply tidy_map in T. destruct T as (N & E & T). rewrite (proj2 (assoc_in k c l N) I).
    destruct p as [|k' p].
    + rewrite !at_nil. split.
      * intros X. destruct (L _ (eq_sym X)).
      * intros [(r & X & _) | (_ & X)]; [discriminate | destruct (L _ (eq_sym X))].
    + rewrite at_map. setoid_rewrite (assoc_set_in k (update_at c q f) l k' _ N). split.
      * intros (c' & [(-> & ->) | (D & I')] & A).
        -- apply (IH c (T _ _ I) Q) in A. destruct A as [(r & -> & A) | (X & A)].
           ++ left. exists r. auto.
           ++ right. split; [rewrite prefix_cons; tauto | econstructor; eauto].
        -- right. split; [rewrite prefix_cons; intuition congruence | econstructor; eauto].
      * intros [(r & X & A) | (X & A)].
        -- cbn in X. inversion X; subst. exists (update_at c q f). split; auto. apply IH; eauto.
        -- apply at_map in A. destruct A as (c' & I' & A). destruct (string_dec k' k).
           ++ subst. exists (update_at c q f). split; auto. assert (c' = c) by (eapply nodup_fun; eauto). subst.
              apply IH; eauto. right. split; auto. intros Y. apply X. rewrite prefix_cons. auto.
           ++ exists c'. auto.
Qed.
Lemma update_tidy f t q n : tidy t -> at_path t q n -> tidy (f n) -> tidy (update_at t q f).
Proof.
  intros T Q F. revert t T Q. induction q as [|k q IH]; intros t T Q.
  - apply at_nil in Q. subst. auto.
  - apply at_cons in Q. destruct Q as (l & c & -> & I & Q). cbn [update_at].
    apply tidy_map in T. destruct T as (N & E & T). rewrite (proj2 (assoc_in k c l N) I).
    apply tidy_map. split; [apply assoc_set_nodup; auto|]. split.
    + rewrite assoc_set_fst. intros [X | X]; [|contradiction]. apply E. rewrite X. eapply in_fst; eauto.
    + intros k' c' I'. apply assoc_set_in in I'; auto. destruct I' as [(-> & ->) | (_ & I')]; eauto.
Qed.
Lemma update_root_map f t q n : tidy t -> at_path t q n -> (forall m, is_map (f (Map m)) = true) ->
  is_map t = true -> is_map (update_at t q f) = true.
Proof.
  intros T Q F M. destruct t; try discriminate. destruct q as [|k q]; cbn [update_at]; auto.
  destruct (assoc k l); auto.
Qed.

Lemma remove_entry_keys l k p v : NoDup (map fst l) -> leaf v ->
  (at_path (Map (remove_first k l)) p v <-> at_path (Map l) p v /\ ~ prefix [k] p).
Proof.
  intros N L. destruct p as [|k' p].
  - rewrite !at_nil. split; [intros X; destruct (L _ (eq_sym X)) | intros (X & _); destruct (L _ (eq_sym X))].
  - rewrite !at_map. setoid_rewrite (remove_first_in k l k' _ N). rewrite prefix_cons. split.
    + intros (c & (I & D) & A). split; eauto. intros (X & _). congruence.
    + intros ((c & I & A) & D). exists c. split; auto. split; auto. intros ->. apply D. split; auto. apply prefix_nil.
Qed.
Lemma remove_entry_tidy l k : tidy (Map l) -> tidy (Map (remove_first k l)).
Proof.
  rewrite !tidy_map. intros (N & E & T). split; [apply remove_first_nodup; auto|]. split.
  - intros X. apply E. eapply remove_first_fst; eauto.
  - intros k' c I. apply remove_first_in in I; auto. destruct I. eauto.
Qed.
Lemma prefix_app_l q p r : prefix (q ++ p) (q ++ r) <-> prefix p r.
Proof.
  induction q as [|k q IH]; cbn; [tauto|]. rewrite prefix_cons, IH. tauto.
Qed.
Lemma prefix_trans p q r : prefix p q -> prefix q r -> prefix p r.
Proof. intros (a & ->) (b & ->). exists (a ++ b). rewrite app_assoc. reflexivity. Qed.

(** the tree left behind by take / extract: [labels] gone, empty sections gone *)
Definition without (t t' : node) (labels : label_path) : Prop :=
  tidy t' /\ compact t' /\ is_map t' = true /\
  forall p v, key_value t' p v <-> key_value t p v /\ ~ prefix labels p.

Lemma removal_spec t prev last n : tidy t -> at_path t (prev ++ [last]) n ->
  without t (remove_empty_maps (update_at t prev (remove last))) (prev ++ [last]).
Proof.
  intros T A. pose proof A as A0. apply at_app in A. destruct A as (m & P & B).
  apply at_cons in B. destruct B as (l & c & -> & I & B). apply at_nil in B. subst c.
  pose proof (tidy_below _ _ _ T P) as Tl.
  assert (T1 : tidy (update_at t prev (remove last))).
  { eapply update_tidy; eauto. cbn. apply remove_entry_tidy. auto. }
  destruct (prune_tidy _ T1) as (T2 & C2). split; auto. split; auto. split.
  { rewrite prune_is_map. eapply update_root_map; eauto. destruct prev; [apply at_nil in P | apply at_cons in P; destruct P as (? & ? & P & _)]; rewrite P; auto. }
  intros p v. rewrite prune_keys by auto. unfold key_value. split.
  - intros (X & L). apply (update_keys _ _ _ _ _ _ T P L) in X. destruct X as [(r & -> & X) | (NP & X)].
    + cbn [remove] in X. apply remove_entry_keys in X; auto; [|apply tidy_map in Tl; tauto].
      destruct X as (X & D). split; [split; auto; apply at_app; eauto|]. rewrite prefix_app_l. auto.
    + split; auto. intros Y. apply NP. eapply prefix_trans; [|exact Y]. exists [last]. reflexivity.
  - intros ((X & L) & D). split; auto. apply (update_keys _ _ _ _ _ _ T P L).
    assert (Dec : prefix prev p \/ ~ prefix prev p).
    { clear. revert p. induction prev as [|k q IH]; intros p; [left; apply prefix_nil|].
      destruct p as [|k' p]; [right; apply prefix_cons_nil|]. rewrite prefix_cons. destruct (string_dec k k'); [|right; tauto].
      destruct (IH p); [left | right]; tauto. }
    destruct Dec as [(r & ->) | NP]; [left | right; auto].
    exists r. split; auto. cbn [remove]. apply remove_entry_keys; auto; [apply tidy_map in Tl; tauto|].
    apply at_app in X. destruct X as (m & P' & X). rewrite <- (at_fun _ _ _ _ T P P') in X. split; auto. rewrite <- prefix_app_l. eauto.
Qed.

(** take_node on an existing node *)
Lemma rev_last (labels : label_path) last rprev : rev labels = last :: rprev -> labels = rev rprev ++ [last].
Proof. intros E. rewrite <- (rev_involutive labels), E. reflexivity. Qed.

Lemma lookup_last t prev last n : tidy t -> at_path t (prev ++ [last]) n ->
  exists m, (p <- find_existing_node t prev ;; r <- descend_opt p last ;; Ok (p, r)) = Ok (Some m, Some n).
Proof.
  intros T A. apply at_app in A. destruct A as (m & P & B). exists m.
  rewrite (find_at _ _ _ T P). cbn [rbind descend_opt]. pose proof (tidy_below _ _ _ T P) as Tm.
  pose proof (find_at _ _ _ Tm B) as F. rewrite find_cons in F. destruct (descend m last) as [[x|]|e|u]; cbn [rbind find_existing_node fold_left] in *; unfold find_existing_node in F; cbn [fold_left] in F; congruence.
Qed.

Lemma take_node_present c labels n : tidy (tree c) -> at_path (tree c) labels n -> labels <> [] ->
  exists c', take_node c labels = (mk_value n, c') /\ without (tree c) (tree c') labels /\ root c' = Some (tree c') /\
   born c' = born c /\ (forall q, In q (taken c') <-> In q (taken c) \/ q = labels).
Proof.
  intros T A NE. unfold take_node. destruct (rev labels) as [|last rprev] eqn:E.
  { destruct NE. rewrite <- (rev_involutive labels), E. reflexivity. }
  apply rev_last in E. rewrite E in A. destruct (lookup_last _ _ _ _ T A) as (m & F). rewrite F.
  eexists. split; [reflexivity|]. cbn [tree root view taken born]. split; [rewrite E; apply (removal_spec _ _ _ _ T A)|].
  split; auto. split; auto. intros q. unfold already_taken. destruct (existsb (path_eqb labels) (taken c)) eqn:X.
  - apply existsb_exists in X. destruct X as (y & I & Y). unfold path_eqb in Y. destruct (list_eq_dec string_dec labels y); [subst y|discriminate].
    split; [auto|]. intros [? | ->]; auto.
  - rewrite in_app_iff. cbn. intuition.
Qed.

Lemma already_taken_in c p : already_taken c p = true <-> In p (taken c).
Proof.
  unfold already_taken. rewrite existsb_exists. unfold path_eqb. split.
  - intros (x & I & E). destruct (list_eq_dec string_dec p x); [congruence | discriminate].
  - intros I. exists p. split; auto. destruct (list_eq_dec string_dec p p); congruence.
Qed.

(** the state after taking [labels] with value [n] *)
Definition after_take (c c' : conf) (labels : label_path) : Prop :=
  without (tree c) (tree c') labels /\ born c' = born c /\
  forall q, In q (taken c') <-> In q (taken c) \/ q = labels.

Lemma leaf_cases n : leaf n \/ exists l, n = Map l.
Proof. destruct n; eauto; left; intros ? ?; discriminate. Qed.

Lemma take_value c {T} (k : key T) n : tidy (tree c) -> k_labels k <> [] -> key_value (tree c) (k_labels k) n -> n <> Null ->
  exists c', take c k = (v <- k_decode k n ;; validated k v, c') /\ after_take c c' (k_labels k).
Proof.
  intros Ti NE (A & L) NN. destruct (take_node_present c _ n Ti A NE) as (c' & E & W & _ & B & Q).
  exists c'. split; [|split; auto]. unfold take, has_value. rewrite (find_at _ _ _ Ti A). cbn [rbind].
  replace (negb (is_null n) && negb (is_map n)) with true by (destruct n; auto; [congruence | destruct (L _ eq_refl)]).
  rewrite E. unfold convert, mk_value. destruct n; auto; congruence.
Qed.
Lemma take_section c {T} (k : key T) l : tidy (tree c) -> k_labels k <> [] -> at_path (tree c) (k_labels k) (Map l) ->
  if k_is_map k then exists c', take c k = (v <- k_decode k (Map l) ;; validated k v, c') /\ after_take c c' (k_labels k)
  else take c k = (Throw E_logic, c).
Proof.
  intros Ti NE A. unfold take, has_value, has_section. rewrite (find_at _ _ _ Ti A). cbn [rbind is_null is_map negb andb].
  destruct (k_is_map k); auto. destruct (take_node_present c _ _ Ti A NE) as (c' & E & W & _ & B & Q). exists c'.
  rewrite E. split; [reflexivity | split; auto].
Qed.
Lemma take_absent c {T} (k : key T) : tidy (tree c) ->
  (at_path (tree c) (k_labels k) Null \/ ((forall n, ~ at_path (tree c) (k_labels k) n) /\ ~ blocked (tree c) (k_labels k))) ->
  take c k = (if already_taken c (k_labels k) then Throw E_domain else default_of k, c).
Proof.
  intros Ti H. unfold take, has_value, has_section.
  assert (F : find_existing_node (tree c) (k_labels k) = Ok (Some Null) \/ find_existing_node (tree c) (k_labels k) = Ok None).
  { destruct H as [A | (A & B)]; [left; apply find_at; auto | right].
    pose proof (find_spec (tree c) (k_labels k) Ti) as S. destruct (find_existing_node (tree c) (k_labels k)) as [[n|]|e|u]; auto.
    - destruct (A n S). - destruct S. contradiction. - destruct S. }
  destruct F as [F | F]; rewrite F; cbn [rbind is_null is_map negb andb]; destruct (already_taken c (k_labels k)); reflexivity.
Qed.
Lemma take_blocked c {T} (k : key T) : tidy (tree c) -> blocked (tree c) (k_labels k) -> take c k = (Throw E_other, c).
Proof.
  intros Ti B. unfold take, has_value. pose proof (find_spec (tree c) (k_labels k) Ti) as S.
  destruct (find_existing_node (tree c) (k_labels k)) as [[n|]|e|u] eqn:F.
  - exfalso. destruct B as (q & k0 & r & x & l & E & Q). rewrite E in S. apply at_app in S. destruct S as (m & M & S).
    rewrite <- (at_fun _ _ _ _ Ti Q M) in S. apply at_cons in S. destruct S as (? & ? & X & _). discriminate.
  - tauto.
  - destruct S as (-> & _). reflexivity.
  - destruct S.
Qed.
Lemma present_or_not t p : tidy t -> (exists n, at_path t p n) \/ ((forall n, ~ at_path t p n) /\ ~ blocked t p) \/ blocked t p.
Proof.
  intros T. pose proof (find_spec t p T) as S. destruct (find_existing_node t p) as [[n|]|e|u]; eauto; [right; right; tauto | destruct S].
Qed.

(** any take either leaves the object alone or removes exactly its key *)
Lemma take_effect c {T} (k : key T) : tidy (tree c) -> k_labels k <> [] ->
  snd (take c k) = c \/
  (after_take c (snd (take c k)) (k_labels k) /\ exists n, at_path (tree c) (k_labels k) n /\ n <> Null /\ (leaf n \/ k_is_map k = true)).
Proof.
  intros Ti NE. destruct (present_or_not (tree c) (k_labels k) Ti) as [(n & A) | [H | B]].
  - destruct (leaf_cases n) as [L | (l & ->)].
    + assert (D : n = Null \/ n <> Null) by (destruct n; auto; right; discriminate). destruct D as [-> | D].
      * left. rewrite take_absent by auto. reflexivity.
      * right. destruct (take_value c k n Ti NE (conj A L) D) as (c' & -> & W). cbn [snd]. split; auto. exists n. auto.
    + pose proof (take_section c k l Ti NE A) as S. destruct (k_is_map k) eqn:M.
      * destruct S as (c' & -> & W). right. cbn [snd]. split; auto. exists (Map l). split; auto. split; [discriminate|auto].
      * rewrite S. left. reflexivity.
  - left. rewrite take_absent by auto. reflexivity.
  - left. rewrite take_blocked by auto. reflexivity.
Qed.
Lemma take_or_effect c {T} (k : key T) d : snd (take_or c k d) = c \/ snd (take_or c k d) = snd (take c k).
Proof.
  unfold take_or. destruct (negb _); auto. destruct (negb _); auto. destruct (has_value c (k_labels k)) as [[|]| |]; auto.
Qed.
