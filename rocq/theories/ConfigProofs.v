(** Lemmas about trees, lookup, removal and pruning. *)
From Coq Require Import ZArith List Bool String Lia.
Import ListNotations.
From Verif Require Import Base ConfigModel ConfigSpec.
Local Open Scope string_scope.
Local Open Scope list_scope.

Lemma node_ind' (P : node -> Prop) :
  P Null -> (forall s, P (Scalar s)) -> (forall l, P (Seq l)) ->
  (forall l, (forall k c, In (k, c) l -> P c) -> P (Map l)) -> forall n, P n.
Proof.
  intros A B C D. fix IH 1. intros [| s | l | l]; [exact A | apply B | apply C |].
  assert (F : Forall (fun kc => P (snd kc)) l).
  { induction l as [|[k c] r IHr]; constructor; [exact (IH c) | exact IHr]. }
  apply D. intros k c I. rewrite Forall_forall in F. exact (F _ I).
Qed.

Lemma at_nil t n : at_path t [] n <-> t = n.
Proof. split; intros H; [inversion H; auto | subst; constructor]. Qed.
Lemma at_cons t k p n : at_path t (k :: p) n <-> exists l c, t = Map l /\ In (k, c) l /\ at_path c p n.
Proof. split; intros H; [inversion H; subst; eauto 6 | destruct H as (l & c & -> & I & A); econstructor; eauto]. Qed.
Lemma at_map l k p n : at_path (Map l) (k :: p) n <-> exists c, In (k, c) l /\ at_path c p n.
Proof.
  rewrite at_cons. split; [intros (l' & c & E & I & A); inversion E; subst; eauto | intros (c & I & A); eauto 6].
Qed.
Lemma at_app t p q n : at_path t (p ++ q) n <-> exists m, at_path t p m /\ at_path m q n.
Proof.
  revert t. induction p as [|k p IH]; intros t; cbn [List.app].
  - split; [intros H; exists t; split; [constructor | auto] | intros (m & A & B); apply at_nil in A; subst; auto].
  - rewrite at_cons. split.
    + intros (l & c & -> & I & A). apply IH in A. destruct A as (m & A & B). exists m. split; auto. econstructor; eauto.
    + intros (m & A & B). apply at_cons in A. destruct A as (l & c & -> & I & A). exists l, c. split; auto. split; auto.
      apply IH. eauto.
Qed.

Lemma prefix_nil p : prefix [] p. Proof. exists p. reflexivity. Qed.
Lemma prefix_refl p : prefix p p. Proof. exists []. rewrite app_nil_r. reflexivity. Qed.
Lemma prefix_cons k p k' q : prefix (k :: p) (k' :: q) <-> k = k' /\ prefix p q.
Proof.
  split; [intros (r & E); cbn in E; inversion E; subst; split; auto; exists r; auto
         | intros (-> & r & ->); exists r; reflexivity].
Qed.
Lemma prefix_cons_nil k p : ~ prefix (k :: p) []. Proof. intros (r & E). discriminate. Qed.

Lemma tidy_map l : tidy (Map l) <-> NoDup (map fst l) /\ ~ In "" (map fst l) /\ forall k c, In (k, c) l -> tidy c.
Proof.
  split.
  - intros T. destruct (T [] l (at_here _)) as (A & B). split; auto. split; auto.
    intros k c I p m H. apply (T (k :: p) m). econstructor; eauto.
  - intros (A & B & C) p m H. destruct p as [|k p].
    + apply at_nil in H. inversion H; subst. auto.
    + apply at_map in H. destruct H as (c & I & H). apply (C k c I p m H).
Qed.
Lemma tidy_leaf t : leaf t -> tidy t.
Proof. intros L p l H. destruct p. { apply at_nil in H. destruct (L _ H). } apply at_cons in H. destruct H as (m & c & E & _). destruct (L _ E). Qed.
Lemma tidy_below t p n : tidy t -> at_path t p n -> tidy n.
Proof. intros T A q l H. apply (T (p ++ q) l). apply at_app. eauto. Qed.

Lemma assoc_in k c l : NoDup (map fst l) -> (assoc k l = Some c <-> In (k, c) l).
Proof.
  induction l as [|[k' v] r IH]; cbn; [split; [discriminate | tauto]|]. intros N. inversion N as [|? ? NI N']; subst.
  destruct (String.eqb_spec k' k).
  - subst. split; [intros E; inversion E; auto|]. intros [E | I]; [inversion E; auto|].
    exfalso. apply NI. apply in_map_iff. exists (k, c). auto.
  - rewrite (IH N'). split; [auto|]. intros [E | I]; [inversion E; congruence | auto].
Qed.
Lemma assoc_none k l : assoc k l = None <-> ~ In k (map fst l).
Proof.
  induction l as [|[k' v] r IH]; cbn; [tauto|]. destruct (String.eqb_spec k' k); [split; [discriminate | tauto]|]. rewrite IH. tauto.
Qed.
Lemma assoc_some_in k c l : assoc k l = Some c -> In (k, c) l.
Proof.
  induction l as [|[k' v] r IH]; cbn; [discriminate|]. destruct (String.eqb_spec k' k); [intros E; inversion E; subst; auto | auto].
Qed.
Lemma in_fst {A B} (k : A) (c : B) l : In (k, c) l -> In k (map fst l).
Proof. intros I. apply in_map_iff. exists (k, c). auto. Qed.
Lemma nodup_fun (k : string) (c c' : node) l : NoDup (map fst l) -> In (k, c) l -> In (k, c') l -> c = c'.
Proof. intros N A B. apply (assoc_in k c l N) in A. apply (assoc_in k c' l N) in B. congruence. Qed.
Lemma at_fun t p n m : tidy t -> at_path t p n -> at_path t p m -> n = m.
Proof.
  intros T A. revert m. induction A as [|l k c p n I A IH]; intros m B.
  - apply at_nil in B. auto.
  - apply at_map in B. destruct B as (c' & I' & B). apply tidy_map in T. destruct T as (N & _ & T).
    assert (c = c') by (eapply nodup_fun; eauto). subst. eauto.
Qed.

(** removal of one entry *)
Lemma remove_first_in k l k' c : NoDup (map fst l) -> (In (k', c) (remove_first k l) <-> In (k', c) l /\ k' <> k).
Proof.
  induction l as [|[k1 v] r IH]; cbn; [tauto|]. intros N. inversion N as [|? ? NI N']; subst.
  destruct (String.eqb_spec k1 k).
  - subst. split.
    + intros I. split; auto. intros ->. apply NI. eapply in_fst; eauto.
    + intros ([E | I] & D); [inversion E; congruence | auto].
  - cbn. rewrite (IH N'). split.
    + intros [E | (I & D)]; [inversion E; subst; auto | auto].
    + intros ([E | I] & D); auto.
Qed.
Lemma remove_first_fst k l : forall x, In x (map fst (remove_first k l)) -> In x (map fst l).
Proof.
  induction l as [|[k1 v] r IH]; cbn; [tauto|]. intros x. destruct (String.eqb k1 k); [auto|]. cbn. intros [E | I]; auto.
Qed.
Lemma remove_first_nodup k l : NoDup (map fst l) -> NoDup (map fst (remove_first k l)).
Proof.
  induction l as [|[k1 v] r IH]; cbn; [auto|]. intros N. inversion N as [|? ? NI N']; subst.
  destruct (String.eqb k1 k); [auto|]. cbn. constructor; auto. intros I. apply NI. eapply remove_first_fst; eauto.
Qed.
Lemma remove_first_absent k l : ~ In k (map fst l) -> remove_first k l = l.
Proof.
  induction l as [|[k1 v] r IH]; cbn; [auto|]. intros N. destruct (String.eqb_spec k1 k); [subst; tauto|]. rewrite IH by tauto. reflexivity.
Qed.
Lemma remove_first_filter k l : NoDup (map fst l) ->
  remove_first k l = filter (fun e => negb (String.eqb (fst e) k)) l.
Proof.
  induction l as [|[k1 v] r IH]; cbn [remove_first filter map fst]; [auto|]. intros N. inversion N as [|? ? NI N']; subst.
  destruct (String.eqb_spec k1 k); cbn [negb]; [subst|rewrite IH; auto].
  assert (F : forall r : list (string * node), ~ In k (map fst r) -> filter (fun e => negb (String.eqb (fst e) k)) r = r).
  { induction r0 as [|[k2 w] r0 IH0]; cbn; auto. intros M. destruct (String.eqb_spec k2 k); [subst; tauto|]. cbn. rewrite IH0; tauto. }
  rewrite F; auto.
Qed.

(** entry assignment *)
Lemma assoc_set_in k n l k' c : NoDup (map fst l) ->
  (In (k', c) (assoc_set k n l) <-> (k' = k /\ c = n) \/ (k' <> k /\ In (k', c) l)).
Proof.
  induction l as [|[k1 v] r IH]; cbn [assoc_set map fst].
  - intros _. cbn. split; [intros [E | []]; inversion E; auto | intros [(-> & ->) | (_ & [])]; auto].
  - intros N. inversion N as [|? ? NI N']; subst. destruct (String.eqb_spec k1 k).
    + subst. cbn. split.
      * intros [E | I]; [inversion E; auto|]. right. split; auto. intros ->. apply NI. eapply in_fst; eauto.
      * intros [(-> & ->) | (D & [E | I])]; auto. inversion E. congruence.
    + cbn. rewrite (IH N'). split.
      * intros [E | [H | (D & I)]]; auto. inversion E; subst. auto.
      * intros [H | (D & [E | I])]; auto.
Qed.
Lemma assoc_set_fst k n l x : In x (map fst (assoc_set k n l)) <-> x = k \/ In x (map fst l).
Proof.
  induction l as [|[k1 v] r IH]; cbn [assoc_set map fst In]; [intuition|].
  destruct (String.eqb_spec k1 k); cbn [map fst In]; [subst; intuition|]. rewrite IH. tauto.
Qed.
Lemma assoc_set_nodup k n l : NoDup (map fst l) -> NoDup (map fst (assoc_set k n l)).
Proof.
  induction l as [|[k1 v] r IH]; cbn [assoc_set map fst]; [intros _; constructor; [tauto | constructor]|].
  intros N. inversion N as [|? ? NI N']; subst. destruct (String.eqb_spec k1 k); cbn [map fst]; [auto|].
  constructor; auto. rewrite assoc_set_fst. intros [-> | I]; auto.
Qed.

(** * Lookup *)
Lemma find_app n p q : find_existing_node n (p ++ q) =
  (m <- find_existing_node n p ;; match m with Some x => find_existing_node x q | None => Ok None end).
Proof.
  unfold find_existing_node. rewrite fold_left_app.
  assert (E : forall q (x : res (option node)),
    (fold_left (fun acc k => m <- acc ;; descend_opt m k) q x) =
    (m <- x ;; match m with Some y => fold_left (fun acc k => m <- acc ;; descend_opt m k) q (Ok (Some y)) | None => Ok None end)).
  { clear. induction q as [|k q IH]; intros x; cbn [fold_left].
    - destruct x as [[y|]| |]; reflexivity.
    - rewrite IH. destruct x as [[y|]| |]; cbn [rbind descend_opt]; auto. }
  apply E.
Qed.
Lemma find_cons n k p : find_existing_node n (k :: p) =
  (m <- descend n k ;; match m with Some x => find_existing_node x p | None => Ok None end).
Proof. change (k :: p) with ([k] ++ p). rewrite find_app. reflexivity. Qed.

Lemma find_spec t p : tidy t ->
  match find_existing_node t p with
  | Ok (Some n) => at_path t p n
  | Ok None => (forall n, ~ at_path t p n) /\ ~ blocked t p
  | Throw e => e = E_other /\ blocked t p
  | UB _ => False
  end.
Proof.
  revert t. induction p as [|k p IH]; intros t T.
  - cbn. constructor.
  - rewrite find_cons. destruct t as [|s|[|x l]|l]; cbn [descend rbind].
    1,2,3: split; [intros n H; apply at_cons in H; destruct H as (m & c & E & _); discriminate|];
      intros (q & k0 & r & y & m & E & A); destruct q as [|k1 q]; [apply at_nil in A; discriminate | apply at_cons in A; destruct A as (m' & c & E' & _); discriminate].
    + split; auto. exists [], k, p, x, l. split; auto. constructor.
    + apply tidy_map in T. destruct T as (N & _ & T). destruct (assoc k l) as [c|] eqn:A.
      * pose proof (assoc_some_in _ _ _ A) as I. specialize (IH c (T k c I)).
        destruct (find_existing_node c p) as [[n|]|e|u]; auto.
        -- econstructor; eauto.
        -- destruct IH as (X & Y). split.
           ++ intros n H. apply at_map in H. destruct H as (c' & I' & H). assert (c' = c) by (eapply nodup_fun; eauto). subst. eapply X; eauto.
           ++ intros (q & k0 & r & y & m & E & Q). destruct q as [|k1 q]; [apply at_nil in Q; discriminate|].
              cbn in E. inversion E; subst. apply at_map in Q. destruct Q as (c' & I' & Q).
              assert (c' = c) by (eapply nodup_fun; eauto). subst. apply Y. exists q, k0, r, y, m. auto.
        -- destruct IH as (-> & q & k0 & r & y & m & -> & Q). split; auto. exists (k :: q), k0, r, y, m. split; auto. econstructor; eauto.
      * apply assoc_none in A. split.
        -- intros n H. apply at_map in H. destruct H as (c & I & _). apply A. eapply in_fst; eauto.
        -- intros (q & k0 & r & y & m & E & Q). destruct q as [|k1 q]; [apply at_nil in Q; discriminate|].
           cbn in E. inversion E; subst. apply at_map in Q. destruct Q as (c & I & _). apply A. eapply in_fst; eauto.
Qed.
Lemma find_at t p n : tidy t -> at_path t p n -> find_existing_node t p = Ok (Some n).
Proof.
  intros T A. pose proof (find_spec t p T) as F. destruct (find_existing_node t p) as [[m|]|e|u].
  - rewrite (at_fun t p m n T F A). reflexivity.
  - destruct F as (X & _). destruct (X n A).
  - exfalso. destruct F as (_ & q & k & r & x & l & -> & Q).
    apply at_app in A. destruct A as (m & A & B). rewrite <- (at_fun t q _ _ T Q A) in B. apply at_cons in B. destruct B as (? & ? & E & _). discriminate.
  - destruct F.
Qed.

(** * Pruning *)
Definition keep (e : string * node) : bool := match snd e with Map [] => false | _ => true end.
Definition pruned (l : list (string * node)) : list (string * node) :=
  filter keep (map (fun kc => (fst kc, remove_empty_maps (snd kc))) l).

Lemma fold_remove_absent ks l : (forall k, In k ks -> ~ In k (map fst l)) -> fold_left (fun m k => remove_first k m) ks l = l.
Proof.
  revert l. induction ks as [|k ks IH]; intros l H; cbn; [auto|]. rewrite remove_first_absent by (apply H; left; auto).
  apply IH. intros k' I. apply H. right. auto.
Qed.
Lemma fold_remove_filter ks l : NoDup (map fst l) ->
  fold_left (fun m k => remove_first k m) ks l = filter (fun e => negb (existsb (String.eqb (fst e)) ks)) l.
Proof.
  revert l. induction ks as [|k ks IH]; intros l N; cbn [fold_left existsb].
  - symmetry. clear. induction l as [|e r IHr]; cbn in *; congruence.
  - rewrite IH by (apply remove_first_nodup; auto). rewrite remove_first_filter by auto.
    clear IH N. induction l as [|e r IHr]; cbn [filter]; auto.
    destruct (String.eqb (fst e) k) eqn:E; cbn [negb orb filter]; [auto|]. rewrite IHr. reflexivity.
Qed.
Lemma map_fst_prune l : map fst (map (fun kc : string * node => (fst kc, remove_empty_maps (snd kc))) l) = map fst l.
Proof. rewrite map_map. apply map_ext. auto. Qed.

Lemma prune_map l : NoDup (map fst l) -> ~ In "" (map fst l) -> remove_empty_maps (Map l) = Map (pruned l).
Proof.
  intros N E. cbn [remove_empty_maps].
  rewrite (map_ext (fun kc : string * node => let (k, c) := kc in (k, remove_empty_maps c)) (fun kc => (fst kc, remove_empty_maps (snd kc)))) by (intros [? ?]; reflexivity).
  unfold pruned. set (m := map (fun kc => (fst kc, remove_empty_maps (snd kc))) l).
  assert (Nm : NoDup (map fst m)) by (unfold m; rewrite map_fst_prune; auto).
  assert (Em : ~ In "" (map fst m)) by (unfold m; rewrite map_fst_prune; auto).
  rewrite fold_left_app, (fold_remove_absent (repeat "" (List.length l)) m).
  2:{ intros k I. apply repeat_spec in I. subst. auto. }
  rewrite fold_remove_filter by auto. f_equal. apply filter_ext_in. intros [k c] I. cbn [fst].
  destruct (existsb (String.eqb k) _) eqn:X.
  - apply existsb_exists in X. destruct X as (k' & I' & Q). apply String.eqb_eq in Q. subst k'.
    apply in_flat_map in I'. destruct I' as ([k2 c2] & I2 & H). cbn [fst snd] in H.
    unfold keep. cbn [snd negb]. destruct c2 as [| | |[|]]; cbn in H; try tauto. destruct H as [<- | []].
    rewrite (nodup_fun _ _ _ _ Nm I I2). reflexivity.
  - unfold keep. cbn [snd negb]. destruct c as [| | |[|]]; auto. exfalso.
    assert (Y : existsb (String.eqb k) (flat_map (fun kc => match snd kc with Map [] => [fst kc] | _ => [] end) m) = true); [|congruence].
    apply existsb_exists. exists k. split; [|apply String.eqb_refl]. apply in_flat_map. exists (k, Map []). split; auto. left. auto.
Qed.
Lemma pruned_in l k c : In (k, c) (pruned l) <-> exists c0, In (k, c0) l /\ c = remove_empty_maps c0 /\ c <> Map [].
Proof.
  unfold pruned. rewrite filter_In. split.
  - intros (I & K). apply in_map_iff in I. destruct I as ([k1 c1] & E & I). cbn in E. inversion E; subst. exists c1. split; auto. split; auto.
    intros Q. unfold keep in K. cbn [snd] in K. rewrite Q in K. discriminate.
  - intros (c0 & I & -> & Q). split.
    + apply in_map_iff. exists (k, c0). auto.
    + unfold keep. cbn [snd]. destruct (remove_empty_maps c0) as [| | |[|]]; auto; congruence.
Qed.
Lemma pruned_fst l x : In x (map fst (pruned l)) -> In x (map fst l).
Proof.
  intros I. apply in_map_iff in I. destruct I as ([k c] & E & I). cbn in E. subst. apply pruned_in in I. destruct I as (c0 & I & _). eapply in_fst; eauto.
Qed.
Lemma NoDup_map_filter {A B} (f : A -> B) g l : NoDup (map f l) -> NoDup (map f (filter g l)).
Proof.
  induction l as [|x r IH]; cbn; auto. intros N. inversion N as [|? ? NI N']; subst. destruct (g x); cbn; auto.
  constructor; auto. intros I. apply NI. apply in_map_iff in I. destruct I as (y & E & I). apply filter_In in I. apply in_map_iff. exists y. tauto.
Qed.
Lemma pruned_nodup l : NoDup (map fst l) -> NoDup (map fst (pruned l)).
Proof. intros N. unfold pruned. apply NoDup_map_filter. rewrite map_fst_prune. auto. Qed.

Lemma prune_leaf n : leaf n -> remove_empty_maps n = n.
Proof. destruct n; auto. intros L. destruct (L l). auto. Qed.

(** what is where after pruning *)
Lemma prune_at t p n : tidy t -> at_path (remove_empty_maps t) p n ->
  exists m, at_path t p m /\ n = remove_empty_maps m /\ (p <> [] -> n <> Map []).
Proof.
  revert t. induction p as [|k p IH]; intros t T A.
  - apply at_nil in A. exists t. split; [constructor|]. split; auto.
  - destruct t as [|s|l|l]; try (apply at_cons in A; destruct A as (? & ? & E & _); discriminate).
    apply tidy_map in T. destruct T as (N & E & T). rewrite prune_map in A by auto.
    apply at_map in A. destruct A as (c & I & A). apply pruned_in in I. destruct I as (c0 & I & -> & Q).
    destruct (IH c0 (T _ _ I) A) as (m & B & -> & R). exists m. split; [econstructor; eauto|]. split; auto.
    intros _. destruct p; [apply at_nil in B; subst; auto | apply R; congruence].
Qed.
Lemma prune_keys t p v : tidy t -> (key_value (remove_empty_maps t) p v <-> key_value t p v).
Proof.
  intros T. unfold key_value. split.
  - intros (A & L). destruct (prune_at t p v T A) as (m & B & -> & _).
    assert (Lm : leaf m). { destruct m; intros ? ?; try discriminate. apply tidy_below with (p := p) (n := Map l) in T; auto.
      apply tidy_map in T. destruct T as (N & E & _). rewrite prune_map in L by auto. eapply L; eauto. }
    rewrite prune_leaf by auto. auto.
  - intros (A & L). split; auto. revert t T A. induction p as [|k p IH]; intros t T A.
    + apply at_nil in A. subst. rewrite prune_leaf by auto. constructor.
    + apply at_cons in A. destruct A as (l & c & -> & I & A). apply tidy_map in T. destruct T as (N & E & T).
      rewrite prune_map by auto. apply at_map. exists (remove_empty_maps c). split; [|apply IH; eauto].
      apply pruned_in. exists c. split; auto. split; auto. intros Q. specialize (IH c (T _ _ I) A). rewrite Q in IH.
      destruct p; [apply at_nil in IH; destruct (L [] (eq_sym IH)) | apply at_map in IH; destruct IH as (? & [] & _)].
Qed.
Lemma prune_tidy t : tidy t -> tidy (remove_empty_maps t) /\ compact (remove_empty_maps t).
Proof.
  intros T. split.
  - intros p l A. destruct (prune_at t p _ T A) as (m & B & E & _).
    destruct m as [| | |l0]; try discriminate. pose proof (tidy_below _ _ _ T B) as Tb. apply tidy_map in Tb. destruct Tb as (N & E0 & _).
    rewrite prune_map in E by auto. inversion E; subst. split; [apply pruned_nodup; auto|]. intros I. apply E0. apply pruned_fst. auto.
  - intros p l A NP. destruct (prune_at t p _ T A) as (m & B & E & R). intros ->. apply R; auto.
Qed.
Lemma prune_is_map t : is_map (remove_empty_maps t) = is_map t.
Proof. destruct t; reflexivity. Qed.

(** a tree without empty sections has a key, unless it is empty *)
Lemma compact_below l k c : compact (Map l) -> In (k, c) l -> compact c /\ c <> Map [].
Proof.
  intros C I. split.
  - intros p m A NP. apply (C (k :: p) m); [econstructor; eauto | discriminate].
  - intros ->. apply (C [k] []); [econstructor; eauto; constructor | discriminate | reflexivity].
Qed.
Lemma compact_has_key t : compact t -> t <> Map [] -> exists p v, key_value t p v.
Proof.
  induction t as [|s|l|l IH] using node_ind'; intros C NE.
  1,2,3: eexists [], _; split; [constructor | intros ?; discriminate].
  destruct l as [|[k c] r]; [congruence|].
  destruct (compact_below _ k c C (or_introl eq_refl)) as (Cc & Nc).
  destruct (IH k c (or_introl eq_refl) Cc Nc) as (p & v & A & L). exists (k :: p), v. split; auto. econstructor; [left; reflexivity | auto].
Qed.
Lemma key_nonempty t p v : key_value t p v -> t <> Map [].
Proof.
  intros (A & L) ->. destruct p; [apply at_nil in A; destruct (L [] (eq_sym A)) | apply at_map in A; destruct A as (? & [] & _)].
Qed.
