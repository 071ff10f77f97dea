(** Lemmas about merging and setting. *)
From Coq Require Import ZArith List Bool String Lia.
Import ListNotations.
From Verif Require Import Base ConfigModel ConfigSpec ConfigProofs ConfigTake.
Local Open Scope string_scope.
Local Open Scope list_scope.

Definition oat (a : option node) (p : label_path) (n : node) : Prop := exists m, a = Some m /\ at_path m p n.
Definition otidy (a : option node) : Prop := forall m, a = Some m -> tidy m.

Lemma merge_nil a : merge a (Map []) = (a, true).
Proof. reflexivity. Qed.
Lemma merge_cons a k v r : merge a (Map ((k, v) :: r)) =
  match entries a with
  | None => (a, false)
  | Some l => match merge (assoc k l) v with
              | (c, true) => merge (put a l k c) (Map r)
              | (c, false) => (put a l k c, false)
              end
  end.
Proof. reflexivity. Qed.
Lemma merge_leaf a b : leaf b -> merge a b = (Some b, true).
Proof. destruct b; auto. intros L. destruct (L _ eq_refl). Qed.

(** merging into a node gives a node *)
Lemma merge_some b : forall n c ok, merge (Some n) b = (c, ok) -> c <> None.
Proof.
  induction b as [|s|l|l IH] using node_ind'; intros n c ok E.
  1,2,3: cbn in E; inversion E; discriminate.
  revert n c ok E. induction l as [|[k v] r IHr]; intros n c ok E.
  - rewrite merge_nil in E. inversion E. discriminate.
  - rewrite merge_cons in E. destruct (entries (Some n)) as [m|]; [|inversion E; discriminate].
    destruct (merge (assoc k m) v) as [c1 [|]] eqn:M.
    + destruct (put (Some n) m k c1) eqn:P; [|destruct c1; discriminate].
      eapply IHr; eauto. intros k' c' I. eapply IH. right. eauto.
    + inversion E; subst. destruct c1; discriminate.
Qed.

Lemma tidy_nil : tidy (Map []).
Proof. apply tidy_map. cbn. split; [constructor|]. split; [tauto | intros ? ? []]. Qed.

(** no list of [a] stands where [b] has a non-empty section *)
Definition no_list_clash (a : option node) (b : node) : Prop :=
  forall p x l e m, oat a p (Seq (x :: l)) -> at_path b p (Map (e :: m)) -> False.
Definition value_clash (a : option node) (b : node) : Prop :=
  exists p s e m, oat a p (Scalar s) /\ at_path b p (Map (e :: m)).

Definition entries_ok (a : option node) (l : list (string * node)) : Prop :=
  tidy (Map l) /\ forall k p n, oat a (k :: p) n <-> at_path (Map l) (k :: p) n.
Lemma entries_spec a b e m : otidy a -> no_list_clash a b -> b = Map (e :: m) ->
  (entries a = None /\ exists s, a = Some (Scalar s)) \/ (exists l, entries a = Some l /\ entries_ok a l).
Proof.
  intros T NL ->. destruct a as [[|s|[|x l]|l]|]; cbn [entries numbered].
  - right. exists []. split; auto. split; [apply tidy_nil|]. intros k p n. rewrite at_map. split.
    + intros (y & E & A). inversion E; subst. apply at_cons in A. destruct A as (? & ? & X & _). discriminate.
    + intros (c & [] & _).
  - left. eauto.
  - right. exists []. split; auto. split; [apply tidy_nil|]. intros k p n. rewrite at_map. split.
    + intros (y & E & A). inversion E; subst. apply at_cons in A. destruct A as (? & ? & X & _). discriminate.
    + intros (c & [] & _).
  - exfalso. apply (NL [] x l e m); [exists (Seq (x :: l)); split; auto; constructor | constructor].
  - right. exists l. split; auto. split; [apply T; auto|]. intros k p n. split.
    + intros (y & E & A). inversion E; subst. auto.
    + intros A. exists (Map l). auto.
  - right. exists []. split; auto. split; [apply tidy_nil|]. intros k p n. rewrite at_map. split.
    + intros (y & E & A). discriminate.
    + intros (c & [] & _).
Qed.

(** content of [put] *)
Lemma put_spec a l k c : entries_ok a l -> k <> "" -> otidy c -> (c = None -> assoc k l = None) ->
  otidy (put a l k c) /\
  (forall n, oat (put a l k c) [] n -> exists m, n = Map m) /\
  forall k' p n, oat (put a l k c) (k' :: p) n <-> (k' = k /\ oat c p n) \/ (k' <> k /\ oat a (k' :: p) n).
Proof.
  intros (Tl & X) NE Tc AN. pose proof Tl as Tl0. apply tidy_map in Tl0. destruct Tl0 as (N & E & T).
  destruct c as [n0|]; cbn [put].
  - split; [|split].
    + intros m Q. inversion Q; subst. apply tidy_map. split; [apply assoc_set_nodup; auto|]. split.
      * rewrite assoc_set_fst. intros [Y | Y]; auto.
      * intros k' c I. apply assoc_set_in in I; auto. destruct I as [(-> & ->) | (_ & I)]; eauto.
    + intros n (m & Q & A). inversion Q; subst. apply at_nil in A. eauto.
    + intros k' p n. rewrite X. unfold oat. split.
      * intros (m & Q & A). inversion Q; subst. apply at_map in A. destruct A as (c & I & A). apply assoc_set_in in I; auto.
        destruct I as [(-> & ->) | (D & I)]; [left; eauto | right; split; auto; apply at_map; eauto].
      * intros [(-> & m & Q & A) | (D & A)].
        -- inversion Q; subst. eexists. split; [reflexivity|]. apply at_map. exists m. split; auto. apply assoc_set_in; auto.
        -- apply at_map in A. destruct A as (c & I & A). eexists. split; [reflexivity|]. apply at_map. exists c. split; auto. apply assoc_set_in; auto.
  - specialize (AN eq_refl). apply assoc_none in AN.
    assert (Y : forall k' p n, at_path (Map l) (k' :: p) n <-> (k' = k /\ oat None p n) \/ (k' <> k /\ at_path (Map l) (k' :: p) n)).
    { intros k' p n. split.
      - intros A. right. split; auto. intros ->. apply at_map in A. destruct A as (c & I & _). apply AN. eapply in_fst; eauto.
      - intros [(_ & m & Q & _) | (_ & A)]; [discriminate | auto]. }
    destruct a as [a0|].
    + split; [|split].
      * intros m Q. inversion Q; subst. auto.
      * intros n (m & Q & A). inversion Q; subst. apply at_nil in A. eauto.
      * intros k' p n. rewrite X, <- Y. split; [intros (m & Q & A); inversion Q; subst; auto | intros A; eexists; eauto].
    + split; [|split].
      * intros m Q. discriminate.
      * intros n (m & Q & _). discriminate.
      * intros k' p n. rewrite X, <- Y, <- X. tauto.
Qed.
Lemma oat_assoc a l k p n : entries_ok a l -> (oat (assoc k l) p n <-> oat a (k :: p) n).
Proof.
  intros (T & X). rewrite X, at_map. apply tidy_map in T. destruct T as (N & _). unfold oat. split.
  - intros (m & E & A). exists m. split; auto. apply assoc_some_in. auto.
  - intros (c & I & A). exists c. split; auto. apply assoc_in; auto.
Qed.
Lemma otidy_assoc l k : tidy (Map l) -> otidy (assoc k l).
Proof. intros T m E. apply tidy_map in T. destruct T as (_ & _ & T). eapply T. apply assoc_some_in. eauto. Qed.

Lemma overridden_cons_same k v r p : ~ In k (map fst r) ->
  (overridden (Map ((k, v) :: r)) (k :: p) <-> overridden v p).
Proof.
  intros NI. unfold overridden, key_value. split; intros [(q & w & (A & L) & P) | (e & l & A)].
  - destruct q as [|k' q]; [apply at_nil in A; destruct (L _ (eq_sym A))|]. apply prefix_cons in P. destruct P as (-> & P).
    apply at_map in A. destruct A as (c & [E | I] & A); [inversion E; subst; left; eauto 6 | destruct NI; eapply in_fst; eauto].
  - right. apply at_map in A. destruct A as (c & [E | I] & A); [inversion E; subst; eauto | destruct NI; eapply in_fst; eauto].
  - left. exists (k :: q), w. split; [split; auto; econstructor; [left; reflexivity | auto] | apply prefix_cons; auto].
  - right. exists e, l. econstructor; [left; reflexivity | auto].
Qed.
Lemma overridden_cons_other k v r k' p : k' <> k ->
  (overridden (Map ((k, v) :: r)) (k' :: p) <-> overridden (Map r) (k' :: p)).
Proof.
  intros D. unfold overridden, key_value. split; intros [(q & w & (A & L) & P) | (e & l & A)].
  - destruct q as [|k2 q]; [apply at_nil in A; destruct (L _ (eq_sym A))|]. apply prefix_cons in P. destruct P as (-> & P).
    apply at_map in A. destruct A as (c & [E | I] & A); [inversion E; congruence|]. left. exists (k' :: q), w. split; [split; auto; econstructor; eauto | apply prefix_cons; auto].
  - right. apply at_map in A. destruct A as (c & [E | I] & A); [inversion E; congruence|]. exists e, l. econstructor; eauto.
  - destruct q as [|k2 q]; [apply at_nil in A; destruct (L _ (eq_sym A))|]. apply prefix_cons in P. destruct P as (-> & P).
    apply at_map in A. destruct A as (c & I & A). left. exists (k' :: q), w. split; [split; auto; econstructor; [right|]; eauto | apply prefix_cons; auto].
  - right. apply at_map in A. destruct A as (c & I & A). exists e, l. econstructor; [right|]; eauto.
Qed.
Lemma key_cons k v r k' p n : key_value (Map ((k, v) :: r)) (k' :: p) n <-> (k' = k /\ key_value v p n) \/ key_value (Map r) (k' :: p) n.
Proof.
  unfold key_value. rewrite !at_map. cbn [In]. split.
  - intros ((c & [E | I] & A) & L); [inversion E; subst; auto | right; split; eauto].
  - intros [(-> & A & L) | ((c & I & A) & L)]; split; eauto.
Qed.
Lemma no_key_at_root l n : ~ key_value (Map l) [] n.
Proof. intros (A & L). apply at_nil in A. destruct (L _ (eq_sym A)). Qed.

Definition merge_result (a a' : option node) (b : node) : Prop :=
  otidy a' /\
  forall p v, leaf v -> (oat a' p v <-> key_value b p v \/ (oat a p v /\ ~ overridden b p)).

Lemma merge_spec b : tidy b -> forall a, otidy a -> no_list_clash a b ->
  match merge a b with
  | (a', true) => merge_result a a' b /\ ~ value_clash a b
  | (_, false) => value_clash a b
  end.
Proof.
  induction b as [|s|l|l IH] using node_ind'; intros Tb a Ta NL.
  1,2,3: cbn [merge]; split; [split|];
    [ intros m E; inversion E; subst; apply tidy_leaf; intros ? ?; discriminate
    | intros p v L; split;
      [ intros (m & E & A); inversion E; subst; left; split; auto
      | intros [(A & _) | (A & O)]; [eexists; eauto |
        exfalso; apply O; left; exists []; eexists; split; [split; [constructor | intros ? ?; discriminate] | apply prefix_nil]] ]
    | intros (p & s0 & e & m & _ & A); destruct p; [apply at_nil in A; discriminate | apply at_cons in A; destruct A as (? & ? & X & _); discriminate] ].
  revert a Ta NL. induction l as [|[k v] r IHr]; intros a Ta NL.
  - rewrite merge_nil. split; [split; auto|].
    + intros p v L. split.
      * intros A. right. split; auto. intros [(q & w & (Q & Lw) & _) | (e & m & Q)].
        -- destruct q; [apply at_nil in Q; destruct (Lw _ (eq_sym Q)) | apply at_map in Q; destruct Q as (? & [] & _)].
        -- destruct p; [apply at_nil in Q; discriminate | apply at_map in Q; destruct Q as (? & [] & _)].
      * intros [(A & _) | (A & _)]; auto. destruct p; [apply at_nil in A; destruct (L _ (eq_sym A)) | apply at_map in A; destruct A as (? & [] & _)].
    + intros (p & s0 & e & m & _ & Q). destruct p; [apply at_nil in Q; discriminate | apply at_map in Q; destruct Q as (? & [] & _)].
  - rewrite merge_cons. apply tidy_map in Tb. destruct Tb as (N & E & T). cbn [map fst] in N, E. inversion N as [|? ? NI N']; subst.
    destruct (entries_spec a _ (k, v) r Ta NL eq_refl) as [(En & s & ->) | (l & En & Ok)]; rewrite En.
    { exists [], s, (k, v), r. split; [exists (Scalar s); split; auto; constructor | constructor]. }
    pose proof (IH k v (or_introl eq_refl) (T _ _ (or_introl eq_refl)) (assoc k l) (otidy_assoc _ k (proj1 Ok))) as IHv.
    assert (NLv : no_list_clash (assoc k l) v).
    { intros p x l' e m A B. apply (NL (k :: p) x l' e m); [apply (oat_assoc a l); auto | econstructor; [left; reflexivity | auto]]. }
    specialize (IHv NLv). destruct (merge (assoc k l) v) as [c [|]] eqn:M.
    2:{ destruct IHv as (p & s & e & m & A & B). exists (k :: p), s, e, m. split; [apply (oat_assoc a l); auto | econstructor; [left; reflexivity | auto]]. }
    destruct IHv as ((Tc & Kc) & NC).
    assert (AN : c = None -> assoc k l = None).
    { intros ->. destruct (assoc k l) eqn:As; auto. destruct (merge_some _ _ _ _ M eq_refl). }
    destruct (put_spec a l k c Ok ltac:(intros ->; apply E; left; auto) Tc AN) as (Tp & P0 & Pk).
    assert (Tr : tidy (Map r)) by (apply tidy_map; split; auto; split; [intros X; apply E; right; auto | intros; eapply T; right; eauto]).
    assert (NLr : no_list_clash (put a l k c) (Map r)).
    { intros p x l' e m A B. destruct p as [|k' p].
      - destruct (P0 _ A) as (? & ?). discriminate.
      - apply Pk in A. destruct A as [(-> & _) | (D & A)].
        + apply at_map in B. destruct B as (? & I & _). apply NI. eapply in_fst; eauto.
        + apply (NL (k' :: p) x l' e m A). apply at_map in B. destruct B as (? & I & B). econstructor; [right|]; eauto. }
    specialize (IHr (fun k' c' I => IH k' c' (or_intror I)) Tr (put a l k c) Tp NLr).
    destruct (merge (put a l k c) (Map r)) as [a' [|]] eqn:M2.
    + destruct IHr as ((Ta' & Ka') & NC'). split; [split; auto|].
      * intros p w L. rewrite (Ka' p w L). destruct p as [|k' p].
        -- split.
           ++ intros [K | (A & _)]; [destruct (no_key_at_root _ _ K) | destruct (P0 _ A) as (m & ->); destruct (L m); auto].
           ++ intros [K | (A & O)]; [destruct (no_key_at_root _ _ K)|]. exfalso. apply O. right. exists (k, v), r. constructor.
        -- rewrite Pk, key_cons. destruct (string_dec k' k) as [-> | D].
           ++ rewrite (overridden_cons_same k v r p NI), (Kc p w L), (oat_assoc a l k p w Ok).
              assert (NK : ~ key_value (Map r) (k :: p) w).
              { intros (A & _). apply at_map in A. destruct A as (? & I & _). apply NI. eapply in_fst; eauto. }
              assert (NO : ~ overridden (Map r) (k :: p)).
              { intros [(q & u & (A & Lu) & P) | (e & m & A)].
                - destruct q as [|k2 q]; [apply at_nil in A; destruct (Lu _ (eq_sym A))|]. apply prefix_cons in P. destruct P as (-> & P).
                  apply at_map in A. destruct A as (? & I & _). apply NI. eapply in_fst; eauto.
                - apply at_map in A. destruct A as (? & I & _). apply NI. eapply in_fst; eauto. }
              tauto.
           ++ rewrite (overridden_cons_other k v r k' p D). tauto.
      * intros (p & s & e & m & A & B). destruct p as [|k' p].
        -- destruct A as (n & -> & A). apply at_nil in A. subst. discriminate.
        -- apply at_map in B. destruct B as (c' & [Q | I] & B).
           ++ inversion Q; subst. apply NC. exists p, s, e, m. split; auto. apply (oat_assoc a l); auto.
           ++ apply NC'. exists (k' :: p), s, e, m. split; [|econstructor; eauto]. apply Pk. right. split; auto.
              intros ->. apply NI. eapply in_fst; eauto.
    + destruct IHr as (p & s & e & m & A & B). destruct p as [|k' p].
      * destruct (P0 _ A) as (? & ?). discriminate.
      * apply Pk in A. apply at_map in B. destruct B as (c' & I & B).
        destruct A as [(-> & _) | (D & A)]; [destruct NI; eapply in_fst; eauto|].
        exists (k' :: p), s, e, m. split; auto. econstructor; [right|]; eauto.
Qed.

(** * set_path *)
Lemma set_spec v : tidy v -> forall p a, otidy a -> ~ In "" p ->
  (forall q k r x l, p = q ++ k :: r -> ~ oat a q (Seq (x :: l))) ->
  match set_path a p v with
  | (a', true) => (exists n, a' = Some n /\ tidy n /\ at_path n p v) /\
      (forall q w, leaf w -> ~ prefix p q -> ~ prefix q p -> (oat a' q w <-> oat a q w)) /\
      (forall q w, leaf w -> oat a' q w -> prefix q p -> q = p)
  | (_, false) => exists q k r s, p = q ++ k :: r /\ oat a q (Scalar s)
  end.
Proof.
  intros Tv. induction p as [|k p IH]; intros a Ta NE NL; cbn [set_path].
  - split; [exists v; split; auto; split; auto; constructor|]. split.
    + intros q w L X. destruct X. apply prefix_nil.
    + intros q w L _ (r & E). destruct q; [auto | discriminate].
  - destruct (entries_spec a (Map [("x", Null)]) ("x", Null) [] Ta) as [(En & s & ->) | (l & En & Ok)]; auto.
    { intros q x l e m A B. destruct q as [|k1 q].
      - apply (NL [] k p x l eq_refl A).
      - apply at_map in B. destruct B as (c & [E | []] & B). inversion E; subst.
        destruct q; [apply at_nil in B; discriminate | apply at_cons in B; destruct B as (? & ? & X & _); discriminate]. }
    { rewrite En. exists [], k, p, s. split; auto. exists (Scalar s). split; auto. constructor. }
    rewrite En. specialize (IH (assoc k l) (otidy_assoc _ k (proj1 Ok)) ltac:(intros X; apply NE; right; auto)).
    assert (NLk : forall q k0 r x l0, p = q ++ k0 :: r -> ~ oat (assoc k l) q (Seq (x :: l0))).
    { intros q k0 r x l0 -> A. apply (NL (k :: q) k0 r x l0 eq_refl). apply (oat_assoc a l); auto. }
    specialize (IH NLk). destruct (set_path (assoc k l) p v) as [c [|]] eqn:S.
    + destruct IH as ((n & -> & Tn & An) & K1 & K2).
      destruct (put_spec a l k (Some n) Ok ltac:(intros ->; apply NE; left; auto) ltac:(intros m E; inversion E; subst; auto) ltac:(discriminate)) as (Tp & P0 & Pk).
      cbn [put] in *. split; [|split].
      * eexists. split; [reflexivity|]. split; [apply Tp; auto|]. 
        assert (Y : oat (Some (Map (assoc_set k n l))) (k :: p) v) by (apply Pk; left; split; auto; exists n; auto).
        destruct Y as (m & E & A). inversion E; subst. auto.
      * intros q w L X Y. destruct q as [|k' q]; [destruct Y; apply prefix_nil|]. rewrite Pk. rewrite prefix_cons in X, Y.
        destruct (string_dec k' k) as [-> | D]; [|tauto].
        rewrite (K1 q w L) by tauto. rewrite (oat_assoc a l k q w Ok). tauto.
      * intros q w L A P. destruct q as [|k' q]; [destruct (P0 _ A) as (m & ->); destruct (L m); auto|].
        apply prefix_cons in P. destruct P as (-> & P). apply Pk in A. destruct A as [(_ & A) | (D & _)]; [|congruence]. f_equal. eauto.
    + destruct IH as (q & k0 & r & s & -> & A). exists (k :: q), k0, r, s. split; auto. apply (oat_assoc a l); auto.
Qed.
