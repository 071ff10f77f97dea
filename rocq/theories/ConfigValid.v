(** Lemmas about validation. *)
From Coq Require Import ZArith List Bool String Lia.
Import ListNotations.
From Verif Require Import Base ConfigModel ConfigSpec ConfigProofs ConfigTake.
Local Open Scope string_scope.
Local Open Scope list_scope.

Lemma path_eqb_eq p q : path_eqb p q = true <-> p = q.
Proof. unfold path_eqb. destruct (list_eq_dec string_dec p q); intuition congruence. Qed.

Lemma labels_in_spec n : forall pre x, In x (labels_in pre n) <-> exists p v, p <> [] /\ x = pre ++ p /\ key_value n p v.
Proof.
  induction n as [|s|l|l IH] using node_ind'; intros pre x.
  1,2,3: cbn; split; [tauto|]; intros (p & v & NE & _ & A & _); destruct p; [congruence | apply at_cons in A; destruct A as (? & ? & E & _); discriminate].
  cbn [labels_in]. rewrite in_flat_map. split.
  - intros ([k c] & I & H). destruct (is_map c) eqn:M.
    + apply (IH k c I) in H. destruct H as (p & v & NE & -> & A & L). exists (k :: p), v.
      split; [discriminate|]. split; [rewrite <- app_assoc; reflexivity|]. split; auto. econstructor; eauto.
    + destruct H as [<- | []]. exists [k], c. split; [discriminate|]. split; auto. split; [econstructor; eauto; constructor|].
      destruct c; intros ? ?; discriminate.
  - intros (p & v & NE & -> & A & L). destruct p as [|k p]; [congruence|]. apply at_map in A. destruct A as (c & I & A).
    exists (k, c). split; auto. destruct (is_map c) eqn:M.
    + apply (IH k c I). exists p, v. split.
      * intros ->. apply at_nil in A. subst. destruct v; try discriminate. destruct (L _ eq_refl).
      * split; [rewrite <- app_assoc; reflexivity | split; auto].
    + destruct p as [|k2 p]; [left; auto|]. apply at_cons in A. destruct A as (? & ? & -> & _). discriminate.
Qed.

(** std::equal as used *)
Lemma equal_prefix_spec m : forall p,
  match equal_prefix m p with
  | Ok true => prefix m p
  | Ok false => ~ prefix m p
  | UB u => u = UB_oob /\ prefix p m /\ p <> m
  | Throw _ => False
  end.
Proof.
  induction m as [|a m IH]; intros p; cbn [equal_prefix]; [apply prefix_nil|].
  destruct p as [|b p]; [split; auto; split; [apply prefix_nil | discriminate]|].
  destruct (String.eqb_spec a b).
  - subst. specialize (IH p). destruct (equal_prefix m p) as [[|]|e|u]; auto.
    + apply prefix_cons. auto.
    + rewrite prefix_cons. tauto.
    + rewrite prefix_cons. intuition congruence.
  - rewrite prefix_cons. tauto.
Qed.
Lemma prefix_antisym p q : prefix p q -> prefix q p -> p = q.
Proof.
  intros (a & ->) (b & E). rewrite <- app_assoc in E. rewrite <- (app_nil_r p) in E at 1. apply app_inv_head in E.
  symmetry in E. apply app_eq_nil in E. destruct E as (-> & _). rewrite app_nil_r. reflexivity.
Qed.

Definition relabel (m inp : label_path) : res label_path := b <- equal_prefix m inp ;; Ok (if (b : bool) then m else inp).
Lemma mapM_in {A B} (f : A -> res B) l l' : mapM f l = Ok l' -> forall y, In y l' <-> exists x, In x l /\ f x = Ok y.
Proof.
  revert l'. induction l as [|a l IH]; intros l' E y; cbn in E.
  - inversion E; subst. cbn. split; [tauto | intros (? & [] & _)].
  - destruct (f a) as [b| |] eqn:F; try discriminate. cbn in E. destruct (mapM f l) as [r| |]; try discriminate. inversion E; subst.
    cbn. rewrite (IH r eq_refl). split.
    + intros [-> | (x & I & X)]; eauto.
    + intros (x & [-> | I] & X); [left; congruence | eauto].
Qed.
Lemma mapM_ub {A B} (f : A -> res B) l : (forall x e, In x l -> f x <> Throw e) ->
  match mapM f l with
  | Ok _ => forall x, In x l -> exists y, f x = Ok y
  | UB u => exists x, In x l /\ f x = UB u
  | Throw _ => False
  end.
Proof.
  induction l as [|a l IH]; intros H; cbn; [tauto|]. destruct (f a) as [b|e|u] eqn:F; cbn [rbind].
  - specialize (IH (fun x e I => H x e (or_intror I))). destruct (mapM f l) as [r|e|u]; cbn [rbind]; auto.
    + intros x [<- | I]; eauto. 
    + destruct IH as (x & I & X). eauto.
  - apply (H a e); [left; auto | exact F].
  - eauto.
Qed.

(** prefix-free list of map keys *)
Definition free (ms : list label_path) : Prop := forall a b, In a ms -> In b ms -> prefix a b -> a = b.

(** where an input path ends up *)
Definition owned (ms : list label_path) (p q : label_path) : Prop :=
  (In q ms /\ prefix q p) \/ ((forall m, In m ms -> ~ prefix m p) /\ q = p).

Lemma prefix_comparable (a b c : label_path) : prefix a c -> prefix b c -> prefix a b \/ prefix b a.
Proof.
  revert b c. induction a as [|x a IH]; intros b c A B; [left; apply prefix_nil|].
  destruct b as [|y b]; [right; apply prefix_nil|]. destruct c as [|z c]; [destruct (prefix_cons_nil _ _ A)|].
  apply prefix_cons in A, B. destruct A as (-> & A), B as (-> & B). rewrite !prefix_cons. destruct (IH b c A B); auto.
Qed.

Lemma relabel_all (db_ms ms l0 l : list label_path) done : db_ms = done ++ ms -> free db_ms ->
  (forall q, In q l <-> exists p, In p l0 /\ owned done p q) ->
  match foldM (fun l m => mapM (relabel m) l) l ms with
  | Ok l' => (forall q, In q l' <-> exists p, In p l0 /\ owned db_ms p q) /\
             (forall p m, In p l0 -> In m ms -> prefix p m -> p = m)
  | UB u => u = UB_oob /\ exists p m, In p l0 /\ In m db_ms /\ prefix p m /\ p <> m
  | Throw _ => False
  end.
Proof.
  revert done l. induction ms as [|m ms IH]; intros done l E F H; cbn [foldM].
  - rewrite app_nil_r in E. subst. split; auto. intros ? ? ? [].
  - assert (NT : forall x e, In x l -> relabel m x <> Throw e).
    { intros x e _. unfold relabel. pose proof (equal_prefix_spec m x) as S. destruct (equal_prefix m x) as [[|]|e'|u]; cbn; try discriminate. tauto. }
    pose proof (mapM_ub (relabel m) l NT) as U. destruct (mapM (relabel m) l) as [l1|e|u] eqn:M; cbn [rbind].
    + assert (H1 : forall q, In q l1 <-> exists p, In p l0 /\ owned (done ++ [m]) p q).
      { intros q. rewrite (mapM_in _ _ _ M). split.
        - intros (x & I & R). apply H in I. destruct I as (p & Ip & O). exists p. split; auto.
          unfold relabel in R. pose proof (equal_prefix_spec m x) as S. destruct (equal_prefix m x) as [[|]|e'|u]; cbn in R; inversion R; subst.
          + left. split; [apply in_app_iff; right; left; auto|]. destruct O as [(_ & O) | (_ & ->)]; auto. eapply prefix_trans; eauto.
          + destruct O as [(D & O) | (O & ->)]; [left; split; auto; apply in_app_iff; auto|].
            right. split; auto. intros m' I'. apply in_app_iff in I'. destruct I' as [I' | [<- | []]]; auto.
        - intros (p & Ip & O). 
          assert (X : exists x, owned done p x /\ In x l).
          { destruct O as [(D & O) | (O & ->)].
            - apply in_app_iff in D. destruct D as [D | [<- | []]].
              + exists q. split; [left; auto|]. apply H. exists p. split; auto. left. auto.
              + (* m is a prefix of p: either p untouched so far or relabelled to something comparable *)
                destruct (existsb (fun a => if list_eq_dec string_dec (firstn (List.length a) p) a then true else false) done) eqn:X.
                * apply existsb_exists in X. destruct X as (a & Ia & X). destruct (list_eq_dec string_dec (firstn (List.length a) p) a) as [Y|]; [|discriminate].
                  exists a. assert (Pa : prefix a p) by (exists (skipn (List.length a) p); rewrite <- Y at 1; symmetry; apply firstn_skipn).
                  split; [left; auto|]. apply H. exists p. split; auto. left. auto.
                * exists p. assert (Z : forall a, In a done -> ~ prefix a p).
                  { intros a Ia (r & ->). assert (existsb (fun a0 => if list_eq_dec string_dec (firstn (List.length a0) (a ++ r)) a0 then true else false) done = true); [|congruence].
                    apply existsb_exists. exists a. split; auto. rewrite firstn_app, Nat.sub_diag, firstn_all, firstn_O, app_nil_r.
                    destruct (list_eq_dec string_dec a a); congruence. }
                  split; [right; auto|]. apply H. exists p. split; auto. right. auto.
            - exists p. assert (Z : forall a, In a done -> ~ prefix a p) by (intros a Ia; apply O; apply in_app_iff; auto).
              split; [right; auto|]. apply H. exists p. split; auto. right. auto. }
          destruct X as (x & Ox & Ix). exists x. split; auto. destruct (U x Ix) as (y & Y). rewrite Y. f_equal.
          unfold relabel in Y. pose proof (equal_prefix_spec m x) as S. destruct (equal_prefix m x) as [[|]|e'|u]; cbn in Y; inversion Y; subst.
          + (* y = m, prefix m x *)
            destruct O as [(D & O) | (O & ->)].
            * assert (Pm : prefix y p). { destruct Ox as [(_ & Ox) | (_ & ->)]; auto. eapply prefix_trans; eauto. }
              destruct (prefix_comparable _ _ _ O Pm) as [C | C]; [symmetry|]; apply F; auto; try (rewrite in_app_iff in *; cbn in *; tauto).
            * exfalso. apply (O y); [apply in_app_iff; right; left; auto|]. destruct Ox as [(_ & Ox) | (_ & ->)]; auto. eapply prefix_trans; eauto.
          + (* not prefix m y *)
            destruct O as [(D & O) | (O & ->)].
            * apply in_app_iff in D. destruct D as [D | [<- | []]].
              -- destruct Ox as [(Dx & Ox) | (Ox & ->)].
                 ++ destruct (prefix_comparable _ _ _ O Ox) as [C | C]; [symmetry|]; apply F; auto; rewrite in_app_iff; auto.
                 ++ destruct (Ox q D O).
              -- destruct Ox as [(Dx & Ox) | (Ox & ->)]; [|contradiction].
                 destruct (prefix_comparable _ _ _ O Ox) as [C | C]; [contradiction|].
                 apply F; auto; rewrite in_app_iff; cbn; auto.
            * destruct Ox as [(Dx & Ox) | (Ox & ->)]; auto. destruct (O y); auto. apply in_app_iff. auto. }
      specialize (IH (done ++ [m]) l1). rewrite <- app_assoc in IH. specialize (IH E F H1).
      destruct (foldM (fun l m => mapM (relabel m) l) l1 ms) as [l'|e|u]; auto. destruct IH as (A & B). split; auto.
      intros p m' Ip [<- | I'] P; [|eauto]. 
      (* p <= m : show p = m *)
      assert (Ex : exists x, owned done p x /\ In x l /\ prefix x p).
      { destruct (existsb (fun a => if list_eq_dec string_dec (firstn (List.length a) p) a then true else false) done) eqn:X.
        - apply existsb_exists in X. destruct X as (a & Ia & X). destruct (list_eq_dec string_dec (firstn (List.length a) p) a) as [Y|]; [|discriminate].
          assert (Pa : prefix a p) by (exists (skipn (List.length a) p); rewrite <- Y at 1; symmetry; apply firstn_skipn).
          exists a. split; [left; auto|]. split; auto. apply H. exists p. split; auto. left. auto.
        - assert (Z : forall a, In a done -> ~ prefix a p).
          { intros a Ia (r & ->). assert (existsb (fun a0 => if list_eq_dec string_dec (firstn (List.length a0) (a ++ r)) a0 then true else false) done = true); [|congruence].
            apply existsb_exists. exists a. split; auto. rewrite firstn_app, Nat.sub_diag, firstn_all, firstn_O, app_nil_r.
            destruct (list_eq_dec string_dec a a); congruence. }
          exists p. split; [right; auto|]. split; [|apply prefix_refl]. apply H. exists p. split; auto. right. auto. }
      destruct Ex as (x & Ox & Ix & Px). destruct (U x Ix) as (y & Y). unfold relabel in Y.
      pose proof (equal_prefix_spec m x) as S. assert (Pxm : prefix x m) by (eapply prefix_trans; eauto).
      destruct (equal_prefix m x) as [[|]|e'|u] eqn:Q; cbn in Y; inversion Y; subst.
      * assert (x = y) by (apply prefix_antisym; auto). subst. apply prefix_antisym; auto.
      * exfalso. clear - Pxm S Q. (* not prefix m x, prefix x m, no UB: impossible *)
        revert y Pxm S Q. induction m as [|a m IHm]; intros x Pxm S Q; [destruct S; apply prefix_nil|].
        destruct x as [|b x]; cbn in Q; [discriminate|]. apply prefix_cons in Pxm. destruct Pxm as (-> & Pxm).
        rewrite String.eqb_refl in Q. apply (IHm x); auto. rewrite prefix_cons in S. tauto.
    + destruct U.
    + destruct U as (x & I & R). unfold relabel in R. pose proof (equal_prefix_spec m x) as S. destruct (equal_prefix m x) as [[|]|e'|u']; cbn in R; inversion R; subst.
      destruct S as (-> & Pm & D). split; auto. apply H in I. destruct I as (p & Ip & O). destruct O as [(Dn & O) | (O & ->)].
      * exfalso. apply D. apply F; auto; rewrite in_app_iff; cbn; auto.
      * exists p, m. split; auto. split; auto. rewrite in_app_iff. cbn. auto.
Qed.

Lemma unique_in l x : In x (unique l) <-> In x l.
Proof.
  induction l as [|a r IH]; [tauto|]. cbn [unique]. destruct r as [|b r]; [tauto|].
  destruct (path_eqb a b) eqn:E.
  - apply path_eqb_eq in E. subst. rewrite IH. cbn. tauto.
  - cbn [In] in *. rewrite IH. tauto.
Qed.

Lemma accumulate_worst (db : list key_info) l :
  worst (fun v => In v (map (validate_key db) l)) (fold_left (fun r k => accumulate r (validate_key db k)) l Valid).
Proof.
  assert (G : forall l r, worst (fun v => v = r \/ In v (map (validate_key db) l)) (fold_left (fun r k => accumulate r (validate_key db k)) l r)).
  { clear. induction l as [|k l IH]; intros r; cbn [fold_left map In].
    - destruct r; cbn; intuition congruence.
    - specialize (IH (accumulate r (validate_key db k))).
      destruct (fold_left (fun r k => accumulate r (validate_key db k)) l (accumulate r (validate_key db k)));
      destruct r; destruct (validate_key db k); cbn [accumulate worst] in *; intuition congruence. }
  specialize (G l Valid). destruct (fold_left _ l Valid); cbn [worst] in *; intuition congruence.
Qed.

Lemma validate_key_status db labels : sensible db -> forall v, status db labels v <-> validate_key db labels = v.
Proof.
  intros (N & F & V) v. unfold validate_key. destruct (find _ db) as [k|] eqn:E.
  - apply find_some in E. destruct E as (I & P). apply path_eqb_eq in P. destruct (V k I) as (_ & Vk).
    assert (U : forall k', In k' db -> ki_labels k' = labels -> k' = k).
    { intros k' I' E. clear - N I I' P E. subst labels. revert k k' I I' E. induction db as [|a db IH]; [intros ? ? []|].
      cbn in N. inversion N as [|? ? NI N']; subst. intros k k' [-> | I] [-> | I'] E; auto.
      - destruct NI. rewrite <- E. apply in_map. auto.
      - destruct NI. rewrite E. apply in_map. auto. }
    destruct v; cbn [status].
    + split.
      * intros H. destruct Vk as [Vk | [Vk | Vk]]; rewrite Vk; cbn; auto; exfalso; apply H; exists k; repeat split; auto; congruence.
      * intros H (k' & I' & E & D). rewrite (U k' I' E) in D. destruct Vk as [Vk | [Vk | Vk]]; rewrite Vk in H; cbn in H; congruence.
    + split.
      * intros (k' & I' & E & D). rewrite (U k' I' E) in D. rewrite D. reflexivity.
      * intros H. exists k. split; auto. split; auto. destruct Vk as [Vk | [Vk | Vk]]; rewrite Vk in *; cbn in H; congruence.
    + split.
      * intros (k' & I' & E & D). rewrite (U k' I' E) in D. rewrite D. reflexivity.
      * intros H. exists k. split; auto. split; auto. destruct Vk as [Vk | [Vk | Vk]]; rewrite Vk in *; cbn in H; congruence.
  - assert (U : forall k', In k' db -> ki_labels k' <> labels).
    { intros k' I' E'. pose proof (find_none _ _ E k' I') as X. cbn in X. apply path_eqb_eq in E'. congruence. }
    destruct v; cbn [status]; split; intros H; try discriminate; auto.
    + intros (k' & I' & E' & _). eapply U; eauto.
    + destruct H as (k' & I' & E' & _). destruct (U _ I' E').
    + destruct H as (k' & I' & E' & _). destruct (U _ I' E').
Qed.

Lemma free_maps db : sensible db -> free (map ki_labels (filter ki_map db)).
Proof.
  intros (_ & F & _) a b A B P. apply in_map_iff in A, B. destruct A as (x & <- & X), B as (y & <- & Y).
  apply filter_In in X, Y. apply F; tauto.
Qed.
Lemma owned_belongs db p q : owned (map ki_labels (filter ki_map db)) p q <-> belongs db p q.
Proof.
  unfold owned, belongs. split.
  - intros [(I & P) | (H & ->)].
    + left. apply in_map_iff in I. destruct I as (k & <- & I). apply filter_In in I. exists k. tauto.
    + right. split; auto. intros k I M. apply H. apply in_map. apply filter_In. auto.
  - intros [(k & I & M & <- & P) | (H & ->)].
    + left. split; auto. apply in_map. apply filter_In. auto.
    + right. split; auto. intros m I. apply in_map_iff in I. destruct I as (k & <- & I). apply filter_In in I. apply H; tauto.
Qed.

Lemma adjust_spec db l0 : sensible db ->
  match adjust db l0 with
  | Ok l => (forall q, In q l <-> exists p, In p l0 /\ belongs db p q) /\
            ~ exists p k, In p l0 /\ In k db /\ ki_map k = true /\ prefix p (ki_labels k) /\ p <> ki_labels k
  | UB u => u = UB_oob /\ exists p k, In p l0 /\ In k db /\ ki_map k = true /\ prefix p (ki_labels k) /\ p <> ki_labels k
  | Throw _ => False
  end.
Proof.
  intros S. unfold adjust. pose proof (free_maps db S) as F. set (ms := map ki_labels (filter ki_map db)) in *.
  pose proof (relabel_all ms ms l0 l0 [] eq_refl F) as R. unfold relabel in R at 1. 
  assert (H : forall q, In q l0 <-> exists p, In p l0 /\ owned [] p q).
  { intros q. split; [intros I; exists q; split; auto; right; split; [intros ? [] | auto] | intros (p & I & [([] & _) | (_ & ->)]); auto]. }
  specialize (R H). 
  change (fun l m => mapM (fun inp => b <- equal_prefix m inp ;; Ok (if (b : bool) then m else inp)) l) with (fun l m => mapM (relabel m) l) in *.
  destruct (foldM (fun l m => mapM (relabel m) l) l0 ms) as [l|e|u]; cbn [rbind].
  - destruct R as (A & B). split.
    + intros q. rewrite unique_in, A. setoid_rewrite <- owned_belongs. tauto.
    + intros (p & k & I & Ik & M & P & D). apply D. apply B; auto. apply in_map. apply filter_In. auto.
  - destruct R.
  - destruct R as (-> & p & m & I & Im & P & D). split; auto. apply in_map_iff in Im. destruct Im as (k & <- & Ik). apply filter_In in Ik.
    exists p, k. tauto.
Qed.
