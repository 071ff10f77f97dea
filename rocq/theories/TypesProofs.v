(** Proofs about the particle-type list and the multiplets. *)
From Coq Require Import ZArith List Bool Lia Sorting.Permutation Sorting.Sorted.
From Verif Require Import Base PdgModel PdgProofs Search TypesModel.
Import ListNotations.
Open Scope Z_scope.

Definition code_lt (a b : ptype) : Prop := t_code a < t_code b.
Definition code_le (a b : ptype) : Prop := t_code a <= t_code b.

Lemma insert_type_perm t l : Permutation (insert_type t l) (t :: l).
Proof. induction l as [|x r IH]; cbn; auto. destruct (_ <=? _); auto. rewrite IH. apply perm_swap. Qed.
Lemma sort_types_perm l : Permutation (sort_types l) l.
Proof. induction l; cbn; auto. now rewrite insert_type_perm, IHl. Qed.
Lemma insert_type_sorted t l : StronglySorted code_le l -> StronglySorted code_le (insert_type t l).
Proof.
  induction l as [|x r IH]; intros H; cbn.
  - repeat constructor.
  - inversion H; subst. destruct (Z.leb_spec (t_code t) (t_code x)).
    + constructor; auto. constructor; auto. eapply Forall_impl; [|eassumption]. unfold code_le. intros; lia.
    + constructor; auto. eapply Permutation_Forall. symmetry; apply insert_type_perm. constructor; auto. unfold code_le; lia.
Qed.
Lemma sort_types_sorted l : StronglySorted code_le (sort_types l).
Proof. induction l; cbn. constructor. now apply insert_type_sorted. Qed.

(** the duplicate loop *)
Lemma check_duplicates_ok prev l : StronglySorted code_le l -> Forall (fun t => prev <= t_code t) l ->
  check_duplicates prev l = Ok tt ->
  StronglySorted code_lt l /\ Forall (fun t => prev < t_code t) l.
Proof.
  revert prev; induction l as [|t r IH]; intros prev S F H; [split; constructor|].
  cbn [check_duplicates] in H. unfold pdg_eq in H. inversion S; subst. inversion F; subst.
  destruct (Z.eqb_spec (t_code t) prev); [discriminate|].
  destruct (IH (t_code t)) as (A & B); auto.
  split.
  - constructor; auto.
  - constructor. lia. eapply Forall_impl; [|exact B]. cbn. intros; lia.
Qed.
Lemma check_duplicates_fail prev l : StronglySorted code_le l -> Forall (fun t => prev <= t_code t) l ->
  check_duplicates prev l = Ok tt \/
  check_duplicates prev l = Throw E_load_failure /\ ~ NoDup (prev :: map t_code l).
Proof.
  revert prev; induction l as [|t r IH]; intros prev S F; [left; reflexivity|].
  cbn [check_duplicates]. unfold pdg_eq. inversion S; subst. inversion F; subst.
  destruct (Z.eqb_spec (t_code t) prev) as [E|N].
  - right. split; auto. intros ND. inversion ND; subst. cbn in *. tauto.
  - destruct (IH (t_code t)) as [A|[A B]]; auto. right. split; auto.
    intros ND. inversion ND; subst. apply B. exact H6.
Qed.
Lemma strict_nodup l : StronglySorted code_lt l -> NoDup (map t_code l).
Proof.
  induction 1; cbn; constructor; auto. rewrite in_map_iff. intros (x & E & I).
  rewrite Forall_forall in H0. specialize (H0 x I). unfold code_lt in H0. lia.
Qed.

(** what find does on a strictly ordered list *)
Lemma find_sorted l c : StronglySorted code_lt l -> Z.of_nat (length l) <= 65535 ->
  (exists t, In t l /\ t_code t = c /\ find (Globals true l) c = Ok t /\ exists_code (Globals true l) c = Ok true) \/
  ((forall t, In t l -> t_code t <> c) /\ find (Globals true l) c = Throw E_pdg_not_found /\ exists_code (Globals true l) c = Ok false).
Proof.
  intros S L.
  destruct (sorted_split code_lt (fun t => pdg_lt (t_code t) c) l S) as (l1 & l2 & -> & H1 & H2).
  { intros a b. unfold code_lt, pdg_lt. rewrite !Z.ltb_lt. lia. }
  unfold find, exists_code, try_find. cbn [g_built g_types negb].
  change (fun i : nat => match nth_error (l1 ++ l2) i with Some t => pdg_lt (t_code t) c | None => false end)
    with (pos_test (l1 ++ l2) (fun t => pdg_lt (t_code t) c)).
  rewrite (partition_point_split _ l1 l2 H1 H2).
  rewrite nth_error_app2, Nat.sub_diag by lia.
  unfold pdg_lt, pdg_eq in *. rewrite Forall_forall in H1.
  destruct l2 as [|h r]; cbn [nth_error].
  - right. cbn [rbind]. splits; auto. intros t. rewrite app_nil_r. intros I E. specialize (H1 t I). cbn in H1. lia.
  - inversion H2; subst. destruct (Z.eqb_spec (t_code h) c) as [E|N]; cbn [negb].
    + left. exists h. rewrite app_length in L. cbn [length] in L. replace (Z.of_nat (length l1) <? 65535) with true by lia.
      cbn [rbind]. rewrite nth_error_app2, Nat.sub_diag by lia. cbn [nth_error]. splits; auto. apply in_elt.
    + right. cbn [rbind]. splits; auto. intros t I. rewrite in_app_iff in I. destruct I as [I|[<-|I]]; auto.
      * specialize (H1 t I). cbn in H1. lia.
      * assert (S2 : StronglySorted code_lt (h :: r)). { clear - S. induction l1; cbn in S; auto. inversion S; auto. }
        inversion S2; subst. rewrite Forall_forall in H6. specialize (H6 t I). unfold code_lt in H6. lia.
Qed.

(** mapM *)
Lemma mapM_In A B (f : A -> res B) l r : mapM f l = Ok r -> forall b, In b r <-> exists a, In a l /\ f a = Ok b.
Proof.
  revert r; induction l as [|a l IH]; intros r H b; cbn in H.
  - injection H as <-. cbn. split; [tauto|intros (? & [] & _)].
  - destruct (f a) eqn:E; cbn [rbind] in H; try discriminate. destruct (mapM f l) eqn:M; cbn [rbind] in H; try discriminate.
    injection H as <-. cbn. rewrite (IH _ eq_refl). split.
    + intros [<-|(x & I & F)]; eauto.
    + intros (x & [<-|I] & F); [left; congruence|right; eauto].
Qed.
Lemma mapM_all_ok A B (f : A -> res B) l r : mapM f l = Ok r -> forall a, In a l -> exists b, f a = Ok b.
Proof.
  revert r; induction l as [|a l IH]; intros r H x I; cbn in H; [destruct I|].
  destruct (f a) eqn:E; cbn [rbind] in H; try discriminate. destruct (mapM f l) eqn:M; cbn [rbind] in H; try discriminate.
  destruct I as [<-|I]; eauto.
Qed.

(** * strings *)
Lemma str_eq_spec a b : reflect (a = b) (str_eq a b).
Proof.
  revert b; induction a as [|x a IH]; intros [|y b]; cbn; try (constructor; congruence).
  destruct (Z.eqb_spec x y); cbn; [|constructor; congruence]. destruct (IH b); constructor; congruence.
Qed.
Lemma str_lt_irrefl a : str_lt a a = false.
Proof. induction a; cbn; auto. rewrite IHa, Z.ltb_irrefl, Z.eqb_refl. reflexivity. Qed.
Lemma str_lt_trans a b c : str_lt a b = true -> str_lt b c = true -> str_lt a c = true.
Proof.
  revert b c; induction a as [|x a IH]; intros [|y b] [|z c]; cbn; try congruence.
  destruct (Z.ltb_spec x y); destruct (Z.ltb_spec y z); destruct (Z.ltb_spec x z);
    destruct (Z.eqb_spec x y); destruct (Z.eqb_spec y z); destruct (Z.eqb_spec x z); cbn; try lia; try congruence; eauto.
Qed.
Lemma str_lt_total a b : str_lt a b = false -> str_lt b a = false -> a = b.
Proof.
  revert b; induction a as [|x a IH]; intros [|y b]; cbn; try congruence.
  destruct (Z.ltb_spec x y); destruct (Z.ltb_spec y x); destruct (Z.eqb_spec x y); destruct (Z.eqb_spec y x); cbn; try lia; try congruence.
  intros. f_equal; auto.
Qed.

(** * multiplets *)
Definition name_lt (a b : multiplet) : Prop := str_lt (m_name a) (m_name b) = true.
Definition name_le (a b : multiplet) : Prop := str_lt (m_name b) (m_name a) = false.

Lemma name_le_of_lt a b : name_lt a b -> name_le a b.
Proof.
  unfold name_lt, name_le. intros H. destruct (str_lt (m_name b) (m_name a)) eqn:E; auto.
  rewrite <- (str_lt_irrefl (m_name a)). symmetry. eapply str_lt_trans; eauto.
Qed.
Lemma insert_mult_perm t l : Permutation (insert_mult t l) (t :: l).
Proof. induction l as [|x r IH]; cbn; auto. destruct (str_lt _ _); auto. rewrite IH. apply perm_swap. Qed.
Lemma sort_mults_perm l : Permutation (sort_mults l) l.
Proof. induction l; cbn; auto. now rewrite insert_mult_perm, IHl. Qed.
Lemma name_le_trans a b c : name_le a b -> name_le b c -> name_le a c.
Proof.
  unfold name_le. intros H1 H2. destruct (str_lt (m_name c) (m_name a)) eqn:E; auto.
  destruct (str_lt (m_name a) (m_name b)) eqn:E2.
  - rewrite <- H2. symmetry. eapply str_lt_trans; eauto.
  - rewrite (str_lt_total _ _ H1 E2) in H2. congruence.
Qed.
Lemma insert_mult_sorted t l : StronglySorted name_le l -> StronglySorted name_le (insert_mult t l).
Proof.
  induction l as [|x r IH]; intros H; cbn.
  - repeat constructor.
  - inversion H; subst. destruct (str_lt (m_name x) (m_name t)) eqn:E.
    + constructor; auto. eapply Permutation_Forall. symmetry; apply insert_mult_perm. constructor; auto.
      now apply name_le_of_lt.
    + constructor; auto. constructor; auto. eapply Forall_impl; [|eassumption]. intros; cbn in *.
      eapply name_le_trans; eauto.
Qed.
Lemma sort_mults_sorted l : StronglySorted name_le (sort_mults l).
Proof. induction l; cbn. constructor. now apply insert_mult_sorted. Qed.
Lemma sorted_nodup_strict l : StronglySorted name_le l -> NoDup (map m_name l) -> StronglySorted name_lt l.
Proof.
  induction 1; cbn; intros ND; constructor; inversion ND; subst; auto.
  rewrite Forall_forall in *. intros x I. specialize (H0 x I). unfold name_le in H0. unfold name_lt.
  destruct (str_lt (m_name a) (m_name x)) eqn:E; auto. exfalso. apply H3.
  rewrite (str_lt_total _ _ E H0). now apply in_map.
Qed.
Lemma strict_names_nodup l : StronglySorted name_lt l -> NoDup (map m_name l).
Proof.
  induction 1; cbn; constructor; auto. rewrite in_map_iff. intros (x & E & I).
  rewrite Forall_forall in H0. specialize (H0 x I). unfold name_lt in H0. rewrite E, str_lt_irrefl in H0. discriminate.
Qed.

Lemma iso_find_sorted ms n : StronglySorted name_lt ms ->
  match iso_find ms n with
  | Some i => exists m, nth_error ms i = Some m /\ m_name m = n
  | None => ~ In n (map m_name ms)
  end.
Proof.
  intros S.
  destruct (sorted_split name_lt (fun m => str_lt (m_name m) n) ms S) as (l1 & l2 & -> & H1 & H2).
  { intros a b. unfold name_lt. intros; eapply str_lt_trans; eauto. }
  unfold iso_find.
  change (fun i : nat => match nth_error (l1 ++ l2) i with Some m => str_lt (m_name m) n | None => false end)
    with (pos_test (l1 ++ l2) (fun m => str_lt (m_name m) n)).
  rewrite (partition_point_split _ l1 l2 H1 H2). rewrite nth_error_app2, Nat.sub_diag by lia.
  rewrite Forall_forall in H1.
  assert (N1 : forall m, In m l1 -> m_name m <> n).
  { intros m I E. specialize (H1 m I). cbn in H1. rewrite E, str_lt_irrefl in H1. discriminate. }
  destruct l2 as [|h r]; cbn [nth_error].
  - rewrite app_nil_r, in_map_iff. intros (m & E & I). eapply N1; eauto.
  - destruct (str_eq_spec (m_name h) n) as [E|N].
    + exists h. rewrite nth_error_app2, Nat.sub_diag by lia. auto.
    + rewrite in_map_iff. intros (m & E & I). rewrite in_app_iff in I. destruct I as [I|[<-|I]].
      * eapply N1; eauto.
      * congruence.
      * assert (S2 : StronglySorted name_lt (h :: r)). { clear - S. induction l1; cbn in S; auto. inversion S; auto. }
        inversion S2; subst. inversion H2; subst. rewrite Forall_forall in H4. specialize (H4 m I). unfold name_lt in H4. congruence.
Qed.

Definition of_mult (n : bytes) (t : ptype) : bool := str_eq (multiplet_name (t_name t)) n.

Definition iso_inv (ts : list ptype) (ms : list multiplet) : Prop :=
  StronglySorted name_lt ms /\
  (forall m, In m ms -> m_states m = filter (of_mult (m_name m)) ts /\ m_states m <> []) /\
  (forall t, In t ts -> In (multiplet_name (t_name t)) (map m_name ms)).

Lemma in_upd A (l : list A) i x y : In y (upd i x l) -> y = x \/ exists j, j <> i /\ nth_error l j = Some y.
Proof.
  intros I. apply In_nth_error in I. destruct I as [j E]. rewrite nth_error_upd in E.
  destruct (Nat.eqb_spec i j).
  - destruct (Nat.ltb j (length l)); try discriminate. left; congruence.
  - right. exists j. auto.
Qed.
Lemma map_upd A B (f : A -> B) (l : list A) i x y : nth_error l i = Some y -> f x = f y -> map f (upd i x l) = map f l.
Proof.
  revert i; induction l as [|a l IH]; intros [|i] E F; cbn in *; try discriminate.
  - injection E as ->. now rewrite F.
  - f_equal. apply IH; auto.
Qed.
Lemma sorted_map_strict l : StronglySorted (fun a b => str_lt a b = true) (map m_name l) <-> StronglySorted name_lt l.
Proof.
  induction l as [|a l IH]; cbn.
  - split; constructor.
  - split; intros H; inversion H; subst; constructor; try (now apply IH).
    + rewrite Forall_map in H3. exact H3.
    + rewrite Forall_map. exact H3.
Qed.

Lemma create_multiplet_inv ts ms t : iso_inv ts ms -> exists ms', create_multiplet ms t = Ok ms' /\ iso_inv (ts ++ [t]) ms'.
Proof.
  intros (S & M & T). unfold create_multiplet. set (n := multiplet_name (t_name t)).
  set (ms1 := match iso_find ms n with Some _ => ms | None => ms ++ [Mult n []] end).
  pose proof (iso_find_sorted ms n S) as F.
  assert (N1 : NoDup (map m_name ms1)).
  { unfold ms1. destruct (iso_find ms n).
    - now apply strict_names_nodup.
    - rewrite map_app. cbn.
      apply Permutation_NoDup with (n :: map m_name ms).
      + apply Permutation_cons_append.
      + constructor; auto. now apply strict_names_nodup. }
  assert (I1 : In n (map m_name ms1)).
  { unfold ms1. destruct (iso_find ms n).
    - destruct F as (m & E & <-). apply in_map. eapply nth_error_In; eauto.
    - rewrite map_app, in_app_iff. cbn. auto. }
  assert (S1 : forall m, In m ms1 -> m_states m = filter (of_mult (m_name m)) ts /\ (m_states m <> [] \/ m_name m = n)).
  { intros m. unfold ms1. destruct (iso_find ms n).
    - intros I. destruct (M m I). auto.
    - rewrite in_app_iff. intros [I|[<-|[]]].
      + destruct (M m I). auto.
      + cbn. split; auto. symmetry. destruct (filter (of_mult n) ts) as [|x r] eqn:E; auto.
        assert (X : In x (filter (of_mult n) ts)) by (rewrite E; cbn; auto).
        apply filter_In in X. destruct X as [X1 X2]. unfold of_mult in X2. destruct (str_eq_spec (multiplet_name (t_name x)) n); [|discriminate].
        exfalso. apply F. rewrite <- e. auto. }
  pose proof (sort_mults_perm ms1) as P.
  assert (S2 : StronglySorted name_lt (sort_mults ms1)).
  { apply sorted_nodup_strict. apply sort_mults_sorted. eapply Permutation_NoDup; [|exact N1]. apply Permutation_map. now symmetry. }
  set (ms2 := sort_mults ms1) in *.
  pose proof (iso_find_sorted ms2 n S2) as F2.
  destruct (iso_find ms2 n) as [i|] eqn:Ei.
  2:{ exfalso. apply F2. eapply Permutation_in; [|exact I1]. apply Permutation_map. now symmetry. }
  destruct F2 as (m & Em & En). rewrite Em. eexists; split; [reflexivity|].
  assert (NM : map m_name (upd i (Mult (m_name m) (m_states m ++ [t])) ms2) = map m_name ms2).
  { eapply map_upd; eauto. }
  assert (Im : In m ms1). { eapply Permutation_in; [exact P|]. eapply nth_error_In; eauto. }
  unfold iso_inv. splits.
  - apply sorted_map_strict. rewrite NM. apply sorted_map_strict. exact S2.
  - intros m' I'. apply in_upd in I'. destruct I' as [->|(j & Nj & Ej)].
    + cbn [m_name m_states]. rewrite filter_app. destruct (S1 m Im) as [-> _]. rewrite En. cbn [filter].
      assert (Ot : of_mult n t = true).
      { unfold of_mult. destruct (str_eq_spec (multiplet_name (t_name t)) n); auto. }
      rewrite Ot. split; auto. intros E. apply app_eq_nil in E. destruct E; discriminate.
    + assert (Ij : In m' ms1). { eapply Permutation_in; [exact P|]. eapply nth_error_In; eauto. }
      destruct (S1 m' Ij) as [St Ne].
      assert (Nn : m_name m' <> n).
      { intros E. apply Nj. pose proof (strict_names_nodup _ S2) as ND. rewrite NoDup_nth_error in ND. apply ND.
        - rewrite map_length. apply nth_error_Some. congruence.
        - rewrite !nth_error_map, Ej, Em. cbn. congruence. }
      rewrite filter_app. cbn [filter].
      assert (Ot : of_mult (m_name m') t = false).
      { unfold of_mult. destruct (str_eq_spec (multiplet_name (t_name t)) (m_name m')); auto. subst n; congruence. }
      rewrite Ot.
      rewrite app_nil_r. split; auto. destruct Ne; auto; congruence.
  - intros x. rewrite in_app_iff, NM. intros [I|[<-|[]]].
    + eapply Permutation_in; [apply Permutation_map; symmetry; exact P|]. unfold ms1. destruct (iso_find ms n); auto.
      rewrite map_app, in_app_iff. auto.
    + eapply Permutation_in; [apply Permutation_map; symmetry; exact P|]. exact I1.
Qed.

Lemma create_multiplets_inv ts : exists ms, create_multiplets ts = Ok ms /\ iso_inv ts ms.
Proof.
  assert (G : forall ts1 ts0 ms, iso_inv ts0 ms -> exists ms', foldM create_multiplet ms ts1 = Ok ms' /\ iso_inv (ts0 ++ ts1) ms').
  { induction ts1 as [|t r IH]; intros ts0 ms I; cbn [foldM].
    - exists ms. rewrite app_nil_r. auto.
    - destruct (create_multiplet_inv ts0 ms t I) as (ms1 & -> & I1). cbn [rbind].
      destruct (IH _ _ I1) as (ms2 & E & I2). exists ms2. rewrite <- app_assoc in I2. auto. }
  apply (G ts [] []). unfold iso_inv. splits; [constructor|intros ? []|intros ? []].
Qed.
