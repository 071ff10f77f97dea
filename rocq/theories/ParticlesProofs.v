(** Proofs about the particle container model. *)
From Coq Require Import ZArith List Bool Lia Permutation.
From Verif Require Import Base ParticlesModel ParticlesSpec.
Import ListNotations.
Open Scope Z_scope.

Definition LIM : Z := 2 ^ 29.
Lemma LIM_eq : LIM = 536870912. Proof. reflexivity. Qed.
Global Opaque LIM.

Definition livef (l : list pdata) : list pdata := filter (fun d => negb (p_hole d)) l.
Definition pre (st : pstate) : list pdata := firstn (data_size st) (data st).
Definition contents (st : pstate) : list pdata := livef (pre st).
Definition keys (st : pstate) : list (Z * payload) := map key (contents st).

Definition live (st : pstate) (i : nat) (d : pdata) : Prop :=
  (i < data_size st)%nat /\ nth_error (data st) i = Some d /\ p_hole d = false.

Record Inv (N : Z) (st : pstate) : Prop := {
  I_room : (data_size st < length (data st))%nat;
  I_index : forall i d, nth_error (data st) i = Some d -> p_index d = i;
  I_hole : forall i d, nth_error (data st) i = Some d -> (p_hole d = true <-> In i (dirty st));
  I_dirty_nodup : NoDup (dirty st);
  I_dirty_lt : forall i, In i (dirty st) -> (i < data_size st)%nat;
  I_hole_id : forall i d, nth_error (data st) i = Some d -> p_hole d = true -> p_id d = -1;
  I_ids : forall d, In d (contents st) -> 0 <= p_id d <= id_max st;
  I_uniq : NoDup (map p_id (contents st));
  I_idmin : -1 <= id_max st;
  I_idN : id_max st + 1 <= N;
  I_sizeN : Z.of_nat (data_size st) <= N;
  I_capN : Z.of_nat (length (data st)) <= 4 * LIM }.

Definition idpos (st : pstate) (id : Z) (i : nat) : Prop :=
  exists d, live st i d /\ p_id d = id.

Record trans (st st' : pstate) (gone : list Z) : Prop := {
  t_mono : id_max st <= id_max st';
  t_keep : forall i d, live st i d -> ~ In (p_id d) gone -> live st' i d;
  t_new : forall id i, idpos st' id i -> idpos st id i \/ id_max st < id }.

(** ** List facts *)
Lemma firstn_upd A n i (x : A) l : firstn n (upd i x l) = upd i x (firstn n l).
Proof.
  revert n i; induction l; intros [|n] [|i]; simpl; auto; f_equal; auto.
Qed.

Lemma nth_error_split' A (l : list A) i d :
  nth_error l i = Some d -> exists l1 l2, l = l1 ++ d :: l2 /\ length l1 = i.
Proof. apply nth_error_split. Qed.

Lemma nth_error_firstn A n i (l : list A) :
  (i < n)%nat -> nth_error (firstn n l) i = nth_error l i.
Proof.
  revert n i; induction l; intros [|n] [|i] H; simpl; auto; try lia. apply IHl; lia.
Qed.

Lemma nth_error_firstn_ge A n i (l : list A) :
  (n <= i)%nat -> nth_error (firstn n l) i = None.
Proof. intros. apply nth_error_None. rewrite firstn_length. lia. Qed.

Lemma firstn_S_nth A n (l : list A) d :
  nth_error l n = Some d -> firstn (S n) l = firstn n l ++ [d].
Proof.
  revert n; induction l; intros [|n]; simpl; intros H; try discriminate.
  - inversion H; auto.
  - f_equal. apply IHl; auto.
Qed.

Lemma livef_app l1 l2 : livef (l1 ++ l2) = livef l1 ++ livef l2.
Proof. apply filter_app. Qed.

Lemma In_contents st d :
  In d (contents st) <-> exists i, live st i d.
Proof.
  unfold contents, livef, pre, live. rewrite filter_In. split.
  - intros [H Hh]. apply In_nth_error in H. destruct H as [i Hi].
    exists i. assert (i < data_size st)%nat.
    { destruct (Nat.lt_ge_cases i (data_size st)); auto.
      rewrite nth_error_firstn_ge in Hi by auto. discriminate. }
    rewrite nth_error_firstn in Hi by auto.
    repeat split; auto. destruct (p_hole d); simpl in *; congruence.
  - intros [i (H1 & H2 & H3)]. split.
    + apply nth_error_In with i. rewrite nth_error_firstn; auto.
    + rewrite H3; auto.
Qed.

Lemma split_live st i d :
  live st i d -> exists l1 l2, pre st = l1 ++ d :: l2 /\ length l1 = i /\
    contents st = livef l1 ++ d :: livef l2.
Proof.
  intros (H1 & H2 & H3). rewrite <- (nth_error_firstn _ (data_size st)) in H2 by auto.
  apply nth_error_split' in H2. destruct H2 as (l1 & l2 & E & L).
  exists l1, l2. repeat split; auto. unfold contents. unfold pre. rewrite E, livef_app.
  simpl. rewrite H3. auto.
Qed.

Lemma live_uniq N st i j d e :
  Inv N st -> live st i d -> live st j e -> p_id d = p_id e -> i = j.
Proof.
  intros I Hi Hj E.
  destruct (Nat.eq_dec i j); auto. exfalso.
  destruct (split_live _ _ _ Hi) as (l1 & l2 & E1 & L1 & C1).
  pose proof (I_uniq _ _ I) as U. rewrite C1, map_app in U. simpl in U.
  apply NoDup_remove_2 in U. apply U. rewrite E, <- map_app.
  apply in_map. rewrite <- livef_app.
  destruct Hj as (J1 & J2 & J3).
  unfold livef. apply filter_In. rewrite J3. split; auto.
  rewrite <- (nth_error_firstn _ (data_size st)) in J2 by auto.
  unfold pre in E1. rewrite E1 in J2.
  destruct (Nat.lt_ge_cases j i).
  - rewrite nth_error_app1 in J2 by lia. apply in_or_app. left. eapply nth_error_In; eauto.
  - rewrite nth_error_app2 in J2 by lia. destruct (j - length l1)%nat eqn:Q; try lia.
    simpl in J2. apply in_or_app. right. eapply nth_error_In; eauto.
Qed.

Lemma live_det st i d e : live st i d -> live st i e -> d = e.
Proof. intros (_ & A & _) (_ & B & _). congruence. Qed.

Lemma trans_refl st : trans st st [].
Proof. constructor; auto; lia. Qed.

Lemma trans_trans a b c g1 g2 :
  trans a b g1 -> trans b c g2 -> trans a c (g1 ++ g2).
Proof.
  intros [m1 k1 n1] [m2 k2 n2]. constructor.
  - lia.
  - intros i d H NI. apply k2.
    + apply k1; auto. intro; apply NI, in_or_app; auto.
    + intro; apply NI, in_or_app; auto.
  - intros id i H. destruct (n2 _ _ H) as [H'|H']; [|right; lia].
    destruct (n1 _ _ H'); auto.
Qed.

Lemma trans_weaken a b g g' :
  trans a b g -> (forall x, In x g -> In x g') -> trans a b g'.
Proof. intros [m k n] H. constructor; auto. Qed.

Lemma sint_ok x : -2147483648 <= x <= 2147483647 -> sint x = Ok x.
Proof.
  intros. unfold sint, in_i32, INT_MIN, INT_MAX.
  replace (- 2 ^ 31 <=? x) with true by (symmetry; apply Z.leb_le; lia).
  replace (x <=? 2 ^ 31 - 1) with true by (symmetry; apply Z.leb_le; lia).
  auto.
Qed.

Lemma u32_small x : 0 <= x < 4294967296 -> u32 x = x.
Proof. intros. unfold u32. apply Z.mod_small. lia. Qed.

Lemma slot_ok st i d : nth_error (data st) i = Some d -> slot st i = Ok d.
Proof. unfold slot. intros ->. auto. Qed.

(** ** Initial state *)
Lemma nth_error_fresh n m i d :
  nth_error (map fresh_slot (seq n m)) i = Some d -> d = fresh_slot (n + i) /\ (i < m)%nat.
Proof.
  intros H. assert (i < m)%nat.
  { assert (nth_error (map fresh_slot (seq n m)) i <> None) by congruence.
    apply nth_error_Some in H0. rewrite map_length, seq_length in H0. auto. }
  split; auto.
  rewrite nth_error_map in H. rewrite (nth_error_nth' _ O) in H by (rewrite seq_length; auto).
  rewrite seq_nth in H by auto. simpl in H. congruence.
Qed.

Lemma init_Inv : Inv 0 init_particles.
Proof.
  constructor; unfold init_particles; cbn [data data_size dirty id_max].
  - rewrite map_length, seq_length. lia.
  - intros. apply nth_error_fresh in H. destruct H; subst; auto.
  - intros. apply nth_error_fresh in H. destruct H; subst. simpl. split; [discriminate|tauto].
  - constructor.
  - simpl; tauto.
  - intros. apply nth_error_fresh in H. destruct H; subst. simpl in *; discriminate.
  - unfold contents, pre. simpl. tauto.
  - unfold contents, pre. simpl. constructor.
  - lia.
  - lia.
  - lia.
  - rewrite map_length, seq_length, LIM_eq. lia.
Qed.

Lemma Inv_mono N M st : N <= M -> Inv N st -> Inv M st.
Proof. intros H []. constructor; auto; lia. Qed.

(** ** Growing the array *)
Lemma ensure_capacity_spec N st n :
  Inv N st -> 1 <= n -> N + n <= LIM ->
  exists st', ensure_capacity st n = Ok st' /\
    id_max st' = id_max st /\ data_size st' = data_size st /\ dirty st' = dirty st /\
    pre st' = pre st /\
    (forall i, (i < data_size st)%nat -> nth_error (data st') i = nth_error (data st) i) /\
    Z.of_nat (data_size st) + n < Z.of_nat (length (data st')) /\
    Z.of_nat (length (data st')) <= 4 * LIM /\
    (forall i d, nth_error (data st') i = Some d -> (data_size st <= i)%nat ->
       p_index d = i /\ p_hole d = false).
Proof.
  intros I Hn HN. rewrite LIM_eq in *.
  pose proof (I_sizeN _ _ I). pose proof (I_capN _ _ I). pose proof (I_room _ _ I).
  pose proof (I_idmin _ _ I). pose proof (I_idN _ _ I).
  unfold ensure_capacity, capacity.
  rewrite (u32_small (Z.of_nat (data_size st) + n)) by lia.
  destruct (Z.leb_spec (Z.of_nat (length (data st))) (Z.of_nat (data_size st) + n)).
  - rewrite u32_small by lia.
    unfold increase_capacity, capacity.
    destruct (Z.leb_spec ((Z.of_nat (length (data st)) + n) * 2) (Z.of_nat (length (data st)))); [lia|].
    cbv beta iota delta [rbind].
    assert (LF : length (firstn (data_size st) (data st)) = data_size st)
      by (rewrite firstn_length; lia).
    assert (EL: length (data (with_data (firstn (data_size st) (data st) ++
         map fresh_slot (seq (data_size st)
           (Z.to_nat ((Z.of_nat (length (data st)) + n) * 2) - data_size st))) st))
       = Z.to_nat ((Z.of_nat (length (data st)) + n) * 2)).
    { simpl. rewrite app_length, LF, map_length, seq_length. lia. }
    rewrite EL. destruct (Z.ltb_spec (Z.of_nat (data_size st) + n)
       (Z.of_nat (Z.to_nat ((Z.of_nat (length (data st)) + n) * 2)))); [|lia].
    eexists. split; [reflexivity|]. rewrite EL.
    cbn [data data_size dirty id_max with_data].
    splits; auto; try lia.
    + unfold pre. simpl. rewrite firstn_app, LF, Nat.sub_diag. simpl.
      rewrite app_nil_r. apply firstn_all2. lia.
    + intros. rewrite nth_error_app1 by lia. apply nth_error_firstn; auto.
    + intros i d Q HQ. rewrite nth_error_app2 in Q by lia. apply nth_error_fresh in Q.
      destruct Q; subst. simpl. split; auto; lia.
  - exists st. splits; auto; try lia.
    intros i d Q HQ. split.
    + apply (I_index _ _ I); auto.
    + destruct (p_hole d) eqn:E; auto. exfalso.
      apply (I_hole _ _ I _ _ Q) in E. apply (I_dirty_lt _ _ I) in E. lia.
Qed.

(** ** Writing a new particle into an existing slot *)
Definition mk (i : nat) (id : Z) (p : payload) : pdata :=
  {| p_id := id; p_index := i; p_hole := false; p_pl := p |}.

Lemma payload_eta p : {| pl_type := pl_type p; pl_idproc := pl_idproc p; pl_rest := pl_rest p |} = p.
Proof. destruct p; auto. Qed.

Lemma copy_in_eq st i p d :
  nth_error (data st) i = Some d -> p_index d = i ->
  -2147483648 <= id_max st + 1 <= 2147483647 ->
  copy_in st i p = Ok {| id_max := id_max st + 1; data_size := data_size st;
    data := upd i {| p_id := id_max st + 1; p_index := i; p_hole := p_hole d; p_pl := p_pl p |} (data st);
    dirty := dirty st |}.
Proof.
  intros H HI B. unfold copy_in. rewrite (slot_ok _ _ _ H). simpl.
  unfold next_id. rewrite sint_ok by auto. simpl. unfold copy_to, set_type, set_id. simpl.
  rewrite payload_eta, HI. auto.
Qed.

Lemma keys_app st l1 d l2 :
  contents st = l1 ++ d :: l2 -> keys st = map key l1 ++ key d :: map key l2.
Proof. unfold keys. intros ->. rewrite map_app. auto. Qed.

(** General result for "slot i now holds the live particle (id_max+1, p)". *)
Lemma fill_hole_spec N st i holes p :
  Inv N st -> N + 1 <= LIM -> dirty st = i :: holes ->
  let st' := {| id_max := id_max st + 1; data_size := data_size st;
                data := upd i (mk i (id_max st + 1) p) (data st); dirty := holes |} in
  Inv (N + 1) st' /\ trans st st' [] /\
  live st' i (mk i (id_max st + 1) p) /\
  Permutation (keys st') ((id_max st + 1, p) :: keys st).
Proof.
  intros I HN HD st'. rewrite LIM_eq in HN.
  assert (Hlt : (i < data_size st)%nat) by (apply (I_dirty_lt _ _ I); rewrite HD; simpl; auto).
  pose proof (I_room _ _ I) as R.
  destruct (nth_error (data st) i) as [d|] eqn:Ed.
  2:{ apply nth_error_None in Ed. lia. }
  assert (Hh : p_hole d = true) by (apply (I_hole _ _ I _ _ Ed); rewrite HD; simpl; auto).
  pose proof (I_dirty_nodup _ _ I) as ND. rewrite HD in ND. inversion ND; subst.
  assert (Epre : pre st' = upd i (mk i (id_max st + 1) p) (pre st)).
  { unfold pre, st'. simpl. apply firstn_upd. }
  assert (Ed' := Ed). rewrite <- (nth_error_firstn _ (data_size st)) in Ed' by auto.
  destruct (nth_error_split' _ _ _ _ Ed') as (l1 & l2 & E1 & L1).
  assert (C : contents st = livef l1 ++ livef l2).
  { unfold contents, pre. rewrite E1, livef_app. simpl. rewrite Hh. auto. }
  assert (C' : contents st' = livef l1 ++ mk i (id_max st + 1) p :: livef l2).
  { unfold contents. rewrite Epre. unfold pre. rewrite E1, <- L1, upd_split, livef_app.
    auto. }
  pose proof (I_ids _ _ I) as Ids. pose proof (I_idmin _ _ I).
  assert (LV : live st' i (mk i (id_max st + 1) p)).
  { repeat split; simpl; auto. apply nth_error_upd_eq. lia. }
  split; [|split; [|split]]; auto.
  - constructor; cbn [data data_size dirty id_max st'].
    + rewrite upd_length. auto.
    + intros j e. rewrite nth_error_upd. destruct (Nat.eqb_spec i j).
      * subst. destruct (_ <? _)%nat; intros Q; inversion Q; auto.
      * apply (I_index _ _ I).
    + intros j e. rewrite nth_error_upd. destruct (Nat.eqb_spec i j).
      * subst. destruct (_ <? _)%nat; intros Q; inversion Q; simpl. split; [discriminate|tauto].
      * intros Q. rewrite (I_hole _ _ I _ _ Q), HD. simpl. intuition congruence.
    + auto.
    + intros j Hj. apply (I_dirty_lt _ _ I). rewrite HD. simpl; auto.
    + intros j e. rewrite nth_error_upd. destruct (Nat.eqb_spec i j).
      * subst. destruct (_ <? _)%nat; intros Q; inversion Q; simpl. discriminate.
      * apply (I_hole_id _ _ I).
    + fold st'. rewrite C'. intros e He. apply in_app_iff in He. simpl in He.
      destruct He as [He|[He|He]].
      * assert (In e (contents st)) by (rewrite C; apply in_or_app; auto).
        apply Ids in H0. lia.
      * subst e. simpl. lia.
      * assert (In e (contents st)) by (rewrite C; apply in_or_app; auto).
        apply Ids in H0. lia.
    + fold st'. rewrite C', map_app. simpl. eapply NoDup_Add; [apply Add_app|].
      rewrite <- map_app, <- C.
      * split; [apply (I_uniq _ _ I)|].
        intros Q. apply in_map_iff in Q. destruct Q as (e & Q1 & Q2).
        apply Ids in Q2. lia.
    + lia.
    + pose proof (I_idN _ _ I); lia.
    + pose proof (I_sizeN _ _ I); lia.
    + rewrite upd_length. pose proof (I_capN _ _ I); lia.
  - constructor.
    + simpl. lia.
    + intros j e (A & B & D) _. repeat split; simpl; auto.
      rewrite nth_error_upd_neq; auto. intro; subst j. congruence.
    + intros id j (e & (A & B & D) & F). simpl in A, B. rewrite nth_error_upd in B.
      destruct (Nat.eqb_spec i j).
      * subst. destruct (_ <? _)%nat; inversion B. subst e. simpl. right. lia.
      * left. exists e. repeat split; auto.
  - unfold keys. rewrite C', C, !map_app. simpl.
    symmetry. apply Permutation_middle.
Qed.

Lemma nth_error_lt A (l : list A) i : (i < length l)%nat -> exists d, nth_error l i = Some d.
Proof.
  intros. destruct (nth_error l i) eqn:E; eauto. apply nth_error_None in E. lia.
Qed.

(** "Slot data_size now holds the live particle (id_max+1, p)", starting from a
    state whose tail slots are well-formed. *)
Lemma append_slot_spec N st st1 p :
  Inv N st -> N + 1 <= LIM -> dirty st = [] ->
  id_max st1 = id_max st -> data_size st1 = data_size st -> dirty st1 = dirty st ->
  pre st1 = pre st ->
  (forall i, (i < data_size st)%nat -> nth_error (data st1) i = nth_error (data st) i) ->
  Z.of_nat (data_size st) + 1 < Z.of_nat (length (data st1)) ->
  Z.of_nat (length (data st1)) <= 4 * LIM ->
  (forall i d, nth_error (data st1) i = Some d -> (data_size st <= i)%nat ->
       p_index d = i /\ p_hole d = false) ->
  let i := data_size st in
  let st' := {| id_max := id_max st + 1; data_size := S i;
                data := upd i (mk i (id_max st + 1) p) (data st1); dirty := [] |} in
  Inv (N + 1) st' /\ trans st st' [] /\
  live st' i (mk i (id_max st + 1) p) /\
  Permutation (keys st') ((id_max st + 1, p) :: keys st).
Proof.
  intros I HN HD E1 E2 E3 E4 E5 E6 E7 E8 i st'. rewrite LIM_eq in HN.
  pose proof (I_room _ _ I) as R.
  assert (Hi : nth_error (upd i (mk i (id_max st + 1) p) (data st1)) i = Some (mk i (id_max st + 1) p)).
  { apply nth_error_upd_eq. unfold i. lia. }
  assert (Epre : pre st' = pre st ++ [mk i (id_max st + 1) p]).
  { unfold pre at 1. unfold st'. cbn [data data_size].
    rewrite (firstn_S_nth _ _ _ _ Hi), firstn_upd. f_equal.
    rewrite <- E4. unfold pre. rewrite E2. fold i.
    assert (H : length (firstn i (data st1)) = i) by (rewrite firstn_length; unfold i; lia).
    clear - H. revert H. generalize (firstn i (data st1)) as l. intros l.
    generalize (mk i (id_max st + 1) p) as x. intros x H.
    assert (forall (l : list pdata) n, (length l <= n)%nat -> upd n x l = l) as Q.
    { clear. induction l; intros [|n]; simpl; intros; auto; try lia. f_equal. apply IHl. lia. }
    apply Q. lia. }
  assert (C' : contents st' = contents st ++ [mk i (id_max st + 1) p]).
  { unfold contents. rewrite Epre, livef_app. auto. }
  pose proof (I_ids _ _ I) as Ids. pose proof (I_idmin _ _ I).
  assert (LV : live st' i (mk i (id_max st + 1) p)).
  { repeat split; simpl; auto. }
  assert (Old : forall j d, nth_error (data st1) j = Some d -> p_index d = j /\ p_hole d = false /\ True).
  { intros j d Q. destruct (Nat.lt_ge_cases j (data_size st)).
    - rewrite E5 in Q by auto. split; [apply (I_index _ _ I); auto|]. split; auto.
      destruct (p_hole d) eqn:HH; auto. apply (I_hole _ _ I _ _ Q) in HH. rewrite HD in HH.
      simpl in HH; tauto.
    - destruct (E8 _ _ Q); auto. }
  split; [|split; [|split]]; auto.
  - constructor; cbn [data data_size dirty id_max st'].
    + rewrite upd_length. unfold i. lia.
    + intros j e. rewrite nth_error_upd. destruct (Nat.eqb_spec i j).
      * subst j. destruct (_ <? _)%nat; intros Q; inversion Q; auto.
      * intros Q. apply Old in Q. tauto.
    + intros j e. rewrite nth_error_upd. destruct (Nat.eqb_spec i j).
      * subst j. destruct (_ <? _)%nat; intros Q; inversion Q; simpl. split; [discriminate|tauto].
      * intros Q. apply Old in Q. destruct Q as (_ & Q & _). rewrite Q. simpl. split; [discriminate|tauto].
    + constructor.
    + simpl; tauto.
    + intros j e. rewrite nth_error_upd. destruct (Nat.eqb_spec i j).
      * subst j. destruct (_ <? _)%nat; intros Q; inversion Q; simpl. discriminate.
      * intros Q. apply Old in Q. destruct Q as (_ & Q & _). rewrite Q. discriminate.
    + fold st'. rewrite C'. intros e He. apply in_app_iff in He. simpl in He.
      destruct He as [He|[He|He]]; [|subst e; simpl; lia|tauto].
      apply Ids in He. lia.
    + fold st'. rewrite C', map_app. simpl.
      eapply NoDup_Add; [apply Add_app|]. rewrite app_nil_r.
      * split; [apply (I_uniq _ _ I)|].
        intros Q. apply in_map_iff in Q. destruct Q as (e & Q1 & Q2). apply Ids in Q2. lia.
    + lia.
    + pose proof (I_idN _ _ I); lia.
    + pose proof (I_sizeN _ _ I). unfold i. lia.
    + rewrite upd_length. lia.
  - constructor.
    + simpl. lia.
    + intros j e (A & B & D) _. unfold live; cbn [data data_size st']. split; [unfold i; lia|]. split; auto.
      rewrite nth_error_upd_neq by (unfold i; lia). rewrite E5; auto.
    + intros id j (e & (A & B & D) & F). simpl in A, B. rewrite nth_error_upd in B.
      destruct (Nat.eqb_spec i j).
      * subst j. destruct (_ <? _)%nat; inversion B. subst e. simpl in *. right. lia.
      * left. exists e. assert (j < data_size st)%nat by (unfold i in *; lia).
        rewrite E5 in B by auto. repeat split; auto.
  - unfold keys. rewrite C', map_app. simpl.
    symmetry. apply Permutation_cons_append.
Qed.

(** ** insert and create *)
Lemma insert_spec N st p :
  Inv N st -> N + 1 <= LIM ->
  exists st' i, insert st p = Ok (st', mk i (id_max st + 1) (p_pl p)) /\
    Inv (N + 1) st' /\ trans st st' [] /\
    live st' i (mk i (id_max st + 1) (p_pl p)) /\
    id_max st' = id_max st + 1 /\
    Permutation (keys st') ((id_max st + 1, p_pl p) :: keys st).
Proof.
  intros I HN. assert (HN' := HN). rewrite LIM_eq in HN'.
  pose proof (I_idmin _ _ I). pose proof (I_idN _ _ I).
  unfold insert. destruct (dirty st) as [|off holes] eqn:HD.
  - destruct (ensure_capacity_spec N st 1 I ltac:(lia) HN)
      as (st1 & -> & E1 & E2 & E3 & E4 & E5 & E6 & E7 & E8). cbn [rbind].
    destruct (nth_error_lt _ (data st1) (data_size st1)) as (d & Hd); [lia|].
    assert (E8' := E8 _ _ Hd ltac:(lia)). destruct E8' as [F1 F2].
    rewrite (copy_in_eq st1 _ p d Hd F1) by lia. cbn [rbind].
    cbn [data_size id_max data dirty].
    unfold slot. cbn [data]. rewrite F2, nth_error_upd_eq by lia. cbn [rbind].
    eexists _, (data_size st). rewrite E1, E2, E3, HD. split; [reflexivity|].
    destruct (append_slot_spec N st st1 (p_pl p)) as (A & B & C & D); auto; try lia.
  - assert (Hlt : (off < data_size st)%nat) by (apply (I_dirty_lt _ _ I); rewrite HD; simpl; auto).
    pose proof (I_room _ _ I) as R.
    destruct (nth_error_lt _ (data st) off) as (d & Hd); [lia|].
    rewrite (copy_in_eq _ off p d) by (simpl; auto; try lia; apply (I_index _ _ I); auto).
    cbn [rbind]. unfold unhole, slot. cbn [data data_size id_max dirty with_data].
    rewrite nth_error_upd_eq by lia. cbn [rbind]. cbn [data with_data].
    assert (UU : forall A n (x y : A) l, upd n x (upd n y l) = upd n x l).
    { clear. intros A n x y l. revert n. induction l; intros [|n]; simpl; auto. f_equal; auto. }
    unfold set_hole. simpl. rewrite UU, nth_error_upd_eq by lia. cbn [rbind].
    eexists _, off. split; [reflexivity|].
    destruct (fill_hole_spec N st off holes (p_pl p)) as (A & B & C & D); auto.
Qed.

Lemma insert_all_spec l : forall N st,
  Inv N st -> N + Z.of_nat (length l) <= LIM ->
  exists st' l', insert_all st l = Ok (st', l') /\
    Inv (N + Z.of_nat (length l)) st' /\ trans st st' [] /\
    id_max st' = id_max st + Z.of_nat (length l) /\
    (forall c, In c l' -> exists d, live st' (p_index c) d /\ p_id d = p_id c) /\
    map p_pl l' = map p_pl l /\
    map p_id l' = map (fun k => id_max st + 1 + Z.of_nat k) (seq 0 (length l)) /\
    Permutation (keys st')
      (keys st ++ combine (map (fun k => id_max st + 1 + Z.of_nat k) (seq 0 (length l))) (map p_pl l)).
Proof.
  induction l as [|p l IH]; intros N st I HN.
  - exists st, []. simpl. rewrite !Z.add_0_r, app_nil_r.
    split; auto. split; auto. split; [apply trans_refl|]. repeat split; auto. intros; tauto.
  - simpl length in *. rewrite Nat2Z.inj_succ in HN.
    destruct (insert_spec N st p I) as (st1 & i & E & I1 & T1 & L1 & M1 & P1); [lia|].
    destruct (IH (N+1) st1 I1) as (st2 & l2 & E2 & I2 & T2 & M2 & S2 & Q2 & R2 & P2); [lia|].
    simpl. rewrite E. cbn [rbind]. rewrite E2. cbn [rbind].
    eexists _, _. split; [reflexivity|].
    split; [eapply Inv_mono; [|exact I2]; lia|].
    split; [apply (trans_trans _ _ _ _ _ T1 T2)|].
    split; [lia|].
    split.
    { intros c [<-|Hc]; [|apply S2; auto].
      simpl. eexists. split; [apply (t_keep _ _ _ T2); [exact L1|simpl; tauto]|]. auto. }
    split; [simpl; f_equal; auto|].
    assert (SQ : map (fun k => id_max st1 + 1 + Z.of_nat k) (seq 0 (length l)) =
                 map (fun k => id_max st + 1 + Z.of_nat k) (seq 1 (length l))).
    { rewrite <- seq_shift, map_map. apply map_ext. intros. lia. }
    split; [simpl; rewrite R2, SQ; f_equal; lia|].
    simpl. rewrite P2, SQ. rewrite Z.add_0_r.
    rewrite P1. simpl. apply Permutation_middle.
Qed.

(** ** remove *)
Definition pointed (st : pstate) (c : pdata) : Prop :=
  exists d, live st (p_index c) d /\ p_id d = p_id c /\
            pl_idproc (p_pl d) = pl_idproc (p_pl c).

Lemma is_valid_iff N st c :
  Inv N st -> 0 <= p_id c ->
  exists b, is_valid_r st c = Ok b /\ (b = true <-> pointed st c).
Proof.
  intros I Hc. pose proof (I_room _ _ I) as R.
  unfold is_valid_r. destruct (Nat.leb_spec (data_size st) (p_index c)).
  - exists false. split; auto. split; [discriminate|]. intros (d & (A & _) & _). lia.
  - destruct (nth_error_lt _ (data st) (p_index c)) as (d & Hd); [lia|].
    rewrite (slot_ok _ _ _ Hd). simpl. eexists. split; [reflexivity|].
    rewrite andb_true_iff, !Z.eqb_eq. split.
    + intros [A B]. exists d. repeat split; auto.
      destruct (p_hole d) eqn:HH; auto. pose proof (I_hole_id _ _ I _ _ Hd HH). lia.
    + intros (e & (A & B & C) & D & E). assert (e = d) by congruence. subst; auto.
Qed.

Lemma pointed_id N st c : Inv N st -> pointed st c -> 0 <= p_id c <= id_max st.
Proof.
  intros I (d & L & E & _). rewrite <- E. apply (I_ids _ _ I). apply In_contents. eauto.
Qed.

Lemma assert_valid_ok N st c : Inv N st -> pointed st c -> assert_valid st c = Ok tt.
Proof.
  intros I P. destruct (is_valid_iff N st c I) as (b & E & B).
  - apply (pointed_id _ _ _ I P).
  - unfold assert_valid. rewrite E. simpl. apply B in P. subst; auto.
Qed.

Lemma filter_notin (l : list (Z * payload)) i :
  ~ In i (map fst l) -> filter (fun e => negb (fst e =? i)) l = l.
Proof.
  induction l as [|e l IH]; simpl; auto. intros H.
  destruct (Z.eqb_spec (fst e) i); simpl; [tauto|]. f_equal. tauto.
Qed.

Lemma map_fst_key l : map fst (map key l) = map p_id l.
Proof. rewrite map_map. apply map_ext. auto. Qed.

Lemma keys_nodup N st : Inv N st -> NoDup (map fst (keys st)).
Proof. intros I. unfold keys. rewrite map_fst_key. apply (I_uniq _ _ I). Qed.

Lemma remove_spec N st c :
  Inv N st -> pointed st c ->
  exists st', remove st c = Ok st' /\ Inv N st' /\ trans st st' [p_id c] /\
    id_max st' = id_max st /\
    keys st' = filter (fun e => negb (fst e =? p_id c)) (keys st).
Proof.
  intros I P. unfold remove. rewrite (assert_valid_ok _ _ _ I P). cbn [rbind].
  destruct P as (d & L & Eid & Eip). set (i := p_index c) in *.
  pose proof (I_room _ _ I) as R.
  destruct (split_live _ _ _ L) as (l1 & l2 & E1 & L1 & C).
  pose proof (keys_nodup _ _ I) as ND. unfold keys in ND. rewrite C, map_app in ND. simpl in ND.
  rewrite map_app in ND. simpl in ND. rewrite Eid in ND. apply NoDup_remove_2 in ND.
  rewrite in_app_iff in ND.
  assert (KF : filter (fun e => negb (fst e =? p_id c)) (keys st) =
               map key (livef l1) ++ map key (livef l2)).
  { unfold keys. rewrite C, map_app. simpl. rewrite filter_app. simpl.
    rewrite Eid, Z.eqb_refl. simpl. rewrite !filter_notin; auto. }
  destruct L as (La & Lb & Lc).
  destruct (Nat.eqb_spec (S i) (data_size st)) as [EE|NE].
  - (* last slot *)
    eexists. split; [reflexivity|].
    set (st' := {| id_max := _; data_size := _; data := _; dirty := _ |}).
    assert (PL : length (pre st) = data_size st) by (unfold pre; rewrite firstn_length; lia).
    assert (l2 = []).
    { rewrite E1, app_length in PL. simpl in PL. destruct l2; auto. simpl in PL. lia. }
    subst l2.
    assert (Epre : pre st' = l1).
    { unfold pre, st'. simpl. replace (Nat.pred (data_size st)) with i by lia.
      transitivity (firstn i (pre st)).
      - unfold pre. rewrite firstn_firstn. f_equal. lia.
      - rewrite E1, <- L1, firstn_app, Nat.sub_diag. simpl. rewrite app_nil_r.
        apply firstn_all. }
    assert (C' : contents st' = livef l1) by (unfold contents; rewrite Epre; auto).
    split; [|split; [|split]]; auto.
    + constructor; cbn [data data_size dirty id_max st'].
      * lia.
      * apply (I_index _ _ I).
      * apply (I_hole _ _ I).
      * apply (I_dirty_nodup _ _ I).
      * intros j Hj. pose proof (I_dirty_lt _ _ I _ Hj).
        assert (j <> i). { intro; subst j. apply (I_hole _ _ I _ _ Lb) in Hj. congruence. }
        lia.
      * apply (I_hole_id _ _ I).
      * fold st'. rewrite C'. intros e He. apply (I_ids _ _ I). rewrite C. apply in_or_app; auto.
      * fold st'. rewrite C'. pose proof (I_uniq _ _ I) as U. rewrite C, map_app in U.
        simpl in U. apply NoDup_remove_1 in U. rewrite app_nil_r in U. auto.
      * apply (I_idmin _ _ I).
      * apply (I_idN _ _ I).
      * pose proof (I_sizeN _ _ I). lia.
      * apply (I_capN _ _ I).
    + constructor.
      * simpl; lia.
      * intros j e (A & B & D) NI. repeat split; simpl; auto.
        assert (j <> i). { intro; subst j. apply NI. simpl. left. congruence. }
        lia.
      * intros id j (e & (A & B & D) & F). simpl in *. left. exists e. repeat split; auto. lia.
    + unfold keys. rewrite C'. fold (keys st). rewrite KF. simpl. rewrite app_nil_r. auto.
  - rewrite (slot_ok _ _ _ Lb). cbn [rbind].
    eexists. split; [reflexivity|].
    set (dh := set_hole true (set_id (-1) d)).
    set (st' := {| id_max := _; data_size := _; data := _; dirty := _ |}).
    assert (Epre : pre st' = l1 ++ dh :: l2).
    { unfold pre, st'. simpl. rewrite firstn_upd. fold (pre st). rewrite E1, <- L1, upd_split. auto. }
    assert (C' : contents st' = livef l1 ++ livef l2).
    { unfold contents. rewrite Epre, livef_app. auto. }
    split; [|split; [|split]]; auto.
    + constructor; cbn [data data_size dirty id_max st'].
      * rewrite upd_length. auto.
      * intros j e. rewrite nth_error_upd. destruct (Nat.eqb_spec i j).
        -- subst j. destruct (_ <? _)%nat; intros Q; inversion Q. simpl. apply (I_index _ _ I); auto.
        -- apply (I_index _ _ I).
      * intros j e. rewrite nth_error_upd. destruct (Nat.eqb_spec i j).
        -- subst j. destruct (_ <? _)%nat; intros Q; inversion Q. simpl. tauto.
        -- intros Q. rewrite (I_hole _ _ I _ _ Q). simpl. intuition congruence.
      * constructor; [|apply (I_dirty_nodup _ _ I)].
        intros Q. apply (I_hole _ _ I _ _ Lb) in Q. congruence.
      * intros j [<-|Q]; auto. apply (I_dirty_lt _ _ I); auto.
      * intros j e. rewrite nth_error_upd. destruct (Nat.eqb_spec i j).
        -- subst j. destruct (_ <? _)%nat; intros Q; inversion Q. auto.
        -- apply (I_hole_id _ _ I).
      * fold st'. rewrite C'. intros e He. apply (I_ids _ _ I). rewrite C.
        apply in_app_iff in He. apply in_app_iff. simpl. tauto.
      * fold st'. rewrite C', map_app. pose proof (I_uniq _ _ I) as U. rewrite C, map_app in U.
        simpl in U. apply NoDup_remove_1 in U. auto.
      * apply (I_idmin _ _ I).
      * apply (I_idN _ _ I).
      * apply (I_sizeN _ _ I).
      * rewrite upd_length. apply (I_capN _ _ I).
    + constructor.
      * simpl; lia.
      * intros j e (A & B & D) NI. repeat split; simpl; auto.
        rewrite nth_error_upd_neq; auto.
        intro; subst j. apply NI. simpl. left. congruence.
      * intros id j (e & (A & B & D) & F). simpl in A, B. rewrite nth_error_upd in B.
        destruct (Nat.eqb_spec i j).
        -- subst j. destruct (_ <? _)%nat; inversion B. subst e. simpl in D. discriminate.
        -- left. exists e. repeat split; auto.
    + unfold keys. rewrite C'. fold (keys st). rewrite KF, map_app. auto.
Qed.

Lemma pointed_trans N st st' g c :
  Inv N st -> trans st st' g -> pointed st c -> ~ In (p_id c) g -> pointed st' c.
Proof.
  intros I T (d & L & E & F) NI. exists d. split; [|auto]. apply (t_keep _ _ _ T); auto. congruence.
Qed.

Definition delk (i : Z) (l : list (Z * payload)) := filter (fun e => negb (fst e =? i)) l.
Definition delks (ids : list Z) (l : list (Z * payload)) :=
  fold_left (fun l i => delk i l) ids l.

Lemma delk_perm i l l' : Permutation l l' -> Permutation (delk i l) (delk i l').
Proof.
  unfold delk. induction 1; simpl; auto.
  - destruct (negb (fst x =? i)); auto.
  - destruct (negb (fst x =? i)), (negb (fst y =? i)); auto using perm_swap.
  - etransitivity; eauto.
Qed.
Lemma delks_perm ids : forall l l', Permutation l l' -> Permutation (delks ids l) (delks ids l').
Proof. induction ids; simpl; intros; auto. apply IHids, delk_perm; auto. Qed.
Lemma delk_app i l l' : delk i (l ++ l') = delk i l ++ delk i l'.
Proof. apply filter_app. Qed.
Lemma delks_app ids : forall l l', delks ids (l ++ l') = delks ids l ++ delks ids l'.
Proof. induction ids; simpl; intros; auto. rewrite delk_app. auto. Qed.

Lemma delks_notin ids l : (forall i, In i ids -> ~ In i (map fst l)) -> delks ids l = l.
Proof.
  revert l; induction ids; simpl; intros l H; auto.
  unfold delk at 1. rewrite filter_notin by auto. apply IHids. auto.
Qed.

Lemma remove_all_spec cs : forall N st,
  Inv N st -> Forall (pointed st) cs -> NoDup (map p_id cs) ->
  exists st', remove_all st cs = Ok st' /\ Inv N st' /\ trans st st' (map p_id cs) /\
    id_max st' = id_max st /\ keys st' = delks (map p_id cs) (keys st).
Proof.
  induction cs as [|c cs IH]; intros N st I F ND.
  - exists st. simpl. auto using trans_refl.
  - inversion F; subst. inversion ND; subst.
    destruct (remove_spec N st c I H1) as (st1 & E & I1 & T1 & M1 & K1).
    destruct (IH N st1 I1) as (st2 & E2 & I2 & T2 & M2 & K2); auto.
    { rewrite Forall_forall in *. intros x Hx. apply (pointed_trans _ _ _ _ _ I T1 (H2 _ Hx)).
      simpl. intros [Q|[]]. apply H3. rewrite Q. apply in_map; auto. }
    exists st2. simpl. rewrite E. simpl. rewrite E2. splits; auto.
    + apply (trans_trans _ _ _ _ _ T1 T2).
    + congruence.
    + rewrite K2, K1. auto.
Qed.

(** ** copy_in over a live particle (replace) *)
Lemma overwrite_spec N st c p :
  Inv N st -> N + 1 <= LIM -> pointed st c ->
  exists st', copy_in st (p_index c) p = Ok st' /\ Inv (N + 1) st' /\
    trans st st' [p_id c] /\ id_max st' = id_max st + 1 /\
    live st' (p_index c) (mk (p_index c) (id_max st + 1) (p_pl p)) /\
    Permutation (keys st') ((id_max st + 1, p_pl p) :: delk (p_id c) (keys st)).
Proof.
  intros I HN P. rewrite LIM_eq in HN. destruct P as (d & L & Eid & Eip).
  pose proof (I_idmin _ _ I) as IM. pose proof (I_idN _ _ I).
  pose proof (I_room _ _ I) as R.
  destruct (split_live _ _ _ L) as (l1 & l2 & E1 & L1 & C).
  set (i := p_index c) in *.
  destruct L as (La & Lb & Lc).
  rewrite (copy_in_eq st i p d Lb) by (try lia; apply (I_index _ _ I); auto).
  rewrite Lc. fold (mk i (id_max st + 1) (p_pl p)).
  eexists. split; [reflexivity|].
  set (st' := {| id_max := _; data_size := _; data := _; dirty := _ |}).
  assert (Epre : pre st' = l1 ++ mk i (id_max st + 1) (p_pl p) :: l2).
  { unfold pre, st'. simpl. rewrite firstn_upd. fold (pre st). rewrite E1, <- L1, upd_split. auto. }
  assert (C' : contents st' = livef l1 ++ mk i (id_max st + 1) (p_pl p) :: livef l2).
  { unfold contents. rewrite Epre, livef_app. auto. }
  pose proof (I_ids _ _ I) as Ids.
  pose proof (I_uniq _ _ I) as U. rewrite C, map_app in U. simpl in U.
  assert (U2 := NoDup_remove_2 _ _ _ U). apply NoDup_remove_1 in U.
  assert (LV : live st' i (mk i (id_max st + 1) (p_pl p))).
  { repeat split; simpl; auto. apply nth_error_upd_eq. lia. }
  split; [|split; [|split; [|split]]]; auto.
  - constructor; cbn [data data_size dirty id_max st'].
    + rewrite upd_length. auto.
    + intros j e. rewrite nth_error_upd. destruct (Nat.eqb_spec i j).
      * subst j. destruct (_ <? _)%nat; intros Q; inversion Q; auto.
      * apply (I_index _ _ I).
    + intros j e. rewrite nth_error_upd. destruct (Nat.eqb_spec i j).
      * subst j. destruct (_ <? _)%nat; intros Q; inversion Q; simpl.
        rewrite <- (I_hole _ _ I _ _ Lb), Lc. tauto.
      * apply (I_hole _ _ I).
    + apply (I_dirty_nodup _ _ I).
    + apply (I_dirty_lt _ _ I).
    + intros j e. rewrite nth_error_upd. destruct (Nat.eqb_spec i j).
      * subst j. destruct (_ <? _)%nat; intros Q; inversion Q; simpl. discriminate.
      * apply (I_hole_id _ _ I).
    + fold st'. rewrite C'. intros e He. apply in_app_iff in He. simpl in He.
      destruct He as [He|[He|He]].
      * assert (In e (contents st)) by (rewrite C; apply in_or_app; auto). apply Ids in H0. lia.
      * subst e. simpl. lia.
      * assert (In e (contents st)) by (rewrite C; apply in_or_app; simpl; auto). apply Ids in H0. lia.
    + fold st'. rewrite C', map_app. simpl.
      eapply NoDup_Add; [apply Add_app|].
      * split; auto. rewrite <- map_app. intros Q. apply in_map_iff in Q.
        destruct Q as (e & Q1 & Q2).
        assert (In e (contents st)) by (rewrite C; apply in_app_iff; apply in_app_iff in Q2; simpl; tauto).
        apply Ids in H0. lia.
    + lia.
    + lia.
    + pose proof (I_sizeN _ _ I); lia.
    + rewrite upd_length. pose proof (I_capN _ _ I); lia.
  - constructor.
    + simpl. lia.
    + intros j e (A & B & D) NI. repeat split; simpl; auto.
      rewrite nth_error_upd_neq; auto. intro; subst j. apply NI. simpl. left. congruence.
    + intros id j (e & (A & B & D) & F). simpl in A, B. rewrite nth_error_upd in B.
      destruct (Nat.eqb_spec i j).
      * subst j. destruct (_ <? _)%nat; inversion B. subst e. simpl in *. right. lia.
      * left. exists e. repeat split; auto.
  - unfold keys. rewrite C', C, !map_app. simpl.
    rewrite delk_app. simpl. rewrite Eid, Z.eqb_refl. simpl.
    rewrite in_app_iff in U2. rewrite Eid in U2.
    unfold delk. rewrite !filter_notin by (rewrite map_fst_key; tauto).
    symmetry. apply Permutation_middle.
Qed.

Lemma map_fst_combine A B (l1 : list A) (l2 : list B) :
  (length l1 <= length l2)%nat -> map fst (combine l1 l2) = l1.
Proof.
  revert l2; induction l1; intros [|b l2]; simpl; intros; auto; try lia.
  f_equal. apply IHl1. lia.
Qed.

Lemma replace_spec rs : forall adds N st,
  Inv N st -> N + Z.of_nat (length adds) <= LIM ->
  Forall (pointed st) rs -> NoDup (map p_id rs) ->
  exists st' l', replace st rs adds = Ok (st', l') /\
    Inv (N + Z.of_nat (length adds)) st' /\ trans st st' (map p_id rs) /\
    id_max st' = id_max st + Z.of_nat (length adds) /\
    (forall c, In c l' -> exists d, live st' (p_index c) d /\ p_id d = p_id c) /\
    map p_pl l' = map p_pl adds /\
    map p_id l' = map (fun k => id_max st + 1 + Z.of_nat k) (seq 0 (length adds)) /\
    Permutation (keys st')
      (delks (map p_id rs) (keys st) ++
       combine (map (fun k => id_max st + 1 + Z.of_nat k) (seq 0 (length adds))) (map p_pl adds)).
Proof.
  induction rs as [|r rs IH]; intros adds N st I HN F ND.
  - destruct adds as [|a adds].
    + exists st, []. simpl. rewrite !Z.add_0_r, app_nil_r.
      split; auto. split; auto. split; [apply trans_refl|]. repeat split; auto. intros; tauto.
    + apply (insert_all_spec (a :: adds) N st); auto.
  - destruct adds as [|a adds].
    + destruct (remove_all_spec (r :: rs) N st I F ND) as (st' & E & I' & T' & M' & K').
      exists st', []. cbn [replace]. rewrite E. cbn [rbind]. simpl length.
      simpl Z.of_nat. rewrite !Z.add_0_r. simpl combine. rewrite app_nil_r.
      split; auto. split; auto. split; auto. splits; auto; try tauto.
      { intros c []. }
      rewrite K'. auto.
    + inversion F; subst. inversion ND; subst. simpl length in HN.
      rewrite Nat2Z.inj_succ in HN.
      cbn [replace]. rewrite (assert_valid_ok _ _ _ I H1). cbn [rbind].
      destruct (overwrite_spec N st r a I) as (st1 & E & I1 & T1 & M1 & L1 & P1); auto; [lia|].
      rewrite E. cbn [rbind]. destruct L1 as (L1a & L1b & L1c).
      rewrite (slot_ok _ _ _ L1b). cbn [rbind].
      destruct (IH adds (N+1) st1 I1) as (st2 & l2 & E2 & I2 & T2 & M2 & S2 & Q2 & R2 & P2); auto; [lia| |].
      { rewrite Forall_forall in *. intros x Hx. apply (pointed_trans _ _ _ _ _ I T1 (H2 _ Hx)).
        simpl. intros [Q|[]]. apply H3. rewrite Q. apply in_map; auto. }
      rewrite E2. cbn [rbind].
      eexists _, _. split; [reflexivity|]. simpl length.
      split; [eapply Inv_mono; [|exact I2]; lia|].
      split; [apply (trans_trans _ _ _ _ _ T1 T2)|].
      split; [lia|].
      assert (Nin : ~ In (id_max st + 1) (map p_id rs)).
      { intros Q. apply in_map_iff in Q. destruct Q as (x & Q1 & Q2').
        rewrite Forall_forall in H2. pose proof (pointed_id _ _ _ I (H2 _ Q2')). lia. }
      split.
      { intros c [<-|Hc]; [|apply S2; auto]. simpl.
        eexists. split; [apply (t_keep _ _ _ T2); [repeat split; [exact L1a|exact L1b|auto]|]|]; auto. }
      split; [simpl; f_equal; auto|].
      assert (SQ : map (fun k => id_max st1 + 1 + Z.of_nat k) (seq 0 (length adds)) =
                   map (fun k => id_max st + 1 + Z.of_nat k) (seq 1 (length adds))).
      { rewrite <- seq_shift, map_map. apply map_ext. intros. lia. }
      split; [simpl; rewrite R2, SQ; f_equal; lia|].
      simpl. rewrite P2, SQ, Z.add_0_r.
      rewrite (delks_perm _ _ _ P1).
      change ((id_max st + 1, p_pl a) :: delk (p_id r) (keys st)) with
        ([(id_max st + 1, p_pl a)] ++ delk (p_id r) (keys st)).
      rewrite delks_app. rewrite (delks_notin _ [_]).
      2:{ simpl. intros j Hj [Q|[]]. subst j. auto. }
      simpl. apply Permutation_middle.
Qed.

(** ** create *)
Lemma create1_insert st t : (forall i, In i (dirty st) -> (i < length (data st))%nat) ->
  create1 st t = insert st (particle_of_type t).
Proof.
  intros HB. unfold create1, insert. destruct (dirty st) as [|off holes] eqn:HD.
  - destruct (ensure_capacity st 1) as [st1| |]; simpl; auto.
    unfold copy_in, slot, next_id. simpl.
    destruct (nth_error (data st1) (data_size st1)); simpl; auto.
    destruct (sint (id_max st1 + 1)); simpl; auto.
  - unfold copy_in, unhole, slot, next_id. simpl.
    destruct (nth_error (data st) off) as [d|] eqn:E; simpl; auto.
    assert (off < length (data st))%nat by (apply HB; simpl; auto).
    repeat (rewrite nth_error_upd_eq by (rewrite ?upd_length; auto); simpl).
    destruct (sint (id_max st + 1)); simpl; auto.
    repeat (rewrite nth_error_upd_eq by (rewrite ?upd_length; auto); simpl).
    assert (UU : forall A n (x y : A) l, upd n x (upd n y l) = upd n x l).
    { clear. intros A n x y l. revert n. induction l; intros [|n]; simpl; auto. f_equal; auto. }
    rewrite !UU. auto.
Qed.

Lemma create_in_holes_spec holes : forall N st num t,
  Inv N st -> dirty st = holes -> 0 <= num -> N + num <= LIM ->
  exists st' k, create_in_holes holes num (particle_of_type t) st = Ok (st', num - k) /\
    0 <= k <= num /\ (k < num -> dirty st' = []) /\
    Inv (N + k) st' /\ trans st st' [] /\ id_max st' = id_max st + k /\
    Permutation (keys st') (keys st ++
      combine (map (fun k => id_max st + 1 + Z.of_nat k) (seq 0 (Z.to_nat k)))
              (repeat (p_pl (particle_of_type t)) (Z.to_nat k))).
Proof.
  induction holes as [|off holes IH]; intros N st num t I HD H0 HN.
  - exists st, 0. simpl. rewrite Z.sub_0_r, !Z.add_0_r, app_nil_r.
    split; auto. split; [lia|]. split; auto. split; auto. split; [apply trans_refl|]. auto.
  - simpl. destruct (Z.eqb_spec num 0).
    + exists st, 0. simpl. rewrite Z.sub_0_r, !Z.add_0_r, app_nil_r.
      split; auto. split; [lia|]. split; [lia|]. split; auto. split; [apply trans_refl|]. auto.
    + destruct (insert_spec N st (particle_of_type t) I) as (st1 & i & E & I1 & T1 & L1 & M1 & P1); [lia|].
      unfold insert in E. rewrite HD in E.
      apply rbind_ok in E. destruct E as (sa & Ea & E). rewrite Ea. cbn [rbind].
      apply rbind_ok in E. destruct E as (sb & Eb & E). rewrite Eb. cbn [rbind].
      apply rbind_ok in E. destruct E as (dd & _ & E). inversion E; subst sb; clear E.
      assert (HD1 : dirty st1 = holes).
      { unfold copy_in in Ea. apply rbind_ok in Ea. destruct Ea as (x & _ & Ea).
        apply rbind_ok in Ea. destruct Ea as (y & _ & Ea). inversion Ea; subst sa.
        unfold unhole in Eb. apply rbind_ok in Eb. destruct Eb as (z & _ & Eb).
        inversion Eb; subst st1. auto. }
      destruct (IH (N+1) st1 (num - 1) t I1 HD1) as (st2 & k & E2 & K2 & D2 & I2 & T2 & M2 & P2); [lia|lia|].
      exists st2, (k + 1). rewrite E2. split; [do 2 f_equal; lia|].
      split; [lia|]. split; [intros; apply D2; lia|].
      split; [eapply Inv_mono; [|exact I2]; lia|].
      split; [apply (trans_trans _ _ _ _ _ T1 T2)|].
      split; [lia|].
      rewrite P2, P1. replace (Z.to_nat (k + 1)) with (S (Z.to_nat k)) by lia. simpl.
      rewrite Z.add_0_r. rewrite M1.
      replace (map (fun k0 => id_max st + 1 + 1 + Z.of_nat k0) (seq 0 (Z.to_nat k)))
        with (map (fun k0 => id_max st + 1 + Z.of_nat k0) (seq 1 (Z.to_nat k))).
      2:{ rewrite <- seq_shift, map_map. apply map_ext. intros. lia. }
      apply Permutation_middle.
Qed.

(** Appending [n] particles one after the other, array already large enough. *)
Lemma create_at_end_spec n : forall N st t,
  Inv N st -> N + Z.of_nat n <= LIM -> dirty st = [] ->
  Z.of_nat (data_size st) + Z.of_nat n < Z.of_nat (length (data st)) ->
  exists st', create_at_end n (data_size st) (particle_of_type t) st = Ok st' /\
    let st'' := {| id_max := id_max st'; data_size := data_size st' + n;
                   data := data st'; dirty := dirty st' |} in
    Inv (N + Z.of_nat n) st'' /\ trans st st'' [] /\ id_max st' = id_max st + Z.of_nat n /\
    Permutation (keys st'') (keys st ++
      combine (map (fun k => id_max st + 1 + Z.of_nat k) (seq 0 n))
              (repeat (p_pl (particle_of_type t)) n)).
Proof.
  induction n as [|n IH]; intros N st t I HN HD HL.
  - exists st. simpl. split; auto. rewrite Nat.add_0_r, !Z.add_0_r, app_nil_r.
    replace {| id_max := id_max st; data_size := data_size st; data := data st; dirty := dirty st |}
      with st by (destruct st; auto).
    split; auto. split; [apply trans_refl|]. auto.
  - assert (HN' := HN). rewrite LIM_eq in HN'. rewrite Nat2Z.inj_succ in *.
    pose proof (I_idmin _ _ I). pose proof (I_idN _ _ I). pose proof (I_room _ _ I).
    pose proof (I_capN _ _ I).
    destruct (nth_error_lt _ (data st) (data_size st)) as (d & Hd); [lia|].
    assert (Hh : p_hole d = false).
    { destruct (p_hole d) eqn:HH; auto. apply (I_hole _ _ I _ _ Hd) in HH.
      rewrite HD in HH. simpl in HH. tauto. }
    simpl. rewrite (copy_in_eq st _ _ d Hd) by (try lia; apply (I_index _ _ I); auto).
    rewrite Hh. cbn [rbind].
    destruct (append_slot_spec N st st (p_pl (particle_of_type t)) I ltac:(lia) HD
       eq_refl eq_refl eq_refl eq_refl (fun i _ => eq_refl) ltac:(lia) H2) as (A & B & C & D).
    { intros i e Q1 Q2. split; [apply (I_index _ _ I); auto|].
      destruct (p_hole e) eqn:HH; auto. apply (I_hole _ _ I _ _ Q1) in HH.
      rewrite HD in HH. simpl in HH. tauto. }
    set (st1 := {| id_max := id_max st + 1; data_size := S (data_size st);
                   data := upd (data_size st) (mk (data_size st) (id_max st + 1)
                     (p_pl (particle_of_type t))) (data st); dirty := [] |}) in *.
    destruct (IH (N + 1) st1 t A) as (st2 & E2 & I2 & T2 & M2 & P2); auto; [lia| |].
    { unfold st1. cbn [data data_size]. rewrite upd_length. lia. }
    (* the code keeps data_size_ fixed inside the loop *)
    assert (SH : forall m s i pd,
       create_at_end m i pd {| id_max := id_max s; data_size := S (data_size s); data := data s; dirty := dirty s |}
       = match create_at_end m i pd s with
         | Ok s' => Ok {| id_max := id_max s'; data_size := S (data_size s'); data := data s'; dirty := dirty s' |}
         | Throw e => Throw e | UB u => UB u end).
    { clear. induction m; intros s i pd; simpl; auto.
      unfold copy_in, slot, next_id. simpl.
      destruct (nth_error (data s) i); simpl; auto.
      destruct (sint (id_max s + 1)); simpl; auto.
      match goal with |- context [create_at_end m (S i) pd ?s'] =>
        match s' with {| data_size := data_size s |} => specialize (IHm s' (S i) pd) end end.
      simpl in IHm. rewrite <- IHm. auto. }
    set (s0 := {| id_max := id_max st + 1; data_size := data_size st; data := _; dirty := dirty st |}).
    specialize (SH n s0 (S (data_size st)) (particle_of_type t)).
    assert (Es : {| id_max := id_max s0; data_size := S (data_size s0); data := data s0; dirty := dirty s0 |} = st1).
    { unfold s0, st1. simpl. rewrite HD. auto. }
    rewrite Es in SH. change (S (data_size st)) with (data_size st1) in SH at 1.
    rewrite E2 in SH.
    destruct (create_at_end n (S (data_size st)) (particle_of_type t) s0) as [st3| |] eqn:E3;
      try discriminate.
    exists st3. split; auto. inversion SH; subst st2; clear SH.
    cbn [id_max data_size data dirty] in *.
    assert (Eq : {| id_max := id_max st3; data_size := S (data_size st3) + n; data := data st3; dirty := dirty st3 |}
               = {| id_max := id_max st3; data_size := data_size st3 + S n; data := data st3; dirty := dirty st3 |}).
    { f_equal. lia. }
    rewrite Eq in *.
    split; [eapply Inv_mono; [|exact I2]; lia|].
    split; [apply (trans_trans _ _ _ _ _ B T2)|].
    split; [simpl in M2; lia|].
    rewrite P2, D. simpl. rewrite Z.add_0_r.
    replace (map (fun k => id_max st + 1 + 1 + Z.of_nat k) (seq 0 n))
      with (map (fun k => id_max st + 1 + Z.of_nat k) (seq 1 n)).
    2:{ rewrite <- seq_shift, map_map. apply map_ext. intros. lia. }
    apply Permutation_middle.
Qed.

Lemma combine_app A B (a1 : list A) : forall (b1 : list B) a2 b2,
  length a1 = length b1 -> combine (a1 ++ a2) (b1 ++ b2) = combine a1 b1 ++ combine a2 b2.
Proof. induction a1; intros [|b b1]; simpl; intros; auto; try discriminate. f_equal. auto. Qed.

Lemma seq_add_map a b n : seq (a + b) n = map (fun k => (a + k)%nat) (seq b n).
Proof.
  revert b; induction n; simpl; intros; auto. f_equal. rewrite <- IHn. f_equal. lia.
Qed.

Lemma create_n_spec N st num t :
  Inv N st -> 0 <= num -> N + num <= LIM ->
  exists st', create_n st num t = Ok st' /\
    Inv (N + num) st' /\ trans st st' [] /\ id_max st' = id_max st + num /\
    Permutation (keys st') (keys st ++
      combine (map (fun k => id_max st + 1 + Z.of_nat k) (seq 0 (Z.to_nat num)))
              (repeat (p_pl (particle_of_type t)) (Z.to_nat num))).
Proof.
  intros I H0 HN. unfold create_n.
  destruct (create_in_holes_spec (dirty st) N st num t I eq_refl H0 HN)
    as (st1 & k & E1 & K & D1 & I1 & T1 & M1 & P1).
  rewrite E1. cbn [rbind].
  destruct (Z.eqb_spec (num - k) 0).
  - assert (k = num) by lia. subst k. exists st1. auto.
  - assert (HN' := HN). rewrite LIM_eq in HN'.
    pose proof (I_idmin _ _ I). pose proof (I_idN _ _ I).
    destruct (ensure_capacity_spec (N + k) st1 (num - k) I1) as
      (st2 & E2 & F1 & F2 & F3 & F4 & F5 & F6 & F7 & F8); [lia|lia|].
    rewrite u32_small by lia. rewrite E2. cbn [rbind].
    rewrite F2.
    destruct (Z.ltb_spec (capacity st2) (Z.of_nat (data_size st1) + (num - k))).
    { unfold capacity in *. lia. }
    assert (I2 : Inv (N + k) st2).
    { assert (HC : contents st2 = contents st1) by (unfold contents; rewrite F4; auto).
      constructor.
      - rewrite F2. lia.
      - intros i d Q. destruct (Nat.lt_ge_cases i (data_size st1)).
        + rewrite F5 in Q by auto. apply (I_index _ _ I1); auto.
        + apply (F8 _ _ Q); auto.
      - intros i d Q. rewrite F3. destruct (Nat.lt_ge_cases i (data_size st1)).
        + rewrite F5 in Q by auto. apply (I_hole _ _ I1); auto.
        + destruct (F8 _ _ Q) as [_ Z]; auto. rewrite Z. split; [discriminate|].
          intros Y. apply (I_dirty_lt _ _ I1) in Y. lia.
      - rewrite F3. apply (I_dirty_nodup _ _ I1).
      - rewrite F3, F2. apply (I_dirty_lt _ _ I1).
      - intros i d Q HH. destruct (Nat.lt_ge_cases i (data_size st1)).
        + rewrite F5 in Q by auto. apply (I_hole_id _ _ I1 _ _ Q HH).
        + destruct (F8 _ _ Q) as [_ Z]; auto. congruence.
      - rewrite HC, F1. apply (I_ids _ _ I1).
      - rewrite HC. apply (I_uniq _ _ I1).
      - rewrite F1. apply (I_idmin _ _ I1).
      - rewrite F1. pose proof (I_idN _ _ I1). lia.
      - rewrite F2. pose proof (I_sizeN _ _ I1). lia.
      - lia. }
    assert (T2 : trans st1 st2 []).
    { constructor.
      - lia.
      - intros i d (A & B & C) _. repeat split; auto; try congruence. rewrite F5; auto.
      - intros id i (d & (A & B & C) & D). left. exists d. rewrite F2 in A. rewrite F5 in B by auto.
        repeat split; auto. }
    assert (K2 : keys st2 = keys st1) by (unfold keys, contents; rewrite F4; auto).
    destruct (create_at_end_spec (Z.to_nat (num - k)) (N + k) st2 t I2)
      as (st3 & E3 & I3 & T3 & M3 & P3); [lia|rewrite F3; apply D1; lia|lia|].
    rewrite F2 in E3. rewrite E3. cbn [rbind].
    eexists. split; [reflexivity|].
    split; [eapply Inv_mono; [|exact I3]; lia|].
    split; [apply (trans_trans _ _ _ _ _ T1 (trans_trans _ _ _ _ _ T2 T3))|].
    split; [simpl; lia|].
    rewrite P3, K2, P1, <- app_assoc. apply Permutation_app_head.
    rewrite F1, M1.
    replace (Z.to_nat num) with (Z.to_nat k + Z.to_nat (num - k))%nat by lia.
    rewrite seq_app, map_app, repeat_app, combine_app.
    2:{ rewrite map_length, seq_length, repeat_length. auto. }
    apply Permutation_app_head.
    apply Permutation_refl'. f_equal.
    replace (seq (0 + Z.to_nat k) (Z.to_nat (num - k))) with (seq (Z.to_nat k + 0) (Z.to_nat (num - k))) by (f_equal; lia).
    rewrite seq_add_map, map_map. apply map_ext. intros. lia.
Qed.

(** ** update *)
Definition setk (i : Z) (ip : Z) (r : list Z) (l : list (Z * payload)) :=
  map (fun e => if fst e =? i
                then (fst e, {| pl_type := pl_type (snd e); pl_idproc := ip; pl_rest := r |})
                else e) l.

Lemma setk_perm i ip r l l' : Permutation l l' -> Permutation (setk i ip r l) (setk i ip r l').
Proof. apply Permutation_map. Qed.

Lemma setk_notin i ip r l : ~ In i (map fst l) -> setk i ip r l = l.
Proof.
  unfold setk. induction l as [|e l IH]; simpl; auto. intros H.
  destruct (Z.eqb_spec (fst e) i); [tauto|]. f_equal. tauto.
Qed.

(** Overwriting the fields of a live particle in place. *)
Lemma inplace_spec N st i d ip r :
  Inv N st -> live st i d ->
  let d' := {| p_id := p_id d; p_index := p_index d; p_hole := p_hole d;
               p_pl := {| pl_type := pl_type (p_pl d); pl_idproc := ip; pl_rest := r |} |} in
  let st' := with_data (upd i d' (data st)) st in
  Inv N st' /\ trans st st' [p_id d] /\ live st' i d' /\
  keys st' = setk (p_id d) ip r (keys st).
Proof.
  intros I L d' st'.
  pose proof (I_room _ _ I) as R.
  destruct (split_live _ _ _ L) as (l1 & l2 & E1 & L1 & C).
  destruct L as (La & Lb & Lc).
  assert (Epre : pre st' = l1 ++ d' :: l2).
  { unfold pre, st'. simpl. rewrite firstn_upd. fold (pre st). rewrite E1, <- L1, upd_split. auto. }
  assert (C' : contents st' = livef l1 ++ d' :: livef l2).
  { unfold contents. rewrite Epre, livef_app. simpl. rewrite Lc. auto. }
  assert (LV : live st' i d').
  { repeat split; simpl; auto. apply nth_error_upd_eq. lia. }
  splits; auto.
  - constructor; cbn [data data_size dirty id_max st' with_data].
    + rewrite upd_length. auto.
    + intros j e. rewrite nth_error_upd. destruct (Nat.eqb_spec i j).
      * subst j. destruct (_ <? _)%nat; intros Q; inversion Q. simpl. apply (I_index _ _ I); auto.
      * apply (I_index _ _ I).
    + intros j e. rewrite nth_error_upd. destruct (Nat.eqb_spec i j).
      * subst j. destruct (_ <? _)%nat; intros Q; inversion Q. simpl. apply (I_hole _ _ I); auto.
      * apply (I_hole _ _ I).
    + apply (I_dirty_nodup _ _ I).
    + apply (I_dirty_lt _ _ I).
    + intros j e. rewrite nth_error_upd. destruct (Nat.eqb_spec i j).
      * subst j. destruct (_ <? _)%nat; intros Q; inversion Q. simpl. congruence.
      * apply (I_hole_id _ _ I).
    + fold st'. rewrite C'. intros e He. apply in_app_iff in He. simpl in He.
      destruct He as [He|[He|He]].
      * apply (I_ids _ _ I). rewrite C. apply in_or_app; auto.
      * subst e. simpl. apply (I_ids _ _ I d). rewrite C. apply in_or_app; simpl; auto.
      * apply (I_ids _ _ I). rewrite C. apply in_or_app; simpl; auto.
    + fold st'. rewrite C', map_app. simpl. pose proof (I_uniq _ _ I) as U.
      rewrite C, map_app in U. auto.
    + apply (I_idmin _ _ I).
    + apply (I_idN _ _ I).
    + apply (I_sizeN _ _ I).
    + rewrite upd_length. apply (I_capN _ _ I).
  - constructor.
    + simpl. lia.
    + intros j e (A & B & D) NI. repeat split; simpl; auto.
      rewrite nth_error_upd_neq; auto. intro; subst j. apply NI. simpl. left. congruence.
    + intros id j (e & (A & B & D) & F). simpl in A, B. rewrite nth_error_upd in B.
      destruct (Nat.eqb_spec i j).
      * subst j. destruct (_ <? _)%nat; inversion B. subst e. left. exists d. repeat split; auto.
      * left. exists e. repeat split; auto.
  - unfold keys. rewrite C', C, !map_app. simpl.
    pose proof (I_uniq _ _ I) as U. rewrite C, map_app in U. simpl in U.
    apply NoDup_remove_2 in U. rewrite in_app_iff in U.
    unfold setk. rewrite map_app. simpl. rewrite Z.eqb_refl.
    fold (setk (p_id d) ip r (map key (livef l1))). fold (setk (p_id d) ip r (map key (livef l2))).
    rewrite !setk_notin by (rewrite map_fst_key; tauto). auto.
Qed.

Lemma update_particle_spec N st c n :
  Inv N st -> pointed st c -> pl_type (p_pl c) = pl_type (p_pl n) ->
  exists st' d, update_particle st c n = Ok (st', d) /\ Inv N st' /\
    trans st st' [p_id c] /\ id_max st' = id_max st /\
    live st' (p_index c) d /\ p_index d = p_index c /\ p_id d = p_id c /\
    keys st' = setk (p_id c) (pl_idproc (p_pl n)) (pl_rest (p_pl n)) (keys st).
Proof.
  intros I P T. unfold update_particle. rewrite (assert_valid_ok _ _ _ I P). cbn [rbind].
  rewrite T, Z.eqb_refl. cbn [negb]. destruct P as (d & L & Eid & Eip).
  destruct L as (La & Lb & Lc) eqn:EL. clear EL.
  rewrite (slot_ok _ _ _ Lb). cbn [rbind].
  destruct (inplace_spec N st (p_index c) d (pl_idproc (p_pl n)) (pl_rest (p_pl n)) I)
    as (A & B & C & D). { repeat split; auto. }
  eexists _, _. split; [reflexivity|]. rewrite <- Eid. unfold copy_to.
  splits; auto. simpl. apply (I_index _ _ I); auto.
Qed.

Lemma pointed_same_id st st' c :
  pointed st c -> (forall i d, live st i d -> p_id d = p_id c -> live st' i d) -> pointed st' c.
Proof. intros (d & L & E & F) H. exists d. auto. Qed.

Definition setks (l : list (pdata * pdata)) (k : list (Z * payload)) :=
  fold_left (fun k on => setk (p_id (fst on)) (pl_idproc (p_pl (snd on))) (pl_rest (p_pl (snd on))) k) l k.

Lemma update_all_spec os : forall ns N st,
  Inv N st -> Forall (pointed st) os -> NoDup (map p_id os) -> length os = length ns ->
  Forall (fun on => pl_type (p_pl (fst on)) = pl_type (p_pl (snd on))) (combine os ns) ->
  exists st' l', update_all st os ns = Ok (st', l') /\ Inv N st' /\
    trans st st' (map p_id os) /\ id_max st' = id_max st /\
    (forall c, In c l' -> exists d, live st' (p_index c) d /\ p_id d = p_id c) /\
    keys st' = setks (combine os ns) (keys st).
Proof.
  induction os as [|c cs IH]; intros [|n ns] N st I F ND HL HT; simpl in HL; try discriminate.
  - exists st, []. simpl. splits; auto using trans_refl. intros c [].
  - inversion F; subst. inversion ND; subst. simpl in HT. inversion HT; subst.
    destruct (update_particle_spec N st c n I H1 H5) as (st1 & d & E & I1 & T1 & M1 & L1 & X1 & X2 & K1).
    destruct (IH ns N st1 I1) as (st2 & l2 & E2 & I2 & T2 & M2 & S2 & K2); auto.
    { rewrite Forall_forall in *. intros x Hx. apply (pointed_trans _ _ _ _ _ I T1 (H2 _ Hx)).
      simpl. intros [Q|[]]. apply H3. rewrite Q. apply in_map; auto. }
    exists st2, (d :: l2). simpl. rewrite E. simpl. rewrite E2. simpl. splits; auto.
    + apply (trans_trans _ _ _ _ _ T1 T2).
    + congruence.
    + intros e [<-|He]; [|apply S2; auto]. exists d. split; auto. rewrite X1.
      apply (t_keep _ _ _ T2); auto. rewrite X2. auto.
    + rewrite K2, K1. auto.
Qed.

(** ** reset *)
Lemma unhole_all_spec holes : forall st,
  (forall i, In i holes -> (i < length (data st))%nat) ->
  exists st', unhole_all holes st = Ok st' /\ id_max st' = id_max st /\
    data_size st' = data_size st /\ length (data st') = length (data st) /\
    (forall i d, nth_error (data st') i = Some d -> exists e, nth_error (data st) i = Some e /\
       p_index d = p_index e /\ (p_hole d = true -> p_hole e = true /\ ~ In i holes)).
Proof.
  induction holes as [|i holes IH]; intros st H.
  - exists st. simpl. splits; auto. intros i d Q. exists d. splits; auto.
  - simpl. unfold unhole at 1. destruct (nth_error_lt _ (data st) i) as (e & He).
    { apply H. simpl; auto. }
    rewrite (slot_ok _ _ _ He). cbn [rbind].
    destruct (IH (with_data (upd i (set_hole false e) (data st)) st)) as (st' & E & A & B & C & D).
    { intros j Hj. simpl. rewrite upd_length. apply H. simpl; auto. }
    exists st'. splits; auto.
    + rewrite C. simpl. apply upd_length.
    + intros j d Q. destruct (D _ _ Q) as (e' & Q1 & Q2 & Q3). simpl in Q1.
      rewrite nth_error_upd in Q1. destruct (Nat.eqb_spec i j).
      * subst j. destruct (_ <? _)%nat; inversion Q1. subst e'. exists e. splits; auto.
        intros HH. apply Q3 in HH. simpl in HH. destruct HH. discriminate.
      * exists e'. splits; auto. intros HH. apply Q3 in HH. simpl. intuition.
Qed.

Lemma reset_spec N st :
  Inv N st -> 0 <= N -> exists st', reset st = Ok st' /\ Inv 0 st' /\ id_max st' = -1 /\ keys st' = [].
Proof.
  intros I HN. unfold reset.
  pose proof (I_room _ _ I) as R.
  destruct (unhole_all_spec (dirty st)
     {| id_max := -1; data_size := 0; data := data st; dirty := dirty st |})
    as (st1 & E & A & B & C & D).
  { simpl. intros i Hi. apply (I_dirty_lt _ _ I) in Hi. lia. }
  rewrite E. cbn [rbind]. simpl in *.
  eexists. split; [reflexivity|].
  assert (NH : forall i d, nth_error (data st1) i = Some d -> p_hole d = false).
  { intros i d Q. destruct (D _ _ Q) as (e & Q1 & _ & Q3). destruct (p_hole d); auto.
    destruct (Q3 eq_refl) as [Q4 Q5]. apply (I_hole _ _ I _ _ Q1) in Q4. tauto. }
  unfold keys, contents, pre. cbn [data data_size dirty id_max]. rewrite B. splits; auto.
  constructor; unfold contents, pre; cbn [data data_size dirty id_max]; rewrite ?B, ?A, ?C.
  - lia.
  - intros i d Q. destruct (D _ _ Q) as (e & Q1 & Q2 & _). rewrite Q2. apply (I_index _ _ I); auto.
  - intros i d Q. rewrite (NH _ _ Q). simpl. split; [discriminate|tauto].
  - constructor.
  - simpl; tauto.
  - intros i d Q. rewrite (NH _ _ Q). discriminate.
  - simpl; tauto.
  - constructor.
  - lia.
  - lia.
  - simpl. lia.
  - apply (I_capN _ _ I).
Qed.

(** ** Iteration *)
Lemma scan_spec d : forall fuel i,
  (exists j e, (i <= j)%nat /\ nth_error d j = Some e /\ p_hole e = false) ->
  (length d < fuel + i)%nat ->
  exists j e, scan fuel d i = Ok j /\ (i <= j)%nat /\ nth_error d j = Some e /\ p_hole e = false /\
    (forall k e, (i <= k < j)%nat -> nth_error d k = Some e -> p_hole e = true).
Proof.
  induction fuel as [|f IH]; intros i (j & e & Hj & He & Hh) HF.
  - assert (j < length d)%nat by (apply nth_error_Some; congruence). lia.
  - simpl. assert (j < length d)%nat by (apply nth_error_Some; congruence).
    destruct (nth_error_lt _ d i) as (x & Hx); [lia|]. rewrite Hx.
    destruct (p_hole x) eqn:E.
    + destruct (IH (S i)) as (j' & e' & A & B & C & D & F).
      * exists j, e. splits; auto. assert (i <> j) by (intro; subst; congruence). lia.
      * lia.
      * exists j', e'. splits; auto; [lia|]. intros k y Hk Hy.
        destruct (Nat.eq_dec k i); [subst; congruence|]. apply (F k y); auto. lia.
    + exists i, x. splits; auto. intros. lia.
Qed.

(** The live particles from slot [i] on. *)
Definition rest_live (st : pstate) (i : nat) : list pdata := livef (skipn i (pre st)).

Lemma skipn_nth A (l : list A) i x : nth_error l i = Some x -> skipn i l = x :: skipn (S i) l.
Proof.
  revert i; induction l; intros [|i]; simpl; intros; try discriminate.
  - congruence.
  - rewrite (IHl _ H). auto.
Qed.

Lemma livef_skip_holes l i j :
  (i <= j)%nat -> (forall k e, (i <= k < j)%nat -> nth_error l k = Some e -> p_hole e = true) ->
  livef (skipn i l) = livef (skipn j l).
Proof.
  intros H. induction H as [|j H IH]; intros F; auto.
  rewrite IH by (intros k e Hk; apply F; lia).
  destruct (nth_error l j) as [e|] eqn:E.
  - rewrite (skipn_nth _ _ _ _ E). simpl. rewrite (F j e) by (auto; lia). auto.
  - apply nth_error_None in E. rewrite !skipn_all2 by lia. auto.
Qed.

Lemma end_slot N st : Inv N st ->
  exists e, nth_error (data st) (data_size st) = Some e /\ p_hole e = false.
Proof.
  intros I. pose proof (I_room _ _ I) as R.
  destruct (nth_error_lt _ (data st) (data_size st)) as (e & He); auto.
  exists e. split; auto. destruct (p_hole e) eqn:HH; auto.
  apply (I_hole _ _ I _ _ He) in HH. apply (I_dirty_lt _ _ I) in HH. lia.
Qed.

Lemma scan_to_end N st i :
  Inv N st -> (i <= data_size st)%nat ->
  exists j, scan (S (length (data st))) (data st) i = Ok j /\ (i <= j <= data_size st)%nat /\
    rest_live st i = rest_live st j /\
    ((j < data_size st)%nat -> exists e, live st j e).
Proof.
  intros I Hi. destruct (end_slot _ _ I) as (e & He & Hh).
  destruct (scan_spec (data st) (S (length (data st))) i) as (j & x & A & B & C & D & F).
  { exists (data_size st), e. auto. }
  { lia. }
  exists j. assert (j <= data_size st)%nat.
  { destruct (Nat.le_gt_cases j (data_size st)); auto.
    rewrite (F (data_size st) e) in Hh by (auto; lia). discriminate. }
  splits; auto.
  - apply livef_skip_holes; auto. intros k y Hk Hy. unfold pre in Hy.
    rewrite nth_error_firstn in Hy by lia. apply (F k y); auto.
  - intros. exists x. repeat split; auto.
Qed.

Lemma iter_loop_spec N st : Inv N st ->
  forall fuel i, (i <= data_size st)%nat -> (data_size st <= fuel + i)%nat ->
  (i = data_size st \/ exists e, live st i e) ->
  iter_loop fuel st i = Ok (rest_live st i).
Proof.
  intros I. assert (PL : length (pre st) = data_size st).
  { unfold pre. rewrite firstn_length. pose proof (I_room _ _ I). lia. }
  assert (R0 : rest_live st (data_size st) = []).
  { unfold rest_live. rewrite skipn_all2; auto. lia. }
  induction fuel as [|f IH]; intros i Hi HF HL; simpl; unfold end_.
  - assert (i = data_size st) by lia. subst. rewrite Nat.eqb_refl, R0. auto.
  - destruct (Nat.eqb_spec i (data_size st)); [subst; rewrite R0; auto|].
    destruct HL as [?|(e & L)]; [congruence|].
    assert (L' := L). destruct L' as (La & Lb & Lc).
    rewrite (slot_ok _ _ _ Lb). cbn [rbind].
    unfold succ_. destruct (scan_to_end N st (S i) I) as (j & E & B & C & D); [lia|].
    rewrite E. cbn [rbind].
    rewrite IH; [| lia | lia |].
    2:{ destruct (Nat.eq_dec j (data_size st)); auto. right. apply D. lia. }
    cbn [rbind]. f_equal. unfold rest_live at 2.
    rewrite (skipn_nth _ _ i e).
    2:{ unfold pre. rewrite nth_error_firstn; auto. }
    simpl. rewrite Lc. simpl. f_equal. symmetry. exact C.
Qed.

Lemma iterate_spec N st : Inv N st -> iterate st = Ok (contents st).
Proof.
  intros I. unfold iterate, begin_.
  destruct (scan_to_end N st 0 I) as (j & E & B & C & D); [lia|].
  rewrite E. cbn [rbind]. pose proof (I_room _ _ I).
  rewrite (iter_loop_spec N st I) by (try lia;
    destruct (Nat.eq_dec j (data_size st)); auto; right; apply D; lia).
  rewrite <- C. auto.
Qed.

Lemma copy_to_vector_spec N st : Inv N st -> copy_to_vector st = Ok (contents st).
Proof.
  intros I. unfold copy_to_vector. destruct (dirty st) eqn:HD.
  - pose proof (I_room _ _ I).
    destruct (Nat.leb_spec (data_size st) (length (data st))); [|lia].
    f_equal. unfold contents, pre. fold (pre st).
    assert (forall d, In d (pre st) -> p_hole d = false).
    { intros d Hd. apply In_nth_error in Hd. destruct Hd as (i & Hi).
      destruct (Nat.lt_ge_cases i (data_size st)).
      - unfold pre in Hi. rewrite nth_error_firstn in Hi by auto.
        destruct (p_hole d) eqn:HH; auto. apply (I_hole _ _ I _ _ Hi) in HH. rewrite HD in HH.
        destruct HH.
      - unfold pre in Hi. rewrite nth_error_firstn_ge in Hi by auto. discriminate. }
    clear - H1. induction (pre st); simpl; auto. rewrite H1 by (simpl; auto). simpl. f_equal.
    apply IHl. intros. apply H1. simpl; auto.
  - apply iterate_spec with N; auto.
Qed.

Lemma front_spec N st d : Inv N st -> In d (contents st) ->
  exists e, front st = Ok e /\ hd_error (contents st) = Some e.
Proof.
  intros I Hd. unfold front, begin_.
  destruct (scan_to_end N st 0 I) as (j & E & B & C & D); [lia|].
  rewrite E. cbn [rbind]. unfold end_.
  assert (Cc : contents st = rest_live st j) by (rewrite <- C; auto).
  destruct (Nat.ltb_spec j (data_size st)).
  - destruct (D H) as (e & L). exists e. assert (L' := L). destruct L' as (La & Lb & Lc).
    rewrite (slot_ok _ _ _ Lb). split; auto. rewrite Cc. unfold rest_live.
    rewrite (skipn_nth _ _ j e).
    + simpl. rewrite Lc. auto.
    + unfold pre. rewrite nth_error_firstn; auto.
  - rewrite Cc in Hd. unfold rest_live in Hd. rewrite skipn_all2 in Hd; [destruct Hd|].
    unfold pre. rewrite firstn_length. lia.
Qed.

Lemma livef_nil_all l : livef l = [] -> forall e, In e l -> p_hole e = true.
Proof.
  induction l; simpl; intros H e He; [destruct He|]. destruct (p_hole a) eqn:E; simpl in H.
  - destruct He; [subst|]; auto.
  - discriminate.
Qed.

Lemma scan_down_spec d : forall i l,
  (i <= length d)%nat -> livef (firstn i d) = l -> l <> [] ->
  exists j e, scan_down d i = Ok j /\ nth_error d j = Some e /\ exists l', l = l' ++ [e].
Proof.
  induction i as [|i IH]; intros l Hi HL NE.
  - simpl in HL. congruence.
  - simpl. destruct (nth_error_lt _ d i) as (e & He); [lia|]. rewrite He.
    rewrite (firstn_S_nth _ _ _ _ He), livef_app in HL. simpl in HL.
    destruct (p_hole e); simpl in HL.
    + rewrite app_nil_r in HL. apply IH; auto. lia.
    + exists i, e. splits; auto. exists (livef (firstn i d)). auto.
Qed.

Lemma back_spec N st d : Inv N st -> In d (contents st) ->
  exists e l, back st = Ok e /\ contents st = l ++ [e].
Proof.
  intros I Hd. unfold back, end_. pose proof (I_room _ _ I).
  destruct (scan_down_spec (data st) (data_size st) (contents st)) as (j & e & A & B & l & C); auto; [lia| |].
  - intros Q. rewrite Q in Hd. destruct Hd.
  - rewrite A. cbn [rbind]. rewrite (slot_ok _ _ _ B). eauto.
Qed.

(** ** size *)
Lemma filter_length_split A (f : A -> bool) l :
  (length (filter f l) + length (filter (fun x => negb (f x)) l) = length l)%nat.
Proof. induction l; simpl; auto. destruct (f a); simpl; lia. Qed.

Lemma size_spec N st : Inv N st -> size st = Z.of_nat (length (contents st)).
Proof.
  intros I. pose proof (I_room _ _ I). pose proof (I_capN _ _ I) as HC. rewrite LIM_eq in HC.
  assert (PL : length (pre st) = data_size st).
  { unfold pre. rewrite firstn_length. lia. }
  assert (PD : Permutation (map p_index (filter p_hole (pre st))) (dirty st)).
  { apply NoDup_Permutation.
    - assert (NoDup (map p_index (pre st))).
      { assert (map p_index (pre st) = seq 0 (data_size st)).
        { apply nth_ext with O O; rewrite map_length, ?seq_length; auto.
          intros n Hn. rewrite seq_nth by lia.
          destruct (nth_error_lt _ (pre st) n) as (x & Hx); auto.
          erewrite nth_error_nth by (rewrite nth_error_map, Hx; reflexivity). simpl.
          apply (I_index _ _ I). unfold pre in Hx. rewrite nth_error_firstn in Hx; auto. lia. }
        rewrite H0. apply seq_NoDup. }
      clear - H0. induction (pre st); simpl; auto. inversion H0; subst.
      destruct (p_hole a); simpl; auto. constructor; auto.
      intros Q. apply in_map_iff in Q. destruct Q as (x & Q1 & Q2). apply filter_In in Q2.
      apply H2. apply in_map_iff. exists x. tauto.
    - apply (I_dirty_nodup _ _ I).
    - intros i. rewrite in_map_iff. split.
      + intros (x & Q1 & Q2). apply filter_In in Q2. destruct Q2 as [Q2 Q3].
        apply In_nth_error in Q2. destruct Q2 as (j & Hj).
        assert (j < data_size st)%nat.
        { rewrite <- PL. apply nth_error_Some. congruence. }
        unfold pre in Hj. rewrite nth_error_firstn in Hj by auto.
        rewrite (I_index _ _ I _ _ Hj) in Q1. subst j. apply (I_hole _ _ I _ _ Hj); auto.
      + intros Hi. pose proof (I_dirty_lt _ _ I _ Hi).
        destruct (nth_error_lt _ (data st) i) as (x & Hx); [lia|].
        exists x. split; [apply (I_index _ _ I); auto|]. apply filter_In. split.
        * apply nth_error_In with i. unfold pre. rewrite nth_error_firstn; auto.
        * apply (I_hole _ _ I _ _ Hx); auto. }
  apply Permutation_length in PD. rewrite map_length in PD.
  unfold size, contents, livef. rewrite <- PD, <- PL.
  pose proof (filter_length_split _ p_hole (pre st)) as FL.
  rewrite <- FL at 1. unfold u64. rewrite Z.mod_small.
  - lia.
  - rewrite PL in FL. lia.
Qed.
