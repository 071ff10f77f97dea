(** Invariants over all histories of the particle container. *)
From Coq Require Import ZArith List Bool Lia Permutation.
From Verif Require Import Base ParticlesModel ParticlesSpec ParticlesProofs.
Import ListNotations.
Open Scope Z_scope.

Definition seen_ok (st : pstate) (seen : list (Z * nat)) : Prop :=
  forall id ix, In (id, ix) seen ->
    0 <= id <= id_max st /\ forall i, idpos st id i -> i = ix.

Record Hist (N : Z) (st : pstate) (b : bag) (seen : list (Z * nat)) : Prop := {
  H_inv : Inv N st;
  H_perm : Permutation (keys st) (b_parts b);
  H_next : b_next b = id_max st + 1;
  H_seen : seen_ok st seen;
  H_N : 0 <= N }.

Lemma b_add_all_eq l : forall b,
  b_add_all b l =
  {| b_next := b_next b + Z.of_nat (length l);
     b_parts := b_parts b ++ combine (map (fun k => b_next b + Z.of_nat k) (seq 0 (length l)))
                                     (map p_pl l) |}.
Proof.
  induction l as [|p l IH]; intros b; simpl.
  - rewrite Z.add_0_r, app_nil_r. destruct b; auto.
  - unfold b_add_all in *. simpl. rewrite IH. simpl.
    rewrite <- app_assoc. simpl. rewrite Z.add_0_r.
    f_equal; [lia|]. do 3 f_equal.
    rewrite <- (seq_shift (length l) 0), map_map. apply map_ext. intros. lia.
Qed.

Lemma b_del_all_eq l : forall b,
  b_del_all b l = {| b_next := b_next b; b_parts := delks (map p_id l) (b_parts b) |}.
Proof.
  induction l as [|p l IH]; intros b; simpl.
  - destruct b; auto.
  - unfold b_del_all in *. simpl. rewrite IH. auto.
Qed.

Lemma b_update_all_eq l : forall b,
  fold_left b_update1 l b = {| b_next := b_next b; b_parts := setks l (b_parts b) |}.
Proof.
  induction l as [|p l IH]; intros b; simpl.
  - destruct b; auto.
  - rewrite IH. auto.
Qed.

Lemma setks_perm l : forall k k', Permutation k k' -> Permutation (setks l k) (setks l k').
Proof. induction l; simpl; intros; auto. apply IHl, setk_perm; auto. Qed.

Lemma good_pointed N st b seen c : Hist N st b seen -> good b seen c -> pointed st c.
Proof.
  intros [I P Nx S _] [HO (p & Hin & Hip)].
  apply (Permutation_in _ (Permutation_sym P)) in Hin. unfold keys in Hin.
  apply in_map_iff in Hin. destruct Hin as (d & Hk & Hd). inversion Hk.
  apply In_contents in Hd. destruct Hd as (i & L).
  destruct (S _ _ HO) as [_ Q].
  assert (i = p_index c). { apply Q. exists d. split; auto. }
  subst i. exists d. splits; auto. congruence.
Qed.

Lemma pointed_alive N st b seen c : Hist N st b seen -> pointed st c -> alive b c.
Proof.
  intros [I P Nx S _] (d & L & E1 & E2). exists (p_pl d). split; auto.
  apply (Permutation_in _ P). unfold keys. apply in_map_iff. exists d. split.
  - unfold key. congruence.
  - apply In_contents. eauto.
Qed.

Lemma seen_ok_trans st st' g seen :
  seen_ok st seen -> trans st st' g -> seen_ok st' seen.
Proof.
  intros S T id ix Hin. destruct (S _ _ Hin) as [A B]. pose proof (t_mono _ _ _ T). split; [lia|].
  intros i Hi. apply (t_new _ _ _ T) in Hi. destruct Hi as [Hi|Hi]; auto. lia.
Qed.

Lemma seen_ok_out N st out seen :
  Inv N st -> seen_ok st seen ->
  (forall c, In c out -> exists d, live st (p_index c) d /\ p_id d = p_id c) ->
  seen_ok st (map handle out ++ seen).
Proof.
  intros I S H id ix Hin. apply in_app_iff in Hin. destruct Hin as [Hin|Hin]; [|auto].
  apply in_map_iff in Hin. destruct Hin as (c & Hc & Hin). inversion Hc; subst.
  destruct (H _ Hin) as (d & L & E). split.
  - rewrite <- E. apply (I_ids _ _ I). apply In_contents. eauto.
  - intros i (d' & L' & E'). eapply live_uniq; eauto. congruence.
Qed.

Lemma contents_self N st c : Inv N st -> In c (contents st) ->
  exists d, live st (p_index c) d /\ p_id d = p_id c.
Proof.
  intros I H. apply In_contents in H. destruct H as (i & L). exists c. split; auto.
  assert (p_index c = i). { destruct L as (_ & L & _). apply (I_index _ _ I); auto. }
  congruence.
Qed.

Lemma added_nonneg b seen o : allowed b seen o -> 0 <= added o.
Proof. destruct o; simpl; try lia. destruct do_replace; lia. Qed.

Lemma Forall_good_pointed N st b seen l :
  Hist N st b seen -> Forall (good b seen) l -> Forall (pointed st) l.
Proof. intros H F. eapply Forall_impl; [|exact F]. intros. eapply good_pointed; eauto. Qed.

(** What one allowed call does. *)
Lemma step_spec N st b seen o l :
  Hist N st b seen -> allowed b seen o -> N + added o <= LIM -> iterate st = Ok l ->
  exists st' out, step st o = Ok (st', out) /\
    Hist (match o with OReset => 0 | _ => N + added o end) st' (bag_step b (map p_id l) o)
      (match o with OReset => [] | _ => map handle out ++ seen end) /\
    (match o with OReset => True | _ => id_max st' = id_max st + added o end) /\
    (match o with
     | OInsert _ | OCreate _ | OReplace _ _ | OUpdate _ _ true =>
       map p_id out = map (fun k => b_next b + Z.of_nat k) (seq 0 (Z.to_nat (added o)))
     | _ => True end).
Proof.
  intros H AL HN HI. assert (H0 := H). destruct H0 as [I P Nx S N0].
  destruct o as [p|n t|t|c|r a|c n|os ns rep|k ip rs| |]; simpl in AL, HN; cbn [step bag_step added].
  - (* insert *)
    destruct (insert_spec N st p I HN) as (st' & i & E & I' & T & L & M & PK).
    rewrite E. cbn [rbind]. eexists _, _. split; [reflexivity|].
    split; [constructor|split].
    + auto.
    + simpl. rewrite PK, Nx. rewrite P. apply Permutation_cons_append.
    + simpl. lia.
    + eapply seen_ok_out; eauto. { eapply seen_ok_trans; eauto. }
      intros c [<-|[]]. simpl. eexists; split; eauto.
    + lia.
    + auto.
    + simpl. rewrite Nx, Z.add_0_r. auto.
  - (* create n *)
    destruct (create_n_spec N st n t I AL HN) as (st' & E & I' & T & M & PK).
    rewrite E. cbn [rbind]. eexists _, _. split; [reflexivity|].
    split; [constructor|split]; auto.
    + rewrite b_add_all_eq. simpl. rewrite repeat_length. rewrite PK, P, Nx.
      assert (Er : map p_pl (repeat (particle_of_type t) (Z.to_nat n)) =
                   repeat (p_pl (particle_of_type t)) (Z.to_nat n)).
      { clear. induction (Z.to_nat n) as [|m IHm]; cbn [repeat map]; [auto|rewrite IHm; auto]. }
      rewrite Er. auto.
    + rewrite b_add_all_eq. simpl. rewrite repeat_length. lia.
    + simpl. eapply seen_ok_trans; eauto.
    + lia.
  - (* create *)
    rewrite create1_insert.
    2:{ intros i Hi. apply (I_dirty_lt _ _ I) in Hi. pose proof (I_room _ _ I). lia. }
    destruct (insert_spec N st (particle_of_type t) I HN) as (st' & i & E & I' & T & L & M & PK).
    rewrite E. cbn [rbind]. eexists _, _. split; [reflexivity|].
    split; [constructor|split].
    + auto.
    + cbn [b_add b_parts]. rewrite PK, Nx. rewrite P. apply Permutation_cons_append.
    + simpl. lia.
    + eapply seen_ok_out; eauto. { eapply seen_ok_trans; eauto. }
      intros c [<-|[]]. simpl. eexists; split; eauto.
    + lia.
    + auto.
    + simpl. rewrite Nx, Z.add_0_r. auto.
  - (* remove *)
    destruct (remove_spec N st c I (good_pointed _ _ _ _ _ H AL)) as (st' & E & I' & T & M & K).
    rewrite E. cbn [rbind]. rewrite Z.add_0_r. eexists _, _. split; [reflexivity|].
    split; [constructor|split]; auto.
    + rewrite K. apply (delk_perm (p_id c)); auto.
    + simpl. lia.
    + simpl. eapply seen_ok_trans; eauto.
    + lia.
  - (* replace *)
    destruct AL as [AL1 AL2].
    destruct (replace_spec r a N st I HN (Forall_good_pointed _ _ _ _ _ H AL1) AL2)
      as (st' & out & E & I' & T & M & OUT & _ & IDS & PK).
    rewrite E. eexists _, _. split; [reflexivity|].
    split; [constructor|split]; auto.
    + rewrite b_add_all_eq, b_del_all_eq. simpl. rewrite PK, Nx.
      apply Permutation_app_tail. apply delks_perm. auto.
    + rewrite b_add_all_eq, b_del_all_eq. simpl. lia.
    + eapply seen_ok_out; eauto. eapply seen_ok_trans; eauto.
    + lia.
    + rewrite IDS, Nx, Nat2Z.id. auto.
  - (* update_particle *)
    destruct AL as [AL1 AL2].
    destruct (update_particle_spec N st c n I (good_pointed _ _ _ _ _ H AL1) AL2)
      as (st' & d & E & I' & T & M & L & X1 & X2 & K).
    rewrite E. cbn [rbind]. rewrite Z.add_0_r. eexists _, _. split; [reflexivity|].
    split; [constructor|split]; auto.
    + rewrite K. apply setk_perm; auto.
    + simpl. lia.
    + eapply seen_ok_out; eauto. { eapply seen_ok_trans; eauto. }
      intros e [<-|[]]. exists d. split; auto. congruence.
    + lia.
  - (* update *)
    unfold update. destruct rep.
    + destruct AL as [AL1 AL2].
      destruct (replace_spec os ns N st I HN (Forall_good_pointed _ _ _ _ _ H AL1) AL2)
        as (st' & out & E & I' & T & M & OUT & _ & IDS & PK).
      rewrite E. eexists _, _. split; [reflexivity|].
      split; [constructor|split]; auto.
      * rewrite b_add_all_eq, b_del_all_eq. simpl. rewrite PK, Nx.
        apply Permutation_app_tail. apply delks_perm. auto.
      * rewrite b_add_all_eq, b_del_all_eq. simpl. lia.
      * eapply seen_ok_out; eauto. eapply seen_ok_trans; eauto.
      * lia.
      * rewrite IDS, Nx, Nat2Z.id. auto.
    + destruct AL as (AL1 & AL2 & AL3 & AL4).
      destruct (update_all_spec os ns N st I (Forall_good_pointed _ _ _ _ _ H AL1) AL2 AL3 AL4)
        as (st' & out & E & I' & T & M & OUT & K).
      rewrite E. rewrite Z.add_0_r. eexists _, _. split; [reflexivity|].
      split; [constructor|split]; auto.
      * rewrite b_update_all_eq. simpl. rewrite K. apply setks_perm; auto.
      * rewrite b_update_all_eq. simpl. lia.
      * eapply seen_ok_out; eauto. eapply seen_ok_trans; eauto.
      * lia.
  - (* write through an iterator *)
    unfold write_kth. rewrite HI. cbn [rbind]. rewrite Z.add_0_r.
    rewrite (iterate_spec _ _ I) in HI. inversion HI; subst l; clear HI.
    rewrite nth_error_map.
    destruct (nth_error (contents st) k) as [c|] eqn:Ek; cbn [option_map].
    + assert (Hc : In c (contents st)) by (eapply nth_error_In; eauto).
      apply In_contents in Hc. destruct Hc as (i & L).
      assert (Ei : p_index c = i). { destruct L as (_ & L & _). apply (I_index _ _ I); auto. }
      rewrite Ei. rewrite (slot_ok st i c) by (destruct L as (_ & L & _); auto). cbn [rbind].
      destruct (inplace_spec N st i c ip rs I L) as (I' & T & L' & K).
      eexists _, _. split; [reflexivity|].
      split; [constructor|split]; auto.
      * rewrite K. apply setk_perm; auto.
      * simpl. eapply seen_ok_trans; eauto.
      * simpl; lia.
    + cbn [rbind]. eexists _, _. split; [reflexivity|].
      split; [constructor|split]; auto. lia.
  - (* iterate *)
    rewrite HI. cbn [rbind]. rewrite Z.add_0_r.
    eexists _, _. split; [reflexivity|].
    rewrite (iterate_spec _ _ I) in HI. inversion HI; subst l; clear HI.
    split; [constructor|split]; auto; [|lia].
    eapply seen_ok_out; eauto. intros. eapply contents_self; eauto.
  - (* reset *)
    destruct (reset_spec N st I N0) as (st' & E & I' & M & K).
    rewrite E. cbn [rbind]. eexists _, _. split; [reflexivity|].
    split; [constructor|split]; auto.
    + rewrite K. simpl. auto.
    + simpl. lia.
    + intros id ix [].
    + lia.
Qed.

Lemma history_tight ops st b seen :
  history ops st b seen -> within_limits ops ->
  Hist (event_added ops) st b seen /\ id_max st + 1 = event_added ops.
Proof.
  induction 1 as [|ops st b seen o st' out l H IH AL HI HS]; intros TL.
  - split; [|reflexivity]. constructor.
    + apply init_Inv.
    + unfold keys, contents, pre. simpl. auto.
    + auto.
    + intros id ix [].
    + simpl. lia.
  - destruct TL as [TL1 TL2]. destruct (IH TL2) as [HH HT].
    pose proof (added_nonneg _ _ _ AL) as A0.
    change (2 ^ 29) with LIM in TL1.
    assert (X : event_added (o :: ops) = added o + event_added ops /\ o <> OReset \/ o = OReset).
    { destruct o; auto; left; (split; [reflexivity|discriminate]). }
    destruct X as [[X Y]|X].
    + rewrite X in *. destruct (step_spec _ _ _ _ o l HH AL) as (st1 & out1 & E & R & M & _); auto; [lia|].
      rewrite E in HS. inversion HS; subst. rewrite (Z.add_comm (added o)).
      destruct o; try congruence; (split; [exact R|lia]).
    + subst o. destruct (reset_spec _ _ (H_inv _ _ _ _ HH) (H_N _ _ _ _ HH)) as (st2 & E2 & I2 & M2 & K2).
      cbn [step] in HS. rewrite E2 in HS. cbn [rbind] in HS. inversion HS; subst. split.
      * constructor; auto; simpl; try lia.
        { rewrite K2. auto. }
        { intros id ix []. }
      * simpl. lia.
Qed.
Lemma history_Hist ops st b seen :
  history ops st b seen -> within_limits ops -> Hist (event_added ops) st b seen.
Proof. intros H L. apply (history_tight _ _ _ _ H L). Qed.

Lemma limit_step ops o : event_added (o :: ops) <= 2 ^ 29 -> within_limits ops -> event_added ops + added o <= LIM.
Proof.
  change (2 ^ 29) with LIM. intros A B. destruct o; try (cbn [event_added] in A; lia). simpl.
  destruct ops as [|o ops]; [simpl; rewrite LIM_eq; lia|]. destruct B as [B _]. change (2 ^ 29) with LIM in B. lia.
Qed.
Lemma history_refines ops st b seen :
  history ops st b seen -> within_limits ops ->
  exists l, iterate st = Ok l /\ copy_to_vector st = Ok l /\
    Permutation (map key l) (b_parts b) /\ size st = Z.of_nat (length l).
Proof.
  intros H T. destruct (history_Hist _ _ _ _ H T) as [I P Nx S N0].
  exists (contents st). splits.
  - eapply iterate_spec; eauto.
  - eapply copy_to_vector_spec; eauto.
  - exact P.
  - eapply size_spec; eauto.
Qed.

Lemma history_progress ops st b seen o :
  history ops st b seen -> allowed b seen o -> within_limits (o :: ops) ->
  exists st' out, step st o = Ok (st', out).
Proof.
  intros H AL [T T']. pose proof (history_Hist _ _ _ _ H T') as HH.
  destruct (step_spec _ _ _ _ o (contents st) HH AL) as (st1 & out1 & E & _).
  - eapply limit_step; eauto.
  - eapply iterate_spec. apply (H_inv _ _ _ _ HH).
  - eauto.
Qed.

Lemma history_new_ids ops st b seen o st' out :
  history ops st b seen -> allowed b seen o -> within_limits (o :: ops) ->
  step st o = Ok (st', out) ->
  match o with
  | OInsert _ | OCreate _ | OReplace _ _ | OUpdate _ _ true =>
     map p_id out = map (fun k => b_next b + Z.of_nat k) (seq 0 (Z.to_nat (added o)))
  | _ => True
  end /\
  (forall id ix, In (id, ix) seen -> 0 <= id < b_next b) /\
  (forall id p, In (id, p) (b_parts b) -> 0 <= id < b_next b) /\
  NoDup (map fst (b_parts b)).
Proof.
  intros H AL [T T'] HS. pose proof (history_Hist _ _ _ _ H T') as HH.
  destruct (step_spec _ _ _ _ o (contents st) HH AL) as (st1 & out1 & E & _ & _ & R).
  { eapply limit_step; eauto. }
  { eapply iterate_spec. apply (H_inv _ _ _ _ HH). }
  rewrite E in HS. inversion HS; subst. split; auto.
  destruct HH as [I P Nx S N0]. splits.
  - intros id ix Hin. destruct (S _ _ Hin). lia.
  - intros id p Hin. apply (Permutation_in _ (Permutation_sym P)) in Hin.
    apply in_map_iff in Hin. destruct Hin as (d & Hk & Hd). inversion Hk; subst.
    apply (I_ids _ _ I) in Hd. lia.
  - eapply Permutation_NoDup; [apply Permutation_map; exact P|]. eapply keys_nodup; eauto.
Qed.

Lemma history_valid ops st b seen c :
  history ops st b seen -> within_limits ops -> handed_out seen c ->
  exists v, is_valid_r st c = Ok v /\ (v = true <-> alive b c).
Proof.
  intros H T HO. pose proof (history_Hist _ _ _ _ H T) as HH. destruct HH as [I P Nx S N0] eqn:EH.
  clear EH. destruct (S _ _ HO) as [A _].
  destruct (is_valid_iff _ _ c I) as (v & E & R); [lia|].
  exists v. split; auto. rewrite R. split.
  - eapply pointed_alive. eapply history_Hist; eauto.
  - intros AL. eapply good_pointed; [eapply history_Hist; eauto|]. split; auto.
Qed.

Lemma history_front_back ops st b seen l :
  history ops st b seen -> within_limits ops -> iterate st = Ok l -> l <> [] ->
  (exists e, front st = Ok e /\ hd_error l = Some e) /\
  (exists e l', back st = Ok e /\ l = l' ++ [e]).
Proof.
  intros H T HI NE. destruct (history_Hist _ _ _ _ H T) as [I P Nx S N0].
  rewrite (iterate_spec _ _ I) in HI. inversion HI; subst l.
  destruct (contents st) as [|d t] eqn:E; [congruence|].
  rewrite <- E. split.
  - eapply front_spec; eauto. rewrite E. simpl; auto.
  - destruct (back_spec _ _ d I) as (e & l' & A & B); [rewrite E; simpl; auto|]. eauto.
Qed.

Lemma history_live_slots ops st b seen l :
  history ops st b seen -> within_limits ops -> iterate st = Ok l ->
  (forall d, In d l -> p_hole d = false /\ nth_error (data st) (p_index d) = Some d /\
                       (p_index d < data_size st)%nat) /\
  (data_size st < length (data st))%nat.
Proof.
  intros H T HI. destruct (history_Hist _ _ _ _ H T) as [I P Nx S N0].
  rewrite (iterate_spec _ _ I) in HI. inversion HI; subst l. split; [|apply (I_room _ _ I)].
  intros d Hd. apply In_contents in Hd. destruct Hd as (i & L1 & L2 & L3).
  rewrite (I_index _ _ I _ _ L2). auto.
Qed.

Lemma history_is_empty ops st b seen :
  history ops st b seen -> within_limits ops -> is_empty st = true -> size st = 0.
Proof.
  intros H T E. destruct (history_Hist _ _ _ _ H T) as [I P Nx S N0].
  rewrite (size_spec _ _ I). unfold is_empty in E. apply Nat.eqb_eq in E.
  unfold contents, pre. rewrite E. reflexivity.
Qed.

(** Concrete histories used for non-vacuity and for the refutation. *)
Definition pl0 : payload := {| pl_type := 211; pl_idproc := 0; pl_rest := [1; 2; 3] |}.
Definition part0 : pdata := {| p_id := -1; p_index := 7; p_hole := false; p_pl := pl0 |}.
Definition copy_of (i : Z) (ix : nat) : pdata :=
  {| p_id := i; p_index := ix; p_hole := false; p_pl := pl0 |}.

Fixpoint run (st : pstate) (ops : list op) : res pstate :=
  match ops with
  | [] => Ok st
  | o :: t => '(st', _) <- step st o ;; run st' t
  end.
Definition after (st : pstate) (ops : list op) : pstate :=
  match run st ops with Ok s => s | _ => st end.
