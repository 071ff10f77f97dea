(** C37: performing an action. *)
From Coq Require Import ZArith Reals List Bool Lia Permutation.
From Verif Require Import Base QnModel QnProps ActionsModel ParticlesModel ParticlesSpec ParticlesProofs ParticlesHistory ParticlesProps EventModel EventProofs.
Import ListNotations.
Open Scope Z_scope.

(** ** Specification *)
(** [ins] are up-to-date copies of particles in the container (what update_incoming
    leaves), no particle twice. *)
Definition participants (l ins : list pdata) : Prop := Forall (fun c => In c l) ins /\ distinct ins.
Definition same_type (i o : pdata) : Prop := pl_type (p_pl i) = pl_type (p_pl o).
Definition bystander (ins : list pdata) (k : Z * payload) : bool := negb (existsb (fun i => p_id i =? fst k) ins).
(** ids [next], [next]+1, ... *)
Definition consecutive (next : Z) (n : nat) : list Z := map (fun k => next + Z.of_nat k) (seq 0 n).
(** Processes whose violation of conservation laws is only reported. *)
Definition exempt (e : env) (ty : ptype) (ins : list pdata) : Prop :=
  ty = PString \/ ty = PFreeforall \/
  (ty = PDecay /\ exists p r, ins = p :: r /\ e_stable e (pl_type (p_pl p)) = true).
Definition totals_agree (e : env) (ins outs : list pdata) : Prop :=
  exists a b, of_list (map (contrib e) ins) = Ok a /\ of_list (map (contrib e) outs) = Ok b /\ agree a b.

(** ** Proofs *)
Lemma stamp_rest ty idp o : pl_rest (p_pl (stamp ty idp o)) = pl_rest (p_pl o) /\ pl_type (p_pl (stamp ty idp o)) = pl_type (p_pl o).
Proof. unfold stamp. destruct (keeps_history ty); auto. Qed.
Lemma contrib_ext e p q : pl_type (p_pl p) = pl_type (p_pl q) -> pl_rest (p_pl p) = pl_rest (p_pl q) -> contrib e p = contrib e q.
Proof. intros A B. unfold contrib. now rewrite A, B. Qed.
Lemma contrib_stamped e ty idp outs outs' : map p_pl outs' = map (fun o => p_pl (stamp ty idp o)) outs ->
  map (contrib e) outs' = map (contrib e) outs.
Proof.
  revert outs'; induction outs as [|o outs IH]; intros [|o' outs'] E; try discriminate; auto. cbn in E.
  inversion E as [[E1 E2]]. cbn. f_equal; auto. destruct (stamp_rest ty idp o). apply contrib_ext; rewrite E1; auto.
Qed.

Lemma delks_filter ins k : delks (map p_id ins) k = filter (bystander ins) k.
Proof.
  revert k; induction ins as [|i ins IH]; intros k; cbn [map].
  - cbn. induction k; cbn; auto. now rewrite <- IHk.
  - cbn [delks fold_left]. fold (delks (map p_id ins) (delk (p_id i) k)). rewrite IH. unfold delk, bystander.
    induction k as [|[j p] k IHk]; cbn [filter fst existsb]; auto.
    rewrite (Z.eqb_sym (p_id i) j). destruct (j =? p_id i); cbn [negb orb filter fst]; auto.
    destruct (existsb _ ins); cbn [negb]; [auto|]. now rewrite IHk.
Qed.
Lemma setk_perm_del i p ip r k : NoDup (map fst k) -> In (i, p) k ->
  Permutation (setk i ip r k) (delk i k ++ [(i, {| pl_type := pl_type p; pl_idproc := ip; pl_rest := r |})]).
Proof.
  induction k as [|[j q] k IH]; intros ND H; [destruct H|]. inversion ND; subst. cbn [fst] in *.
  cbn [setk delk map filter fst snd]. fold (setk i ip r k) (delk i k). destruct (Z.eqb_spec j i); cbn [negb].
  - subst j. destruct H as [H|H].
    + inversion H; subst. rewrite setk_notin by auto. unfold delk. rewrite filter_notin by auto. apply Permutation_cons_append.
    + exfalso. apply H2. apply in_map_iff. exists (i, p). auto.
  - destruct H as [H|H]; [congruence|]. cbn. apply perm_skip. auto.
Qed.
Lemma setks_app l : forall k x, (forall on, In on l -> p_id (fst on) <> fst x) -> setks l (k ++ [x]) = setks l k ++ [x].
Proof.
  induction l as [|a l IH]; intros k x H; [auto|]. rewrite !setks_cons.
  assert (E : setk (p_id (fst a)) (pl_idproc (p_pl (snd a))) (pl_rest (p_pl (snd a))) (k ++ [x]) =
    setk (p_id (fst a)) (pl_idproc (p_pl (snd a))) (pl_rest (p_pl (snd a))) k ++ [x]).
  { unfold setk. rewrite map_app. cbn. assert (Q : fst x =? p_id (fst a) = false) by (apply Z.eqb_neq; intros E; apply (H a); cbn; auto).
    now rewrite Q. }
  rewrite E. apply IH. intros; apply H; now right.
Qed.
Lemma setks_perm_del ins : forall outs k, NoDup (map fst k) -> NoDup (map p_id ins) ->
  (forall d, In d ins -> In (p_id d, p_pl d) k) -> Forall2 same_type ins outs ->
  Permutation (setks (combine ins outs) k) (delks (map p_id ins) k ++ combine (map p_id ins) (map p_pl outs)).
Proof.
  induction ins as [|d ins IH]; intros outs k NK ND H F; inversion F; subst.
  - cbn. now rewrite app_nil_r.
  - rename y into o, l' into outs. inversion ND; subst. cbn [combine map]. rewrite setks_cons. cbn [fst snd].
    assert (Hd : In (p_id d, p_pl d) k) by (apply H; now left).
    rewrite (setks_perm _ _ _ (setk_perm_del _ _ _ _ _ NK Hd)).
    rewrite setks_app.
    + rewrite IH; auto using delk_nodup.
      * cbn [delks fold_left]. fold (delks (map p_id ins) (delk (p_id d) k)). rewrite <- app_assoc. apply Permutation_app_head.
        unfold same_type in H2. rewrite H2, payload_eta. symmetry. apply Permutation_cons_append.
      * intros x Hx. unfold delk. apply filter_In. split; [apply H; now right|]. cbn. rewrite negb_true_iff, Z.eqb_neq.
        intros Q. apply H3. rewrite <- Q. now apply in_map.
    + intros [x y] Hxy E. cbn [fst] in E. apply in_combine_l in Hxy. apply H3. rewrite <- E. now apply in_map.
Qed.
Lemma update_all_ids os : forall ns st st' l', length os = length ns ->
  (forall c n st st' d, update_particle st c n = Ok (st', d) -> p_id d = p_id c) ->
  update_all st os ns = Ok (st', l') -> map p_id l' = map p_id os.
Proof.
  induction os as [|o os IH]; intros [|n ns] st st' l' L U E; try discriminate.
  - cbn in E. inversion E; auto.
  - cbn [update_all] in E. destruct (update_particle st o n) as [[s1 d]|?|?] eqn:E1; try discriminate. cbn [rbind] in E.
    destruct (update_all s1 os ns) as [[s2 l2]|?|?] eqn:E2; try discriminate. cbn [rbind] in E. inversion E; subst. cbn. f_equal; eauto.
Qed.
Lemma update_particle_id c n st st' d : update_particle st c n = Ok (st', d) -> p_id d = p_id c.
Proof.
  unfold update_particle, assert_valid, is_valid_r. destruct (Nat.leb (data_size st) (p_index c)); cbn [rbind]; [discriminate|].
  destruct (slot st (p_index c)) as [x|?|?]; cbn [rbind]; try discriminate.
  destruct ((p_id x =? p_id c) && _) eqn:E; cbn [rbind]; [|discriminate]. apply andb_prop in E. destruct E as [E _]. apply Z.eqb_eq in E.
  destruct (negb _); [discriminate|]. intros Q. inversion Q; subst. cbn. auto.
Qed.
Lemma combine_keys l : combine (map p_id l) (map p_pl l) = map key l.
Proof. induction l; cbn; auto. now rewrite IHl. Qed.

Lemma perform_spec e st ty idp ins outs :
  Inv (id_max st + 1) st -> id_max st + 1 + Z.of_nat (length outs) <= LIM ->
  participants (contents st) ins -> idp <> 0 ->
  (replaces ty = false -> Forall2 same_type ins outs) ->
  exists st' outs',
    perform e st ty idp ins outs =
      rbind (if e_pot e then Ok tt else check_conservation e ty ins outs') (fun _ => Ok (st', outs')) /\
    Inv (id_max st' + 1) st' /\ id_max st' + 1 <= LIM /\ trans st st' (map p_id ins) /\
    map p_pl outs' = map (fun o => p_pl (stamp ty idp o)) outs /\
    map p_id outs' = (if replaces ty then consecutive (id_max st + 1) (length outs) else map p_id ins) /\
    Forall (fun c => exists d, live st' (p_index c) d /\ p_id d = p_id c) outs' /\
    Permutation (keys st') (filter (bystander ins) (keys st) ++ map key outs').
Proof.
  intros I HN [F ND] Hid HT. unfold perform. rewrite (proj2 (Z.eqb_neq _ _) Hid).
  assert (HT' : replaces ty = false -> Forall2 (fun i o => pl_type (p_pl i) = pl_type (p_pl o)) ins (map (stamp ty idp) outs)).
  { intros R. specialize (HT R). clear - HT. induction HT; cbn; constructor; auto. rewrite (proj2 (stamp_rest ty idp y)). auto. }
  destruct (update_spec st (replaces ty) ins (map (stamp ty idp) outs) I) as (st' & outs' & E & I' & B & T & K & Q & L & R); auto.
  { now rewrite map_length. }
  exists st', outs'. rewrite E. cbn [rbind]. rewrite map_map in Q. splits; auto.
  - destruct (replaces ty) eqn:RT.
    + rewrite (R eq_refl). unfold new_ids. now rewrite map_length.
    + cbn [update] in E. eapply update_all_ids; [|intros; eapply update_particle_id; eauto|exact E].
      rewrite map_length. specialize (HT eq_refl). clear - HT. induction HT; cbn; auto.
  - apply Forall_forall. auto.
  - rewrite K. rewrite <- delks_filter. unfold keys_after. destruct (replaces ty) eqn:RT.
    + apply Permutation_app_head. rewrite <- (R eq_refl), map_map. rewrite <- Q. rewrite combine_keys. reflexivity.
    + rewrite (setks_perm_del ins (map (stamp ty idp) outs) (keys st)).
      * apply Permutation_app_head. rewrite map_map, <- Q.
        assert (EI : map p_id outs' = map p_id ins).
        { cbn [update] in E. eapply update_all_ids; [|intros; eapply update_particle_id; eauto|exact E].
          rewrite map_length. specialize (HT eq_refl). clear - HT. induction HT; cbn; auto. }
        rewrite <- EI, combine_keys. reflexivity.
      * eapply keys_nodup; eauto.
      * exact ND.
      * intros d Hd. rewrite Forall_forall in F. apply in_contents_key; auto.
      * apply HT'. reflexivity.
Qed.

Lemma bystander_spec ins k : bystander ins k = true <-> ~ In (fst k) (map p_id ins).
Proof.
  unfold bystander. rewrite negb_true_iff, <- not_true_iff_false, existsb_exists. rewrite in_map_iff. split.
  - intros H (x & E & Hx). apply H. exists x. split; auto. now apply Z.eqb_eq.
  - intros H (x & Hx & E). apply H. exists x. split; auto. now apply Z.eqb_eq.
Qed.

Lemma history_limits st b seen ops o : history ops st b seen -> within_limits (o :: ops) -> o <> OReset ->
  Inv (id_max st + 1) st /\ id_max st + 1 + added o <= LIM /\ b_next b = id_max st + 1 /\ Permutation (keys st) (b_parts b) /\ seen_ok st seen.
Proof.
  intros H [A B] NR. destruct (history_tight _ _ _ _ H B) as [[I P N S _] T]. rewrite <- T in I.
  change (2 ^ 29) with LIM in A. splits; auto.
  assert (event_added (o :: ops) = added o + event_added ops) by (destruct o; auto; congruence). lia.
Qed.
Lemma added_update ins outs ty : 0 <= added (OUpdate ins outs ty).
Proof. destruct ty; simpl; lia. Qed.

(** ** C37 *)

(** The incoming particles are taken out, the outgoing ones are put in with the process id
    written into them: under new ids, except that elastic and wall processes keep the ids.
    Everybody else keeps all of its data.  The call then succeeds exactly if the
    conservation check does. *)
Theorem perform_replaces_participants e ops st b seen l ty idp ins outs :
  history ops st b seen ->
  within_limits (OReplace ins outs :: ops) ->
  iterate st = Ok l -> participants l ins -> idp <> 0 ->
  (replaces ty = false -> Forall2 same_type ins outs) ->
  exists st' outs' l',
    perform e st ty idp ins outs =
      rbind (if e_pot e then Ok tt else check_conservation e ty ins outs') (fun _ => Ok (st', outs')) /\
    iterate st' = Ok l' /\
    Permutation (map key l') (filter (bystander ins) (map key l) ++ map key outs') /\
    map p_id outs' = (if replaces ty then consecutive (b_next b) (length outs) else map p_id ins) /\
    Forall2 (fun o o' => pl_type (p_pl o') = pl_type (p_pl o) /\ pl_rest (p_pl o') = pl_rest (p_pl o) /\
      pl_idproc (p_pl o') = if keeps_history ty then pl_idproc (p_pl o) else idp) outs outs' /\
    (forall c, In c l -> ~ In (p_id c) (map p_id ins) -> In c l').
Proof.
  intros H W HI P Hid HT.
  destruct (history_limits _ _ _ _ _ H W ltac:(discriminate)) as (I & HN & Nx & PK & S).
  rewrite (iterate_spec _ _ I) in HI. assert (EL : contents st = l) by congruence. subst l. clear HI.
  simpl in HN.
  destruct (perform_spec e st ty idp ins outs I HN P Hid HT) as (st' & outs' & E & I' & B & T & Q & ID & L & K).
  exists st', outs', (contents st'). splits; auto.
  - eapply iterate_spec; eauto.
  - now rewrite Nx.
  - clear - Q. revert outs' Q. induction outs as [|o outs IH]; intros [|o' outs'] Q; try discriminate; constructor.
    + cbn [map] in Q. injection Q as Q1 Q2. rewrite Q1. unfold stamp. destruct (keeps_history ty); cbn; auto.
    + apply IH. cbn [map] in Q. injection Q as Q1 Q2. exact Q2.
  - intros c Hc NI. apply In_contents. exists (p_index c). apply (t_keep _ _ _ T); auto. eapply contents_index; eauto.
Qed.
Print Assumptions perform_replaces_participants.

(** Every copy a pending action may hold is invalid afterwards if its particle took part
    (wall crossings and fluidization without removal excepted), and keeps its validity if
    not. *)
Theorem perform_invalidates_others e ops st b seen l ty idp ins outs st' outs' c :
  history ops st b seen -> within_limits (OReplace ins outs :: ops) ->
  iterate st = Ok l -> participants l ins -> idp <> 0 ->
  (replaces ty = false -> Forall2 same_type ins outs) ->
  perform e st ty idp ins outs = Ok (st', outs') ->
  handed_out seen c -> pl_idproc (p_pl c) <> idp ->
  (In (p_id c) (map p_id ins) -> keeps_history ty = false -> is_valid_r st' c = Ok false) /\
  (~ In (p_id c) (map p_id ins) -> is_valid_r st' c = is_valid_r st c).
Proof.
  intros H W HI P Hid HT HP HO NE.
  destruct (history_limits _ _ _ _ _ H W ltac:(discriminate)) as (I & HN & Nx & PK & S).
  rewrite (iterate_spec _ _ I) in HI. assert (EL : contents st = l) by congruence. subst l. clear HI. simpl in HN.
  destruct (perform_spec e st ty idp ins outs I HN P Hid HT) as (st1 & outs1 & E & I' & B & T & Q & ID & L & K).
  rewrite E in HP. destruct (if e_pot e then _ else _) as [[]|?|?]; cbn [rbind] in HP; try discriminate. inversion HP; subst st1 outs1. clear E HP.
  assert (OK : okh st c) by (apply S; auto).
  assert (OK' : okh st' c) by (eapply okh_trans; eauto).
  destruct (is_valid_iff _ _ c I ltac:(destruct OK; lia)) as (v & E1 & V1).
  destruct (is_valid_iff _ _ c I' ltac:(destruct OK; lia)) as (v' & E2 & V2).
  split.
  - intros Hin KH. rewrite E2. f_equal. apply not_true_is_false. intros Hv. apply V2 in Hv.
    destruct (pointed_in _ _ _ I' Hv) as (p & Hp & Ip).
    apply (Permutation_in _ K) in Hp. apply in_app_iff in Hp. destruct Hp as [Hp|Hp].
    + apply filter_In in Hp. destruct Hp as [_ Hp]. apply bystander_spec in Hp. auto.
    + apply in_map_iff in Hp. destruct Hp as (o & Ho & Hin'). inversion Ho; subst.
      assert (In (p_pl o) (map (fun o => p_pl (stamp ty idp o)) outs)) by (rewrite <- Q; now apply in_map).
      apply in_map_iff in H0. destruct H0 as (o2 & E3 & _). rewrite <- E3 in Ip. unfold stamp in Ip. rewrite KH in Ip. cbn in Ip. congruence.
  - intros NI. rewrite E1, E2. f_equal. apply eq_true_iff_eq. rewrite V1, V2. split; intros HP.
    + destruct (pointed_in _ _ _ I' HP) as (p & Hp & Ip).
      apply (Permutation_in _ K) in Hp. apply in_app_iff in Hp. destruct Hp as [Hp|Hp].
      * apply filter_In in Hp. eapply okh_pointed; eauto. tauto.
      * exfalso. apply in_map_iff in Hp. destruct Hp as (o & Ho & Hin'). inversion Ho; subst.
        assert (Hi : In (p_id o) (map p_id outs')) by now apply in_map. rewrite ID in Hi. destruct (replaces ty).
        -- unfold consecutive in Hi. apply in_map_iff in Hi. destruct Hi as (k & Ek & _). destruct OK as [OK _]. lia.
        -- rewrite H1 in Hi. auto.
    + apply (pointed_trans _ _ _ _ _ I T HP NI).
Qed.
Print Assumptions perform_invalidates_others.

(** A performed action either was of an exempt kind, or its outgoing particles carry the
    quantum numbers of the incoming ones; with potentials nothing is checked. *)
Theorem performed_action_conserves e st ty idp ins outs st' outs' :
  perform e st ty idp ins outs = Ok (st', outs') -> e_pot e = false ->
  exempt e ty ins \/ totals_agree e ins outs'.
Proof.
  unfold perform. destruct (idp =? 0); [discriminate|].
  destruct (update st ins _ _) as [[s o]|?|?]; cbn [rbind]; try discriminate. intros H PT. rewrite PT in H.
  destruct (check_conservation e ty ins o) as [[]|?|?] eqn:C; cbn [rbind] in H; try discriminate. inversion H; subst.
  unfold check_conservation in C. destruct (of_list (map (contrib e) ins)) as [a|?|?] eqn:Ea; cbn [rbind] in C; try discriminate.
  destruct (of_list (map (contrib e) outs')) as [b|?|?] eqn:Eb; cbn [rbind] in C; try discriminate.
  destruct (q_eqb a b) eqn:EQ.
  - right. exists a, b. splits; auto. apply q_eqb_spec; auto.
  - left. destruct ty; try discriminate; unfold exempt; auto.
    destruct ins as [|p r]; [discriminate|]. destruct (e_stable e (pl_type (p_pl p))) eqn:S; [|discriminate].
    right. right. split; auto. eauto.
Qed.
Print Assumptions performed_action_conserves.

(** A violation by any other kind of process raises the exception (after the container has
    been changed). *)
Theorem violation_is_reported e ops st b seen l ty idp ins outs qa qb :
  history ops st b seen -> within_limits (OReplace ins outs :: ops) ->
  iterate st = Ok l -> participants l ins -> idp <> 0 ->
  (replaces ty = false -> Forall2 same_type ins outs) ->
  of_list (map (contrib e) ins) = Ok qa -> of_list (map (contrib e) outs) = Ok qb -> ~ agree qa qb ->
  e_pot e = false -> ~ exempt e ty ins -> ins <> [] ->
  perform e st ty idp ins outs = Throw E_runtime.
Proof.
  intros H W HI P Hid HT Ha Hb NA PT NE NI.
  destruct (history_limits _ _ _ _ _ H W ltac:(discriminate)) as (I & HN & Nx & PK & S).
  rewrite (iterate_spec _ _ I) in HI. assert (EL : contents st = l) by congruence. subst l. clear HI. simpl in HN.
  destruct (perform_spec e st ty idp ins outs I HN P Hid HT) as (st1 & outs1 & E & I' & B & T & Q & ID & L & K).
  rewrite E, PT. unfold check_conservation. rewrite (contrib_stamped e ty idp outs outs1 Q), Ha, Hb. cbn [rbind].
  assert (EQ : q_eqb qa qb = false). { apply not_true_is_false. rewrite q_eqb_spec. auto. }
  rewrite EQ. destruct ty; auto; try (exfalso; apply NE; unfold exempt; auto; fail).
  destruct ins as [|p r]; [congruence|]. destruct (e_stable e (pl_type (p_pl p))) eqn:ST; auto.
  exfalso. apply NE. unfold exempt. right. right. split; auto. eauto.
Qed.
Print Assumptions violation_is_reported.

(** Limit: a wall crossing keeps other pending actions of the particle valid (by design),
    and an exempt process may change even the charge. *)
Definition ex_env : env :=
  Env (fun t => if t =? 1 then (1, 1, 0, 0, 0, 1) else (0, -1, 0, 0, 0, 1)) (fun _ => Four 0 0 0 0)
    (fun t => t =? 1) (fun _ => false) (fun r => hd 0 r) (fun t p => [t]) (fun _ p => pl_rest p) false true zero_q
    (fun _ _ _ => false) (fun _ => []) (fun _ _ => []) 10 (fun k => Z.of_nat k) (fun k => Z.of_nat k + 1)
    (fun k => 2 * Z.of_nat k) (fun k => 2 * Z.of_nat k + 2).
Definition ex_part (ty : Z) (i : Z) (ix : nat) (ipr : Z) : pdata :=
  {| p_id := i; p_index := ix; p_hole := false; p_pl := {| pl_type := ty; pl_idproc := ipr; pl_rest := [0] |} |}.
Definition ex_ops := [OInsert (ex_part 2 0 0 0); OInsert (ex_part 1 0 0 0)].
Lemma ex_history : exists st b seen, history ex_ops st b seen /\ within_limits ex_ops /\
  iterate st = Ok [ex_part 1 0 0 0; ex_part 2 1 1 0] /\ seen = [(1, 1%nat); (0, 0%nat)] /\
  st = after init_particles (rev ex_ops).
Proof.
  eexists _, _, _. split; [|split; [|split; [|split]]].
  - eapply H_step; [eapply H_step; [apply H_start|exact Logic.I|vm_compute; reflexivity|vm_compute; reflexivity]|exact Logic.I|vm_compute; reflexivity|vm_compute; reflexivity].
  - cbn. repeat split; vm_compute; discriminate.
  - vm_compute. reflexivity.
  - vm_compute. reflexivity.
  - vm_compute. reflexivity.
Qed.
(** An inelastic reaction 1 + 2 -> 2 + 1, a violating one, an elastic one and a wall
    crossing on a concrete container. *)
Example perform_examples :
  let st := after init_particles (rev ex_ops) in
  let p := ex_part 1 0 0 0 in let n := ex_part 2 1 1 0 in
  (exists st' outs, perform ex_env st (POther 3) 1 [p; n] [n; p] = Ok (st', outs) /\
     iterate st' = Ok [ex_part 2 2 0 1; ex_part 1 3 1 1] /\ is_valid_r st' n = Ok false) /\
  (exists st' outs, perform ex_env st PWall 1 [n] [n] = Ok (st', outs) /\ is_valid_r st' n = Ok true) /\
  (exists st' outs, perform ex_env st PElastic 7 [n] [n] = Ok (st', outs) /\ is_valid_r st' n = Ok false /\
     iterate st' = Ok [p; ex_part 2 1 1 7]) /\
  perform ex_env st (POther 3) 1 [n] [p] = Throw E_runtime /\
  (exists st' outs, perform ex_env st PFreeforall 1 [n] [] = Ok (st', outs) /\ iterate st' = Ok [p]) /\
  (exists st' outs, perform ex_env st PDecay 1 [p] [n] = Ok (st', outs)).
Proof.
  assert (Z4 : close 0 0 = true) by (apply close_spec; left; reflexivity).
  assert (S4 : four_eqb (Four 0 0 0 0) (Four 0 0 0 0) = true) by (unfold four_eqb; cbn [m0 m1 m2 m3]; rewrite Z4; reflexivity).
  assert (F0 : Flt.fadd 0 0 = 0%R) by (unfold Flt.fadd; rewrite Rplus_0_l; apply Flt.fl_0).
  assert (A0 : four_add (Four 0 0 0 0) (Four 0 0 0 0) = Four 0 0 0 0) by (unfold four_add; cbn [m0 m1 m2 m3]; rewrite F0; reflexivity).
  assert (L0 : of_list (map (contrib ex_env) []) = Ok zero_q) by reflexivity.
  assert (Lp : forall i ix ipr, of_list (map (contrib ex_env) [ex_part 1 i ix ipr]) = Ok (Qnum (Four 0 0 0 0) 1 1 0 0 0 1)).
  { intros. unfold of_list, map, contrib, ex_part, ex_env. cbn [foldM]. unfold add_values. cbn -[four_add]. rewrite A0. reflexivity. }
  assert (Ln : forall i ix ipr, of_list (map (contrib ex_env) [ex_part 2 i ix ipr]) = Ok (Qnum (Four 0 0 0 0) 0 (-1) 0 0 0 1)).
  { intros. unfold of_list, map, contrib, ex_part, ex_env. cbn [foldM]. unfold add_values. cbn -[four_add]. rewrite A0. reflexivity. }
  assert (Lpn : forall i ix ipr i' ix' ipr', of_list (map (contrib ex_env) [ex_part 1 i ix ipr; ex_part 2 i' ix' ipr']) = Ok (Qnum (Four 0 0 0 0) 1 0 0 0 0 2)).
  { intros. unfold of_list, map, contrib, ex_part, ex_env. cbn [foldM]. unfold add_values. cbn -[four_add]. rewrite !A0. reflexivity. }
  assert (Lnp : forall i ix ipr i' ix' ipr', of_list (map (contrib ex_env) [ex_part 2 i ix ipr; ex_part 1 i' ix' ipr']) = Ok (Qnum (Four 0 0 0 0) 1 0 0 0 0 2)).
  { intros. unfold of_list, map, contrib, ex_part, ex_env. cbn [foldM]. unfold add_values. cbn -[four_add]. rewrite !A0. reflexivity. }
  assert (EQ : forall c i s ch bt b, q_eqb (Qnum (Four 0 0 0 0) c i s ch bt b) (Qnum (Four 0 0 0 0) c i s ch bt b) = true).
  { intros. unfold q_eqb. cbn [q_mom q_charge q_i3 q_strange q_charm q_bottom q_baryon]. now rewrite S4, !Z.eqb_refl. }
  cbv zeta. unfold perform. change (1 =? 0) with false. change (7 =? 0) with false. cbv iota.
  change (e_pot ex_env) with false. cbv iota. unfold check_conservation.
  splits.
  - match goal with |- context [update ?a ?b ?c ?d] => let r := eval vm_compute in (update a b c d) in
      replace (update a b c d) with r by (vm_compute; reflexivity) end. cbn [rbind].
    rewrite Lpn. change [{| p_id := 2; p_index := 0; p_hole := false; p_pl := {| pl_type := 2; pl_idproc := 1; pl_rest := [0] |} |};
      {| p_id := 3; p_index := 1; p_hole := false; p_pl := {| pl_type := 1; pl_idproc := 1; pl_rest := [0] |} |}] with [ex_part 2 2 0 1; ex_part 1 3 1 1].
    rewrite Lnp. cbn [rbind]. rewrite EQ. cbn [rbind]. eexists _, _. split; [reflexivity|]. split; vm_compute; reflexivity.
  - match goal with |- context [update ?a ?b ?c ?d] => let r := eval vm_compute in (update a b c d) in
      replace (update a b c d) with r by (vm_compute; reflexivity) end. cbn [rbind].
    change [{| p_id := 1; p_index := 1; p_hole := false; p_pl := {| pl_type := 2; pl_idproc := 0; pl_rest := [0] |} |}] with [ex_part 2 1 1 0].
    rewrite !Ln. cbn [rbind]. rewrite EQ. cbn [rbind]. eexists _, _. split; [reflexivity|]. vm_compute; reflexivity.
  - match goal with |- context [update ?a ?b ?c ?d] => let r := eval vm_compute in (update a b c d) in
      replace (update a b c d) with r by (vm_compute; reflexivity) end. cbn [rbind].
    change [{| p_id := 1; p_index := 1; p_hole := false; p_pl := {| pl_type := 2; pl_idproc := 7; pl_rest := [0] |} |}] with [ex_part 2 1 1 7].
    rewrite !Ln. cbn [rbind]. rewrite EQ. cbn [rbind]. eexists _, _. split; [reflexivity|]. split; vm_compute; reflexivity.
  - match goal with |- context [update ?a ?b ?c ?d] => let r := eval vm_compute in (update a b c d) in
      replace (update a b c d) with r by (vm_compute; reflexivity) end. cbn [rbind].
    change [{| p_id := 2; p_index := 1; p_hole := false; p_pl := {| pl_type := 1; pl_idproc := 1; pl_rest := [0] |} |}] with [ex_part 1 2 1 1].
    rewrite Ln, Lp. cbn [rbind]. unfold q_eqb. cbn [q_mom q_charge]. rewrite S4. reflexivity.
  - match goal with |- context [update ?a ?b ?c ?d] => let r := eval vm_compute in (update a b c d) in
      replace (update a b c d) with r by (vm_compute; reflexivity) end. cbn [rbind].
    rewrite Ln, L0. cbn [rbind]. destruct (q_eqb _ _); cbn [rbind]; eexists _, _; (split; [reflexivity|]; vm_compute; reflexivity).
  - match goal with |- context [update ?a ?b ?c ?d] => let r := eval vm_compute in (update a b c d) in
      replace (update a b c d) with r by (vm_compute; reflexivity) end. cbn [rbind].
    change [{| p_id := 2; p_index := 0; p_hole := false; p_pl := {| pl_type := 2; pl_idproc := 1; pl_rest := [0] |} |}] with [ex_part 2 2 0 1].
    rewrite Ln, Lp. cbn [rbind]. destruct (q_eqb _ _); cbn -[update]; eexists _, _; reflexivity.
Qed.
