(** Invariants of the event loop. *)
From Coq Require Import ZArith Reals List Bool Lia Permutation.
From Verif Require Import Base QnModel QnProps ActionsModel ActionsProofs ParticlesModel ParticlesSpec ParticlesProofs ParticlesHistory ParticlesProps EventModel EventSpec EventProofs PerformProps.
Import ListNotations.
Open Scope Z_scope.

Definition safe {A} (P : A -> Prop) (r : res A) : Prop :=
  match r with
  | Ok a => P a
  | Throw _ => True
  | UB u => u = UB_no_progress \/ u = UB_signed_overflow
  end.
Lemma safe_bind {A B} (P : A -> Prop) (Q : B -> Prop) (r : res A) (f : A -> res B) :
  safe P r -> (forall a, P a -> safe Q (f a)) -> safe Q (rbind r f).
Proof. destruct r; cbn; auto. Qed.
Lemma safe_weaken {A} (P Q : A -> Prop) r : safe P r -> (forall a, P a -> Q a) -> safe Q r.
Proof. destruct r; cbn; auto. Qed.

(** ** The invariant *)
Definition pending (e : env) (st : pstate) (t : Z) (ac : acontent) : Prop :=
  Forall (okh st) (ac_in ac) /\ distinct (ac_in ac) /\ final_state_ok e t ac.
Definition state_of (k : Z * payload) : Z * Z := (fst k, pl_idproc (snd k)).
Record WI (e : env) (now : Z) (w : world) : Prop := {
  wi_inv : Inv (id_max (w_parts w) + 1) (w_parts w);
  wi_lim : id_max (w_parts w) + 1 <= LIM;
  wi_time : forall k, In k (keys (w_parts w)) -> e_time e (pl_rest (snd k)) <= now;
  wi_inter : 0 <= w_inter w;
  wi_idp : forall k, In k (keys (w_parts w)) -> pl_idproc (snd k) <= w_inter w;
  wi_heap : heap_from 0 (w_queue w);
  wi_queue : forall a, In a (w_queue w) -> now <= a_time a /\ 0 <= a_id a /\
     exists ac, nth_error (w_store w) (Z.to_nat (a_id a)) = Some ac /\ pending e (w_parts w) (a_time a) ac;
  wi_once : NoDup (used_up (w_log w));
  wi_used : forall i ip, In (i, ip) (used_up (w_log w)) ->
     0 <= i <= id_max (w_parts w) /\ ip <= w_inter w /\ ~ In (i, ip) (map state_of (keys (w_parts w))) }.
Definition room (w : world) : Prop := w_inter w < UINT32_MAX.
Definition all_at (e : env) (t : Z) (w : world) : Prop :=
  forall k, In k (keys (w_parts w)) -> e_time e (pl_rest (snd k)) = t.

(** ** The log *)
Definition ev_ok (e : env) (ev : event) : Prop :=
  match ev with
  | EvPerform t ty idp ins outs =>
      distinct ins /\ Forall (at_time e t) ins /\ Forall (at_time e t) outs /\
      (e_pot e = false -> exempt e ty ins \/ totals_agree e ins outs)
  | EvOutput t l => Forall (at_time e t) l
  | _ => True
  end.
Record Grow (e : env) (lo hi : Z) (w w' : world) (new : list event) : Prop := {
  gr_log : w_log w' = new ++ w_log w;
  gr_in : times_within lo hi new;
  gr_ord : time_ordered new;
  gr_ev : Forall (ev_ok e) new;
  gr_sum : forall g, ksum g (keys (w_parts w')) = ksum g (keys (w_parts w)) + log_change g new }.
Definition step (e : env) (lo hi : Z) (w w' : world) : Prop := exists new, Grow e lo hi w w' new.
Definition quiet (new : list event) : Prop := output_times new = [].
Definition qstep (e : env) (lo hi : Z) (w w' : world) : Prop :=
  exists new, Grow e lo hi w w' new /\ quiet new /\ w_labk w' = w_labk w /\ w_outk w' = w_outk w.

Lemma total_psum g l : total g l = psum g l.
Proof. reflexivity. Qed.
Lemma log_change_app g a b : log_change g (a ++ b) = log_change g a + log_change g b.
Proof. unfold log_change. induction a; cbn; lia. Qed.
Lemma output_times_app a b : output_times (a ++ b) = output_times b ++ output_times a.
Proof. unfold output_times. now rewrite flat_map_app, rev_app_distr. Qed.
Lemma ordered_nil : time_ordered [].
Proof. intros [|? ?] a l2 b l3 ta tb E; discriminate. Qed.
Lemma ordered_one x : time_ordered [x].
Proof.
  intros l1 a l2 b l3 ta tb E. exfalso. assert (L : length [x] = length (l1 ++ a :: l2 ++ b :: l3)) by now rewrite E.
  rewrite !app_length in L. cbn in L. rewrite app_length in L. cbn in L. lia.
Qed.
Lemma app_split {A} (x y l : list A) a r : x ++ y = l ++ a :: r ->
  (exists r', x = l ++ a :: r' /\ r = r' ++ y) \/ (exists l', y = l' ++ a :: r /\ l = x ++ l').
Proof.
  revert l; induction x as [|h x IH]; intros l E.
  - right. exists l. auto.
  - destruct l as [|h' l]; cbn in E; inversion E; subst.
    + left. exists x. auto.
    + destruct (IH _ H1) as [(r' & A1 & A2)|(l' & A1 & A2)]; [left; exists r'|right; exists l']; subst; auto.
Qed.
Lemma ordered_app lo mid hi new old : time_ordered new -> time_ordered old ->
  times_within mid hi new -> times_within lo mid old -> time_ordered (new ++ old).
Proof.
  intros A B C D l1 a l2 b l3 ta tb E Ha Hb.
  apply app_split in E. destruct E as [(r & E1 & E2)|(l' & E1 & E2)].
  - symmetry in E2. apply app_split in E2. destruct E2 as [(r' & E3 & E4)|(l'' & E3 & E4)].
    + subst r. eapply A; eauto.
    + assert (mid <= ta <= hi) by (eapply C; eauto; rewrite E1; apply in_or_app; right; now left).
      assert (lo <= tb <= mid) by (eapply D; eauto; rewrite E3; apply in_or_app; right; now left). lia.
  - eapply B; eauto.
Qed.
Lemma within_app lo hi a b : times_within lo hi a -> times_within lo hi b -> times_within lo hi (a ++ b).
Proof. intros A B ev t H. apply in_app_or in H. destruct H; eauto. Qed.
Lemma within_mono lo hi lo' hi' l : times_within lo hi l -> lo' <= lo -> hi <= hi' -> times_within lo' hi' l.
Proof. intros A B C ev t H E. specialize (A ev t H E). lia. Qed.

Lemma Grow_trans e lo mid hi w1 w2 w3 n1 n2 : lo <= mid -> mid <= hi ->
  Grow e lo mid w1 w2 n1 -> Grow e mid hi w2 w3 n2 -> Grow e lo hi w1 w3 (n2 ++ n1).
Proof.
  intros L1 L2 [A1 A2 A3 A4 A5] [B1 B2 B3 B4 B5]. constructor.
  - now rewrite B1, A1, app_assoc.
  - apply within_app; [eapply within_mono; [exact B2|lia|lia]|eapply within_mono; [exact A2|lia|lia]].
  - eapply ordered_app; eauto.
  - apply Forall_app; auto.
  - intros g. rewrite B5, A5, log_change_app. lia.
Qed.
Lemma qstep_trans e lo mid hi w1 w2 w3 : lo <= mid -> mid <= hi -> qstep e lo mid w1 w2 -> qstep e mid hi w2 w3 -> qstep e lo hi w1 w3.
Proof.
  intros L1 L2 (n1 & A1 & A2 & A3 & A4) (n2 & B1 & B2 & B3 & B4). exists (n2 ++ n1). splits.
  - eapply Grow_trans; [exact L1|exact L2|eauto|eauto].
  - unfold quiet in *. rewrite output_times_app, A2, B2. auto.
  - congruence.
  - congruence.
Qed.
Lemma qstep_step e lo hi w w' : qstep e lo hi w w' -> step e lo hi w w'.
Proof. intros (n & A & _). exists n. auto. Qed.
Lemma qstep_refl e lo w : qstep e lo lo w w.
Proof.
  exists []. splits; try reflexivity. constructor; auto.
  - intros ev t [].
  - apply ordered_nil.
  - intros; cbn. lia.
Qed.
Lemma qstep_mono e lo hi lo' hi' w w' : qstep e lo hi w w' -> lo' <= lo -> hi <= hi' -> qstep e lo' hi' w w'.
Proof.
  intros (n & [A1 A2 A3 A4 A5] & B) L H. exists n. split; auto. constructor; auto. eapply within_mono; eauto.
Qed.
Lemma qstep_queue e lo hi w w' q s : qstep e lo hi w w' ->
  qstep e lo hi w (with_queue q (with_store s w')).
Proof. intros (n & [A1 A2 A3 A4 A5] & B). exists n. split; auto. constructor; auto. Qed.
Lemma qstep_from_queue e lo hi w w' q : qstep e lo hi (with_queue q w) w' -> qstep e lo hi w w'.
Proof. intros (n & [A1 A2 A3 A4 A5] & B). exists n. split; auto. constructor; auto. Qed.

(** ** Propagation *)
Lemma propagate_ok e now to w : physics_ok e -> WI e now w -> now <= to ->
  (forall a, In a (w_queue w) -> to <= a_time a) ->
  exists st, propagate e to (w_parts w) = Ok st /\
    let w' := note (EvMove to) (with_parts st w) in
    WI e to w' /\ all_at e to w' /\ pres (w_parts w) st /\ qstep e to to w w' /\
    map state_of (keys st) = map state_of (keys (w_parts w)).
Proof.
  intros PH [I L T N P H Q O U] LE QT. unfold propagate.
  destruct (for_each_spec (fun p => if to <? e_time e (pl_rest p) then UB UB_assert else Ok (e_move e to p)) (e_move e to) _ (w_parts w) I)
    as (st & E & I' & PR & K).
  { intros k Hk. specialize (T k Hk). destruct (Z.ltb_spec to (e_time e (pl_rest (snd k)))); [lia|auto]. }
  exists st. split; [exact E|]. destruct PR as [PR1 PR2].
  assert (SO : map state_of (keys st) = map state_of (keys (w_parts w))).
  { rewrite K. unfold mapk. rewrite map_map. apply map_ext. intros [i p]. reflexivity. }
  assert (AT : forall k, In k (keys st) -> e_time e (pl_rest (snd k)) = to).
  { intros k Hk. rewrite K in Hk. apply in_map_iff in Hk. destruct Hk as (k0 & <- & _). cbn. apply (ph_move _ PH). }
  cbn zeta. splits; auto.
  - constructor; cbn [note with_parts w_parts w_queue w_store w_inter w_log].
    + rewrite PR1. auto.
    + rewrite PR1. auto.
    + intros k Hk. rewrite (AT k Hk). lia.
    + auto.
    + intros k Hk. rewrite K in Hk. apply in_map_iff in Hk. destruct Hk as (k0 & <- & Hk). cbn. apply P; auto.
    + auto.
    + intros a Ha. destruct (Q a Ha) as (Qa & Qb & ac & Qc & (Qd & Qe & Qf)). splits; auto. exists ac. split; auto. split; auto.
      eapply Forall_impl; [|exact Qd]. auto.
    + exact O.
    + intros i ip Hi. destruct (U i ip Hi) as (U1 & U2 & U3). rewrite PR1, SO. auto.
  - exact (conj PR1 PR2).
  - exists [EvMove to]. splits; try reflexivity. constructor; auto.
    + intros ev t [<-|[]] Et. cbn in Et. inversion Et. lia.
    + apply ordered_one.
    + constructor; cbn; auto.
    + intros g. cbn [note with_parts w_parts]. rewrite K, ksum_mapk. cbn. lia.
Qed.

(** ** perform_action *)
Lemma same_state_refl l : Forall2 same_state l l.
Proof. induction l; constructor; auto. unfold same_state; auto. Qed.

Lemma check_safe e ty ins outs : (ty = PDecay -> ins <> []) -> safe (fun _ => True) (check_conservation e ty ins outs).
Proof.
  intros H. unfold check_conservation, of_list.
  destruct (fold_fail (map (contrib e) ins) zero_q) as [[a ->]| ->]; cbn [rbind safe]; auto.
  destruct (fold_fail (map (contrib e) outs) zero_q) as [[b ->]| ->]; cbn [rbind safe]; auto.
  destruct (q_eqb a b); cbn; auto. destruct ty; cbn; auto.
  destruct ins; [specialize (H eq_refl); congruence|]. destruct (e_stable _ _); cbn; auto.
Qed.

Lemma used_up_cons ev l : used_up (ev :: l) = used_up [ev] ++ used_up l.
Proof. unfold used_up. cbn. now rewrite app_nil_r. Qed.

Lemma NoDup_app_intro {A} (a b : list A) : NoDup a -> NoDup b -> (forall x, In x a -> ~ In x b) -> NoDup (a ++ b).
Proof.
  induction a as [|x a IH]; cbn [app]; intros Na Nb D; [exact Nb|]. inversion Na; subst. constructor.
  - intros H. apply in_app_or in H. destruct H as [H|H]; [tauto|]. exact (D x (or_introl eq_refl) H).
  - apply IH; [assumption|assumption|]. intros y Hy. apply D. now right.
Qed.

Lemma in_contents_at e t w d : all_at e t w -> In d (contents (w_parts w)) -> at_time e t d.
Proof. intros A H. apply (A (p_id d, p_pl d)). now apply in_contents_key. Qed.

Lemma Forall2_in_r {A B} (R : A -> B -> Prop) l l' b : Forall2 R l l' -> In b l' -> exists a, In a l /\ R a b.
Proof. induction 1; cbn; [tauto|]. intros [<-|H1]; eauto. destruct (IHForall2 H1) as (a & ? & ?); eauto. Qed.

Lemma idproc_pairs (l l' : list pdata) : Forall2 (fun i o => pl_idproc (p_pl i) = pl_idproc (p_pl o)) l l' -> map (fun o => pl_idproc (p_pl o)) l' = map (fun i => pl_idproc (p_pl i)) l.
Proof. induction 1; cbn; congruence. Qed.
Lemma map_pair_eq {A} (f g : A -> Z) l l' : map f l = map f l' -> map g l = map g l' -> map (fun x => (f x, g x)) l = map (fun x => (f x, g x)) l'.
Proof. revert l'; induction l as [|a l IH]; intros [|b l'] E1 E2; try discriminate; auto. cbn [map] in *. injection E1 as A1 A2. injection E2 as B1 B2. rewrite A1, B1. f_equal. apply IH; assumption. Qed.

Lemma perform_action_ok e t w ac : WI e t w -> all_at e t w -> room w ->
  participants (contents (w_parts w)) (ac_in ac) -> final_state_ok e t ac ->
  safe (fun '(w', r) => WI e t w' /\ qstep e t t w w' /\
     match r with None => room w' | Some _ => log_time (w_log w') = t end) (perform_action e w ac t).
Proof.
  intros W AT R PA FS. pose proof W as [I L T N P H Q O U]. unfold perform_action. unfold room in R.
  assert (DISC : WI e t (note EvDiscard w) /\ qstep e t t w (note EvDiscard w)).
  { split.
    - constructor; cbn [note w_parts w_queue w_store w_inter w_log]; auto.
    - exists [EvDiscard]. splits; try reflexivity. constructor; auto.
      + intros ev t' [<-|[]] E; discriminate.
      + apply ordered_one.
      + constructor; cbn; auto.
      + intros; cbn. lia. }
  assert (OKH : Forall (okh (w_parts w)) (ac_in ac)).
  { eapply Forall_impl; [|exact (proj1 PA)]. intros d Hd. exact (contents_okh _ _ d d I Hd eq_refl). }
  destruct (action_valid_spec _ _ _ I OKH) as (v & EV & _). rewrite EV. cbn [rbind].
  destruct v; cbn [negb]; [|cbn [safe]; destruct DISC; auto].
  destruct (core_stops e (ac_type ac) (ac_in ac)); [cbn [safe]; destruct DISC; auto|].
  destruct (ac_final ac (ac_in ac)) as [[ty outs]|] eqn:EF; [|cbn [safe]; destruct DISC; auto].
  destruct (e_pauli e w (ac_in ac) outs); [cbn [safe]; destruct DISC; auto|].
  destruct (Z.ltb_spec MAX_PARTICLES (id_max (w_parts w) + 1 + Z.of_nat (length outs))); [cbn; auto|].
  change MAX_PARTICLES with LIM in H0.
  assert (ATI : Forall (at_time e t) (ac_in ac)).
  { eapply Forall_impl; [|exact (proj1 PA)]. intros d Hd. eapply in_contents_at; eauto. }
  destruct (FS (ac_in ac) ty outs (same_state_refl _) ATI EF) as (FO & FT & FK & FD).
  assert (EI : u32 (w_inter w + 1) = w_inter w + 1).
  { unfold u32. apply Z.mod_small. unfold UINT32_MAX in R. lia. }
  assert (EI64 : u64 (w_inter w + 1) = w_inter w + 1).
  { unfold u64. apply Z.mod_small. unfold UINT32_MAX in R. lia. }
  cbv zeta. rewrite EI, EI64.
  destruct (perform_spec e (w_parts w) ty (w_inter w + 1) (ac_in ac) outs I H0 PA ltac:(lia) FT)
    as (st' & outs' & E & I' & B & TR & PL & ID & LV & K).
  rewrite E.
  assert (CK : safe (fun _ : unit => e_pot e = false -> exempt e ty (ac_in ac) \/ totals_agree e (ac_in ac) outs')
     (if e_pot e then Ok tt else check_conservation e ty (ac_in ac) outs')).
  { destruct (e_pot e) eqn:EP; [cbn; discriminate|].
    pose proof (check_safe e ty (ac_in ac) outs' FD) as SC.
    destruct (check_conservation e ty (ac_in ac) outs') as [[]|?|?] eqn:EC; cbn in SC |- *; auto.
    intros _. eapply performed_action_conserves; [|exact EP]. rewrite E. reflexivity. }
  destruct (if e_pot e then Ok tt else check_conservation e ty (ac_in ac) outs') as [[]|?|?]; cbn [rbind safe] in CK |- *; auto.
  pose proof (t_mono _ _ _ TR) as MONO.
  assert (OAT : Forall (at_time e t) outs').
  { clear - PL FO. revert outs' PL. induction FO as [|o outs Ho FO IH]; intros [|o' outs'] PL; try discriminate; constructor.
    - cbn [map] in PL. injection PL as P1 P2. unfold at_time. rewrite P1, (proj1 (stamp_rest _ _ _)). exact Ho.
    - apply IH. cbn [map] in PL. injection PL as P1 P2. auto. }
  assert (KIN : forall k, In k (keys st') -> In k (keys (w_parts w)) /\ ~ In (fst k) (map p_id (ac_in ac)) \/ exists o, In o outs' /\ k = key o).
  { intros k Hk. apply (Permutation_in _ K) in Hk. apply in_app_or in Hk. destruct Hk as [Hk|Hk].
    - left. apply filter_In in Hk. rewrite bystander_spec in Hk. tauto.
    - right. apply in_map_iff in Hk. destruct Hk as (o & <- & Ho). eauto. }
  (* process ids of the outgoing particles *)
  assert (OIP : if keeps_history ty then Forall2 (fun i o => pl_idproc (p_pl i) = pl_idproc (p_pl o)) (ac_in ac) outs'
                else Forall (fun o => pl_idproc (p_pl o) = w_inter w + 1) outs').
  { destruct (keeps_history ty) eqn:KH.
    - specialize (FK eq_refl). clear - FK PL KH. revert outs' PL. induction FK as [|i o ins outs Hio FK IH]; intros [|o' outs'] PL; try discriminate; constructor.
      + cbn [map] in PL. injection PL as P1 P2. rewrite P1. unfold stamp. rewrite KH. auto.
      + apply IH. cbn [map] in PL. injection PL as P1 P2. auto.
    - clear - PL KH. revert outs' PL. induction outs as [|o outs IH]; intros [|o' outs'] PL; try discriminate; constructor.
      + cbn [map] in PL. injection PL as P1 P2. rewrite P1. unfold stamp. rewrite KH. reflexivity.
      + apply IH. cbn [map] in PL. injection PL as P1 P2. auto. }
  assert (INK : forall d, In d (ac_in ac) -> In (p_id d, p_pl d) (keys (w_parts w))).
  { intros d Hd. apply in_contents_key. destruct PA as [PA1 _]. rewrite Forall_forall in PA1. auto. }
  assert (IDK : keeps_history ty = true -> map p_id outs' = map p_id (ac_in ac)).
  { intros KH. rewrite ID. destruct ty; try discriminate; reflexivity. }
  splits.
  - constructor; cbn [note with_inter with_parts w_parts w_queue w_store w_inter w_log].
    + exact I'.
    + exact B.
    + intros k Hk. destruct (KIN k Hk) as [[A _]|(o & A & ->)]; auto. rewrite Forall_forall in OAT. specialize (OAT o A). unfold at_time in OAT. cbn. lia.
    + lia.
    + intros k Hk. destruct (KIN k Hk) as [[A _]|(o & A & ->)]; [specialize (P k A); lia|]. cbn [key snd].
      destruct (keeps_history ty).
      * destruct (Forall2_in_r _ _ _ _ OIP A) as (i & Hi & <-). specialize (P _ (INK i Hi)). cbn in P. lia.
      * rewrite Forall_forall in OIP. rewrite (OIP o A). lia.
    + exact H.
    + intros a Ha. destruct (Q a Ha) as (Qa & Qb & ac' & Qc & (Qd & Qe & Qf)). splits; auto. exists ac'. split; auto. split; auto.
      eapply Forall_impl; [|exact Qd]. intros c Hc. eapply okh_trans; eauto.
    + rewrite used_up_cons. apply NoDup_app_intro; auto.
      * cbn. rewrite app_nil_r. destruct (keeps_history ty); [constructor|]. destruct PA as [_ PA]. unfold distinct in PA.
        apply (NoDup_map_inv fst). rewrite map_map. cbn. exact PA.
      * intros [i ip] Hi Hu. cbn in Hi. rewrite app_nil_r in Hi. destruct (keeps_history ty); [destruct Hi|].
        apply in_map_iff in Hi. destruct Hi as (d & Ed & Hd). inversion Ed; subst.
        destruct (U _ _ Hu) as (_ & _ & U3). apply U3. apply in_map_iff. exists (p_id d, p_pl d). split; auto.
    + intros i ip Hu. rewrite used_up_cons in Hu. apply in_app_or in Hu.
      assert (HH : 0 <= i <= id_max (w_parts w) /\ ip <= w_inter w /\
         (In (i, ip) (used_up (w_log w)) \/ (In i (map p_id (ac_in ac)) /\ keeps_history ty = false))).
      { destruct Hu as [Hu|Hu].
        - cbn in Hu. rewrite app_nil_r in Hu. destruct (keeps_history ty); [destruct Hu|].
          apply in_map_iff in Hu. destruct Hu as (d & Ed & Hd). inversion Ed; subst.
          assert (Hk := INK d Hd). splits.
          + destruct PA as [PA1 _]. rewrite Forall_forall in PA1. specialize (PA1 d Hd). apply In_contents in PA1. destruct PA1 as (j & Lj).
            pose proof (proj1 (Forall_forall _ _) OKH d Hd) as [OO _]. lia.
          + destruct PA as [PA1 _]. rewrite Forall_forall in PA1. specialize (PA1 d Hd). apply In_contents in PA1. destruct PA1 as (j & Lj).
            pose proof (proj1 (Forall_forall _ _) OKH d Hd) as [OO _]. lia.
          + apply (P _ Hk).
          + right. split; auto. now apply in_map.
        - destruct (U _ _ Hu) as (U1 & U2 & U3). auto. }
      destruct HH as (H1 & H2 & H3). split; [lia|]. split; [lia|].
      intros Hk. apply in_map_iff in Hk. destruct Hk as ([j p] & Ej & Hk). unfold state_of in Ej. cbn in Ej. inversion Ej; subst.
      destruct (KIN _ Hk) as [[A NA]|(o & A & Eo)].
      * cbn [fst] in NA. destruct H3 as [H3|[H3 _]]; [|auto]. destruct (U _ _ H3) as (_ & _ & U3). apply U3.
        apply in_map_iff. exists (i, p). auto.
      * inversion Eo; subst. destruct (keeps_history ty) eqn:KH.
        -- destruct H3 as [H3|[_ H3]]; [|discriminate]. destruct (U _ _ H3) as (_ & _ & U3). apply U3.
           assert (Hp : In (p_id o, pl_idproc (p_pl o)) (map (fun x => (p_id x, pl_idproc (p_pl x))) (ac_in ac))).
           { rewrite <- (map_pair_eq p_id (fun x => pl_idproc (p_pl x)) outs' (ac_in ac)).
             - apply in_map_iff. exists o. auto.
             - auto.
             - apply idproc_pairs. auto. }
           apply in_map_iff in Hp. destruct Hp as (d & Ed & Hd). inversion Ed. apply in_map_iff. exists (p_id d, p_pl d). split; auto.
        -- rewrite Forall_forall in OIP. specialize (OIP o A). lia.
  - exists [EvPerform t ty (w_inter w + 1) (ac_in ac) outs']. splits; try reflexivity. constructor.
    + reflexivity.
    + intros ev t' [<-|[]] Et. cbn in Et. inversion Et. lia.
    + apply ordered_one.
    + constructor; auto. cbn. destruct PA. auto.
    + intros g. cbn [note with_inter with_parts w_parts]. rewrite (ksum_perm g _ _ K), ksum_app. rewrite <- delks_filter.
      destruct PA as [PA1 PA2].
      rewrite (ksum_delks g (ac_in ac) (keys (w_parts w)) (keys_nodup _ _ I) PA2 INK).
      assert (KO : ksum g (map key outs') = psum g outs').
      { clear. induction outs' as [|o l IH]; [reflexivity|]. unfold ksum, psum in *. cbn [map fold_right key snd]. f_equal. exact IH. }
      rewrite KO. change (log_change g [EvPerform t ty (w_inter w + 1) (ac_in ac) outs']) with (psum g outs' - psum g (ac_in ac) + 0). lia.
  - reflexivity.
Qed.

(** ** Insertion of found actions *)
Lemma in_combine_seq {A} (l : list A) : forall n k x, In (k, x) (combine (seq n (length l)) l) -> nth_error l (k - n) = Some x /\ (n <= k < n + length l)%nat.
Proof.
  induction l as [|a l IH]; intros n k x H; cbn in H; [destruct H|]. destruct H as [H|H].
  - inversion H; subst. rewrite Nat.sub_diag. cbn. split; auto. lia.
  - apply IH in H. destruct H as [H1 H2]. replace (k - n)%nat with (S (k - S n))%nat by lia. cbn. split; auto. lia.
Qed.
Lemma insert_found_ok e now w found : WI e now w -> Forall (found_ok e (w_parts w) now) found -> WI e now (insert_found w found).
Proof.
  intros [I L T N P H Q O U] F. unfold insert_found.
  set (acts := map _ (combine (seq 0 (length found)) found)).
  destruct (ActionsProofs.insert_all_spec acts (w_queue w) H) as [HH HP].
  constructor; cbn [with_queue with_store w_parts w_queue w_store w_inter w_log]; auto.
  intros a Ha. apply (Permutation_in _ HP) in Ha. apply in_app_or in Ha. destruct Ha as [Ha|Ha].
  - unfold acts in Ha. apply in_map_iff in Ha. destruct Ha as ([k [t ac]] & Ea & Hk). subst a.
    apply in_combine_seq in Hk. rewrite Nat.sub_0_r in Hk. destruct Hk as [Hk Hb].
    rewrite Forall_forall in F. pose proof (F _ (nth_error_In _ _ Hk)) as (F1 & (l & F2 & F3) & F4 & F5).
    cbn [a_time a_id]. splits; auto; [lia|]. exists ac. split.
    + rewrite nth_error_app2 by lia. replace (Z.to_nat (Z.of_nat (length (w_store w)) + Z.of_nat k) - length (w_store w))%nat with k by lia.
      rewrite nth_error_map, Hk. reflexivity.
    + split; auto. rewrite (iterate_spec _ _ I) in F2. assert (contents (w_parts w) = l) by congruence. subst l.
      eapply Forall_impl; [|exact F3]. intros c Hc. exact (contents_okh _ _ c c I Hc eq_refl).
  - destruct (Q a Ha) as (Qa & Qb & ac & Qc & Qd). splits; auto. exists ac. split; auto.
    rewrite nth_error_app1; auto. apply nth_error_Some. congruence.
Qed.

(** ** The loops *)
Lemma action_loop_ok e tend : physics_ok e -> forall f now w, WI e now w -> room w -> now <= tend ->
  safe (fun w' => exists now', now <= now' <= tend /\ WI e now' w' /\ room w' /\ qstep e now now' w w' /\
     forall a, In a (w_queue w') -> tend <= a_time a) (action_loop f e tend w).
Proof.
  intros PH. induction f as [|f IH]; intros now w W R LE; [cbn; auto|]. cbn [action_loop].
  pose proof (pop_spec _ (wi_heap _ _ _ W)) as PS.
  destruct (w_queue w) as [|a0 q0] eqn:EQ; cbn [ActionsModel.is_empty].
  { cbn [safe]. exists now. splits; auto; try lia; [apply qstep_refl|]. rewrite EQ. intros a Ha. destruct Ha. }
  rewrite <- EQ. rewrite <- EQ in PS. destruct (pop (w_queue w)) as [[a q]|?|?]; [|rewrite EQ in PS; destruct PS; discriminate|tauto].
  destruct PS as (PH1 & PP & PM & PE). rewrite PE. cbn [rbind].
  destruct (Z.ltb_spec tend (a_time a)) as [LT|GE].
  { cbn [safe]. exists now. splits; auto; try lia; [apply qstep_refl|]. intros b Hb. specialize (PM b Hb). lia. }
  assert (Ain : In a (w_queue w)) by (rewrite PP; now left).
  destruct (wi_queue _ _ _ W a Ain) as (Qa & Qb & ac & Qc & (Qd & Qe & Qf)).
  change (w_store (with_queue q w)) with (w_store w). rewrite Qc.
  change (w_parts (with_queue q w)) with (w_parts w).
  assert (W1 : WI e now (with_queue q w)).
  { destruct W as [I L T N P H Q O U]. constructor; cbn [with_queue w_parts w_queue w_store w_inter w_log]; auto.
    intros b Hb. apply Q. rewrite PP. now right. }
  destruct (action_valid_spec _ _ _ (wi_inv _ _ _ W) Qd) as (v & EV & VV). rewrite EV. cbn [rbind].
  destruct v; cbn [negb].
  2:{ assert (W2 : WI e now (note EvDiscard (with_queue q w))).
      { destruct W1 as [I L T N P H Q O U]. constructor; auto. }
      assert (ST : qstep e now now w (note EvDiscard (with_queue q w))).
      { exists [EvDiscard]. splits; try reflexivity. constructor; auto.
        + intros ev t' [<-|[]] E; discriminate.
        + apply ordered_one.
        + constructor; cbn; auto.
        + intros; cbn. lia. }
      eapply safe_weaken; [apply (IH now); auto|]. intros w' (now' & A & B & C & D & E). exists now'. splits; auto; try lia.
      eapply qstep_trans; [| |exact ST|exact D]; lia. }
  assert (VP : Forall (pointed (w_parts w)) (ac_in ac)) by (apply VV; auto).
  assert (QT : forall b, In b (w_queue (with_queue q w)) -> a_time a <= a_time b).
  { intros b Hb. apply PM. rewrite PP. now right. }
  destruct (propagate_ok e now (a_time a) (with_queue q w) PH W1 Qa QT) as (st1 & EP & W2 & AT2 & PR & ST & SO).
  change (w_parts (with_queue q w)) with (w_parts w) in EP. rewrite EP. cbn [rbind].
  set (w2 := note (EvMove (a_time a)) (with_parts st1 (with_queue q w))) in *.
  assert (I2 : Inv (id_max st1 + 1) st1) by exact (wi_inv _ _ _ W2).
  assert (VP2 : Forall (pointed st1) (ac_in ac)).
  { rewrite Forall_forall in *. intros c Hc.
    destruct (pointed_in _ _ _ (wi_inv _ _ _ W) (VP c Hc)) as (p & Hp & Ep).
    assert (Hs : In (state_of (p_id c, p)) (map state_of (keys st1))) by (rewrite SO; now apply in_map).
    apply in_map_iff in Hs. destruct Hs as ([j p'] & Es & Hs). unfold state_of in Es. cbn in Es. inversion Es; subst.
    eapply okh_pointed; [exact I2|apply PR; auto|exact Hs|congruence]. }
  destruct (update_incoming_spec _ _ _ I2 VP2) as (ins & EU & SP & CI). rewrite EU. cbn [rbind].
  assert (PA : participants (contents (w_parts w2)) ins).
  { split; auto. unfold distinct in *. pose proof (same_particles_handles _ _ SP) as SH.
    assert (E : map p_id ins = map p_id (ac_in ac)).
    { apply (f_equal (map fst)) in SH. rewrite !map_map in SH. symmetry. exact SH. }
    rewrite E. exact Qe. }
  assert (FS2 : final_state_ok e (a_time a) (AC (ac_type ac) ins (ac_final ac))).
  { intros ins' ty outs SS AT' EF. cbn [ac_in ac_final] in *. apply (Qf ins' ty outs); auto.
    clear - SP SS. revert ins' SS. induction SP as [|c d l l' [A1 A2] SP IH]; intros ins' SS; inversion SS; subst; constructor.
    - inversion A1. unfold same_state in *. destruct H1 as (B1 & B2 & B3). splits; congruence.
    - apply IH; auto. }
  assert (R2 : room w2) by exact R.
  eapply safe_bind; [exact (perform_action_ok e (a_time a) w2 (AC (ac_type ac) ins (ac_final ac)) W2 AT2 R2 PA FS2)|].
  intros [w3 r] (W3 & ST3 & RR).
  assert (ST13 : qstep e now (a_time a) w w3).
  { apply qstep_from_queue with q. eapply qstep_trans; [| |eapply qstep_mono; [exact ST|lia|apply Z.le_refl]|exact ST3]; lia. }
  destruct r as [outs|].
  - assert (W4 : WI e (a_time a) (insert_found w3 (e_find_new e w3 outs))).
    { apply insert_found_ok; auto. rewrite <- RR at 1. apply (ph_new _ PH). }
    destruct (Z.leb_spec UINT32_MAX (w_inter (insert_found w3 (e_find_new e w3 outs)))); [cbn; auto|].
    eapply safe_weaken; [apply (IH (a_time a)); auto|]. intros w' (now' & A & B & C & D & E).
    exists now'. splits; auto; try lia.
    eapply qstep_trans with (mid := a_time a) (w2 := insert_found w3 (e_find_new e w3 outs)); try lia; auto.
    unfold insert_found. apply qstep_queue. auto.
  - eapply safe_weaken; [apply (IH (a_time a)); auto|]. intros w' (now' & A & B & C & D & E).
    exists now'. splits; auto; try lia. eapply qstep_trans; [| |exact ST13|exact D]; lia.
Qed.

Lemma timestepless_ok e tend f now w : physics_ok e -> WI e now w -> room w -> now <= tend ->
  safe (fun w' => WI e tend w' /\ room w' /\ all_at e tend w' /\ qstep e now tend w w') (timestepless f e tend w).
Proof.
  intros PH W R LE. unfold timestepless. eapply safe_bind; [apply (action_loop_ok e tend PH f now); auto|].
  intros w1 (now1 & A & W1 & R1 & ST1 & QT).
  destruct (propagate_ok e now1 tend w1 PH W1 ltac:(lia) QT) as (st & E & W2 & AT & PR & ST & SO).
  rewrite E. cbn [rbind safe]. splits; auto.
  eapply qstep_trans with (mid := now1); [lia|lia|exact ST1|]. eapply qstep_mono; [exact ST|lia|lia].
Qed.

Definition shown_from (e : env) (k0 k1 : nat) (new : list event) : Prop :=
  output_times new = map (e_out e) (seq (S k0) (k1 - k0)) /\ (k0 <= k1)%nat.

Lemma seq_snoc a n : seq a (S n) = seq a n ++ [(a + n)%nat].
Proof. apply seq_S. Qed.

Lemma output_loop_ok e tstep : physics_ok e -> (forall k, e_out e (S k) = e_out_next e k) ->
  (forall k, e_out_next e k <= e_out_next e (S k)) ->
  forall f now w, WI e now w -> room w -> now <= tstep -> now <= e_out_next e (w_outk w) ->
  safe (fun w' => exists now' new, now <= now' <= tstep /\ WI e now' w' /\ room w' /\ Grow e now now' w w' new /\
     shown_from e (w_outk w) (w_outk w') new /\ w_labk w' = w_labk w /\ tstep <= e_out_next e (w_outk w')) (output_loop f e tstep w).
Proof.
  intros PH CK1 CK2. induction f as [|f IH]; intros now w W R L1 L2; [cbn; auto|]. cbn [output_loop].
  destruct (Z.ltb_spec (e_out_next e (w_outk w)) tstep) as [LT|GE].
  - set (to := e_out_next e (w_outk w)) in *.
    eapply safe_bind; [apply (timestepless_ok e to (S f) now w PH W R L2)|].
    intros w1 (W1 & R1 & AT1 & (n1 & G1 & QU & LK & OK1)). cbv zeta.
    change (w_parts (tick_out w1)) with (w_parts w1).
    rewrite (iterate_spec _ _ (wi_inv _ _ _ W1)). cbn [rbind].
    change (w_outk (tick_out w1)) with (S (w_outk w1)). rewrite OK1, CK1. fold to.
    set (w2 := note (EvOutput to (contents (w_parts w1))) (tick_out w1)).
    assert (W2 : WI e to w2).
    { destruct W1 as [I L T N P H Q O U]. constructor; auto. }
    assert (G2 : Grow e to to w1 w2 [EvOutput to (contents (w_parts w1))]).
    { constructor; auto.
      - intros ev t [<-|[]] Et. cbn in Et. inversion Et. lia.
      - apply ordered_one.
      - constructor; auto. cbn. apply Forall_forall. intros d Hd. eapply in_contents_at; eauto.
      - intros g. cbn. lia. }
    assert (GE2 : to <= e_out_next e (w_outk w2)).
    { change (w_outk w2) with (S (w_outk w1)). rewrite OK1. unfold to. apply CK2. }
    eapply safe_weaken; [apply (IH to w2); auto; lia|].
    intros w' (now' & new & A & W' & R' & G' & (SF & SL) & LK' & TE).
    exists now', (new ++ [EvOutput to (contents (w_parts w1))] ++ n1). splits; auto; try lia.
    + rewrite app_assoc. eapply Grow_trans with (mid := to) (w2 := w1); [lia|lia|exact G1|].
      eapply Grow_trans with (mid := to) (w2 := w2); [lia|lia|exact G2|exact G'].
    + change (w_outk w2) with (S (w_outk w1)) in SF, SL. rewrite OK1 in SF, SL. split; [|lia].
      rewrite !output_times_app. unfold quiet in QU. rewrite QU. cbn [app]. rewrite SF.
      replace (w_outk w' - w_outk w)%nat with (S (w_outk w' - S (w_outk w)))%nat by lia.
      cbn [seq map]. rewrite CK1. reflexivity.
    + rewrite LK'. exact LK.
  - cbn [safe]. exists now, []. splits; auto; try lia.
    + constructor; auto; [intros ? ? []|apply ordered_nil|intros; cbn; lia].
    + split; [|lia]. rewrite Nat.sub_diag. reflexivity.
Qed.

Lemma clear_queue e now now' w : WI e now w -> now <= now' -> WI e now' (with_queue [] w).
Proof.
  intros [I L T N P H Q O U] LE. constructor; cbn [with_queue w_parts w_queue w_store w_inter w_log]; auto.
  - intros k Hk. specialize (T k Hk). lia.
  - intros i Hi. cbn in Hi. lia.
  - intros a [].
Qed.

Lemma kick_ok e now w0 w : physics_ok e -> WI e now w -> all_at e now w ->
  exists st, for_each (fun p => Ok (e_kick e w0 p)) (w_parts w) = Ok st /\
   WI e now (tick_lab (with_parts st w)) /\ forall g, ksum g (keys st) = ksum g (keys (w_parts w)).
Proof.
  intros PH [I L T N P H Q O U] AT.
  destruct (for_each_spec (fun p => Ok (e_kick e w0 p)) (e_kick e w0) _ (w_parts w) I) as (st & E & I' & (PR1 & PR2) & K); auto.
  exists st. splits; auto.
  - constructor; cbn [tick_lab with_parts w_parts w_queue w_store w_inter w_log]; auto; try (rewrite PR1; auto; fail).
    + intros k Hk. rewrite K in Hk. apply in_map_iff in Hk. destruct Hk as (k0 & <- & Hk). cbn. rewrite (ph_kick _ PH). auto.
    + intros k Hk. rewrite K in Hk. apply in_map_iff in Hk. destruct Hk as (k0 & <- & Hk). cbn. auto.
    + intros a Ha. destruct (Q a Ha) as (Qa & Qb & ac & Qc & (Qd & Qe & Qf)). splits; auto. exists ac. split; auto. split; auto.
      eapply Forall_impl; [|exact Qd]. auto.
    + intros i ip Hi. destruct (U i ip Hi) as (U1 & U2 & U3). rewrite PR1, K. unfold mapk. rewrite map_map. unfold state_of at 1. cbn. auto.
  - intros g. rewrite K. apply ksum_mapk.
Qed.

Lemma time_step_ok e f now w : physics_ok e -> (forall k, e_out e (S k) = e_out_next e k) ->
  (forall k, e_out_next e k <= e_out_next e (S k)) ->
  WI e now w -> now <= e_lab e (w_labk w) -> room w -> e_lab e (w_labk w) <= e_lab_next e (w_labk w) -> e_lab e (w_labk w) <= e_out_next e (w_outk w) ->
  safe (fun w' => exists new, WI e (e_lab_next e (w_labk w)) w' /\ room w' /\
     Grow e (e_lab e (w_labk w)) (e_lab_next e (w_labk w)) w w' new /\
     shown_from e (w_outk w) (w_outk w') new /\ w_labk w' = S (w_labk w) /\ e_lab_next e (w_labk w) <= e_out_next e (w_outk w')) (time_step f e w).
Proof.
  intros PH C1 C2 W L0 R L1 L2. unfold time_step.
  set (k := w_labk w) in *. set (lo := e_lab e k) in *. set (hi := e_lab_next e k) in *.
  set (w1 := insert_found (with_queue [] w) (e_find_cell e w)).
  assert (W1 : WI e lo w1).
  { apply insert_found_ok; [eapply clear_queue; eauto; lia|]. exact (ph_cell _ PH w). }
  change (e_lab_next e (w_labk w1)) with hi.
  eapply safe_bind; [apply (output_loop_ok e hi PH C1 C2 f lo w1); auto|].
  intros w2 (now2 & n2 & A2 & W2 & R2 & G2 & SF2 & LK2 & TE2).
  eapply safe_bind; [apply (timestepless_ok e hi f now2 w2 PH W2 R2 ltac:(lia))|].
  intros w3 (W3 & R3 & AT3 & (n3 & G3 & QU3 & LK3 & OK3)).
  destruct (kick_ok e hi w3 w3 PH W3 AT3) as (st & EK & WK & SK). rewrite EK. cbn [rbind]. cbv zeta.
  assert (CONC : exists new, WI e hi (tick_lab (with_parts st w3)) /\ room (tick_lab (with_parts st w3)) /\
     Grow e lo hi w (tick_lab (with_parts st w3)) new /\ shown_from e (w_outk w) (w_outk (tick_lab (with_parts st w3))) new /\
     w_labk (tick_lab (with_parts st w3)) = S k /\ hi <= e_out_next e (w_outk (tick_lab (with_parts st w3)))).
  { exists (n3 ++ n2). splits; auto.
    - assert (G : Grow e lo hi w1 w3 (n3 ++ n2)) by (eapply Grow_trans; [| |exact G2|exact G3]; lia).
      destruct G as [B1 B2 B3 B4 B5]. constructor; auto.
      intros g. cbn [tick_lab with_parts w_parts]. rewrite SK, B5. reflexivity.
    - change (w_outk (tick_lab (with_parts st w3))) with (w_outk w3). rewrite OK3. destruct SF2 as [S1 S2]. split; auto.
      rewrite output_times_app. unfold quiet in QU3. rewrite QU3, app_nil_r. exact S1.
    - cbn. rewrite LK3, LK2. reflexivity.
    - change (w_outk (tick_lab (with_parts st w3))) with (w_outk w3). rewrite OK3. auto. }
  destruct (e_check e); [|exact CONC].
  cbn [tick_lab with_parts w_parts].
  change (w_parts (tick_lab (with_parts st w3))) with st.
  rewrite (iterate_spec _ _ (wi_inv _ _ _ WK : Inv (id_max st + 1) st)). cbn [rbind].
  unfold of_list. destruct (fold_fail (map (contrib e) (contents st)) zero_q) as [[q ->]| ->]; cbn [rbind]; [|cbn; auto].
  destruct (report_deviations _ _); [exact CONC|cbn; auto].
Qed.

Lemma step_loop_ok e t_end : physics_ok e -> clocks_ok e t_end ->
  forall f now w, WI e now w -> room w -> (e_lab e (w_labk w) < t_end -> now <= e_lab e (w_labk w) /\ e_lab e (w_labk w) <= e_out_next e (w_outk w)) ->
  safe (fun w' => exists now' new, now <= now' /\ WI e now' w' /\ room w' /\ Grow e now now' w w' new /\
     shown_from e (w_outk w) (w_outk w') new /\ (w_labk w <= w_labk w')%nat /\ t_end <= e_lab e (w_labk w') /\
     ((w' = w /\ now' = now) \/ exists k, w_labk w' = S k /\ e_lab e k < t_end /\ now' = e_lab_next e k /\ now' <= e_out_next e (w_outk w'))) (step_loop f e t_end w).
Proof.
  intros PH CK. induction f as [|f IH]; intros now w W R LB; [cbn; auto|]. cbn [step_loop].
  destruct (Z.ltb_spec (e_lab e (w_labk w)) t_end) as [LT|GE].
  - destruct (LB LT) as [LB1 LB2].
    pose proof (ck_lab _ _ CK _ LT) as LL.
    eapply safe_bind; [apply (time_step_ok e (S f) now w PH (ck_out _ _ CK) (ck_mono _ _ CK) W); auto|].
    cbn beta. intros w1 (n1 & W1 & R1 & G1 & SF1 & LK1 & TE1).
    eapply safe_weaken; [apply (IH (e_lab_next e (w_labk w)) w1); auto|].
    + rewrite LK1. intros LT1. rewrite <- (ck_next _ _ CK _ LT LT1) in *. split; lia.
    + intros w' (now' & new & A & W2 & R2 & G2 & SF2 & LK2 & TE2 & FIN).
      exists now', (new ++ n1). splits; auto; try lia.
      * eapply Grow_trans with (mid := e_lab_next e (w_labk w)) (w2 := w1); auto; try lia.
        destruct G1 as [B1 B2 B3 B4 B5]. constructor; auto. eapply within_mono; eauto; lia.
      * destruct SF1 as [S1 S2], SF2 as [S3 S4]. split; [|lia]. rewrite output_times_app, S1, S3, <- map_app. f_equal.
        replace (S (w_outk w1)) with (S (w_outk w) + (w_outk w1 - w_outk w))%nat by lia. rewrite <- seq_app. f_equal. lia.
      * right. destruct FIN as [[-> ->]|FIN]; [|exact FIN]. exists (w_labk w). auto.
  - cbn [safe]. exists now, []. splits; auto; try lia.
    + constructor; auto; [intros ? ? []|apply ordered_nil|intros; cbn; lia].
    + split; [|lia]. rewrite Nat.sub_diag. reflexivity.
Qed.
