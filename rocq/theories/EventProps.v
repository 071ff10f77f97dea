(** C38, C39, C69, C70: properties of the event loop. *)
From Coq Require Import ZArith Reals List Bool Lia Permutation.
From Verif Require Import Base QnModel QnProps ActionsModel ActionsProofs ParticlesModel ParticlesSpec ParticlesProofs ParticlesHistory ParticlesProps EventModel EventSpec EventProofs PerformProps EventLoop.
Import ListNotations.
Open Scope Z_scope.

Lemma start_WI e now w : start_ok e now w -> WI e now (with_queue [] w) /\ room w.
Proof.
  intros [(ops & b & seen & H & WL) T P N L].
  destruct (history_tight _ _ _ _ H WL) as [[I PK NX S B] TI]. rewrite <- TI in I.
  pose proof (iterate_spec _ _ I) as IT.
  assert (KC : forall k, In k (keys (w_parts w)) -> exists c, In c (contents (w_parts w)) /\ k = key c).
  { intros k Hk. unfold keys in Hk. apply in_map_iff in Hk. destruct Hk as (c & <- & Hc). eauto. }
  split; [|unfold room, UINT32_MAX; lia].
  constructor; cbn [with_queue w_parts w_queue w_store w_inter w_log]; auto; try lia.
  - rewrite TI. change LIM with (2 ^ 29). destruct ops as [|o r]; [cbn; lia|]. apply WL.
  - intros k Hk. destruct (KC k Hk) as (c & Hc & ->). cbn. eapply T; eauto.
  - intros k Hk. destruct (KC k Hk) as (c & Hc & ->). cbn. eapply P; eauto.
  - intros i Hi. cbn in Hi. lia.
  - intros a [].
  - rewrite L. constructor.
  - rewrite L. intros i ip [].
Qed.

(** The whole run. *)
Lemma run_ok e t_end f now w : physics_ok e -> clocks_ok e t_end -> start_ok e now w -> w_queue w = [] ->
  (e_lab e (w_labk w) < t_end -> now <= e_lab e (w_labk w) <= e_out_next e (w_outk w)) ->
  safe (fun w' => exists now' w1, w' = tick_out w1 /\ now <= now' /\ WI e now' w1 /\ room w1 /\ Grow e now now' w w1 (w_log w1) /\
     shown_from e (w_outk w) (w_outk w1) (w_log w1) /\ t_end <= e_lab e (w_labk w1) /\
     ((w1 = w /\ now' = now) \/ exists k, w_labk w1 = S k /\ e_lab e k < t_end /\ now' = e_lab_next e k /\ now' <= e_out_next e (w_outk w1)))
   (run_time_evolution f e t_end w).
Proof.
  intros PH CK SO EQ LB. unfold run_time_evolution. destruct (e_end e <? t_end); [cbn; auto|].
  destruct (start_WI _ _ _ SO) as [W R].
  assert (E : with_queue [] w = w) by (unfold with_queue; rewrite <- EQ; destruct w; reflexivity). rewrite E in W.
  eapply safe_bind; [apply (step_loop_ok e t_end PH CK f now w W R); intros; specialize (LB H); lia|].
  intros w1 (now' & new & A & W1 & R1 & G1 & SF & LK & TE & FIN). cbn [safe].
  assert (EN : new = w_log w1) by (rewrite (gr_log _ _ _ _ _ _ G1), (so_log _ _ _ SO), app_nil_r; auto). subst new.
  exists now', w1. splits; auto.
Qed.

(** ** C38 *)

(** Sums of integer quantum numbers in terms of species. *)
Definition number (e : env) (f : qnum -> Z) (ty : Z) : Z :=
  let '(c, i3, s, ch, bt, b) := e_ints e ty in f (Qnum (Four 0 0 0 0) c i3 s ch bt b).
Lemma sumz_total e f l : In f integer_numbers -> sumz f (map (contrib e) l) = total (number e f) l.
Proof.
  intros I. induction l as [|d l IH]; [reflexivity|]. unfold sumz, total in *. cbn [map fold_right]. rewrite IH. f_equal.
  unfold contrib, number. destruct (e_ints e (pl_type (p_pl d))) as [[[[[c i3] s] ch] bt] b]. cbn in I.
  repeat destruct I as [<-|I]; try contradiction; reflexivity.
Qed.
Lemma agree_total e ins outs f : In f integer_numbers -> totals_agree e ins outs -> total (number e f) outs = total (number e f) ins.
Proof.
  intros I (a & b & A & B & (AG & _)). rewrite <- !(sumz_total e f) by auto. rewrite <- (of_list_sum _ _ A f I), <- (of_list_sum _ _ B f I).
  symmetry. apply AG; auto.
Qed.

(** The totals of a run change exactly by what the performed actions change. *)
Theorem event_loop_balance e t_end fuel now w w' l l' g :
  physics_ok e -> clocks_ok e t_end -> start_ok e now w -> w_queue w = [] ->
  (e_lab e (w_labk w) < t_end -> now <= e_lab e (w_labk w) <= e_out_next e (w_outk w)) ->
  run_time_evolution fuel e t_end w = Ok w' ->
  iterate (w_parts w) = Ok l -> iterate (w_parts w') = Ok l' ->
  total g l' = total g l + log_change g (w_log w').
Proof.
  intros PH CK SO EQ LB HR HL HL'. pose proof (run_ok e t_end fuel now w PH CK SO EQ LB) as S. rewrite HR in S. cbn [safe] in S.
  destruct S as (now' & w1 & -> & A & W1 & R1 & G1 & _). change (w_parts (tick_out w1)) with (w_parts w1) in *.
  rewrite (iterate_spec _ _ (wi_inv _ _ _ W1)) in HL'. destruct (start_WI _ _ _ SO) as [W _].
  rewrite (iterate_spec _ _ (wi_inv _ _ _ W : Inv _ (w_parts w))) in HL.
  assert (contents (w_parts w1) = l') by congruence. assert (contents (w_parts w) = l) by congruence. subst l l'.
  pose proof (gr_sum _ _ _ _ _ _ G1 g) as GS. rewrite !ksum_keys in GS. exact GS.
Qed.
Print Assumptions event_loop_balance.

(** Without potentials, every performed action conserved the quantum numbers or was of an
    exempt kind (string, decay of a stable particle, adding or removing by hand). *)
Theorem performed_actions_conserve_or_are_exempt e t_end fuel now w w' t ty idp ins outs :
  physics_ok e -> clocks_ok e t_end -> start_ok e now w -> w_queue w = [] ->
  (e_lab e (w_labk w) < t_end -> now <= e_lab e (w_labk w) <= e_out_next e (w_outk w)) ->
  run_time_evolution fuel e t_end w = Ok w' -> e_pot e = false ->
  In (EvPerform t ty idp ins outs) (w_log w') -> exempt e ty ins \/ totals_agree e ins outs.
Proof.
  intros PH CK SO EQ LB HR PT HI. pose proof (run_ok e t_end fuel now w PH CK SO EQ LB) as S. rewrite HR in S. cbn [safe] in S.
  destruct S as (now' & w1 & -> & A & W1 & R1 & G1 & _).
  pose proof (gr_ev _ _ _ _ _ _ G1) as GE. rewrite Forall_forall in GE. specialize (GE _ HI). cbn in GE. tauto.
Qed.
Print Assumptions performed_actions_conserve_or_are_exempt.

(** If every performed action conserves the quantum numbers, the system does: all six
    integer numbers, whatever was found and executed in whatever order. *)
Theorem event_loop_conserves e t_end fuel now w w' l l' f :
  physics_ok e -> clocks_ok e t_end -> start_ok e now w -> w_queue w = [] ->
  (e_lab e (w_labk w) < t_end -> now <= e_lab e (w_labk w) <= e_out_next e (w_outk w)) ->
  run_time_evolution fuel e t_end w = Ok w' ->
  (forall t ty idp ins outs, In (EvPerform t ty idp ins outs) (w_log w') -> totals_agree e ins outs) ->
  iterate (w_parts w) = Ok l -> iterate (w_parts w') = Ok l' ->
  In f integer_numbers ->
  sumz f (map (contrib e) l') = sumz f (map (contrib e) l).
Proof.
  intros PH CK SO EQ LB HR HA HL HL' HF. rewrite !sumz_total by auto.
  rewrite (event_loop_balance e t_end fuel now w w' l l' (number e f)); auto.
  assert (Z0 : log_change (number e f) (w_log w') = 0); [|lia].
  revert HA. induction (w_log w') as [|ev log IH]; intros HA; [reflexivity|]. cbn [log_change fold_right]. fold (log_change (number e f) log).
  rewrite IH by (intros; eapply HA; right; eauto).
  destruct ev; cbn [ev_change]; try lia. rewrite (agree_total e ins outs f HF); [lia|]. eapply HA. left. reflexivity.
Qed.
Print Assumptions event_loop_conserves.

(** ** C39 *)

(** Propagations, actions and outputs happen in the order of their times, none before the
    start and none after the end of the last time step. *)
Theorem event_loop_time_order e t_end fuel now w w' :
  physics_ok e -> clocks_ok e t_end -> start_ok e now w -> w_queue w = [] ->
  (e_lab e (w_labk w) < t_end -> now <= e_lab e (w_labk w) <= e_out_next e (w_outk w)) ->
  run_time_evolution fuel e t_end w = Ok w' ->
  time_ordered (w_log w') /\
  (w_log w' <> [] -> exists k, w_labk w' = S k /\ e_lab e k < t_end /\ times_within now (e_lab_next e k) (w_log w')).
Proof.
  intros PH CK SO EQ LB HR. pose proof (run_ok e t_end fuel now w PH CK SO EQ LB) as S. rewrite HR in S. cbn [safe] in S.
  destruct S as (now' & w1 & -> & A & W1 & R1 & G1 & SF & TE & FIN). change (w_log (tick_out w1)) with (w_log w1) in *.
  split; [apply (gr_ord _ _ _ _ _ _ G1)|]. intros NE. destruct FIN as [[-> _]|(k & K1 & K2 & -> & _)].
  - rewrite (so_log _ _ _ SO) in NE. congruence.
  - exists k. splits; auto. apply (gr_in _ _ _ _ _ _ G1).
Qed.
Print Assumptions event_loop_time_order.

(** All participants of an action are at the time of the action when it is performed, and
    every particle shown at an output time is at that time. *)
Theorem events_happen_at_their_time e t_end fuel now w w' :
  physics_ok e -> clocks_ok e t_end -> start_ok e now w -> w_queue w = [] ->
  (e_lab e (w_labk w) < t_end -> now <= e_lab e (w_labk w) <= e_out_next e (w_outk w)) ->
  run_time_evolution fuel e t_end w = Ok w' ->
  (forall t ty idp ins outs, In (EvPerform t ty idp ins outs) (w_log w') ->
     Forall (at_time e t) ins /\ Forall (at_time e t) outs) /\
  (forall t shown, In (EvOutput t shown) (w_log w') -> Forall (at_time e t) shown).
Proof.
  intros PH CK SO EQ LB HR. pose proof (run_ok e t_end fuel now w PH CK SO EQ LB) as S. rewrite HR in S. cbn [safe] in S.
  destruct S as (now' & w1 & -> & A & W1 & R1 & G1 & _). change (w_log (tick_out w1)) with (w_log w1).
  pose proof (gr_ev _ _ _ _ _ _ G1) as GE. rewrite Forall_forall in GE. split.
  - intros t ty idp ins outs HI. specialize (GE _ HI). cbn in GE. tauto.
  - intros t shown HI. exact (GE _ HI).
Qed.
Print Assumptions events_happen_at_their_time.

(** Within a time step nothing happens outside of its limits; so an action found in it is
    performed in it or never. *)
Theorem time_step_within_limits e t_end fuel now w w' :
  physics_ok e -> clocks_ok e t_end -> start_ok e now w -> w_queue w = [] -> e_lab e (w_labk w) < t_end ->
  now <= e_lab e (w_labk w) <= e_out_next e (w_outk w) ->
  time_step fuel e w = Ok w' ->
  times_within (e_lab e (w_labk w)) (e_lab_next e (w_labk w)) (w_log w') /\
  (forall l c, iterate (w_parts w') = Ok l -> In c l -> e_time e (pl_rest (p_pl c)) <= e_lab_next e (w_labk w)).
Proof.
  intros PH CK SO EQ LT LB HR. destruct (start_WI _ _ _ SO) as [W R].
  assert (E : with_queue [] w = w) by (unfold with_queue; rewrite <- EQ; destruct w; reflexivity). rewrite E in W.
  pose proof (time_step_ok e fuel now w PH (ck_out _ _ CK) (ck_mono _ _ CK) W ltac:(lia) R (ck_lab _ _ CK _ LT) ltac:(lia)) as S.
  rewrite HR in S. cbn [safe] in S. destruct S as (new & W1 & R1 & G1 & _). split.
  - rewrite (gr_log _ _ _ _ _ _ G1), (so_log _ _ _ SO), app_nil_r. apply (gr_in _ _ _ _ _ _ G1).
  - intros l c HL Hc. rewrite (iterate_spec _ _ (wi_inv _ _ _ W1)) in HL. assert (contents (w_parts w') = l) by congruence. subst l.
    apply (wi_time _ _ _ W1 (p_id c, p_pl c)). now apply in_contents_key.
Qed.
Print Assumptions time_step_within_limits.

(** The outputs are those of the output clock, in order, none left out: those of ticks
    k0+1, ..., k1, where the tick after k1 is not before the end of the last time step. *)
Theorem outputs_at_output_times e t_end fuel now w w' :
  physics_ok e -> clocks_ok e t_end -> start_ok e now w -> w_queue w = [] ->
  e_lab e (w_labk w) < t_end -> now <= e_lab e (w_labk w) <= e_out_next e (w_outk w) ->
  run_time_evolution fuel e t_end w = Ok w' ->
  exists k1 k, (w_outk w <= k1)%nat /\ w_outk w' = S k1 /\
    output_times (w_log w') = map (e_out e) (seq (S (w_outk w)) (k1 - w_outk w)) /\
    w_labk w' = S k /\ e_lab_next e k <= e_out e (S k1).
Proof.
  intros PH CK SO EQ LT LB HR. pose proof (run_ok e t_end fuel now w PH CK SO EQ ltac:(auto)) as S. rewrite HR in S. cbn [safe] in S.
  destruct S as (now' & w1 & -> & A & W1 & R1 & G1 & (SF1 & SF2) & TE & FIN).
  destruct FIN as [[-> _]|(k & K1 & K2 & -> & K4)]; [lia|].
  exists (w_outk w1), k. splits; auto. rewrite (ck_out _ _ CK). auto.
Qed.
Print Assumptions outputs_at_output_times.

(** ** C69: each particle state takes part in at most one interaction.  A particle is
    identified by its id and the process it came from; wall crossings do not count. *)
Theorem state_interacts_at_most_once e t_end fuel now w w' :
  physics_ok e -> clocks_ok e t_end -> start_ok e now w -> w_queue w = [] ->
  (e_lab e (w_labk w) < t_end -> now <= e_lab e (w_labk w) <= e_out_next e (w_outk w)) ->
  run_time_evolution fuel e t_end w = Ok w' ->
  NoDup (used_up (w_log w')) /\
  (forall l c, iterate (w_parts w') = Ok l -> In c l -> ~ In (p_id c, pl_idproc (p_pl c)) (used_up (w_log w'))).
Proof.
  intros PH CK SO EQ LB HR. pose proof (run_ok e t_end fuel now w PH CK SO EQ LB) as S. rewrite HR in S. cbn [safe] in S.
  destruct S as (now' & w1 & -> & A & W1 & R1 & G1 & _). split; [exact (wi_once _ _ _ W1)|].
  change (w_log (tick_out w1)) with (w_log w1). change (w_parts (tick_out w1)) with (w_parts w1).
  intros l c HL Hc HU. rewrite (iterate_spec _ _ (wi_inv _ _ _ W1)) in HL. assert (contents (w_parts w1) = l) by congruence. subst l.
  destruct (wi_used _ _ _ W1 _ _ HU) as (_ & _ & N). apply N. apply in_map_iff. exists (p_id c, p_pl c). split; auto. now apply in_contents_key.
Qed.
Print Assumptions state_interacts_at_most_once.

(** ** C70: the loop performs no undefined operation; without a bound on the iterations it
    may only run forever, and the totals of a list may overflow int. *)
Theorem event_loop_never_undefined e t_end fuel now w u :
  physics_ok e -> clocks_ok e t_end -> start_ok e now w -> w_queue w = [] ->
  (e_lab e (w_labk w) < t_end -> now <= e_lab e (w_labk w) <= e_out_next e (w_outk w)) ->
  run_time_evolution fuel e t_end w = UB u -> u = UB_no_progress \/ u = UB_signed_overflow.
Proof.
  intros PH CK SO EQ LB HR. pose proof (run_ok e t_end fuel now w PH CK SO EQ LB) as S. rewrite HR in S. exact S.
Qed.
Print Assumptions event_loop_never_undefined.

(** ** A concrete run: a particle of species 1 and one of species 2; at the beginning of
    the time step [0,3] the reaction 1 + 2 -> 2 + 1 at time 1 is found together with a
    second action of the first particle at time 2; output times 0, 2, 4, ... *)
Definition swap_at (ins : list pdata) : acontent := AC (POther 3) ins (fun l => Some (POther 3, rev l)).
Definition run_env (lab_step : Z) (find : world -> list (Z * acontent)) : env :=
  Env (fun t => if t =? 1 then (1, 1, 0, 0, 0, 1) else (0, -1, 0, 0, 0, 1)) (fun _ => Four 0 0 0 0)
    (fun _ => false) (fun _ => false) (fun r => hd 0 r) (fun t p => [t]) (fun _ p => pl_rest p) true false zero_q
    (fun _ _ _ => false) find (fun _ _ => []) 12 (fun k => lab_step * Z.of_nat k) (fun k => lab_step * Z.of_nat k + lab_step)
    (fun k => 2 * Z.of_nat k) (fun k => 2 * Z.of_nat k + 2).
Definition find_two (w : world) : list (Z * acontent) :=
  match w_labk w with
  | O => match iterate (w_parts w) with
         | Ok [a; b] => if (p_id a =? p_id b) || negb (e_time ex_env (pl_rest (p_pl a)) <=? 0) then [] else [(2, swap_at [a]); (1, swap_at [a; b])]
         | _ => []
         end
  | _ => []
  end.
Definition start_world : world := World (after init_particles (rev ex_ops)) [] [] 0 0 0 [].

Lemma swap_final_ok e t ins : final_state_ok e t (swap_at ins).
Proof.
  intros l ty outs S A E. cbn in E. inversion E; subst. splits.
  - apply Forall_rev. auto.
  - discriminate.
  - discriminate.
  - discriminate.
Qed.
Lemma run_env_physics : physics_ok (run_env 3 find_two).
Proof.
  constructor; auto.
  - intros w. unfold run_env. cbn [e_find_cell e_lab]. unfold find_two. destruct (w_labk w); [|constructor].
    destruct (iterate (w_parts w)) as [[|a [|b [|]]]|?|?] eqn:IT; try constructor.
    destruct (Z.eqb_spec (p_id a) (p_id b)) as [|NE]; cbn [orb]; [constructor|].
    destruct (negb _); [constructor|]. change (3 * Z.of_nat 0) with 0. constructor; [|constructor; [|constructor]].
    + split; [lia|]. split; [exists [a; b]; split; auto; apply Forall_forall; intros c Hc; cbn in *; tauto|]. split; [|apply swap_final_ok].
      unfold distinct. cbn. repeat constructor. auto.
    + split; [lia|]. split; [exists [a; b]; split; auto; apply Forall_forall; intros c Hc; cbn in *; tauto|]. split; [|apply swap_final_ok].
      unfold distinct. cbn. repeat constructor; cbn; intuition.
  - intros. constructor.
Qed.
Lemma run_env_clocks s f t : 0 <= s -> clocks_ok (run_env s f) t.
Proof. intros. constructor; intros; cbn -[Z.mul Z.add] in *; lia. Qed.
Lemma start_world_ok f s : start_ok (run_env s f) 0 start_world.
Proof.
  destruct ex_history as (st & b & seen & H & WL & IT & _ & E). subst st. constructor; cbn [start_world w_parts w_inter w_log]; auto; try lia.
  - eauto.
  - intros l c HL Hc. rewrite IT in HL. assert (l = [ex_part 1 0 0 0; ex_part 2 1 1 0]) by congruence. subst l.
    destruct Hc as [<-|[<-|[]]]; cbn; lia.
  - intros l c HL Hc. rewrite IT in HL. assert (l = [ex_part 1 0 0 0; ex_part 2 1 1 0]) by congruence. subst l.
    destruct Hc as [<-|[<-|[]]]; cbn; lia.
Qed.
Definition at_word (t : Z) (d : pdata) : pdata :=
  {| p_id := p_id d; p_index := p_index d; p_hole := p_hole d;
     p_pl := {| pl_type := pl_type (p_pl d); pl_idproc := pl_idproc (p_pl d); pl_rest := [t] |} |}.
Example run_example :
  physics_ok (run_env 3 find_two) /\ clocks_ok (run_env 3 find_two) 6 /\ start_ok (run_env 3 find_two) 0 start_world /\
  exists w', run_time_evolution 9 (run_env 3 find_two) 6 start_world = Ok w' /\
    map ev_time (rev (w_log w')) = [Some 1; Some 1; None; Some 2; Some 2; Some 3; Some 4; Some 4; Some 6] /\
    iterate (w_parts w') = Ok [at_word 6 (ex_part 2 2 0 1); at_word 6 (ex_part 1 3 1 1)] /\
    output_times (w_log w') = [2; 4].
Proof.
  split; [apply run_env_physics|]. split; [apply run_env_clocks; lia|]. split; [apply start_world_ok|].
  eexists. split; [vm_compute; reflexivity|]. vm_compute. auto.
Qed.

(** ** C71: stopping the evolution and resuming it does not change the outputs: refuted.
    run_time_evolution always advances the output clock once more at its end, so the first
    output time after the stop is left out.  One particle, time steps of 1, output every 2;
    evolving to 10 shows 2, 4, 6, 8; evolving to 5 and then to 10 shows 2, 4, 8. *)
Definition no_find (w : world) : list (Z * acontent) := [].
Theorem split_evolution_same_outputs_refuted :
  exists w1 w2 w3, 
    run_time_evolution 20 (run_env 1 no_find) 10 start_world = Ok w1 /\
    run_time_evolution 20 (run_env 1 no_find) 5 start_world = Ok w2 /\
    run_time_evolution 20 (run_env 1 no_find) 10 w2 = Ok w3 /\
    output_times (w_log w1) = [2; 4; 6; 8] /\ output_times (w_log w3) = [2; 4; 8].
Proof.
  eexists _, _, _. split; [vm_compute; reflexivity|]. split; [vm_compute; reflexivity|]. split; [vm_compute; reflexivity|].
  vm_compute. auto.
Qed.
Print Assumptions split_evolution_same_outputs_refuted.

(** The physics itself is resumed exactly: apart from the extra tick of the output clock,
    evolving to [t1] and then to [t2] is evolving to [t2]. *)
Lemma action_loop_mono e tend : forall f f' w w', (f <= f')%nat -> action_loop f e tend w = Ok w' -> action_loop f' e tend w = Ok w'.
Proof.
  induction f as [|f IH]; intros f' w w' L H; [discriminate|]. destruct f' as [|f']; [lia|]. assert (f <= f')%nat by lia.
  cbn [action_loop] in *. destruct (ActionsModel.is_empty (w_queue w)); auto.
  destruct (earliest_time (w_queue w)) as [t0|?|?]; cbn [rbind] in *; auto. destruct (tend <? t0); auto.
  destruct (pop (w_queue w)) as [[a q]|?|?]; cbn [rbind] in *; auto. cbv zeta in *.
  destruct (nth_error _ _) as [ac|]; auto. destruct (action_valid _ _) as [v|?|?]; cbn [rbind] in *; auto.
  destruct (negb v); eauto. destruct (propagate _ _ _) as [st1|?|?]; cbn [rbind] in *; auto.
  destruct (update_incoming _ _) as [ins|?|?]; cbn [rbind] in *; auto.
  destruct (perform_action _ _ _ _) as [[w2 [outs|]]|?|?]; cbn [rbind] in *; eauto.
  destruct (UINT32_MAX <=? _); eauto.
Qed.
Lemma timestepless_mono e tend f f' w w' : (f <= f')%nat -> timestepless f e tend w = Ok w' -> timestepless f' e tend w = Ok w'.
Proof.
  intros L H. unfold timestepless in *. destruct (action_loop f e tend w) as [w1|?|?] eqn:E; cbn [rbind] in H; try discriminate.
  now rewrite (action_loop_mono _ _ _ _ _ _ L E).
Qed.
Lemma output_loop_mono e ts : forall f f' w w', (f <= f')%nat -> output_loop f e ts w = Ok w' -> output_loop f' e ts w = Ok w'.
Proof.
  induction f as [|f IH]; intros f' w w' L H; [discriminate|]. destruct f' as [|f']; [lia|]. assert (f <= f')%nat by lia.
  cbn [output_loop] in *. destruct (_ <? ts); auto.
  destruct (timestepless (S f) e _ w) as [w1|?|?] eqn:E; cbn [rbind] in H; try discriminate.
  rewrite (timestepless_mono _ _ _ _ _ _ L E). cbn [rbind]. cbv zeta in *.
  destruct (iterate _) as [l|?|?]; cbn [rbind] in *; eauto.
Qed.
Lemma time_step_mono e f f' w w' : (f <= f')%nat -> time_step f e w = Ok w' -> time_step f' e w = Ok w'.
Proof.
  intros L H. unfold time_step in *. cbv zeta in *.
  match goal with H : rbind (output_loop f e ?t ?x) _ = _ |- _ => destruct (output_loop f e t x) as [w1|?|?] eqn:E1; cbn [rbind] in H; try discriminate;
    rewrite (output_loop_mono _ _ _ _ _ _ L E1); cbn [rbind] end.
  match goal with H : rbind (timestepless f e ?t ?x) _ = _ |- _ => destruct (timestepless f e t x) as [w2|?|?] eqn:E2; cbn [rbind] in H; try discriminate;
    rewrite (timestepless_mono _ _ _ _ _ _ L E2); cbn [rbind] end.
  exact H.
Qed.
Lemma step_loop_mono e t : forall f f' w w', (f <= f')%nat -> step_loop f e t w = Ok w' -> step_loop f' e t w = Ok w'.
Proof.
  induction f as [|f IH]; intros f' w w' L H; [discriminate|]. destruct f' as [|f']; [lia|]. assert (f <= f')%nat by lia.
  cbn [step_loop] in *. destruct (_ <? t); auto.
  destruct (time_step (S f) e w) as [w1|?|?] eqn:E; cbn [rbind] in H; try discriminate.
  rewrite (time_step_mono _ _ _ _ _ L E). cbn [rbind]. eauto.
Qed.
Lemma step_loop_split e t1 t2 : t1 <= t2 -> forall f1 f2 w w1 w2,
  step_loop f1 e t1 w = Ok w1 -> step_loop f2 e t2 w1 = Ok w2 -> step_loop (f1 + f2) e t2 w = Ok w2.
Proof.
  intros LE. induction f1 as [|f1 IH]; intros f2 w w1 w2 H1 H2; [discriminate|].
  cbn [step_loop] in H1. destruct (Z.ltb_spec (e_lab e (w_labk w)) t1) as [LT|GE].
  - destruct (time_step (S f1) e w) as [wa|?|?] eqn:E; cbn [rbind] in H1; try discriminate.
    cbn [Nat.add step_loop]. destruct (Z.ltb_spec (e_lab e (w_labk w)) t2); [|lia].
    rewrite (time_step_mono e (S f1) (S (f1 + f2)) w wa); auto; [|lia]. cbn [rbind]. eapply IH; eauto.
  - inversion H1; subst. eapply step_loop_mono; [|exact H2]. lia.
Qed.
Definition untick_out (w : world) : world :=
  World (w_parts w) (w_queue w) (w_store w) (w_inter w) (w_labk w) (pred (w_outk w)) (w_log w).
Theorem evolution_resumes_exactly_but_for_outputs e t1 t2 f1 f2 w w1 w2 :
  t1 <= t2 -> run_time_evolution f1 e t1 w = Ok w1 -> run_time_evolution f2 e t2 (untick_out w1) = Ok w2 ->
  run_time_evolution (f1 + f2) e t2 w = Ok w2.
Proof.
  intros LE H1 H2. unfold run_time_evolution in *. destruct (e_end e <? t1); [discriminate|]. destruct (e_end e <? t2); [discriminate|].
  destruct (step_loop f1 e t1 w) as [wa|?|?] eqn:E1; cbn [rbind] in H1; try discriminate. inversion H1; subst.
  assert (EU : untick_out (tick_out wa) = wa) by (destruct wa; reflexivity). rewrite EU in H2.
  destruct (step_loop f2 e t2 wa) as [wb|?|?] eqn:E2; cbn [rbind] in H2; try discriminate.
  rewrite (step_loop_split e t1 t2 LE _ _ _ _ _ E1 E2). exact H2.
Qed.
Print Assumptions evolution_resumes_exactly_but_for_outputs.
