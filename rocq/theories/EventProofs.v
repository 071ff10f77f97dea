(** Lemmas for the event loop: handles, performing, propagating. *)
From Coq Require Import ZArith Reals List Bool Lia Permutation.
From Verif Require Import Base QnModel QnProps ActionsModel ParticlesModel ParticlesSpec ParticlesProofs ParticlesHistory EventModel.
Import ListNotations.
Open Scope Z_scope.

(** A handle that can only ever point to the particle it was made for. *)
Definition okh (st : pstate) (c : pdata) : Prop :=
  0 <= p_id c <= id_max st /\ forall i, idpos st (p_id c) i -> i = p_index c.
Lemma okh_trans st st' g c : okh st c -> trans st st' g -> okh st' c.
Proof.
  intros [A B] T. pose proof (t_mono _ _ _ T). split; [lia|].
  intros i Hi. apply (t_new _ _ _ T) in Hi. destruct Hi as [Hi|Hi]; auto. lia.
Qed.
Lemma okh_pointed N st c p : Inv N st -> okh st c -> In (p_id c, p) (keys st) ->
  pl_idproc p = pl_idproc (p_pl c) -> pointed st c.
Proof.
  intros I [_ Q] Hin E. unfold keys in Hin. apply in_map_iff in Hin. destruct Hin as (d & Hk & Hd). inversion Hk; subst.
  apply In_contents in Hd. destruct Hd as (i & L).
  assert (i = p_index c) by (apply Q; exists d; split; auto). subst i. exists d. splits; auto.
Qed.
Lemma pointed_in N st c : Inv N st -> pointed st c ->
  exists p, In (p_id c, p) (keys st) /\ pl_idproc p = pl_idproc (p_pl c).
Proof.
  intros I (d & L & E1 & E2). exists (p_pl d). split; auto. unfold keys. apply in_map_iff. exists d. split.
  - unfold key. congruence.
  - apply In_contents. eauto.
Qed.
Lemma contents_index N st d : Inv N st -> In d (contents st) -> live st (p_index d) d.
Proof.
  intros I H. apply In_contents in H. destruct H as (i & L). assert (p_index d = i) by (destruct L as (_ & L & _); apply (I_index _ _ I); auto).
  now rewrite H.
Qed.
Lemma contents_okh N st d c : Inv N st -> In d (contents st) -> handle d = handle c -> okh st c.
Proof.
  intros I H E. pose proof (contents_index _ _ _ I H) as L. inversion E as [[E1 E2]]. split.
  - rewrite <- E1. apply (I_ids _ _ I); auto.
  - intros i (d' & L' & E'). rewrite <- E2. eapply live_uniq; eauto. congruence.
Qed.
Lemma in_contents_key st d : In d (contents st) -> In (p_id d, p_pl d) (keys st).
Proof. intros. unfold keys. apply in_map_iff. exists d. auto. Qed.
Lemma keys_fst_nodup N st : Inv N st -> NoDup (map fst (keys st)).
Proof. apply keys_nodup. Qed.
Lemma keys_unique N st i p q : Inv N st -> In (i, p) (keys st) -> In (i, q) (keys st) -> p = q.
Proof.
  intros I A B. pose proof (keys_nodup _ _ I) as ND. revert A B ND. induction (keys st) as [|[j r] k IH]; simpl; intros A B ND; [tauto|].
  inversion ND; subst. destruct A as [A|A], B as [B|B].
  - congruence.
  - inversion A; subst. exfalso. apply H1. apply in_map_iff. exists (i, q). auto.
  - inversion B; subst. exfalso. apply H1. apply in_map_iff. exists (i, p). auto.
  - auto.
Qed.

(** ** is_valid of an action, lookup *)
Lemma action_valid_spec N st ins : Inv N st -> Forall (okh st) ins ->
  exists v, action_valid st ins = Ok v /\ (v = true <-> Forall (pointed st) ins).
Proof.
  intros I F. induction F as [|c l H F IH]; cbn [action_valid].
  - exists true. split; auto. split; auto.
  - destruct (is_valid_iff _ _ c I ltac:(destruct H; lia)) as (v & E & V). rewrite E. cbn [rbind].
    destruct v.
    + destruct IH as (v' & E' & V'). exists v'. split; auto. rewrite V'. split.
      * intros. constructor; auto. apply V; auto.
      * intros K. inversion K; auto.
    + exists false. split; auto. split; [discriminate|]. intros K. inversion K; subst. apply V in H2. discriminate.
Qed.
Definition same_particle (c d : pdata) : Prop :=
  handle c = handle d /\ pl_idproc (p_pl c) = pl_idproc (p_pl d).
Lemma update_incoming_spec N st ins : Inv N st -> Forall (pointed st) ins ->
  exists ins', update_incoming st ins = Ok ins' /\ Forall2 same_particle ins ins' /\ Forall (fun d => In d (contents st)) ins'.
Proof.
  intros I F. unfold update_incoming. induction F as [|c l H F IH]; cbn [mapM].
  - exists []. split; auto.
  - destruct IH as (l' & E & A & B). pose proof (assert_valid_ok _ _ _ I H) as AV.
    destruct H as (d & L & E1 & E2). destruct L as (L1 & L2 & L3).
    assert (EL : lookup st c = Ok d) by (unfold lookup; rewrite AV; cbn [rbind]; apply slot_ok; auto).
    rewrite EL. cbn [rbind]. rewrite E. cbn [rbind]. exists (d :: l'). split; auto. split.
    + constructor; auto. split; auto. unfold handle. rewrite E1, (I_index _ _ I _ _ L2). auto.
    + constructor; auto. apply In_contents. exists (p_index c). repeat split; auto.
Qed.
Lemma same_particles_handles l l' : Forall2 same_particle l l' -> map handle l = map handle l'.
Proof. induction 1 as [|? ? ? ? [A _]]; cbn; congruence. Qed.

(** ** Effect of Particles::update on the list of (id, payload) *)
Definition new_ids (st : pstate) (n : nat) : list Z := map (fun k => id_max st + 1 + Z.of_nat k) (seq 0 n).
Definition keys_after (st : pstate) (rep : bool) (ins outs : list pdata) : list (Z * payload) :=
  if rep then delks (map p_id ins) (keys st) ++ combine (new_ids st (length outs)) (map p_pl outs)
  else setks (combine ins outs) (keys st).

Lemma live_self_pointed N st d : Inv N st -> In d (contents st) -> pointed st d.
Proof. intros I H. exists d. split; [eapply contents_index; eauto|auto]. Qed.

Lemma setk_map_fst i ip r k : map fst (setk i ip r k) = map fst k.
Proof. unfold setk. rewrite map_map. apply map_ext. intros [j p]; cbn. destruct (j =? i); auto. Qed.
Lemma setks_cons a l k : setks (a :: l) k = setks l (setk (p_id (fst a)) (pl_idproc (p_pl (snd a))) (pl_rest (p_pl (snd a))) k).
Proof. reflexivity. Qed.
Lemma setks_map_fst l : forall k, map fst (setks l k) = map fst k.
Proof. induction l as [|a l IH]; intros; [auto|]. rewrite setks_cons, IH. apply setk_map_fst. Qed.

(** payloads of the updated list for an in-place update *)
Lemma update_all_payload os : forall ns N st st' l',
  Inv N st -> Forall (fun d => In d (contents st)) os -> NoDup (map p_id os) -> length os = length ns ->
  Forall (fun on => pl_type (p_pl (fst on)) = pl_type (p_pl (snd on))) (combine os ns) ->
  update_all st os ns = Ok (st', l') -> map p_pl l' = map p_pl ns.
Proof.
  induction os as [|o os IH]; intros [|n ns] N st st' l' I F ND L T E; try discriminate.
  - cbn in E. inversion E; auto.
  - inversion F; subst. inversion ND; subst. cbn in T. inversion T; subst. cbn [fst snd] in *.
    pose proof (live_self_pointed _ _ _ I H1) as P.
    destruct (update_particle_spec N st o n I P H5) as (st1 & d & E1 & I1 & T1 & M1 & L1 & X1 & X2 & K1).
    cbn [update_all] in E. rewrite E1 in E. cbn [rbind] in E.
    destruct (update_all st1 os ns) as [[st2 l2]|?|?] eqn:E2; try discriminate. cbn [rbind] in E. inversion E; subst.
    cbn [map]. f_equal.
    + unfold update_particle in E1. rewrite (assert_valid_ok _ _ _ I P) in E1. cbn [rbind] in E1.
      destruct (negb _); [discriminate|].
      destruct (contents_index _ _ _ I H1) as (_ & LL & _). rewrite (slot_ok _ _ _ LL) in E1. cbn [rbind] in E1.
      inversion E1; subst. unfold copy_to. cbn. rewrite H5. apply payload_eta.
    + eapply IH; eauto.
      rewrite Forall_forall in *. intros x Hx. specialize (H2 x Hx).
      apply In_contents. exists (p_index x). apply (t_keep _ _ _ T1).
      * eapply contents_index; eauto.
      * cbn. intros [Q|[]]. apply H3. rewrite Q. now apply in_map.
Qed.

Lemma update_spec st rep ins outs :
  Inv (id_max st + 1) st -> id_max st + 1 + Z.of_nat (length outs) <= LIM ->
  Forall (fun d => In d (contents st)) ins -> NoDup (map p_id ins) ->
  (rep = false -> Forall2 (fun i o => pl_type (p_pl i) = pl_type (p_pl o)) ins outs) ->
  exists st' outs', update st ins outs rep = Ok (st', outs') /\ Inv (id_max st' + 1) st' /\ id_max st' + 1 <= LIM /\
    trans st st' (map p_id ins) /\ Permutation (keys st') (keys_after st rep ins outs) /\
    map p_pl outs' = map p_pl outs /\
    (forall c, In c outs' -> exists d, live st' (p_index c) d /\ p_id d = p_id c) /\
    (rep = true -> map p_id outs' = new_ids st (length outs)).
Proof.
  intros I HN F ND HT. pose proof (I_idmin _ _ I).
  assert (P : Forall (pointed st) ins).
  { eapply Forall_impl; [|exact F]. intros; eapply live_self_pointed; eauto. }
  destruct rep; cbn [update].
  - destruct (replace_spec ins outs _ st I HN P ND) as (st' & l' & E & I' & T & M & L & Q & R & K).
    exists st', l'. splits; auto.
    + replace (id_max st' + 1) with (id_max st + 1 + Z.of_nat (length outs)) by lia. auto.
    + lia.
  - specialize (HT eq_refl).
    assert (LE : length ins = length outs) by (clear - HT; induction HT; cbn; auto).
    assert (TY : Forall (fun on => pl_type (p_pl (fst on)) = pl_type (p_pl (snd on))) (combine ins outs)).
    { clear - HT. induction HT; cbn; constructor; auto. }
    destruct (update_all_spec ins outs _ st I P ND LE TY) as (st' & l' & E & I' & T & M & L & K).
    exists st', l'. splits; auto.
    + now rewrite M.
    + rewrite M. lia.
    + rewrite K. auto.
    + exact (update_all_payload ins outs _ st st' l' I F ND LE TY E).
    + discriminate.
Qed.

(** What is in the container afterwards. *)
Lemma in_delks ids : forall k e, In e (delks ids k) <-> In e k /\ ~ In (fst e) ids.
Proof.
  induction ids as [|i ids IH]; cbn; intros; [tauto|]. fold (delks ids (delk i k)). rewrite IH. unfold delk. rewrite filter_In, negb_true_iff, Z.eqb_neq.
  intuition.
Qed.
Lemma in_setks l : forall k i p, NoDup (map (fun on => p_id (fst on)) l) -> In (i, p) (setks l k) ->
  (In (i, p) k /\ ~ In i (map (fun on => p_id (fst on)) l)) \/
  (exists c n q, In (c, n) l /\ i = p_id c /\ In (i, q) k /\
    p = {| pl_type := pl_type q; pl_idproc := pl_idproc (p_pl n); pl_rest := pl_rest (p_pl n) |}).
Proof.
  induction l as [|[c n] l IH]; cbn [setks fold_left map fst snd]; intros k i p ND H; [auto|].
  inversion ND; subst. apply (IH _ _ _ H3) in H. destruct H as [[H N]|(c' & n' & q & A & B & C & D)].
  - unfold setk in H. apply in_map_iff in H. destruct H as ([j r] & E & Hin). cbn [fst snd] in E.
    destruct (Z.eqb_spec j (p_id c)).
    + inversion E; subst. right. exists c, n, r. cbn. auto.
    + inversion E; subst. left. split; auto. cbn. intros [?|?]; auto.
  - right. exists c', n'. unfold setk in C. apply in_map_iff in C. destruct C as ([j r] & E & Hin). cbn [fst snd] in E.
    destruct (Z.eqb_spec j (p_id c)).
    + exfalso. inversion E; subst. apply H2. apply in_map_iff. exists (c', n'). cbn. split; auto.
    + inversion E; subst. exists q. cbn. auto.
Qed.
Lemma map_p_id_combine (ins outs : list pdata) : (length ins <= length outs)%nat ->
  map (fun on => p_id (fst on)) (combine ins outs) = map p_id ins.
Proof.
  intros H. rewrite <- (map_map fst p_id). f_equal. apply map_fst_combine. auto.
Qed.

(** ** Sums over the container *)
Definition ksum (g : Z -> Z) (k : list (Z * payload)) : Z := fold_right (fun e a => g (pl_type (snd e)) + a) 0 k.
Definition psum (g : Z -> Z) (l : list pdata) : Z := fold_right (fun d a => g (pl_type (p_pl d)) + a) 0 l.
Lemma ksum_app g a b : ksum g (a ++ b) = ksum g a + ksum g b.
Proof. unfold ksum. induction a; cbn; lia. Qed.
Lemma ksum_perm g a b : Permutation a b -> ksum g a = ksum g b.
Proof. unfold ksum. induction 1; cbn in *; lia. Qed.
Lemma ksum_keys g st : ksum g (keys st) = psum g (contents st).
Proof. unfold keys. induction (contents st); cbn; auto. unfold ksum, psum in *. cbn. lia. Qed.
Lemma ksum_setk g i ip r k : ksum g (setk i ip r k) = ksum g k.
Proof. unfold ksum, setk. induction k as [|[j p] k IH]; cbn; auto. destruct (j =? i); cbn; lia. Qed.
Lemma ksum_setks g l : forall k, ksum g (setks l k) = ksum g k.
Proof. induction l as [|a l IH]; intros; [auto|]. rewrite setks_cons, IH. apply ksum_setk. Qed.
Lemma ksum_delk g k i p : NoDup (map fst k) -> In (i, p) k -> ksum g (delk i k) = ksum g k - g (pl_type p).
Proof.
  induction k as [|[j q] k IH]; intros ND H; [destruct H|]. inversion ND; subst. cbn [delk filter fst].
  fold (delk i k). cbn [fst] in *. destruct (Z.eqb_spec j i); cbn [negb].
  - subst j. destruct H as [H|H].
    + inversion H; subst. unfold delk. rewrite filter_notin by auto. unfold ksum. cbn. lia.
    + exfalso. apply H2. apply in_map_iff. exists (i, p). auto.
  - destruct H as [H|H]; [congruence|]. specialize (IH H3 H). unfold ksum in *. cbn. lia.
Qed.
Lemma delk_nodup i k : NoDup (map fst k) -> NoDup (map fst (delk i k)).
Proof.
  unfold delk. induction k as [|[j q] k IH]; cbn; intros ND; auto. inversion ND; subst. destruct (j =? i); cbn; auto. constructor; auto.
  intros H. apply H1. apply in_map_iff in H. destruct H as (e & E & H). apply filter_In in H. apply in_map_iff. exists e. tauto.
Qed.
Lemma ksum_delks g ins : forall k, NoDup (map fst k) -> NoDup (map p_id ins) ->
  (forall d, In d ins -> In (p_id d, p_pl d) k) -> ksum g (delks (map p_id ins) k) = ksum g k - psum g ins.
Proof.
  induction ins as [|d ins IH]; intros k NK ND H; cbn [map delks fold_left psum fold_right]; [lia|].
  fold (delks (map p_id ins) (delk (p_id d) k)). fold (psum g ins). inversion ND; subst.
  rewrite IH; auto using delk_nodup.
  - rewrite (ksum_delk g k (p_id d) (p_pl d)); auto; [lia|]. apply H. now left.
  - intros e He. unfold delk. apply filter_In. split; [apply H; now right|]. cbn. rewrite negb_true_iff, Z.eqb_neq.
    intros Q. apply H2. rewrite <- Q. now apply in_map.
Qed.
Lemma ksum_combine g ids l : length ids = length l -> ksum g (combine ids (map p_pl l)) = psum g l.
Proof. revert ids; induction l as [|d l IH]; intros [|i ids] L; try discriminate; auto. cbn [map combine]. unfold ksum, psum in *. cbn. rewrite IH; auto. Qed.
Lemma psum_payload g l l' : map p_pl l = map p_pl l' -> psum g l = psum g l'.
Proof. revert l'; induction l as [|d l IH]; intros [|d' l'] E; try discriminate; auto. inversion E as [[E1 E2]]. unfold psum in *. cbn. rewrite E1, (IH l'); auto. Qed.

Lemma ksum_after g N st rep ins outs : Inv N st -> Forall (fun d => In d (contents st)) ins -> NoDup (map p_id ins) ->
  ksum g (keys_after st rep ins outs) = if rep then ksum g (keys st) - psum g ins + psum g outs else ksum g (keys st).
Proof.
  intros I F ND. unfold keys_after. destruct rep.
  - rewrite ksum_app, ksum_delks, ksum_combine; auto.
    + unfold new_ids. now rewrite map_length, seq_length.
    + eapply keys_nodup; eauto.
    + intros d Hd. rewrite Forall_forall in F. apply in_contents_key; auto.
  - apply ksum_setks.
Qed.

(** ** Quantum numbers of a list that was added up without overflow *)
Lemma sint_val x y : sint x = Ok y -> y = x.
Proof. unfold sint. destruct (in_i32 x); intros; congruence. Qed.
Lemma fold_ok_sum l : forall q t, foldM add_values q l = Ok t -> forall f, In f integer_numbers -> f t = f q + sumz f l.
Proof.
  induction l as [|p l IH]; intros q t E f I; cbn [foldM] in E.
  - inversion E; subst. unfold sumz; cbn. lia.
  - unfold add_values in E.
    destruct (sint (q_charge q + q_charge p)) eqn:E1; cbn [rbind] in E; try discriminate.
    destruct (sint (q_i3 q + q_i3 p)) eqn:E2; cbn [rbind] in E; try discriminate.
    destruct (sint (q_strange q + q_strange p)) eqn:E3; cbn [rbind] in E; try discriminate.
    destruct (sint (q_charm q + q_charm p)) eqn:E4; cbn [rbind] in E; try discriminate.
    destruct (sint (q_bottom q + q_bottom p)) eqn:E5; cbn [rbind] in E; try discriminate.
    destruct (sint (q_baryon q + q_baryon p)) eqn:E6; cbn [rbind] in E; try discriminate.
    apply sint_val in E1, E2, E3, E4, E5, E6. subst.
    rewrite (IH _ _ E f I). cbn in I. unfold sumz. cbn [fold_right]. fold (sumz f l).
    repeat destruct I as [<-|I]; try contradiction; cbn; unfold sumz; lia.
Qed.
Lemma of_list_sum l t : of_list l = Ok t -> forall f, In f integer_numbers -> f t = sumz f l.
Proof.
  intros E f I. rewrite (fold_ok_sum _ _ _ E f I). cbn in I.
  repeat destruct I as [<-|I]; try contradiction; cbn; lia.
Qed.
(** a failing sum is an int overflow *)
Lemma fold_fail l : forall q, (exists t, foldM add_values q l = Ok t) \/ foldM add_values q l = UB UB_signed_overflow.
Proof.
  assert (S : forall x, (exists y, sint x = Ok y) \/ sint x = UB UB_signed_overflow).
  { intros x. unfold sint. destruct (in_i32 x); eauto. }
  induction l as [|p l IH]; intros q; cbn [foldM]; eauto. unfold add_values.
  destruct (S (q_charge q + q_charge p)) as [[? ->]| ->]; cbn [rbind]; auto.
  destruct (S (q_i3 q + q_i3 p)) as [[? ->]| ->]; cbn [rbind]; auto.
  destruct (S (q_strange q + q_strange p)) as [[? ->]| ->]; cbn [rbind]; auto.
  destruct (S (q_charm q + q_charm p)) as [[? ->]| ->]; cbn [rbind]; auto.
  destruct (S (q_bottom q + q_bottom p)) as [[? ->]| ->]; cbn [rbind]; auto.
  destruct (S (q_baryon q + q_baryon p)) as [[? ->]| ->]; cbn [rbind]; auto.
Qed.

(** ** for_each: every particle gets new words, in place *)
Definition mapk (g : payload -> list Z) (k : list (Z * payload)) : list (Z * payload) :=
  map (fun e => (fst e, {| pl_type := pl_type (snd e); pl_idproc := pl_idproc (snd e); pl_rest := g (snd e) |})) k.
Lemma setk_upd k : forall n i p ip r, NoDup (map fst k) -> nth_error k n = Some (i, p) ->
  setk i ip r k = firstn n k ++ (i, {| pl_type := pl_type p; pl_idproc := ip; pl_rest := r |}) :: skipn (S n) k.
Proof.
  induction k as [|[j q] k IH]; intros [|n] i p ip r ND H; try discriminate; inversion ND; subst; cbn [fst] in *.
  - inversion H; subst. cbn [firstn skipn app]. cbn [setk map fst snd]. rewrite Z.eqb_refl. f_equal. apply setk_notin; auto.
  - cbn [nth_error] in H. cbn [setk map fst snd]. fold (setk i ip r k). rewrite (IH n i p); auto.
    assert (j <> i). { intros ->. apply H2. apply in_map_iff. exists (i, p). split; auto. eapply nth_error_In; eauto. }
    apply Z.eqb_neq in H0. rewrite H0. reflexivity.
Qed.
Lemma write_kth_spec N st n c ip r : Inv N st -> nth_error (contents st) n = Some c ->
  exists st', write_kth st n ip r = Ok st' /\ Inv N st' /\ trans st st' [p_id c] /\ id_max st' = id_max st /\
    keys st' = setk (p_id c) ip r (keys st).
Proof.
  intros I H. unfold write_kth. rewrite (iterate_spec _ _ I). cbn [rbind]. rewrite H.
  pose proof (contents_index _ _ _ I (nth_error_In _ _ H)) as L.
  destruct L as (La & Lb & Lc). rewrite (slot_ok _ _ _ Lb). cbn [rbind].
  destruct (inplace_spec N st (p_index c) c ip r I) as (A & B & C & D); [repeat split; auto|].
  eexists. split; [reflexivity|]. auto.
Qed.
Definition pres (st st' : pstate) : Prop :=
  id_max st' = id_max st /\ forall c, okh st c -> okh st' c.
Lemma for_each_loop f g : forall ks N st n,
  Inv N st -> n = length ks ->
  forall k0, keys st = mapk g k0 ++ ks ->
  (forall e, In e ks -> f (snd e) = Ok (g (snd e))) ->
  exists st', foldM (move_kth f) st (seq (length k0) n) = Ok st' /\ Inv N st' /\ pres st st' /\ keys st' = mapk g (k0 ++ ks).
Proof.
  induction ks as [|[i p] ks IH]; intros N st n I -> k0 K F; cbn [length seq foldM].
  - exists st. rewrite app_nil_r in K |- *. split; auto. split; auto. split; auto. split; auto.
  - assert (NK : nth_error (keys st) (length k0) = Some (i, p)).
    { rewrite K. rewrite nth_error_app2; unfold mapk; rewrite map_length; auto. now rewrite Nat.sub_diag. }
    unfold keys in NK. rewrite nth_error_map in NK. destruct (nth_error (contents st) (length k0)) as [c|] eqn:C; [|discriminate].
    inversion NK; subst.
    unfold move_kth at 1. rewrite (iterate_spec _ _ I). cbn [rbind]. rewrite C.
    pose proof (F (p_id c, p_pl c) (or_introl eq_refl)) as Fc. cbn [snd] in Fc. rewrite Fc. cbn [rbind].
    destruct (write_kth_spec _ _ _ _ (pl_idproc (p_pl c)) (g (p_pl c)) I C) as (st1 & E & I1 & T1 & M1 & K1).
    rewrite E. cbn [rbind].
    assert (K2 : keys st1 = mapk g (k0 ++ [(p_id c, p_pl c)]) ++ ks).
    { rewrite K1. rewrite (setk_upd _ (length k0) (p_id c) (p_pl c)).
      - rewrite K. assert (LL : length (mapk g k0) = length k0) by (unfold mapk; apply map_length).
        rewrite <- LL at 1 2. rewrite firstn_app, firstn_all, Nat.sub_diag. cbn [firstn]. rewrite app_nil_r.
        rewrite skipn_app. rewrite skipn_all2 by lia. replace (S (length (mapk g k0)) - length (mapk g k0))%nat with 1%nat by lia.
        cbn [skipn app]. unfold mapk. rewrite map_app, <- app_assoc. reflexivity.
      - eapply keys_nodup; eauto.
      - unfold keys. rewrite nth_error_map, C. reflexivity. }
    destruct (IH N st1 _ I1 eq_refl (k0 ++ [(p_id c, p_pl c)]) K2) as (st' & E' & I' & P' & K').
    { intros e He. apply F. now right. }
    rewrite app_length in E'. cbn [length] in E'. rewrite Nat.add_1_r in E'.
    exists st'. split; [exact E'|]. split; auto. split.
    + destruct P' as [A B]. split; [congruence|]. intros x Hx. apply B. eapply okh_trans; eauto.
    + rewrite K', <- app_assoc. reflexivity.
Qed.
Lemma for_each_spec f g N st : Inv N st -> (forall e, In e (keys st) -> f (snd e) = Ok (g (snd e))) ->
  exists st', for_each f st = Ok st' /\ Inv N st' /\ pres st st' /\ keys st' = mapk g (keys st).
Proof.
  intros I F. unfold for_each. rewrite (iterate_spec _ _ I). cbn [rbind].
  destruct (for_each_loop f g (keys st) N st (length (contents st)) I) with (k0 := @nil (Z * payload)) as (st' & E & A); auto.
  - unfold keys. now rewrite map_length.
  - exists st'. split; auto.
Qed.
Lemma ksum_mapk h g k : ksum h (mapk g k) = ksum h k.
Proof. unfold ksum, mapk. induction k; cbn; auto. rewrite IHk. auto. Qed.
Lemma mapk_fst g k : map fst (mapk g k) = map fst k.
Proof. unfold mapk. rewrite map_map. auto. Qed.
