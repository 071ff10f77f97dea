(** C128: what the ROOT trees contain. *)
From Coq Require Import ZArith Reals List Bool Lia Lra.
From Verif Require Import Base RootModel.
Import ListNotations.
Open Scope Z_scope.

Section Props.
Context {A I : Type}.
Implicit Types (b ps : list A).

(** ** The arrays *)
Lemma store_ok i (p : A) : forall b, (i < length b)%nat -> exists b', store i p b = Ok b' /\ length b' = length b /\ firstn (S i) b' = firstn i b ++ [p].
Proof.
  induction i as [|i IH]; intros [|x b] H; cbn in H; try lia.
  - exists (p :: b). auto.
  - destruct (IH b) as (b' & E & L & F); [lia|]. exists (x :: b'). cbn [store rbind]. rewrite E. cbn [length]. splits; [reflexivity|lia|].
    change (firstn (S (S i)) (x :: b')) with (x :: firstn (S i) b'). now rewrite F.
Qed.
Lemma store_beyond i (p : A) : forall b, (length b <= i)%nat -> store i p b = UB UB_oob.
Proof. induction i as [|i IH]; intros [|x b] H; cbn in *; try reflexivity; try lia. rewrite IH by lia. reflexivity. Qed.

Fixpoint cuts (n : nat) (acc ps : list A) : list (list A) :=
  match ps with
  | [] => match acc with [] => [] | _ => [acc] end
  | p :: r => if (n <=? length acc)%nat then acc :: cuts n [] r else cuts n (acc ++ [p]) r
  end.
Lemma blocks_loop n ps : forall b i out, length b = n -> (i <= n)%nat -> exists b' i' out',
  foldM (tree_step n) (b, i, out) ps = Ok (b', i', out') /\ length b' = n /\ (i' <= n)%nat /\
  (if (0 <? i')%nat then out' ++ [firstn i' b'] else out') = out ++ cuts n (firstn i b) ps.
Proof.
  induction ps as [|p r IH]; intros b i out L H; cbn [foldM cuts].
  - exists b, i, out. splits; auto. destruct i as [|i]; cbn [Nat.ltb Nat.leb firstn]; [now rewrite app_nil_r|].
    destruct b; [cbn in L; lia|]. reflexivity.
  - unfold tree_step at 1. rewrite firstn_length, Nat.min_l by lia. unfold rbind at 1. destruct (Nat.leb_spec n i) as [G|G].
    + destruct (IH b 0%nat (out ++ [firstn n b]) L) as (b' & i' & out' & E & L' & H' & F); [lia|]. exists b', i', out'. splits; auto.
      rewrite F, <- app_assoc. cbn [app firstn]. do 3 f_equal. lia.
    + destruct (store_ok i p b) as (b1 & E1 & L1 & F1); [lia|]. rewrite E1. cbn [rbind].
      destruct (IH b1 (S i) out) as (b' & i' & out' & E & L' & H' & F); [lia|lia|]. exists b', i', out'. splits; auto.
      rewrite F, F1. reflexivity.
Qed.
Lemma blocks_cuts n b ps : length b = n -> exists b', blocks n b ps = Ok (b', cuts n [] ps) /\ length b' = n.
Proof.
  intros L. destruct (blocks_loop n ps b 0 [] L) as (b' & i & out & E & L' & H & F); [lia|]. exists b'. unfold blocks, rbind. rewrite E.
  cbn [app firstn] in F. rewrite F. auto.
Qed.
Lemma cuts_small n ps : forall acc, (length acc + length ps <= n)%nat -> cuts n acc ps = match acc ++ ps with [] => [] | l => [l] end.
Proof.
  induction ps as [|p r IH]; intros acc H; cbn [cuts].
  - rewrite app_nil_r. now destruct acc.
  - cbn in H. destruct (Nat.leb_spec n (length acc)); [lia|]. rewrite IH by (rewrite app_length; cbn; lia). now rewrite <- app_assoc.
Qed.
(** the particles whose position is not a multiple of n + 1, counted from one *)
Definition kept (n k : nat) ps : list A :=
  map snd (filter (fun jp => negb (Nat.eqb (fst jp mod S n) n)) (combine (seq k (length ps)) ps)).
Lemma next_mod n k m : (k mod S n = m)%nat -> (S k mod S n = if Nat.eqb m n then 0 else S m)%nat.
Proof.
  intros E. assert (D := Nat.div_mod k (S n) (Nat.neq_succ_0 n)). assert (B := Nat.mod_upper_bound k (S n) (Nat.neq_succ_0 n)). rewrite E in *.
  destruct (Nat.eqb_spec m n) as [M|M].
  - subst m. symmetry. apply Nat.mod_unique with (q := S (k / S n)); lia.
  - symmetry. apply Nat.mod_unique with (q := (k / S n)%nat); lia.
Qed.
Lemma cuts_kept n ps : forall acc k, (length acc <= n)%nat -> (k mod S n = length acc)%nat -> concat (cuts n acc ps) = acc ++ kept n k ps.
Proof.
  induction ps as [|p r IH]; intros acc k L K; cbn [cuts].
  - unfold kept. cbn. rewrite app_nil_r. destruct acc; cbn; [reflexivity|]. now rewrite app_nil_r.
  - unfold kept. cbn [length seq combine filter fst]. rewrite K. destruct (Nat.leb_spec n (length acc)) as [G|G].
    + replace (Nat.eqb (length acc) n) with true by (symmetry; apply Nat.eqb_eq; lia). cbn [negb concat]. rewrite (IH [] (S k)); [reflexivity|cbn; lia|].
      rewrite (next_mod n k _ K). destruct (Nat.eqb_spec (length acc) n); [reflexivity|lia].
    + replace (Nat.eqb (length acc) n) with false by (symmetry; apply Nat.eqb_neq; lia). cbn [negb map snd]. rewrite (IH (acc ++ [p]) (S k)).
      * rewrite <- app_assoc. reflexivity.
      * rewrite app_length. cbn. lia.
      * rewrite app_length. cbn [length]. rewrite (next_mod n k _ K). destruct (Nat.eqb_spec (length acc) n); lia.
Qed.
Lemma cuts_sizes n ps : (0 < n)%nat -> forall acc, (length acc <= n)%nat -> forall l, In l (cuts n acc ps) -> (0 < length l <= n)%nat.
Proof.
  intros N. induction ps as [|p r IH]; intros acc L l; cbn [cuts].
  - destruct acc; cbn in *; [tauto|]. intros [<-|[]]. cbn. lia.
  - destruct (Nat.leb_spec n (length acc)); cbn [In].
    + intros [<-|H1]; [lia|]. apply (IH []); auto. cbn. lia.
    + apply IH. rewrite app_length. cbn. lia.
Qed.
Lemma kept_length n ps : forall k, (length (kept n k ps) <= length ps)%nat.
Proof.
  induction ps as [|p r IH]; intros k; [cbn; lia|]. unfold kept. cbn [length seq combine filter]. specialize (IH (S k)). unfold kept in IH.
  destruct (negb _); cbn [map length]; lia.
Qed.
Lemma kept_loses n ps : forall k, (k <= n)%nat -> (n < k + length ps)%nat -> (length (kept n k ps) < length ps)%nat.
Proof.
  induction ps as [|p r IH]; intros k K L; cbn in L; [lia|]. unfold kept. cbn [length seq combine filter fst]. rewrite Nat.mod_small by lia.
  destruct (Nat.eqb_spec k n); cbn [negb map length].
  - apply Nat.lt_succ_r. apply (kept_length n r (S k)).
  - apply -> Nat.succ_lt_mono. apply IH; lia.
Qed.

(** ** One list of particles *)
(** A list that fits is one entry, in the order of the list, whatever the arrays held before; an empty list is no entry. *)
Theorem list_is_one_entry n b ps : length b = n -> (length ps <= n)%nat ->
  exists b', blocks n b ps = Ok (b', match ps with [] => [] | _ => [ps] end) /\ length b' = n.
Proof. intros L H. destruct (blocks_cuts n b ps L) as (b' & E & L'). exists b'. split; [|exact L']. rewrite E, cuts_small by (cbn; lia). now destruct ps. Qed.
(** A longer list is written in entries of at most n particles; nothing is out of bounds. Exactly the particles at positions n + 1,
    2 (n + 1), ... are missing from them. *)
Theorem long_list_entries n b ps : (0 < n)%nat -> length b = n -> exists b' out, blocks n b ps = Ok (b', out) /\ length b' = n /\
  (forall l, In l out -> (0 < length l <= n)%nat) /\
  concat out = map snd (filter (fun jp => negb (Nat.eqb (fst jp mod S n) n)) (combine (seq 0 (length ps)) ps)).
Proof.
  intros N L. destruct (blocks_cuts n b ps L) as (b' & E & L'). exists b', (cuts n [] ps). splits; auto.
  - intros l. apply cuts_sizes; auto. cbn. lia.
  - rewrite (cuts_kept n ps [] 0) by (cbn [length]; try lia; apply Nat.mod_0_l; lia). reflexivity.
Qed.
(** No list with more particles than the buffer holds is written completely: the particle that finds the buffer full is not stored
    after the buffer is emptied (rootoutput.cc:510-526), contrary to rootoutput.h:145-148. *)
Theorem every_particle_written_refuted n b ps : length b = n -> (n < length ps)%nat ->
  ~ (forall b' out, blocks n b ps = Ok (b', out) -> concat out = ps).
Proof.
  intros L H C. destruct (blocks_cuts n b ps L) as (b' & E & _). specialize (C _ _ E). rewrite (cuts_kept n ps [] 0) in C; [|cbn; lia|apply Nat.mod_0_l; lia].
  cbn [app] in C. assert (X := kept_loses n ps 0). rewrite C in X. lia.
Qed.

(** ** Events *)
Definition ready (c : config) (s : root A I) : Prop := length (r_buf s) = c_size c /\ (r_freq s = -1 \/ 0 < r_freq s).
Definition block ps : list (list A) := match ps with [] => [] | _ => [ps] end.
Lemma write_fits c (s : root A I) ps : length (r_buf s) = c_size c -> (length ps <= c_size c)%nat -> exists b, length b = c_size c /\
  particles_to_tree c s ps = Ok (Root (r_ev s) (r_ens s) (r_counter s) (r_pass s) (r_impact s) (r_empty s) b (r_freq s)
    (r_tree s ++ map (Entry (r_ev s) (r_ens s) (r_counter s) (r_pass s) (r_impact s) (r_empty s)) (block ps)) (r_coll s) (r_saved s)).
Proof.
  intros L H. destruct (list_is_one_entry (c_size c) (r_buf s) ps L H) as (b & E & L'). exists b. split; [exact L'|]. unfold particles_to_tree, rbind. now rewrite E.
Qed.
(** the outputs of one event in one ensemble *)
Definition event (c : config) (s : root A I) (ev ens : Z) (start : list A * info I) (times : list (list A * info I)) (fin : list A * info I) : res (root A I) :=
  s <- at_eventstart c s (fst start) ev ens (snd start) ;;
  s <- foldM (fun s t => at_intermediate_time c s (fst t) ens (snd t)) s times ;;
  at_eventend c s (fst fin) ens (snd fin).
(** what should be in the tree for it *)
Definition numbered (ev ens : Z) (from : Z) (times : list (list A * info I)) : list (entry A I) :=
  concat (map (fun kt => map (Entry ev ens (from + Z.of_nat (fst kt)) (i_pass (snd (snd kt))) (-1) false) (block (fst (snd kt))))
    (combine (seq 0 (length times)) times)).
Lemma numbered_cons ev ens k t r : numbered ev ens k (t :: r) = map (Entry ev ens k (i_pass (snd t)) (-1) false) (block (fst t)) ++ numbered ev ens (k + 1) r.
Proof.
  unfold numbered. cbn [length seq combine map concat fst snd]. rewrite Z.add_0_r. f_equal. f_equal.
  rewrite <- seq_shift. clear t. generalize 0%nat. induction r as [|t r IH]; intros m; cbn; [reflexivity|]. f_equal; [|apply IH].
  do 2 f_equal. lia.
Qed.
Lemma times_written c ev ens times : writes_all c = true -> (forall t, In t times -> (length (fst t) <= c_size c)%nat) ->
  forall (s : root A I), length (r_buf s) = c_size c -> r_ev s = ev -> r_impact s = (-1)%R -> r_empty s = false ->
  exists s', foldM (fun s t => at_intermediate_time c s (fst t) ens (snd t)) s times = Ok s' /\ length (r_buf s') = c_size c /\ r_ev s' = ev /\
    r_counter s' = r_counter s + Z.of_nat (length times) /\ r_freq s' = r_freq s /\ r_coll s' = r_coll s /\ r_saved s' = r_saved s /\
    r_tree s' = r_tree s ++ numbered ev ens (r_counter s) times.
Proof.
  intros W. induction times as [|t r IH]; intros H s L E1 E2 E3; cbn [foldM].
  - exists s. splits; auto; [cbn; lia|]. unfold numbered. cbn. now rewrite app_nil_r.
  - unfold at_intermediate_time at 1. rewrite W.
    match goal with |- context [particles_to_tree c ?x _] => set (s1 := x) end.
    destruct (write_fits c s1 (fst t)) as (b & Lb & Eb); [exact L|apply H; now left|]. rewrite Eb. cbn [rbind]. unfold count at 1.
    cbn [r_ev r_ens r_counter r_pass r_impact r_empty r_buf r_freq r_tree r_coll r_saved s1].
    match goal with |- context [foldM _ ?x r] => set (s2 := x) end.
    destruct (IH (fun t' T => H t' (or_intror T)) s2) as (s' & F & F1 & F2 & F3 & F4 & F5 & F6 & F7); auto.
    exists s'. splits; auto; cbn [s2 r_counter r_freq r_coll r_saved r_tree] in *; auto.
    + rewrite F3. cbn [length]. lia.
    + rewrite F7, numbered_cons, <- app_assoc. rewrite E1, E2, E3. reflexivity.
Qed.
(** After any earlier events, with everything written, an event adds one entry for each output time with particles, numbered from 0, with
    the impact parameter and the emptiness only in the last one. *)
Theorem event_in_tree c (s : root A I) ev ens start times fin : writes_all c = true -> ready c s -> 0 <= ev -> 1 <= i_ensembles (snd fin) ->
  (forall t, In t (start :: times ++ [fin]) -> (length (fst t) <= c_size c)%nat) ->
  exists s', event c s ev ens start times fin = Ok s' /\ ready c s' /\ r_coll s' = r_coll s /\
    r_tree s' = r_tree s ++ numbered ev ens 0 (start :: times) ++
      map (Entry ev ens (1 + Z.of_nat (length times)) (i_pass (snd fin)) (i_impact (snd fin)) (i_empty (snd fin))) (block (fst fin)).
Proof.
  intros W (L & FR) EV NE H. unfold event, at_eventstart. rewrite W. cbn zeta.
  match goal with |- context [particles_to_tree c ?x _] => set (s0 := x) end.
  destruct (write_fits c s0 (fst start)) as (b & Lb & Eb); [exact L|apply H; now left|]. rewrite Eb. cbn [rbind]. unfold count at 1.
  cbn [r_ev r_ens r_counter r_pass r_impact r_empty r_buf r_freq r_tree r_coll r_saved s0].
  match goal with |- context [foldM _ ?x times] => set (s2 := x) end.
  destruct (times_written c ev ens times W) with (s := s2) as (s3 & F & F1 & F2 & F3 & F4 & F5 & F6 & F7); auto.
  { intros t T. apply H. right. apply in_or_app. now left. }
  rewrite F. cbn [rbind]. unfold at_eventend.
  unfold writes_all in W. apply andb_true_iff in W as (W1 & W2). destruct (c_only c) eqn:OC; try discriminate. rewrite W1, andb_false_r. cbn [negb andb].
  match goal with |- context [particles_to_tree c ?x _] => set (s4 := x) end.
  destruct (write_fits c s4 (fst fin)) as (b4 & Lb4 & Eb4); [exact F1|apply H; right; apply in_or_app; right; now left|].
  rewrite Eb4. cbn [rbind r_ev r_ens r_counter r_pass r_impact r_empty r_buf r_freq r_tree r_coll r_saved s4].
  assert (Q : exists f, (if r_freq s3 <? 0 then if i_ensembles (snd fin) =? 0 then UB UB_div_zero else Ok (if Z.quot 1000 (i_ensembles (snd fin)) =? 0 then 1 else Z.quot 1000 (i_ensembles (snd fin))) else Ok (r_freq s3)) = Ok f /\ 0 < f).
  { destruct (Z.ltb_spec (r_freq s3) 0).
    - destruct (Z.eqb_spec (i_ensembles (snd fin)) 0); [lia|]. eexists. split; [reflexivity|]. assert (0 <= Z.quot 1000 (i_ensembles (snd fin))) by (apply Z.quot_pos; lia).
      destruct (Z.eqb_spec (Z.quot 1000 (i_ensembles (snd fin))) 0); lia.
    - exists (r_freq s3). split; [reflexivity|]. rewrite F4 in *. unfold s2 in *. cbn in *. lia. }
  destruct Q as (f & Q1 & Q2). cbn zeta. rewrite Q1. cbn [rbind]. rewrite F2. replace (f =? 0) with false by (symmetry; apply Z.eqb_neq; lia).
  assert (G : exists sv, (if 0 <? ev then Ok (Z.rem ev f =? 0) else Ok false) = Ok sv) by (destruct (0 <? ev); eauto). destruct G as (sv & ->). cbn [rbind].
  eexists. split; [reflexivity|]. unfold ready. cbn [r_buf r_freq r_coll r_tree]. splits; auto.
  rewrite F7, F3, numbered_cons. cbn [s2 r_tree r_counter]. rewrite <- !app_assoc. cbn [Z.add]. reflexivity.
Qed.
(** With the final state only, an event adds one entry, with its impact parameter; none if only interacting events are wanted and it is
    empty. *)
Theorem final_only_in_tree c (s : root A I) ev ens start times fin : c_part c = true -> c_only c <> OF_No -> ready c s -> 0 <= ev -> 1 <= i_ensembles (snd fin) ->
  (length (fst fin) <= c_size c)%nat ->
  exists s' k, event c s ev ens start times fin = Ok s' /\ ready c s' /\
    r_tree s' = r_tree s ++ if i_empty (snd fin) && match c_only c with OF_IfNotEmpty => true | _ => false end then []
      else map (Entry ev ens k (i_pass (snd fin)) (i_impact (snd fin)) (i_empty (snd fin))) (block (fst fin)).
Proof.
  intros W O (L & FR) EV NE H. assert (W0 : writes_all c = false) by (unfold writes_all; rewrite W; now destruct (c_only c)).
  unfold event, at_eventstart. rewrite W0. cbn [rbind].
  match goal with |- context [foldM _ ?x times] => set (s2 := x) end.
  assert (T : exists s3, foldM (fun s t => at_intermediate_time c s (fst t) ens (snd t)) s2 times = Ok s3 /\ length (r_buf s3) = c_size c /\ r_ev s3 = ev /\
    r_freq s3 = r_freq s /\ r_tree s3 = r_tree s).
  { assert (S2 : length (r_buf s2) = c_size c /\ r_ev s2 = ev /\ r_freq s2 = r_freq s /\ r_tree s2 = r_tree s) by (unfold s2; cbn; auto).
    clearbody s2. revert s2 S2. induction times as [|t r IH]; intros s2 (A1 & A2 & A3 & A4); cbn [foldM]; [eauto 6|].
    unfold at_intermediate_time at 1. rewrite W0. cbn [rbind]. apply IH. cbn. auto. }
  destruct T as (s3 & F & F1 & F2 & F3 & F4). rewrite F. cbn [rbind]. unfold at_eventend. rewrite W. cbn [andb]. cbn zeta.
  set (skip := i_empty (snd fin) && _).
  match goal with |- context [particles_to_tree c ?x _] => set (s4 := x) end.
  assert (P : exists s5, (if negb skip then particles_to_tree c s4 (fst fin) else Ok s4) = Ok s5 /\ length (r_buf s5) = c_size c /\ r_ev s5 = ev /\ r_freq s5 = r_freq s /\
    r_tree s5 = r_tree s ++ if skip then [] else map (Entry ev ens (r_counter s3) (i_pass (snd fin)) (i_impact (snd fin)) (i_empty (snd fin))) (block (fst fin))).
  { destruct skip; cbn [negb].
    - exists s4. unfold s4. cbn. rewrite app_nil_r. auto.
    - destruct (write_fits c s4 (fst fin)) as (b4 & Lb4 & Eb4); [exact F1|exact H|]. rewrite Eb4. eexists. split; [reflexivity|]. cbn. rewrite F4, F2. auto. }
  destruct P as (s5 & -> & P1 & P2 & P3 & P4). cbn [rbind].
  assert (Q : exists f, (if r_freq s5 <? 0 then if i_ensembles (snd fin) =? 0 then UB UB_div_zero else Ok (if Z.quot 1000 (i_ensembles (snd fin)) =? 0 then 1 else Z.quot 1000 (i_ensembles (snd fin))) else Ok (r_freq s5)) = Ok f /\ 0 < f).
  { destruct (Z.ltb_spec (r_freq s5) 0).
    - destruct (Z.eqb_spec (i_ensembles (snd fin)) 0); [lia|]. eexists. split; [reflexivity|]. assert (0 <= Z.quot 1000 (i_ensembles (snd fin))) by (apply Z.quot_pos; lia).
      destruct (Z.eqb_spec (Z.quot 1000 (i_ensembles (snd fin))) 0); lia.
    - exists (r_freq s5). split; [reflexivity|]. rewrite P3 in *. lia. }
  destruct Q as (f & Q1 & Q2). rewrite Q1. cbn [rbind]. rewrite P2. replace (f =? 0) with false by (symmetry; apply Z.eqb_neq; lia).
  assert (G : exists sv, (if 0 <? ev then Ok (Z.rem ev f =? 0) else Ok false) = Ok sv) by (destruct (0 <? ev); eauto). destruct G as (sv & ->). cbn [rbind].
  eexists _, (r_counter s3). split; [reflexivity|]. unfold ready. cbn. auto.
Qed.

(** ** Saving and collisions *)
(** The trees are saved after exactly the events whose positive number is a multiple of the quotient of 1000 and the number of ensembles
    (1 if that is 0). *)
Theorem autosave c (s : root A I) ps ens e : c_part c = false -> r_freq s = -1 -> 1 <= i_ensembles e -> 0 <= r_ev s ->
  exists s', at_eventend c s ps ens e = Ok s' /\ r_freq s' = Z.max 1 (1000 / i_ensembles e) /\
    (r_saved s' = r_saved s ++ [r_ev s] <-> 0 < r_ev s /\ (Z.max 1 (1000 / i_ensembles e) | r_ev s)) /\
    (forall ps' ens' e', exists s'', at_eventend c s' ps' ens' e' = Ok s'' /\ r_freq s'' = r_freq s').
Proof.
  intros P F N EV. unfold at_eventend at 1. rewrite P. cbn [andb rbind r_freq]. rewrite F. cbn [Z.ltb Z.compare].
  destruct (Z.eqb_spec (i_ensembles e) 0); [lia|]. cbn [rbind r_ev]. rewrite Z.quot_div_nonneg by lia.
  assert (D : 0 <= 1000 / i_ensembles e) by (apply Z.div_pos; lia).
  assert (M : (if 1000 / i_ensembles e =? 0 then 1 else 1000 / i_ensembles e) = Z.max 1 (1000 / i_ensembles e)).
  { destruct (Z.eqb_spec (1000 / i_ensembles e) 0); lia. }
  rewrite M. set (f := Z.max 1 (1000 / i_ensembles e)) in *. assert (FP : 0 < f) by lia.
  replace (f =? 0) with false by (symmetry; apply Z.eqb_neq; lia).
  assert (X : forall (x : Z) l, l ++ [x] = l -> False).
  { intros x l E. assert (Y := f_equal (@length Z) E). rewrite app_length in Y. cbn in Y. lia. }
  assert (NEXT : forall s', r_freq s' = f -> forall ps' ens' e', exists s'' : root A I, at_eventend c s' ps' ens' e' = Ok s'' /\ r_freq s'' = r_freq s').
  { intros s' E ps' ens' e'. unfold at_eventend. rewrite P. cbn [andb rbind r_freq]. rewrite E. destruct (Z.ltb_spec f 0); [lia|]. cbn [rbind r_ev].
    replace (f =? 0) with false by (symmetry; apply Z.eqb_neq; lia). destruct (0 <? r_ev s'); cbn [rbind]; eexists; (split; [reflexivity|reflexivity]). }
  destruct (Z.ltb_spec 0 (r_ev s)) as [G|G]; cbn [rbind].
  - eexists. split; [reflexivity|]. cbn [r_freq r_saved r_ev]. splits; auto.
    + rewrite Z.rem_mod_nonneg by lia. destruct (Z.eqb_spec (r_ev s mod f) 0) as [Z0|Z0].
      * split; [intros _; split; [exact G|]; apply Z.mod_divide; lia|reflexivity].
      * split; [intros E; symmetry in E; now apply X in E|]. intros (_ & D'). apply Z.mod_divide in D'; lia.
    + now apply NEXT.
  - eexists. split; [reflexivity|]. cbn [r_freq r_saved r_ev]. splits; auto.
    + split; [intros E; symmetry in E; now apply X in E|lia].
    + now apply NEXT.
Qed.
Lemma fill_all l : forall b i, (i + length l <= length b)%nat -> exists b', foldM fill_one (b, i) l = Ok (b', (i + length l)%nat) /\ length b' = length b /\
  firstn (i + length l) b' = firstn i b ++ l.
Proof.
  induction l as [|p r IH]; intros b i H; cbn [foldM length] in *.
  - exists b. rewrite Nat.add_0_r, app_nil_r. auto.
  - unfold fill_one at 1. destruct (store_ok i p b) as (b1 & E1 & L1 & F1); [lia|]. rewrite E1. cbn [rbind].
    destruct (IH b1 (S i)) as (b' & E & L & F); [lia|]. exists b'. rewrite E. replace (i + S (length r))%nat with (S i + length r)%nat by lia.
    splits; auto; [lia|]. rewrite F, F1, <- app_assoc. reflexivity.
Qed.
Lemma fill_beyond l : forall b i, (i <= length b)%nat -> (length b < i + length l)%nat -> foldM fill_one (b, i) l = UB UB_oob.
Proof.
  induction l as [|p r IH]; intros b i L H; cbn [foldM length] in *; [lia|]. unfold fill_one at 1. destruct (Nat.lt_ge_cases i (length b)).
  - destruct (store_ok i p b) as (b1 & E1 & L1 & F1); [lia|]. rewrite E1. cbn [rbind]. apply IH; lia.
  - rewrite store_beyond by lia. reflexivity.
Qed.
(** Every collision is one entry: incoming particles, then outgoing ones, with their numbers and the weights. It is undefined behaviour
    exactly if they are more than the buffer holds. *)
Theorem collision_entry c (s : root A I) fl ins outs w pw : c_coll c = true -> c_ic c = false ->
  ((length ins + length outs <= length (r_buf s))%nat -> exists s', at_interaction c s fl ins outs w pw = Ok s' /\ length (r_buf s') = length (r_buf s) /\
     r_tree s' = r_tree s /\ r_coll s' = r_coll s ++ [CEntry (r_ev s) (r_ens s) (length ins) (length outs) w pw (ins ++ outs)]) /\
  ((length (r_buf s) < length ins + length outs)%nat -> at_interaction c s fl ins outs w pw = UB UB_oob).
Proof.
  intros C N. unfold at_interaction, collisions_to_tree. rewrite C, N. cbn [andb]. split; intros H.
  - destruct (fill_all (ins ++ outs) (r_buf s) 0) as (b & E & L & F); [rewrite app_length; lia|]. rewrite E. cbn [rbind].
    eexists. split; [reflexivity|]. cbn. splits; auto. rewrite app_length in F. cbn in F. now rewrite F.
  - rewrite fill_beyond; [reflexivity|lia|rewrite app_length; lia].
Qed.
(** Initial conditions: the particles a fluidisation takes are written, whatever else happens. *)
Theorem initial_conditions_entry c (s : root A I) ins outs w pw : c_coll c = false -> c_ic c = true -> length (r_buf s) = c_size c -> (length ins <= c_size c)%nat ->
  at_interaction c s false ins outs w pw = Ok s /\
  exists s', at_interaction c s true ins outs w pw = Ok s' /\
    r_tree s' = r_tree s ++ map (Entry (r_ev s) (r_ens s) (r_counter s) (r_pass s) (r_impact s) (r_empty s)) (block ins).
Proof.
  intros C N L H. unfold at_interaction. rewrite C, N. cbn [rbind andb]. split; [reflexivity|].
  destruct (write_fits c s ins L H) as (b & _ & E). rewrite E. eexists. split; reflexivity.
Qed.
End Props.
Print Assumptions list_is_one_entry.
Print Assumptions long_list_entries.
Print Assumptions every_particle_written_refuted.
Print Assumptions event_in_tree.
Print Assumptions final_only_in_tree.
Print Assumptions autosave.
Print Assumptions collision_entry.
Print Assumptions initial_conditions_entry.

(** ** What does not hold *)
Definition ic_config : config := Config false false true OF_No 4.
Definition all_config : config := Config false true false OF_No 4.
Definition new_root : root Z Z := Root 0 0 0 0 0 false [0; 0; 0; 0] (-1) [] [] [].
Definition about (t : Z) (b : R) : info Z := Info t b false 1.
(** The initial conditions of an event carry the impact parameter of the event before it: it is set at the end of an event only
    (rootoutput.cc:450). *)
Theorem initial_conditions_impact_refuted : ~ (forall (s s1 s2 s3 : root Z Z) ev b ins,
  at_eventend ic_config new_root [] 0 (about 5 7) = Ok s -> at_eventstart ic_config s [] ev 0 (about 0 b) = Ok s1 ->
  at_interaction ic_config s1 true ins [] 1 1 = Ok s2 -> at_eventend ic_config s2 [] 0 (about 5 b) = Ok s3 ->
  forall n, In n (r_tree s3) -> n_impact n = b).
Proof.
  intros H. specialize (H _ _ _ _ 1 3%R [1] eq_refl eq_refl eq_refl eq_refl _ (or_introl eq_refl)). cbn in H. lra.
Qed.
Print Assumptions initial_conditions_impact_refuted.
(** With several ensembles the number of an output block differs between the ensembles for the same time: one counter serves them all
    and every ensemble's start sets it to zero. *)
Theorem block_number_of_ensembles_refuted : ~ (forall (s s1 s2 s3 : root Z Z) ps qs,
  at_eventstart all_config new_root ps 0 0 (about 0 (-1)) = Ok s -> at_eventstart all_config s qs 0 1 (about 0 (-1)) = Ok s1 ->
  at_intermediate_time all_config s1 ps 0 (about 1 (-1)) = Ok s2 -> at_intermediate_time all_config s2 qs 1 (about 1 (-1)) = Ok s3 ->
  forall n m, In n (r_tree s3) -> In m (r_tree s3) -> n_pass n = n_pass m -> n_counter n = n_counter m).
Proof.
  intros H. set (e := fun ens k t p => Entry (A := Z) (I := Z) 0 ens k t (-1)%R false [p]).
  set (st := fun ens k t b l => Root (A := Z) (I := Z) 0 ens k t (-1)%R false b (-1) l [] []).
  set (l4 := [e 0 0 0 1; e 1 0 0 2; e 0 1 1 1; e 1 2 1 2]).
  specialize (H (st 0 1 0 [1; 0; 0; 0] [e 0 0 0 1]) (st 1 1 0 [2; 0; 0; 0] [e 0 0 0 1; e 1 0 0 2]) (st 0 2 1 [1; 0; 0; 0] [e 0 0 0 1; e 1 0 0 2; e 0 1 1 1])
    (st 1 3 1 [2; 0; 0; 0] l4) [1] [2] eq_refl eq_refl eq_refl eq_refl (e 0 1 1 1) (e 1 2 1 2)).
  assert (X : n_counter (e 0 1 1 1) = n_counter (e 1 2 1 2)).
  { apply H; [|right; right; right; left; reflexivity|reflexivity]. right. right. left. reflexivity. }
  discriminate X.
Qed.
Print Assumptions block_number_of_ensembles_refuted.
Example root_example : ready all_config new_root /\ writes_all all_config = true /\
  (forall t : list Z * info Z, In t [([1; 2], about 0 (-1)); ([1; 2], about 1 (-1)); ([3], about 2 5)] -> (length (fst t) <= c_size all_config)%nat).
Proof. splits; [split; [reflexivity|now left]|reflexivity|]. intros t [<-|[<-|[<-|[]]]]; cbn; lia. Qed.
