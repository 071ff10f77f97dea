(** C117: the loop over events. *)
From Coq Require Import ZArith List Bool Reals Lia Lra Psatz Arith.
Import ListNotations.
From Flocq Require Import Core.
From Verif Require Import Base Flt RunModel.
Open Scope Z_scope.

(** * Specification *)

(** In ensemble [i] a projectile nucleon has interacted with a target nucleon. *)
Definition touched (collider : bool) (hs : list happening) (i : nat) : Prop :=
  collider = true /\ exists incoming, In (Performed (i, incoming)) hs /\ In Projectile incoming /\ In Target incoming.

(** The calls output number [o] gets. *)
Definition seen (o : nat) (tr : list (nat * call)) : list call :=
  map snd (filter (fun x => Nat.eqb (fst x) o) tr).

(** What has happened before each output time that is not skipped. *)
Fixpoint output_moments (before hs : list happening) : list (list happening) :=
  match hs with
  | [] => []
  | OutputTime false :: r => before :: output_moments (before ++ [OutputTime false]) r
  | h :: r => output_moments (before ++ [h]) r
  end.

(** A complete group of calls: one for each ensemble, in order, and one for all. *)
Definition group (n : nat) (one : nat -> bool -> call) (all : call) (empty : nat -> bool) : list call :=
  map (fun i => one i (empty i)) (seq 0 n) ++ [all].

(** The seed of event [j] of a run started with [seed]. *)
Inductive seed_of (next : Z -> res Z) (seed : Z) : nat -> Z -> Prop :=
  | seed_first : seed_of next seed 0 seed
  | seed_next j s s' : seed_of next seed j s -> next s = Ok s' -> seed_of next seed (S j) s'.

(** * Flags *)

Lemma upd_length {A} i (x : A) l : length (upd i x l) = length l.
Proof. revert i. induction l; destruct i; cbn; auto. Qed.
Lemma upd_nth {A} i j (x d : A) l : nth j (upd i x l) d = if Nat.eqb i j && Nat.ltb j (length l) then x else nth j l d.
Proof.
  revert i j. induction l as [|a l IH]; intros i j.
  - replace (Nat.ltb j (length (@nil A))) with false by (symmetry; apply Nat.ltb_ge; cbn; lia).
    rewrite andb_false_r. destruct i; reflexivity.
  - destruct i, j; cbn; try reflexivity.
    rewrite IH. reflexivity.
Qed.

Lemma filter_len_pos {A} (f : A -> bool) l : (0 <? Z.of_nat (length (filter f l))) = true <-> exists x, In x l /\ f x = true.
Proof.
  rewrite Z.ltb_lt. split.
  - intro H. destruct (filter f l) as [|x r] eqn:E; [cbn in H; lia|]. exists x. apply filter_In. rewrite E. left. reflexivity.
  - intros (x & I & F). assert (In x (filter f l)) by (apply filter_In; split; assumption).
    destruct (filter f l); [contradiction|cbn; lia].
Qed.

Lemma mark_spec c fl i inc j : (j < length fl)%nat ->
  nth j (mark c fl (i, inc)) false = true <->
  nth j fl false = true \/ (c = true /\ i = j /\ In Projectile inc /\ In Target inc).
Proof.
  intro L. unfold mark. destruct c; [|split; [tauto|intros [H|(H & _)]; [assumption|discriminate]]].
  set (t := 0 <? _). set (p := 0 <? Z.of_nat (length (filter (fun l => match l with Projectile => true | _ => false end) inc))).
  assert (T : t = true <-> In Target inc).
  { unfold t. rewrite filter_len_pos. split; [intros ([] & I & E); try discriminate; assumption|intro I; exists Target; auto]. }
  assert (P : p = true <-> In Projectile inc).
  { unfold p. rewrite filter_len_pos. split; [intros ([] & I & E); try discriminate; assumption|intro I; exists Projectile; auto]. }
  destruct (t && p) eqn:E.
  - apply andb_true_iff in E. rewrite upd_nth.
    replace (Nat.ltb j (length fl)) with true by (symmetry; apply Nat.ltb_lt; exact L). rewrite andb_true_r.
    destruct (Nat.eqb i j) eqn:Q.
    + apply Nat.eqb_eq in Q. split; [intros _; right; tauto|reflexivity].
    + apply Nat.eqb_neq in Q. split; [tauto|intros [H|(_ & H & _)]; [exact H|contradiction]].
  - split; [tauto|]. intros [H|(_ & _ & H1 & H2)]; [exact H|]. exfalso.
    apply P in H1. apply T in H2. rewrite H1, H2 in E. discriminate.
Qed.

Lemma mark_length c fl a : length (mark c fl a) = length fl.
Proof. destruct a as (i & inc). unfold mark. destruct c; [|reflexivity]. destruct (_ && _); [apply upd_length|reflexivity]. Qed.

Definition good (c : bool) (n : nat) (hs : list happening) (fl : list bool) : Prop :=
  length fl = n /\ forall j, (j < n)%nat -> nth j fl false = true <-> touched c hs j.

Lemma good_start c n : good c n [] (repeat false n).
Proof.
  split; [apply repeat_length|]. intros j L. rewrite nth_repeat. split; [discriminate|].
  intros (_ & inc & [] & _).
Qed.
Lemma good_mark c n hs fl a : good c n hs fl -> good c n (hs ++ [Performed a]) (mark c fl a).
Proof.
  intros (L & G). destruct a as (i & inc). split; [rewrite mark_length; exact L|].
  intros j J. rewrite mark_spec by lia. rewrite G by exact J. unfold touched. split.
  - intros [(C & inc' & I & P & T)|(C & -> & P & T)].
    + split; [exact C|]. exists inc'. splits; auto. apply in_or_app. left. exact I.
    + split; [exact C|]. exists inc. splits; auto. apply in_or_app. right. left. reflexivity.
  - intros (C & inc' & I & P & T). apply in_app_or in I. destruct I as [I|[I|[]]].
    + left. split; [exact C|]. exists inc'. splits; auto.
    + injection I as -> ->. right. splits; auto.
Qed.
Lemma good_skip c n hs fl b : good c n hs fl -> good c n (hs ++ [OutputTime b]) fl.
Proof.
  intros (L & G). split; [exact L|]. intros j J. rewrite G by exact J. unfold touched. split.
  - intros (C & inc & I & H). split; [exact C|]. exists inc. split; [apply in_or_app; left; exact I|exact H].
  - intros (C & inc & I & H). split; [exact C|]. exists inc. split; [|exact H].
    apply in_app_or in I. destruct I as [I|[I|[]]]; [exact I|discriminate].
Qed.

(** * What an output sees *)

Lemma seen_app o a b : seen o (a ++ b) = seen o a ++ seen o b.
Proof. unfold seen. rewrite filter_app, map_app. reflexivity. Qed.
Lemma seen_pair o p l : seen o (map (pair p) l) = if Nat.eqb p o then l else [].
Proof.
  unfold seen. destruct (Nat.eqb p o) eqn:E.
  - induction l; cbn [map filter fst]; [reflexivity|]. rewrite E. cbn [map snd]. f_equal. exact IHl.
  - induction l; cbn [map filter fst]; [reflexivity|]. rewrite E. exact IHl.
Qed.
Lemma seen_outputs o n k : (o < n)%nat ->
  seen o (flat_map (fun p => map (pair p) (k p)) (seq 0 n)) = k o.
Proof.
  intro L.
  assert (H : forall m s, seen o (flat_map (fun p => map (pair p) (k p)) (seq s m))
                = if (s <=? o)%nat && (o <? s + m)%nat then k o else []).
  { induction m; intro s; cbn [seq flat_map].
    - replace ((s <=? o)%nat && (o <? s + 0)%nat) with false; [reflexivity|].
      symmetry. apply andb_false_iff. rewrite Nat.leb_gt, Nat.ltb_ge. lia.
    - rewrite seen_app, seen_pair, IHm. destruct (Nat.eqb s o) eqn:E.
      + apply Nat.eqb_eq in E. subst.
        replace ((S o <=? o)%nat) with false by (symmetry; apply Nat.leb_gt; lia). cbn [andb].
        replace ((o <=? o)%nat && (o <? o + S m)%nat) with true; [apply app_nil_r|].
        symmetry. apply andb_true_iff. rewrite Nat.leb_le, Nat.ltb_lt. lia.
      + apply Nat.eqb_neq in E. cbn [app].
        replace ((S s <=? o)%nat && (o <? S s + m)%nat) with ((s <=? o)%nat && (o <? s + S m)%nat); [reflexivity|].
        destruct (s <=? o)%nat eqn:A, (S s <=? o)%nat eqn:B, (o <? s + S m)%nat eqn:C, (o <? S s + m)%nat eqn:D; try reflexivity; exfalso;
          rewrite ?Nat.leb_le, ?Nat.leb_gt, ?Nat.ltb_lt, ?Nat.ltb_ge in *; lia. }
  rewrite H. replace ((0 <=? o)%nat && (o <? 0 + n)%nat) with true; [reflexivity|].
  symmetry. apply andb_true_iff. rewrite Nat.leb_le, Nat.ltb_lt. lia.
Qed.

Lemma per_ensemble_group c n hs fl (E : list happening -> nat -> bool) k :
  (forall h i, (i < n)%nat -> E h i = false <-> touched c h i) -> good c n hs fl ->
  per_ensemble k fl = map (fun i => k i (E hs i)) (seq 0 n).
Proof.
  intros HE (L & G). unfold per_ensemble. rewrite L. apply map_ext_in. intros i I. apply in_seq in I. f_equal.
  pose proof (HE hs i ltac:(lia)) as H1. pose proof (G i ltac:(lia)) as H2.
  destruct (nth i fl false), (E hs i); cbn; try reflexivity; exfalso.
  - assert (true = false) by (apply H1; apply H2; reflexivity). discriminate.
  - assert (false = true) by (apply H2; apply H1; reflexivity). discriminate.
Qed.

Lemma touched_dec c n hs : exists f : nat -> bool, forall i, (i < n)%nat -> f i = false <-> touched c hs i.
Proof.
  assert (H : exists fl, good c n hs fl).
  { induction hs as [|h hs IH] using rev_ind.
    - exists (repeat false n). apply good_start.
    - destruct IH as (fl & G). destruct h as [a|b].
      + exists (mark c fl a). apply good_mark. exact G.
      + exists fl. apply good_skip. exact G. }
  destruct H as (fl & L & G). exists (fun i => negb (nth i fl false)). intros i I.
  rewrite negb_false_iff. apply G. exact I.
Qed.
Definition emptyb (c : bool) (n : nat) (hs : list happening) (i : nat) : bool :=
  negb (nth i (fold_left (fun fl h => match h with Performed a => mark c fl a | _ => fl end) hs (repeat false n)) false).
Lemma emptyb_good c n hs : good c n hs (fold_left (fun fl h => match h with Performed a => mark c fl a | _ => fl end) hs (repeat false n)).
Proof.
  induction hs as [|h hs IH] using rev_ind; [apply good_start|]. rewrite fold_left_app. cbn [fold_left].
  destruct h as [a|b]; [apply good_mark|apply good_skip]; exact IH.
Qed.
Lemma emptyb_spec c n hs i : (i < n)%nat -> emptyb c n hs i = false <-> touched c hs i.
Proof. intro I. unfold emptyb. rewrite negb_false_iff. apply emptyb_good. exact I. Qed.

(** Each event gives every output exactly one complete block: a start for each
    ensemble, the intermediate outputs, an end for each ensemble; the end says
    "empty" exactly if in that ensemble no projectile nucleon has interacted with a
    target nucleon. *)
Theorem event_block c outs n e hs fl tr : one_event c outs n e hs = (fl, tr) ->
  exists empty, (forall h i, (i < n)%nat -> empty h i = false <-> touched c h i)
    /\ (forall i, nth i fl false = true <-> (i < n)%nat /\ touched c hs i) /\ length fl = n
    /\ forall o, (o < length outs)%nat -> seen o tr =
         group n (Start e) (StartAll e) (fun _ => true)
         ++ (if special (nth o outs (Output false)) then []
             else flat_map (fun h => group n (Intermediate e) (IntermediateAll e) (empty h)) (output_moments [] hs))
         ++ group n (End e) (EndAll e) (empty hs).
Proof.
  intro EV. exists (emptyb c n). split; [intros; apply emptyb_spec; assumption|].
  unfold one_event in EV.
  assert (ST : forall todo done fl0 tr0, good c n done fl0 ->
    exists fl1 tr1, fold_left (step c outs e) todo (fl0, tr0) = (fl1, tr1)
      /\ good c n (done ++ todo) fl1
      /\ forall o, (o < length outs)%nat -> seen o tr1 = seen o tr0 ++
         (if special (nth o outs (Output false)) then []
          else flat_map (fun h => group n (Intermediate e) (IntermediateAll e) (emptyb c n h)) (output_moments done todo))).
  { induction todo as [|h todo IH]; intros dn fl0 tr0 G.
    - exists fl0, tr0. rewrite app_nil_r. splits; auto. intros o O. cbn. destruct (special _); rewrite app_nil_r; reflexivity.
    - cbn [fold_left].
      destruct h as [a|sk]; cbn [step].
      + destruct (IH (dn ++ [Performed a]) (mark c fl0 a) tr0 (good_mark _ _ _ _ _ G)) as (fl1 & tr1 & E1 & G1 & S1).
        exists fl1, tr1. rewrite <- app_assoc in G1. splits; auto.
      + destruct (IH (dn ++ [OutputTime sk]) fl0 (tr0 ++ intermediate outs sk e fl0) (good_skip _ _ _ _ _ G)) as (fl1 & tr1 & E1 & G1 & S1).
        exists fl1, tr1. rewrite <- app_assoc in G1. splits; auto.
        intros o O. rewrite (S1 o O), seen_app, <- app_assoc. f_equal. unfold intermediate. destruct sk.
        * reflexivity.
        * cbn [output_moments].
          assert (SE : seen o (flat_map (fun o0 => if special (nth o0 outs (Output false)) then []
               else map (pair o0) (per_ensemble (Intermediate e) fl0 ++ [IntermediateAll e])) (seq 0 (length outs)))
             = if special (nth o outs (Output false)) then [] else per_ensemble (Intermediate e) fl0 ++ [IntermediateAll e]).
          { rewrite <- (seen_outputs o (length outs) (fun o0 => if special (nth o0 outs (Output false)) then []
               else per_ensemble (Intermediate e) fl0 ++ [IntermediateAll e]) O).
            f_equal. apply flat_map_ext. intro p. destruct (special _); reflexivity. }
          rewrite SE. destruct (special _); [reflexivity|]. cbn [flat_map]. f_equal. unfold group. f_equal.
          apply per_ensemble_group with (c := c) (n := n); [intros; apply emptyb_spec; assumption|exact G]. }
  destruct (ST hs [] (repeat false n) (event_start outs e (repeat false n)) (good_start _ _)) as (fl1 & tr1 & E1 & G1 & S1).
  rewrite E1 in EV. injection EV as <- <-. cbn [app] in G1. splits.
  - intro i. destruct (lt_dec i n) as [L|L].
    + rewrite (proj2 G1) by exact L. tauto.
    + split; [|intros (A & _); contradiction]. rewrite nth_overflow by (rewrite (proj1 G1); lia). discriminate.
  - apply G1.
  - intros o O. rewrite seen_app, (S1 o O), <- app_assoc. unfold event_start, event_end.
    rewrite (seen_outputs o _ (fun _ => per_ensemble (Start e) (repeat false n) ++ [StartAll e]) O).
    rewrite (seen_outputs o _ (fun _ => per_ensemble (End e) fl1 ++ [EndAll e]) O).
    f_equal; [|f_equal].
    + unfold group, per_ensemble. rewrite repeat_length. f_equal. apply map_ext. intro i. rewrite nth_repeat. reflexivity.
    + unfold group. f_equal. apply per_ensemble_group with (c := c) (n := n); [intros; apply emptyb_spec; assumption|exact G1].
Qed.
Print Assumptions event_block.

Example block_applies : touched true [OutputTime false; Performed (1%nat, [Target; Projectile])] 1
  /\ output_moments [] [OutputTime false; Performed (1%nat, [Target; Projectile])] = [[]].
Proof. split; [|reflexivity]. split; [reflexivity|]. exists [Target; Projectile]. cbn. intuition. Qed.

(** * The number of events *)

(** The greatest number of events is the number of ensembles allowed, divided by the
    ensembles per event and rounded up: the floating-point division is exact
    enough. *)
Theorem max_events_exact max n : 0 < n <= INT_MAX -> INT_MIN <= max <= INT_MAX ->
  exists c, max_events_of max n = Ok c /\ (c - 1) * n < max <= c * n.
Proof.
  intros N M. unfold max_events_of. replace (n =? 0) with false by (symmetry; apply Z.eqb_neq; lia).
  unfold INT_MAX, INT_MIN in *.
  rewrite !fl_int by lia. unfold fdiv.
  set (c := - ((- max) / n)).
  assert (C : (c - 1) * n < max <= c * n).
  { unfold c. pose proof (Z.div_mod (- max) n ltac:(lia)). pose proof (Z.mod_pos_bound (- max) n ltac:(lia)). nia. }
  assert (NR : (0 < IZR n)%R) by (apply IZR_lt; lia).
  assert (CB : - 2147483648 <= c <= 2147483647) by nia.
  assert (ZC : Zceil (fl (IZR max / IZR n)) = c).
  { apply Zceil_imp.
    assert (U : (IZR max / IZR n <= IZR c)%R).
    { apply Rmult_le_reg_r with (IZR n); [exact NR|]. unfold Rdiv. rewrite Rmult_assoc, Rinv_l, Rmult_1_r by lra.
      rewrite <- mult_IZR. apply IZR_le. lia. }
    split.
    - (* below: the gap is at least 1/n *)
      assert (GAP : (IZR (c - 1) + / IZR n <= IZR max / IZR n)%R).
      { apply Rmult_le_reg_r with (IZR n); [exact NR|]. rewrite Rmult_plus_distr_r. unfold Rdiv. rewrite Rmult_assoc, Rinv_l, Rmult_1_r by lra.
        rewrite <- mult_IZR, <- plus_IZR. apply IZR_le. lia. }
      destruct (Z.eq_dec max 0) as [Z0|NZ].
      + rewrite Z0. unfold Rdiv. rewrite Rmult_0_l, fl_0. apply IZR_lt. nia.
      + assert (AB : (Rabs (IZR max / IZR n) = IZR (Z.abs max) / IZR n)%R).
        { unfold Rdiv. rewrite Rabs_mult, Rabs_inv, <- !abs_IZR. do 2 f_equal. f_equal. lia. }
        destruct (fl_rel (IZR max / IZR n)) as (e & HE & EQ).
        { rewrite AB. apply Rle_trans with (/ IZR n)%R.
          - apply Rinv_le_contravar; [exact NR|]. apply Rle_trans with (IZR (2 ^ 31)); [apply IZR_le; lia|].
            rewrite (pow_IZR 2). apply IZR_le. apply Z.pow_le_mono_r; lia.
          - unfold Rdiv. rewrite <- (Rmult_1_l (/ IZR n)) at 1. apply Rmult_le_compat_r.
            + left. apply Rinv_0_lt_compat. exact NR.
            + apply IZR_le. lia. }
        rewrite EQ.
        assert (ER : (Rabs (IZR max / IZR n * e) < / IZR n)%R).
        { rewrite Rabs_mult, AB. unfold u in HE.
          apply Rle_lt_trans with (IZR (2 ^ 31) / IZR n * / 2 ^ 53)%R.
          - apply Rmult_le_compat; [|apply Rabs_pos| |exact HE].
            + unfold Rdiv. apply Rmult_le_pos; [apply IZR_le; lia|left; apply Rinv_0_lt_compat; exact NR].
            + unfold Rdiv. apply Rmult_le_compat_r; [left; apply Rinv_0_lt_compat; exact NR|]. apply IZR_le. lia.
          - unfold Rdiv. rewrite (Rmult_comm (IZR (2 ^ 31))), Rmult_assoc. rewrite <- (Rmult_1_r (/ IZR n)) at 2.
            apply Rmult_lt_compat_l; [apply Rinv_0_lt_compat; exact NR|].
            rewrite (pow_IZR 2). apply Rmult_lt_reg_r with (IZR (2 ^ Z.of_nat 53)); [apply IZR_lt; reflexivity|].
            rewrite Rmult_assoc, Rinv_l, Rmult_1_r, Rmult_1_l by (apply IZR_neq; discriminate). apply IZR_lt. reflexivity. }
        apply Rabs_def2 in ER. replace (IZR max / IZR n * (1 + e))%R with (IZR max / IZR n + IZR max / IZR n * e)%R by ring. lra.
    - rewrite <- (fl_id (IZR c)) by (apply int_double; lia). apply fl_mono. exact U. }
  rewrite ZC. unfold in_i32, INT_MIN, INT_MAX.
  replace ((- 2 ^ 31 <=? c) && (c <=? 2 ^ 31 - 1)) with true by (symmetry; apply andb_true_iff; rewrite !Z.leb_le; lia).
  exists c. split; [reflexivity|exact C].
Qed.
Print Assumptions max_events_exact.

Example max_events_applies : 0 < 20 <= INT_MAX /\ INT_MIN <= 50 <= INT_MAX.
Proof. unfold INT_MAX, INT_MIN. lia. Qed.

(** Exactly one way of counting must be configured. *)
Theorem counting_configured nevents min_nonempty n : 0 < n <= INT_MAX ->
  (forall number max, min_nonempty = Some (number, max) -> INT_MIN <= max <= INT_MAX) ->
  (exists c, choose_counting nevents min_nonempty n = Ok c) <-> (nevents = None <-> min_nonempty <> None).
Proof.
  intros N M. unfold choose_counting. destruct nevents as [k|], min_nonempty as [(number & max)|].
  - split; [intros (c & E); discriminate|]. intro H. destruct H as (_ & H). discriminate (H ltac:(discriminate)).
  - split; [|intros _; eexists; reflexivity]. intros _. split; [discriminate|intro H; congruence].
  - split; [intros _; split; [discriminate|reflexivity]|]. intros _.
    destruct (max_events_exact max n N (M _ _ eq_refl)) as (c & -> & _). eexists. reflexivity.
  - split; [intros (c & E); discriminate|]. intros (H & _). exfalso. exact (H eq_refl eq_refl).
Qed.
Print Assumptions counting_configured.

(** number of non-empty ensembles *)
Definition nonempty_in (fl : list bool) : Z := Z.of_nat (count_occ Bool.bool_dec fl true).
Lemma count_nonempty_spec fl k : count_nonempty fl k = k + nonempty_in fl.
Proof.
  unfold count_nonempty, nonempty_in. revert k. induction fl as [|b fl IH]; intro k; cbn [fold_left].
  - cbn. lia.
  - destruct b; rewrite IH; cbn [count_occ].
    + destruct (Bool.bool_dec true true); [|congruence]. lia.
    + destruct (Bool.bool_dec false true); [discriminate|]. lia.
Qed.

(** flags and calls of event [j] of a run whose events have the seeds [ss] *)
Definition event_of c outs n (events : Z -> list happening) (ss : list Z) (j : nat) :=
  one_event c outs n (Z.of_nat j) (events (nth j ss 0)).
Definition nonempty_before c outs n events ss (k : nat) : Z :=
  fold_right Z.add 0 (map (fun j => nonempty_in (fst (event_of c outs n events ss j))) (seq 0 k)).

Lemma nonempty_before_S c outs n events ss k :
  nonempty_before c outs n events ss (S k) = nonempty_before c outs n events ss k + nonempty_in (fst (event_of c outs n events ss k)).
Proof.
  unfold nonempty_before. rewrite seq_S, map_app, fold_right_app. cbn [map fold_right plus].
  generalize (map (fun j => nonempty_in (fst (event_of c outs n events ss j))) (seq 0 k)).
  intro l. rewrite Z.add_0_r. generalize (nonempty_in (fst (event_of c outs n events ss k))). intro d.
  induction l; cbn [fold_right]; lia.
Qed.

Definition goes_on (co : counting) (event nonempty : Z) : Prop :=
  match co with FixedNumber m => event < m | MinimumNonEmpty number max => nonempty < number /\ event < max end.

Lemma is_finished_spec co n e k b : is_finished co n e k = Ok b -> (b = false <-> goes_on co e k).
Proof.
  destruct co as [m|number max]; cbn.
  - intro H. injection H as <-. rewrite Z.leb_gt. tauto.
  - destruct (number <=? k) eqn:A.
    + intro H. injection H as <-. apply Z.leb_le in A. split; [discriminate|lia].
    + destruct (max <=? e) eqn:B.
      * unfold sint. destruct (in_i32 _); cbn; intro H; [|discriminate]. injection H as <-. apply Z.leb_le in B. split; [discriminate|lia].
      * intro H. injection H as <-. apply Z.leb_gt in A, B. split; [intros _; lia|reflexivity].
Qed.

Lemma event_of_app c outs n events ss s j : (j < length ss)%nat -> event_of c outs n events (ss ++ [s]) j = event_of c outs n events ss j.
Proof. intro L. unfold event_of. rewrite app_nth1 by exact L. reflexivity. Qed.

Lemma run_loop_spec fuel co c outs n next events seed0 : forall ss seed tr N k t,
  (forall j, (j < length ss)%nat -> seed_of next seed0 j (nth j ss 0)) -> seed_of next seed0 (length ss) seed ->
  tr = flat_map (fun j => snd (event_of c outs n events ss j)) (seq 0 (length ss)) ->
  (forall j, (j < length ss)%nat -> goes_on co (Z.of_nat j) (nonempty_before c outs n events ss j)) ->
  run_loop fuel co c outs n next events (Z.of_nat (length ss)) (nonempty_before c outs n events ss (length ss)) seed tr = Ok (N, k, t) ->
  exists ss', N = Z.of_nat (length ss')
    /\ (forall j, (j < length ss')%nat -> seed_of next seed0 j (nth j ss' 0))
    /\ t = flat_map (fun j => snd (event_of c outs n events ss' j)) (seq 0 (length ss'))
    /\ k = nonempty_before c outs n events ss' (length ss')
    /\ (forall j, (j < length ss')%nat -> goes_on co (Z.of_nat j) (nonempty_before c outs n events ss' j))
    /\ ~ goes_on co N k.
Proof.
  induction fuel as [|fuel IH]; intros ss seed tr N k t SS SL TR GO RUN; [discriminate|].
  cbn [run_loop] in RUN.
  destruct (is_finished co (Z.of_nat n) _ _) as [fin| |] eqn:F; cbn [rbind] in RUN; try discriminate.
  pose proof (is_finished_spec _ _ _ _ _ F) as FS. destruct fin.
  - injection RUN as <- <- <-. exists ss. splits; auto. rewrite <- FS. discriminate.
  - destruct (next seed) as [seed'| |] eqn:NX; cbn [rbind] in RUN; try discriminate.
    destruct (one_event c outs n (Z.of_nat (length ss)) (events seed)) as (fl & t1) eqn:OE.
    destruct (sint (Z.of_nat (length ss) + 1)) as [e'| |] eqn:SI; cbn [rbind] in RUN; try discriminate.
    assert (E' : e' = Z.of_nat (length (ss ++ [seed]))).
    { unfold sint in SI. destruct (in_i32 _); [|discriminate]. injection SI as <-. rewrite app_length. cbn. lia. }
    assert (EV : event_of c outs n events (ss ++ [seed]) (length ss) = (fl, t1)).
    { unfold event_of. rewrite app_nth2 by lia. rewrite Nat.sub_diag. exact OE. }
    assert (NB : forall j, (j <= length ss)%nat -> nonempty_before c outs n events (ss ++ [seed]) j = nonempty_before c outs n events ss j).
    { intros j J. unfold nonempty_before. f_equal. apply map_ext_in. intros i I. apply in_seq in I.
      rewrite event_of_app by lia. reflexivity. }
    assert (LEN : length (ss ++ [seed]) = S (length ss)) by (rewrite app_length; cbn; lia).
    rewrite count_nonempty_spec in RUN.
    eapply (IH (ss ++ [seed]) seed').
    + intros j J. rewrite LEN in J. destruct (Nat.eq_dec j (length ss)) as [->|NE].
      * rewrite app_nth2 by lia. rewrite Nat.sub_diag. exact SL.
      * rewrite app_nth1 by lia. apply SS. lia.
    + rewrite LEN. econstructor; [exact SL|exact NX].
    + reflexivity.
    + intros j J. rewrite LEN in J. rewrite NB by lia. destruct (Nat.eq_dec j (length ss)) as [->|NE].
      * apply FS. reflexivity.
      * apply GO. lia.
    + rewrite <- E'. rewrite LEN, nonempty_before_S, NB, EV by lia. cbn [fst].
      rewrite seq_S, flat_map_app. cbn [flat_map plus]. rewrite app_nil_r, EV. cbn [snd].
      rewrite <- RUN. f_equal. rewrite TR. f_equal.
      rewrite !flat_map_concat_map. f_equal. apply map_ext_in. intros i I. apply in_seq in I. rewrite event_of_app by lia. reflexivity.
Qed.

(** A run consists of whole events 0, 1, 2, ..., each with the seed the previous one
    left, and stops at the first moment the condition asked for holds: the number
    of events, or enough non-empty ensembles or the greatest number of events. *)
Theorem run_blocks fuel co c outs n next events seed N k t :
  run fuel co c outs n next events seed = Ok (N, k, t) ->
  exists ss, N = Z.of_nat (length ss)
    /\ (forall j, (j < length ss)%nat -> seed_of next seed j (nth j ss 0))
    /\ t = flat_map (fun j => snd (event_of c outs n events ss j)) (seq 0 (length ss))
    /\ k = nonempty_before c outs n events ss (length ss)
    /\ match co with
       | FixedNumber m => N = Z.max 0 m
       | MinimumNonEmpty number max =>
           (number <= k \/ N = Z.max 0 max) /\ N <= Z.max 0 max
           /\ forall j, (j < length ss)%nat -> nonempty_before c outs n events ss j < number
       end.
Proof.
  intro RUN. unfold run in RUN.
  destruct (run_loop_spec fuel co c outs n next events seed [] seed [] N k t) as (ss & E1 & E2 & E3 & E4 & E5 & E6).
  - cbn. intros; lia.
  - constructor.
  - reflexivity.
  - cbn. intros; lia.
  - exact RUN.
  - exists ss. splits; auto. destruct co as [m|number max]; cbn [goes_on] in *.
    + destruct (Nat.eq_dec (length ss) 0) as [Z0|NZ]; [lia|]. pose proof (E5 (length ss - 1)%nat ltac:(lia)). lia.
    + assert (N <= Z.max 0 max).
      { destruct (Nat.eq_dec (length ss) 0) as [Z0|NZ]; [lia|]. pose proof (E5 (length ss - 1)%nat ltac:(lia)). lia. }
      splits; [lia|assumption|]. intros j J. apply E5. exact J.
Qed.
Print Assumptions run_blocks.

(** With seeds that can always be continued and numbers that are not close to the
    end of the int range, a run ends. *)
Theorem run_completes co c outs n next events seed : (0 < n)%nat -> (forall s, exists s', next s = Ok s') ->
  match co with
  | FixedNumber m => m <= INT_MAX
  | MinimumNonEmpty _ max => Z.max 0 max * Z.of_nat n <= INT_MAX
  end ->
  exists fuel N k t, run fuel co c outs n next events seed = Ok (N, k, t).
Proof.
  intros NP NX B.
  set (top := match co with FixedNumber m => Z.max 0 m | MinimumNonEmpty _ max => Z.max 0 max end).
  assert (GEN : forall d e k s tr, 0 <= e <= top -> top - e <= Z.of_nat d ->
    exists N k' t, run_loop (S d) co c outs n next events e k s tr = Ok (N, k', t)).
  { assert (TB : top <= INT_MAX) by (unfold top; destruct co; unfold INT_MAX in *; nia).
    induction d as [|d IH]; intros e k s tr E D.
    - assert (e = top) by lia. subst e. cbn [run_loop].
      assert (is_finished co (Z.of_nat n) top k = Ok true) as ->.
      { unfold top in *. destruct co as [m|number max]; cbn.
        - do 2 f_equal. apply Z.leb_le. lia.
        - destruct (number <=? k); [reflexivity|].
          replace (max <=? Z.max 0 max) with true by (symmetry; apply Z.leb_le; lia).
          unfold sint, in_i32. unfold INT_MAX, INT_MIN in *.
          replace ((- 2 ^ 31 <=? Z.max 0 max * Z.of_nat n) && (Z.max 0 max * Z.of_nat n <=? 2 ^ 31 - 1)) with true; [reflexivity|].
          symmetry. apply andb_true_iff. rewrite !Z.leb_le. nia. }
      cbn [rbind]. eauto.
    - cbn [run_loop].
      destruct (is_finished co (Z.of_nat n) e k) as [fin|ex|u0] eqn:F.
      + cbn [rbind]. destruct fin; [eauto|].
        destruct (NX s) as (s' & ->). cbn [rbind]. destruct (one_event c outs n e (events s)) as (fl & t1).
        assert (e < top).
        { pose proof (proj1 (is_finished_spec _ _ _ _ _ F) eq_refl) as G. unfold top. destruct co; cbn in G; lia. }
        unfold sint, in_i32. unfold INT_MAX, INT_MIN in *.
        replace ((- 2 ^ 31 <=? e + 1) && (e + 1 <=? 2 ^ 31 - 1)) with true by (symmetry; apply andb_true_iff; rewrite !Z.leb_le; lia).
        cbn [rbind]. apply IH; lia.
      + exfalso. destruct co as [m|number max]; cbn in F; [discriminate|]. destruct (number <=? k); [discriminate|].
        destruct (max <=? e); [|discriminate]. unfold sint in F. destruct (in_i32 _); discriminate.
      + exfalso. destruct co as [m|number max]; cbn in F; [discriminate|]. destruct (number <=? k); [discriminate|].
        destruct (max <=? e) eqn:ME; [|discriminate]. unfold sint, in_i32 in F.
        assert ((INT_MIN <=? e * Z.of_nat n) && (e * Z.of_nat n <=? INT_MAX) = true) as X; [|rewrite X in F; discriminate].
        apply andb_true_iff. rewrite !Z.leb_le. unfold top, INT_MAX, INT_MIN in *. nia. }
  exists (S (Z.to_nat top)). unfold run. apply GEN; unfold top; destruct co; lia.
Qed.
Print Assumptions run_completes.

Example run_completes_applies : exists fuel N k t,
  run fuel (MinimumNonEmpty 5 3) true [Output false; Output true] 20 (fun s => Ok (s + 1)) (fun _ => []) 7 = Ok (N, k, t).
Proof. apply run_completes; [lia|intro; eauto|unfold INT_MAX; cbn; lia]. Qed.

(** * Seeds *)

Lemma first_not_min_range fuel stream : forall j r, first_not_min fuel stream j = Ok r -> - 2 ^ 63 < r < 2 ^ 63.
Proof.
  induction fuel; intros j r H; [discriminate|]. cbn [first_not_min] in H.
  destruct (to_signed 64 (stream j) =? int64_min) eqn:E; [eauto|]. apply Z.eqb_neq in E.
  assert (to_signed 64 (stream j) = r) by congruence. subst r. clear H. unfold int64_min in E.
  unfold to_signed, wrap in *. pose proof (Z.mod_pos_bound (stream j) (2 ^ 64) ltac:(reflexivity)) as B.
  change (2 ^ 64) with 18446744073709551616 in *. change (2 ^ (64 - 1)) with 9223372036854775808 in *.
  change (2 ^ 63) with 9223372036854775808 in *.
  destruct (_ <? _) eqn:Q; [apply Z.ltb_lt in Q|apply Z.ltb_ge in Q]; lia.
Qed.

(** Every seed that is used or printed is a non-negative 63-bit number, so it can be
    entered as Randomseed; taking the absolute value never overflows. *)
Theorem seeds_enterable fuel engine hi lo configured j s :
  0 <= hi < 2 ^ 32 -> 0 <= lo < 2 ^ 32 -> configured < 2 ^ 63 ->
  seed_of (next_seed fuel engine) (start_seed configured hi lo) j s ->
  0 <= s < 2 ^ 63 /\ next_seed fuel engine s <> UB UB_signed_overflow.
Proof.
  intros HI LO CF SO. split.
  - destruct SO as [|j s s' _ NX].
    + unfold start_seed. destruct (configured <? 0) eqn:E; [|apply Z.ltb_ge in E; lia].
      unfold seed_63. rewrite Z.shiftr_div_pow2 by lia. change (2 ^ 1) with 2.
      assert (0 <= Z.lor (u64 (Z.shiftl hi 32)) lo < 2 ^ 64).
      { assert (A : 0 <= u64 (Z.shiftl hi 32) < 2 ^ 64) by (apply Z.mod_pos_bound; reflexivity).
        split; [apply Z.lor_nonneg; lia|].
        destruct (Z.eq_dec (Z.lor (u64 (Z.shiftl hi 32)) lo) 0) as [->|NZ]; [reflexivity|].
        apply Z.log2_lt_pow2.
        - assert (0 <= Z.lor (u64 (Z.shiftl hi 32)) lo) by (apply Z.lor_nonneg; lia). lia.
        - rewrite Z.log2_lor by lia. apply Z.max_lub_lt.
          + destruct (Z.eq_dec (u64 (Z.shiftl hi 32)) 0) as [->|]; [reflexivity|]. apply Z.log2_lt_pow2; lia.
          + destruct (Z.eq_dec lo 0) as [->|]; [reflexivity|]. apply Z.log2_lt_pow2; [lia|].
            change (2 ^ 64) with (2 ^ 32 * 2 ^ 32). lia. }
      revert H. generalize (Z.lor (u64 (Z.shiftl hi 32)) lo). intros z H. change (2 ^ 64) with (2 * 2 ^ 63) in H.
      split; [apply Z.div_pos; lia|apply Z.div_lt_upper_bound; lia].
    + unfold next_seed in NX. destruct (first_not_min fuel (engine s) 0) as [r| |] eqn:F; cbn [rbind] in NX; try discriminate.
      apply first_not_min_range in F. unfold sint64 in NX. destruct (in_i64 _); [|discriminate].
      assert (Z.abs r = s') by congruence. lia.
  - unfold next_seed. destruct (first_not_min fuel (engine s) 0) as [r|ex|ub] eqn:F; cbn [rbind].
    + apply first_not_min_range in F. unfold sint64, in_i64.
      match goal with |- (if ?b then _ else _) <> _ => assert (b = true) as -> end; [|discriminate].
      apply andb_true_iff. rewrite !Z.leb_le. unfold INT64_MIN, INT64_MAX. lia.
    + discriminate.
    + clear -F. generalize dependent 0%nat. induction fuel; intros j F; cbn [first_not_min] in F; [congruence|].
      destruct (_ =? _); [eauto|discriminate].
Qed.
Print Assumptions seeds_enterable.

Example seeds_apply : start_seed (-1) 4294967295 4294967295 = 2 ^ 63 - 1
  /\ seed_of (next_seed 2 (fun s j => s * 7 + Z.of_nat j + 2 ^ 63)) 0 1 (2 ^ 63 - 1).
Proof. split; [reflexivity|]. eapply seed_next; [constructor|reflexivity]. Qed.

(** Every 63-bit number can be the random start seed. *)
Theorem every_seed_possible s : 0 <= s < 2 ^ 63 ->
  exists hi lo, 0 <= hi < 2 ^ 32 /\ 0 <= lo < 2 ^ 32 /\ start_seed (-1) hi lo = s.
Proof.
  intro H. exists (2 * s / 2 ^ 32), (2 * s mod 2 ^ 32).
  assert (A : 0 <= 2 * s < 2 ^ 64) by (change (2 ^ 64) with (2 * 2 ^ 63); lia).
  assert (B : 0 <= 2 * s / 2 ^ 32 < 2 ^ 32).
  { split; [apply Z.div_pos; lia|]. apply Z.div_lt_upper_bound; [lia|]. change (2 ^ 32 * 2 ^ 32) with (2 ^ 64). lia. }
  splits; try lia; try apply Z.mod_pos_bound; try lia.
  unfold start_seed. cbn [Z.ltb Z.compare]. unfold seed_63, u64, wrap.
  rewrite Z.shiftl_mul_pow2 by lia. rewrite (Z.mod_small (2 * s / 2 ^ 32 * 2 ^ 32)).
  - replace (Z.lor (2 * s / 2 ^ 32 * 2 ^ 32) (2 * s mod 2 ^ 32)) with (2 * s).
    + rewrite Z.shiftr_div_pow2 by lia. change (2 ^ 1) with 2. rewrite Z.mul_comm. apply Z.div_mul. lia.
    + rewrite <- Z.shiftl_mul_pow2, <- Z.shiftr_div_pow2, <- Z.land_ones by lia.
      rewrite Z.lor_comm, <- Z.ldiff_ones_r by lia. rewrite Z.lor_comm. symmetry. apply Z.bits_inj'. intros k K.
      rewrite Z.lor_spec, Z.ldiff_spec, Z.land_spec. destruct (Z.testbit (2 * s) k), (Z.testbit (Z.ones 32) k); reflexivity.
  - change (2 ^ 64) with (2 ^ 32 * 2 ^ 32). nia.
Qed.
Print Assumptions every_seed_possible.

Definition shift_call (d : Z) (x : nat * call) : nat * call :=
  (fst x, match snd x with
          | Start e i b => Start (e + d) i b | StartAll e => StartAll (e + d)
          | Intermediate e i b => Intermediate (e + d) i b | IntermediateAll e => IntermediateAll (e + d)
          | End e i b => End (e + d) i b | EndAll e => EndAll (e + d) end).

Lemma one_event_shift c outs n e d hs :
  one_event c outs n (e + d) hs = (fst (one_event c outs n e hs), map (shift_call d) (snd (one_event c outs n e hs))).
Proof.
  assert (PE : forall (k k' : nat -> bool -> call) fl o, (forall i b, (o, k' i b) = shift_call d (o, k i b)) ->
     map (pair o) (per_ensemble k' fl) = map (shift_call d) (map (pair o) (per_ensemble k fl))).
  { intros k k' fl o H. unfold per_ensemble. rewrite !map_map. apply map_ext. intro i. apply H. }
  assert (S0 : forall fl, event_start outs (e + d) fl = map (shift_call d) (event_start outs e fl)).
  { intro fl. unfold event_start. induction (seq 0 (length outs)) as [|o l IH]; [reflexivity|]. cbn [flat_map].
    rewrite IH, (map_app (shift_call d)). f_equal. rewrite !map_app. f_equal. apply PE. reflexivity. }
  assert (E0 : forall fl, event_end outs (e + d) fl = map (shift_call d) (event_end outs e fl)).
  { intro fl. unfold event_end. induction (seq 0 (length outs)) as [|o l IH]; [reflexivity|]. cbn [flat_map].
    rewrite IH, (map_app (shift_call d)). f_equal. rewrite !map_app. f_equal. apply PE. reflexivity. }
  assert (I0 : forall sk fl, intermediate outs sk (e + d) fl = map (shift_call d) (intermediate outs sk e fl)).
  { intros sk fl. unfold intermediate. destruct sk; [reflexivity|].
    induction (seq 0 (length outs)) as [|o l IH]; [reflexivity|]. cbn [flat_map].
    rewrite IH, (map_app (shift_call d)). f_equal. destruct (special _); [reflexivity|]. rewrite !map_app. f_equal. apply PE. reflexivity. }
  unfold one_event. rewrite S0.
  assert (F : forall hs fl tr, fold_left (step c outs (e + d)) hs (fl, map (shift_call d) tr)
     = (fst (fold_left (step c outs e) hs (fl, tr)), map (shift_call d) (snd (fold_left (step c outs e) hs (fl, tr))))).
  { clear hs. induction hs as [|h hs IH]; intros fl tr; [reflexivity|]. cbn [fold_left]. destruct h as [a|sk]; cbn [step].
    - apply IH.
    - rewrite I0, <- map_app. apply IH. }
  rewrite F. destruct (fold_left (step c outs e) hs _) as (fl & tr). cbn [fst snd]. rewrite E0, <- map_app. reflexivity.
Qed.

(** A run of one event with the seed printed for event [j] shows exactly the block
    of event [j], but for the event number. *)
Theorem event_reproduced fuel co c outs n next events seed N k t j s :
  run fuel co c outs n next events seed = Ok (N, k, t) -> Z.of_nat j < N -> seed_of next seed j s ->
  (exists s', next s = Ok s') ->
  exists before block after k1, t = before ++ block ++ after
    /\ run 2 (FixedNumber 1) c outs n next events s = Ok (1, k1, map (shift_call (- Z.of_nat j)) block)
    /\ (forall o x, In (o, x) block ->
          match x with Start e _ _ | StartAll e | Intermediate e _ _ | IntermediateAll e | End e _ _ | EndAll e => e = Z.of_nat j end).
Proof.
  intros RUN J SO (s' & NX). destruct (run_blocks _ _ _ _ _ _ _ _ _ _ _ RUN) as (ss & -> & SS & -> & _).
  assert (DET : forall j s1 s2, seed_of next seed j s1 -> seed_of next seed j s2 -> s1 = s2).
  { clear. induction j; intros s1 s2 A B; inversion A; inversion B; subst; auto.
    assert (s = s0) by (eapply IHj; eassumption). subst. congruence. }
  assert (LT : (j < length ss)%nat) by lia.
  assert (NTH : nth j ss 0 = s) by (eapply DET; [apply SS; exact LT|exact SO]).
  exists (flat_map (fun j => snd (event_of c outs n events ss j)) (seq 0 j)), (snd (event_of c outs n events ss j)),
    (flat_map (fun j => snd (event_of c outs n events ss j)) (seq (S j) (length ss - S j))).
  assert (SH : event_of c outs n events ss j = (fst (one_event c outs n 0 (events s)), map (shift_call (Z.of_nat j)) (snd (one_event c outs n 0 (events s))))).
  { unfold event_of. rewrite NTH, <- one_event_shift. f_equal. }
  exists (nonempty_in (fst (one_event c outs n 0 (events s)))).
  splits.
  - replace (length ss) with (j + S (length ss - S j))%nat at 1 by lia. rewrite seq_app, flat_map_app. reflexivity.
  - unfold run. cbn [run_loop is_finished Z.leb Z.compare rbind]. rewrite NX. cbn [rbind].
    rewrite SH. cbn [snd]. rewrite map_map.
    destruct (one_event c outs n 0 (events s)) as (fl & tr). cbn [fst snd].
    change (sint (0 + 1)) with (Ok 1). cbn [rbind]. rewrite count_nonempty_spec. change (1 <=? 1) with true. cbn [app Z.add]. cbv iota. do 2 f_equal.
    rewrite <- (map_id tr) at 1. apply map_ext. intros (o & x). unfold shift_call. cbn [fst snd]. f_equal.
    destruct x; f_equal; lia.
  - intros o x I. rewrite SH in I. cbn [snd] in I. apply in_map_iff in I. destruct I as ((o' & y) & E & I).
    unfold shift_call in E. cbn [fst snd] in E. injection E as -> <-.
    assert (Z0 : match y with Start e _ _ | StartAll e | Intermediate e _ _ | IntermediateAll e | End e _ _ | EndAll e => e = 0 end).
    { destruct (one_event c outs n 0 (events s)) as (fl & tr) eqn:OE. cbn [snd] in I.
      assert (PE : forall k fl l, (forall i b, match k i b with Start e _ _ | StartAll e | Intermediate e _ _ | IntermediateAll e | End e _ _ | EndAll e => e = 0 end) ->
         forall y, In y (per_ensemble k fl ++ [l]) -> y = l \/ match y with Start e _ _ | StartAll e | Intermediate e _ _ | IntermediateAll e | End e _ _ | EndAll e => e = 0 end).
      { intros k0 fl0 l H y0 I0. apply in_app_or in I0. destruct I0 as [I0|[<-|[]]]; [right|left; reflexivity].
        apply in_map_iff in I0. destruct I0 as (i & <- & _). apply H. }
      assert (OK : forall x0, In x0 tr -> match snd x0 with Start e _ _ | StartAll e | Intermediate e _ _ | IntermediateAll e | End e _ _ | EndAll e => e = 0 end); [|exact (OK _ I)].
      unfold one_event in OE.
      assert (ST : forall x0, In x0 (event_start outs 0 (repeat false n)) -> match snd x0 with Start e _ _ | StartAll e | Intermediate e _ _ | IntermediateAll e | End e _ _ | EndAll e => e = 0 end).
      { intros x0 X. apply in_flat_map in X. destruct X as (p & _ & X). apply in_map_iff in X. destruct X as (z & <- & X). cbn [snd].
        apply PE in X; [|reflexivity]. destruct X as [->|X]; [reflexivity|exact X]. }
      revert OE ST. generalize (event_start outs 0 (repeat false n)) as tr0. generalize (repeat false n) as fl0.
      generalize (events s) as hs. induction hs as [|h hs IH]; intros fl0 tr0 OE ST; cbn [fold_left] in OE.
      - injection OE as <- <-. intros x0 X. apply in_app_or in X. destruct X as [X|X]; [exact (ST _ X)|].
        apply in_flat_map in X. destruct X as (p & _ & X). apply in_map_iff in X. destruct X as (z & <- & X). cbn [snd].
        apply PE in X; [|reflexivity]. destruct X as [->|X]; [reflexivity|exact X].
      - destruct h as [a|sk]; cbn [step] in OE; [exact (IH _ _ OE ST)|]. apply (IH _ _ OE).
        intros x0 X. apply in_app_or in X. destruct X as [X|X]; [exact (ST _ X)|]. unfold intermediate in X. destruct sk; [contradiction|].
        apply in_flat_map in X. destruct X as (p & _ & X). destruct (special _); [contradiction|].
        apply in_map_iff in X. destruct X as (z & <- & X). cbn [snd].
        apply PE in X; [|reflexivity]. destruct X as [->|X]; [reflexivity|exact X]. }
    destruct y; lia.
Qed.
Print Assumptions event_reproduced.

Example reproduced_applies : exists k t,
  run 4 (FixedNumber 3) true [Output false] 1 (fun s => Ok (s + 1)) (fun s => if s =? 8 then [Performed (0%nat, [Projectile; Target])] else []) 7 = Ok (3, k, t)
  /\ seed_of (fun s => Ok (s + 1)) 7 1 8 /\ k = 1.
Proof. do 2 eexists. splits; [reflexivity|eapply seed_next; [constructor|reflexivity]|reflexivity]. Qed.

(** * What does not hold *)

(** "Maximum number of ensembles run" can be exceeded: whole events are run. *)
Theorem maximum_exceeded_refuted : exists fuel k t,
  choose_counting None (Some (1, 50)) 20 = Ok (MinimumNonEmpty 1 3)
  /\ run fuel (MinimumNonEmpty 1 3) true [] 20 (fun s => Ok s) (fun _ => []) 0 = Ok (3, k, t)
  /\ 3 * 20 > 50.
Proof.
  destruct (max_events_exact 50 20 ltac:(unfold INT_MAX; lia) ltac:(unfold INT_MAX, INT_MIN; lia)) as (c & E & H).
  assert (c = 3) by nia. subst c.
  exists 4%nat. do 2 eexists. splits; [unfold choose_counting; rewrite E; reflexivity|vm_compute; reflexivity|lia].
Qed.
Print Assumptions maximum_exceeded_refuted.

(** Without a collider every ensemble counts as empty, whatever happens in it. *)
Theorem no_collider_all_empty_refuted fuel number max outs n next events seed N k t :
  0 < number -> run fuel (MinimumNonEmpty number max) false outs n next events seed = Ok (N, k, t) ->
  N = Z.max 0 max /\ k = 0.
Proof.
  intros NP RUN. destruct (run_blocks _ _ _ _ _ _ _ _ _ _ _ RUN) as (ss & _ & _ & _ & K & H & _).
  assert (k = 0); [|split; [destruct H as [H|H]; [lia|exact H]|assumption]].
  rewrite K. unfold nonempty_before. generalize (length ss). intro m.
  assert (Z0 : forall j, nonempty_in (fst (event_of false outs n events ss j)) = 0).
  { intro j. destruct (event_of false outs n events ss j) as (fl & tr) eqn:E. cbn [fst].
    destruct (event_block _ _ _ _ _ _ _ E) as (em & _ & F & _). unfold nonempty_in.
    rewrite (proj1 (count_occ_not_In Bool.bool_dec fl true)); [reflexivity|]. intro I.
    apply In_nth with (d := false) in I. destruct I as (i & _ & I). apply F in I. destruct I as (_ & C & _). discriminate. }
  induction m; [reflexivity|]. rewrite seq_S, map_app, fold_right_app. cbn [map fold_right]. rewrite Z0. exact IHm.
Qed.
Print Assumptions no_collider_all_empty_refuted.

(** Close to the end of the int range the final warning multiplies two ints that do
    not fit. *)
Theorem warning_overflow_refuted :
  choose_counting None (Some (1, INT_MAX)) 20 = Ok (MinimumNonEmpty 1 107374183)
  /\ is_finished (MinimumNonEmpty 1 107374183) 20 107374183 0 = UB UB_signed_overflow.
Proof.
  destruct (max_events_exact INT_MAX 20 ltac:(unfold INT_MAX; lia) ltac:(unfold INT_MAX, INT_MIN; lia)) as (c & E & H).
  assert (c = 107374183) by (unfold INT_MAX in H; lia). subst c.
  split; [unfold choose_counting; rewrite E; reflexivity|reflexivity].
Qed.
Print Assumptions warning_overflow_refuted.
