(** C98 (decay law), C99 (choice of the channel), C100 (decays at the end of the event).
    Exact real arithmetic, no potentials. *)
From Coq Require Import ZArith Reals List Bool Lia Lra Psatz.
From Verif Require Import Base VecModel VecProps KinProps MotionModel WidthModel WidthProps DecayFindModel FinalProps.
Import ListNotations.
Open Scope R_scope.

(** ** C98 *)
(** The width of a particle for its current mass: sum over its hadronic modes. *)
Definition rsum (l : list R) : R := fold_right Rplus 0 l.
Definition mass4 (p : vec4) : R := sqrt (minkowski p p).
Definition hadronic_width (t : ptype) (p : vec4) : R :=
  rsum (map (partial_width t (mass4 p)) (filter (fun d => negb (dilepton d)) (tmodes t))).
Definition nonneg_widths (t : ptype) (p : vec4) : Prop := forall d, In d (tmodes t) -> 0 <= partial_width t (mass4 p) d.
(** Mean lifetime in the frame of the calculation: hbar / width, dilated by E / m, times the configured factor. *)
Definition mean_life (f : dfinder) (t : ptype) (p : vec4) : R := life f * (hbarc / hadronic_width t p) * (y0 p / mass4 p).
(** The time from which a particle can decay: its formation, or now if it is formed. *)
Definition decays_from (p : particle) : R := if rltb (scaling p) 1 then Rmax (form_time p) (y0 (pos p)) else y0 (pos p).
(** It may decay at all. *)
Definition may_decay (f : dfinder) (t : ptype) (p : particle) : Prop :=
  width_cutoff <= twidth t /\ (decay_initial f = true \/ ncoll p <> 0%Z) /\ 0 < hadronic_width t (mom p).
Definition massive (p : particle) : Prop := 0 < y0 (mom p) /\ 0 < minkowski (mom p) (mom p).

Lemma mass4_eq p : sqrt (sqr4 p) = mass4 p.
Proof. unfold mass4, minkowski, sqr4. f_equal; ring. Qed.
Lemma fold_plus (l : list (mode * R)) : forall a, fold_left (fun s d => s + snd d) l a = a + rsum (map snd l).
Proof. induction l as [|d l IH]; intros a; cbn [fold_left map rsum fold_right]; [ring|]. rewrite IH. unfold rsum. ring. Qed.
Lemma total_eq t p wh : nonneg_widths t p ->
  total_weight (get_partial_widths t p wh) = rsum (map (partial_width t (mass4 p)) (filter (wanted wh) (tmodes t))).
Proof.
  intros NN. unfold total_weight. rewrite fold_plus, Rplus_0_l. unfold get_partial_widths. cbv zeta. rewrite mass4_eq, map_map. cbn [snd].
  unfold nonneg_widths in NN. induction (tmodes t) as [|d l IH]; [reflexivity|]. cbn [filter].
  assert (IH' : rsum (map (fun x => partial_width t (mass4 p) x) (filter (fun d => rltb 0 (partial_width t (mass4 p) d) && wanted wh d) l)) =
    rsum (map (partial_width t (mass4 p)) (filter (wanted wh) l))) by (apply IH; intros; apply NN; now right).
  destruct (wanted wh d); [rewrite andb_true_r|rewrite andb_false_r; auto].
  destruct (rltb 0 (partial_width t (mass4 p) d)) eqn:E; cbn [map rsum fold_right]; fold (rsum (map (partial_width t (mass4 p)) (filter (wanted wh) l))).
  - fold (rsum (map (fun x => partial_width t (mass4 p) x) (filter (fun d => rltb 0 (partial_width t (mass4 p) d) && wanted wh d) l))). now rewrite IH'.
  - apply rltb_false in E. pose proof (NN d (or_introl eq_refl)). rewrite IH'. lra.
Qed.
Lemma hadronic_eq t p : nonneg_widths t p -> total_weight (get_partial_widths t p Hadronic) = hadronic_width t p.
Proof. intros NN. rewrite total_eq by auto. reflexivity. Qed.
Lemma inverse_gamma_eq p : massive p -> inverse_gamma p = mass4 (mom p) / y0 (mom p) /\ 0 < mass4 (mom p).
Proof.
  intros [E M]. unfold inverse_gamma, mass4. split; [|now apply sqrt_lt_R0].
  replace (1 - sqr3 (threevec (mom p)) / (y0 (mom p) * y0 (mom p))) with (minkowski (mom p) (mom p) / (y0 (mom p) * y0 (mom p)))
    by (unfold minkowski, sqr3, dot3, threevec; cbn [x1 x2 x3]; field; lra).
  rewrite sqrt_div_alt by nra. now rewrite sqrt_square by lra.
Qed.
Lemma unformed power p : forming p ->
  rltb (xsec_scaling_factor power p 0) 1 = (rltb (scaling p) 1 && rltb (y0 (pos p)) (form_time p))%bool.
Proof.
  intros F. pose proof (scaling_factor_grows power p (y0 (pos p)) (y0 (pos p)) F (Rle_refl _)) as (B & _ & G1 & G2 & G3).
  unfold factor_at in *. rewrite Rminus_diag_eq in * by auto. destruct F as [SC BF].
  destruct (rltb (y0 (pos p)) (form_time p)) eqn:E.
  - rewrite andb_true_r. apply rltb_spec in E. destruct (rltb (scaling p) 1) eqn:Q.
    + apply rltb_spec in Q. apply rltb_spec. unfold xsec_scaling_factor in *. rewrite Rplus_0_r in *.
      destruct (Rle_dec power 0); [rewrite G3; lra|]. destruct (Rle_dec (form_time p) _); [lra|].
      destruct (Rle_dec _ (begin_form p)) as [G|G]; [lra|].
      pose proof (forming_ratio (begin_form p) (form_time p) (y0 (pos p)) ltac:(lra) E) as X.
      assert (RP : Rpower ((y0 (pos p) - begin_form p) / (form_time p - begin_form p)) power < 1).
      { unfold Rpower. rewrite <- exp_0. apply exp_increasing. pose proof (ln_increasing _ 1 (proj1 X) (proj2 X)) as LN. rewrite ln_1 in LN. nra. }
      nra.
    + apply rltb_false in Q. apply rltb_false. lra.
  - rewrite andb_false_r. apply rltb_false in E. apply rltb_false. rewrite G1; lra.
Qed.
Lemma decays_from_eq power p : forming p ->
  decays_from p = if rltb (xsec_scaling_factor power p 0) 1 then form_time p else y0 (pos p).
Proof.
  intros F. rewrite unformed by auto. unfold decays_from. destruct (rltb (scaling p) 1); cbn [andb]; auto.
  destruct (rltb (y0 (pos p)) (form_time p)) eqn:E; [apply rltb_spec in E; apply Rmax_left; lra|apply rltb_false in E; apply Rmax_right; lra].
Qed.
Lemma neg_ln_lt u x : 0 < u <= 1 -> (- ln u < x <-> exp (- x) < u).
Proof.
  intros U. split; intros H.
  - rewrite <- (exp_ln u) by lra. apply exp_increasing. lra.
  - pose proof (ln_increasing (exp (- x)) u (exp_pos _) H) as L. rewrite ln_exp in L. lra.
Qed.
Lemma ln_nonpos u : 0 < u <= 1 -> 0 <= - ln u.
Proof. intros [A B]. destruct (Req_dec u 1) as [->|N]; [rewrite ln_1; lra|]. pose proof (ln_increasing u 1 A ltac:(lra)). rewrite ln_1 in H. lra. Qed.
(** One time step: the particle survives exactly for the draws up to exp(- t / mean life), where t is the
    part of the step in which it is formed; an action that is found lies inside the step, not before the
    formation, and carries the channels of the particle with their widths. *)
Theorem survival_of_one_step f dt t p u : 0 < life f -> massive p -> forming p -> nonneg_widths t (mom p) -> may_decay f t p -> 0 < u <= 1 ->
  (find_one f dt t p u = None <-> u <= exp (- (Rmax 0 (y0 (pos p) + dt - decays_from p) / mean_life f t (mom p)))) /\
  (forall time channels, find_one f dt t p u = Some (time, channels) ->
     0 <= time < dt /\ decays_from p <= y0 (pos p) + time /\ channels = get_partial_widths t (mom p) Hadronic).
Proof.
  intros LF MA FO NN (ST & IN & W) U. destruct (inverse_gamma_eq p MA) as [IG MP]. destruct MA as [EP _].
  unfold find_one. unfold is_stable. rewrite (proj2 (rltb_false _ _) ST).
  assert (C : negb (decay_initial f) && (ncoll p =? 0)%Z = false).
  { destruct IN as [->|N]; [reflexivity|]. rewrite (proj2 (Z.eqb_neq _ _) N). apply andb_false_r. }
  rewrite C. cbv zeta. rewrite (hadronic_eq t (mom p) NN). rewrite (proj2 (rltb_spec _ _) W). cbn [negb].
  set (G := hadronic_width t (mom p)) in *. set (r := 1 / hbarc * inverse_gamma p * G).
  assert (HB : 0 < hbarc) by (unfold hbarc; lra).
  set (ML := mean_life f t (mom p)). assert (MLP : 0 < ML).
  { unfold ML, mean_life. fold G. apply Rmult_lt_0_compat; [apply Rmult_lt_0_compat; [auto|apply Rdiv_lt_0_compat; auto]|apply Rdiv_lt_0_compat; auto]. }
  assert (E : life f * exponential u r = ML * - ln u).
  { unfold exponential, r, ML, mean_life. fold G. rewrite IG. field. repeat split; lra. }
  pose proof (decays_from_eq (power f) p FO) as DF. pose proof (unformed (power f) p FO) as UF. pose proof (ln_nonpos u U) as LN.
  assert (D : (if rltb (xsec_scaling_factor (power f) p 0) 1 then life f * exponential u r + (form_time p - y0 (pos p)) else life f * exponential u r) =
    ML * - ln u + (decays_from p - y0 (pos p))).
  { rewrite DF. destruct (rltb _ 1); rewrite E; ring. }
  rewrite D. assert (NF : y0 (pos p) <= decays_from p).
  { rewrite DF, UF. destruct (rltb (scaling p) 1); cbn [andb]; [|lra]. destruct (rltb _ (form_time p)) eqn:Q; [apply rltb_spec in Q|]; lra. }
  set (w := y0 (pos p) + dt - decays_from p).
  assert (B : ML * - ln u + (decays_from p - y0 (pos p)) < dt <-> exp (- (Rmax 0 w / ML)) < u).
  { rewrite <- (neg_ln_lt u (Rmax 0 w / ML) U). split; intros H.
    - apply Rmult_lt_reg_l with ML; auto. replace (ML * (Rmax 0 w / ML)) with (Rmax 0 w) by (field; lra).
      pose proof (Rmax_r 0 w). unfold w in *. lra.
    - apply (Rmult_lt_compat_l ML) in H; auto. replace (ML * (Rmax 0 w / ML)) with (Rmax 0 w) in H by (field; lra).
      assert (0 <= ML * - ln u) by nra. assert (M : Rmax 0 w = w) by (destruct (Rle_lt_dec w 0); [rewrite Rmax_left in H; lra|apply Rmax_right; lra]).
      rewrite M in H. unfold w in H. lra. }
  split.
  - destruct (rltb (ML * - ln u + _) dt) eqn:Q; split; intros H; try discriminate; auto.
    + apply rltb_spec in Q. apply B in Q. lra.
    + apply rltb_false in Q. destruct (Rle_lt_dec u (exp (- (Rmax 0 w / ML)))); auto. apply B in r0. lra.
  - intros time ch. destruct (rltb (ML * - ln u + _) dt) eqn:Q; [|discriminate]. intros H. apply rltb_spec in Q.
    assert (HT : time = ML * - ln u + (decays_from p - y0 (pos p)) /\ ch = get_partial_widths t (mom p) Hadronic) by (split; congruence).
    destruct HT as [-> ->]. assert (0 <= ML * - ln u) by nra. splits; auto; lra.
Qed.
Print Assumptions survival_of_one_step.
(** Stable particles, particles without an open hadronic channel and (if so configured) particles that have
    not interacted never decay during the evolution. *)
Theorem no_decay f dt t p u : nonneg_widths t (mom p) ->
  twidth t < width_cutoff \/ (decay_initial f = false /\ ncoll p = 0%Z) \/ hadronic_width t (mom p) = 0 ->
  find_one f dt t p u = None.
Proof.
  intros NN H. unfold find_one, is_stable. destruct (rltb (twidth t) width_cutoff) eqn:E; [reflexivity|]. apply rltb_false in E.
  destruct H as [H|[[H1 H2]|H]]; [lra| |].
  - rewrite H1, H2. reflexivity.
  - destruct (_ && _)%bool; [reflexivity|]. cbv zeta. rewrite hadronic_eq, H by auto.
    rewrite (proj2 (rltb_false 0 0)) by lra. reflexivity.
Qed.
Print Assumptions no_decay.

(** The particle some time later, moving freely. *)
Definition later (s : R) (p : particle) : particle :=
  set_pos (V4 (y0 (pos p) + s) (y1 (pos p) + s * (y1 (mom p) / y0 (mom p))) (y2 (pos p) + s * (y2 (mom p) / y0 (mom p))) (y3 (pos p) + s * (y3 (mom p) / y0 (mom p)))) p.
(** It survives consecutive steps of the given lengths with the given draws. *)
Fixpoint survives (f : dfinder) (t : ptype) (p : particle) (steps draws : list R) : Prop :=
  match steps, draws with
  | dt :: steps', u :: draws' => find_one f dt t p u = None /\ survives f t (later dt p) steps' draws'
  | _, _ => True
  end.
(** The decay law: for every division of a time into steps the draws for which the particle survives form a
    box with side lengths s1, s2, ... whose volume, the survival probability, depends on the time only:
    it is exp(- time since formation / mean life). *)
Theorem decay_law f t : 0 < life f -> forall steps p, massive p -> forming p -> nonneg_widths t (mom p) -> may_decay f t p ->
  Forall (fun dt => 0 <= dt) steps ->
  exists sides, length sides = length steps /\
  (forall draws, length draws = length steps -> Forall (fun u => 0 < u <= 1) draws ->
     (survives f t p steps draws <-> Forall2 Rle draws sides)) /\
  Forall (fun s => 0 < s <= 1) sides /\
  fold_right Rmult 1 sides = exp (- (Rmax 0 (y0 (pos p) + rsum steps - decays_from p) / mean_life f t (mom p))).
Proof.
  intros LF. induction steps as [|dt steps IH]; intros p MA FO NN MD ST.
  - exists []. splits; auto. 
    + intros [|] L _; [|discriminate]. cbn. split; auto.
    + cbn [fold_right rsum]. rewrite Rmax_left; [replace (- (0 / mean_life f t (mom p))) with 0 by (unfold Rdiv; ring); now rewrite exp_0|].
      unfold decays_from. cbn. destruct (rltb _ _); [pose proof (Rmax_r (form_time p) (y0 (pos p)))|]; lra.
  - inversion ST as [|? ? D0 ST']; subst. destruct (IH (later dt p)) as (sides & L & S1 & S2 & S3); auto; [].
    assert (MLP : 0 < mean_life f t (mom p)).
    { destruct MD as (_ & _ & W). destruct (inverse_gamma_eq p MA) as [_ MP]. destruct MA as [EP _].
      assert (0 < hbarc) by (unfold hbarc; lra). unfold mean_life. apply Rmult_lt_0_compat; [apply Rmult_lt_0_compat; [auto|apply Rdiv_lt_0_compat; auto]|apply Rdiv_lt_0_compat; auto]. }
    set (s := exp (- (Rmax 0 (y0 (pos p) + dt - decays_from p) / mean_life f t (mom p)))).
    exists (s :: sides). splits.
    + cbn. now rewrite L.
    + intros [|u draws] LD F; [discriminate|]. inversion F as [|? ? U F']; subst. cbn [survives].
      destruct (survival_of_one_step f dt t p u LF MA FO NN MD U) as [Q _]. rewrite Q, S1 by (auto; cbn in LD; lia). fold s.
      split; [intros [X Y]; now constructor|intros X; inversion X; auto].
    + constructor; auto. unfold s. split; [apply exp_pos|]. rewrite <- exp_0. 
      assert (0 <= Rmax 0 (y0 (pos p) + dt - decays_from p) / mean_life f t (mom p)) by (apply Rmult_le_pos; [apply Rmax_l|apply Rlt_le, Rinv_0_lt_compat; auto]).
      destruct (Req_dec (Rmax 0 (y0 (pos p) + dt - decays_from p) / mean_life f t (mom p)) 0) as [->|N]; [rewrite Ropp_0; lra|].
      left. apply exp_increasing. lra.
    + cbn [fold_right]. rewrite S3. unfold s. rewrite <- exp_plus. f_equal. change (mom (later dt p)) with (mom p).
      change (y0 (pos (later dt p))) with (y0 (pos p) + dt). cbn [rsum fold_right]. fold (rsum steps).
      assert (RS : 0 <= rsum steps) by (clear - ST'; induction ST'; cbn [rsum fold_right]; [lra|]; fold (rsum l); lra).
      assert (X : Rmax 0 (y0 (pos p) + dt - decays_from p) + Rmax 0 (y0 (pos p) + dt + rsum steps - decays_from (later dt p)) = Rmax 0 (y0 (pos p) + (dt + rsum steps) - decays_from p)).
      { unfold decays_from. change (scaling (later dt p)) with (scaling p). change (form_time (later dt p)) with (form_time p).
        change (y0 (pos (later dt p))) with (y0 (pos p) + dt). destruct (rltb (scaling p) 1).
        - unfold Rmax. repeat destruct (Rle_dec _ _); lra.
        - unfold Rmax. repeat destruct (Rle_dec _ _); lra. }
      rewrite <- X. field. lra.
Qed.
Print Assumptions decay_law.
(** Non-vacuity: a particle of the type of [delta_width], formed from t = 3 on, moving, seen from t = 1. *)
Definition delta : ptype := PType (1232 / 1000) (117 / 1000) [two_body (138 / 1000) (938 / 1000) 1 1 [1; 2]%nat].
Definition a_delta : particle := Part (V4 1 0 0 0) (V4 5 0 0 3) (1232 / 1000) 7 2 3 1 (/ 2).
Lemma delta_nonneg p : nonneg_widths delta p.
Proof.
  intros d [<-|[]]. unfold partial_width. destruct (Rlt_dec _ _) as [|N]; [lra|]. cbn [wfun two_body tmass twidth delta ratio thr] in *.
  destruct (stable_width_shape (138 / 1000) (938 / 1000) 1 (1232 / 1000) (117 / 1000 * 1)) as (w & W & _ & Z & I); try lra; try lia.
  rewrite W. destruct (I (mass4 p) (mass4 p + 1)); lra.
Qed.
Lemma delta_open p : 1076 / 1000 < mass4 p -> 0 < hadronic_width delta p.
Proof.
  intros H. unfold hadronic_width. cbn [delta tmodes filter two_body dilepton negb map rsum fold_right]. unfold partial_width.
  destruct (Rlt_dec _ _) as [B|N]; [cbn in B; lra|].
  destruct (stable_width_shape (138 / 1000) (938 / 1000) 1 (1232 / 1000) (117 / 1000 * 1)) as (w & W & _ & Z & I); try lra; try lia.
  cbn [two_body wfun tmass twidth delta ratio]. rewrite W.
  destruct (I (1076 / 1000) (mass4 p)); lra.
Qed.
Example decay_law_example : let f := DFinder 1 true true true 0 in
  massive a_delta /\ forming a_delta /\ nonneg_widths delta (mom a_delta) /\ may_decay f delta a_delta /\ decays_from a_delta = 3.
Proof.
  cbv zeta. assert (M : mass4 (V4 5 0 0 3) = 4).
  { unfold mass4, minkowski. cbn [y0 y1 y2 y3]. replace (5 * 5 - (0 * 0 + 0 * 0 + 3 * 3)) with (4 * 4) by ring. apply sqrt_square. lra. }
  refine (conj _ (conj _ (conj (delta_nonneg _) (conj _ _)))).
  - split; unfold minkowski; cbn; lra.
  - unfold forming. cbn. lra.
  - refine (conj _ (conj (or_introl eq_refl) _)); [unfold width_cutoff; cbn; lra|]. apply delta_open. cbn [mom a_delta]. rewrite M. lra.
  - unfold decays_from. cbn [scaling a_delta form_time pos y0]. rewrite (proj2 (rltb_spec (/ 2) 1)) by lra. apply Rmax_left. lra.
Qed.

(** ** C99 *)
(** Channel number i is chosen exactly for the numbers drawn between the sum of the weights before it and that
    sum plus its own weight: an interval whose length is its weight. With at least one channel and a number
    between 0 and the total weight a channel is always chosen; without channels the program is aborted. *)
Definition before (l : list (mode * R)) (i : nat) : R := rsum (map snd (firstn i l)).
Lemma choose_from_spec l : forall x s i d, Forall (fun d => 0 < snd d) l -> nth_error l i = Some d -> s < x ->
  (choose_from x s l = Ok d -> True) /\ (s + before l i < x <= s + before l i + snd d -> choose_from x s l = Ok d).
Proof.
  induction l as [|c l IH]; intros x s i d F N B; [destruct i; discriminate|]. split; auto. inversion F as [|? ? P F']; subst.
  destruct i as [|i].
  - cbn in N. assert (d = c) by congruence. subst. cbn [before firstn map rsum fold_right choose_from]. intros H. destruct (Rle_dec _ _); [auto|lra].
  - cbn [nth_error] in N. unfold before. cbn [firstn map rsum fold_right]. fold (rsum (map snd (firstn i l))). change (rsum (map snd (firstn i l))) with (before l i).
    intros H. cbn [choose_from]. assert (BP : 0 <= before l i).
    { unfold before. clear - F'. revert i. induction F'; intros [|i]; cbn [firstn map rsum fold_right]; try lra. specialize (IHF' i). unfold rsum in IHF'. lra. }
    destruct (Rle_dec x (s + snd c)); [lra|]. apply (IH x (s + snd c) i d F' N); lra.
Qed.
Lemma sum_split l i (d : mode * R) : nth_error l i = Some d -> before l (S i) = before l i + snd d.
Proof.
  revert i. induction l as [|c l IH]; intros [|i] N; try discriminate.
  - cbn in N. assert (d = c) by congruence. subst. unfold before. cbn. ring.
  - cbn [nth_error] in N. specialize (IH i N). unfold before in *. cbn [firstn map rsum fold_right] in *. unfold rsum in *. rewrite IH. ring.
Qed.
Lemma which_interval l : forall x s, s < x <= s + rsum (map snd l) -> exists i d, nth_error l i = Some d /\ s + before l i < x <= s + before l i + snd d.
Proof.
  induction l as [|c l IH]; intros x s H; cbn [map rsum fold_right] in H; [cbn in H; lra|]. fold (rsum (map snd l)) in H.
  destruct (Rle_lt_dec x (s + snd c)) as [A|A].
  - exists 0%nat, c. unfold before. cbn. split; auto. lra.
  - destruct (IH x (s + snd c)) as (i & d & N & B); [lra|]. exists (S i), d. split; auto. unfold before in *. cbn [firstn map rsum fold_right] in *. unfold rsum in *. lra.
Qed.
Theorem channel_frequencies l : Forall (fun d => 0 < snd d) l ->
  (forall i d x, nth_error l i = Some d -> before l i < x <= before l i + snd d -> choose_channel x l = Ok d) /\
  (forall x, 0 < x <= rsum (map snd l) -> exists i d, nth_error l i = Some d /\ before l i < x <= before l i + snd d) /\
  (forall x d, 0 <= x -> choose_channel x l = Ok d -> In d l) /\
  (l <> [] -> exists d, choose_channel 0 l = Ok d) /\
  (forall x, l = [] -> choose_channel x l = UB UB_assert).
Proof.
  intros F. assert (BP : forall i, 0 <= before l i).
  { unfold before. clear - F. induction F; intros [|i]; cbn [firstn map rsum fold_right]; try lra. specialize (IHF i). unfold rsum in IHF. lra. }
  splits.
  - intros i d x N B. unfold choose_channel. specialize (BP i). apply (choose_from_spec l x 0 i d F N); lra.
  - intros x H. destruct (which_interval l x 0) as (i & d & N & B); [lra|]. exists i, d. split; auto. lra.
  - intros x d _. unfold choose_channel. clear. generalize 0. induction l as [|c l IH]; intros s H; [discriminate|]. cbn [choose_from] in H.
    destruct (Rle_dec _ _); [left; congruence|right; eauto].
  - intros NE. destruct l as [|c l]; [congruence|]. inversion F; subst. exists c. unfold choose_channel. cbn [choose_from]. destruct (Rle_dec _ _); [auto|lra].
  - intros x ->. reflexivity.
Qed.
Print Assumptions channel_frequencies.
(** The channels of an action created by the decay finder, and their weights, pass unchanged through
    add_processes: what the choice uses is the widths of the open modes. *)
Theorem action_channels t p wh : 
  add_processes (get_partial_widths t p wh) = (get_partial_widths t p wh, rsum (map snd (get_partial_widths t p wh))) /\
  Forall (fun d => 0 < snd d) (get_partial_widths t p wh) /\
  (forall d w, In (d, w) (get_partial_widths t p wh) <-> In d (tmodes t) /\ wanted wh d = true /\ w = partial_width t (mass4 p) d /\ 0 < w).
Proof.
  assert (P : Forall (fun d => 0 < snd d) (get_partial_widths t p wh)).
  { apply Forall_forall. intros [d w] H. unfold get_partial_widths in H. apply in_map_iff in H. destruct H as (d' & E & H). apply filter_In in H.
    destruct H as [_ H]. apply andb_prop in H. destruct H as [H _]. apply rltb_spec in H. cbn [snd]. assert (w = partial_width t (sqrt (sqr4 p)) d') by congruence. subst. auto. }
  splits; auto.
  - unfold add_processes. assert (G : forall l a s, Forall (fun d : mode * R => 0 < snd d) l ->
      fold_left (fun acc d => if rltb 0 (snd d) then (fst acc ++ [d], snd acc + snd d) else acc) l (a, s) = (a ++ l, s + rsum (map snd l))).
    { induction l as [|d l IH]; intros a s F; cbn [fold_left map rsum fold_right]; [rewrite app_nil_r, Rplus_0_r; reflexivity|]. inversion F; subst.
      rewrite (proj2 (rltb_spec _ _)) by auto. cbn [fst snd]. rewrite IH by auto. rewrite <- app_assoc. unfold rsum. f_equal. ring. }
    rewrite G by auto. cbn [app]. f_equal. ring.
  - intros d w. unfold get_partial_widths. rewrite mass4_eq, in_map_iff. split.
    + intros (d' & E & H). apply filter_In in H. destruct H as [H1 H2]. apply andb_prop in H2. destruct H2 as [H2 H3]. apply rltb_spec in H2.
      assert (d = d' /\ w = partial_width t (mass4 p) d') by (split; congruence). destruct H as [-> ->]. auto.
    + intros (H1 & H2 & -> & H3). exists d. split; auto. apply filter_In. split; auto. apply andb_true_intro. split; auto. now apply rltb_spec.
Qed.
Print Assumptions action_channels.
Example channel_example : let d := two_body 1 2 0 1 [] in
  choose_channel 2 [(d, 1); (two_body 1 1 0 1 [], 3)] = Ok (two_body 1 1 0 1 [], 3).
Proof. cbv zeta. unfold choose_channel. cbn [choose_from snd]. destruct (Rle_dec 2 (0 + 1)); [lra|]. destruct (Rle_dec 2 _); [auto|lra]. Qed.

(** ** C100 *)
(** A particle is left alone at the end of the event iff it has no decay modes, or it is stable with respect to
    the strong interaction and non-strong decays are off (or final decays are switched off altogether). *)
Definition final_stable (f : dfinder) (t : ptype) : Prop :=
  final_decays f = false \/ tmodes t = [] \/ (non_strong f = false /\ twidth t < width_cutoff).
Lemma finds_final_spec f t : finds_final f t = false <-> final_stable f t.
Proof.
  unfold finds_final, final_stable, is_stable. destruct (rltb (twidth t) width_cutoff) eqn:E; [apply rltb_spec in E|apply rltb_false in E];
    destruct (final_decays f), (non_strong f), (tmodes t); cbn; split; intros; auto; try discriminate; try lra;
    repeat match goal with H : _ \/ _ |- _ => destruct H | H : _ /\ _ |- _ => destruct H end; try discriminate; lra.
Qed.
Lemma pass_none f tab dr : forall ps i ps' n, pass f tab dr i ps = Ok (ps', n) -> n = 0%nat -> ps' = ps /\ Forall (fun p => final_stable f (tab (pty p))) ps.
Proof.
  induction ps as [|p ps IH]; intros i ps' n H N; cbn [pass] in H.
  - assert (ps' = []) by congruence. subst. auto.
  - destruct (finds_final f (tab (pty p))) eqn:E.
    + destruct (decay _ _ _); cbn in H; try discriminate. destruct (pass f tab dr (S i) ps) as [[rest m]| |]; cbn in H; try discriminate.
      exfalso. assert (n = S m) by congruence. lia.
    + destruct (pass f tab dr (S i) ps) as [[rest m]| |] eqn:P; cbn in H; try discriminate.
      assert (ps' = p :: rest /\ n = m) by (split; congruence). destruct H0 as [-> ->]. destruct (IH _ _ _ P N) as [-> F].
      split; auto. constructor; auto. now apply finds_final_spec.
Qed.
(** When the final decays end normally, nothing is left that they would have to decay. *)
Theorem final_decays_complete f tab dr k fuel ps ps' : final_loop f tab dr k fuel ps = Some (Ok ps') ->
  Forall (fun p => final_stable f (tab (pty p))) ps'.
Proof.
  revert k ps. induction fuel as [|fuel IH]; intros k ps H; [discriminate|]. cbn [final_loop] in H.
  destruct (pass f tab (dr k) 0 ps) as [[q n]| |] eqn:P; try discriminate. destruct (Nat.eqb_spec n 0) as [->|N].
  - assert (q = ps') by congruence. subst. destruct (pass_none _ _ _ _ _ _ _ P eq_refl) as [-> F]. auto.
  - eauto.
Qed.
Print Assumptions final_decays_complete.
(** [sub q l]: q is l with some elements left out. *)
Inductive sub {A} : list A -> list A -> Prop :=
| sub_nil l : sub [] l
| sub_take a q l : sub q l -> sub (a :: q) (a :: l)
| sub_skip a q l : sub q l -> sub q (a :: l).
Lemma sub_refl {A} (l : list A) : sub l l.
Proof. induction l; constructor; auto. Qed.
Lemma sub_app {A} (o q l : list A) : sub q l -> sub q (o ++ l).
Proof. intros. induction o; cbn; auto. now apply sub_skip. Qed.
Lemma sub_trans {A} (a b c : list A) : sub a b -> sub b c -> sub a c.
Proof.
  intros H1 H2. revert a H1. induction H2; intros a' H1.
  - inversion H1; subst; constructor.
  - inversion H1; subst; constructor; auto.
  - constructor. auto.
Qed.
Lemma sub_filter {A} (g : A -> bool) q l : sub q l -> sub (filter g q) (filter g l).
Proof. induction 1; cbn [filter]; try constructor; destruct (g a); try constructor; auto. Qed.
Lemma filter_idem {A} (g : A -> bool) l : filter g (filter g l) = filter g l.
Proof. induction l as [|a l IH]; cbn; auto. destruct (g a) eqn:E; cbn; rewrite ?E; congruence. Qed.
Definition kept (f : dfinder) (tab : nat -> ptype) (p : fpart) : bool := negb (finds_final f (tab (pty p))).
Lemma pass_keeps f tab dr : forall ps i ps' n, pass f tab dr i ps = Ok (ps', n) -> sub (filter (kept f tab) ps) ps'.
Proof.
  induction ps as [|p ps IH]; intros i ps' n H; cbn [pass] in H; [constructor|]. cbn [filter]. unfold kept at 1.
  destruct (finds_final f (tab (pty p))) eqn:E; cbn [negb].
  - destruct (decay _ _ _) as [out| |]; cbn in H; try discriminate. destruct (pass f tab dr (S i) ps) as [[rest m]| |] eqn:P; cbn in H; try discriminate.
    assert (ps' = out ++ rest) by congruence. subst. apply sub_app. eauto.
  - destruct (pass f tab dr (S i) ps) as [[rest m]| |] eqn:P; cbn in H; try discriminate.
    assert (ps' = p :: rest) by congruence. subst. constructor. eauto.
Qed.
(** Particles that need not decay are left untouched: they are all among the particles at the end, in their
    old order. *)
Theorem final_decays_keep f tab dr k fuel ps ps' : final_loop f tab dr k fuel ps = Some (Ok ps') ->
  sub (filter (kept f tab) ps) ps' /\ (forall p, kept f tab p = true <-> final_stable f (tab (pty p))).
Proof.
  intros H. split.
  - revert k ps H. induction fuel as [|fuel IH]; intros k ps H; [discriminate|]. cbn [final_loop] in H.
    destruct (pass f tab (dr k) 0 ps) as [[q n]| |] eqn:P; try discriminate. pose proof (pass_keeps _ _ _ _ _ _ _ P) as K.
    destruct (Nat.eqb_spec n 0) as [->|N]; [assert (q = ps') by congruence; subst; auto|].
    apply sub_trans with (filter (kept f tab) q); [|eauto]. rewrite <- filter_idem. now apply sub_filter.
  - intros p. unfold kept. rewrite <- finds_final_spec. destruct (finds_final f (tab (pty p))); cbn; split; congruence.
Qed.
Print Assumptions final_decays_keep.

(** A quantity of particle types that all decay modes conserve (charge, baryon number, ...) is the same
    before and after. *)
Definition zsum (l : list Z) : Z := fold_right Z.add 0%Z l.
Definition modes_conserve (tab : nat -> ptype) (q : nat -> Z) : Prop :=
  forall t d, In d (tmodes (tab t)) -> zsum (map q (daughters d)) = q t.
(** as many momenta as daughters are drawn *)
Definition enough_momenta (dr : draw) : Prop := (3 <= length (d_momenta dr))%nat.
Lemma zsum_app a b : zsum (a ++ b) = (zsum a + zsum b)%Z.
Proof. induction a; cbn [app zsum fold_right]; auto. unfold zsum in *. rewrite IHa. lia. Qed.
Lemma choose_in l : forall x s ch, choose_from x s l = Ok ch -> In ch l.
Proof.
  induction l as [|c l IH]; intros x s ch H; [discriminate|]. cbn [choose_from] in H. destruct (Rle_dec _ _); [left; congruence|right; eauto].
Qed.
Lemma decay_spec tab p dr out : decay tab p dr = Ok out -> exists d, In d (tmodes (tab (pty p))) /\ (length (daughters d) <= 3)%nat /\
  0 < partial_width (tab (pty p)) (mass4 (pmom p)) d /\ out = map (fun x => FPart (fst x) (snd x)) (combine (daughters d) (d_momenta dr)).
Proof.
  unfold decay. destruct (action_channels (tab (pty p)) (pmom p) All) as (E & P & I). rewrite E.
  destruct (choose_channel _ _) as [ch| |] eqn:C; cbn [rbind]; try discriminate.
  destruct (_ || _)%bool eqn:L; try discriminate. intros H. exists (fst ch).
  assert (IN : In ch (get_partial_widths (tab (pty p)) (pmom p) All)).
  { exact (choose_in _ _ _ _ C). }
  destruct ch as [d w]. apply I in IN. destruct IN as (IN & _ & -> & W). cbn [fst] in *. splits; auto; [|congruence].
  apply orb_prop in L. destruct L as [L|L]; apply Nat.eqb_eq in L; lia.
Qed.
Lemma combine_fst {A B} (a : list A) (b : list B) : (length a <= length b)%nat -> map fst (combine a b) = a.
Proof. revert b. induction a as [|x a IH]; intros [|y b] L; cbn in *; auto; try lia. now rewrite IH by lia. Qed.
Lemma pass_conserves f tab q dr : modes_conserve tab q -> (forall i, enough_momenta (dr i)) -> forall ps i ps' n,
  pass f tab dr i ps = Ok (ps', n) -> zsum (map (fun p => q (pty p)) ps') = zsum (map (fun p => q (pty p)) ps).
Proof.
  intros MC EM. induction ps as [|p ps IH]; intros i ps' n H; cbn [pass] in H; [assert (ps' = []) by congruence; now subst|].
  destruct (finds_final f (tab (pty p))).
  - destruct (decay _ _ _) as [out| |] eqn:D; cbn in H; try discriminate. destruct (pass f tab dr (S i) ps) as [[rest m]| |] eqn:P; cbn in H; try discriminate.
    assert (ps' = out ++ rest) by congruence. subst. destruct (decay_spec _ _ _ _ D) as (d & I & L & _ & ->). rewrite map_app, zsum_app, (IH _ _ _ P), map_map.
    cbn [pty]. specialize (EM i). unfold enough_momenta in EM. cbn [map zsum fold_right]. rewrite <- (map_map fst q), combine_fst by lia. now rewrite (MC _ _ I).
  - destruct (pass f tab dr (S i) ps) as [[rest m]| |] eqn:P; cbn in H; try discriminate.
    assert (ps' = p :: rest) by congruence. subst. cbn [map zsum fold_right]. pose proof (IH _ _ _ P) as Q. unfold zsum in Q. now rewrite Q.
Qed.
Theorem final_decays_conserve f tab q dr k fuel ps ps' : modes_conserve tab q -> (forall k i, enough_momenta (dr k i)) ->
  final_loop f tab dr k fuel ps = Some (Ok ps') -> zsum (map (fun p => q (pty p)) ps') = zsum (map (fun p => q (pty p)) ps).
Proof.
  intros MC EM. revert k ps. induction fuel as [|fuel IH]; intros k ps H; [discriminate|]. cbn [final_loop] in H.
  destruct (pass f tab (dr k) 0 ps) as [[p' n]| |] eqn:P; try discriminate. pose proof (pass_conserves f tab q (dr k) MC (EM k) _ _ _ _ P) as Q.
  destruct (n =? 0)%nat; [assert (p' = ps') by congruence; now subst|]. rewrite <- Q. eauto.
Qed.
Print Assumptions final_decays_conserve.

(** ** The loop ends *)
(** If some measure of the particles goes down in every decay (for instance the number of the type in a table
    in which daughters come before their mothers, or the mass in units of the smallest energy set free), the
    loop ends, after at most one pass more than the largest measure. *)
Definition goes_down (f : dfinder) (tab : nat -> ptype) (rank : fpart -> nat) : Prop :=
  forall p dr out q, finds_final f (tab (pty p)) = true -> decay tab p dr = Ok out -> In q out -> (rank q < rank p)%nat.
Definition bounded (f : dfinder) (tab : nat -> ptype) (rank : fpart -> nat) (n : nat) (ps : list fpart) : Prop :=
  forall p, In p ps -> finds_final f (tab (pty p)) = true -> (rank p < n)%nat.
Lemma pass_down f tab rank dr n : goes_down f tab rank -> forall ps i ps' m, bounded f tab rank (S n) ps ->
  pass f tab dr i ps = Ok (ps', m) -> bounded f tab rank n ps'.
Proof.
  intros GD. induction ps as [|p ps IH]; intros i ps' m B H; cbn [pass] in H.
  - assert (ps' = []) by congruence. subst. intros q [].
  - assert (B' : bounded f tab rank (S n) ps) by (intros q I; apply B; now right).
    destruct (finds_final f (tab (pty p))) eqn:E.
    + destruct (decay _ _ _) as [out| |] eqn:D; cbn in H; try discriminate. destruct (pass f tab dr (S i) ps) as [[rest k]| |] eqn:P; cbn in H; try discriminate.
      assert (ps' = out ++ rest) by congruence. subst. intros q I F. apply in_app_or in I. destruct I as [I|I].
      * pose proof (GD p _ _ q E D I). pose proof (B p (or_introl eq_refl) E). lia.
      * exact (IH _ _ _ B' P q I F).
    + destruct (pass f tab dr (S i) ps) as [[rest k]| |] eqn:P; cbn in H; try discriminate.
      assert (ps' = p :: rest) by congruence. subst. intros q [<-|I] F; [congruence|]. exact (IH _ _ _ B' P q I F).
Qed.
Lemma pass_zero f tab dr : forall ps i ps' n, (forall p, In p ps -> finds_final f (tab (pty p)) = false) ->
  pass f tab dr i ps = Ok (ps', n) -> n = 0%nat.
Proof.
  induction ps as [|p ps IH]; intros i ps' n F H; cbn [pass] in H; [congruence|].
  rewrite (F p (or_introl eq_refl)) in H. destruct (pass f tab dr (S i) ps) as [[rest k]| |] eqn:P; cbn in H; try discriminate.
  assert (n = k) by congruence. subst. eapply IH; [|exact P]. intros q I. apply F. now right.
Qed.
Theorem final_decays_end f tab rank dr n : goes_down f tab rank -> forall k ps, bounded f tab rank n ps ->
  final_loop f tab dr k (S n) ps <> None.
Proof.
  intros GD. induction n as [|n IH]; intros k ps B; cbn [final_loop]; destruct (pass f tab (dr k) 0 ps) as [[p' m]| |] eqn:P; try discriminate.
  - rewrite (pass_zero f tab (dr k) ps 0 p' m) by (auto; intros p I; destruct (finds_final f (tab (pty p))) eqn:E; auto; specialize (B p I E); lia). discriminate.
  - destruct (m =? 0)%nat; [discriminate|]. apply IH. eapply pass_down; eauto.
Qed.
Print Assumptions final_decays_end.

(** ** No abort *)
(** If every particle that is to decay has an open mode, all modes have two or three daughters and the draws
    are in their ranges, no decay is refused and the program is not aborted. *)
Definition open (t : ptype) (p : vec4) : Prop := exists d, In d (tmodes t) /\ 0 < partial_width t (mass4 p) d.
Definition two_or_three (t : ptype) : Prop := forall d, In d (tmodes t) -> (length (daughters d) = 2 \/ length (daughters d) = 3)%nat.
Theorem final_decay_succeeds tab p dr : open (tab (pty p)) (pmom p) -> two_or_three (tab (pty p)) -> 0 <= u_channel dr <= 1 ->
  exists out, decay tab p dr = Ok out.
Proof.
  intros (d & I & W) TT U. unfold decay. destruct (action_channels (tab (pty p)) (pmom p) All) as (E & P & IN). rewrite E.
  set (l := get_partial_widths (tab (pty p)) (pmom p) All) in *.
  assert (NE : l <> []) by (intros Z; assert (X : In (d, partial_width (tab (pty p)) (mass4 (pmom p)) d) l) by (apply IN; auto); rewrite Z in X; destruct X).
  destruct (channel_frequencies l P) as (C1 & C2 & C3 & C4 & _).
  assert (CH : exists ch, choose_channel (u_channel dr * rsum (map snd l)) l = Ok ch /\ In ch l).
  { assert (0 <= rsum (map snd l)) by (clear - P; induction P; cbn [map rsum fold_right]; [lra|]; unfold rsum in IHP; lra).
    destruct (Rle_lt_dec (u_channel dr * rsum (map snd l)) 0) as [A|A].
    - assert (Q : u_channel dr * rsum (map snd l) = 0) by (apply Rle_antisym; auto; apply Rmult_le_pos; lra).
      rewrite Q. destruct (C4 NE) as [ch C]. exists ch. split; auto. apply (C3 0); auto. lra.
    - destruct (C2 (u_channel dr * rsum (map snd l))) as (i & ch & N & B); [split; auto; nra|]. exists ch. split; [eauto|]. eapply nth_error_In; eauto. }
  destruct CH as (ch & C & I'). rewrite C. cbn [rbind]. destruct ch as [d' w']. apply IN in I'. destruct I' as (I' & _). cbn [fst].
  destruct (TT d' I') as [L|L]; rewrite L; cbn; eexists; reflexivity.
Qed.
Print Assumptions final_decay_succeeds.
(** Without an open mode the final decays abort the program: unlike the search during the evolution, the one
    at the end does not check that the total width is positive. A Delta with mass 1 GeV, below its threshold
    of 1.076 GeV (a list of particles read from a file may contain one), is left alone during the evolution
    and brings the program down at the end of the event. *)
Theorem final_decays_abort_refuted : exists f tab p ps, finds_final f (tab (pty p)) = true /\ ps = [p] /\
  (forall dt x u, mom x = pmom p -> find_one f dt (tab (pty p)) x u = None) /\
  (forall dr k n, final_loop f tab dr k (S n) ps = Some (UB UB_assert)).
Proof.
  exists (DFinder 1 true true true 0), (fun _ => delta), (FPart 0 (V4 1 0 0 0)), [FPart 0 (V4 1 0 0 0)].
  assert (M : mass4 (V4 1 0 0 0) = 1).
  { unfold mass4, minkowski. cbn [y0 y1 y2 y3]. replace (1 * 1 - (0 * 0 + 0 * 0 + 0 * 0)) with (1 * 1) by ring. apply sqrt_square. lra. }
  assert (W : partial_width delta (mass4 (V4 1 0 0 0)) (two_body (138 / 1000) (938 / 1000) 1 1 [1; 2]%nat) = 0).
  { rewrite M. unfold partial_width. destruct (Rlt_dec _ _) as [|N]; [auto|]. exfalso. apply N. cbn. lra. }
  assert (F : finds_final (DFinder 1 true true true 0) delta = true) by reflexivity.
  splits; auto.
  - intros dt x u E. apply no_decay.
    + rewrite E. apply delta_nonneg.
    + right. right. rewrite E. cbn [pmom]. change (partial_width delta (mass4 (V4 1 0 0 0)) (two_body (138 / 1000) (938 / 1000) 1 1 [1; 2]%nat) + 0 = 0). rewrite W. ring.
  - intros dr k n. cbn [final_loop pass pty]. rewrite F. unfold decay. cbn [pty pmom].
    assert (L : get_partial_widths delta (V4 1 0 0 0) All = []).
    { unfold get_partial_widths. rewrite mass4_eq. cbn [delta tmodes filter]. fold delta. rewrite W. rewrite (proj2 (rltb_false 0 0)) by lra. reflexivity. }
    rewrite L. reflexivity.
Qed.
Print Assumptions final_decays_abort_refuted.
(** Non-vacuity: the Delta at its pole mass decays into two stable particles. *)
Example final_example : let tab n := match n with O => delta | _ => PType 1 0 [] end in
  let f := DFinder 1 true true true 0 in let dr := fun _ _ : nat => Draw (/ 2) [V4 2 0 0 0; V4 3 0 0 0; V4 4 0 0 0] in
  final_loop f tab dr 0 2 [FPart 1 (V4 1 0 0 0); FPart 0 (V4 4 0 0 0)] = Some (Ok [FPart 1 (V4 1 0 0 0); FPart 1 (V4 2 0 0 0); FPart 2 (V4 3 0 0 0)]) /\
  goes_down f tab (fun p => match pty p with O => 1 | _ => 0 end)%nat /\
  modes_conserve tab (fun n => match n with O => 2 | _ => 1 end)%Z.
Proof.
  cbv zeta. set (tab := fun n => match n with O => delta | _ => PType 1 0 [] end). set (f := DFinder 1 true true true 0). splits.
  - assert (M : mass4 (V4 4 0 0 0) = 4).
    { unfold mass4, minkowski. cbn [y0 y1 y2 y3]. replace (4 * 4 - (0 * 0 + 0 * 0 + 0 * 0)) with (4 * 4) by ring. apply sqrt_square. lra. }
    pose proof (delta_open (V4 4 0 0 0)) as O. rewrite M in O. specialize (O ltac:(lra)).
    assert (OP : open delta (V4 4 0 0 0)).
    { exists (two_body (138 / 1000) (938 / 1000) 1 1 [1; 2]%nat). split; [now left|]. unfold hadronic_width in O. cbn [delta tmodes filter dilepton two_body negb map rsum fold_right] in O.
      rewrite Rplus_0_r in O. exact O. }
    destruct (final_decay_succeeds tab (FPart 0 (V4 4 0 0 0)) (Draw (/ 2) [V4 2 0 0 0; V4 3 0 0 0; V4 4 0 0 0])) as [out D]; auto.
    { intros d [<-|[]]. now left. } { cbn. lra. }
    assert (E : out = [FPart 1 (V4 2 0 0 0); FPart 2 (V4 3 0 0 0)]) by (destruct (decay_spec _ _ _ _ D) as (d & [<-|[]] & _ & _ & X); exact X). subst out.
    cbn [final_loop pass pty tab finds_final f final_decays non_strong tmodes negb andb delta]. rewrite D. reflexivity.
  - intros [t m] dr out q F D I. destruct (decay_spec _ _ _ _ D) as (d & T & _ & _ & ->). destruct t as [|t]; [|destruct T].
    destruct T as [<-|[]]. cbn [daughters two_body] in I. apply in_map_iff in I. destruct I as ([x y] & <- & I). apply in_combine_l in I. cbn [pty fst].
    destruct I as [<-|[<-|[]]]; auto.
  - intros [|t] d T; [|destruct T]. destruct T as [<-|[]]. reflexivity.
Qed.
