(** Properties of particle motion (C53, C54, C55, C74). *)
From Coq Require Import ZArith Reals List Bool Lra Lia.
From Verif Require Import Base VecModel VecProps KinProps MotionModel.
Import ListNotations.
Open Scope R_scope.

(** ** C55: straight lines *)
(** p' is p moved along a straight line with velocity v up to time t, nothing else changed. *)
Definition moved_to (v : vec3) (t : R) (p p' : particle) : Prop :=
  let dt := t - y0 (pos p) in
  pos p' = V4 t (y1 (pos p) + x1 v * dt) (y2 (pos p) + x2 v * dt) (y3 (pos p) + x3 v * dt) /\
  mom p' = mom p /\ pole_mass p' = pole_mass p /\ pid p' = pid p /\ ncoll p' = ncoll p /\
  form_time p' = form_time p /\ begin_form p' = begin_form p /\ scaling p' = scaling p.
(** The velocity a particle should have: its own, or the beam's for a nucleon of the initial
    nuclei (ids are the positions in the list of beam momenta) before its first collision. *)
Definition has_velocity (beam : list vec4) (p : particle) (v : vec3) : Prop :=
  (exists b, nth_error beam (Z.to_nat (pid p)) = Some b /\ ncoll p = 0%Z /\
             v = V3 (y1 b / y0 b) (y2 b / y0 b) (y3 b / y0 b)) \/
  ((nth_error beam (Z.to_nat (pid p)) = None \/ ncoll p <> 0%Z) /\
   v = V3 (y1 (mom p) / y0 (mom p)) (y2 (mom p) / y0 (mom p)) (y3 (mom p) / y0 (mom p))).

Lemma velocity_eq q : velocity q = V3 (y1 q / y0 q) (y2 q / y0 q) (y3 q / y0 q).
Proof. unfold velocity, div3, scale3, threevec, Rdiv. cbn [x1 x2 x3]. f_equal; ring. Qed.
Lemma motion_velocity_spec beam p : (0 <= pid p)%Z -> has_velocity beam p (motion_velocity beam p).
Proof.
  intros I. unfold has_velocity, motion_velocity.
  destruct (Z.ltb_spec (pid p) (Z.of_nat (length beam))) as [L|L]; destruct (Z.eqb_spec (ncoll p) 0) as [C|C]; cbn [andb].
  - left. exists (nth (Z.to_nat (pid p)) beam zero4). splits; auto using velocity_eq. apply nth_error_nth'. lia.
  - right. split; auto using velocity_eq.
  - right. split; auto using velocity_eq. left. apply nth_error_None. lia.
  - right. split; auto using velocity_eq.
Qed.
Lemma has_velocity_unique beam p v w : has_velocity beam p v -> has_velocity beam p w -> v = w.
Proof.
  unfold has_velocity. intros [(b & A & B & C)|(A & B)] [(b' & A' & B' & C')|(A' & B')].
  - assert (b = b') by congruence. congruence.
  - destruct A'; congruence.
  - destruct A; congruence.
  - congruence.
Qed.
Lemma propagate1_spec beam to p : (0 <= pid p)%Z -> y0 (pos p) <= to ->
  exists p', propagate1 beam to p = Ok p' /\ moved_to (motion_velocity beam p) to p p'.
Proof.
  intros I T. unfold propagate1. rewrite (proj2 (rltb_false _ _)) by lra. eexists. split; [reflexivity|].
  unfold moved_to. cbn [pos mom pole_mass pid ncoll form_time begin_form scaling set_pos]. splits; auto.
Qed.
Theorem propagation_is_straight beam to ps :
  (forall p, In p ps -> (0 <= pid p)%Z /\ y0 (pos p) <= to) ->
  exists ps', propagate beam to ps = Ok ps' /\
  Forall2 (fun p p' => forall v, has_velocity beam p v -> moved_to v to p p') ps ps'.
Proof.
  induction ps as [|p ps IH]; intros H; [exists []; split; auto|].
  destruct (H p) as [I T]; [now left|]. destruct (propagate1_spec beam to p I T) as (p' & E & M).
  destruct IH as (ps' & E' & F); [intros; apply H; now right|].
  exists (p' :: ps'). unfold propagate. cbn [mapM]. rewrite E. cbn [rbind]. unfold propagate in E'. rewrite E'. split; auto.
  constructor; auto. intros v V. now rewrite (has_velocity_unique beam p v _ V (motion_velocity_spec beam p I)).
Qed.
Print Assumptions propagation_is_straight.
(** ... and backwards propagation is not done *)
Theorem propagation_backwards_asserts beam to p : to < y0 (pos p) -> propagate1 beam to p = UB UB_assert.
Proof. intros H. unfold propagate1. now rewrite (proj2 (rltb_spec _ _)) by lra. Qed.

Lemma propagate1_compose beam t1 t2 p p1 : propagate1 beam t1 p = Ok p1 -> t1 <= t2 -> propagate1 beam t2 p1 = propagate1 beam t2 p.
Proof.
  unfold propagate1. destruct (rltb (t1 - y0 (pos p)) 0) eqn:L; [discriminate|]. apply rltb_false in L. intros H T.
  assert (p1 = set_pos (mk4 t1 (threevec (add4 (pos p) (mk4 0 (scale3 (t1 - y0 (pos p)) (motion_velocity beam p)))))) p) as -> by congruence. clear H.
  cbn [pos set_pos mk4 y0]. rewrite !(proj2 (rltb_false _ _)) by lra.
  set (v := motion_velocity beam p). change (motion_velocity beam (set_pos _ p)) with v.
  unfold set_pos. cbn [pos mom pole_mass pid ncoll form_time begin_form scaling].
  unfold mk4, threevec, add4, scale3. cbn [x1 x2 x3 y0 y1 y2 y3]. do 2 f_equal. f_equal; ring.
Qed.
Theorem propagation_composes beam t1 t2 ps ps1 : propagate beam t1 ps = Ok ps1 -> t1 <= t2 -> propagate beam t2 ps1 = propagate beam t2 ps.
Proof.
  revert ps1. induction ps as [|p ps IH]; intros ps1 H T; unfold propagate in *; cbn [mapM] in *.
  - now assert (ps1 = []) as -> by congruence.
  - destruct (propagate1 beam t1 p) as [p1| |] eqn:E; cbn [rbind] in H; try discriminate.
    destruct (mapM _ ps) as [q| |] eqn:F; cbn [rbind] in H; try discriminate.
    assert (ps1 = p1 :: q) as -> by congruence. cbn [mapM]. rewrite (propagate1_compose _ _ _ _ _ E T). now rewrite (IH q eq_refl T).
Qed.
Print Assumptions propagation_composes.
(** Going back to a common earlier time is the same line, and a particle sent back that far is
    where it came from (without frozen Fermi motion) *)
Theorem backpropagation_is_straight to p : to <= y0 (pos p) ->
  exists p', backpropagate1 to p = Ok p' /\
  pos p' = V4 to (y1 (pos p) + y1 (mom p) / y0 (mom p) * (to - y0 (pos p)))
                 (y2 (pos p) + y2 (mom p) / y0 (mom p) * (to - y0 (pos p)))
                 (y3 (pos p) + y3 (mom p) / y0 (mom p) * (to - y0 (pos p))) /\
  mom p' = mom p /\ form_time p' = y0 (pos p) /\ scaling p' = 0.
Proof.
  intros T. unfold backpropagate1. rewrite (proj2 (rltb_false _ _)) by lra. eexists. split; [reflexivity|].
  cbn [pos mom form_time scaling set_pos set_scaling set_formation set_slow_formation]. splits; auto.
  rewrite velocity_eq. unfold mk4, add3, scale3, threevec. cbn [x1 x2 x3 y0 y1 y2 y3]. reflexivity.
Qed.
Print Assumptions backpropagation_is_straight.
Theorem back_and_forth t p : (0 <= pid p)%Z -> t <= y0 (pos p) ->
  exists p1 p2, backpropagate1 t p = Ok p1 /\ propagate1 [] (y0 (pos p)) p1 = Ok p2 /\ pos p2 = pos p.
Proof.
  intros I T. unfold backpropagate1. rewrite (proj2 (rltb_false _ _)) by lra. eexists. eexists. split; [reflexivity|].
  unfold propagate1. cbn [pos set_pos set_scaling set_formation set_slow_formation mk4 y0].
  rewrite (proj2 (rltb_false _ _)) by lra. split; [reflexivity|]. cbn [pos].
  set (q := set_scaling 0 _). assert (V : motion_velocity [] q = velocity (mom p)).
  { unfold motion_velocity. change (pid q) with (pid p). cbn [length]. replace (pid p <? Z.of_nat 0)%Z with false; [reflexivity|].
    symmetry. apply Z.ltb_ge. cbn. lia. }
  rewrite V. set (v := velocity (mom p)). destruct (pos p) as [a b c d].
  unfold set_pos. cbn [pos]. unfold mk4, add4, add3, threevec, scale3. cbn [x1 x2 x3 y0 y1 y2 y3]. f_equal; ring.
Qed.
Print Assumptions back_and_forth.
Definition ex_p : particle := Part (V4 1 0 0 0) (V4 5 0 3 0) 4 7 0 0 0 1.
Example ex_propagated : exists p', propagate1 [] 6 ex_p = Ok p' /\ pos p' = V4 6 0 3 0.
Proof.
  destruct (propagation_is_straight [] 6 [ex_p]) as (ps' & E & F).
  { intros p [<-|[]]. cbn. split; [lia|lra]. }
  inversion F as [|x p' l l' H F' A B]; subst. inversion F'; subst. cbn [propagate mapM] in E.
  destruct (propagate1 [] 6 ex_p) as [q| |]; cbn [rbind] in E; try discriminate. exists p'. split; [congruence|].
  destruct (H (velocity (mom ex_p))) as [P _]; [right; split; [left; reflexivity|apply velocity_eq]|].
  rewrite P, velocity_eq. cbn [ex_p pos mom x1 x2 x3 y0 y1 y2 y3]. f_equal; field.
Qed.

(** ** C74: expansion *)
(** The scale factors the documentation gives (input_keys.h:1328-1337, 1405-1410). *)
Definition scale_factor (mode : expansion) (b t : R) : R :=
  match mode with
  | NoExpansion => 1
  | MasslessFRW => sqrt (b * t + 1)
  | MassiveFRW => Rpower (b * t + 1) (2 / 3)
  | Exponential => exp (b * t / 2)
  end.
Definition is_hubble_rate (mode : expansion) (b t h : R) : Prop :=
  derivable_pt_lim (scale_factor mode b) t (h * scale_factor mode b t).
Lemma lin_derive b t : derivable_pt_lim (fun t => b * t + 1) t b.
Proof.
  pose proof (derivable_pt_lim_plus (mult_real_fct b id) (fct_cte 1) t (b * 1) 0 (derivable_pt_lim_scal id b t 1 (derivable_pt_lim_id t)) (derivable_pt_lim_const 1 t)) as H.
  replace (b * 1 + 0) with b in H by ring. exact H.
Qed.
Theorem hubble_rate_partial mode b t : 0 < b * t + 1 -> mode <> Exponential ->
  is_hubble_rate mode b t (calc_hubble t mode b).
Proof.
  intros P NE. unfold is_hubble_rate. destruct mode; cbn [calc_hubble]; [| | |congruence].
  - rewrite Rmult_0_l. apply (derivable_pt_lim_const 1).
  - change (scale_factor MasslessFRW b) with (comp sqrt (fun t => b * t + 1)). unfold comp at 2.
    pose proof (sqrt_lt_R0 _ P) as S. pose proof (sqrt_sqrt _ (Rlt_le _ _ P)) as E.
    replace (b / (2 * (b * t + 1)) * sqrt (b * t + 1)) with (/ (2 * sqrt (b * t + 1)) * b).
    + apply derivable_pt_lim_comp; [apply lin_derive|]. now apply derivable_pt_lim_sqrt.
    + rewrite <- E at 2. field. lra.
  - change (scale_factor MassiveFRW b) with (comp (fun x => Rpower x (2 / 3)) (fun t => b * t + 1)). unfold comp at 2.
    replace (2 * b / (3 * (b * t + 1)) * Rpower (b * t + 1) (2 / 3)) with (2 / 3 * Rpower (b * t + 1) (2 / 3 - 1) * b).
    + apply derivable_pt_lim_comp; [apply lin_derive|]. now apply derivable_pt_lim_power.
    + unfold Rminus. rewrite Rpower_plus, Rpower_Ropp, Rpower_1 by auto. field. lra.
Qed.
Print Assumptions hubble_rate_partial.
(** In the mode Exponential the rate of a(t) = exp (b t / 2) is b/2 at all times, the code uses b t. *)
Theorem hubble_rate_exponential b t : is_hubble_rate Exponential b t (b / 2).
Proof.
  unfold is_hubble_rate. change (scale_factor Exponential b) with (comp exp (fun t => b * t / 2)). unfold comp at 2.
  rewrite Rmult_comm. apply derivable_pt_lim_comp; [|apply derivable_pt_lim_exp].
  apply derivable_pt_lim_ext with (mult_real_fct (b / 2) id); [intros; unfold mult_real_fct, id; field|].
  pose proof (derivable_pt_lim_scal id (b / 2) t 1 (derivable_pt_lim_id t)) as H. replace (b / 2 * 1) with (b / 2) in H by ring. exact H.
Qed.
Theorem hubble_rate_refuted : exists b t, 0 < b /\ 0 <= t /\ ~ is_hubble_rate Exponential b t (calc_hubble t Exponential b).
Proof.
  exists 1, 0. splits; try lra. intros H. cbn [calc_hubble] in H. pose proof (hubble_rate_exponential 1 0) as G.
  unfold is_hubble_rate in *. pose proof (uniqueness_limite _ _ _ _ H G) as U. cbn [scale_factor] in U.
  pose proof (exp_pos (1 * 0 / 2)). lra.
Qed.
Print Assumptions hubble_rate_refuted.
(** An expansion step stretches positions by 1 + H dt, shrinks momenta by 1 - H dt and leaves
    the particle on its pole-mass shell. *)
Theorem expansion_step h dt p : let p' := expand1 h dt p in
  pos p' = V4 (y0 (pos p)) (y1 (pos p) * (1 + h * dt)) (y2 (pos p) * (1 + h * dt)) (y3 (pos p) * (1 + h * dt)) /\
  threevec (mom p') = V3 (y1 (mom p) * (1 - h * dt)) (y2 (mom p) * (1 - h * dt)) (y3 (mom p) * (1 - h * dt)) /\
  minkowski (mom p') (mom p') = pole_mass p * pole_mass p /\ 0 <= y0 (mom p').
Proof.
  cbn zeta. unfold expand1. cbn [pos mom set_pos set_mom]. splits.
  - destruct (pos p) as [a b c d]. unfold mk4, add4, scale3, threevec. cbn [x1 x2 x3 y0 y1 y2 y3]. f_equal; ring.
  - destruct (mom p) as [a b c d]. unfold on_shell, mk4, sub4, scale3, threevec. cbn [x1 x2 x3 y0 y1 y2 y3]. f_equal; ring.
  - unfold minkowski, on_shell, mk4. cbn [y0 y1 y2 y3]. rewrite sqrt_sqrt; unfold dot3; [ring|nra].
  - apply sqrt_pos.
Qed.
Print Assumptions expansion_step.

(** ** C53: walls of the periodic box *)
(** Coordinate of length l, position r and velocity v is inside the box at time t. *)
Definition inside (c : coord) (t : R) : Prop := let '(l, r, v) := c in 0 <= r + v * t <= l.
Definition fast (c : coord) : Prop := let '(l, r, v) := c in v < - really_small \/ really_small < v.
(** has not reached the wall it moves towards *)
Definition before_wall (c : coord) (t : R) : Prop :=
  let '(l, r, v) := c in (0 < v -> r + v * t < l) /\ (v < 0 -> 0 < r + v * t).

Lemma rs_pos : 0 < really_small. Proof. unfold really_small. lra. Qed.
Lemma wall_time_slow tmax c : ~ fast c -> wall_time tmax c = tmax + 1.
Proof. destruct c as [[l r] v]. unfold fast, wall_time. destruct (Rlt_dec really_small v); [tauto|]. destruct (Rlt_dec v (- really_small)); [tauto|auto]. Qed.
Lemma wall_time_eq tmax l r v : fast (l, r, v) -> inside (l, r, v) 0 ->
  let t := wall_time tmax (l, r, v) in 0 <= t /\ ((0 < v /\ r + v * t = l) \/ (v < 0 /\ r + v * t = 0)).
Proof.
  pose proof rs_pos as RS. intros F I. unfold fast, inside in *. unfold wall_time. destruct (Rlt_dec really_small v).
  - assert (0 < / v) by (apply Rinv_0_lt_compat; lra). split; [apply Rmult_le_pos; lra|]. left. split; [lra|field; lra].
  - destruct (Rlt_dec v (- really_small)); [|lra]. assert (/ v < 0) by (apply Rinv_lt_0_compat; lra). unfold Rdiv. split; [nra|]. right. split; [lra|field; lra].
Qed.
Lemma wall_time_inside tmax c t : fast c -> inside c 0 -> 0 <= t -> t <= wall_time tmax c -> inside c t.
Proof.
  destruct c as [[l r] v]. intros F I T L. destruct (wall_time_eq tmax l r v F I) as [P [[V E]|[V E]]]; unfold inside in *;
  set (w := wall_time tmax (l, r, v)) in *; nra.
Qed.
Lemma wall_time_before tmax c t : fast c -> inside c 0 -> 0 <= t -> t < wall_time tmax c -> before_wall c t.
Proof.
  destruct c as [[l r] v]. intros F I T L. destruct (wall_time_eq tmax l r v F I) as [P [[V E]|[V E]]]; unfold before_wall, inside in *;
  set (w := wall_time tmax (l, r, v)) in *; split; intros; nra.
Qed.
Lemma wall_scan_spec tmax cs : forall i best,
  let '(t, o) := wall_scan tmax cs i best in
  t <= fst best /\ (forall c, In c cs -> t <= wall_time tmax c) /\
  ((t, o) = best \/ (t < fst best /\ exists k c, o = Some (i + k)%nat /\ nth_error cs k = Some c /\ wall_time tmax c = t)).
Proof.
  induction cs as [|c cs IH]; intros i best; cbn [wall_scan].
  - destruct best as [t o]. cbn [fst]. splits; [lra|intros c []|auto].
  - destruct (Rlt_dec (wall_time tmax c) (fst best)) as [L|L].
    + specialize (IH (S i) (wall_time tmax c, Some i)). destruct (wall_scan tmax cs (S i) _) as [t o]. cbn [fst] in IH.
      destruct IH as (A & B & C). splits; [lra|intros d [<-|D]; auto|]. right. destruct C as [C|(C & k & d & D & N & W)].
      * assert (t = wall_time tmax c /\ o = Some i) as [-> ->] by (split; congruence). split; auto. exists O, c. rewrite Nat.add_0_r. auto.
      * split; [lra|]. exists (S k), d. rewrite D. split; [f_equal; lia|auto].
    + specialize (IH (S i) best). destruct (wall_scan tmax cs (S i) best) as [t o]. destruct IH as (A & B & C).
      splits; [lra|intros d [<-|D]; [lra|auto]|]. destruct C as [C|(C & k & d & D & N & W)]; [auto|]. right. split; auto.
      exists (S k), d. rewrite D. split; [f_equal; lia|auto].
Qed.
Lemma cross_at_spec T cs : forall i, (i < length cs)%nat ->
  length (cross_at T cs i) = length cs /\
  (forall l r v, nth_error cs i = Some (l, r, v) -> nth_error (cross_at T cs i) i = Some (if Rlt_dec 0 v then 0 else l)) /\
  (forall j l r v, j <> i -> nth_error cs j = Some (l, r, v) -> nth_error (cross_at T cs i) j = Some (r + v * T)).
Proof.
  induction cs as [|[[l r] v] cs IH]; intros i H; cbn [length] in *; [lia|]. destruct i as [|i]; cbn [cross_at].
  - cbn [length]. rewrite map_length. splits; auto.
    + intros l' r' v' E. cbn [nth_error] in *. assert (l = l' /\ v = v') as [-> ->] by (split; congruence). reflexivity.
    + intros [|j] l' r' v' N E; [congruence|]. cbn [nth_error] in *. rewrite (map_nth_error _ _ _ E). reflexivity.
  - destruct (IH i) as (A & B & C); [lia|]. cbn [length]. splits; [lia|intros; cbn [nth_error] in *; eauto|].
    intros [|j] l' r' v' N E; cbn [nth_error] in *; [congruence|]. apply (C j l'); auto.
Qed.

(** If no crossing is reported, every coordinate that moves is inside the box during the whole
    step.  If one is reported, it is the first time at which a moving coordinate reaches the wall
    it moves to; the particle is put at the opposite wall and otherwise where it is at that
    time. *)
Theorem wall_crossing_none tmax cs : Forall (fun c => inside c 0) cs -> find_crossing tmax cs = None ->
  forall c t, In c cs -> fast c -> 0 <= t <= tmax -> inside c t.
Proof.
  intros I H c t C F T. rewrite Forall_forall in I. unfold find_crossing in H.
  pose proof (wall_scan_spec tmax cs 0 (tmax, None)) as S. destruct (wall_scan tmax cs 0 (tmax, None)) as [w [k|]]; [discriminate|].
  destruct S as (A & B & [D|(D & k & c' & E & _)]); [|discriminate]. assert (w = tmax) as -> by congruence.
  apply (wall_time_inside tmax); auto; [lra|]. specialize (B c C). lra.
Qed.
Print Assumptions wall_crossing_none.
Theorem wall_crossing_first tmax cs T i new : Forall (fun c => inside c 0) cs -> find_crossing tmax cs = Some (T, i, new) ->
  0 <= T < tmax /\
  (exists l r v, nth_error cs i = Some (l, r, v) /\ fast (l, r, v) /\
     ((0 < v /\ r + v * T = l /\ nth_error new i = Some 0) \/ (v < 0 /\ r + v * T = 0 /\ nth_error new i = Some l))) /\
  length new = length cs /\
  (forall j l r v, j <> i -> nth_error cs j = Some (l, r, v) -> nth_error new j = Some (r + v * T)) /\
  (forall c t, In c cs -> fast c -> 0 <= t <= T -> inside c t) /\
  (forall c t, In c cs -> fast c -> 0 <= t < T -> before_wall c t).
Proof.
  intros I H. rewrite Forall_forall in I. unfold find_crossing in H.
  pose proof (wall_scan_spec tmax cs 0 (tmax, None)) as S. destruct (wall_scan tmax cs 0 (tmax, None)) as [w [k|]]; [|discriminate].
  assert (w = T /\ k = i /\ new = cross_at w cs k) as (-> & -> & ->) by (splits; congruence). clear H.
  destruct S as (A & B & [D|(D & k' & c & E & N & W)]); [discriminate|]. cbn [fst] in *. assert (i = k') as <- by (cbn in E; congruence).
  pose proof (nth_error_In _ _ N) as C. assert (F : fast c).
  { destruct c as [[l r] v]. unfold fast. destruct (Rlt_dec really_small v); [auto|]. destruct (Rlt_dec v (- really_small)); [auto|].
    rewrite wall_time_slow in W; [lra|]. unfold fast. tauto. }
  destruct c as [[l r] v]. destruct (wall_time_eq tmax l r v F (I _ C)) as [P Q]. rewrite W in *.
  destruct (cross_at_spec T cs i) as (X & Y & Z); [apply nth_error_Some; congruence|]. splits; auto.
  - exists l, r, v. splits; auto. specialize (Y _ _ _ N). destruct Q as [[V Q]|[V Q]].
    + left. splits; auto. rewrite Y. destruct (Rlt_dec 0 v); [auto|lra].
    + right. splits; auto. rewrite Y. destruct (Rlt_dec 0 v); [lra|auto].
  - intros c t Cc Fc T'. apply (wall_time_inside tmax); auto; [lra|]. specialize (B _ Cc). lra.
  - intros c t Cc Fc T'. apply (wall_time_before tmax); auto; [lra|]. specialize (B _ Cc). lra.
Qed.
Print Assumptions wall_crossing_first.
(** Coordinates that move more slowly than 1e-6 are ignored: they can leave the box, but by no
    more than 1e-6 times the time. *)
Theorem wall_crossing_slow c t : inside c 0 -> ~ fast c -> 0 <= t ->
  let '(l, r, v) := c in - (really_small * t) <= r + v * t <= l + really_small * t.
Proof. destruct c as [[l r] v]. unfold inside, fast. intros I F T. assert (- really_small <= v <= really_small) by lra. nra. Qed.
Theorem wall_crossing_slow_refuted : exists tmax l r v, 0 <= r <= l /\ 0 < v /\
  find_crossing tmax [(l, r, v)] = None /\ l < r + v * tmax.
Proof.
  exists 1000, 1, 1, (/ 2000000). pose proof rs_pos. splits; try lra. unfold find_crossing. cbn [wall_scan].
  rewrite wall_time_slow by (unfold fast, really_small; lra). cbn [fst]. destruct (Rlt_dec (1000 + 1) 1000); [lra|reflexivity].
Qed.
Print Assumptions wall_crossing_slow_refuted.
Example wall_example : find_crossing 100 [(10, 4, / 2); (10, 5, - 1); (10, 2, 0)] = Some (5, 1%nat, [4 + / 2 * 5; 10; 2 + 0 * 5]).
Proof.
  unfold find_crossing. cbn [wall_scan]. unfold wall_time, really_small. repeat (destruct (Rlt_dec _ _); cbn [fst] in *; try lra).
  cbn [cross_at map]. destruct (Rlt_dec 0 (- 1)); [lra|]. replace (- (5) / - 1) with 5 by field. reflexivity.
Qed.
