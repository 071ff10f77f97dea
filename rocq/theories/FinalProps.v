(** Interaction points, final-state kinematics, formation, spin (C75-C78). *)
From Coq Require Import ZArith Reals List Bool Lra Lia Permutation.
From Verif Require Import Base VecModel VecProps KinProps MotionModel MotionProps.
Import ListNotations.
Open Scope R_scope.

(** ** C75: interaction point *)
(** Distance of two coordinates in a periodic box of length L is d: realised by some images and
    by no closer ones. *)
Definition periodic_distance (L a b d : R) : Prop :=
  (exists k : Z, Rabs (a - b + IZR k * L) = d) /\ (forall k : Z, d <= Rabs (a - b + IZR k * L)).
Lemma periodic_mid_spec L a b : 0 < L -> 0 <= a <= L -> 0 <= b <= L ->
  let m := periodic_mid L (a - b) ((a + b) / 2) in
  0 <= m <= L /\ exists d, periodic_distance L a b (2 * d) /\ periodic_distance L m a d /\ periodic_distance L m b d.
Proof.
  intros HL A B m. unfold m, periodic_mid. clear m.
  assert (PD : forall x y k d, x - y + IZR k * L = d \/ x - y + IZR k * L = - d -> 0 <= d <= L / 2 -> periodic_distance L x y d).
  { intros x y k d E D. split.
    - exists k. destruct E as [->| ->]; [apply Rabs_pos_eq|rewrite Rabs_Ropp; apply Rabs_pos_eq]; lra.
    - intros j. replace (x - y + IZR j * L) with (x - y + IZR k * L + IZR (j - k) * L) by (rewrite minus_IZR; ring).
      destruct (Z.eq_dec (j - k) 0) as [J|J].
      + rewrite J, Rmult_0_l, Rplus_0_r. destruct E as [->| ->]; [|rewrite Rabs_Ropp]; rewrite Rabs_pos_eq; lra.
      + assert (H : 1 <= IZR (j - k) \/ IZR (j - k) <= -1) by (destruct (Z_lt_le_dec 0 (j - k)); [left; apply (IZR_le 1)|right; apply (IZR_le _ (-1))]; lia).
        set (q := IZR (j - k)) in *. destruct H as [H|H].
        * rewrite Rabs_pos_eq; destruct E as [->| ->]; nra.
        * rewrite Rabs_left1; destruct E as [->| ->]; nra. }
  destruct (Rlt_dec (L / 2) (Rabs (a - b))) as [F|F].
  - assert (C : (L / 2 < a - b) \/ (L / 2 < b - a)) by (unfold Rabs in F; destruct (Rcase_abs (a - b)); lra).
    destruct (Rle_dec (L / 2) ((a + b) / 2)) as [G|G]; (split; [destruct C; lra|]); destruct C as [C|C].
    + exists ((L - (a - b)) / 2). splits; [apply (PD _ _ (-1)%Z)|apply (PD _ _ 1%Z)|apply (PD _ _ 0%Z)]; cbn [IZR]; lra || (try (left; lra)).
      all: try (right; lra). all: try lra.
    + exists ((L - (b - a)) / 2). splits; [apply (PD _ _ 1%Z)|apply (PD _ _ 0%Z)|apply (PD _ _ 1%Z)]; try lra.
    + exists ((L - (a - b)) / 2). splits; [apply (PD _ _ (-1)%Z)|apply (PD _ _ 0%Z)|apply (PD _ _ (-1)%Z)]; try lra.
    + exists ((L - (b - a)) / 2). splits; [apply (PD _ _ 1%Z)|apply (PD _ _ (-1)%Z)|apply (PD _ _ 0%Z)]; try lra.
  - assert (C : - (L / 2) <= a - b <= L / 2) by (unfold Rabs in F; destruct (Rcase_abs (a - b)); lra).
    split; [lra|]. destruct (Rle_dec b a).
    + exists ((a - b) / 2). splits; apply (PD _ _ 0%Z); lra.
    + exists ((b - a) / 2). splits; apply (PD _ _ 0%Z); lra.
Qed.
(** In a periodic box the interaction point of two particles that are inside the box when they
    interact is inside the box and, in each coordinate, in the middle between nearest images. *)
Definition inside3 (L : R) (x : vec3) : Prop := 0 <= x1 x <= L /\ 0 <= x2 x <= L /\ 0 <= x3 x <= L.
Definition midway (L a b m : R) : Prop := exists d, periodic_distance L a b (2 * d) /\ periodic_distance L m a d /\ periodic_distance L m b d.
Definition where_at (t : R) (p : particle) : vec3 :=
  V3 (y1 (pos p) + y1 (mom p) / y0 (mom p) * (t - y0 (pos p)))
     (y2 (pos p) + y2 (mom p) / y0 (mom p) * (t - y0 (pos p)))
     (y3 (pos p) + y3 (mom p) / y0 (mom p) * (t - y0 (pos p))).
Lemma propagated_eq t p : propagated t p = where_at t p.
Proof. unfold propagated, where_at. rewrite velocity_eq. reflexivity. Qed.
Theorem interaction_point_in_box L t a b : 0 < L -> inside3 L (where_at t a) -> inside3 L (where_at t b) ->
  exists x, interaction_point L None t [a; b] = Ok x /\ y0 x = t /\ inside3 L (threevec x) /\
  midway L (x1 (where_at t a)) (x1 (where_at t b)) (y1 x) /\
  midway L (x2 (where_at t a)) (x2 (where_at t b)) (y2 x) /\
  midway L (x3 (where_at t a)) (x3 (where_at t b)) (y3 x).
Proof.
  intros HL (A1 & A2 & A3) (B1 & B2 & B3). unfold interaction_point. rewrite (proj2 (rltb_spec _ _)) by auto.
  cbn [map length sum3]. rewrite !propagated_eq. set (p := where_at t a) in *. set (q := where_at t b) in *.
  eexists. split; [reflexivity|]. cbn [mk4 threevec y0 y1 y2 y3].
  assert (M1 : x1 (div3 (add3 p (add3 q (V3 0 0 0))) (INR 2)) = (x1 p + x1 q) / 2) by (unfold div3, scale3, add3; cbn [x1 x2 x3]; change (INR 2) with (1 + 1); field; lra).
  assert (M2 : x2 (div3 (add3 p (add3 q (V3 0 0 0))) (INR 2)) = (x2 p + x2 q) / 2) by (unfold div3, scale3, add3; cbn [x1 x2 x3]; change (INR 2) with (1 + 1); field; lra).
  assert (M3 : x3 (div3 (add3 p (add3 q (V3 0 0 0))) (INR 2)) = (x3 p + x3 q) / 2) by (unfold div3, scale3, add3; cbn [x1 x2 x3]; change (INR 2) with (1 + 1); field; lra).
  rewrite M1, M2, M3. unfold sub3. cbn [x1 x2 x3].
  destruct (periodic_mid_spec L _ _ HL A1 B1) as [I1 N1]. destruct (periodic_mid_spec L _ _ HL A2 B2) as [I2 N2]. destruct (periodic_mid_spec L _ _ HL A3 B3) as [I3 N3].
  unfold inside3. cbn [x1 x2 x3]. splits; auto; try apply I1; try apply I2; try apply I3.
Qed.
Print Assumptions interaction_point_in_box.
(** Without a box it is the mean of the positions at the time of the interaction. *)
Theorem interaction_point_is_mean t ins : ins <> [] ->
  exists x, interaction_point 0 None t ins = Ok x /\ y0 x = t /\
  let n := INR (length ins) in
  n * y1 x = fold_right Rplus 0 (map (fun p => x1 (where_at t p)) ins) /\
  n * y2 x = fold_right Rplus 0 (map (fun p => x2 (where_at t p)) ins) /\
  n * y3 x = fold_right Rplus 0 (map (fun p => x3 (where_at t p)) ins).
Proof.
  intros NE. unfold interaction_point. rewrite (proj2 (rltb_false _ _)) by lra. eexists. split; [reflexivity|].
  split; [reflexivity|]. cbv zeta. assert (N : INR (length ins) <> 0) by (destruct ins; [congruence|apply not_0_INR; discriminate]).
  assert (S : forall l, sum3 (map (propagated t) l) = V3 (fold_right Rplus 0 (map (fun p => x1 (where_at t p)) l)) (fold_right Rplus 0 (map (fun p => x2 (where_at t p)) l)) (fold_right Rplus 0 (map (fun p => x3 (where_at t p)) l))).
  { induction l as [|p l IH]; [reflexivity|]. cbn [map sum3 fold_right]. rewrite IH, propagated_eq. reflexivity. }
  rewrite S. set (n := INR (length ins)) in *. unfold mk4, div3, scale3. cbn [x1 x2 x3 y0 y1 y2 y3]. splits; field; auto.
Qed.
Print Assumptions interaction_point_is_mean.
Example ip_example : exists x, interaction_point 10 None 0 [Part (V4 0 1 5 5) (V4 1 0 0 0) 1 0 0 0 0 1; Part (V4 0 9 5 4) (V4 1 0 0 0) 1 1 0 0 0 1] = Ok x.
Proof.
  destruct (interaction_point_in_box 10 0 (Part (V4 0 1 5 5) (V4 1 0 0 0) 1 0 0 0 0 1) (Part (V4 0 9 5 4) (V4 1 0 0 0) 1 1 0 0 0 1)) as (x & E & _);
    [lra| | |eauto]; unfold inside3, where_at; cbn [pos mom x1 x2 x3 y0 y1 y2 y3]; lra.
Qed.

(** ** C76: energy, momentum and masses of final states *)
Definition sum4 (ps : list vec4) : vec4 := fold_right add4 zero4 ps.
(** A momentum of a real particle of mass m. *)
Definition shell (m : R) (p : vec4) : Prop := minkowski p p = m * m /\ 0 <= y0 p.
Definition unit (u : vec3) : Prop := inner u u = 1.

Lemma vec4_eq a b : y0 a = y0 b -> y1 a = y1 b -> y2 a = y2 b -> y3 a = y3 b -> a = b.
Proof. destruct a, b; cbn; congruence. Qed.
Lemma boost_add v a b : boost v (add4 a b) = add4 (boost v a) (boost v b).
Proof. apply vec4_eq; unfold boost, mk4, add4, sub3, scale3, threevec, dot3; cbn [x1 x2 x3 y0 y1 y2 y3]; ring. Qed.
Lemma boost_zero v : boost v zero4 = zero4.
Proof. apply vec4_eq; unfold boost, zero4, mk4, add4, sub3, scale3, threevec, dot3; cbn [x1 x2 x3 y0 y1 y2 y3]; ring. Qed.
Lemma boost_sum v ps : sum4 (map (boost v) ps) = boost v (sum4 ps).
Proof. induction ps as [|p ps IH]; cbn [map sum4 fold_right]; [now rewrite boost_zero|]. fold (sum4 ps). fold (sum4 (map (boost v) ps)). now rewrite boost_add, IH. Qed.
Lemma add4_assoc a b c : add4 a (add4 b c) = add4 (add4 a b) c.
Proof. apply vec4_eq; unfold add4; cbn [y0 y1 y2 y3]; ring. Qed.
Lemma sum4_app a b : sum4 (a ++ b) = add4 (sum4 a) (sum4 b).
Proof.
  induction a as [|p a IH]; cbn [app sum4 fold_right]; fold (sum4 b).
  - apply vec4_eq; unfold add4, zero4; cbn [y0 y1 y2 y3]; ring.
  - fold (sum4 (a ++ b)). fold (sum4 a). now rewrite IH, add4_assoc.
Qed.
Lemma cauchy (a b : vec3) : inner a b * inner a b <= inner a a * inner b b.
Proof.
  unfold inner. destruct a as [a1 a2 a3], b as [b1 b2 b3]. cbn [x1 x2 x3].
  assert (0 <= (a1 * b2 - a2 * b1) * (a1 * b2 - a2 * b1)) by apply Rle_0_sqr.
  assert (0 <= (a1 * b3 - a3 * b1) * (a1 * b3 - a3 * b1)) by apply Rle_0_sqr.
  assert (0 <= (a2 * b3 - a3 * b2) * (a2 * b3 - a3 * b2)) by apply Rle_0_sqr. lra.
Qed.
Lemma boost_shell v m p : speed2 v < 1 -> shell m p -> shell m (boost v p).
Proof.
  intros V [M E]. split; [now rewrite boost_preserves_product|]. destruct (gamma_eq v V) as [G _].
  unfold boost. cbn [mk4 y0]. apply Rmult_le_pos; [lra|]. change (dot3 (threevec p) v) with (inner (threevec p) v).
  pose proof (cauchy (threevec p) v) as C. change (inner v v) with (speed2 v) in C.
  assert (Q : inner (threevec p) (threevec p) <= y0 p * y0 p) by (unfold minkowski in M; unfold inner, threevec; cbn [x1 x2 x3]; nra).
  assert (N : 0 <= inner (threevec p) (threevec p)) by (unfold inner; nra). assert (0 <= speed2 v) by (unfold speed2; nra).
  assert (inner (threevec p) v * inner (threevec p) v <= y0 p * y0 p) by nra. nra.
Qed.
Lemma boost_rest v M : speed2 v < 1 -> boost v (V4 M 0 0 0) = mk4 (gamma v * M) (scale3 (- (gamma v * M)) v).
Proof.
  intros V. destruct (gamma_eq v V) as [G _]. apply vec4_eq; unfold boost, mk4, sub3, scale3, threevec, dot3; cbn [x1 x2 x3 y0 y1 y2 y3]; field; lra.
Qed.
Lemma dot_scale k u : unit u -> dot3 (scale3 k u) (scale3 k u) = k * k.
Proof. unfold unit, inner. intros U. unfold dot3, scale3. cbn [x1 x2 x3]. rewrite <- (Rmult_1_r (k * k)), <- U. ring. Qed.
Lemma shell_scale m k u : unit u -> shell m (mk4 (sqrt (m * m + k * k)) (scale3 k u)).
Proof.
  intros U. split; cbn [mk4 y0]; [|apply sqrt_pos]. unfold minkowski. cbn [mk4 y0 y1 y2 y3]. rewrite sqrt_sqrt by nra.
  pose proof (dot_scale k u U) as D. unfold dot3 in D. lra.
Qed.
Lemma unit_neg u : unit u -> unit (neg3 u).
Proof. unfold unit, inner, neg3. cbn [x1 x2 x3]. intros. lra. Qed.
Lemma scale_neg k u : scale3 k (neg3 u) = scale3 (- k) u.
Proof. unfold scale3, neg3. cbn [x1 x2 x3]. f_equal; ring. Qed.

(** Two particles: for every direction the momenta are back to back, add up to the available
    energy and are on the mass shells asked for. *)
Lemma pair_sum M ma mb u : 0 <= ma -> 0 <= mb -> 0 < M -> ma + mb <= M ->
  add4 (mk4 (energy ma (pCM M ma mb)) (scale3 (- pCM M ma mb) u)) (mk4 (energy mb (pCM M ma mb)) (scale3 (pCM M ma mb) u)) = V4 M 0 0 0.
Proof.
  intros A B S T. destruct (pCM_is_two_body_momentum M ma mb A B S T) as (_ & E & _).
  apply vec4_eq; unfold add4, mk4, scale3; cbn [x1 x2 x3 y0 y1 y2 y3]; [auto|ring|ring|ring].
Qed.
Theorem two_body_final_state sqrts ma mb u : 0 <= ma -> 0 <= mb -> 0 < sqrts -> ma + mb <= sqrts -> unit u ->
  let '(pa, pb) := sample_angles sqrts ma mb u in
  add4 pa pb = V4 sqrts 0 0 0 /\ shell ma pa /\ shell mb pb.
Proof.
  intros A B S T U. unfold sample_angles, on_shell. pose proof (unit_neg u U) as UN. rewrite !dot_scale by auto.
  splits; try (apply shell_scale; auto). pose proof (pair_sum sqrts ma mb (neg3 u) A B S T) as P.
  rewrite !scale_neg, Ropp_involutive in P. rewrite scale_neg. exact P.
Qed.
Print Assumptions two_body_final_state.

(** Boosting a final state from its centre-of-mass frame gives the total momentum P. *)
Theorem boosted_final_state P ps ms : 0 < y0 P -> 0 < minkowski P P -> sum4 ps = V4 (sqrt (minkowski P P)) 0 0 0 -> Forall2 shell ms ps ->
  let qs := map (boost (neg3 (velocity P))) ps in sum4 qs = P /\ Forall2 shell ms qs.
Proof.
  intros E M S F qs. destruct (boost_to_rest_frame P E M) as [V B]. unfold qs. split.
  - rewrite boost_sum, S, <- B. now apply boost_inverse.
  - assert (V' : speed2 (neg3 (velocity P)) < 1) by (unfold speed2, neg3 in *; cbn [x1 x2 x3] in *; lra).
    clear S. induction F; cbn [map]; constructor; auto. now apply boost_shell.
Qed.
Print Assumptions boosted_final_state.

(** Any number of particles *)
Fixpoint steps_ok (mp : R) (steps : list (R * R * vec3)) : Prop :=
  match steps with
  | [] => True
  | (mi, m, u) :: r => 0 <= m /\ mp + m <= mi /\ unit u /\ steps_ok mi r
  end.
Fixpoint final_mass (mp : R) (steps : list (R * R * vec3)) : R :=
  match steps with [] => mp | (mi, _, _) :: r => final_mass mi r end.
Lemma add_particles_spec steps : forall acc ms mp, 0 < mp -> steps_ok mp steps ->
  sum4 acc = V4 mp 0 0 0 -> Forall2 shell ms acc ->
  sum4 (add_particles acc mp steps) = V4 (final_mass mp steps) 0 0 0 /\
  Forall2 shell (ms ++ map (fun '(_, m, _) => m) steps) (add_particles acc mp steps).
Proof.
  induction steps as [|[[mi m] u] steps IH]; intros acc ms mp P OK S F; cbn [add_particles final_mass map].
  - rewrite app_nil_r. auto.
  - destruct OK as (M & L & U & OK). set (pcm := pCM mi mp m). set (e := sqrt (pcm * pcm + mp * mp)). set (beta := div3 (scale3 pcm u) e).
    assert (ES : e * e = pcm * pcm + mp * mp) by (apply sqrt_sqrt; nra). assert (EP : 0 < e) by (apply sqrt_lt_R0; nra).
    assert (SP : speed2 beta = pcm * pcm / (e * e)).
    { unfold speed2, beta, div3, scale3. cbn [x1 x2 x3]. unfold unit, inner in U.
      replace (x1 u * pcm * (1 / e) * (x1 u * pcm * (1 / e)) + x2 u * pcm * (1 / e) * (x2 u * pcm * (1 / e)) + x3 u * pcm * (1 / e) * (x3 u * pcm * (1 / e)))
        with ((x1 u * x1 u + x2 u * x2 u + x3 u * x3 u) * (pcm * pcm / (e * e))) by (field; lra). rewrite U. ring. }
    assert (V : speed2 beta < 1).
    { rewrite SP. apply (Rmult_lt_reg_r (e * e)); [nra|]. unfold Rdiv. rewrite Rmult_assoc, Rinv_l, Rmult_1_r by nra. nra. }
    assert (GM : gamma beta * mp = e).
    { destruct (gamma_eq beta V) as [G1 G2]. apply sq_inj; [nra|lra|]. rewrite SP in G2.
      assert (K : 1 - pcm * pcm / (e * e) = mp * mp / (e * e)) by (apply (Rmult_eq_reg_r (e * e)); [field_simplify; [lra|lra|lra]|nra]).
      rewrite K in G2. assert (gamma beta * gamma beta * (mp * mp) = e * e); [|lra].
      apply (Rmult_eq_reg_r (/ (e * e))); [|apply Rinv_neq_0_compat; nra]. rewrite Rinv_r by nra. rewrite <- G2. field. lra. }
    replace (ms ++ m :: map (fun '(_, m0, _) => m0) steps) with ((ms ++ [m]) ++ map (fun '(_, m0, _) => m0) steps) by (rewrite <- app_assoc; reflexivity).
    apply IH; auto; [lra| |].
    + rewrite sum4_app, boost_sum, S, boost_rest by auto. rewrite GM. cbn [sum4 fold_right].
      assert (Z : add4 (mk4 (sqrt (m * m + pcm * pcm)) (scale3 pcm u)) zero4 = mk4 (sqrt (m * m + pcm * pcm)) (scale3 pcm u)) by (apply vec4_eq; unfold add4, zero4; cbn [y0 y1 y2 y3]; ring).
      rewrite Z. replace (scale3 (- e) beta) with (scale3 (- pcm) u) by (unfold beta, div3, scale3; cbn [x1 x2 x3]; f_equal; field; lra).
      replace e with (energy mp pcm) by (unfold e, energy; f_equal; ring). apply pair_sum; lra.
    + apply Forall2_app; [|constructor; [now apply shell_scale|constructor]].
      clear S. induction F; cbn [map]; constructor; auto. now apply boost_shell.
Qed.

(** sorting *)
Lemma insert_perm x l : Permutation (x :: l) (insert x l).
Proof. induction l as [|y l IH]; cbn [insert]; [auto|]. destruct (Rle_dec x y); auto. rewrite perm_swap. now constructor. Qed.
Lemma sort_perm l : Permutation l (sort l).
Proof. induction l as [|x l IH]; cbn [sort fold_right]; auto. rewrite <- insert_perm. fold (sort l). auto. Qed.
Fixpoint ascending (t : R) (l : list R) : Prop := match l with [] => True | x :: r => t <= x /\ ascending x r end.
Lemma ascending_le t l : ascending t l -> forall x, In x l -> t <= x.
Proof. revert t. induction l as [|y l IH]; intros t H x I; [destruct I|]. destruct H as [A B]. destruct I as [<-|I]; auto. specialize (IH y B x I). lra. Qed.
Lemma insert_ascending t x l : t <= x -> ascending t l -> ascending t (insert x l).
Proof.
  revert t. induction l as [|y l IH]; intros t X H; cbn [insert ascending] in *; [auto|]. destruct H as [A B]. destruct (Rle_dec x y); cbn [ascending].
  - auto.
  - split; auto. apply IH; auto. lra.
Qed.
Lemma sort_ascending t l : (forall x, In x l -> t <= x) -> ascending t (sort l).
Proof. induction l as [|x l IH]; intros H; cbn [sort fold_right]; [exact I|]. fold (sort l). apply insert_ascending; [apply H; now left|apply IH; intros; apply H; now right]. Qed.
Lemma ascending_last t l d : ascending t l -> l <> [] -> forall x, In x l -> x <= last l d.
Proof.
  revert t. induction l as [|y l IH]; intros t H NE x I; [congruence|]. destruct H as [A B]. destruct l as [|z l].
  - destruct I as [<-|[]]. cbn. lra.
  - change (last (y :: z :: l) d) with (last (z :: l) d). destruct I as [<-|I]; [|apply (IH y); auto; discriminate].
    apply Rle_trans with z; [apply B|]. apply (IH y B ltac:(discriminate)). now left.
Qed.
Lemma last_In (l : list R) d : l <> [] -> In (last l d) l.
Proof. induction l as [|x l IH]; [congruence|]. intros _. destruct l as [|y l]; [now left|]. right. apply IH. discriminate. Qed.
Lemma partial_sums_last m : forall acc d, m <> [] -> last (partial_sums acc m) d = acc + sumR m.
Proof.
  induction m as [|x m IH]; intros acc d NE; [congruence|]. destruct m as [|y m]; [cbn; ring|].
  change (last (partial_sums acc (x :: y :: m)) d) with (last (partial_sums (acc + x) (y :: m)) d). rewrite IH by discriminate.
  cbn [sumR fold_right]. ring.
Qed.
Lemma steps_chain ts : forall ms us tp am, ascending tp ts -> (forall x, In x ms -> 0 <= x) -> (forall u, In u us -> unit u) ->
  length ts = length ms -> length us = length ms ->
  let steps := combine (combine (map (fun '(a, b) => a + b) (combine ts (partial_sums am ms))) ms) us in
  steps_ok (tp + am) steps /\ final_mass (tp + am) steps = last (tp :: ts) 0 + am + sumR ms /\ map (fun '(_, m, _) => m) steps = ms.
Proof.
  induction ts as [|t ts IH]; intros ms us tp am A M U L1 L2; destruct ms as [|m ms]; try discriminate; cbn zeta; destruct us as [|u us]; try discriminate.
  - cbn. splits; auto. ring.
  - destruct A as [A1 A2]. cbn [partial_sums combine map]. cbn [steps_ok final_mass map].
    destruct (IH ms us t (am + m)) as (S & F & X); auto; try (intros; [apply M || apply U]; now right); try (cbn in *; lia).
    cbv zeta in S, F, X. rewrite F, X. splits; auto.
    + apply M. now left. 
    + lra.
    + apply U. now left.
    + change (last (tp :: t :: ts) 0) with (last (t :: ts) 0). cbn [sumR fold_right]. fold (sumR ms). ring.
Qed.

(** For every outcome of the random draws the sampled momenta add up to the available energy at
    rest and are on the mass shells asked for. *)
Theorem many_body_final_state sqrts m draws us : (2 <= length m)%nat -> (forall x, In x m -> 0 <= x) -> sumR m < sqrts ->
  length draws = (length m - 2)%nat -> (forall x, In x draws -> 0 <= x <= sqrts - sumR m) ->
  length us = (length m - 1)%nat -> (forall u, In u us -> unit u) ->
  0 < nth 0 m 0 + nth 1 m 0 \/ (forall x, In x draws -> 0 < x) ->
  exists ps, manybody sqrts m draws us = Ok ps /\ sum4 ps = V4 sqrts 0 0 0 /\ Forall2 shell m ps.
Proof.
  intros N M T LD D LU U P. destruct m as [|m0 [|m1 ms]]; try (cbn in N; lia). cbn [nth length] in *.
  unfold manybody. rewrite partial_sums_last by discriminate. rewrite Rplus_0_l. destruct (Rle_dec sqrts (sumR (m0 :: m1 :: ms))) as [C|_]; [lra|].
  set (tot := sumR (m0 :: m1 :: ms)) in *. set (s := sqrts - tot).
  assert (IM : invariant_masses sqrts (m0 :: m1 :: ms) draws = map (fun '(a, b) => a + b) (combine (sort (0 :: draws ++ [s])) (partial_sums 0 (m0 :: m1 :: ms)))).
  { unfold invariant_masses. rewrite partial_sums_last by discriminate. rewrite Rplus_0_l. reflexivity. }
  rewrite IM. clear IM. set (T0 := sort (0 :: draws ++ [s])).
  assert (R0 : forall x, In x (0 :: draws ++ [s]) -> 0 <= x <= s).
  { intros x [<-|X]; [unfold s; lra|]. apply in_app_or in X. destruct X as [X|[<-|[]]]; [apply D in X; unfold s; lra|unfold s; lra]. }
  pose proof (sort_perm (0 :: draws ++ [s])) as PE. fold T0 in PE.
  pose proof (sort_ascending 0 (0 :: draws ++ [s]) (fun x X => proj1 (R0 x X))) as AS. fold T0 in AS.
  assert (LE : length T0 = length (m0 :: m1 :: ms)) by (rewrite <- (Permutation_length PE); cbn [length]; rewrite app_length; cbn [length]; lia).
  assert (LS : last T0 0 = s).
  { apply Rle_antisym.
    - apply R0. apply (Permutation_in _ (Permutation_sym PE)). apply last_In. intros E. rewrite E in LE. discriminate.
    - apply (ascending_last 0); auto; [intros E; rewrite E in LE; discriminate|]. apply (Permutation_in _ PE). right. apply in_or_app. right. now left. }
  destruct T0 as [|t0 [|t1 ts]] eqn:ET; try discriminate.
  assert (Z : t0 = 0).
  { destruct AS as [A0 AS]. assert (X : In 0 (t0 :: t1 :: ts)) by (apply (Permutation_in _ PE); now left). destruct X as [X|X]; auto.
    pose proof (ascending_le _ _ AS 0 X). lra. }
  subst t0. destruct us as [|u1 us]; [cbn in LU; lia|]. cbn [combine partial_sums map nth].
  destruct AS as [_ [A1 AS]].
  assert (M0 : 0 <= m0) by (apply M; now left). assert (M1 : 0 <= m1) by (apply M; right; now left). 
  assert (PM : 0 < t1 + (0 + m0 + m1)).
  { destruct P as [P|P]; [lra|]. destruct (Req_dec t1 0) as [E|E]; [|lra]. exfalso. subst t1.
    assert (PE2 : Permutation (draws ++ [s]) (0 :: ts)) by (eapply Permutation_cons_inv; exact PE).
    assert (X : In 0 (draws ++ [s])) by (apply (Permutation_in _ (Permutation_sym PE2)); now left).
    apply in_app_or in X. destruct X as [X|[X|[]]]; [apply P in X; lra|unfold s in X; lra]. }
  destruct (steps_chain ts ms us t1 (0 + m0 + m1)) as (S & F & X); auto;
    try (intros; apply M; right; now right); try (intros; apply U; now right); try (cbn [length] in *; lia).
  cbv zeta in S, F, X. set (steps := combine _ us) in *.
  replace (0 + (0 + m0)) with m0 by ring. set (mi := t1 + (0 + m0 + m1)) in *.
  assert (UU : unit u1) by (apply U; now left). assert (LM : m0 + m1 <= mi) by (unfold mi; lra).
  destruct (add_particles_spec steps [mk4 (sqrt (m0 * m0 + pCM mi m0 m1 * pCM mi m0 m1)) (scale3 (- pCM mi m0 m1) u1); mk4 (sqrt (m1 * m1 + pCM mi m0 m1 * pCM mi m0 m1)) (scale3 (pCM mi m0 m1) u1)] [m0; m1] mi) as [Y W]; auto.
  - cbn [sum4 fold_right]. pose proof (pair_sum mi m0 m1 u1 M0 M1 PM LM) as PS. unfold energy in PS. rewrite <- PS.
    apply vec4_eq; unfold add4, zero4; cbn [y0 y1 y2 y3]; ring.
  - constructor; [|constructor; [now apply shell_scale|constructor]].
    pose proof (shell_scale m0 (- pCM mi m0 m1) u1 UU) as SH. rewrite Rmult_opp_opp in SH. exact SH.
  - eexists. split; [reflexivity|]. rewrite X in W. split; [|exact W]. rewrite Y, F.
    change (last (0 :: t1 :: ts) 0) with (last (t1 :: ts) 0) in LS. rewrite LS. unfold s, tot. cbn [sumR fold_right]. fold (sumR ms). f_equal. ring.
Qed.
Print Assumptions many_body_final_state.
Example many_body_example : exists ps, manybody 10 [1; 2; 3] [2] [V3 0 0 1; V3 0 1 0] = Ok ps /\ sum4 ps = V4 10 0 0 0.
Proof.
  destruct (many_body_final_state 10 [1; 2; 3] [2] [V3 0 0 1; V3 0 1 0]) as (ps & E & S & _).
  all: try (cbn; lia). all: try (cbn; lra).
  - cbn. intros x [<-|[<-|[<-|[]]]]; lra.
  - intros x [<-|[]]. cbn. lra.
  - intros u [<-|[<-|[]]]; unfold unit, inner; cbn; lra.
  - eauto.
Qed.
(** Below the threshold an exception is thrown. *)
Theorem many_body_below_threshold sqrts m draws us : (2 <= length m)%nat -> sqrts <= sumR m -> manybody sqrts m draws us = Throw E_runtime.
Proof.
  intros N T. destruct m as [|m0 [|m1 ms]]; try (cbn in N; lia). unfold manybody. rewrite partial_sums_last by discriminate. rewrite Rplus_0_l.
  destruct (Rle_dec _ _); [reflexivity|contradiction].
Qed.

(** ** C77: formation *)
(** The cross section grows from its initial fraction to 1 while a particle forms. *)
Definition factor_at (power : R) (p : particle) (t : R) : R := xsec_scaling_factor power p (t - y0 (pos p)).
Definition forming (p : particle) : Prop := 0 <= scaling p <= 1 /\ begin_form p <= form_time p.
Lemma power01 x w : 0 < x < 1 -> 0 < w -> 0 < Rpower x w <= 1.
Proof.
  intros X W. split; [apply exp_pos|]. apply Rle_trans with (Rpower 1 w); [apply Rle_Rpower_l; lra|]. unfold Rpower. rewrite ln_1, Rmult_0_r, exp_0. lra.
Qed.
Lemma forming_ratio b f t : b < t -> t < f -> 0 < (t - b) / (f - b) < 1.
Proof.
  intros. assert (0 < / (f - b)) by (apply Rinv_0_lt_compat; lra). split; [apply Rmult_lt_0_compat; lra|].
  apply (Rmult_lt_reg_r (f - b)); [lra|]. unfold Rdiv. rewrite Rmult_assoc, Rinv_l by lra. lra.
Qed.
Theorem scaling_factor_grows power p t t' : forming p -> t <= t' ->
  scaling p <= factor_at power p t <= 1 /\ factor_at power p t <= factor_at power p t' /\
  (form_time p <= t -> factor_at power p t = 1) /\
  (t < form_time p -> t <= begin_form p -> factor_at power p t = scaling p) /\
  (t < form_time p -> power <= 0 -> factor_at power p t = scaling p).
Proof.
  intros [S B] T. assert (TT : forall u, y0 (pos p) + (u - y0 (pos p)) = u) by (intros; ring).
  unfold factor_at, xsec_scaling_factor. cbv zeta. rewrite !TT.
  destruct (Rle_dec power 0) as [PW|PW].
  - destruct (Rlt_dec t (form_time p)); destruct (Rlt_dec t' (form_time p)); splits; intros; lra.
  - destruct (Rle_dec (form_time p) t) as [F|F]; destruct (Rle_dec (form_time p) t') as [F'|F']; try (splits; intros; lra).
    + destruct (Rle_dec t (begin_form p)) as [G|G]; [splits; intros; lra|].
      pose proof (power01 _ power (forming_ratio (begin_form p) (form_time p) t ltac:(lra) ltac:(lra)) ltac:(lra)) as Q.
      set (q := Rpower _ _) in *. splits; intros; nra.
    + destruct (Rle_dec t (begin_form p)) as [G|G]; destruct (Rle_dec t' (begin_form p)) as [G'|G']; try (splits; intros; lra).
      * pose proof (power01 _ power (forming_ratio (begin_form p) (form_time p) t' ltac:(lra) ltac:(lra)) ltac:(lra)) as Q.
        set (q := Rpower _ _) in *. splits; intros; nra.
      * pose proof (forming_ratio (begin_form p) (form_time p) t ltac:(lra) ltac:(lra)) as X.
        pose proof (forming_ratio (begin_form p) (form_time p) t' ltac:(lra) ltac:(lra)) as X'.
        pose proof (power01 _ power X ltac:(lra)) as Q. pose proof (power01 _ power X' ltac:(lra)) as Q'.
        assert (QQ : Rpower ((t - begin_form p) / (form_time p - begin_form p)) power <= Rpower ((t' - begin_form p) / (form_time p - begin_form p)) power).
        { apply Rle_Rpower_l; [lra|]. split; [lra|]. apply Rmult_le_compat_r; [left; apply Rinv_0_lt_compat; lra|lra]. }
        set (q := Rpower ((t - _) / _) _) in *. set (q' := Rpower _ _) in *. splits; intros; nra.
Qed.
Print Assumptions scaling_factor_grows.
Example forming_example : forming (Part (V4 1 0 0 0) (V4 5 0 0 3) 4 7 0 3 1 (/ 2)).
Proof. unfold forming. cbn. lra. Qed.

Lemma best_by_In better l : forall b, In (best_by better b l) (b :: l).
Proof.
  induction l as [|p l IH]; intros b; cbn [best_by]; [now left|]. destruct (IH (if better p b then p else b)) as [E|E]; [|now right; right].
  destruct (better p b); rewrite <- E; [right|]; now left.
Qed.
Lemma best_by_max (f : particle -> R) l : forall b, forall q, In q (b :: l) -> f q <= f (best_by (fun q b => rltb (f b) (f q)) b l).
Proof.
  induction l as [|p l IH]; intros b q [<-|I]; cbn [best_by].
  - lra.
  - destruct I.
  - destruct (rltb (f b) (f p)) eqn:E.
    + apply rltb_spec in E. specialize (IH p p (or_introl eq_refl)). lra.
    + apply (IH b b). now left.
  - destruct I as [<-|I].
    + destruct (rltb (f b) (f p)) eqn:E; [apply (IH p p); now left|]. apply rltb_false in E. specialize (IH b b (or_introl eq_refl)). lra.
    + apply IH. now right.
Qed.
(** The participant that forms last (or, of participants that form within 1e-6 of each other,
    the one with the smallest initial fraction) decides: while it is unformed, every product
    forms no earlier than it and starts with at most its fraction of the cross section. *)
Theorem formation_is_inherited texec ins outs : ins <> [] -> (forall o, In o outs -> scaling o <= 1) ->
  exists lf outs', assign_formation texec ins outs = Ok outs' /\ In lf ins /\
  (forall q, In q ins -> form_time q < form_time lf + 2 * really_small) /\
  (forall q, In q ins -> form_time lf < form_time q -> scaling lf <= scaling q) /\
  Forall2 (fun o o' => pos o' = pos o /\ mom o' = mom o /\ pid o' = pid o /\
    (texec < form_time lf ->
       scaling o' = scaling lf * scaling o /\
       form_time o' = if Rlt_dec (scaling o) 1 then Rmax (form_time o) (form_time lf) else form_time lf) /\
    (form_time lf <= texec ->
       scaling o' = scaling o /\
       form_time o' = (if Req_EM_T (scaling o) 1 then texec else form_time o))) outs outs'.
Proof.
  intros NE SC. destruct ins as [|p r]; [congruence|]. exists (last_formed p r). cbn [assign_formation]. eexists. split; [reflexivity|].
  assert (RS : 0 < really_small) by apply rs_pos. splits.
  - unfold last_formed. destruct (all_same_formation (p :: r)); apply best_by_In.
  - intros q Q. unfold last_formed. destruct (all_same_formation (p :: r)) eqn:AS.
    + cbn [all_same_formation] in AS. rewrite forallb_forall in AS.
      assert (D : forall q, In q (p :: r) -> Rabs (form_time p - form_time q) < really_small).
      { intros x [<-|X]; [rewrite Rminus_diag_eq, Rabs_R0 by auto; auto|]. apply rltb_spec. auto. }
      pose proof (D q Q) as D1. pose proof (D _ (best_by_In (fun q b => rltb (scaling q) (scaling b)) r p)) as D2.
      set (b := best_by _ p r) in *. apply Rabs_def2 in D1. apply Rabs_def2 in D2. lra.
    + pose proof (best_by_max form_time r p q Q). set (b := best_by _ p r) in *. lra.
  - intros q Q L. unfold last_formed in *. destruct (all_same_formation (p :: r)) eqn:AS.
    + pose proof (best_by_max (fun x => - scaling x) r p q Q) as B.
      assert (E : forall b l, best_by (fun q b => rltb (- scaling b) (- scaling q)) b l = best_by (fun q b => rltb (scaling q) (scaling b)) b l).
      { intros b l. revert b. induction l as [|x l IH]; intros b; cbn [best_by]; auto. rewrite IH. f_equal.
        replace (rltb (- scaling b) (- scaling x)) with (rltb (scaling x) (scaling b)); auto.
        destruct (rltb (scaling x) (scaling b)) eqn:X; symmetry; [apply rltb_spec in X; apply rltb_spec|apply rltb_false in X; apply rltb_false]; lra. }
      rewrite E in B. lra.
    + pose proof (best_by_max form_time r p q Q). lra.
  - set (lf := last_formed p r). clear NE. induction outs as [|o outs IH]; cbn [map]; constructor; [|apply IH; intros; apply SC; now right].
    assert (S1 : scaling o <= 1) by (apply SC; now left). unfold assign_formation1.
    destruct (rltb texec (form_time lf)) eqn:T; [apply rltb_spec in T|apply rltb_false in T].
    + destruct (rltb (scaling o) 1) eqn:S; [apply rltb_spec in S|apply rltb_false in S].
      * change (form_time (set_scaling (scaling lf * scaling o) o)) with (form_time o).
        destruct (rltb (form_time o) (form_time lf)) eqn:F; [apply rltb_spec in F|apply rltb_false in F];
          cbn [pos mom pid scaling form_time set_scaling set_slow_formation]; splits; auto; intros; try lra; destruct (Rlt_dec (scaling o) 1); try lra; split; auto.
        -- rewrite Rmax_right; lra.
        -- rewrite Rmax_left; lra.
      * cbn [pos mom pid scaling form_time set_scaling set_slow_formation]. splits; auto; intros; try lra. destruct (Rlt_dec (scaling o) 1); try lra.
        split; auto. assert (scaling o = 1) as -> by lra. ring.
    + destruct (Req_EM_T (scaling o) 1) as [E|E]; cbn [pos mom pid scaling form_time set_formation set_slow_formation]; splits; auto; intros; try lra; auto.
Qed.
Print Assumptions formation_is_inherited.
Example formation_example : exists o', assign_formation 1 [Part (V4 1 0 0 0) (V4 5 0 0 3) 4 7 0 3 1 (/ 2)] [Part (V4 1 0 0 0) (V4 5 0 0 3) 4 7 0 0 0 1] = Ok [o'] /\ form_time o' = 3 /\ scaling o' = / 2.
Proof.
  cbn [assign_formation map]. eexists. split; [reflexivity|]. unfold assign_formation1, last_formed. cbn [all_same_formation forallb best_by form_time scaling].
  rewrite (proj2 (rltb_spec 1 3)), (proj2 (rltb_false 1 1)) by lra. cbn. lra.
Qed.

(** ** C78: spin vectors *)
(** A spin vector must be orthogonal to the momentum.  The one that is set is so only if the
    sampled spin has no component along the momentum; the boost goes in the wrong direction. *)
Theorem unpolarized_spin_orthogonal_partial p s : 0 < y0 p -> 0 < minkowski p p ->
  minkowski p (unpolarized_spin p s) = - 2 * gamma (velocity p) * inner (threevec p) s /\
  minkowski (unpolarized_spin p s) (unpolarized_spin p s) = - inner s s /\
  minkowski p (boost (neg3 (velocity p)) (mk4 0 s)) = 0.
Proof.
  intros E M. destruct (boost_to_rest_frame p E M) as [V B]. splits.
  - destruct (gamma_eq _ V) as [G1 G2]. unfold unpolarized_spin, boost, minkowski. set (g := gamma (velocity p)) in *. 
    rewrite velocity_eq in *. unfold speed2 in *. unfold mk4, sub3, scale3, threevec, dot3, inner. cbn [x1 x2 x3 y0 y1 y2 y3] in *.
    set (e := y0 p) in *. set (a := y1 p) in *. set (b := y2 p) in *. set (c := y3 p) in *. destruct s as [s1 s2 s3]. cbn [x1 x2 x3].
    set (d := a * s1 + b * s2 + c * s3).
    assert (Q : a * a + b * b + c * c = e * e * (1 - / (g * g))).
    { assert (K : 1 - (a / e * (a / e) + b / e * (b / e) + c / e * (c / e)) = / (g * g)) by (apply (Rmult_eq_reg_l (g * g)); [rewrite G2; field; lra|nra]).
      rewrite <- K. field. lra. }
    replace (e * (g * (0 - (s1 * (a / e) + s2 * (b / e) + s3 * (c / e)))) -
      (a * (s1 - a / e * (g / (g + 1) * (g * (0 - (s1 * (a / e) + s2 * (b / e) + s3 * (c / e))) + 0))) +
       b * (s2 - b / e * (g / (g + 1) * (g * (0 - (s1 * (a / e) + s2 * (b / e) + s3 * (c / e))) + 0))) +
       c * (s3 - c / e * (g / (g + 1) * (g * (0 - (s1 * (a / e) + s2 * (b / e) + s3 * (c / e))) + 0)))))
      with (- g * d - d - g * g / (g + 1) * d * ((a * a + b * b + c * c) / (e * e))) by (unfold d; field; lra).
    rewrite Q. field. lra.
  - unfold unpolarized_spin. rewrite boost_preserves_product by auto. unfold minkowski, inner, mk4. cbn [y0 y1 y2 y3]. ring.
  - assert (V' : speed2 (neg3 (velocity p)) < 1) by (unfold speed2, neg3 in *; cbn [x1 x2 x3] in *; lra).
    rewrite <- (boost_inverse (velocity p) p V) at 1. rewrite boost_preserves_product by auto. rewrite B. unfold minkowski, mk4. cbn [y0 y1 y2 y3]. ring.
Qed.
Print Assumptions unpolarized_spin_orthogonal_partial.
Theorem unpolarized_spin_orthogonal_refuted : exists p s, 0 < y0 p /\ 0 < minkowski p p /\ minkowski p (unpolarized_spin p s) <> 0.
Proof.
  assert (M : minkowski (V4 5 0 0 3) (V4 5 0 0 3) = 16) by (unfold minkowski; cbn; ring).
  exists (V4 5 0 0 3), (V3 0 0 1). splits; [cbn; lra|lra|]. destruct (unpolarized_spin_orthogonal_partial (V4 5 0 0 3) (V3 0 0 1)) as [E _]; [cbn; lra|lra|].
  rewrite E. destruct (boost_to_rest_frame (V4 5 0 0 3)) as [V _]; [cbn; lra|lra|]. destruct (gamma_eq _ V) as [G _].
  unfold inner, threevec. cbn [x1 x2 x3 y1 y2 y3]. lra.
Qed.
Print Assumptions unpolarized_spin_orthogonal_refuted.
