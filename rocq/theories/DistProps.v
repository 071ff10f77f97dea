(** Properties of the distributions and the momentum samplers (C119). *)
From Coq Require Import ZArith Reals RList RiemannInt_SF List Bool Lra Lia Psatz.
From Verif Require Import Base VecModel NucleusModel WoodsSaxon DistModel.
Import ListNotations.
Open Scope R_scope.

(** ** Integrals of functions with jumps *)
Lemma ordered_between l i : ordered_Rlist l -> (S i < length l)%nat -> pos_Rl l 0 <= pos_Rl l i /\ pos_Rl l (S i) <= pos_Rl l (pred (length l)).
Proof.
  intros O L. split.
  - apply RList_P5; auto. apply RList_P3. exists i. split; auto; lia.
  - apply RList_P7; auto. apply RList_P3. exists (S i). split; auto.
Qed.
Lemma step_modified a b (phi : StepFun a b) c : a <= b ->
  { psi : StepFun a b | (forall t, a < t < b -> fe psi t = fe phi t) /\ (forall t, t = a \/ t = b -> fe psi t = fe phi t + c) /\ RiemannInt_SF psi = RiemannInt_SF phi }.
Proof.
  intros AB. destruct phi as [phi (l & lf & AD)].
  assert (AD' : adapted_couple (fun t => if Req_EM_T t a then phi t + c else if Req_EM_T t b then phi t + c else phi t) a b l lf).
  { destruct AD as (O & M0 & M1 & LL & CC). split; [exact O|split; [exact M0|split; [exact M1|split; [exact LL|]]]]. intros i Hi t Ht. rewrite <- (CC i Hi t Ht).
    destruct (ordered_between l i O) as (B0 & B1); [lia|]. unfold open_interval in Ht. rewrite M0 in B0. rewrite M1 in B1.
    unfold Rmin in B0. unfold Rmax in B1. destruct (Rle_dec a b); [|lra].
    destruct (Req_EM_T t a); [lra|]. destruct (Req_EM_T t b); [lra|]. reflexivity. }
  exists (@mkStepFun a b _ (existT (fun l => is_subdivision (fun t => if Req_EM_T t a then phi t + c else if Req_EM_T t b then phi t + c else phi t) a b l) l (existT _ lf AD'))). cbn. splits.
  - intros t Ht. destruct (Req_EM_T t a); [lra|]. destruct (Req_EM_T t b); [lra|]. reflexivity.
  - intros t [->| ->]; [destruct (Req_EM_T a a); [reflexivity|lra]|]. destruct (Req_EM_T b a); [reflexivity|]. destruct (Req_EM_T b b); [reflexivity|lra].
  - reflexivity.
Qed.
Lemma integrable_inside f g a b : a <= b -> (forall t, a < t < b -> f t = g t) -> Riemann_integrable g a b -> Riemann_integrable f a b.
Proof.
  intros AB E pr eps. destruct (pr eps) as (phi & psi & H1 & H2).
  destruct (step_modified a b psi (Rabs (f a - g a) + Rabs (f b - g b)) AB) as (psi' & Q1 & Q2 & Q3).
  exists phi, psi'. split; [|rewrite Q3; exact H2]. intros t Ht. specialize (H1 t Ht).
  unfold Rmin, Rmax in Ht. destruct (Rle_dec a b); [|lra].
  pose proof (Rabs_pos (f a - g a)). pose proof (Rabs_pos (f b - g b)).
  destruct (Req_dec t a) as [->|NA]; [|destruct (Req_dec t b) as [->|NB]].
  - rewrite Q2 by auto. replace (f a - phi a) with ((g a - phi a) + (f a - g a)) by ring. pose proof (Rabs_triang (g a - phi a) (f a - g a)). lra.
  - rewrite Q2 by auto. replace (f b - phi b) with ((g b - phi b) + (f b - g b)) by ring. pose proof (Rabs_triang (g b - phi b) (f b - g b)). lra.
  - rewrite Q1 by lra. rewrite E by lra. exact H1.
Qed.
Lemma integral_inside f g a b m : a <= b -> (forall t, a < t < b -> f t = g t) -> integral g a b m -> integral f a b m.
Proof.
  intros AB E (pr & I). exists (integrable_inside f g a b AB E pr). rewrite <- I. apply RiemannInt_P18; auto.
Qed.
Lemma integral_sum f a b c m n : a <= b <= c -> integral f a b m -> integral f b c n -> integral f a c (m + n).
Proof.
  intros (H1 & H2) (p1 & I1) (p2 & I2). exists (RiemannInt_P24 p1 p2). rewrite <- I1, <- I2. symmetry. apply RiemannInt_P26.
Qed.
Lemma integral_glue f g h a b c m n : a <= b <= c -> (forall x, a < x < b -> f x = g x) -> (forall x, b < x < c -> f x = h x) ->
  integral g a b m -> integral h b c n -> integral f a c (m + n).
Proof. intros (H1 & H2) E1 E2 I1 I2. apply integral_sum with b; auto; eapply integral_inside; eauto. Qed.
Lemma integral_unique f a b m n : integral f a b m -> integral f a b n -> m = n.
Proof. intros (p & <-) (q & <-). apply RiemannInt_P5. Qed.
(** a continuous function has an antiderivative that vanishes at the end *)
Lemma primitive_exists f a b : a <= b -> (forall x, a <= x <= b -> continuity_pt f x) ->
  exists G, (forall x, a <= x <= b -> derivable_pt_lim G x (- f x)) /\ G b = 0.
Proof.
  intros AB C. destruct (RiemannInt_P29 AB C) as (D & _).
  set (P := primitive AB (FTC_P1 AB C)) in *.
  exists (fun x => P b - P x). split; [|ring]. intros x Hx. destruct (D x Hx) as ((l & Hl) & E). cbn in E.
  replace (- f x) with (0 - l) by (rewrite E; cbn; ring).
  apply (derivable_pt_lim_minus (fct_cte (P b)) P); [apply derivable_pt_lim_const|exact Hl].
Qed.

(** ** Sums of exponentially distributed numbers with a weight *)
(** the weight reached when the numbers already drawn add up to s, the next being u *)
Definition cut (X : R) (A : R -> R) (s : R) : R := if Rle_dec s X then A s else 0.
Lemma neg_ln_pos u : 0 < u < 1 -> 0 < - ln u.
Proof. intros H. assert (ln u < 0) by (rewrite <- ln_1; apply ln_increasing; lra). lra. Qed.
(** [A] is the weight before one more number, [A'] after it *)
Lemma layer X A A' s : 0 <= s -> (forall x, 0 <= x <= X -> derivable_pt_lim A x (A x - A' x)) -> A X = 0 -> (forall x, 0 <= x <= X -> continuity_pt A' x) ->
  integral (fun u => cut X A' (s + - ln u)) 0 1 (cut X A s).
Proof.
  intros S0 D AX C. unfold cut at 2. destruct (Rle_dec s X) as [SX|SX].
  2: { apply integral_eq with (0 * (1 - 0)); [ring|]. apply integral_inside with (fun _ => 0); [lra| |apply integral_const].
       intros u Hu. unfold cut. pose proof (neg_ln_pos u Hu). destruct (Rle_dec (s + - ln u) X); [lra|reflexivity]. }
  set (u0 := exp (- (X - s))). destruct (exp_le_1 (X - s)) as (U0 & U1); [lra|]. fold u0 in U0, U1.
  apply integral_eq with (0 * (u0 - 0) + (1 * A (s + - ln 1) - u0 * A (s + - ln u0))).
  { rewrite ln_1, Ropp_0, Rplus_0_r. unfold u0. rewrite ln_exp. replace (s + - - (X - s)) with X by ring. rewrite AX. ring. }
  assert (LE : forall u, 0 < u -> (s + - ln u <= X <-> u0 <= u)).
  { intros u Hu. unfold u0. rewrite <- neg_ln_le by auto. split; lra. }
  apply integral_glue with (b := u0) (g := fun _ => 0) (h := fun u => A' (s + - ln u)); [lra|..].
  - intros u Hu. unfold cut. destruct (Rle_dec (s + - ln u) X) as [Q|Q]; [apply LE in Q; lra|reflexivity].
  - intros u Hu. unfold cut. destruct (Rle_dec (s + - ln u) X) as [Q|Q]; [reflexivity|exfalso; apply Q, LE; lra].
  - apply integral_const.
  - apply (integral_antiderivative (fun u => A' (s + - ln u)) (fun u => u * A (s + - ln u))); auto.
    + intros u Hu. assert (R1 : s + - ln u <= X) by (apply LE; lra).
      assert (R0 : 0 <= s + - ln u). { destruct (Req_dec u 1) as [->|]; [rewrite ln_1; lra|]. assert (0 < - ln u) by (apply neg_ln_pos; lra). lra. }
      pose proof (D (s + - ln u) (conj R0 R1)) as DA.
      assert (DL : derivable_pt_lim (fun y => s + - ln y) u (0 + - / u)).
      { apply (derivable_pt_lim_plus (fct_cte s) (- ln)%F); [apply derivable_pt_lim_const|]. apply derivable_pt_lim_opp, derivable_pt_lim_ln. lra. }
      pose proof (derivable_pt_lim_comp (fun y => s + - ln y) A u _ _ DL DA) as DC.
      pose proof (derivable_pt_lim_mult id (comp A (fun y => s + - ln y)) u 1 _ (derivable_pt_lim_id u) DC) as DM.
      unfold mult_fct, comp, id in DM.
      match type of DM with derivable_pt_lim _ _ ?l => replace (A' (s + - ln u)) with l by (field; lra) end. exact DM.
    + intros u Hu. assert (R1 : s + - ln u <= X) by (apply LE; lra).
      assert (R0 : 0 <= s + - ln u). { destruct (Req_dec u 1) as [->|]; [rewrite ln_1; lra|]. assert (0 < - ln u) by (apply neg_ln_pos; lra). lra. }
      apply (comp_cont (fun u => s + - ln u) A'); [|apply C; auto]. apply cont_plus; [apply cont_c|]. apply cont_opp, continuity_pt_ln. lra.
Qed.

(** ** Specification: probabilities for four and five independent draws *)
Definition prob_four (P : R -> R -> R -> R -> Prop) (m : R) : Prop :=
  exists f, (forall u, 0 < u < 1 -> prob3 (fun a b c => P a b c u) (f u)) /\ integral f 0 1 m.
(** a first draw from (0, 1) on which the event depends piecewise (see WoodsSaxon.prob4) *)
Definition prob_five (P : R -> R -> R -> R -> R -> Prop) (m : R) : Prop :=
  exists l, end_of 0 l = 1 /\ pieces 0 l (fun x q => prob_four (P x) q) /\ m = weighted 0 l.
(** the thermal distribution of the momentum: phase space times the Boltzmann factor of the energy *)
Definition boltzmann (m T p : R) : R := p * p * exp (- sqrt (p * p + m * m) / T).

(** ** Helpers *)
Lemma prob_four_ext (P Q : R -> R -> R -> R -> Prop) m : (forall u v w x, 0 < u < 1 -> 0 < v < 1 -> 0 < w < 1 -> 0 < x < 1 -> (P u v w x <-> Q u v w x)) -> prob_four P m -> prob_four Q m.
Proof. intros E (f & H & I). exists f. split; auto. intros u Hu. apply prob3_ext with (fun a b c => P a b c u); auto. Qed.
Lemma prob_four_of_3 P m : prob3 P m -> prob_four (fun u v w _ => P u v w) m.
Proof. intros H. exists (fun _ => m). split; auto. apply integral_eq with (m * (1 - 0)); [ring|apply integral_const]. Qed.
Lemma layer1 Q X A A' s : (forall t, 0 <= t -> prob1 (fun d => Q d t) (cut X A' t)) -> 0 <= s ->
  (forall x, 0 <= x <= X -> derivable_pt_lim A x (A x - A' x)) -> A X = 0 -> (forall x, 0 <= x <= X -> continuity_pt A' x) ->
  prob2 (fun d u => Q d (s + - ln u)) (cut X A s).
Proof.
  intros H S0 D AX C. exists (fun u => cut X A' (s + - ln u)). split; [|apply layer; auto].
  intros u Hu. apply H. pose proof (neg_ln_pos u Hu). lra.
Qed.
Lemma layer2 Q X A A' s : (forall t, 0 <= t -> prob2 (fun d u => Q d u t) (cut X A' t)) -> 0 <= s ->
  (forall x, 0 <= x <= X -> derivable_pt_lim A x (A x - A' x)) -> A X = 0 -> (forall x, 0 <= x <= X -> continuity_pt A' x) ->
  prob3 (fun d u v => Q d u (s + - ln v)) (cut X A s).
Proof.
  intros H S0 D AX C. exists (fun u => cut X A' (s + - ln u)). split; [|apply layer; auto].
  intros u Hu. apply (H (s + - ln u)). pose proof (neg_ln_pos u Hu). lra.
Qed.
Lemma layer3 Q X A A' s : (forall t, 0 <= t -> prob3 (fun d u v => Q d u v t) (cut X A' t)) -> 0 <= s ->
  (forall x, 0 <= x <= X -> derivable_pt_lim A x (A x - A' x)) -> A X = 0 -> (forall x, 0 <= x <= X -> continuity_pt A' x) ->
  prob_four (fun d u v w => Q d u v (s + - ln w)) (cut X A s).
Proof.
  intros H S0 D AX C. exists (fun u => cut X A' (s + - ln u)). split; [|apply layer; auto].
  intros u Hu. apply (H (s + - ln u)). pose proof (neg_ln_pos u Hu). lra.
Qed.
Lemma derivable_cont f x l : derivable_pt_lim f x l -> continuity_pt f x.
Proof. intros H. apply derivable_continuous_pt. exists l. exact H. Qed.
Lemma exp_weight B g X : (forall x, 0 <= x <= X -> derivable_pt_lim B x (- g x)) ->
  forall x, 0 <= x <= X -> derivable_pt_lim (fun s => exp s * B s) x (exp x * B x - exp x * g x).
Proof.
  intros D x Hx. pose proof (derivable_pt_lim_mult exp B x _ _ (derivable_pt_lim_exp x) (D x Hx)) as M.
  replace (exp x * B x - exp x * g x) with (exp x * B x + exp x * - g x) by ring. exact M.
Qed.
(** the weights for one, two and three exponentially distributed numbers *)
Lemma chain h X : 0 <= X -> (forall x, 0 <= x <= X -> continuity_pt h x) -> exists A1 A2 A3,
  ((forall x, 0 <= x <= X -> derivable_pt_lim A1 x (A1 x - h x)) /\ A1 X = 0) /\
  ((forall x, 0 <= x <= X -> derivable_pt_lim A2 x (A2 x - A1 x)) /\ A2 X = 0) /\
  ((forall x, 0 <= x <= X -> derivable_pt_lim A3 x (A3 x - A2 x)) /\ A3 X = 0) /\
  integral (fun t => exp (- t) * h t) 0 X (A1 0) /\ integral (fun t => t * (exp (- t) * h t)) 0 X (A2 0) /\
  integral (fun t => t * t / 2 * (exp (- t) * h t)) 0 X (A3 0).
Proof.
  intros X0 C. set (g := fun t => exp (- t) * h t).
  assert (CE : forall x, continuity_pt (fun t => exp (- t)) x) by (intros; apply (comp_cont (fun t => - t) exp); [apply cont_opp, cont_id|apply continuity_pt_exp]).
  assert (CG : forall x, 0 <= x <= X -> continuity_pt g x) by (intros; apply cont_mult; auto).
  destruct (primitive_exists g 0 X X0 CG) as (B1 & D1 & Z1).
  destruct (primitive_exists B1 0 X X0) as (B2 & D2 & Z2); [intros; eapply derivable_cont; eauto|].
  destruct (primitive_exists B2 0 X X0) as (B3 & D3 & Z3); [intros; eapply derivable_cont; eauto|].
  exists (fun s => exp s * B1 s), (fun s => exp s * B2 s), (fun s => exp s * B3 s).
  assert (GG : forall x, exp x * g x = h x) by (intros x; unfold g; rewrite <- Rmult_assoc, <- exp_plus, Rplus_opp_r, exp_0; ring).
  splits; cbn beta.
  - intros x Hx. rewrite <- (GG x). apply (exp_weight B1 g X D1); auto.
  - rewrite Z1; ring.
  - intros x Hx. apply (exp_weight B2 B1 X D2); auto.
  - rewrite Z2; ring.
  - intros x Hx. apply (exp_weight B3 B2 X D3); auto.
  - rewrite Z3; ring.
  - rewrite exp_0, Rmult_1_l. apply integral_eq with (- B1 X - - B1 0); [rewrite Z1; ring|].
    apply (integral_antiderivative g (fun x => - B1 x)); auto. intros x Hx. replace (g x) with (- - g x) by ring. apply derivable_pt_lim_opp, D1; auto.
  - rewrite exp_0, Rmult_1_l. apply integral_eq with (- (B2 X + X * B1 X) - - (B2 0 + 0 * B1 0)); [rewrite Z1, Z2; ring|].
    apply (integral_antiderivative (fun t => t * g t) (fun x => - (B2 x + x * B1 x))); auto.
    + intros x Hx. replace (x * g x) with (- (- B1 x + (1 * B1 x + x * - g x))) by ring.
      apply derivable_pt_lim_opp. apply (derivable_pt_lim_plus B2 (fun x => x * B1 x)); [apply D2; auto|].
      apply (derivable_pt_lim_mult id B1); [apply derivable_pt_lim_id|apply D1; auto].
    + intros x Hx. apply cont_mult; [apply cont_id|auto].
  - rewrite exp_0, Rmult_1_l. apply integral_eq with (- (B3 X + (X * B2 X + X * X / 2 * B1 X)) - - (B3 0 + (0 * B2 0 + 0 * 0 / 2 * B1 0))); [rewrite Z1, Z2, Z3; field|].
    apply (integral_antiderivative (fun t => t * t / 2 * g t) (fun x => - (B3 x + (x * B2 x + x * x / 2 * B1 x)))); auto.
    + intros x Hx. replace (x * x / 2 * g x) with (- (- B2 x + ((1 * B2 x + x * - B1 x) + (x * B1 x + x * x / 2 * - g x)))) by field.
      apply derivable_pt_lim_opp. apply (derivable_pt_lim_plus B3 (fun x => x * B2 x + x * x / 2 * B1 x)); [apply D3; auto|].
      apply (derivable_pt_lim_plus (fun x => x * B2 x) (fun x => x * x / 2 * B1 x)).
      * apply (derivable_pt_lim_mult id B2); [apply derivable_pt_lim_id|apply D2; auto].
      * apply (derivable_pt_lim_mult (fun x => x * x / 2) B1); [|apply D1; auto].
        replace x with ((1 * x + x * 1) * / 2 + x * x * 0) at 2 by field.
        apply (derivable_pt_lim_mult (fun x => x * x) (fct_cte (/ 2))); [|apply derivable_pt_lim_const].
        apply (derivable_pt_lim_mult id id); apply derivable_pt_lim_id.
    + intros x Hx. apply cont_mult; [|auto]. apply cont_mult; [apply cont_mult; apply cont_id|apply cont_c].
Qed.
Lemma substitution f phi psi a b m : a <= b -> (forall x, a <= x <= b -> phi a <= phi x <= phi b) ->
  (forall y, phi a <= y <= phi b -> continuity_pt f y) -> (forall x, a <= x <= b -> derivable_pt_lim phi x (psi x)) ->
  (forall x, a <= x <= b -> continuity_pt psi x) ->
  integral f (phi a) (phi b) m -> integral (fun x => f (phi x) * psi x) a b m.
Proof.
  intros AB MO C D CP I. assert (PAB : phi a <= phi b) by (destruct (MO b); lra).
  destruct (primitive_exists f _ _ PAB C) as (G & DG & GZ).
  assert (I' : integral f (phi a) (phi b) (- G (phi b) - - G (phi a))).
  { apply (integral_antiderivative f (fun x => - G x)); auto. intros x Hx. replace (f x) with (- - f x) by ring. apply derivable_pt_lim_opp, DG; auto. }
  rewrite (integral_unique _ _ _ _ _ I I').
  apply (integral_antiderivative (fun x => f (phi x) * psi x) (fun x => - G (phi x))); auto.
  - intros x Hx. replace (f (phi x) * psi x) with (- (- f (phi x) * psi x)) by ring. apply derivable_pt_lim_opp.
    apply (derivable_pt_lim_comp phi G); [apply D; auto|apply DG, MO; auto].
  - intros x Hx. apply cont_mult; [|auto]. apply (comp_cont phi f); [eapply derivable_cont; eauto|apply C, MO; auto].
Qed.
Lemma integral_scale f k a b m : integral f a b m -> integral (fun x => k * f x) a b (k * m).
Proof.
  intros (pr & E). assert (Z : integral (fun _ => 0) a b 0) by (apply integral_eq with (0 * (b - a)); [ring|apply integral_const]).
  destruct Z as (pz & EZ). pose (q := RiemannInt_P10 k pz pr).
  assert (IQ : integral (fun x => 0 + k * f x) a b (k * m)) by (exists q; rewrite (RiemannInt_P13 pz pr q), EZ, E; ring).
  destruct IQ as (q' & EQ). assert (pr' : Riemann_integrable (fun x => k * f x) a b).
  { intros eps. destruct (q' eps) as (p1 & p2 & A & B). exists p1, p2. split; auto. intros t Ht. replace (k * f t) with (0 + k * f t) by ring. auto. }
  exists pr'. rewrite <- EQ. destruct (Rle_dec a b) as [L|L].
  - apply RiemannInt_P18; auto. intros; ring.
  - assert (ba : b <= a) by lra. rewrite (RiemannInt_P8 pr' (RiemannInt_P1 pr')), (RiemannInt_P8 q' (RiemannInt_P1 q')). f_equal. apply RiemannInt_P18; auto. intros; ring.
Qed.
Lemma integral_ext f g a b m : a <= b -> (forall x, a < x < b -> f x = g x) -> integral g a b m -> integral f a b m.
Proof. apply integral_inside. Qed.
Lemma integral_plus f g a b m n : integral f a b m -> integral g a b n -> integral (fun x => f x + 1 * g x) a b (m + n).
Proof. intros (p & E) (q & F). exists (RiemannInt_P10 1 p q). rewrite (RiemannInt_P13 p q _), E, F. ring. Qed.
Lemma accept_prob h X s : 0 <= s -> (forall x, 0 <= x <= X -> 0 <= h x <= 1) -> prob1 (fun d => s <= X /\ d < h s) (cut X h s).
Proof.
  intros S0 H. unfold cut. destruct (Rle_dec s X) as [L|L].
  - exists 0, (h s). pose proof (H s (conj S0 L)). splits; try lra. intros d Hd. split; [intros; split; lra|]. intros [Q|Q] (_ & Q2); lra.
  - apply prob1_ext with (fun _ => False); [intros; tauto|]. apply prob1_const; auto.
Qed.
Lemma cut_0 X A : 0 <= X -> cut X A 0 = A 0.
Proof. intros H. unfold cut. destruct (Rle_dec 0 X); auto; lra. Qed.
(** The probability that one, two or three exponentially distributed numbers add up to at most X and are accepted with the
    probability h of their sum. *)
Lemma weighted_sums h X : 0 <= X -> (forall x, 0 <= x <= X -> continuity_pt h x) -> (forall x, 0 <= x <= X -> 0 <= h x <= 1) ->
  exists m1 m2 m3, integral (fun t => exp (- t) * h t) 0 X m1 /\ integral (fun t => t * (exp (- t) * h t)) 0 X m2 /\
    integral (fun t => t * t / 2 * (exp (- t) * h t)) 0 X m3 /\
    prob2 (fun d u => - ln u <= X /\ d < h (- ln u)) m1 /\
    prob3 (fun d u v => - ln u + - ln v <= X /\ d < h (- ln u + - ln v)) m2 /\
    prob_four (fun d u v w => - ln u + - ln v + - ln w <= X /\ d < h (- ln u + - ln v + - ln w)) m3.
Proof.
  intros X0 C H. destruct (chain h X X0 C) as (A1 & A2 & A3 & (D1 & Z1) & (D2 & Z2) & (D3 & Z3) & I1 & I2 & I3).
  pose proof (fun s S0 => accept_prob h X s S0 H) as P1.
  assert (P2 : forall s, 0 <= s -> prob2 (fun d u => s + - ln u <= X /\ d < h (s + - ln u)) (cut X A1 s)).
  { intros s S0. apply (layer1 (fun d t => t <= X /\ d < h t) X A1 h); auto. }
  assert (P3 : forall s, 0 <= s -> prob3 (fun d u v => s + - ln v + - ln u <= X /\ d < h (s + - ln v + - ln u)) (cut X A2 s)).
  { intros s S0. apply (layer2 (fun d u t => t + - ln u <= X /\ d < h (t + - ln u)) X A2 A1); auto. intros; eapply derivable_cont; eauto. }
  assert (P4 : prob_four (fun d u v w => 0 + - ln w + - ln v + - ln u <= X /\ d < h (0 + - ln w + - ln v + - ln u)) (cut X A3 0)).
  { apply (layer3 (fun d u v t => t + - ln v + - ln u <= X /\ d < h (t + - ln v + - ln u)) X A3 A2); auto; [lra|]. intros; eapply derivable_cont; eauto. }
  exists (A1 0), (A2 0), (A3 0). splits; auto.
  - rewrite <- (cut_0 X A1 X0). apply prob2_ext with (2 := P2 0 (Rle_refl 0)). intros. rewrite Rplus_0_l. tauto.
  - rewrite <- (cut_0 X A2 X0). apply prob3_ext with (2 := P3 0 (Rle_refl 0)). intros u v w _ _ _. replace (0 + - ln w + - ln v) with (- ln v + - ln w) by ring. tauto.
  - rewrite <- (cut_0 X A3 X0). apply prob_four_ext with (2 := P4). intros u v w x _ _ _ _. replace (0 + - ln x + - ln w + - ln v) with (- ln v + - ln w + - ln x) by ring. tauto.
Qed.
Lemma cont_sqrt (f : R -> R) x : continuity_pt f x -> 0 <= f x -> continuity_pt (fun y => sqrt (f y)) x.
Proof. intros C P. apply (comp_cont f sqrt); auto. apply continuity_pt_sqrt; auto. Qed.
Lemma cont_exp (f : R -> R) x : continuity_pt f x -> continuity_pt (fun y => exp (f y)) x.
Proof. intros C. apply (comp_cont f exp); auto. apply continuity_pt_exp. Qed.
Lemma cont_div (f : R -> R) c x : continuity_pt f x -> continuity_pt (fun y => f y / c) x.
Proof. intros C. apply cont_mult; auto. apply cont_c. Qed.
Lemma energy_ge p m : 0 <= p -> p <= sqrt (p * p + m * m).
Proof. intros H. rewrite <- (sqrt_square p) at 1 by auto. apply sqrt_le_1_alt. nra. Qed.
Lemma sq_nonneg p m : 0 <= p * p + m * m.
Proof. nra. Qed.

(** ** C119: the samplers *)
(** One round of the sampler for high temperatures yields a momentum of at most X with a probability proportional to
    the integral of the Boltzmann distribution from 0 to X; the factor does not depend on X, so what the loop returns
    has that distribution. *)
Theorem hot_sampler T m X : 0 < T -> 0 <= X -> exists M, integral (boltzmann m T) 0 X M /\
  prob_four (fun d u v w => at_most (round_hot T m u v w d) X) (M / (2 * (T * T * T))).
Proof.
  intros T0 X0. set (h := fun t => exp ((T * t - sqrt (T * t * (T * t) + m * m)) / T)).
  assert (CC : forall x, continuity_pt h x).
  { intros x. unfold h. apply cont_exp, cont_div, cont_minus; [apply cont_mult; [apply cont_c|apply cont_id]|].
    apply (cont_sqrt (fun t => T * t * (T * t) + m * m)); [|apply sq_nonneg]. apply cont_plus; [|apply cont_c]. apply cont_mult; apply cont_mult; try apply cont_c; apply cont_id. }
  assert (XT : 0 <= X / T) by (apply Rmult_le_pos; [auto|apply Rlt_le, Rinv_0_lt_compat; auto]).
  destruct (weighted_sums h (X / T) XT) as (m1 & m2 & m3 & _ & _ & I & _ & _ & P); auto.
  { intros x Hx. unfold h. split; [apply Rlt_le, exp_pos|]. rewrite <- exp_0.
    assert (T * x <= sqrt (T * x * (T * x) + m * m)) by (apply energy_ge, Rmult_le_pos; lra).
    set (y := (T * x - sqrt (T * x * (T * x) + m * m)) / T). assert (y <= 0).
    { unfold y. apply (Rmult_le_reg_r T); auto. unfold Rdiv. rewrite Rmult_assoc, Rinv_l by lra. lra. }
    destruct (Req_dec y 0) as [->|]; [lra|]. apply Rlt_le, exp_increasing. lra. }
  exists (2 * (T * T * T) * m3). split.
  - assert (I' : integral (fun p => 2 * (T * T * T) * (p / T * (p / T) / 2 * (exp (- (p / T)) * h (p / T)) * / T)) 0 X (2 * (T * T * T) * m3)).
    { apply integral_scale. apply (substitution (fun t => t * t / 2 * (exp (- t) * h t)) (fun p => p / T) (fun _ => / T)); auto.
      - intros x Hx. assert (0 < / T) by (apply Rinv_0_lt_compat; auto). unfold Rdiv. split; apply Rmult_le_compat_r; lra.
      - intros y _. apply cont_mult; [apply cont_div, cont_mult; apply cont_id|]. apply cont_mult; auto. apply cont_exp, cont_opp, cont_id.
      - intros x _. replace (/ T) with (1 * / T + x * 0) by ring. apply (derivable_pt_lim_mult id (fct_cte (/ T))); [apply derivable_pt_lim_id|apply derivable_pt_lim_const].
      - intros x _. apply cont_c.
      - replace (0 / T) with 0 by (field; lra). exact I. }
    apply integral_ext with (3 := I'); auto. intros p Hp. unfold boltzmann, h.
    replace (T * (p / T)) with p by (field; lra).
    replace (- sqrt (p * p + m * m) / T) with (- (p / T) + (p - sqrt (p * p + m * m)) / T) by (field; lra). rewrite exp_plus. field. lra.
  - replace (2 * (T * T * T) * m3 / (2 * (T * T * T))) with m3 by (field; lra).
    apply prob_four_ext with (2 := P). intros d u v w Hd Hu Hv Hw. unfold round_hot, h.
    set (t := - ln u + - ln v + - ln w). replace (- ln u + - ln v + - ln w) with t by reflexivity.
    assert (LE : t <= X / T <-> T * t <= X).
    { split; intros L; [apply (Rmult_le_compat_l T) in L; [|lra]; replace (T * (X / T)) with X in L by (field; lra); lra|].
      apply (Rmult_le_reg_l T); auto. replace (T * (X / T)) with X by (field; lra). auto. }
    destruct (Rlt_dec d (exp ((T * t - sqrt (T * t * (T * t) + m * m)) / T))); cbn; tauto.
Qed.
Print Assumptions hot_sampler.

Lemma cold_event T m X t d : 0 < T -> 0 < m -> 0 <= X -> 0 <= t ->
  at_most (let energy := T * t + m in let p := sqrt ((energy + m) * (energy - m)) in if Rlt_dec d (p / energy) then Some p else None) X <->
  t <= (sqrt (X * X + m * m) - m) / T /\ d < sqrt ((T * t + m + m) * (T * t + m - m)) / (T * t + m).
Proof.
  intros T0 M0 X0 t0. cbv zeta.
  assert (LE : t <= (sqrt (X * X + m * m) - m) / T <-> sqrt ((T * t + m + m) * (T * t + m - m)) <= X).
  { assert (Tt : 0 <= T * t) by (apply Rmult_le_pos; lra).
    assert (Q : t <= (sqrt (X * X + m * m) - m) / T <-> T * t + m <= sqrt (X * X + m * m)).
    { split; intros L; [apply (Rmult_le_compat_l T) in L; [|lra]; replace (T * ((sqrt (X * X + m * m) - m) / T)) with (sqrt (X * X + m * m) - m) in L by (field; lra); lra|].
      apply (Rmult_le_reg_l T); auto. replace (T * ((sqrt (X * X + m * m) - m) / T)) with (sqrt (X * X + m * m) - m) by (field; lra). lra. }
    rewrite Q. set (e := T * t + m) in *. assert (E0 : m <= e) by (unfold e; lra).
    assert (A0 : 0 <= (e + m) * (e - m)) by (apply Rmult_le_pos; lra).
    split; intros L.
    - rewrite <- (sqrt_square X) by auto. apply sqrt_le_1_alt.
      assert (e * e <= sqrt (X * X + m * m) * sqrt (X * X + m * m)) by (apply Rmult_le_compat; lra). rewrite sqrt_sqrt in H by apply sq_nonneg. lra.
    - rewrite <- (sqrt_square e) by lra. apply sqrt_le_1_alt.
      assert (sqrt ((e + m) * (e - m)) * sqrt ((e + m) * (e - m)) <= X * X) by (apply Rmult_le_compat; auto; apply sqrt_pos).
      rewrite sqrt_sqrt in H by auto. lra. }
  rewrite LE. destruct (Rlt_dec d (sqrt ((T * t + m + m) * (T * t + m - m)) / (T * t + m))); cbn; tauto.
Qed.
(** The same for the sampler for low temperatures. *)
Theorem cold_sampler T m X : 0 < T -> 0 < m -> 0 <= X -> exists M, integral (boltzmann m T) 0 X M /\
  prob_five (fun r0 d r1 r2 r3 => at_most (round_cold T m r0 r1 r2 r3 d) X) (M * (exp (m / T) / (T * (m * m + 2 * m * T + 2 * T * T)))).
Proof.
  intros T0 M0 X0. set (h := fun t => sqrt ((T * t + m + m) * (T * t + m - m)) / (T * t + m)).
  set (tX := (sqrt (X * X + m * m) - m) / T).
  assert (EX : m <= sqrt (X * X + m * m)). { rewrite <- (sqrt_square m) at 1 by lra. apply sqrt_le_1_alt. nra. }
  assert (TX : 0 <= tX) by (apply Rmult_le_pos; [lra|apply Rlt_le, Rinv_0_lt_compat; auto]).
  assert (CL : forall x, continuity_pt (fun t => T * t + m) x) by (intros; apply cont_plus; [apply cont_mult; [apply cont_c|apply cont_id]|apply cont_c]).
  assert (CC : forall x, 0 <= x <= tX -> continuity_pt h x).
  { intros x Hx. assert (0 <= T * x) by (apply Rmult_le_pos; lra). apply cont_mult.
    - apply (cont_sqrt (fun t => (T * t + m + m) * (T * t + m - m))); [|apply Rmult_le_pos; lra].
      apply cont_mult; [apply cont_plus; [apply CL|apply cont_c]|apply cont_minus; [apply CL|apply cont_c]].
    - apply (cont_inv (fun t => T * t + m)); [apply CL|lra]. }
  assert (HB : forall x, 0 <= x <= tX -> 0 <= h x <= 1).
  { intros x Hx. assert (0 <= T * x) by (apply Rmult_le_pos; lra). unfold h. set (e := T * x + m). assert (m <= e) by (unfold e; lra).
    split; [apply Rmult_le_pos; [apply sqrt_pos|apply Rlt_le, Rinv_0_lt_compat; lra]|].
    apply (Rmult_le_reg_r e); [lra|]. unfold Rdiv. rewrite Rmult_assoc, Rinv_l, Rmult_1_r, Rmult_1_l by lra.
    rewrite <- (sqrt_square e) at 3 by lra. apply sqrt_le_1_alt. nra. }
  destruct (weighted_sums h tX TX CC HB) as (m1 & m2 & m3 & I1 & I2 & I3 & P1 & P2 & P3).
  set (itot := m * m + 2 * m * T + 2 * T * T).
  assert (IT : 0 < itot) by (unfold itot; nra).
  exists (T * exp (- (m / T)) * (m * m * m1 + 2 * m * T * m2 + 2 * T * T * m3)). split.
  - set (g := fun t => exp (- t) * h t).
    set (f := fun t => m * m * g t + 1 * (2 * m * T * (t * g t)) + 1 * (2 * T * T * (t * t / 2 * g t))).
    assert (IF : integral f 0 tX (m * m * m1 + 2 * m * T * m2 + 2 * T * T * m3)).
    { apply integral_plus; [apply integral_plus|]; apply integral_scale; auto. }
    assert (D : forall p, 0 < p * p + m * m -> derivable_pt_lim (fun p => (sqrt (p * p + m * m) - m) / T) p (p / (T * sqrt (p * p + m * m)))).
    { intros p Hp. pose proof (sqrt_lt_R0 _ Hp) as SP.
      replace (p / (T * sqrt (p * p + m * m))) with ((/ (2 * sqrt (p * p + m * m)) * ((1 * p + p * 1) + 0) - 0) * / T + (sqrt (p * p + m * m) - m) * 0) by (field; split; lra).
      apply (derivable_pt_lim_mult (fun p => sqrt (p * p + m * m) - m) (fct_cte (/ T))); [|apply derivable_pt_lim_const].
      apply (derivable_pt_lim_minus (fun p => sqrt (p * p + m * m)) (fct_cte m)); [|apply derivable_pt_lim_const].
      apply (derivable_pt_lim_comp (fun p => p * p + m * m) sqrt); [|apply derivable_pt_lim_sqrt; auto].
      apply (derivable_pt_lim_plus (fun p => p * p) (fct_cte (m * m))); [|apply derivable_pt_lim_const].
      apply (derivable_pt_lim_mult id id); apply derivable_pt_lim_id. }
    assert (PP : forall p, 0 < p * p + m * m) by (intros; nra).
    assert (Z0 : (sqrt (0 * 0 + m * m) - m) / T = 0). { replace (0 * 0 + m * m) with (m * m) by ring. rewrite sqrt_square by lra. field; lra. }
    assert (I' : integral (fun p => T * exp (- (m / T)) * (f ((sqrt (p * p + m * m) - m) / T) * (p / (T * sqrt (p * p + m * m))))) 0 X (T * exp (- (m / T)) * (m * m * m1 + 2 * m * T * m2 + 2 * T * T * m3))).
    { apply integral_scale. apply (substitution f (fun p => (sqrt (p * p + m * m) - m) / T) (fun p => p / (T * sqrt (p * p + m * m)))); auto.
      - intros x Hx. assert (0 < / T) by (apply Rinv_0_lt_compat; auto). unfold Rdiv. split; apply Rmult_le_compat_r; try lra.
        + assert (sqrt (0 * 0 + m * m) <= sqrt (x * x + m * m)) by (apply sqrt_le_1_alt; nra). lra.
        + assert (sqrt (x * x + m * m) <= sqrt (X * X + m * m)) by (apply sqrt_le_1_alt; nra). lra.
      - rewrite Z0. fold tX. intros y Hy. assert (CG : continuity_pt g y) by (apply cont_mult; [apply cont_exp, cont_opp, cont_id|auto]).
        unfold f. apply cont_plus; [apply cont_plus|]; repeat (apply cont_mult; auto); try apply cont_c; try apply cont_id.
      - intros x _. apply cont_mult; [apply cont_id|]. apply (cont_inv (fun p => T * sqrt (p * p + m * m))).
        + apply cont_mult; [apply cont_c|]. apply (cont_sqrt (fun p => p * p + m * m)); [|apply sq_nonneg]. apply cont_plus; [apply cont_mult; apply cont_id|apply cont_c].
        + pose proof (sqrt_lt_R0 _ (PP x)). nra.
      - rewrite Z0. exact IF. }
    apply integral_ext with (3 := I'); auto. intros p Hp. unfold f, g, h, boltzmann. pose proof (sqrt_lt_R0 _ (PP p)) as SP.
    set (e := sqrt (p * p + m * m)) in *. assert (EE : e * e = p * p + m * m) by (unfold e; apply sqrt_sqrt, sq_nonneg).
    replace (T * ((e - m) / T) + m) with e by (field; lra).
    replace ((e + m) * (e - m)) with (p * p) by nra.
    rewrite (sqrt_square p) by lra.
    replace (- e / T) with (- (m / T) + - ((e - m) / T)) by (field; lra). rewrite exp_plus.
    set (x1 := exp (- (m / T))). set (x2 := exp (- ((e - m) / T))). field. split; lra.
  - unfold prob_five. exists [(m * m / itot, m1); ((m * m + 2 * m * T) / itot, m2); (1, m3)]. cbn [end_of pieces weighted].
    assert (B1 : 0 <= m * m / itot) by (apply Rmult_le_pos; [nra|apply Rlt_le, Rinv_0_lt_compat; auto]).
    assert (B2 : m * m / itot <= (m * m + 2 * m * T) / itot) by (apply Rmult_le_compat_r; [apply Rlt_le, Rinv_0_lt_compat; auto|nra]).
    assert (B3 : (m * m + 2 * m * T) / itot <= 1).
    { apply (Rmult_le_reg_r itot); auto. unfold Rdiv. rewrite Rmult_assoc, Rinv_l by lra. unfold itot. nra. }
    split; [reflexivity|]. split; [|unfold itot in *; rewrite exp_Ropp; field; splits; try lra; apply Rgt_not_eq, exp_pos].
    assert (LN : forall u, 0 < u < 1 -> 0 < - ln u) by apply neg_ln_pos.
    splits; auto; intros r0 Hr.
    + apply prob_four_ext with (fun d u v (_ : R) => - ln u <= tX /\ d < h (- ln u)); [|apply prob_four_of_3, prob3_of_2; exact P1].
      intros d u v w _ Hu _ _. symmetry. unfold round_cold, kinetic_energy, weights. fold itot. destruct (Rlt_dec r0 (m * m / itot)); [|lra].
      replace (- T * ln u) with (T * - ln u) by ring. apply cold_event; auto. apply Rlt_le; auto.
    + apply prob_four_ext with (fun d u v (_ : R) => - ln u + - ln v <= tX /\ d < h (- ln u + - ln v)); [|apply prob_four_of_3; exact P2].
      intros d u v w _ Hu Hv _. symmetry. unfold round_cold, kinetic_energy, weights. fold itot. destruct (Rlt_dec r0 (m * m / itot)); [lra|].
      destruct (Rlt_dec r0 ((m * m + 2 * m * T) / itot)); [|lra].
      rewrite ln_mult by lra. replace (- T * (ln u + ln v)) with (T * (- ln u + - ln v)) by ring. apply cold_event; auto. pose proof (LN u Hu). pose proof (LN v Hv). lra.
    + apply prob_four_ext with (2 := P3).
      intros d u v w _ Hu Hv Hw. symmetry. unfold round_cold, kinetic_energy, weights. fold itot. destruct (Rlt_dec r0 (m * m / itot)); [lra|].
      destruct (Rlt_dec r0 ((m * m + 2 * m * T) / itot)); [lra|].
      rewrite !ln_mult by (try apply Rmult_lt_0_compat; lra). replace (- T * (ln u + ln v + ln w)) with (T * (- ln u + - ln v + - ln w)) by ring. apply cold_event; auto.
      pose proof (LN u Hu). pose proof (LN v Hv). pose proof (LN w Hw). lra.
Qed.
Print Assumptions cold_sampler.
