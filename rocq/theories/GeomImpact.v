(** Properties of the impact parameter (C124). *)
From Coq Require Import ZArith Reals List Bool Lra Lia Psatz Permutation Sorted.
From Verif Require Import Base VecModel NucleusModel WoodsSaxon DistModel DistProps DistMore InterpModel InterpProps GeomModel.
Import ListNotations.
Open Scope R_scope.

(** ** Fixed value, quadratic and uniform sampling *)
(** A value that is not negative is the impact parameter of every event, whatever the other keys are. *)
Theorem fixed_impact c b u : ic_value c = Some b -> 0 <= b -> exists st, read_impact c = Ok st /\ i_sampling st = Quadratic /\ quadratic_impact st u = b.
Proof.
  intros V B. unfold read_impact. rewrite V. eexists. splits; [reflexivity|reflexivity|]. unfold quadratic_impact. cbn.
  replace (b * b + u * (b * b - b * b)) with (b * b) by ring. apply sqrt_square; auto.
Qed.
Print Assumptions fixed_impact.
Example fixed_case : ic_value (IC (Some 3) None None None None None) = Some 3 /\ 0 <= 3.
Proof. split; [reflexivity|lra]. Qed.
(** A negative value is accepted and changes its sign. *)
Theorem negative_impact_refuted c b u : ic_value c = Some b -> b < 0 -> exists st, read_impact c = Ok st /\ quadratic_impact st u = - b.
Proof.
  intros V B. unfold read_impact. rewrite V. eexists. split; [reflexivity|]. unfold quadratic_impact. cbn.
  replace (b * b + u * (b * b - b * b)) with ((- b) * (- b)) by ring. apply sqrt_square; lra.
Qed.
Print Assumptions negative_impact_refuted.
(** The range is [0, Max] with the key Max, otherwise that of the key Range; the sampling is quadratic unless another one is asked for. *)
Theorem impact_range c s : ic_value c = None -> ic_sample c = s -> s <> Some Custom -> exists st, read_impact c = Ok st /\
  i_sampling st = (match s with Some x => x | None => Quadratic end) /\
  (forall b, ic_max c = Some b -> (i_min st, i_max st) = (0, b)) /\
  (forall r, ic_max c = None -> ic_range c = Some r -> (i_min st, i_max st) = r) /\
  (ic_max c = None -> ic_range c = None -> (i_min st, i_max st) = (0, 0)).
Proof.
  intros V <- N. unfold read_impact. rewrite V. destruct (ic_sample c) as [[| |]|]; try congruence; cbn [rbind]; (eexists; split; [reflexivity|]);
  destruct (ic_range c) as [[a b]|], (ic_max c) as [m|]; cbn; splits; auto; try congruence; intros; congruence.
Qed.
Print Assumptions impact_range.
(** Quadratic sampling: the impact parameter stays in the range and its density is proportional to b, so that the probability of a value
    of at most x is the fraction of the area. *)
Theorem quadratic_law st x : 0 <= i_min st < i_max st -> i_min st <= x <= i_max st ->
  (forall u, 0 <= u < 1 -> i_min st <= quadratic_impact st u < i_max st) /\
  prob1 (fun u => quadratic_impact st u <= x) ((x * x - i_min st * i_min st) / (i_max st * i_max st - i_min st * i_min st)).
Proof.
  intros (A & B) X. set (a := i_min st) in *. set (b := i_max st) in *. assert (D : 0 < b * b - a * a) by nra. unfold quadratic_impact. fold a b. split.
  - intros u U. assert (0 <= u * (b * b - a * a)) by (apply Rmult_le_pos; lra). split.
    + apply Rle_trans with (sqrt (a * a)); [rewrite sqrt_square; lra|apply sqrt_le_1_alt; lra].
    + apply Rlt_le_trans with (sqrt (b * b)); [apply sqrt_lt_1_alt; split; nra|rewrite sqrt_square; lra].
  - set (q := (x * x - a * a) / (b * b - a * a)). assert (QE : q * (b * b - a * a) = x * x - a * a) by (unfold q; field; lra).
    assert (Q : 0 <= q <= 1) by (split; apply (Rmult_le_reg_r (b * b - a * a)); auto; rewrite QE; nra).
    exists 0, q. splits; try lra. intros u U. split.
    + intros L. apply Rle_trans with (sqrt (x * x)); [apply sqrt_le_1_alt; nra|rewrite sqrt_square; lra].
    + intros [L|L] N; [lra|]. assert (x < sqrt (a * a + u * (b * b - a * a))); [|lra]. apply Rle_lt_trans with (sqrt (x * x)); [rewrite sqrt_square; lra|apply sqrt_lt_1_alt; split; nra].
Qed.
Print Assumptions quadratic_law.
(** Uniform sampling. *)
Theorem uniform_law st x : i_min st < i_max st -> i_min st <= x <= i_max st ->
  (forall u, 0 <= u < 1 -> i_min st <= uniform_impact st u < i_max st) /\
  prob1 (fun u => uniform_impact st u <= x) ((x - i_min st) / (i_max st - i_min st)).
Proof.
  intros B X. set (a := i_min st) in *. set (b := i_max st) in *. unfold uniform_impact. fold a b. split; [intros u U; nra|].
  set (q := (x - a) / (b - a)). assert (QE : q * (b - a) = x - a) by (unfold q; field; lra).
  assert (Q : 0 <= q <= 1) by (split; apply (Rmult_le_reg_r (b - a)); try lra; rewrite QE; lra).
  exists 0, q. splits; try lra. intros u U. split; [intros; nra|]. intros [L|L] N; nra.
Qed.
Print Assumptions uniform_law.
Example impact_case : let st := IS Quadratic 2 5 None 0 in 0 <= i_min st < i_max st /\ i_min st <= 3 <= i_max st.
Proof. cbn. lra. Qed.

(** ** Custom sampling *)
Lemma min_of_spec l : forall a, min_of a l <= a /\ (forall x, In x l -> min_of a l <= x) /\ (min_of a l = a \/ In (min_of a l) l).
Proof.
  induction l as [|y l IH]; intros a; cbn; [splits; auto; try lra; tauto|]. destruct (IH (if Rlt_dec y a then y else a)) as (A & B & C). fold (min_of (if Rlt_dec y a then y else a) l) in *.
  change (fold_left _ l ?z) with (min_of z l). splits.
  - destruct (Rlt_dec y a); lra.
  - intros x [<-|I]; [destruct (Rlt_dec y a); lra|auto].
  - destruct C as [C|C]; [|auto]. rewrite C. destruct (Rlt_dec y a); auto.
Qed.
Lemma max_of_spec l : forall a, a <= max_of a l /\ (forall x, In x l -> x <= max_of a l) /\ (max_of a l = a \/ In (max_of a l) l).
Proof.
  induction l as [|y l IH]; intros a; cbn; [splits; auto; try lra; tauto|]. destruct (IH (if Rlt_dec a y then y else a)) as (A & B & C).
  change (fold_left _ l ?z) with (max_of z l). splits.
  - destruct (Rlt_dec a y); lra.
  - intros x [<-|I]; [destruct (Rlt_dec a y); lra|auto].
  - destruct C as [C|C]; [|auto]. rewrite C. destruct (Rlt_dec a y); auto.
Qed.
Lemma hd_in (l : list R) : l <> [] -> In (hd 0 l) l.
Proof. destruct l; cbn; [congruence|auto]. Qed.
Lemma min_hd l : l <> [] -> In (min_of (hd 0 l) l) l /\ (forall x, In x l -> min_of (hd 0 l) l <= x).
Proof. intros N. destruct (min_of_spec l (hd 0 l)) as (A & B & C). split; auto. destruct C as [->|C]; auto. apply hd_in; auto. Qed.
Lemma max_hd l : l <> [] -> In (max_of (hd 0 l) l) l /\ (forall x, In x l -> x <= max_of (hd 0 l) l).
Proof. intros N. destruct (max_of_spec l (hd 0 l)) as (A & B & C). split; auto. destruct C as [->|C]; auto. apply hd_in; auto. Qed.

(** The polygon through the given points, ordered by their first component. *)
Definition segment (p q : R * R) (t : R) : R := snd p + (snd q - snd p) / (fst q - fst p) * (t - fst p).
Fixpoint polygon (p : R * R) (l : list (R * R)) (t : R) : R :=
  match l with [] => snd p | [q] => segment p q t | q :: r => if Rle_dec t (fst q) then segment p q t else polygon q r t end.
Lemma segment_ends p q : fst p < fst q -> segment p q (fst p) = snd p /\ segment p q (fst q) = snd q.
Proof. intros H. unfold segment. split; field; lra. Qed.
Lemma segment_line p q t v : fst p < fst q -> (on_line p q t v <-> v = segment p q t).
Proof.
  intros H. unfold on_line, segment. split.
  - intros E. apply (Rmult_eq_reg_r (fst q - fst p)); [|lra]. replace ((snd p + (snd q - snd p) / (fst q - fst p) * (t - fst p)) * (fst q - fst p)) with (snd p * (fst q - fst p) + (snd q - snd p) * (t - fst p)) by (field; lra). lra.
  - intros ->. field. lra.
Qed.
Lemma polygon_start p l : StronglySorted ltp (p :: l) -> polygon p l (fst p) = snd p.
Proof.
  intros SS. inversion SS as [|? ? _ F]; subst. destruct l as [|q [|r l]]; cbn; [reflexivity|..]; inversion F; subst; [apply segment_ends; auto|].
  unfold ltp in *. destruct (Rle_dec _ _); [apply segment_ends; auto|lra].
Qed.
Lemma glue_cont (g h : R -> R) c : g c = h c -> (forall t, continuity_pt g t) -> (forall t, continuity_pt h t) -> forall t, continuity_pt (fun t => if Rle_dec t c then g t else h t) t.
Proof.
  intros E G H t e E0. destruct (G t e E0) as (d1 & D1 & K1), (H t e E0) as (d2 & D2 & K2). cbn in *. unfold R_dist in *.
  assert (W : exists d, 0 < d /\ d <= d1 /\ d <= d2 /\ (t = c \/ d <= Rabs (t - c))).
  { destruct (Req_dec t c) as [->|N]; [exists (Rmin d1 d2)|exists (Rmin (Rmin d1 d2) (Rabs (t - c)))].
    - splits; auto; [apply Rmin_glb_lt; auto|apply Rmin_l|apply Rmin_r].
    - splits; [apply Rmin_glb_lt; [apply Rmin_glb_lt; auto|apply Rabs_pos_lt; lra]|eapply Rle_trans; [apply Rmin_l|apply Rmin_l]|eapply Rle_trans; [apply Rmin_l|apply Rmin_r]|right; apply Rmin_r]. }
  destruct W as (d & D0 & L1 & L2 & W). exists d. split; auto. intros y (Dy & Ny).
  assert (A1 : Rabs (g y - g t) < e) by (apply K1; split; auto; lra). assert (A2 : Rabs (h y - h t) < e) by (apply K2; split; auto; lra).
  destruct W as [->|W].
  - destruct (Rle_dec c c); [|lra]. destruct (Rle_dec y c); auto. rewrite E. exact A2.
  - apply Rabs_def2 in Ny. destruct (Rle_dec y c), (Rle_dec t c); auto; exfalso; revert W; unfold Rabs; destruct (Rcase_abs (t - c)); lra.
Qed.
Lemma segment_cont p q t : continuity_pt (segment p q) t.
Proof. unfold segment. apply cont_plus; [apply cont_c|]. apply cont_mult; [apply cont_c|]. apply cont_minus; [apply cont_id|apply cont_c]. Qed.
Lemma polygon_cont l : forall p, StronglySorted ltp (p :: l) -> forall t, continuity_pt (polygon p l) t.
Proof.
  induction l as [|q l IH]; intros p SS t; [cbn; apply cont_c|]. inversion SS as [|? ? S1 F]; subst. inversion F as [|? ? LT _]; subst. unfold ltp in LT.
  destruct l as [|r l]; [apply segment_cont|]. change (continuity_pt (fun t => if Rle_dec t (fst q) then segment p q t else polygon q (r :: l) t) t).
  apply glue_cont; auto; [|intros; apply segment_cont]. rewrite (polygon_start q (r :: l) S1). apply segment_ends; auto.
Qed.
Lemma polygon_governs l : forall p t, l <> [] -> StronglySorted ltp (p :: l) -> exists a b, governs (p :: l) t a b /\ polygon p l t = segment a b t.
Proof.
  induction l as [|q l IH]; intros p t N SS; [congruence|]. inversion SS as [|? ? S1 F]; subst. assert (LT := F). apply Forall_inv in LT. unfold ltp in LT.
  assert (PM : forall r, In r (p :: q :: l) -> fst p <= fst r). { intros r [<-|I]; [lra|]. rewrite Forall_forall in F. specialize (F r I). unfold ltp in F. lra. }
  assert (FQ : forall r, In r (q :: l) -> fst q <= fst r). { inversion S1 as [|? ? _ G]; subst. intros r [<-|I]; [lra|]. rewrite Forall_forall in G. specialize (G r I). unfold ltp in G. lra. }
  assert (NB : neighbours (p :: q :: l) p q). { unfold neighbours. splits; cbn; auto. intros r [<-|I] (A & B); [lra|]. specialize (FQ r I). lra. }
  assert (FIRST : l = [] \/ t <= fst q -> governs (p :: q :: l) t p q).
  { intros C. split; [exact NB|]. split; [right; exact PM|]. destruct C as [->|C]; [|left; exact C]. right. intros r [<-|[<-|[]]]; lra. }
  destruct l as [|r l]; [exists p, q; split; [apply FIRST; auto|reflexivity]|].
  change (polygon p (q :: r :: l) t) with (if Rle_dec t (fst q) then segment p q t else polygon q (r :: l) t).
  destruct (Rle_dec t (fst q)) as [L|L]; [exists p, q; split; [apply FIRST; auto|reflexivity]|].
  destruct (IH q t) as (a & b & ((IA & IB & AB & NO) & C1 & C2) & E); [congruence|auto|]. exists a, b. split; [|exact E].
  assert (FA : fst q <= fst a) by (apply FQ; auto). split; [|split].
  - unfold neighbours. splits; [right; auto|right; auto|auto|]. intros z [<-|I]; [specialize (PM a (or_intror IA)); lra|apply NO, I].
  - left. destruct C1 as [C1|C1]; auto. specialize (C1 q (or_introl eq_refl)). lra.
  - destruct C2 as [C2|C2]; auto. right. intros z [<-|I]; [specialize (PM b (or_intror IB)); lra|auto].
Qed.
(** The value of the interpolation as a function, with its continuity. *)
Lemma interpolation_function xs ys : length xs = length ys -> NoDup xs -> (2 <= length xs)%nat -> exists d f,
  make_data_linear xs ys = Ok d /\ (forall t, eval_data_linear d t = Ok (f t)) /\ (forall t, continuity_pt f t) /\
  (forall t p q, governs (combine xs ys) t p q -> f t = segment p q t) /\ (forall t, exists p q, governs (combine xs ys) t p q).
Proof.
  intros L D N. destruct (interpolation_exact_partial xs ys L D N) as (d & Hd & H).
  pose proof (spoints_sorted xs ys D) as SS. pose proof (spoints_perm xs ys L) as PE.
  assert (LE : length (spoints xs ys) = length xs) by (rewrite (Permutation_length PE), combine_length, <- L; apply Nat.min_id).
  destruct (spoints xs ys) as [|p l] eqn:EP; [cbn in LE; lia|]. assert (NL : l <> []) by (destruct l; [cbn in LE; lia|discriminate]).
  assert (GE : forall t a b, governs (p :: l) t a b <-> governs (combine xs ys) t a b).
  { assert (IE : forall r, In r (p :: l) <-> In r (combine xs ys)) by (intros r; split; apply Permutation_in; auto; apply Permutation_sym; auto).
    intros t a b. unfold governs, neighbours. split; intros ((A1 & A2 & A3 & A4) & B1 & B2).
    - splits; [apply IE; auto|apply IE; auto|auto|intros r I; apply A4, IE, I|destruct B1 as [B1|B1]; [auto|right; intros r I; apply B1, IE, I]|destruct B2 as [B2|B2]; [auto|right; intros r I; apply B2, IE, I]].
    - splits; [apply IE; auto|apply IE; auto|auto|intros r I; apply A4, IE, I|destruct B1 as [B1|B1]; [auto|right; intros r I; apply B1, IE, I]|destruct B2 as [B2|B2]; [auto|right; intros r I; apply B2, IE, I]]. }
  assert (VAL : forall t, eval_data_linear d t = Ok (polygon p l t) /\ forall a b, governs (combine xs ys) t a b -> polygon p l t = segment a b t).
  { intros t. destruct (H t) as (v & Hv & _ & O). destruct (polygon_governs l p t NL SS) as (a & b & G & E). apply GE in G.
    assert (AB : fst a < fst b) by apply G. pose proof (proj1 (segment_line a b t v AB) (O a b G)) as V. split; [rewrite Hv, V, E; reflexivity|].
    intros a' b' G'. assert (AB' : fst a' < fst b') by apply G'. rewrite <- (proj1 (segment_line a' b' t v AB') (O a' b' G')). congruence. }
  exists d, (polygon p l). splits; auto; [apply VAL|apply polygon_cont; auto|apply VAL|].
  intros t. destruct (polygon_governs l p t NL SS) as (a & b & G & _). exists a, b. apply GE; auto.
Qed.
Lemma integral_split f a b c m : a <= c <= b -> integral f a b m -> exists m1 m2, integral f a c m1 /\ integral f c b m2 /\ m = m1 + m2.
Proof.
  intros H (pr & E). exists (RiemannInt (RiemannInt_P22 pr H)), (RiemannInt (RiemannInt_P23 pr H)). splits; [eexists; reflexivity|eexists; reflexivity|].
  rewrite <- E. symmetry. apply RiemannInt_P26.
Qed.
(** a function may be changed at finitely many points *)
Lemma integral_except l : forall f g a b m, a <= b -> (forall t, a < t < b -> ~ In t l -> f t = g t) -> integral g a b m -> integral f a b m.
Proof.
  induction l as [|p l IH]; intros f g a b m AB E I; [apply integral_inside with g; auto|].
  destruct (Rle_dec a p) as [A|A]; [destruct (Rle_dec p b) as [B|B]|].
  - destruct (integral_split g a b p m (conj A B) I) as (m1 & m2 & I1 & I2 & ->). apply integral_sum with p; [lra|..].
    + apply (IH f g); auto. intros t T N. apply E; [lra|]. intros [->|K]; [lra|auto].
    + apply (IH f g); auto. intros t T N. apply E; [lra|]. intros [->|K]; [lra|auto].
  - apply (IH f g); auto. intros t T N. apply E; auto. intros [->|K]; [lra|auto].
  - apply (IH f g); auto. intros t T N. apply E; auto. intros [->|K]; [lra|auto].
Qed.
Lemma in_combine_fst (xs ys : list R) x : length xs = length ys -> In x xs -> exists y, In (x, y) (combine xs ys).
Proof.
  revert ys. induction xs as [|a xs IH]; intros [|b ys] L I; cbn in *; try discriminate; [tauto|].
  destruct I as [<-|I]; [exists b; auto|]. destruct (IH ys) as (y & H); [lia|auto|]. exists y. auto.
Qed.
Lemma segment_between p q t lo hi : fst p <= t <= fst q -> fst p < fst q -> lo <= snd p <= hi -> lo <= snd q <= hi ->
  lo <= segment p q t <= hi /\ (segment p q t = hi -> (snd p = hi /\ snd q = hi) \/ t = fst p \/ t = fst q).
Proof.
  intros T L P Q. set (w := (t - fst p) / (fst q - fst p)). assert (WE : w * (fst q - fst p) = t - fst p) by (unfold w; field; lra).
  assert (W : 0 <= w <= 1) by (split; apply (Rmult_le_reg_r (fst q - fst p)); try lra; rewrite WE; lra).
  assert (S : segment p q t = (1 - w) * snd p + w * snd q) by (unfold segment, w; field; lra). rewrite S. split; [split; nra|].
  intros E. destruct (Req_dec t (fst p)) as [|T1]; auto. destruct (Req_dec t (fst q)) as [|T2]; auto. left.
  assert (0 < w < 1). { split; [destruct (Req_dec w 0) as [K|K]; [rewrite K in WE; lra|lra]|destruct (Req_dec w 1) as [K|K]; [rewrite K in WE; lra|lra]]. }
  assert (A : (1 - w) * (hi - snd p) + w * (hi - snd q) = 0) by lra. assert (0 <= (1 - w) * (hi - snd p)) by (apply Rmult_le_pos; lra). assert (0 <= w * (hi - snd q)) by (apply Rmult_le_pos; lra).
  split; [assert (Z1 : (1 - w) * (hi - snd p) = 0) by lra; apply Rmult_integral in Z1; lra|assert (Z1 : w * (hi - snd q) = 0) by lra; apply Rmult_integral in Z1; lra].
Qed.
(** The range that is sampled: that of the values unless a part of it is asked for. *)
Definition range_within (c : impact_config) (xs : list R) (lo hi : R) : Prop :=
  ic_max c = None /\ lo < hi /\ (exists x, In x xs /\ x <= lo) /\ (exists x, In x xs /\ hi <= x) /\
  (ic_range c = Some (lo, hi) \/ (ic_range c = None /\ In lo xs /\ In hi xs /\ forall x, In x xs -> lo <= x <= hi)).
(** Custom sampling: for distinct values and yields that are not negative the impact parameter stays in the range, and its density is
    proportional to the linear interpolation of the yields.  It is required that no two neighbouring values both have the
    largest yield, see flat_maximum_refuted. *)
Theorem custom_law c xs ys lo hi x : ic_value c = None -> ic_sample c = Some Custom -> ic_values c = Some xs -> ic_yields c = Some ys ->
  length xs = length ys -> NoDup xs -> (2 <= length xs)%nat -> (forall y, In y ys -> 0 <= y) ->
  (forall p q, neighbours (combine xs ys) p q -> exists y, In y ys /\ (snd p < y \/ snd q < y)) ->
  range_within c xs lo hi -> lo <= x <= hi ->
  exists st f top M, read_impact c = Ok st /\ i_sampling st = Custom /\
    (forall t p q, governs (combine xs ys) t p q -> f t = segment p q t) /\ (In top ys /\ forall y, In y ys -> y <= top) /\
    (forall u v b, 0 <= u < 1 -> custom_round st u v = Ok (Some b) -> lo <= b < hi) /\
    integral f lo x M /\ prob2 (fun v u => exists b, custom_round st u v = Ok (Some b) /\ b <= x) (M / (top * (hi - lo))).
Proof.
  intros CV CS CX CY L D N POS FLAT (CM & LH & (x0 & X0 & X0L) & (x9 & X9 & X9H) & RG) HX.
  destruct (interpolation_function xs ys L D N) as (d & f & Hd & Hf & FC & FG & FE).
  assert (NX : xs <> []) by (destruct xs; [cbn in N; lia|discriminate]). assert (NY : ys <> []) by (destruct ys; [destruct xs; cbn in *; lia|discriminate]).
  destruct (max_hd ys NY) as (TI & TM). set (top := max_of (hd 0 ys) ys) in *.
  destruct (min_hd xs NX) as (MI & MM). destruct (max_hd xs NX) as (AI & AM).
  assert (RE : read_impact c = Ok (IS Custom lo hi (Some d) top)).
  { unfold read_impact. rewrite CV, CS, CX, CY. cbn [take_key rbind]. rewrite L, Nat.eqb_refl. cbn [negb]. rewrite Hd. cbn [rbind]. rewrite CM. fold top.
    destruct RG as [->|(-> & I1 & I2 & RB)]; [reflexivity|]. do 2 f_equal.
    - apply Rle_antisym; [apply MM; auto|apply RB; auto].
    - apply Rle_antisym; [apply RB; auto|apply AM; auto]. }
  assert (BT : forall t, lo <= t <= hi -> exists p q, neighbours (combine xs ys) p q /\ fst p <= t <= fst q /\ fst p < fst q /\ f t = segment p q t).
  { intros t T. destruct (FE t) as (p & q & G). exists p, q. assert (G' := G). destruct G' as (NB & C1 & C2). splits; auto; [|..|apply NB].
    - destruct C1 as [C1|C1]; auto. destruct (in_combine_fst xs ys x0 L X0) as (y & I). specialize (C1 _ I). cbn in C1. lra.
    - destruct C2 as [C2|C2]; auto. destruct (in_combine_fst xs ys x9 L X9) as (y & I). specialize (C2 _ I). cbn in C2. lra. }
  assert (YB : forall p, In p (combine xs ys) -> 0 <= snd p <= top). { intros [a b] I. apply in_combine_r in I. cbn. split; auto. }
  assert (T0 : 0 < top). { destruct (BT lo ltac:(lra)) as (p & q & NB & _). destruct (FLAT p q NB) as (y & I & C). assert (IP := proj1 NB). assert (IQ := proj1 (proj2 NB)). pose proof (YB p IP). pose proof (YB q IQ). pose proof (TM y I). destruct C; lra. }
  assert (FB : forall t, lo <= t <= hi -> 0 <= f t <= top /\ (f t = top -> In t xs)).
  { intros t T. destruct (BT t T) as (p & q & NB & PQ & LT & E). rewrite E. assert (IP := proj1 NB). assert (IQ := proj1 (proj2 NB)).
    destruct (segment_between p q t 0 top PQ LT (YB p IP) (YB q IQ)) as (B & C). split; auto. intros K. destruct (C K) as [(K1 & K2)|[->| ->]].
    - exfalso. destruct (FLAT p q NB) as (y & I & F). pose proof (TM y I). destruct F; lra.
    - destruct p. apply in_combine_l in IP. exact IP.
    - destruct q. apply in_combine_l in IQ. exact IQ. }
  assert (IM : exists M, integral f lo x M). { eexists. exists (continuity_implies_RiemannInt (proj1 HX) (fun t _ => FC t)). reflexivity. } destruct IM as (M & IM).
  set (st := IS Custom lo hi (Some d) top) in *. exists st, f, top, M.
  assert (CR : forall u v, custom_round st u v = if Rlt_dec (f (lo + (hi - lo) * u) / top) 1 then Ok (if Rlt_dec (f (lo + (hi - lo) * u) / top) v then None else Some (lo + (hi - lo) * u)) else UB UB_assert).
  { intros u v. unfold custom_round, st. cbn [i_interp i_min i_max i_yield_max]. rewrite Hf. cbn [rbind]. destruct (Req_EM_T top 0); [lra|]. reflexivity. }
  splits; auto.
  - intros u v b U E. rewrite CR in E. destruct (Rlt_dec _ 1); [|discriminate]. destruct (Rlt_dec _ _); [discriminate|]. injection E as <-. nra.
  - destruct (rejection f top lo hi x M LH HX T0 (fun t T => proj1 (FB t T)) (fun t _ => FC t) IM) as (g & PG & IG).
    assert (PH : forall u, 0 < u < 1 -> lo <= lo + (hi - lo) * u <= hi) by (intros; split; nra).
    exists (fun u => if Rlt_dec (f (lo + (hi - lo) * u)) top then g u else 0). split.
    + intros u U. destruct (Rlt_dec (f (lo + (hi - lo) * u)) top) as [K|K].
      * assert (K1 : f (lo + (hi - lo) * u) / top < 1) by (apply (Rmult_lt_reg_r top); auto; unfold Rdiv; rewrite Rmult_assoc, Rinv_l by lra; lra).
        apply prob1_ext with (2 := PG u U). intros v V. rewrite CR. destruct (Rlt_dec _ 1); [|contradiction].
        assert (VE : f (lo + (hi - lo) * u) / top < v <-> f (lo + (hi - lo) * u) < top * v).
        { split; intros W; [apply (Rmult_lt_compat_l top) in W; auto; replace (top * (f (lo + (hi - lo) * u) / top)) with (f (lo + (hi - lo) * u)) in W by (field; lra); exact W|].
          apply (Rmult_lt_reg_l top); auto. replace (top * (f (lo + (hi - lo) * u) / top)) with (f (lo + (hi - lo) * u)) by (field; lra). exact W. }
        split.
        -- intros (A & B). exists (lo + (hi - lo) * u). split; auto. destruct (Rlt_dec _ v) as [W|W]; [apply VE in W; contradiction|reflexivity].
        -- intros (b & E & B). destruct (Rlt_dec _ v) as [W|W]; [discriminate|]. injection E as <-. split; auto. intros Z1. apply W, VE, Z1.
      * apply prob1_ext with (fun _ => False); [|apply prob1_const; auto]. intros v V. split; [tauto|]. intros (b & E & _). rewrite CR in E.
        destruct (Rlt_dec _ 1) as [W|W]; [|discriminate]. apply K. apply (Rmult_lt_compat_r top) in W; auto. unfold Rdiv in W. rewrite Rmult_assoc, Rinv_l in W by lra. lra.
    + apply (integral_except (map (fun t => (t - lo) / (hi - lo)) xs) _ g); [lra| |exact IG]. intros u U NI.
      destruct (Rlt_dec _ top) as [K|K]; [reflexivity|]. exfalso. apply NI. destruct (FB _ (PH u U)) as (B & C). apply in_map_iff. exists (lo + (hi - lo) * u). split; [field; lra|apply C; lra].
Qed.
Print Assumptions custom_law.
Lemma neighbours_3 x y z a b c p q : x < y -> y < z -> neighbours [(x, a); (y, b); (z, c)] p q -> (p = (x, a) /\ q = (y, b)) \/ (p = (y, b) /\ q = (z, c)).
Proof.
  intros XY YZ (IP & IQ & LT & NO). cbn in IP, IQ. destruct IP as [<-|[<-|[<-|[]]]], IQ as [<-|[<-|[<-|[]]]]; cbn in LT; try lra; auto.
  exfalso. apply (NO (y, b)); [cbn; auto|cbn; lra].
Qed.
Example custom_case : let c := IC None (Some Custom) (Some [0; 5; 10]) (Some [0; 3; 1]) None None in
  length [0; 5; 10] = length [0; 3; 1] /\ NoDup [0; 5; 10] /\ (forall y, In y [0; 3; 1] -> 0 <= y) /\
  (forall p q, neighbours (combine [0; 5; 10] [0; 3; 1]) p q -> exists y, In y [0; 3; 1] /\ (snd p < y \/ snd q < y)) /\ range_within c [0; 5; 10] 0 10.
Proof.
  cbn [combine]. splits.
  - reflexivity.
  - repeat constructor; cbn; intros H; repeat destruct H as [H|H]; try lra; auto.
  - intros y [<-|[<-|[<-|[]]]]; lra.
  - intros p q H. apply neighbours_3 in H; [|lra|lra]. exists 3. split; [cbn; auto|]. destruct H as [(-> & ->)|(-> & ->)]; cbn; lra.
  - unfold range_within. cbn. splits; auto; [lra|exists 0; split; [auto|lra]|exists 10; split; [auto|lra]|]. right. splits; auto. intros y H. destruct H as [<-|[<-|[<-|[]]]]; lra.
Qed.
(** When two neighbouring values share the largest yield, every draw between them has the probability 1 and fails
    the assertion that the probability is less than 1: a flat spectrum aborts in every event. *)
Theorem flat_maximum_refuted c xs ys p q u v : ic_value c = None -> ic_sample c = Some Custom -> ic_values c = Some xs -> ic_yields c = Some ys ->
  ic_range c = None -> ic_max c = None -> length xs = length ys -> NoDup xs -> (2 <= length xs)%nat ->
  neighbours (combine xs ys) p q -> (forall y, In y ys -> y <= snd p) -> snd q = snd p -> snd p <> 0 ->
  exists st, read_impact c = Ok st /\ (fst p <= i_min st + (i_max st - i_min st) * u <= fst q -> custom_round st u v = UB UB_assert).
Proof.
  intros CV CS CX CY CR CM L D N NB TOP EQ NZ. destruct (interpolation_function xs ys L D N) as (d & f & Hd & Hf & _ & FG & _).
  unfold read_impact. rewrite CV, CS, CX, CY. cbn [take_key rbind]. rewrite L, Nat.eqb_refl. cbn [negb]. rewrite Hd. cbn [rbind]. rewrite CM, CR. eexists. split; [reflexivity|].
  cbn [i_min i_max]. intros B. assert (NY : ys <> []) by (destruct ys; [destruct xs; cbn in *; lia|discriminate]). destruct (max_hd ys NY) as (TI & TM).
  assert (IP : In (snd p) ys) by (destruct NB as (I & _); destruct p; apply in_combine_r in I; exact I).
  assert (TE : max_of (hd 0 ys) ys = snd p) by (apply Rle_antisym; [apply TOP; auto|apply TM; auto]).
  unfold custom_round. cbn [i_interp i_min i_max i_yield_max]. rewrite Hf. cbn [rbind]. rewrite TE. destruct (Req_EM_T (snd p) 0); [contradiction|].
  rewrite (FG _ p q) by (split; [exact NB|split; left; apply B]). 
  assert (SG : forall t, segment p q t = snd p) by (intros t; unfold segment; rewrite EQ; unfold Rdiv; ring). rewrite SG.
  replace (snd p / snd p) with 1 by (field; auto). destruct (Rlt_dec 1 1); [lra|reflexivity].
Qed.
Print Assumptions flat_maximum_refuted.
Example flat_case : neighbours (combine [0; 10] [1; 1]) (0, 1) (10, 1) /\ forall y, In y [1; 1] -> y <= snd (0, 1).
Proof. split; [|intros y [<-|[<-|[]]]; cbn; lra]. unfold neighbours. cbn. splits; auto; [lra|]. intros r [<-|[<-|[]]]; cbn; lra. Qed.
(** A range beyond the given values extrapolates the yields; with yields that rise to the end the assertion fails there. *)
Theorem range_beyond_values_refuted v : let c := IC None (Some Custom) (Some [0; 10]) (Some [0; 1]) (Some (0, 20)) None in
  exists st, read_impact c = Ok st /\ custom_round st (3 / 4) v = UB UB_assert.
Proof.
  intros c. assert (D : NoDup [0; 10]) by (repeat constructor; cbn; intros H; repeat destruct H as [H|H]; try lra; auto).
  destruct (interpolation_function [0; 10] [0; 1] eq_refl D (le_n 2)) as (d & f & Hd & Hf & _ & FG & _).
  unfold read_impact, c. cbn [ic_value ic_sample ic_values ic_yields ic_range ic_max take_key rbind]. change (negb (length [0; 10] =? length [0; 1])%nat) with false. cbv iota. rewrite Hd. cbn [rbind].
  eexists. split; [reflexivity|]. unfold custom_round. cbn [i_interp i_min i_max i_yield_max i_sampling]. rewrite Hf. cbn [rbind].
  replace (max_of (hd 0 [0; 1]) [0; 1]) with 1. 2: { cbn. destruct (Rlt_dec 0 0); [lra|]. destruct (Rlt_dec 0 1); lra. }
  destruct (Req_EM_T 1 0); [lra|]. replace (0 + (20 - 0) * (3 / 4)) with 15 by lra.
  rewrite (FG 15 (0, 0) (10, 1)).
  - unfold segment. cbn. destruct (Rlt_dec _ 1); [lra|reflexivity].
  - unfold governs, neighbours. cbn. splits; auto; [lra|intros r [<-|[<-|[]]]; cbn; lra|left; lra|right]. intros r [<-|[<-|[]]]; cbn; lra.
Qed.
Print Assumptions range_beyond_values_refuted.
(** Custom sampling without values or yields, or with lists of different lengths, is refused; so are repeated values. *)
Theorem custom_refused c : ic_value c = None -> ic_sample c = Some Custom ->
  (ic_values c = None \/ ic_yields c = None \/ (exists xs ys, ic_values c = Some xs /\ ic_yields c = Some ys /\ length xs <> length ys) -> read_impact c = Throw E_invalid_argument) /\
  (forall xs ys, ic_values c = Some xs -> ic_yields c = Some ys -> length xs = length ys -> ~ NoDup xs -> read_impact c = Throw E_runtime).
Proof.
  intros CV CS. unfold read_impact. rewrite CV, CS. split.
  - intros [->|[->|(xs & ys & -> & -> & NE)]]; [destruct (ic_yields c); reflexivity|destruct (ic_values c); reflexivity|]. cbn [take_key rbind].
    destruct (Nat.eqb_spec (length xs) (length ys)); [contradiction|]. reflexivity.
  - intros xs ys -> -> E ND. cbn [take_key rbind]. rewrite E, Nat.eqb_refl. cbn [negb]. rewrite duplicates_rejected by auto. reflexivity.
Qed.
Print Assumptions custom_refused.
(** A single value is accepted, and the first event reads past the end of the interpolation. *)
Theorem single_value_refuted a y v : let c := IC None (Some Custom) (Some [a]) (Some [y]) None None in
  exists st, read_impact c = Ok st /\ custom_round st 0 v = UB UB_oob.
Proof.
  intros c. destruct (interpolation_one_point_refuted a y (a + (a - a) * 0)) as (d & Hd & He). unfold read_impact, c.
  cbn [ic_value ic_sample ic_values ic_yields ic_range ic_max take_key rbind]. change (negb (length [a] =? length [y])%nat) with false. cbv iota. rewrite Hd. cbn [rbind]. eexists. split; [reflexivity|].
  unfold custom_round. cbn [i_interp i_min i_max]. replace (min_of (hd 0 [a]) [a]) with a by (cbn; destruct (Rlt_dec a a); reflexivity).
  replace (max_of (hd 0 [a]) [a]) with a by (cbn; destruct (Rlt_dec a a); reflexivity). rewrite He. reflexivity.
Qed.
Print Assumptions single_value_refuted.
