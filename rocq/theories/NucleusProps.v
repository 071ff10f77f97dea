(** Properties of the preparation of a nucleus (C104). *)
From Coq Require Import ZArith Reals List Bool Lra Lia Psatz.
From Verif Require Import Base VecModel VecProps MotionModel WidthModel FinalProps NucleusModel.
Import ListNotations.
Open Scope R_scope.

(** ** Specification *)
Fixpoint total {A} (f : A -> R) (l : list A) : R := match l with [] => 0 | x :: r => f x + total f r end.
(** squared distance in space between two points *)
Definition dist2 (a b : vec4) : R :=
  (y1 a - y1 b) * (y1 a - y1 b) + (y2 a - y2 b) * (y2 a - y2 b) + (y3 a - y3 b) * (y3 a - y3 b).
(** same species in the same order *)
Definition same_content (a b : list nucleon) : Prop :=
  map npdg a = map npdg b /\ map nmass a = map nmass b.
(** the mean position of the particles in space is the point c *)
Definition centred_at (c : vec3) (ps : list nucleon) : Prop :=
  total (fun n => y1 (npos n)) ps = INR (length ps) * x1 c /\
  total (fun n => y2 (npos n)) ps = INR (length ps) * x2 c /\
  total (fun n => y3 (npos n)) ps = INR (length ps) * x3 c.
(** a particle on the mass shell of its species, with positive energy *)
Definition on_mass_shell (n : nucleon) : Prop := minkowski (nmom n) (nmom n) = nmass n * nmass n /\ 0 < y0 (nmom n).
(** no total three-momentum *)
Definition no_momentum (ps : list nucleon) : Prop :=
  total (fun n => y1 (nmom n)) ps = 0 /\ total (fun n => y2 (nmom n)) ps = 0 /\ total (fun n => y3 (nmom n)) ps = 0.

(** ** Helpers *)
Lemma total_app {A} (f : A -> R) a b : total f (a ++ b) = total f a + total f b.
Proof. induction a as [|x a IH]; cbn; [lra|rewrite IH; lra]. Qed.
Lemma total_map {A B} (f : B -> R) (g : A -> B) l : total f (map g l) = total (fun x => f (g x)) l.
Proof. induction l as [|x l IH]; cbn; [auto|rewrite IH; auto]. Qed.
Lemma total_ext {A} (f g : A -> R) l : (forall x, In x l -> f x = g x) -> total f l = total g l.
Proof. induction l as [|x l IH]; cbn; intros H; auto. rewrite H, IH; auto. Qed.
Lemma total_shift {A} (f : A -> R) c l : total (fun x => f x + c) l = total f l + INR (length l) * c.
Proof. induction l as [|x l IH]; [cbn; lra|]. change (length (x :: l)) with (S (length l)). rewrite S_INR. cbn [total]. rewrite IH. lra. Qed.
Lemma total_scale {A} (f : A -> R) c l : total (fun x => f x * c) l = total f l * c.
Proof. induction l as [|x l IH]; cbn; [lra|rewrite IH; lra]. Qed.
Lemma total_add {A} (f g : A -> R) l : total (fun x => f x + g x) l = total f l + total g l.
Proof. induction l as [|x l IH]; cbn; [lra|rewrite IH; lra]. Qed.
Lemma sum_pos_total ps acc : fold_left (fun s n => add4 s (npos n)) ps acc =
  V4 (y0 acc + total (fun n => y0 (npos n)) ps) (y1 acc + total (fun n => y1 (npos n)) ps)
     (y2 acc + total (fun n => y2 (npos n)) ps) (y3 acc + total (fun n => y3 (npos n)) ps).
Proof.
  revert acc; induction ps as [|n r IH]; intros acc; cbn [fold_left total].
  - destruct acc; cbn. f_equal; lra.
  - rewrite IH. unfold add4; cbn [y0 y1 y2 y3]. f_equal; lra.
Qed.
Lemma center_spec ps : ps <> [] -> centred_at (threevec (center ps)) ps.
Proof.
  intros H. unfold center, sum_pos. rewrite sum_pos_total. unfold div4, zero4, centred_at; cbn [y0 y1 y2 y3 x1 x2 x3 threevec].
  assert (INR (length ps) <> 0) by (apply not_0_INR; destruct ps; [congruence|discriminate]).
  splits; field; auto.
Qed.

(** ** C104: preparation of a nucleus *)
(** Centring moves the mean position to the origin, without changing species, momenta or the differences of
    positions. *)
Theorem centring ps : ps <> [] ->
  centred_at (V3 0 0 0) (align_center ps) /\ same_content (align_center ps) ps /\ map nmom (align_center ps) = map nmom ps /\
  forall i j a b, nth_error ps i = Some a -> nth_error ps j = Some b ->
    exists a' b', nth_error (align_center ps) i = Some a' /\ nth_error (align_center ps) j = Some b' /\
      sub4 (npos a') (npos b') = sub4 (npos a) (npos b).
Proof.
  intros H. pose proof (center_spec ps H) as (C1 & C2 & C3).
  unfold align_center. cbv zeta. set (c := center ps) in *. clearbody c. cbn [threevec x1 x2 x3] in *.
  splits.
  - unfold centred_at. rewrite !total_map, map_length. cbn [set_npos npos sub4 y1 y2 y3 x1 x2 x3].
    rewrite (total_ext _ (fun n => y1 (npos n) + - y1 c)), (total_ext (fun n => y2 _ - _) (fun n => y2 (npos n) + - y2 c)),
      (total_ext (fun n => y3 _ - _) (fun n => y3 (npos n) + - y3 c)) by (intros; lra).
    rewrite !total_shift, C1, C2, C3. splits; lra.
  - split; rewrite map_map; reflexivity.
  - rewrite map_map; reflexivity.
  - intros i j a b Ha Hb. do 2 eexists. splits.
    + apply (map_nth_error _ _ _ Ha).
    + apply (map_nth_error _ _ _ Hb).
    + unfold set_npos, sub4; cbn. f_equal; lra.
Qed.
Print Assumptions centring.

Lemma rotate_linear f t s a b : rotate f t s (add3 a b) = add3 (rotate f t s a) (rotate f t s b).
Proof. unfold rotate, add3; cbn; f_equal; ring. Qed.
Lemma rotate_zero f t s : rotate f t s (V3 0 0 0) = V3 0 0 0.
Proof. unfold rotate; cbn; f_equal; ring. Qed.
Lemma rotate_dist f t s a b :
  inner (sub3 (rotate f t s a) (rotate f t s b)) (sub3 (rotate f t s a) (rotate f t s b)) = inner (sub3 a b) (sub3 a b).
Proof.
  assert (sub3 (rotate f t s a) (rotate f t s b) = rotate f t s (sub3 a b)) as -> by (unfold rotate, sub3; cbn; f_equal; ring).
  apply rotate_preserves_inner.
Qed.
Lemma rotate_sum f t s ps :
  V3 (total (fun n => x1 (rotate f t s (threevec (npos n)))) ps) (total (fun n => x2 (rotate f t s (threevec (npos n)))) ps) (total (fun n => x3 (rotate f t s (threevec (npos n)))) ps) =
  rotate f t s (V3 (total (fun n => y1 (npos n)) ps) (total (fun n => y2 (npos n)) ps) (total (fun n => y3 (npos n)) ps)).
Proof.
  induction ps as [|n r IH]; cbn [total]; [rewrite rotate_zero; auto|].
  match goal with |- _ = rotate _ _ _ (V3 (?a + ?b) (?c + ?d) (?e + ?g)) => change (V3 (a + b) (c + d) (e + g)) with (add3 (threevec (npos n)) (V3 b d g)) end.
  rewrite rotate_linear, <- IH. reflexivity.
Qed.
(** Rotating keeps the centre at the origin and all the distances. *)
Theorem rotating f t s ps : centred_at (V3 0 0 0) ps ->
  centred_at (V3 0 0 0) (nrotate f t s ps) /\ same_content (nrotate f t s ps) ps /\ map nmom (nrotate f t s ps) = map nmom ps /\
  map (fun n => y0 (npos n)) (nrotate f t s ps) = map (fun n => y0 (npos n)) ps /\
  forall i j a b, nth_error ps i = Some a -> nth_error ps j = Some b ->
    exists a' b', nth_error (nrotate f t s ps) i = Some a' /\ nth_error (nrotate f t s ps) j = Some b' /\
      dist2 (npos a') (npos b') = dist2 (npos a) (npos b).
Proof.
  intros (C1 & C2 & C3). cbn [x1 x2 x3] in *. unfold nrotate. destruct (nonzero_angle f t s).
  2: { splits; auto; [repeat split; auto|split; auto|]. intros; eauto 6. }
  splits.
  - pose proof (rotate_sum f t s ps) as E. rewrite C1, C2, C3, !Rmult_0_r, rotate_zero in E. 
    assert (E1 : total (fun n => x1 (rotate f t s (threevec (npos n)))) ps = 0) by exact (f_equal x1 E).
    assert (E2 : total (fun n => x2 (rotate f t s (threevec (npos n)))) ps = 0) by exact (f_equal x2 E).
    assert (E3 : total (fun n => x3 (rotate f t s (threevec (npos n)))) ps = 0) by exact (f_equal x3 E).
    unfold centred_at. rewrite !total_map, map_length. cbn [x1 x2 x3]. unfold set_npos; cbn [npos]. unfold mk4; cbn [y1 y2 y3]. rewrite E1, E2, E3. splits; lra.
  - split; rewrite map_map; reflexivity.
  - rewrite map_map; reflexivity.
  - rewrite map_map; reflexivity.
  - intros i j a b Ha Hb. do 2 eexists. splits.
    + apply (map_nth_error _ _ _ Ha).
    + apply (map_nth_error _ _ _ Hb).
    + pose proof (rotate_dist f t s (threevec (npos a)) (threevec (npos b))) as E.
      unfold inner, sub3 in E; cbn [x1 x2 x3 threevec] in E. unfold dist2; cbn [set_npos npos mk4 y1 y2 y3]. exact E.
Qed.
Print Assumptions rotating.

Lemma combine_npdg (f : nucleon * vec3 -> nucleon) ps xs : length xs = length ps -> (forall x, npdg (f x) = npdg (fst x) /\ nmass (f x) = nmass (fst x)) ->
  same_content (map f (combine ps xs)) ps.
Proof.
  intros L H. split; revert xs L; induction ps as [|p r IH]; intros [|x xs] L; try discriminate; auto; cbn; destruct (H (p, x)) as (E1 & E2); cbn in E1, E2; rewrite ?E1, ?E2; f_equal; auto.
Qed.
Lemma same_content_trans a b c : same_content a b -> same_content b c -> same_content a c.
Proof. intros (A1 & A2) (B1 & B2). split; congruence. Qed.
Lemma nth_error_combine {A B} (a : list A) (b : list B) i x y : nth_error a i = Some x -> nth_error b i = Some y -> nth_error (combine a b) i = Some (x, y).
Proof. revert b i; induction a as [|u a IH]; intros [|v b] [|i]; cbn; try discriminate; [congruence|auto]. Qed.
Lemma const_map {A B C} (c : C) (l : list A) (m : list B) : length l = length m -> map (fun _ => c) l = map (fun _ => c) m.
Proof. revert m; induction l as [|x l IH]; intros [|y m] E; try discriminate; cbn; f_equal; auto. Qed.
Lemma content_length a b : same_content a b -> length a = length b.
Proof. intros (H & _). rewrite <- (map_length npdg a), H, map_length. auto. Qed.
(** What arrange_nucleons produces from the drawn positions: the same species, all at time 0, at rest, centred
    at the origin, at the distances from one another of the drawn positions. *)
Theorem arranged ps xs phi theta psi : ps <> [] -> length xs = length ps -> (forall n, In n ps -> 0 < nmass n) ->
  let r := arrange xs phi theta psi ps in
  centred_at (V3 0 0 0) r /\ same_content r ps /\
  (forall n, In n r -> nmom n = V4 (nmass n) 0 0 0 /\ y0 (npos n) = 0) /\
  forall i j x y, nth_error xs i = Some x -> nth_error xs j = Some y ->
    exists a b, nth_error r i = Some a /\ nth_error r j = Some b /\ dist2 (npos a) (npos b) = inner (sub3 x y) (sub3 x y).
Proof.
  intros Hne L Hm r. unfold r, arrange; clear r.
  set (q := map _ (combine ps xs)).
  assert (Hq : same_content q ps) by (apply combine_npdg; auto).
  assert (Hq0 : q <> []) by (intros E; apply content_length in Hq; rewrite E in Hq; destruct ps; [congruence|discriminate]).
  destruct (centring q Hq0) as (C & S1 & M & D).
  destruct (rotating phi theta psi _ C) as (C' & S2 & M' & T & D').
  assert (M1 : forall n, In n q -> nmom n = V4 (nmass n) 0 0 0 /\ y0 (npos n) = 0).
  { intros n Hn. unfold q in Hn. apply in_map_iff in Hn. destruct Hn as ((p, x) & <- & Hpx). apply in_combine_l in Hpx. cbn.
    split; auto. unfold on_shell, mk4, dot3; cbn. f_equal. rewrite !Rmult_0_l, !Rplus_0_r. apply sqrt_square. apply Rlt_le; auto. }
  splits; auto.
  - apply same_content_trans with (align_center q); auto. apply same_content_trans with q; auto.
  - assert (E1 : map nmom (nrotate phi theta psi (align_center q)) = map (fun n => V4 (nmass n) 0 0 0) (nrotate phi theta psi (align_center q))).
    { rewrite M', M. rewrite (map_ext_in nmom (fun n => V4 (nmass n) 0 0 0)) by (intros a Ha; apply M1; auto).
      rewrite <- !(map_map nmass (fun m => V4 m 0 0 0)). f_equal. destruct S1 as (_ & S1), S2 as (_ & S2). congruence. }
    assert (E2 : map (fun n => y0 (npos n)) (nrotate phi theta psi (align_center q)) = map (fun n => 0) (nrotate phi theta psi (align_center q))).
    { rewrite T. rewrite (map_ext_in _ (fun _ => 0)).
      - apply const_map. symmetry. apply content_length. auto.
      - intros a Ha. unfold align_center in Ha. apply in_map_iff in Ha. destruct Ha as (b & <- & Hb). cbn.
        rewrite (proj2 (M1 b Hb)). unfold center, sum_pos. rewrite sum_pos_total. cbn.
        rewrite (total_ext _ (fun _ => 0)) by (intros; apply M1; auto).
        assert (Z : forall l : list nucleon, total (fun _ => 0) l = 0) by (intros l; induction l; cbn; lra). rewrite Z. unfold Rdiv. ring. }
    clear - E1 E2. revert E1 E2. generalize (nrotate phi theta psi (align_center q)). intros l; induction l as [|x l IH]; cbn; intros E1 E2 n Hn; [destruct Hn|destruct Hn as [<-|Hn]].
    + split; congruence.
    + apply IH; congruence || auto.
  - intros i j x y Hx Hy.
    assert (E : forall k z, nth_error xs k = Some z -> exists n, nth_error ps k = Some n).
    { intros k z Hk. destruct (nth_error ps k) eqn:Ek; eauto. apply nth_error_None in Ek. assert (k < length xs)%nat by (apply nth_error_Some; congruence). lia. }
    destruct (E i x Hx) as (n & Hn), (E j y Hy) as (m & Hmm).
    pose proof (map_nth_error (fun nx => Nuc (npdg (fst nx)) (nmass (fst nx)) (mk4 0 (snd nx)) (on_shell (nmass (fst nx)) (V3 0 0 0))) _ _ (nth_error_combine _ _ _ _ _ Hn Hx)) as Q1.
    pose proof (map_nth_error (fun nx => Nuc (npdg (fst nx)) (nmass (fst nx)) (mk4 0 (snd nx)) (on_shell (nmass (fst nx)) (V3 0 0 0))) _ _ (nth_error_combine _ _ _ _ _ Hmm Hy)) as Q2.
    destruct (D i j _ _ Q1 Q2) as (a1 & b1 & A1 & B1 & D1).
    destruct (D' i j _ _ A1 B1) as (a2 & b2 & A2 & B2 & D2).
    exists a2, b2. splits; auto. rewrite D2. unfold sub4 in D1; cbn in D1. injection D1 as _ F1 F2 F3.
    unfold dist2. rewrite F1, F2, F3. unfold inner, sub3; cbn. reflexivity.
Qed.
Print Assumptions arranged.

(** ** Fermi momenta *)
Lemma cube_root_spec x : 0 <= x -> 0 <= cube_root x /\ cube_root x * cube_root x * cube_root x = x.
Proof.
  intros H. unfold cube_root. destruct (Rle_dec x 0); [split; lra|].
  split; [apply Rlt_le, exp_pos|]. rewrite <- !Rpower_plus. replace (1 / 3 + 1 / 3 + 1 / 3) with 1 by lra. apply Rpower_1. lra.
Qed.
Lemma cube_root_mono x y : 0 <= x -> x <= y -> cube_root x <= cube_root y.
Proof.
  intros H L. destruct (cube_root_spec x H) as (A & B), (cube_root_spec y) as (C & D); [lra|].
  destruct (Rle_dec (cube_root x) (cube_root y)); auto. exfalso.
  assert (cube_root y * cube_root y <= cube_root x * cube_root x) by (apply Rmult_le_compat; lra).
  assert (cube_root y * cube_root y * cube_root y < cube_root x * cube_root x * cube_root x); [|lra].
  destruct (Req_dec (cube_root y) 0) as [E|E].
  - rewrite E. rewrite !Rmult_0_l. assert (0 < cube_root x) by lra. repeat apply Rmult_lt_0_compat; auto.
  - apply Rle_lt_trans with (cube_root x * cube_root x * cube_root y); [apply Rmult_le_compat_r; auto|].
    apply Rmult_lt_compat_l; [assert (0 < cube_root x) by lra; apply Rmult_lt_0_compat; auto|lra].
Qed.

(** local Fermi momentum of the species at the place of the particle *)
Definition species_density (rho : nucleon -> R) (ps : list nucleon) (n : nucleon) : R :=
  rho n * (INR (count_pdg (npdg n) ps) / INR (count_pdg proton ps + count_pdg neutron ps)).
(** the number of states below the momentum p in a Fermi gas of spin 1/2 is p³/(3 π² ħ³) per volume: the Fermi momentum
    is the momentum for which it equals the density *)
Definition is_fermi_momentum (density p : R) : Prop := 0 <= p /\ p * p * p = 3 * PI * PI * density * (hbarc * hbarc * hbarc).

Lemma total_filter {A} (f : A -> R) (b : A -> bool) l : total f (filter b l) = total (fun x => if b x then f x else 0) l.
Proof. induction l as [|x l IH]; cbn; [auto|]. destruct (b x); cbn; rewrite IH; lra. Qed.
Lemma sum_drawn_total rho ps l acc :
  fold_left (fun s nd => if is_nucleon (fst nd) then add3 s (fermi_draw rho ps (fst nd) (snd nd)) else s) l acc =
  V3 (x1 acc + total (fun nd => if is_nucleon (fst nd) then x1 (fermi_draw rho ps (fst nd) (snd nd)) else 0) l)
     (x2 acc + total (fun nd => if is_nucleon (fst nd) then x2 (fermi_draw rho ps (fst nd) (snd nd)) else 0) l)
     (x3 acc + total (fun nd => if is_nucleon (fst nd) then x3 (fermi_draw rho ps (fst nd) (snd nd)) else 0) l).
Proof.
  revert acc; induction l as [|nd l IH]; intros acc; cbn [fold_left total].
  - destruct acc; cbn; f_equal; lra.
  - rewrite IH. destruct (is_nucleon (fst nd)); cbn [x1 x2 x3 add3]; unfold add3; cbn [x1 x2 x3]; f_equal; lra.
Qed.
Lemma nucleon_count ps : length (filter is_nucleon ps) = (count_pdg neutron ps + count_pdg proton ps)%nat.
Proof.
  unfold count_pdg. induction ps as [|n r IH]; auto. cbn. unfold is_nucleon at 1.
  destruct (Z.eqb_spec (npdg n) proton) as [E|E], (Z.eqb_spec (npdg n) neutron) as [F|F]; cbn; rewrite ?IH; try lia.
  rewrite E in F. discriminate.
Qed.
Lemma total_const_count {B} (c : R) ps (l : list B) : length l = length ps ->
  total (fun nd => if is_nucleon (fst nd) then c else 0) (combine ps l) = INR (length (filter is_nucleon ps)) * c.
Proof.
  revert l; induction ps as [|n r IH]; intros [|x l] L; try discriminate; [cbn; lra|].
  cbn [combine total fst filter]. rewrite IH by (injection L; auto). destruct (is_nucleon n); [|lra]. change (length (n :: filter is_nucleon r)) with (S (length (filter is_nucleon r))). rewrite S_INR. lra.
Qed.
Lemma on_shell_shell m p : 0 < m -> minkowski (on_shell m p) (on_shell m p) = m * m /\ 0 < y0 (on_shell m p).
Proof.
  intros H. unfold on_shell, minkowski, mk4, dot3; cbn.
  assert (0 < m * m) by (apply Rmult_lt_0_compat; auto).
  pose proof (Rle_0_sqr (x1 p)). pose proof (Rle_0_sqr (x2 p)). pose proof (Rle_0_sqr (x3 p)). unfold Rsqr in *.
  split; [rewrite sqrt_sqrt by lra; ring|apply sqrt_lt_R0; lra].
Qed.
Lemma combine_fst_in {A B} (a : list A) (b : list B) i x : nth_error a i = Some x -> length b = length a -> exists y, nth_error b i = Some y.
Proof. intros H L. destruct (nth_error b i) eqn:E; eauto. apply nth_error_None in E. assert (i < length a)%nat by (apply nth_error_Some; congruence). lia. Qed.

(** the result particle for particle *)
Lemma fermi_nth rho draws ps : length draws = length ps ->
  let c := div3 (sum_drawn rho ps draws) (INR (count_pdg neutron ps + count_pdg proton ps)) in
  forall i n ud, nth_error ps i = Some n -> nth_error draws i = Some ud ->
  nth_error (generate_fermi rho draws ps) i =
    Some (if is_nucleon n then set_nmom (on_shell (nmass n) (sub3 (fermi_draw rho ps n ud) c)) n else n).
Proof.
  intros L c i n ud Hn Hu. unfold generate_fermi. fold c. cbv zeta.
  pose proof (nth_error_combine _ _ _ _ _ Hn Hu) as Hc.
  destruct (Nat.eqb_spec (count_pdg neutron ps + count_pdg proton ps) 0) as [E|E].
  - unfold fermi_first. rewrite (map_nth_error _ _ _ Hc). cbn.
    destruct (is_nucleon n) eqn:N; auto. exfalso. rewrite <- nucleon_count in E. apply nth_error_In in Hn.
    assert (In n (filter is_nucleon ps)) by (apply filter_In; auto). destruct (filter is_nucleon ps); [auto|discriminate].
  - unfold fermi_first. rewrite map_map, (map_nth_error _ _ _ Hc). cbn [fst snd]. f_equal.
    destruct (is_nucleon n) eqn:N.
    + change (is_nucleon (set_nmom (mk4 (y0 (nmom n)) (fermi_draw rho ps n ud)) n)) with (is_nucleon n). rewrite N.
      unfold set_nmom; cbn. destruct (fermi_draw rho ps n ud); auto.
    + rewrite N; auto.
Qed.
Lemma fermi_length rho draws ps : length draws = length ps -> length (generate_fermi rho draws ps) = length ps.
Proof.
  intros L. unfold generate_fermi, fermi_first. cbv zeta. destruct (_ =? 0)%nat; rewrite !map_length, combine_length; lia.
Qed.
Lemma nth_ext_map {A B} (f : A -> B) (l m : list A) : length l = length m ->
  (forall i x y, nth_error l i = Some x -> nth_error m i = Some y -> f x = f y) -> map f l = map f m.
Proof.
  revert m; induction l as [|x l IH]; intros [|y m] L H; try discriminate; auto. cbn. f_equal.
  - apply (H 0%nat); auto.
  - apply IH; [injection L; auto|]. intros i a b Ha Hb. apply (H (S i)); auto.
Qed.
Lemma total_combine (f : nucleon -> R) (g : nucleon * (R * vec3) -> R) ps draws r :
  length draws = length ps -> length r = length ps ->
  (forall i n ud n', nth_error ps i = Some n -> nth_error draws i = Some ud -> nth_error r i = Some n' -> f n' = g (n, ud)) ->
  total f r = total g (combine ps draws).
Proof.
  revert draws r; induction ps as [|n ps IH]; intros [|ud draws] [|n' r] L L' H; try discriminate; auto. cbn. f_equal.
  - apply (H 0%nat); auto.
  - apply IH; [injection L; auto|injection L'; auto|]. intros i a b c Ha Hb Hc. apply (H (S i)); auto.
Qed.

(** Fermi motion: positions and species are kept, other particles keep their momentum, protons and neutrons are on their
    mass shell and have no total momentum. Up to a common shift, the momentum of a particle is the drawn direction times
    u^(1/3) of the Fermi momentum for the density of its species at its place. *)
Theorem fermi_motion rho draws ps : length draws = length ps ->
  (forall n, In n ps -> 0 < nmass n /\ 0 <= rho n) -> (forall u d, In (u, d) draws -> 0 <= u <= 1) ->
  let r := generate_fermi rho draws ps in
  same_content r ps /\ map npos r = map npos ps /\
  no_momentum (filter is_nucleon r) /\ (forall n, In n r -> is_nucleon n = true -> on_mass_shell n) /\
  (forall i n, nth_error ps i = Some n -> is_nucleon n = false -> nth_error r i = Some n) /\
  exists c, forall i n u d, nth_error ps i = Some n -> nth_error draws i = Some (u, d) -> is_nucleon n = true ->
    exists n' k, nth_error r i = Some n' /\ threevec (nmom n') = sub3 (scale3 k d) c /\
      is_fermi_momentum (species_density rho ps n * u) k.
Proof.
  intros L Hm Hu r. pose proof (fermi_nth rho draws ps L) as N. cbv zeta in N. fold r in N.
  pose proof (fermi_length rho draws ps L) as LR. fold r in LR.
  set (c := div3 _ _) in N.
  assert (P : forall i n, nth_error ps i = Some n -> exists ud, nth_error draws i = Some ud /\
     nth_error r i = Some (if is_nucleon n then set_nmom (on_shell (nmass n) (sub3 (fermi_draw rho ps n ud) c)) n else n)).
  { intros i n Hi. destruct (combine_fst_in _ draws _ _ Hi L) as (ud & Hd). exists ud. split; auto. }
  assert (Q : forall i n', nth_error r i = Some n' -> exists n ud, nth_error ps i = Some n /\ nth_error draws i = Some ud /\
     n' = (if is_nucleon n then set_nmom (on_shell (nmass n) (sub3 (fermi_draw rho ps n ud) c)) n else n)).
  { intros i n' Hi. destruct (combine_fst_in _ ps _ _ Hi) as (n & Hn); [lia|]. destruct (P i n Hn) as (ud & Hd & E). exists n, ud. splits; auto. congruence. }
  assert (K : forall {B} (f : nucleon -> B), (forall n p, f (set_nmom p n) = f n) -> map f r = map f ps).
  { intros B f Hf. apply nth_ext_map; auto. intros i x y Hx Hy. destruct (Q i x Hx) as (n & ud & Hn & _ & ->).
    assert (n = y) by congruence. subst y. destruct (is_nucleon n); auto. }
  splits.
  - split; apply K; auto.
  - apply K; auto.
  - assert (T : forall (e : vec4 -> R) (e3 : vec3 -> R), (forall q a, e (mk4 q a) = e3 a) -> (forall a b, e3 (sub3 a b) = e3 a - e3 b) ->
        total (fun n => e (nmom n)) (filter is_nucleon r) =
        total (fun nd => if is_nucleon (fst nd) then e3 (fermi_draw rho ps (fst nd) (snd nd)) else 0) (combine ps draws)
        - INR (count_pdg neutron ps + count_pdg proton ps) * e3 c).
    { intros e e3 He Hs. rewrite total_filter.
      rewrite (total_combine _ (fun nd => (if is_nucleon (fst nd) then e3 (fermi_draw rho ps (fst nd) (snd nd)) else 0) + (if is_nucleon (fst nd) then - e3 c else 0)) ps draws r); auto.
      - rewrite total_add, total_const_count, nucleon_count by auto. lra.
      - intros i n ud n' Hn Hd Hr. rewrite (N i n ud Hn Hd) in Hr. injection Hr as <-. cbn [fst snd].
        destruct (is_nucleon n) eqn:E.
        + change (is_nucleon (set_nmom (on_shell (nmass n) (sub3 (fermi_draw rho ps n ud) c)) n)) with (is_nucleon n). rewrite E.
          cbn [set_nmom nmom]. unfold on_shell. rewrite He, Hs. lra.
        + rewrite E. lra. }
    destruct (Nat.eq_dec (count_pdg neutron ps + count_pdg proton ps) 0) as [E|E].
    + assert (filter is_nucleon r = []) as ->; [|unfold no_momentum; cbn; auto].
      rewrite <- nucleon_count in E. apply length_zero_iff_nil.
      rewrite <- E. assert (X : map is_nucleon r = map is_nucleon ps) by (apply K; auto).
      clear - X. revert X. generalize r ps. intros l; induction l as [|x l IH]; intros [|y m] H; try discriminate; auto. cbn in H. injection H as H1 H2. cbn. rewrite H1. destruct (is_nucleon y); cbn; auto.
    + assert (E' : INR (count_pdg neutron ps + count_pdg proton ps) <> 0) by (apply not_0_INR; auto).
      unfold no_momentum. rewrite (T y1 x1), (T y2 x2), (T y3 x3) by reflexivity.
      unfold c, sum_drawn. rewrite sum_drawn_total. unfold div3, scale3; cbn [x1 x2 x3]. splits; field; auto.
  - intros n' Hn Hb. apply In_nth_error in Hn. destruct Hn as (i & Hi). destruct (Q i n' Hi) as (n & ud & Hn & _ & E).
    destruct (is_nucleon n) eqn:En; [|congruence]. subst n'. unfold on_mass_shell; cbn [nmom nmass set_nmom]. apply on_shell_shell. apply Hm. apply nth_error_In in Hn; auto.
  - intros i n Hn Hb. destruct (P i n Hn) as (ud & _ & E). rewrite Hb in E. auto.
  - exists c. intros i n u d Hn Hd Hb. rewrite (N i n (u, d) Hn Hd), Hb. do 2 eexists. splits; [reflexivity| |].
    + cbn [nmom set_nmom]. unfold on_shell. match goal with |- threevec (mk4 _ ?a) = _ => transitivity a; [destruct a; reflexivity|] end. unfold fermi_draw. cbv zeta. reflexivity.
    + cbn [fst snd]. destruct (Hm n) as (_ & Hr); [apply nth_error_In in Hn; auto|]. destruct (Hu u d) as (U0 & U1); [apply nth_error_In in Hd; auto|].
      set (x := 3 * PI * PI * _ * u).
      assert (Ex : x = 3 * PI * PI * (species_density rho ps n * u)).
      { unfold x, species_density. rewrite (Nat.add_comm (count_pdg proton ps)).
        replace (if (npdg n =? proton)%Z then count_pdg proton ps else count_pdg neutron ps) with (count_pdg (npdg n) ps); [unfold Rdiv; ring|].
        unfold is_nucleon in Hb. destruct (Z.eqb_spec (npdg n) proton) as [->|]; auto. destruct (Z.eqb_spec (npdg n) neutron) as [->|]; auto. discriminate. }
      assert (X0 : 0 <= x).
      { rewrite Ex. pose proof PI_RGT_0. apply Rmult_le_pos; [apply Rmult_le_pos; [apply Rmult_le_pos|]; lra|]. apply Rmult_le_pos; auto.
        unfold species_density. apply Rmult_le_pos; auto. unfold Rdiv. apply Rmult_le_pos; [apply pos_INR|].
        apply Rlt_le, Rinv_0_lt_compat, lt_0_INR. rewrite Nat.add_comm, <- nucleon_count.
        apply nth_error_In in Hn. assert (In n (filter is_nucleon ps)) by (apply filter_In; auto). destruct (filter is_nucleon ps); [contradiction|cbn; lia]. }
      destruct (cube_root_spec x X0) as (A & B). assert (0 < hbarc) by (unfold hbarc; lra).
      split; [apply Rmult_le_pos; lra|]. rewrite <- Ex. replace (hbarc * cube_root x * (hbarc * cube_root x) * (hbarc * cube_root x)) with (cube_root x * cube_root x * cube_root x * (hbarc * hbarc * hbarc)) by ring. rewrite B. ring.
Qed.
Print Assumptions fermi_motion.

(** ** Boost *)
(** On a mass shell, the boost is the Lorentz transformation of the momentum to the frame where the rest frame of the
    nucleus moves with beta along z; positions are contracted along z. *)
Theorem boosted_nucleon beta n : -1 < beta < 1 -> 0 < nmass n -> on_mass_shell n ->
  let n' := boost_one beta n in
  nmom n' = boost (V3 0 0 (- beta)) (nmom n) /\ on_mass_shell n' /\
  npdg n' = npdg n /\ nmass n' = nmass n /\
  npos n' = V4 (y0 (npos n)) (y1 (npos n)) (y2 (npos n)) (y3 (npos n) / gamma (V3 0 0 beta)).
Proof.
  intros Hb Hm (Hs & He). cbv zeta.
  assert (B2 : beta * beta < 1) by nra.
  assert (S2 : speed2 (V3 0 0 (- beta)) = beta * beta) by (unfold speed2; cbn; ring).
  destruct (gamma_eq (V3 0 0 (- beta))) as (G1 & G2); [rewrite S2; lra|]. rewrite S2 in G2.
  assert (Gv : gamma (V3 0 0 (- beta)) = 1 / sqrt (1 - beta * beta)).
  { unfold gamma, sqr3, dot3; cbn [x1 x2 x3]. replace (0 * 0 + 0 * 0 + - beta * - beta) with (beta * beta) by ring. destruct (Rlt_dec (beta * beta) 1); [auto|lra]. }
  assert (Gp : gamma (V3 0 0 beta) = 1 / sqrt (1 - beta * beta)).
  { unfold gamma, sqr3, dot3; cbn [x1 x2 x3]. replace (0 * 0 + 0 * 0 + beta * beta) with (beta * beta) by ring. destruct (Rlt_dec (beta * beta) 1); [auto|lra]. }
  assert (Sq : 0 < sqrt (1 - beta * beta)) by (apply sqrt_lt_R0; lra).
  set (g := gamma (V3 0 0 (- beta))) in *.
  assert (Z : y3 (boost (V3 0 0 (- beta)) (nmom n)) = g * (beta * y0 (nmom n) + y3 (nmom n))).
  { unfold boost. fold g. unfold mk4, sub3, scale3, dot3, threevec; cbn [y0 y1 y2 y3 x1 x2 x3].
    set (e := y0 (nmom n)). set (p := y3 (nmom n)).
    assert (X : (g + 1) * ((p - - beta * (g / (g + 1) * (g * (e - (y1 (nmom n) * 0 + y2 (nmom n) * 0 + p * - beta)) + e))) - g * (beta * e + p)) = 0).
    { transitivity ((g + 1) * p + beta * g * (g * (e + p * beta) + e) - (g + 1) * g * (beta * e + p)); [field; lra|].
      replace ((g + 1) * p + beta * g * (g * (e + p * beta) + e) - (g + 1) * g * (beta * e + p)) with (p * (1 - g * g * (1 - beta * beta))) by ring. rewrite G2. ring. }
    apply Rmult_integral in X. destruct X; lra. }
  assert (Sh : minkowski (boost (V3 0 0 (- beta)) (nmom n)) (boost (V3 0 0 (- beta)) (nmom n)) = nmass n * nmass n).
  { rewrite boost_preserves_product by (rewrite S2; lra). auto. }
  assert (En : 0 < y0 (boost (V3 0 0 (- beta)) (nmom n))).
  { unfold boost. fold g. unfold mk4, dot3, threevec; cbn [y0 x1 x2 x3]. apply Rmult_lt_0_compat; [lra|].
    unfold minkowski in Hs. set (e := y0 (nmom n)) in *. set (p := y3 (nmom n)) in *.
    pose proof (Rle_0_sqr (y1 (nmom n))). pose proof (Rle_0_sqr (y2 (nmom n))). unfold Rsqr in *.
    assert (0 < nmass n * nmass n) by (apply Rmult_lt_0_compat; auto).
    assert (p * p < e * e) by lra. assert (Rabs p < e) by (apply Rsqr_lt_abs_0 in H2; rewrite (Rabs_pos_eq e) in H2; lra).
    apply Rabs_def2 in H3. nra. }
  assert (M : nmom (boost_one beta n) = boost (V3 0 0 (- beta)) (nmom n)).
  { unfold boost_one. cbn [nmom]. rewrite <- Gv, <- Z.
    assert (Y1 : y1 (boost (V3 0 0 (- beta)) (nmom n)) = y1 (nmom n)) by (unfold boost, mk4, sub3, scale3, threevec; cbn [y1 x1 x2 x3]; ring).
    assert (Y2 : y2 (boost (V3 0 0 (- beta)) (nmom n)) = y2 (nmom n)) by (unfold boost, mk4, sub3, scale3, threevec; cbn [y2 x1 x2 x3]; ring).
    rewrite <- Y1, <- Y2. destruct (boost (V3 0 0 (- beta)) (nmom n)) as [b0 b1 b2 b3]. unfold on_shell, mk4, dot3, minkowski in *; cbn in *. f_equal.
    rewrite <- Sh. replace (b0 * b0 - (b1 * b1 + b2 * b2 + b3 * b3) + (b1 * b1 + b2 * b2 + b3 * b3)) with (b0 * b0) by ring. apply sqrt_square. lra. }
  splits; auto.
  - split; [rewrite M; auto|rewrite M; auto].
  - unfold boost_one; cbn [npos]. rewrite Gp. f_equal. field. lra.
Qed.
Print Assumptions boosted_nucleon.
(** The momentum of a boosted nucleus along z: beta gamma times the total energy of its particles in its rest frame. *)
Theorem boosted_nucleus_momentum beta ps : -1 < beta < 1 -> no_momentum ps ->
  total (fun n => y3 (nmom n)) (nboost beta ps) = gamma (V3 0 0 beta) * beta * total (fun n => y0 (nmom n)) ps /\
  total (fun n => y1 (nmom n)) (nboost beta ps) = 0 /\ total (fun n => y2 (nmom n)) (nboost beta ps) = 0.
Proof.
  intros Hb (P1 & P2 & P3). unfold nboost. rewrite !total_map. unfold boost_one, on_shell, mk4; cbn [nmom y1 y2 y3 x1 x2 x3].
  splits; auto.
  assert (B2 : beta * beta < 1) by nra.
  assert (Gp : gamma (V3 0 0 beta) = 1 / sqrt (1 - beta * beta)).
  { unfold gamma, sqr3, dot3; cbn [x1 x2 x3]. replace (0 * 0 + 0 * 0 + beta * beta) with (beta * beta) by ring. destruct (Rlt_dec (beta * beta) 1); [auto|lra]. }
  rewrite Gp. set (g := 1 / sqrt (1 - beta * beta)).
  rewrite (total_ext _ (fun n => y0 (nmom n) * (g * beta) + y3 (nmom n) * g)) by (intros; ring).
  rewrite total_add, !total_scale, P3. ring.
Qed.
Print Assumptions boosted_nucleus_momentum.

(** The comment in the code announces p' = p_beam + gamma p_F. A particle with Fermi momentum gets more. *)
Theorem boost_adds_beam_momentum_refuted : exists beta n, 0 < beta < 1 /\ 0 < nmass n /\ on_mass_shell n /\
  gamma (V3 0 0 beta) * beta * nmass n + gamma (V3 0 0 beta) * y3 (nmom n) < y3 (nmom (boost_one beta n)).
Proof.
  exists (3/5), (Nuc proton 4 zero4 (V4 5 3 0 0)). unfold on_mass_shell, minkowski, boost_one, on_shell, mk4; cbn [nmom nmass y0 y1 y2 y3 x3].
  assert (S1 : sqrt (1 - 3 / 5 * (3 / 5)) = 4 / 5) by (replace (1 - 3 / 5 * (3 / 5)) with (4/5 * (4/5)) by lra; apply sqrt_square; lra).
  splits; try lra.
  unfold gamma, sqr3, dot3; cbn [x1 x2 x3]. replace (0 * 0 + 0 * 0 + 3 / 5 * (3 / 5)) with (3 / 5 * (3 / 5)) by ring.
  destruct (Rlt_dec (3 / 5 * (3 / 5)) 1); [|lra]. rewrite S1. lra.
Qed.
Print Assumptions boost_adds_beam_momentum_refuted.

(** ** The nucleus of an event: arranged, with Fermi momenta, boosted and shifted *)
Theorem prepared_nucleus ps xs phi theta psi rho draws beta z x t : ps <> [] -> length xs = length ps -> length draws = length ps ->
  (forall n, In n ps -> 0 < nmass n) -> (forall n, 0 <= rho n) -> (forall u d, In (u, d) draws -> 0 <= u <= 1) -> -1 < beta < 1 ->
  let r := shift z x t (nboost beta (generate_fermi rho draws (arrange xs phi theta psi ps))) in
  same_content r ps /\ centred_at (V3 x 0 z) r /\ (forall n, In n r -> y0 (npos n) = t /\ on_mass_shell n) /\
  total (fun n => y1 (nmom n)) r = 0 /\ total (fun n => y2 (nmom n)) r = 0.
Proof.
  intros Hne L LD Hm Hr Hu Hb r.
  destruct (arranged ps xs phi theta psi Hne L Hm) as (C & SC & At & _). set (a := arrange xs phi theta psi ps) in *.
  assert (Ma : forall n, In n a -> 0 < nmass n).
  { intros n Hn. destruct SC as (_ & SC). assert (In (nmass n) (map nmass ps)) by (rewrite <- SC; apply in_map; auto). apply in_map_iff in H. destruct H as (m & <- & H). auto. }
  assert (LA : length a = length ps) by (apply content_length; auto).
  destruct (fermi_motion rho draws a) as (SF & PF & TF & OF & NF & _); [lia|intros n Hn; split; auto|auto|].
  set (f := generate_fermi rho draws a) in *.
  assert (LF : length f = length a) by (apply content_length; auto).
  assert (OS : forall n, In n f -> 0 < nmass n /\ on_mass_shell n).
  { intros n Hn. split.
    - destruct SF as (_ & SF). assert (In (nmass n) (map nmass a)) by (rewrite <- SF; apply in_map; auto). apply in_map_iff in H. destruct H as (m & <- & H). auto.
    - destruct (is_nucleon n) eqn:E; [apply OF; auto|].
      apply In_nth_error in Hn. destruct Hn as (i & Hi). destruct (combine_fst_in _ a _ _ Hi) as (m & Hmi); [lia|].
      assert (npdg n = npdg m).
      { destruct SF as (SF & _). pose proof (map_nth_error npdg _ _ Hi). pose proof (map_nth_error npdg _ _ Hmi). rewrite SF in H. congruence. }
      assert (is_nucleon m = false) by (unfold is_nucleon in *; rewrite <- H; auto). rewrite (NF i m Hmi H0) in Hi. injection Hi as <-.
      apply nth_error_In in Hmi. unfold on_mass_shell; rewrite (proj1 (At m Hmi)). specialize (Ma m Hmi). unfold minkowski; cbn. split; [ring|auto]. }
  splits.
  - apply same_content_trans with f; [|apply same_content_trans with a; auto]. unfold r, shift, nboost. split; rewrite !map_map; reflexivity.
  - assert (CF : centred_at (V3 0 0 0) f).
    { destruct C as (C1 & C2 & C3). unfold centred_at in *. rewrite LF.
      rewrite <- !(total_map _ npos), PF, !total_map. auto. }
    destruct CF as (C1 & C2 & C3). cbn [x1 x2 x3] in *.
    unfold r, shift, nboost. rewrite map_map. unfold centred_at. rewrite !total_map, map_length.
    unfold boost_one, set_npos; cbn [npos y1 y2 y3 x1 x2 x3]. rewrite !total_shift, total_scale, C1, C2, C3. splits; ring.
  - intros n Hn. unfold r, shift in Hn. apply in_map_iff in Hn. destruct Hn as (m & <- & H). unfold nboost in H. apply in_map_iff in H. destruct H as (k & <- & H).
    destruct (OS k H) as (K1 & K2). destruct (boosted_nucleon beta k Hb K1 K2) as (_ & B & _). split; auto.
  - assert (TX : total (fun n => y1 (nmom n)) f = 0 /\ total (fun n => y2 (nmom n)) f = 0).
    { destruct TF as (T1 & T2 & _). rewrite total_filter in T1, T2.
      assert (forall n, In n f -> is_nucleon n = false -> y1 (nmom n) = 0 /\ y2 (nmom n) = 0).
      { intros n Hn E. apply In_nth_error in Hn. destruct Hn as (i & Hi). destruct (combine_fst_in _ a _ _ Hi) as (m & Hmi); [lia|].
        assert (npdg n = npdg m). { destruct SF as (SF & _). pose proof (map_nth_error npdg _ _ Hi). pose proof (map_nth_error npdg _ _ Hmi). rewrite SF in H. congruence. }
        assert (is_nucleon m = false) by (unfold is_nucleon in *; rewrite <- H; auto). rewrite (NF i m Hmi H0) in Hi. injection Hi as <-.
        apply nth_error_In in Hmi. rewrite (proj1 (At m Hmi)). auto. }
      split; [rewrite <- T1|rewrite <- T2]; apply total_ext; intros n Hn; destruct (is_nucleon n) eqn:E; auto; apply H; auto. }
    destruct TX as (T1 & _). unfold r, shift, nboost. rewrite !total_map. exact T1.
  - assert (TX : total (fun n => y2 (nmom n)) f = 0).
    { destruct TF as (T1 & T2 & _). rewrite total_filter in T2. rewrite <- T2. apply total_ext. intros n Hn. destruct (is_nucleon n) eqn:E; auto.
      apply In_nth_error in Hn. destruct Hn as (i & Hi). destruct (combine_fst_in _ a _ _ Hi) as (m & Hmi); [lia|].
      assert (npdg n = npdg m). { destruct SF as (SF & _). pose proof (map_nth_error npdg _ _ Hi). pose proof (map_nth_error npdg _ _ Hmi). rewrite SF in H. congruence. }
      assert (is_nucleon m = false) by (unfold is_nucleon in *; rewrite <- H; auto). rewrite (NF i m Hmi H0) in Hi. injection Hi as <-.
      apply nth_error_In in Hmi. rewrite (proj1 (At m Hmi)). auto. }
    unfold r, shift, nboost. rewrite !total_map. exact TX.
Qed.
Print Assumptions prepared_nucleus.
(** a deuteron with one additional Lambda *)
Example prepared_nucleus_hypotheses : exists ps (xs : list vec3) (draws : list (R * vec3)) (rho : nucleon -> R), ps <> [] /\ length xs = length ps /\ length draws = length ps /\
  (forall n, In n ps -> 0 < nmass n) /\ (forall n, 0 <= rho n) /\ (forall u d, In (u, d) draws -> 0 <= u <= 1) /\
  filter is_nucleon ps <> [] /\ filter is_nucleon ps <> ps.
Proof.
  exists [Nuc proton (938/1000) zero4 zero4; Nuc neutron (938/1000) zero4 zero4; Nuc 3122 (1116/1000) zero4 zero4],
    [V3 1 0 0; V3 0 1 0; V3 0 0 1], [(1/2, V3 1 0 0); (1/4, V3 0 1 0); (1/3, V3 0 0 1)], (fun _ => 1/10).
  splits; try discriminate; auto.
  - cbn. intros n [<-|[<-|[<-|[]]]]; cbn; lra.
  - intros; lra.
  - cbn. intros u d [E|[E|[E|[]]]]; injection E as <- _; lra.
Qed.

(** ** Filling *)
(** Every species appears (number) x (test particles) times, at rest. *)
Theorem filled mass l t r : 0 < IZR t -> (forall c n, In (c, n) l -> (0 <= n)%Z /\ (n * t < 2 ^ 32)%Z) ->
  NoDup (map fst l) -> fill_from_list mass l t = Ok r ->
  (forall c n, In (c, n) l -> Z.of_nat (length (filter (fun x => (npdg x =? c)%Z) r)) = (n * t)%Z) /\
  (forall x, In x r -> In (npdg x) (map fst l) /\ nmass x = mass (npdg x) /\ nmom x = V4 (nmass x) 0 0 0) /\
  (forall c n, In (c, n) l -> c = proton -> number_of_protons r t = Ok n).
Proof.
  intros Ht Hl Hd Hf. apply lt_IZR in Ht.
  assert (X : (forall c n, In (c, n) l -> Z.of_nat (length (filter (fun x => (npdg x =? c)%Z) r)) = (n * t)%Z) /\
  (forall x, In x r -> In (npdg x) (map fst l) /\ nmass x = mass (npdg x) /\ nmom x = V4 (nmass x) 0 0 0)).
  { revert r Hf. induction l as [|(c, n) l IH]; intros r Hf; cbn [fill_from_list] in Hf.
    - injection Hf as <-. split; [intros c n []|intros x []].
    - destruct (Hl c n (or_introl eq_refl)) as (H1 & H2).
      assert (W : wrap 64 (n * t) = (n * t)%Z) by (unfold wrap; apply Z.mod_small; split; [nia|]; apply Z.lt_trans with (2 ^ 32)%Z; [auto|reflexivity]).
      rewrite W in Hf. destruct (Z.leb_spec (2 ^ 32) (n * t)); [lia|].
      destruct (fill_from_list mass l t) as [rest| |] eqn:E; cbn in Hf; try discriminate. injection Hf as <-.
      cbn [map fst] in Hd. apply NoDup_cons_iff in Hd. destruct Hd as (D1 & D2).
      destruct (IH (fun c' n' H' => Hl c' n' (or_intror H')) D2 rest eq_refl) as (I1 & I2).
      assert (FR : forall k d y, filter (fun x => (npdg x =? d)%Z) (repeat y k) = if (npdg y =? d)%Z then repeat y k else []).
      { intros k d y. induction k as [|k IHk]; cbn; [destruct (_ =? _)%Z; auto|]. rewrite IHk. destruct (npdg y =? d)%Z; auto. }
      split.
      + intros d m Hin. rewrite filter_app, app_length, FR. cbn [npdg]. destruct Hin as [Heq|Hin].
        * injection Heq as <- <-. rewrite Z.eqb_refl, repeat_length.
          assert (filter (fun x => (npdg x =? c)%Z) rest = []) as ->; [|cbn; lia].
          destruct (filter _ rest) as [|x f] eqn:F; auto. exfalso. apply D1.
          assert (In x (filter (fun x => (npdg x =? c)%Z) rest)) as Hx by (rewrite F; left; auto).
          apply filter_In in Hx. destruct Hx as (Hx & Hc). apply Z.eqb_eq in Hc. rewrite <- Hc. apply I2; auto.
        * destruct (Z.eqb_spec c d) as [->|]; [exfalso; apply D1; change d with (fst (d, m)); apply in_map; auto|].
          cbn [length Nat.add]. apply I1; auto.
      + intros x Hx. apply in_app_or in Hx. destruct Hx as [Hx|Hx].
        * apply repeat_spec in Hx. subst x. cbn. auto.
        * destruct (I2 x Hx) as (J1 & J2). cbn. auto. }
  destruct X as (X1 & X2). splits; auto.
  intros c n Hin ->. unfold number_of_protons, multiple. rewrite (X1 _ _ Hin). rewrite Z.div_mul by lia.
  destruct (Hl _ _ Hin) as (H1 & H2). unfold wrap. rewrite Z.mod_small by (split; [nia|]; apply Z.lt_trans with (2 ^ 32)%Z; [auto|reflexivity]).
  rewrite Z.eqb_refl. auto.
Qed.
Print Assumptions filled.
Example filled_hypotheses : exists r, fill_from_list (fun _ => 1) [(proton, 1); (neutron, 1)]%Z 2 = Ok r /\ length r = 4%nat.
Proof. eexists. split; reflexivity. Qed.
(** A negative number of nucleons of a species is accepted and never stops adding particles. *)
Theorem negative_number_refuted mass t : (0 < t < 2 ^ 32)%Z -> fill_from_list mass [(proton, (-1))%Z] t = UB UB_no_progress.
Proof.
  intros H. cbn [fill_from_list]. unfold wrap. assert (((-1 * t) mod 2 ^ 64)%Z = (2 ^ 64 - t)%Z) as ->.
  { replace (-1 * t)%Z with (- t)%Z by lia. rewrite Z_mod_nz_opp_full; [rewrite Z.mod_small; lia|rewrite Z.mod_small; lia]. }
  destruct (Z.leb_spec (2 ^ 32) (2 ^ 64 - t)); [auto|lia].
Qed.
Print Assumptions negative_number_refuted.
