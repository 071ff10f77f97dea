(** Properties of the initial conditions of the box and of the sphere (C118). *)
From Coq Require Import ZArith Reals List Bool Lra Lia Psatz.
From Verif Require Import Base VecModel VecProps MotionModel CollideModel NucleusModel NucleusProps ParticlesModel InitModel.
Import ListNotations.
Open Scope R_scope.

(** ** Specification *)
(** the total three-momentum *)
Definition net (l : list ini) : vec3 :=
  V3 (total (fun i => y1 (i_mom i)) l) (total (fun i => y2 (i_mom i)) l) (total (fun i => y3 (i_mom i)) l).
(** on the mass shell of mass m *)
Definition shell (m : R) (p : vec4) : Prop := minkowski p p = m * m /\ 0 <= y0 p.
(** the mass a particle is given: the drawn one if widths are taken into account, the pole mass otherwise *)
Definition given_mass (how : momenta) (pole drawn : R) : R := match how with Thermal true => drawn | _ => pole end.
(** the momentum it is drawn with *)
Definition given_momentum (how : momenta) (T drawn : R) : R := match how with Peaked => 3 * T | _ => drawn end.
Definition unit_angle (a : angles) : Prop := -1 <= costheta a <= 1.
(** number of particles of a species asked for *)
Fixpoint asked (pdg : Z) (mult : list (Z * Z)) (test : Z) : Z :=
  match mult with [] => 0%Z | (q, n) :: r => ((if (q =? pdg)%Z then n * test else 0) + asked pdg r test)%Z end.
(** the time and place of birth *)
Definition born (t : R) (i : ini) : Prop := y0 (i_pos i) = t /\ i_form i = t.
Definition radius_of (i : ini) : R := sqrt (y1 (i_pos i) * y1 (i_pos i) + y2 (i_pos i) * y2 (i_pos i) + y3 (i_pos i) * y3 (i_pos i)).

(** ** Helpers *)
Lemma sum_mom_total l acc : sum_mom acc l =
  V4 (y0 acc + total (fun i => y0 (i_mom i)) l) (y1 acc + total (fun i => y1 (i_mom i)) l)
     (y2 acc + total (fun i => y2 (i_mom i)) l) (y3 acc + total (fun i => y3 (i_mom i)) l).
Proof.
  unfold sum_mom. revert acc; induction l as [|n r IH]; intros acc; cbn [fold_left total].
  - destruct acc; cbn. f_equal; lra.
  - rewrite IH. unfold add4; cbn [y0 y1 y2 y3]. f_equal; lra.
Qed.
Lemma net_app a b : net (a ++ b) = add3 (net a) (net b).
Proof. unfold net, add3; cbn. rewrite !total_app. reflexivity. Qed.
Lemma mapM_map {A B} (f : A -> res B) (g : A -> B) l : (forall x, In x l -> f x = Ok (g x)) -> mapM f l = Ok (map g l).
Proof. induction l as [|x l IH]; intros H; cbn; auto. rewrite (H x) by now left. cbn. rewrite IH by (intros; apply H; now right). reflexivity. Qed.
Lemma on_shell_ge m p : shell m (on_shell m p).
Proof.
  unfold shell, on_shell, minkowski, mk4, dot3; cbn.
  pose proof (Rle_0_sqr m). pose proof (Rle_0_sqr (x1 p)). pose proof (Rle_0_sqr (x2 p)). pose proof (Rle_0_sqr (x3 p)). unfold Rsqr in *.
  split; [rewrite sqrt_sqrt by lra; ring|apply sqrt_pos].
Qed.
Lemma abs4_shell m p : 0 <= m -> shell m p -> abs4 p = Ok m.
Proof.
  intros M [A _]. unfold abs4. replace (sqr4 p) with (m * m) by (rewrite <- A; unfold sqr4, minkowski; ring).
  pose proof (Rle_0_sqr m) as Q. unfold Rsqr in Q.
  destruct (Rlt_dec (- really_small) (m * m)) as [_|N]; [|exfalso; apply N; unfold really_small; lra].
  rewrite Rabs_right by lra. rewrite sqrt_square by auto. reflexivity.
Qed.
(** the momentum of every particle, less its share *)
Definition shared (tot : vec4) (n : nat) (m : R) (i : ini) : ini :=
  Ini (i_pdg i) (i_pos i) (on_shell m (sub3 (threevec (i_mom i)) (div3 (threevec tot) (INR n)))) (i_form i).
Lemma recentre_aux tot n l : Forall (fun im => 0 <= snd im /\ shell (snd im) (i_mom (fst im))) l ->
  mapM (recentre1 tot n) (map fst l) = Ok (map (fun im => shared tot n (snd im) (fst im)) l).
Proof.
  induction 1 as [|[i m] l (M & H) _ IH]; cbn; auto. unfold recentre1 at 1. cbn in M, H.
  rewrite (abs4_shell m) by auto. cbn. rewrite IH. reflexivity.
Qed.
Lemma net_shared tot n (l : list (ini * R)) : net (map (fun im => shared tot n (snd im) (fst im)) l) =
  sub3 (net (map fst l)) (scale3 (INR (length l) * (1 / INR n)) (threevec tot)).
Proof.
  unfold net. rewrite !total_map. unfold sub3, scale3, threevec; cbn.
  f_equal; (induction l as [|x l IH]; [cbn; lra|];
    change (length (x :: l)) with (S (length l)); rewrite S_INR; cbn [total]; rewrite IH; lra).
Qed.
Lemma recentre_spec tot l : Forall (fun im => 0 <= snd im /\ shell (snd im) (i_mom (fst im))) l -> (l <> [] \/ threevec tot = V3 0 0 0) ->
  exists l', recentre tot (map fst l) = Ok l' /\ map i_pdg l' = map i_pdg (map fst l) /\ map i_pos l' = map i_pos (map fst l) /\
    map i_form l' = map i_form (map fst l) /\ Forall2 (fun i im => shell (snd im) (i_mom i)) l' l /\ net l' = sub3 (net (map fst l)) (threevec tot).
Proof.
  intros F N. unfold recentre. rewrite recentre_aux by auto. eexists. split; [reflexivity|].
  splits; try (rewrite !map_map; reflexivity).
  - clear F N. set (n := length (map fst l)). clearbody n. induction l as [|x l IH]; cbn; constructor; auto. apply on_shell_ge.
  - rewrite net_shared, map_length.
    destruct N as [N|N].
    + assert (INR (length l) <> 0) by (apply not_0_INR; destruct l; [congruence|discriminate]).
      replace (INR (length l) * (1 / INR (length l))) with 1 by (field; auto). unfold sub3, scale3; cbn. f_equal; ring.
    + rewrite N. unfold sub3, scale3; cbn. f_equal; ring.
Qed.
Lemma direction_unit a : unit_angle a -> speed2 (direction a) = 1.
Proof.
  intros [A B]. unfold speed2, direction, sintheta; cbn.
  assert (Q : 0 <= 1 - costheta a * costheta a) by nra.
  pose proof (sin2_cos2 (phi a)) as E. unfold Rsqr in E.
  transitivity (sqrt (1 - costheta a * costheta a) * sqrt (1 - costheta a * costheta a) * (sin (phi a) * sin (phi a) + cos (phi a) * cos (phi a)) + costheta a * costheta a); [ring|].
  rewrite E, sqrt_sqrt by auto. ring.
Qed.
Lemma count_app_z p (a b : list Z) : count_occ Z.eq_dec (a ++ b) p = (count_occ Z.eq_dec a p + count_occ Z.eq_dec b p)%nat.
Proof. apply count_occ_app. Qed.
Lemma count_repeat p q n : count_occ Z.eq_dec (repeat q n) p = if (q =? p)%Z then n else 0%nat.
Proof.
  induction n as [|n IH]; cbn; [destruct (q =? p)%Z; auto|]. rewrite IH.
  destruct (Z.eq_dec q p) as [E|E]; [apply Z.eqb_eq in E; rewrite E; auto|apply Z.eqb_neq in E; rewrite E; auto].
Qed.

(** ** C118: the initial conditions *)
(** Every configured species is created with its multiplicity times the number of test particles. *)
Theorem species_created mult test : (forall pdg n, In (pdg, n) mult -> 0 <= n * test <= INT_MAX)%Z ->
  exists l, configured mult test = Ok l /\ forall pdg, Z.of_nat (count_occ Z.eq_dec l pdg) = asked pdg mult test.
Proof.
  induction mult as [|(q, n) r IH]; intros H; cbn; [exists []; split; auto|].
  destruct IH as (l & E & C); [intros; eapply H; right; eauto|].
  assert (Q := H q n (or_introl eq_refl)). unfold sint, in_i32.
  replace ((INT_MIN <=? n * test) && (n * test <=? INT_MAX))%Z with true by (symmetry; apply andb_true_intro; unfold INT_MIN, INT_MAX in *; split; apply Z.leb_le; lia).
  cbn. replace (n * test <? 0)%Z with false by (symmetry; apply Z.ltb_ge; lia). rewrite E. cbn.
  eexists; split; [reflexivity|]. intros p. rewrite count_app_z, count_repeat, Nat2Z.inj_add, C. destruct (q =? p)%Z; [rewrite Z2Nat.id; lia|lia].
Qed.
Print Assumptions species_created.
Example species_created_ex : configured [(0x211, 3); (-0x211, 2)]%Z 2 = Ok [0x211; 0x211; 0x211; 0x211; 0x211; 0x211; -0x211; -0x211; -0x211; -0x211]%Z.
Proof. reflexivity. Qed.

(** what a draw has to satisfy *)
Definition fair_box (b : box) (pd : Z * draw) : Prop :=
  0 <= given_mass (b_how b) (b_mass b (fst pd)) (d_mass (snd pd)) /\
  0 <= x1 (d_u (snd pd)) < 1 /\ 0 <= x2 (d_u (snd pd)) < 1 /\ 0 <= x3 (d_u (snd pd)) < 1 /\
  (b_how b = Quantum -> In (fst pd) (map fst (b_init b))).
Definition in_box (L : R) (i : ini) : Prop := 0 <= y1 (i_pos i) < L /\ 0 <= y2 (i_pos i) < L /\ 0 <= y3 (i_pos i) < L.
Lemma known_find pdg l : In pdg (map fst l) -> exists e, find (fun e : Z * Z => (fst e =? pdg)%Z) l = Some e.
Proof.
  induction l as [|e l IH]; cbn; [tauto|]. intros [E|H]; [subst; rewrite Z.eqb_refl; eauto|]. destruct (fst e =? pdg)%Z; eauto.
Qed.
Lemma mass_and_momentum_spec how T init pdg pole dm dp : (how = Quantum -> In pdg (map fst init)) ->
  mass_and_momentum how T init pdg pole dm dp = Ok (given_mass how pole dm, given_momentum how T dp).
Proof.
  intros H. destruct how as [|[|]| |]; cbn; auto. unfold quantum_sample.
  destruct (known_find pdg init) as (e & E); [auto|]. rewrite E. reflexivity.
Qed.
Definition box_ini (b : box) (pd : Z * draw) : ini * R :=
  (Ini (fst pd) (mk4 (b_start b) (scale3 (b_length b) (d_u (snd pd))))
    (on_shell (given_mass (b_how b) (b_mass b (fst pd)) (d_mass (snd pd))) (scale3 (given_momentum (b_how b) (b_T b) (d_p (snd pd))) (direction (d_dir (snd pd))))) (b_start b),
   given_mass (b_how b) (b_mass b (fst pd)) (d_mass (snd pd))).
Lemma box_one_all b l : Forall (fair_box b) l -> mapM (box_one b) l = Ok (map fst (map (box_ini b) l)).
Proof.
  intros F. rewrite map_map. apply mapM_map. intros (pdg, d) I. rewrite Forall_forall in F. destruct (F _ I) as (_ & _ & _ & _ & Q).
  unfold box_one. rewrite mass_and_momentum_spec by auto. reflexivity.
Qed.
Lemma combine_fst {A B} (a : list A) (b : list B) : length b = length a -> map fst (combine a b) = a.
Proof. revert b; induction a as [|x a IH]; intros [|y b] H; cbn in *; try discriminate; auto. f_equal; auto. Qed.
Lemma fold_sum3 l : threevec (sum_mom zero4 l) = net l.
Proof. rewrite sum_mom_total. unfold threevec, net, zero4; cbn. f_equal; lra. Qed.
Lemma sub3_self v : sub3 v v = V3 0 0 0.
Proof. unfold sub3. f_equal; lra. Qed.
Lemma Forall_map_pos (P : vec4 -> R -> Prop) l l' : map i_pos l = map i_pos l' -> map i_form l = map i_form l' ->
  Forall (fun i => P (i_pos i) (i_form i)) l' -> Forall (fun i => P (i_pos i) (i_form i)) l.
Proof.
  revert l'; induction l as [|x l IH]; intros [|y l'] E F H; cbn in *; try discriminate; constructor; inversion H; subst.
  - injection E as E1 _. injection F as F1 _. now rewrite E1, F1.
  - injection E as _ E2. injection F as _ F2. eauto.
Qed.

(** The box is filled with the particles created, in their order, each inside the box at the start time, with a
    four-momentum on the mass shell of the mass it was given; their total three-momentum vanishes, and with a jet
    it is that of the jet, which comes last. *)
Theorem box_conditions b species draws : length draws = length species -> 0 < b_length b ->
  Forall (fair_box b) (combine species draws) ->
  exists l, box_init b species draws = Ok (l ++ box_jet b) /\ map i_pdg l = species /\ net l = V3 0 0 0 /\
    Forall (fun i => in_box (b_length b) i /\ born (b_start b) i) l /\
    Forall2 (fun i pd => shell (given_mass (b_how b) (b_mass b (fst pd)) (d_mass (snd pd))) (i_mom i)) l (combine species draws) /\
    net (l ++ box_jet b) = match b_jet b with None => V3 0 0 0 | Some (_, p) => V3 p 0 0 end /\
    forall pdg p, b_jet b = Some (pdg, p) -> exists j, box_jet b = [j] /\ i_pdg j = pdg /\ born (b_start b) j /\ shell (b_mass b pdg) (i_mom j).
Proof.
  intros N L F. unfold box_init. rewrite box_one_all by auto. cbn [rbind].
  destruct (recentre_spec (sum_mom zero4 (map fst (map (box_ini b) (combine species draws)))) (map (box_ini b) (combine species draws))) as (l & E & A & B & C & D & Z).
  { apply Forall_map. eapply Forall_impl; [|exact F]. intros (pdg, d) (M & _). cbn. split; [exact M|apply on_shell_ge]. }
  { destruct (combine species draws); [right; reflexivity|left; discriminate]. }
  rewrite E. cbn [rbind]. exists l. rewrite fold_sum3, sub3_self in Z. splits; auto.
  - rewrite A, !map_map. cbn. exact (combine_fst _ _ N).
  - apply (Forall_map_pos (fun x f => (0 <= y1 x < b_length b /\ 0 <= y2 x < b_length b /\ 0 <= y3 x < b_length b) /\ y0 x = b_start b /\ f = b_start b) _ _ B C).
    rewrite map_map. apply Forall_map. eapply Forall_impl; [|exact F]. intros (pdg, d) (_ & U1 & U2 & U3 & _). cbn in *. splits; auto; nra.
  - revert D. rewrite <- (map_id (combine species draws)) at 2. generalize (combine species draws). clear. intros c D.
    rewrite map_id. remember (map (box_ini b) c) as m eqn:EM. revert c EM. induction D as [|i im l m H D IH]; intros [|x c] EM; try discriminate; constructor; injection EM as E1 E2; subst; auto.
  - rewrite net_app, Z. unfold box_jet. destruct (b_jet b) as [[pdg p]|]; cbn; unfold add3, net; cbn; f_equal; lra.
  - intros pdg p J. unfold box_jet. rewrite J. eexists. splits; [reflexivity|..]; cbn; auto; [split; reflexivity|apply on_shell_ge].
Qed.
Print Assumptions box_conditions.

(** the hypotheses hold for two pions in a box with a jet *)
Definition ex_draw := Draw 0 (1 / 2) (Ang 0 0) (V3 (1 / 2) (1 / 4) 0) (Ang 0 1).
Definition ex_box := Box 10 (3 / 20) 0 (Thermal false) (fun _ => 138 / 1000) [(0x211, 2)]%Z (Some (0x321%Z, 20)).
Example ex_box_ok : Forall (fair_box ex_box) (combine [0x211; 0x211]%Z [ex_draw; ex_draw]).
Proof. repeat constructor; unfold ex_box, ex_draw; cbn; try lra; discriminate. Qed.

(** The jet is announced for the centre of the box but is placed in its corner. *)
Theorem box_jet_centre_refuted b pdg p : b_jet b = Some (pdg, p) -> 0 < b_length b ->
  exists j, box_jet b = [j] /\ threevec (i_pos j) = V3 0 0 0 /\
    threevec (i_pos j) <> V3 (b_length b / 2) (b_length b / 2) (b_length b / 2).
Proof.
  intros J L. unfold box_jet. rewrite J. eexists. splits; [reflexivity|reflexivity|]. cbn. intros Q. injection Q as Q _ _. lra.
Qed.
Print Assumptions box_jet_centre_refuted.

(** Thermal multiplicities cannot be combined with the quantum distributions, although the configuration accepts
    it: the table of chemical potentials is built from the configured multiplicities, which are empty then, and the
    lookup dereferences the end of the table. *)
Theorem thermal_quantum_refuted b s pdg species d draws :
  (b_how b = Quantum -> b_init b = [] -> box_init b (pdg :: species) (d :: draws) = UB UB_oob) /\
  (s_how s = Quantum -> s_init s = [] -> sphere_init s (pdg :: species) (d :: draws) = UB UB_oob).
Proof.
  split; intros H I.
  - unfold box_init. cbn [combine mapM]. unfold box_one at 1. rewrite H, I. reflexivity.
  - unfold sphere_init. cbn [combine mapM]. unfold sphere_one at 1. rewrite H, I. reflexivity.
Qed.
Print Assumptions thermal_quantum_refuted.

(** ** The sphere *)
Definition fair_sphere (s : sphere) (pd : Z * draw) : Prop :=
  0 <= given_mass (s_how s) (s_mass s (fst pd)) (d_mass (snd pd)) /\
  0 <= x1 (d_u (snd pd)) < 1 /\ unit_angle (d_posdir (snd pd)) /\
  (s_how s = Quantum -> In (fst pd) (map fst (s_init s))).
Definition sphere_ini (s : sphere) (pd : Z * draw) : ini * R :=
  (Ini (fst pd) (mk4 (s_start s) (scale3 (cube_root (x1 (d_u (snd pd))) * s_radius s) (direction (d_posdir (snd pd)))))
    (on_shell (given_mass (s_how s) (s_mass s (fst pd)) (d_mass (snd pd))) (scale3 (given_momentum (s_how s) (s_T s) (d_p (snd pd))) (direction (d_dir (snd pd))))) (s_start s),
   given_mass (s_how s) (s_mass s (fst pd)) (d_mass (snd pd))).
Lemma sphere_one_all s l : Forall (fair_sphere s) l -> mapM (sphere_one s) l = Ok (map fst (map (sphere_ini s) l)).
Proof.
  intros F. rewrite map_map. apply mapM_map. intros (pdg, d) I. rewrite Forall_forall in F. destruct (F _ I) as (_ & _ & _ & Q).
  unfold sphere_one. rewrite mass_and_momentum_spec by auto. reflexivity.
Qed.
Lemma radius_scale k a t : 0 <= k -> unit_angle a -> radius_of (Ini 0 (mk4 t (scale3 k (direction a))) zero4 0) = k.
Proof.
  intros K A. pose proof (direction_unit a A) as U. unfold radius_of, speed2 in *; cbn in *.
  match goal with |- sqrt ?x = k => replace x with (k * k) end; [apply sqrt_square; auto|].
  transitivity (k * k * 1); [ring|]. rewrite <- U. ring.
Qed.
Lemma cube_root_lt u : 0 <= u < 1 -> cube_root u < 1.
Proof.
  intros H. destruct (cube_root_spec u) as (A & B); [lra|]. destruct (Rlt_dec (cube_root u) 1); auto. exfalso.
  assert (1 <= cube_root u * cube_root u) by nra. nra.
Qed.
Lemma cube_root_0 u : 0 < u -> 0 < cube_root u.
Proof. intros H. destruct (cube_root_spec u) as (A & B); [lra|]. destruct A; auto. exfalso. rewrite <- H0 in B. lra. Qed.

(** The position of a particle is uniform in the sphere: it lies within x of the centre exactly if the number it is
    made from is below the fraction of the volume within x, and its direction is the one drawn. *)
Theorem sphere_uniform s pdg d i x : fair_sphere s (pdg, d) -> 0 < s_radius s -> sphere_one s (pdg, d) = Ok i -> 0 <= x ->
  (radius_of i <= x <-> x1 (d_u d) * (4 / 3 * PI * (s_radius s * s_radius s * s_radius s)) <= 4 / 3 * PI * (x * x * x)) /\
  threevec (i_pos i) = scale3 (radius_of i) (direction (d_posdir d)).
Proof.
  intros (_ & U & A & Q) Rp E X. unfold sphere_one in E. rewrite mass_and_momentum_spec in E by auto. cbn in E.
  assert (E' : i = fst (sphere_ini s (pdg, d))) by (cbn; congruence). clear E. subst i. cbn in U, A.
  destruct (cube_root_spec (x1 (d_u d))) as (C0 & C); [lra|]. set (c := cube_root (x1 (d_u d))) in *.
  assert (RR : radius_of (fst (sphere_ini s (pdg, d))) = c * s_radius s).
  { rewrite <- (radius_scale (c * s_radius s) (d_posdir d) (s_start s)); auto; try reflexivity; try (apply Rmult_le_pos; lra). }
  split; [|rewrite RR; reflexivity]. rewrite RR, <- C.
  assert (P : 0 < 4 / 3 * PI) by (pose proof PI_RGT_0; lra).
  set (y := c * s_radius s). assert (Y : 0 <= y) by (apply Rmult_le_pos; lra).
  replace (c * c * c * (4 / 3 * PI * (s_radius s * s_radius s * s_radius s))) with (4 / 3 * PI * (y * y * y)) by (unfold y; ring).
  split; intros H.
  - apply Rmult_le_compat_l; [lra|]. assert (y * y <= x * x) by (apply Rmult_le_compat; lra).
    apply Rmult_le_compat; auto; apply Rmult_le_pos; auto.
  - apply Rmult_le_reg_l in H; auto. destruct (Rle_dec y x) as [|N]; auto. exfalso. assert (x < y) by lra.
    assert (x * x <= x * y) by (apply Rmult_le_compat_l; lra). assert (x * y < y * y) by (apply Rmult_lt_compat_r; lra).
    assert (x * x * x <= x * x * y) by (apply Rmult_le_compat_l; [apply Rmult_le_pos; auto|lra]).
    assert (x * x * y < y * y * y) by (apply Rmult_lt_compat_r; lra). lra.
Qed.
Print Assumptions sphere_uniform.

Definition in_sphere (rad : R) (i : ini) : Prop := radius_of i < rad.
(** Without radial flow the sphere is filled with the particles created, each inside the sphere at the start time
    and on the mass shell of the mass it was given, with vanishing total three-momentum. A single jet adds its own
    momentum; two jets back to back leave the total at zero, are separated by the configured distance along the
    first axis and lie around the configured place. *)
Theorem sphere_conditions s species draws : length draws = length species -> 0 < s_radius s -> s_u0 s <= 0 ->
  Forall (fair_sphere s) (combine species draws) ->
  exists l, sphere_init s species draws = Ok (l ++ sphere_jet s) /\ map i_pdg l = species /\ net l = V3 0 0 0 /\
    Forall (fun i => in_sphere (s_radius s) i /\ born (s_start s) i) l /\
    Forall2 (fun i pd => shell (given_mass (s_how s) (s_mass s (fst pd)) (d_mass (snd pd))) (i_mom i)) l (combine species draws) /\
    net (l ++ sphere_jet s) = match s_jet s with None => V3 0 0 0 | Some j => if j_back j then V3 0 0 0 else V3 (j_mom j) 0 0 end.
Proof.
  intros N Rp U0 F. unfold sphere_init. rewrite sphere_one_all by auto. cbn [rbind].
  unfold flow. destruct (Rlt_dec 0 (s_u0 s)); [lra|]. cbn [rbind].
  destruct (recentre_spec (sum_mom zero4 (map fst (map (sphere_ini s) (combine species draws)))) (map (sphere_ini s) (combine species draws))) as (l & E & A & B & C & D & Z).
  { apply Forall_map. eapply Forall_impl; [|exact F]. intros (pdg, d) (M & _). cbn. split; [exact M|apply on_shell_ge]. }
  { destruct (combine species draws); [right; reflexivity|left; discriminate]. }
  rewrite E. cbn [rbind]. exists l. rewrite fold_sum3, sub3_self in Z. splits; auto.
  - rewrite A, !map_map. cbn. exact (combine_fst _ _ N).
  - apply (Forall_map_pos (fun x f => sqrt (y1 x * y1 x + y2 x * y2 x + y3 x * y3 x) < s_radius s /\ y0 x = s_start s /\ f = s_start s) _ _ B C).
    rewrite map_map. apply Forall_map. eapply Forall_impl; [|exact F]. intros (pdg, d) (_ & U1 & U2 & _). cbn [fst snd] in *. splits; auto.
    destruct (cube_root_spec (x1 (d_u d))) as (C0 & _); [lra|].
    change (radius_of (fst (sphere_ini s (pdg, d))) < s_radius s).
    replace (radius_of (fst (sphere_ini s (pdg, d)))) with (cube_root (x1 (d_u d)) * s_radius s).
    + pose proof (cube_root_lt _ U1). nra.
    + rewrite <- (radius_scale (cube_root (x1 (d_u d)) * s_radius s) (d_posdir d) (s_start s)); auto; try reflexivity; try (apply Rmult_le_pos; lra).
  - revert D. generalize (combine species draws). clear. intros c D.
    remember (map (sphere_ini s) c) as m eqn:EM. revert c EM. induction D as [|i im l m H D IH]; intros [|x c] EM; try discriminate; constructor; injection EM as E1 E2; subst; auto.
  - rewrite net_app, Z. unfold sphere_jet. destruct (s_jet s) as [j|]; [destruct (j_back j)|]; cbn; unfold add3, net; cbn; f_equal; lra.
Qed.
Print Assumptions sphere_conditions.
Theorem sphere_jets s j : s_jet s = Some j ->
  (j_back j = false -> exists a, sphere_jet s = [a] /\ i_pdg a = j_pdg j /\ threevec (i_pos a) = j_pos j /\ born (s_start s) a /\ shell (s_mass s (j_pdg j)) (i_mom a)) /\
  (j_back j = true -> exists a b, sphere_jet s = [a; b] /\ i_pdg a = j_pdg j /\ i_pdg b = j_anti j /\
     sub3 (threevec (i_pos a)) (threevec (i_pos b)) = V3 (j_sep j) 0 0 /\
     scale3 (1 / 2) (add3 (threevec (i_pos a)) (threevec (i_pos b))) = j_pos j /\
     threevec (i_mom a) = neg3 (threevec (i_mom b)) /\ born (s_start s) a /\ born (s_start s) b /\
     shell (s_mass s (j_pdg j)) (i_mom a) /\ shell (s_mass s (j_anti j)) (i_mom b)).
Proof.
  intros J. unfold sphere_jet. rewrite J. split; intros B; rewrite B.
  - eexists. splits; [reflexivity|..]; cbn; auto; try (split; reflexivity); try apply on_shell_ge. destruct (j_pos j); cbn. unfold threevec, add3; cbn; f_equal; lra.
  - eexists _, _. splits; [reflexivity|..]; cbn; auto; try (split; reflexivity); try apply on_shell_ge.
    + unfold sub3, threevec, add3; cbn. f_equal; lra.
    + destruct (j_pos j) as [a1 a2 a3]. unfold scale3, threevec, add3, sub3; cbn. f_equal; lra.
    + unfold threevec, neg3; cbn. f_equal; lra.
Qed.
Print Assumptions sphere_jets.
Definition ex_sphere u0 := Sphere 10 (3 / 20) 0 (Thermal false) (fun _ => 138 / 1000) [(0x211, 2)]%Z u0 0 (Some (Jet 0x321 (-0x321) 20 (V3 0 0 0) true 1)).
Definition ex_sdraw := Draw 0 (1 / 2) (Ang 0 0) (V3 (1 / 2) 0 0) (Ang 0 1).
Example ex_sphere_ok u0 : Forall (fair_sphere (ex_sphere u0)) (combine [0x211; 0x211]%Z [ex_sdraw; ex_sdraw]).
Proof. repeat constructor; unfold ex_sphere, ex_sdraw; cbn; try lra; discriminate. Qed.

(** ** Radial flow *)
Lemma cpow_le1 x n : 0 < x <= 1 -> 0 <= n -> 0 < cpow x n <= 1.
Proof.
  intros X N. unfold cpow. destruct (Req_EM_T x 0); [lra|]. unfold Rpower. split; [apply exp_pos|].
  rewrite <- exp_0. destruct (Req_dec (n * ln x) 0) as [E|E]; [rewrite E; lra|]. left. apply exp_increasing.
  assert (ln x <= 0). { rewrite <- ln_1. destruct (Req_dec x 1) as [->|]; [lra|]. left. apply ln_increasing; lra. }
  nra.
Qed.
(** A particle at rest is given the velocity u0 (r/R)^n away from the centre. *)
Theorem flow_field s i m : 0 < s_radius s -> 0 < s_u0 s < 1 -> 0 <= s_n s -> 0 < m -> 0 < radius_of i <= s_radius s ->
  i_mom i = V4 m 0 0 0 ->
  exists i', flow1 s i = Ok i' /\ i_pos i' = i_pos i /\ shell m (i_mom i') /\
    velocity (i_mom i') = scale3 (s_u0 s * cpow (radius_of i / s_radius s) (s_n s) * / radius_of i) (threevec (i_pos i)).
Proof.
  intros Rp U N M RO E. unfold flow1, flow_velocity.
  change (sqrt (sqr3 (threevec (i_pos i)))) with (radius_of i). destruct (Req_EM_T (radius_of i) 0); [lra|]. cbn.
  set (r := radius_of i) in *. set (k := cpow (r / s_radius s) (s_n s)).
  assert (K : 0 < k <= 1). { apply cpow_le1; auto. split; [apply Rdiv_lt_0_compat; lra|]. apply (Rmult_le_reg_r (s_radius s)); auto. unfold Rdiv. rewrite Rmult_assoc, Rinv_l, Rmult_1_r by lra. lra. }
  set (v := scale3 k (scale3 (-1 * s_u0 s) (div3 (threevec (i_pos i)) r))).
  assert (RR : r * r = y1 (i_pos i) * y1 (i_pos i) + y2 (i_pos i) * y2 (i_pos i) + y3 (i_pos i) * y3 (i_pos i)).
  { unfold r, radius_of. rewrite sqrt_sqrt; auto. pose proof (Rle_0_sqr (y1 (i_pos i))). pose proof (Rle_0_sqr (y2 (i_pos i))). pose proof (Rle_0_sqr (y3 (i_pos i))). unfold Rsqr in *. lra. }
  assert (SP : speed2 v = (s_u0 s * k) * (s_u0 s * k)).
  { unfold v, speed2, scale3, div3, threevec; cbn. transitivity ((s_u0 s * k) * (s_u0 s * k) * / r * / r * (y1 (i_pos i) * y1 (i_pos i) + y2 (i_pos i) * y2 (i_pos i) + y3 (i_pos i) * y3 (i_pos i))).
    - unfold scale3. cbn. field. lra.
    - rewrite <- RR. field. lra. }
  assert (V1 : speed2 v < 1). { rewrite SP. assert (0 < s_u0 s * k < 1) by (split; [apply Rmult_lt_0_compat; lra|nra]). nra. }
  destruct (gamma_eq v V1) as [G GG].
  eexists. splits; [reflexivity|reflexivity|..]; cbn [i_mom].
  - split; [rewrite boost_preserves_product, E by auto; unfold minkowski; cbn; ring|].
    rewrite E. unfold boost; cbn. assert (0 <= m) by lra. unfold dot3; cbn. rewrite !Rmult_0_l, !Rplus_0_l, Rminus_0_r. nra.
  - rewrite E. unfold velocity, boost, div3, scale3, sub3, threevec, dot3; cbn.
    rewrite !Rmult_0_l, !Rplus_0_l, !Rminus_0_r. set (g := gamma v) in *. clearbody g.
    assert (g * m <> 0) by nra. unfold v, scale3, div3, threevec; cbn. unfold scale3; cbn. f_equal; field; splits; nra.
Qed.
Print Assumptions flow_field.

Lemma flow_one s pd : fair_sphere s pd -> 0 < x1 (d_u (snd pd)) -> 0 < s_radius s -> 0 < s_u0 s < 1 -> 0 <= s_n s ->
  exists i', flow1 s (fst (sphere_ini s pd)) = Ok i' /\ i_pdg i' = fst pd /\ i_pos i' = i_pos (fst (sphere_ini s pd)) /\
    shell (given_mass (s_how s) (s_mass s (fst pd)) (d_mass (snd pd))) (i_mom i').
Proof.
  intros (M & U & A & _) U0 Rp Us Nn. destruct pd as (pdg, d). cbn [fst snd] in *.
  unfold flow1, flow_velocity.
  set (i := fst (sphere_ini s (pdg, d))).
  assert (RO : radius_of i = cube_root (x1 (d_u d)) * s_radius s).
  { destruct (cube_root_spec (x1 (d_u d))) as (C0 & _); [lra|]. rewrite <- (radius_scale (cube_root (x1 (d_u d)) * s_radius s) (d_posdir d) (s_start s)); auto; try reflexivity; try (apply Rmult_le_pos; lra). }
  pose proof (cube_root_lt _ U) as CL. pose proof (cube_root_0 _ U0) as CP.
  change (sqrt (sqr3 (threevec (i_pos i)))) with (radius_of i).
  assert (R0 : 0 < radius_of i) by (rewrite RO; apply Rmult_lt_0_compat; auto).
  destruct (Req_EM_T (radius_of i) 0); [lra|]. cbn [rbind].
  set (r := radius_of i) in *. set (k := cpow (r / s_radius s) (s_n s)).
  assert (K : 0 < k <= 1). { apply cpow_le1; auto. rewrite RO. replace (cube_root (x1 (d_u d)) * s_radius s / s_radius s) with (cube_root (x1 (d_u d))) by (field; lra). lra. }
  set (v := scale3 k (scale3 (-1 * s_u0 s) (div3 (threevec (i_pos i)) r))).
  assert (RR : r * r = y1 (i_pos i) * y1 (i_pos i) + y2 (i_pos i) * y2 (i_pos i) + y3 (i_pos i) * y3 (i_pos i)).
  { unfold r, radius_of. rewrite sqrt_sqrt; auto. pose proof (Rle_0_sqr (y1 (i_pos i))). pose proof (Rle_0_sqr (y2 (i_pos i))). pose proof (Rle_0_sqr (y3 (i_pos i))). unfold Rsqr in *. lra. }
  assert (SP : speed2 v = (s_u0 s * k) * (s_u0 s * k)).
  { unfold v, speed2, scale3, div3, threevec; cbn [x1 x2 x3]. transitivity ((s_u0 s * k) * (s_u0 s * k) * / r * / r * (y1 (i_pos i) * y1 (i_pos i) + y2 (i_pos i) * y2 (i_pos i) + y3 (i_pos i) * y3 (i_pos i))).
    - unfold scale3. cbn [x1 x2 x3]. field. lra.
    - rewrite <- RR. field. lra. }
  assert (V1 : speed2 v < 1). { rewrite SP. assert (0 < s_u0 s * k < 1) by (split; [apply Rmult_lt_0_compat; lra|nra]). nra. }
  destruct (gamma_eq v V1) as [G GG].
  assert (SH : shell (given_mass (s_how s) (s_mass s pdg) (d_mass d)) (i_mom i)) by apply on_shell_ge.
  eexists. splits; [reflexivity|reflexivity|reflexivity|]. cbn [i_mom]. destruct SH as (S1 & S2). split; [rewrite boost_preserves_product; auto|].
  unfold boost; cbn [y0 mk4]. apply Rmult_le_pos; [lra|].
  assert (E2 : dot3 (threevec (i_mom i)) (threevec (i_mom i)) <= y0 (i_mom i) * y0 (i_mom i)).
  { unfold minkowski in S1. unfold dot3, threevec; cbn [x1 x2 x3]. pose proof (Rle_0_sqr (given_mass (s_how s) (s_mass s pdg) (d_mass d))) as QQ. unfold Rsqr in QQ. lra. }
  set (q := threevec (i_mom i)) in *. set (e := y0 (i_mom i)) in *.
  assert (CS : dot3 q v * dot3 q v <= dot3 q q * speed2 v).
  { unfold dot3, speed2. pose proof (Rle_0_sqr (x1 q * x2 v - x2 q * x1 v)). pose proof (Rle_0_sqr (x1 q * x3 v - x3 q * x1 v)). pose proof (Rle_0_sqr (x2 q * x3 v - x3 q * x2 v)). unfold Rsqr in *. lra. }
  assert (Q0 : 0 <= dot3 q q) by (unfold dot3; pose proof (Rle_0_sqr (x1 q)); pose proof (Rle_0_sqr (x2 q)); pose proof (Rle_0_sqr (x3 q)); unfold Rsqr in *; lra).
  destruct (Rle_dec (dot3 q v) e) as [|NN]; [lra|]. exfalso.
  assert (e * e < dot3 q v * dot3 q v) by (apply Rle_lt_trans with (e * dot3 q v); [apply Rmult_le_compat_l; lra|apply Rmult_lt_compat_r; lra]).
  assert (dot3 q q * speed2 v <= dot3 q q * 1) by (apply Rmult_le_compat_l; lra). lra.
Qed.
Lemma flow_all s l : Forall (fun pd => fair_sphere s pd /\ 0 < x1 (d_u (snd pd))) l -> 0 < s_radius s -> 0 < s_u0 s < 1 -> 0 <= s_n s ->
  exists l', mapM (flow1 s) (map fst (map (sphere_ini s) l)) = Ok l' /\ map i_pdg l' = map fst l /\
    map i_pos l' = map i_pos (map fst (map (sphere_ini s) l)) /\
    Forall2 (fun i pd => shell (given_mass (s_how s) (s_mass s (fst pd)) (d_mass (snd pd))) (i_mom i)) l' l.
Proof.
  intros F Rp Us Nn. induction F as [|pd l (H & U) F IH]; [exists []; cbn; splits; auto|].
  destruct IH as (l' & E & A & B & C). destruct (flow_one s pd H U Rp Us Nn) as (i' & E1 & P & PO & SH).
  exists (i' :: l'). cbn [map mapM]. rewrite E1. cbn [rbind]. rewrite E. cbn [rbind map]. splits; auto; [f_equal; auto|f_equal; auto].
Qed.
Lemma map_fst_combine_shell (l' : list ini) (ms : list R) : length ms = length l' -> map fst (combine l' ms) = l'.
Proof. apply combine_fst. Qed.

(** With radial flow every particle is still on its mass shell and inside the sphere, but the total three-momentum
    is minus the total of the momenta drawn before the boost: the sum to be removed is not reset before the boosted
    momenta are added to it. *)
Theorem sphere_flow s species draws : length draws = length species -> 0 < s_radius s -> 0 < s_u0 s < 1 -> 0 <= s_n s ->
  Forall (fun pd => fair_sphere s pd /\ 0 < x1 (d_u (snd pd))) (combine species draws) ->
  exists l, sphere_init s species draws = Ok (l ++ sphere_jet s) /\ map i_pdg l = species /\
    map (fun i => threevec (i_pos i)) l = map (fun pd => scale3 (cube_root (x1 (d_u (snd pd))) * s_radius s) (direction (d_posdir (snd pd)))) (combine species draws) /\
    Forall2 (fun i pd => shell (given_mass (s_how s) (s_mass s (fst pd)) (d_mass (snd pd))) (i_mom i)) l (combine species draws) /\
    net l = neg3 (V3 (total (fun d => given_momentum (s_how s) (s_T s) (d_p d) * x1 (direction (d_dir d))) draws)
                     (total (fun d => given_momentum (s_how s) (s_T s) (d_p d) * x2 (direction (d_dir d))) draws)
                     (total (fun d => given_momentum (s_how s) (s_T s) (d_p d) * x3 (direction (d_dir d))) draws)).
Proof.
  intros N Rp Us Nn F. unfold sphere_init.
  rewrite sphere_one_all by (eapply Forall_impl; [|exact F]; cbn; tauto). cbn [rbind].
  unfold flow. destruct (Rlt_dec 0 (s_u0 s)); [|lra].
  destruct (flow_all s _ F Rp Us Nn) as (l1 & E1 & A1 & B1 & C1). rewrite E1. cbn [rbind].
  set (c := combine species draws) in *.
  set (ms := map (fun pd : Z * draw => given_mass (s_how s) (s_mass s (fst pd)) (d_mass (snd pd))) c).
  assert (LL : length ms = length l1). { unfold ms. rewrite map_length. symmetry. clear - C1. induction C1; cbn; auto. }
  set (tot := sum_mom (sum_mom zero4 (map fst (map (sphere_ini s) c))) l1).
  destruct (recentre_spec tot (combine l1 ms)) as (l & E & A & B & C & D & Z).
  { unfold ms. clear - C1 F. induction C1 as [|i pd l c H C IH]; cbn; constructor; inversion F as [|? ? G F']; subst; auto. cbn. split; auto. destruct G as ((G & _) & _); auto. }
  { destruct c as [|pd c']; [right|left].
    - inversion C1; subst. unfold tot; cbn. unfold threevec, zero4; cbn. reflexivity.
    - inversion C1; subst. cbn. discriminate. }
  rewrite (map_fst_combine_shell l1 ms LL) in *. rewrite E. cbn [rbind]. exists l. splits; auto.
  - rewrite A, A1. unfold c. apply combine_fst; auto.
  - transitivity (map threevec (map i_pos l)); [rewrite map_map; reflexivity|]. rewrite B, B1, !map_map. reflexivity.
  - unfold ms in D, LL. clearbody c. clear - D LL. revert l l1 D LL. induction c as [|pd c IH]; intros l l1 D LL; destruct l1 as [|i1 l1]; cbn in *; try discriminate; inversion D; subst; constructor; auto; eauto.
  - rewrite Z. unfold tot. rewrite !sum_mom_total. unfold net, sub3, neg3, threevec, zero4; cbn [x1 x2 x3 y0 y1 y2 y3].
    assert (TT : forall f : vec3 -> R, total (fun pd : BinNums.Z * draw => given_momentum (s_how s) (s_T s) (d_p (snd pd)) * f (direction (d_dir (snd pd)))) c = total (fun d => given_momentum (s_how s) (s_T s) (d_p d) * f (direction (d_dir d))) draws).
    { intros f. unfold c. clear - N. revert draws N. induction species as [|q sp IH]; intros [|d ds] N; cbn in *; try discriminate; auto. rewrite IH by congruence. reflexivity. }
    rewrite !total_map. rewrite <- (TT x1), <- (TT x2), <- (TT x3).
    assert (W : forall f g : BinNums.Z * draw -> R, (forall pd, f pd = g pd) -> forall x, x - (0 + total f c + x) = - total g c).
    { intros f g H x. rewrite (total_ext f g) by auto. ring. }
    f_equal; apply W; intros pd; cbn; unfold scale3; cbn; ring.
Qed.
Print Assumptions sphere_flow.
Example ex_flow_ok : Forall (fun pd => fair_sphere (ex_sphere (1 / 2)) pd /\ 0 < x1 (d_u (snd pd))) (combine [0x211; 0x211]%Z [ex_sdraw; ex_sdraw]).
Proof. repeat constructor; unfold ex_sphere, ex_sdraw; cbn; try lra; discriminate. Qed.
(** "Make total 3-momentum in sphere 0": with radial flow two pions with momentum 1/2 GeV along the first axis end
    with total momentum -1 GeV. *)
Theorem flow_total_refuted : exists s species draws l, sphere_check s = Ok tt /\
  Forall (fun pd => fair_sphere s pd /\ 0 < x1 (d_u (snd pd))) (combine species draws) /\
  sphere_init s species draws = Ok l /\ net l = V3 (-1) 0 0.
Proof.
  destruct (sphere_flow (Sphere 10 (3 / 20) 0 (Thermal false) (fun _ => 138 / 1000) [] (1 / 2) 0 None) [0x211; 0x211]%Z [ex_sdraw; ex_sdraw]) as (l & E & _ & _ & _ & Z); cbn; auto; try lra.
  { repeat constructor; unfold ex_sdraw; cbn; try lra; discriminate. }
  exists (Sphere 10 (3 / 20) 0 (Thermal false) (fun _ => 138 / 1000) [] (1 / 2) 0 None), [0x211; 0x211]%Z, [ex_sdraw; ex_sdraw], l.
  splits.
  - unfold sphere_check; cbn. destruct (Rlt_dec 1 (1 / 2)); [lra|]. destruct (Rle_dec (3 / 20) 0); [lra|]. destruct (Rlt_dec 0 0); [lra|]. reflexivity.
  - repeat constructor; unfold ex_sdraw; cbn; try lra; discriminate.
  - rewrite E. unfold sphere_jet; cbn. rewrite app_nil_r. reflexivity.
  - rewrite Z. unfold ex_sdraw, neg3, given_momentum; cbn. unfold sintheta; cbn. rewrite cos_0, sin_0.
    replace (1 - 0 * 0) with 1 by ring. rewrite sqrt_1. f_equal; lra.
Qed.
Print Assumptions flow_total_refuted.
Lemma unit_flow s i t k : s_u0 s = 1 -> s_n s = 0 -> 0 < s_radius s -> 0 < k -> i_pos i = mk4 t (V3 0 0 k) ->
  flow1 s i = Ok (Ini (i_pdg i) (i_pos i) (V4 0 (y1 (i_mom i)) (y2 (i_mom i)) (y3 (i_mom i))) (i_form i)).
Proof.
  intros U N Rp K E. unfold flow1, flow_velocity. rewrite E.
  replace (sqrt (sqr3 (threevec (mk4 t (V3 0 0 k))))) with k by (unfold sqr3, dot3; cbn; replace (0 * 0 + 0 * 0 + k * k) with (k * k) by ring; rewrite sqrt_square; lra).
  destruct (Req_EM_T k 0); [lra|]. cbn [rbind]. rewrite U, N.
  assert (X : k / s_radius s <> 0) by (pose proof (Rdiv_lt_0_compat _ _ K Rp); lra).
  assert (V : scale3 (cpow (k / s_radius s) 0) (scale3 (-1 * 1) (div3 (threevec (mk4 t (V3 0 0 k))) k)) = V3 0 0 (-1)).
  { unfold cpow. destruct (Req_EM_T (k / s_radius s) 0); [contradiction|]. unfold Rpower. rewrite Rmult_0_l, exp_0. unfold scale3, div3, scale3; cbn. f_equal; field; auto. }
  rewrite V. do 2 f_equal. unfold boost.
  assert (G : gamma (V3 0 0 (-1)) = 0) by (unfold gamma, sqr3, dot3; cbn; destruct (Rlt_dec (0 * 0 + 0 * 0 + -1 * -1) 1); [lra|reflexivity]).
  rewrite G. unfold mk4, sub3, scale3, threevec; cbn. f_equal; lra.
Qed.
(** The largest radial velocity that is accepted, 1, stops the run with an exception as soon as a particle has a
    momentum and the velocity does not depend on the radius. *)
Theorem unit_flow_refuted : exists s species draws, sphere_check s = Ok tt /\
  Forall (fun pd => fair_sphere s pd /\ 0 < x1 (d_u (snd pd))) (combine species draws) /\
  sphere_init s species draws = Throw E_runtime.
Proof.
  set (s := Sphere 10 (3 / 20) 0 (Thermal false) (fun _ => 138 / 1000) [] 1 0 None).
  assert (F : Forall (fun pd => fair_sphere s pd /\ 0 < x1 (d_u (snd pd))) (combine [0x211]%Z [ex_sdraw])) by (repeat constructor; unfold ex_sdraw; cbn; try lra; discriminate).
  exists s, [0x211]%Z, [ex_sdraw]. splits; auto.
  - unfold sphere_check; cbn. destruct (Rlt_dec 1 1); [lra|]. destruct (Rle_dec (3 / 20) 0); [lra|]. destruct (Rlt_dec 0 0); [lra|]. reflexivity.
  - unfold sphere_init. rewrite sphere_one_all by (eapply Forall_impl; [|exact F]; cbn; tauto). cbn [rbind].
    unfold flow. destruct (Rlt_dec 0 (s_u0 s)) as [_|Q]; [|exfalso; apply Q; unfold s; cbn; lra].
    cbn [combine map mapM].
    assert (D : direction (d_posdir ex_sdraw) = V3 0 0 1) by (unfold direction, sintheta, ex_sdraw; cbn; replace (1 - 1 * 1) with 0 by ring; rewrite sqrt_0; f_equal; ring).
    rewrite (unit_flow s _ 0 (cube_root (x1 (d_u ex_sdraw)) * s_radius s)); try (unfold s; cbn; lra).
    2: { apply Rmult_lt_0_compat; [apply cube_root_0; unfold ex_sdraw; cbn; lra|unfold s; cbn; lra]. }
    2: { unfold sphere_ini; cbn [fst snd i_pos]. rewrite D. unfold scale3, mk4; cbn. f_equal; ring. }
    cbn [rbind]. unfold recentre; cbn [mapM]. unfold recentre1 at 1. cbn [i_mom].
    match goal with |- context [abs4 ?p] => assert (A : abs4 p = Throw E_runtime) end; [|rewrite A; reflexivity].
    unfold abs4, sqr4, sphere_ini, ex_sdraw, on_shell; cbn. unfold sintheta; cbn. rewrite cos_0, sin_0.
    replace (1 - 0 * 0) with 1 by ring. rewrite sqrt_1.
    match goal with |- context [Rlt_dec ?a ?b] => destruct (Rlt_dec a b) as [L|L]; [exfalso; unfold really_small in L; lra|reflexivity] end.
Qed.
Print Assumptions unit_flow_refuted.
(** A particle placed exactly at the centre, which the generator allows, has no radial direction: with radial flow its
    momentum is undefined. *)
Theorem centre_flow_refuted s pdg d : (s_how s = Quantum -> In pdg (map fst (s_init s))) -> x1 (d_u d) = 0 -> 0 < s_u0 s ->
  sphere_init s [pdg] [d] = UB UB_div_zero.
Proof.
  intros Q U0 Us. unfold sphere_init. cbn [combine mapM]. unfold sphere_one at 1. rewrite mass_and_momentum_spec by auto. cbn [rbind].
  unfold flow. destruct (Rlt_dec 0 (s_u0 s)) as [_|]; [|contradiction]. cbn [mapM]. unfold flow1 at 1, flow_velocity. cbn [i_pos].
  rewrite U0. assert (C : cube_root 0 = 0) by (unfold cube_root; destruct (Rle_dec 0 0); [auto|lra]). rewrite C.
  unfold sqr3, dot3, threevec, mk4, scale3; cbn [x1 x2 x3 y1 y2 y3].
  match goal with |- context [sqrt ?x] => replace x with 0 by ring end. rewrite sqrt_0. destruct (Req_EM_T 0 0); [reflexivity|contradiction].
Qed.
Print Assumptions centre_flow_refuted.

(** ** The reference to the jet *)
(** With spin interactions on, the second jet can make the array of particles move while a reference to the first one is
    still used: 98 particles already there are enough. *)
Theorem jet_reference_refuted : exists st, create_n init_particles 98 0x211 = Ok st /\
  sphere_jet_list true (Jet 0x321 (-0x321) 20 (V3 0 0 0) true 1) st = UB UB_oob.
Proof. eexists. split; [vm_compute; reflexivity|]. vm_compute. reflexivity. Qed.
Print Assumptions jet_reference_refuted.
