(** Final states of two-particle scatterings (C125). *)
From Coq Require Import ZArith Reals List Bool Lra Lia Psatz.
From Verif Require Import Base VecModel VecProps KinProps MotionModel FinalProps ScatModel ScatProps ScatAngle ScatTransfer.
Import ListNotations.
Open Scope R_scope.

(** the masses of the incoming particles: from the momentum, unless the species is massless *)
Definition mass_of (w : world) (p : sp) (m : R) : Prop :=
  0 <= m /\ shell m (s_mom p) /\ (pole w (s_type p) < / 1000000 -> m = pole w (s_type p)).
Definition colliding (w : world) (a b : sp) (ma mb : R) : Prop :=
  mass_of w a ma /\ mass_of w b mb /\ 0 < y0 (add4 (s_mom a) (s_mom b)) /\ 0 < minkowski (add4 (s_mom a) (s_mom b)) (add4 (s_mom a) (s_mom b)).
Definition draws_ok (d : adraws) : Prop := 0 <= d_phi d < 1 /\ 0 <= d_cos d <= 1.
(** what is carried by a particle besides its momentum and spin *)
Definition same_particle (p q : sp) : Prop :=
  s_type p = s_type q /\ s_id p = s_id q /\ s_pos p = s_pos q /\ s_weight p = s_weight q /\ s_core p = s_core q.
(** a particle produced at [x] by [a] and [b] *)
Definition produced (w : world) (x : vec4) (a b p : sp) : Prop :=
  s_pos p = x /\ (s_core a = true \/ s_core b = true -> s_core p = true) /\ (heavy w (s_type p) = true -> s_weight p = s_weight a * s_weight b).

Lemma effective w p m : mass_of w p m -> effective_mass (pole w (s_type p)) (s_mom p) = m.
Proof.
  intros (M & (S1 & S2) & P). unfold effective_mass, really_small. destruct (Rlt_dec _ _) as [L|L]; [symmetry; auto|]. rewrite sqr_mink, S1. now apply sqrt_square.
Qed.
Lemma colliding_incoming w a b ma mb : colliding w a b ma mb -> incoming ma mb (s_mom a) (s_mom b).
Proof. intros ((A & SA & _) & (B & SB & _) & E & M). unfold incoming. tauto. Qed.
Lemma boost2 a b qa qb ma mb : 0 < y0 (add4 a b) -> 0 < minkowski (add4 a b) (add4 a b) -> add4 qa qb = V4 (cm_energy a b) 0 0 0 -> shell ma qa -> shell mb qb ->
  let v := neg3 (velocity (add4 a b)) in add4 (boost v qa) (boost v qb) = add4 a b /\ shell ma (boost v qa) /\ shell mb (boost v qb).
Proof.
  intros E M S A B v. destruct (boosted_final_state (add4 a b) [qa; qb] [ma; mb] E M) as (H1 & H2).
  - fold (cm_energy a b). cbn [sum4 fold_right]. rewrite <- S. apply vec4_eq; unfold add4, zero4; cbn [y0 y1 y2 y3]; ring.
  - auto.
  - cbn [map] in H1, H2. fold v in H1, H2. inversion_clear H2 as [|? ? ? ? SA H3]. inversion_clear H3 as [|? ? ? ? SB _]. split; auto.
    rewrite <- H1. cbn [sum4 fold_right]. apply vec4_eq; unfold add4, zero4; cbn [y0 y1 y2 y3]; ring.
Qed.
Lemma cm_sqrt a b : sqrt (sqr4 (add4 a b)) = cm_energy a b.
Proof. now rewrite sqr_mink. Qed.

(** Elastic scattering: the same two particles where they were, with the same masses and the same total momentum. *)
Theorem elastic_final_state w on iso out x a b f ma mb pt l :
  colliding w a b ma mb -> draws_ok (f_angles f) -> generate_final_state w on iso Elastic out x a b f = Ok (pt, l) ->
  pt = Elastic /\ exists a' b', l = [a'; b'] /\ same_particle a a' /\ same_particle b b' /\
  add4 (s_mom a') (s_mom b') = add4 (s_mom a) (s_mom b) /\ shell ma (s_mom a') /\ shell mb (s_mom b') /\
  (on = false -> s_spin a' = s_spin a /\ s_spin b' = s_spin b).
Proof.
  intros C (D1 & D2) H. pose proof (colliding_incoming _ _ _ _ _ C) as I. destruct C as (MA & MB & E & M).
  destruct (cm_momentum _ _ _ _ I) as (_ & _ & T & EC). assert (MA0 : 0 <= ma) by apply MA. assert (MB0 : 0 <= mb) by apply MB.
  unfold generate_final_state, final_cm, elastic_scattering in H. rewrite (effective w a ma MA), (effective w b mb MB), cm_sqrt in H.
  destruct (scatter_angles _ _ _ _ _ _ _ _ _ _ _ _ _ _) as [[qa qb]| |] eqn:SA; [|discriminate|discriminate]. cbn [rbind] in H.
  destruct (scattering_conserves _ _ _ _ _ _ _ _ _ _ _ _ _ _ _ I MA0 MB0 T D1 D2 SA) as (S & S1 & S2).
  destruct (boost2 _ _ qa qb ma mb E M S S1 S2) as (B1 & B2 & B3).
  match type of H with Ok ?r = _ => assert (HH : (pt, l) = r) by congruence end.
  assert (pt = Elastic) as -> by congruence. split; auto.
  assert (HL : l = map (fun p => with_mom (boost (neg3 (velocity (add4 (s_mom a) (s_mom b)))) (s_mom p)) p) (spin_interaction on Elastic [with_mom qa a; with_mom qb b])) by (injection HH; auto).
  rewrite HL. destruct on; cbn [spin_interaction map]; eexists _, _; split; try reflexivity; unfold same_particle; cbn [with_mom with_spin s_type s_id s_pos s_weight s_core s_mom s_spin]; splits; auto; congruence || auto.
Qed.
Print Assumptions elastic_final_state.

(** the steps after the centre-of-mass state, for processes that are not elastic *)
Definition settle (w : world) (x : vec4) (a b p : sp) : sp :=
  let p := with_mom (boost (neg3 (velocity (add4 (s_mom a) (s_mom b)))) (s_mom p)) p in
  let p := with_pos x p in let p := if s_core a || s_core b then fluidize p else p in
  if heavy w (s_type p) then with_weight (1 * s_weight a * s_weight b) p else p.
Lemma settle_fields w x a b p : let q := settle w x a b p in
  s_mom q = boost (neg3 (velocity (add4 (s_mom a) (s_mom b)))) (s_mom p) /\ s_type q = s_type p /\ s_id q = s_id p /\ s_spin q = s_spin p /\ produced w x a b q /\
  (heavy w (s_type p) = false -> s_weight q = s_weight p) /\ (s_core a = false -> s_core b = false -> s_core q = s_core p).
Proof.
  unfold settle, produced. destruct (s_core a) eqn:CA, (s_core b) eqn:CB; cbn [orb with_mom with_pos fluidize s_type];
  destruct (heavy w (s_type p)) eqn:HV; cbn [with_weight with_mom with_pos fluidize s_type s_id s_pos s_mom s_spin s_weight s_core]; splits; auto; intros; try congruence; try ring; try (destruct H; congruence).
Qed.
Lemma generate_settle w on iso pt out x a b f r : pt <> Elastic -> generate_final_state w on iso pt out x a b f = Ok r ->
  exists pt' l, final_cm w on iso pt out a b f = Ok (pt', l) /\ r = (pt', map (settle w x a b) l).
Proof.
  intros NE. unfold generate_final_state. destruct (final_cm w on iso pt out a b f) as [[pt' l]| |]; [|discriminate|discriminate]. cbn [rbind]. intros H.
  exists pt', l. split; auto. destruct pt; congruence || (unfold settle; congruence).
Qed.
Lemma settled_all w x a b l : Forall (produced w x a b) (map (settle w x a b) l).
Proof. apply Forall_forall. intros p I. apply in_map_iff in I as (q & <- & _). apply settle_fields. Qed.
Lemma settled_mom w x a b l : map s_mom (map (settle w x a b) l) = map (boost (neg3 (velocity (add4 (s_mom a) (s_mom b))))) (map s_mom l).
Proof. rewrite !map_map. apply map_ext. intros p. apply settle_fields. Qed.
Lemma settled_types w x a b l : map s_type (map (settle w x a b) l) = map s_type l.
Proof. rewrite map_map. apply map_ext. intros p. apply settle_fields. Qed.
Lemma combine_pad {A} (z : A) : forall (l : list sp) ss, map fst (combine l (ss ++ repeat z (length l))) = l.
Proof.
  assert (G : forall (l : list sp) (ss : list A), (length l <= length ss)%nat -> map fst (combine l ss) = l).
  { induction l as [|p l IH]; intros [|s ss] L; cbn in *; try lia; auto. f_equal. apply IH. lia. }
  intros l ss. apply G. rewrite app_length, repeat_length. lia.
Qed.
Lemma unpolarize_fields {B} (g : sp -> B) on ss l : (forall p x, g (with_spin x p) = g p) -> map g (unpolarize on ss l) = map g l.
Proof.
  intros G. unfold unpolarize. destruct on; auto. rewrite map_map. rewrite (map_ext _ (fun ps => g (fst ps))) by (intros (p & s); cbn [fst]; apply G).
  rewrite <- (map_map fst g). now rewrite combine_pad.
Qed.

(** A resonance takes over the whole momentum, is at the interaction point and has the species asked for. *)
Theorem resonance_final_state w on iso t x a b f pt l :
  0 < y0 (add4 (s_mom a) (s_mom b)) -> 0 < minkowski (add4 (s_mom a) (s_mom b)) (add4 (s_mom a) (s_mom b)) ->
  generate_final_state w on iso TwoToOne [t] x a b f = Ok (pt, l) ->
  pt = TwoToOne /\ exists r, l = [r] /\ s_type r = t /\ s_mom r = add4 (s_mom a) (s_mom b) /\ produced w x a b r.
Proof.
  intros E M H. apply generate_settle in H as (pt' & l' & F & R); [|discriminate]. cbn [final_cm resonance_formation rbind] in F.
  set (P := add4 (s_mom a) (s_mom b)) in *. set (q := V4 _ 0 0 0) in F.
  assert (FE : pt' = TwoToOne /\ l' = unpolarize on (f_spins f) [with_mom q (fresh t)]) by (split; congruence). destruct FE as (-> & ->).
  assert (pt = TwoToOne) as -> by congruence. split; auto.
  assert (LL : l = map (settle w x a b) (unpolarize on (f_spins f) [with_mom q (fresh t)])) by congruence.
  assert (QV : q = V4 (sqrt (minkowski P P)) 0 0 0).
  { unfold q. rewrite sqr_mink. rewrite sqrt_sqrt by lra. f_equal. f_equal. ring. }
  destruct (boost_to_rest_frame P E M) as (V & B).
  assert (BQ : boost (neg3 (velocity P)) q = P) by (rewrite QV, <- B; now apply boost_inverse).
  pose proof (settled_all w x a b (unpolarize on (f_spins f) [with_mom q (fresh t)])) as PA. rewrite <- LL in PA.
  pose proof (f_equal (map s_mom) LL) as LM. rewrite settled_mom, unpolarize_fields in LM by reflexivity. cbn [map with_mom s_mom] in LM. fold P in LM. rewrite BQ in LM.
  pose proof (f_equal (map s_type) LL) as LT. rewrite settled_types, unpolarize_fields in LT by reflexivity. cbn [map with_mom fresh s_type] in LT.
  destruct l as [|r [|]]; try discriminate. exists r. splits; auto.
  - cbn in LT. congruence.
  - cbn in LM. congruence.
  - now inversion PA.
Qed.
Print Assumptions resonance_final_state.
Theorem resonance_needs_one w on iso out x a b f : length out <> 1%nat -> exists e, generate_final_state w on iso TwoToOne out x a b f = Throw e.
Proof. intros L. destruct out as [|t [|t' out]]; cbn in *; try lia; eexists; reflexivity. Qed.
Print Assumptions resonance_needs_one.

(** Inelastic two-body scattering: the species asked for, the masses drawn, the total momentum, new particles at the
    interaction point. *)
Theorem inelastic_final_state w on iso ta tb x a b f ma mb pt l :
  colliding w a b ma mb -> draws_ok (f_angles f) -> 0 <= fst (f_masses f) -> 0 <= snd (f_masses f) -> fst (f_masses f) + snd (f_masses f) <= cm_energy (s_mom a) (s_mom b) ->
  generate_final_state w on iso TwoToTwo [ta; tb] x a b f = Ok (pt, l) ->
  pt = TwoToTwo /\ exists a' b', l = [a'; b'] /\ s_type a' = ta /\ s_type b' = tb /\ add4 (s_mom a') (s_mom b') = add4 (s_mom a) (s_mom b) /\
  shell (fst (f_masses f)) (s_mom a') /\ shell (snd (f_masses f)) (s_mom b') /\ produced w x a b a' /\ produced w x a b b'.
Proof.
  intros C (D1 & D2) M1 M2 MS H. pose proof (colliding_incoming _ _ _ _ _ C) as I. destruct C as (MA & MB & E & M).
  apply generate_settle in H as (pt' & l' & F & R); [|discriminate]. cbn [final_cm] in F. unfold inelastic_scattering in F. rewrite (effective w a ma MA), (effective w b mb MB), cm_sqrt in F.
  destruct (scatter_angles _ _ _ _ _ _ _ _ _ _ _ _ _ _) as [[qa qb]| |] eqn:SA; [|discriminate|discriminate]. cbn [rbind] in F.
  destruct (scattering_conserves _ _ _ _ _ _ _ _ _ _ _ _ _ _ _ I M1 M2 MS D1 D2 SA) as (S & S1 & S2).
  destruct (boost2 _ _ qa qb _ _ E M S S1 S2) as (B1 & B2 & B3).
  set (l0 := [with_mom qa (fresh ta); with_mom qb (fresh tb)]) in *.
  assert (FE : pt' = TwoToTwo /\ l' = unpolarize on (f_spins f) l0). { assert (SI : spin_interaction on TwoToTwo (unpolarize on (f_spins f) l0) = unpolarize on (f_spins f) l0) by (destruct on; reflexivity). split; congruence. }
  destruct FE as (-> & ->). assert (pt = TwoToTwo) as -> by congruence. split; auto.
  assert (LL : l = map (settle w x a b) (unpolarize on (f_spins f) l0)) by congruence.
  pose proof (settled_all w x a b (unpolarize on (f_spins f) l0)) as PA. rewrite <- LL in PA.
  pose proof (f_equal (map s_mom) LL) as LM. rewrite settled_mom, unpolarize_fields in LM by reflexivity. cbn [l0 map with_mom s_mom] in LM.
  pose proof (f_equal (map s_type) LL) as LT. rewrite settled_types, unpolarize_fields in LT by reflexivity. cbn [l0 map with_mom fresh s_type] in LT.
  destruct l as [|a' [|b' [|]]]; try discriminate. cbn [map] in LM, LT. assert (LM1 : s_mom a' = boost (neg3 (velocity (add4 (s_mom a) (s_mom b)))) qa) by congruence.
  assert (LM2 : s_mom b' = boost (neg3 (velocity (add4 (s_mom a) (s_mom b)))) qb) by congruence. rewrite <- LM1, <- LM2 in *. inversion_clear PA as [|? ? PA1 PB]. inversion_clear PB as [|? ? PB1 _].
  exists a', b'. splits; auto; congruence.
Qed.
Print Assumptions inelastic_final_state.

(** Three to five particles in the final state: the pole masses, the total momentum. *)
Definition many (pt : ptype) : Prop := pt = TwoToThree \/ pt = TwoToFour \/ pt = TwoToFive.
Theorem many_final_state w on iso pt out x a b f :
  many pt -> (3 <= length out)%nat -> (forall t, In t out -> stable w t = true /\ 0 < pole w t) ->
  0 < y0 (add4 (s_mom a) (s_mom b)) -> 0 < minkowski (add4 (s_mom a) (s_mom b)) (add4 (s_mom a) (s_mom b)) ->
  sumR (map (pole w) out) < cm_energy (s_mom a) (s_mom b) ->
  length (f_mb f) = (length out - 2)%nat -> (forall u, In u (f_mb f) -> 0 <= u <= cm_energy (s_mom a) (s_mom b) - sumR (map (pole w) out)) ->
  length (f_dirs f) = (length out - 1)%nat -> (forall u, In u (f_dirs f) -> unit u) ->
  exists l, generate_final_state w on iso pt out x a b f = Ok (pt, l) /\ map s_type l = out /\ sum4 (map s_mom l) = add4 (s_mom a) (s_mom b) /\
  Forall2 shell (map (pole w) out) (map s_mom l) /\ Forall (produced w x a b) l.
Proof.
  intros MP L3 ST E M SU LD D LU U. assert (PT : pt <> Elastic) by (destruct MP as [E0 | [E0 | E0]]; rewrite E0 in *; discriminate).
  destruct (many_body_final_state (cm_energy (s_mom a) (s_mom b)) (map (pole w) out) (f_mb f) (f_dirs f)) as (qs & MB & SQ & SH); rewrite ?map_length; auto; try lia.
  - intros m I. apply in_map_iff in I as (t & <- & I). apply ST in I as (_ & I). lra.
  - left. destruct out as [|t1 [|t2 out]]; cbn in L3; try lia. cbn [map nth]. destruct (ST t1 ltac:(now left)), (ST t2 ltac:(right; now left)). lra.
  - assert (SB : forallb (stable w) out = true) by (apply forallb_forall; intros t I; now apply ST).
    set (l0 := map (fun '(t, q) => with_mom q (fresh t)) (combine out qs)).
    assert (F : final_cm w on iso pt out a b f = Ok (pt, unpolarize on (f_spins f) l0)).
    { assert (TM : two_to_many w a b out f = Ok l0). { unfold two_to_many. rewrite SB. destruct (Nat.ltb_spec (length out) 3); [lia|]. cbn [orb negb]. rewrite cm_sqrt, MB. reflexivity. }
      destruct MP as [E0 | [E0 | E0]]; rewrite E0 in *; cbn [final_cm]; rewrite TM; reflexivity. }
    assert (LQ : length qs = length out) by (rewrite <- (map_length (pole w) out); clear - SH; induction SH; cbn; congruence).
    assert (M0 : map s_mom l0 = qs /\ map s_type l0 = out).
    { unfold l0. clear - LQ. revert out LQ. induction qs as [|q qs IH]; intros [|t out] L; cbn in L; try discriminate; auto. cbn [combine map with_mom fresh s_mom s_type]. destruct (IH out ltac:(lia)) as [I1 I2]. now rewrite I1, I2. }
    destruct M0 as (M0 & T0). exists (map (settle w x a b) (unpolarize on (f_spins f) l0)).
    destruct (boosted_final_state (add4 (s_mom a) (s_mom b)) qs (map (pole w) out) E M SQ SH) as (B1 & B2).
    splits.
    + unfold generate_final_state. rewrite F. cbn [rbind]. destruct MP as [E0 | [E0 | E0]]; rewrite E0 in *; reflexivity.
    + now rewrite settled_types, unpolarize_fields by reflexivity.
    + now rewrite settled_mom, unpolarize_fields, M0 by reflexivity.
    + now rewrite settled_mom, unpolarize_fields, M0 by reflexivity.
    + apply settled_all.
Qed.
Print Assumptions many_final_state.
(** Final states with unstable particles are refused. *)
Theorem many_unstable_refused w on iso pt out x a b f t : many pt -> In t out -> stable w t = false -> generate_final_state w on iso pt out x a b f = Throw E_invalid_argument.
Proof.
  intros MP I ST. assert (SB : forallb (stable w) out = false). { apply not_true_is_false. intros H. rewrite forallb_forall in H. specialize (H t I). congruence. }
  assert (TM : two_to_many w a b out f = Throw E_invalid_argument) by (unfold two_to_many; rewrite SB, orb_true_r; reflexivity).
  unfold generate_final_state. destruct MP as [E0 | [E0 | E0]]; rewrite E0 in *; cbn [final_cm]; rewrite TM; reflexivity.
Qed.
Print Assumptions many_unstable_refused.
(** Processes that are not scatterings of two particles are refused. *)
Theorem other_processes_refused w on iso pt out x a b f :
  In pt [PNone; Decay; Wall; Thermalization; Fluidization; FluidizationNoRemoval; Bremsstrahlung; ThreeMesonsToOne; ThreeToTwo; FourToTwo; FiveToTwo; FailedString; Freeforall] ->
  exists e, generate_final_state w on iso pt out x a b f = Throw e.
Proof. intros I. cbn in I. repeat (destruct I as [<-|I]; [eexists; reflexivity|]). destruct I. Qed.
Print Assumptions other_processes_refused.

(** ** Strings *)
Definition string_process (pt : ptype) : Prop := In pt [SoftAX; SoftXB; SoftDD; SoftAnnihilation; SoftND; StringHard].
Definition annihilating (w : world) (a b : sp) : Prop := baryon w (s_type a) <> 0%Z /\ baryon w (s_type a) = (- baryon w (s_type b))%Z.
Lemma tries_none ok : forall fuel i, (forall n, (i <= n < i + fuel)%nat -> ok n = false) -> tries fuel i ok = ((i + fuel)%nat, false).
Proof.
  induction fuel as [|fuel IH]; intros i H; cbn [tries]; [f_equal; lia|]. rewrite (H i ltac:(lia)). rewrite IH by (intros; apply H; lia). f_equal. lia.
Qed.
Lemma tries_some ok n : forall fuel i, (i <= n < i + fuel)%nat -> ok n = true -> (forall k, (i <= k < n)%nat -> ok k = false) -> tries fuel i ok = (S n, true).
Proof.
  induction fuel as [|fuel IH]; intros i R O F; [lia|]. cbn [tries]. destruct (Nat.eq_dec i n) as [->|NE]; [now rewrite O|]. rewrite (F i ltac:(lia)). apply IH; auto; try lia. intros; apply F; lia.
Qed.
Lemma first_true (ok : nat -> bool) n : ok n = true -> exists k, (k <= n)%nat /\ ok k = true /\ forall j, (j < k)%nat -> ok j = false.
Proof.
  induction n as [n IH] using lt_wf_ind. intros H. destruct (existsb ok (seq 0 n)) eqn:EX.
  - apply existsb_exists in EX as (j & I & OJ). apply in_seq in I. destruct (IH j ltac:(lia) OJ) as (k & K1 & K2 & K3). exists k. splits; auto. lia.
  - exists n. splits; auto. intros j J. apply not_true_is_false. intros OJ. assert (existsb ok (seq 0 n) = true) by (apply existsb_exists; exists j; split; auto; apply in_seq; lia). congruence.
Qed.
Lemma ntry_val : ntry_max = Z.to_nat 10000.
Proof. reflexivity. Qed.
(** the recorded process and the state before the spins are set *)
Definition excited (w : world) (iso : bool) (pt : ptype) (a b : sp) (f : fdraws) (pt' : ptype) (l : list sp) : Prop :=
  string_excitation w iso pt a b f = Ok (pt', l).
(** A string process that succeeds in one of its first 9999 tries is kept. *)
Theorem string_kept w iso pt a b f n : (Z.of_nat n < 9999)%Z -> f_try f n = true -> excited w iso pt a b f pt (f_final f).
Proof.
  intros N H. destruct (first_true _ _ H) as (k & K1 & K2 & K3). unfold excited, string_excitation.
  rewrite (tries_some (f_try f) k) by (assumption || (intros j J; apply K3; lia) || (rewrite ntry_val; lia)). destruct (Nat.eqb_spec (S k) ntry_max) as [C|C]; [rewrite ntry_val in C; lia|]. reflexivity.
Qed.
Print Assumptions string_kept.
(** If all 10000 tries fail: annihilation for a baryon and an antibaryon of opposite baryon number, double diffraction for
    everything else; if that fails 10000 times as well the particles are scattered instead. *)
Theorem string_fallback w iso pt a b f : (forall n, (Z.of_nat n < 10000)%Z -> f_try f n = false) ->
  ((exists n, (Z.of_nat n < 10000)%Z /\ f_try2 f n = true) ->
     (annihilating w a b -> excited w iso pt a b f SoftAnnihilation (f_final2 f)) /\ (~ annihilating w a b -> excited w iso pt a b f SoftDD (f_final2 f))) /\
  ((forall n, (Z.of_nat n < 10000)%Z -> f_try2 f n = false) -> forall pt' l, excited w iso pt a b f pt' l -> pt' = FailedString /\ elastic_scattering w false iso a b (f_angles f) = Ok l).
Proof.
  intros H. assert (T1 : tries ntry_max 0 (f_try f) = (ntry_max, false)) by (rewrite tries_none; [reflexivity|]; intros n N; apply H; rewrite ntry_val in N; lia).
  assert (AN : annihilating w a b <-> negb (baryon w (s_type a) =? 0)%Z && (baryon w (s_type a) =? - baryon w (s_type b))%Z = true).
  { unfold annihilating. rewrite andb_true_iff, negb_true_iff, Z.eqb_neq, Z.eqb_eq. tauto. }
  unfold excited, string_excitation. rewrite T1, Nat.eqb_refl. split.
  - intros (n & N & O). destruct (first_true _ _ O) as (k & K1 & K2 & K3). rewrite (tries_some (f_try2 f) k) by (assumption || (intros j J; apply K3; lia) || (rewrite ntry_val; lia)).
    split; intros A.
    + rewrite (proj1 AN A). reflexivity.
    + destruct (negb _ && _); [exfalso; apply A; tauto|reflexivity].
  - intros H2 pt' l. rewrite (tries_none (f_try2 f)) by (intros n N; apply H2; rewrite ntry_val in N; lia).
    destruct (elastic_scattering _ _ _ _ _ _) as [l'| |]; [|discriminate|discriminate]. cbn [rbind]. intros E. split; congruence.
Qed.
Print Assumptions string_fallback.
(** The process that succeeds is kept, as long as one of the 10000 tries succeeds: not so, the outcome of the last one is thrown away. *)
Theorem last_try_counts_refuted : ~ (forall w iso pt a b f n, (Z.of_nat n < 10000)%Z -> f_try f n = true -> excited w iso pt a b f pt (f_final f)).
Proof.
  intros H. set (w := World (fun _ => Kind false false false 1 0) (fun _ => 1) (fun _ => false) (fun _ => true) (fun _ => 0%Z)).
  destruct (Z_of_nat_complete 9999 ltac:(lia)) as (k & EK).
  set (f := FDraws (ADraws [] 0 0 0 0) [] (0, 0) [] [] (fun n => (n =? k)%nat) (fun _ => true) [] []).
  specialize (H w true StringHard (fresh 1) (fresh 1) f k ltac:(lia)). assert (FK : f_try f k = true) by (cbn [f_try f]; apply Nat.eqb_refl). specialize (H FK).
  unfold excited, string_excitation in H. assert (NK : ntry_max = S k) by (rewrite ntry_val; lia). rewrite NK in H. clear NK EK.
  rewrite (tries_some (f_try f) k) in H; [|lia|exact FK|intros j J; cbn [f_try f]; apply Nat.eqb_neq; lia].
  rewrite Nat.eqb_refl in H. rewrite (tries_some (f_try2 f) 0%nat) in H; [|lia|reflexivity|lia]. discriminate.
Qed.
Print Assumptions last_try_counts_refuted.
Lemma string_spin_fields {B} (g : sp -> B) on pt a b ss l : (forall p x, g (with_spin x p) = g p) -> map g (string_spin on pt a b ss l) = map g l.
Proof.
  intros G. unfold string_spin. destruct on; auto.
  assert (K : forall c, map g match rev l with [] => l | q :: r => unpolarize true ss (rev r) ++ [with_spin (c q) q] end = map g l).
  { intros c. destruct (rev l) as [|q r] eqn:RL; auto. rewrite map_app, unpolarize_fields by auto. cbn [map]. rewrite G. rewrite <- (rev_involutive l), RL. cbn [rev]. now rewrite map_app. }
  destruct pt; try (apply unpolarize_fields; auto); apply K.
Qed.
(** Whatever happens to the strings: the total momentum is conserved and the products are at the interaction point, provided the
    fragmentation gives a state with the energy of the collision at rest. *)
Theorem string_final_state w on iso pt out x a b f ma mb pt' l :
  string_process pt -> colliding w a b ma mb -> draws_ok (f_angles f) ->
  sum4 (map s_mom (f_final f)) = V4 (cm_energy (s_mom a) (s_mom b)) 0 0 0 -> sum4 (map s_mom (f_final2 f)) = V4 (cm_energy (s_mom a) (s_mom b)) 0 0 0 ->
  generate_final_state w on iso pt out x a b f = Ok (pt', l) ->
  sum4 (map s_mom l) = add4 (s_mom a) (s_mom b) /\ Forall (produced w x a b) l /\
  (pt' = pt \/ pt' = SoftAnnihilation \/ pt' = SoftDD \/
   (pt' = FailedString /\ map s_type l = [s_type a; s_type b] /\ map s_id l = [s_id a; s_id b] /\ Forall2 shell [ma; mb] (map s_mom l))).
Proof.
  intros SP C (D1 & D2) F1 F2 H. pose proof (colliding_incoming _ _ _ _ _ C) as I. destruct C as (MA & MB & E & M).
  assert (PE : pt <> Elastic) by (intros ->; cbn in SP; intuition discriminate).
  apply generate_settle in H as (pt1 & l1 & F & R); auto. assert (pt' = pt1) as -> by congruence. assert (LL : l = map (settle w x a b) l1) by congruence. clear R.
  assert (FE : exists l0, string_excitation w iso pt a b f = Ok (pt1, l0) /\ l1 = string_spin on pt1 a b (f_spins f) l0).
  { assert (G : ('(p, l0) <- string_excitation w iso pt a b f ;; Ok (p, string_spin on p a b (f_spins f) l0)) = Ok (pt1, l1)).
    { cbn in SP. repeat (destruct SP as [<-|SP]; [exact F|]). destruct SP. }
    destruct (string_excitation w iso pt a b f) as [[p l0]| |]; [|discriminate|discriminate]. cbn [rbind] in G. exists l0. assert (p = pt1) as -> by congruence. split; congruence. }
  destruct FE as (l0 & SE & L1).
  destruct (boost_to_rest_frame _ E M) as (V & B). fold (cm_energy (s_mom a) (s_mom b)) in B.
  assert (MM : map s_mom l = map (boost (neg3 (velocity (add4 (s_mom a) (s_mom b))))) (map s_mom l0)). { rewrite LL, settled_mom, L1. now rewrite string_spin_fields. }
  assert (TT : map s_type l = map s_type l0). { rewrite LL, settled_types, L1. now rewrite string_spin_fields. }
  assert (II : map s_id l = map s_id l0). { rewrite LL, map_map, (map_ext _ s_id) by (intros; apply settle_fields). rewrite L1. now rewrite string_spin_fields. }
  assert (CASES : sum4 (map s_mom l0) = V4 (cm_energy (s_mom a) (s_mom b)) 0 0 0 /\ (pt1 = pt \/ pt1 = SoftAnnihilation \/ pt1 = SoftDD \/
     (pt1 = FailedString /\ map s_type l0 = [s_type a; s_type b] /\ map s_id l0 = [s_id a; s_id b] /\ Forall2 shell [ma; mb] (map s_mom l)))).
  { unfold string_excitation in SE. destruct (tries ntry_max 0 (f_try f)) as (nt & su). destruct (nt =? ntry_max)%nat.
    - destruct (tries ntry_max 0 (f_try2 f)) as (nt2 & su2). destruct su2.
      + assert (l0 = f_final2 f) as -> by congruence. split; auto. destruct (negb _ && _); [right; left|right; right; left]; congruence.
      + unfold elastic_scattering in SE. rewrite (effective w a ma MA), (effective w b mb MB), cm_sqrt in SE.
        destruct (scatter_angles _ _ _ _ _ _ _ _ _ _ _ _ _ _) as [[qa qb]| |] eqn:SA; [|discriminate|discriminate]. cbn [rbind] in SE.
        destruct (cm_momentum _ _ _ _ I) as (_ & _ & T & EC).
        destruct (scattering_conserves _ _ _ _ _ _ _ _ _ _ _ _ _ _ _ I (proj1 MA) (proj1 MB) T D1 D2 SA) as (S & S1 & S2).
        destruct (boost2 _ _ qa qb _ _ E M S S1 S2) as (B1 & B2 & B3).
        assert (l0 = [with_mom qa a; with_mom qb b]) as L0 by congruence. split.
        * rewrite L0. cbn [map with_mom s_mom sum4 fold_right]. rewrite <- S. apply vec4_eq; unfold add4, zero4; cbn [y0 y1 y2 y3]; ring.
        * right. right. right. splits; [congruence|rewrite L0; reflexivity|rewrite L0; reflexivity|]. rewrite MM, L0. cbn [map with_mom s_mom]. auto.
    - assert (l0 = f_final f) as -> by congruence. split; auto. left. congruence. }
  destruct CASES as (S0 & CS). splits.
  - rewrite MM, boost_sum, S0, <- B. now apply boost_inverse.
  - rewrite LL. apply settled_all.
  - rewrite TT, II. exact CS.
Qed.
Print Assumptions string_final_state.

(** ** Spins *)
(** A Sigma* formed from a Lambda and a pion carries the spin of the Lambda (comment in the code): not so, the spins of the
    incoming particles have no influence on it. *)
Theorem resonance_inherits_spin_refuted w on iso out x a b f sa sb :
  generate_final_state w on iso TwoToOne out x (with_spin sa a) (with_spin sb b) f = generate_final_state w on iso TwoToOne out x a b f.
Proof. destruct a, b. reflexivity. Qed.
Print Assumptions resonance_inherits_spin_refuted.
Lemma gamma0 : gamma (V3 0 0 0) = 1.
Proof. unfold gamma, sqr3, dot3. cbn [x1 x2 x3]. destruct (Rlt_dec _ _) as [L|L]; [|lra]. replace (1 - (0 * 0 + 0 * 0 + 0 * 0)) with 1 by ring. rewrite sqrt_1. field. Qed.
Lemma boost_none q : boost (V3 0 0 0) q = q.
Proof. unfold boost. rewrite gamma0. apply vec4_eq; unfold mk4, sub3, scale3, threevec, dot3; cbn [x1 x2 x3 y0 y1 y2 y3]; field. Qed.
(** The spin of a resonance is orthogonal to its momentum: not so if it moves, the spin is set in its rest frame and not boosted. *)
Theorem resonance_spin_orthogonal_refuted : exists w x a b f r,
  generate_final_state w true true TwoToOne [1%Z] x a b f = Ok (TwoToOne, [r]) /\ 0 < minkowski (s_mom r) (s_mom r) /\ minkowski (s_mom r) (s_spin r) <> 0.
Proof.
  set (w := World (fun _ => Kind false false false 1 0) (fun _ => 1) (fun _ => false) (fun _ => true) (fun _ => 0%Z)).
  set (f := FDraws (ADraws [] 0 0 0 0) [V3 0 0 1] (0, 0) [] [] (fun _ => false) (fun _ => true) [] []).
  set (a := with_mom (V4 5 0 0 3) (fresh 1)). set (b := with_mom (V4 5 4 0 0) (fresh 1)).
  destruct (generate_final_state w true true TwoToOne [1%Z] zero4 a b f) as [[pt l]| |] eqn:G; [|discriminate|discriminate].
  assert (P1 : 0 < y0 (add4 (s_mom a) (s_mom b))) by (cbn; lra). assert (P2 : 0 < minkowski (add4 (s_mom a) (s_mom b)) (add4 (s_mom a) (s_mom b))) by (unfold minkowski; cbn; lra).
  destruct (resonance_final_state _ _ _ _ _ _ _ _ _ _ P1 P2 G) as (-> & r & -> & _ & MR & _). exists w, zero4, a, b, f, r. split; auto.
  assert (SR : s_spin r = V4 0 0 0 1).
  { apply generate_settle in G as (pt' & l' & F & R); [|discriminate]. cbn [final_cm resonance_formation rbind unpolarize map combine f_spins f app length repeat] in F.
    match type of F with Ok (_, [?q]) = _ => set (q0 := q) in F end. assert (EL : l' = [q0]) by congruence. rewrite EL in R. cbn [map] in R. assert (ER : r = settle w zero4 a b q0) by congruence. rewrite ER.
    destruct (settle_fields w zero4 a b q0) as (_ & _ & _ & -> & _). unfold q0. cbn [with_spin with_mom s_spin s_mom]. unfold unpolarized_spin.
    match goal with |- boost (velocity ?q) _ = _ => replace (velocity q) with (V3 0 0 0) end; [now rewrite boost_none|]. unfold velocity, div3, scale3, threevec. cbn [x1 x2 x3 y0 y1 y2 y3]. apply vec3_eq; cbn [x1 x2 x3]; ring. }
  rewrite MR, SR. unfold minkowski. cbn. split; lra.
Qed.
Print Assumptions resonance_spin_orthogonal_refuted.

(** two particles of mass 4 that meet head on *)
Definition ea : sp := with_mom (V4 5 0 0 3) (fresh 1).
Definition eb : sp := with_mom (V4 5 0 0 (-3)) (fresh 1).
Definition ew : world := World (fun _ => Kind false false false 1 0) (fun _ => 4) (fun _ => false) (fun _ => true) (fun _ => 0%Z).
Definition ef : fdraws := FDraws (ADraws [] 0 0 0 (/ 2)) [] (1, 2) [] [] (fun _ => false) (fun _ => false) [] [].
Lemma e_colliding : colliding ew ea eb 4 4.
Proof.
  assert (K : forall z, z * z = 9 -> mass_of ew (with_mom (V4 5 0 0 z) (fresh 1)) 4) by (intros z Z; unfold mass_of, shell, minkowski; cbn; splits; lra).
  split; [apply K; lra|]. split; [apply K; lra|]. unfold minkowski. cbn. lra.
Qed.
Lemma e_cm : cm_energy (s_mom ea) (s_mom eb) = 10.
Proof. unfold cm_energy. replace (minkowski _ _) with (10 * 10) by (unfold minkowski; cbn; ring). apply sqrt_square. lra. Qed.
Lemma e_range : exists t0 t1, t_edges (s_mom ea) (s_mom eb) 4 4 4 4 t0 t1 /\ t1 < t0.
Proof.
  unfold t_edges, get_t_range. rewrite e_cm.
  assert (PC : pCM 10 4 4 = 3). { destruct (pCM_is_two_body_momentum 10 4 4) as (_ & _ & U); try lra. symmetry. apply U; [lra|]. unfold KinProps.energy. replace (4 * 4 + 3 * 3) with (5 * 5) by ring. rewrite sqrt_square; lra. }
  rewrite PC. destruct (Rle_dec _ _) as [L|L]; [|exfalso; apply L; nra]. eexists _, _. split; [reflexivity|]. nra.
Qed.
Example elastic_final_example : exists l, generate_final_state ew false true Elastic [] zero4 ea eb ef = Ok (Elastic, l) /\ draws_ok (f_angles ef).
Proof.
  assert (D : draws_ok (f_angles ef)) by (unfold draws_ok; cbn; lra).
  destruct e_range as (t0 & t1 & TE & TT). pose proof e_colliding as C. pose proof (colliding_incoming _ _ _ _ _ C) as I. destruct C as (MA & MB & _).
  destruct (transfer_is_the_drawn_one true true (Kind false false false 1 0) (Kind false false false 1 0) (Kind false false false 1 0) (Kind false false false 1 0) (s_mom ea) (s_mom eb) 4 4 4 4 (f_angles ef) t0 t1 None) as (pa & pb & SA & _); auto; try lra.
  - rewrite e_cm. lra.
  - apply D.
  - apply D.
  - assert (E : in_cm (s_mom ea) (s_mom eb) = V4 5 0 0 3).
    { unfold in_cm. replace (velocity _) with (V3 0 0 0); [apply boost_none|]. unfold velocity, div3, scale3, threevec. cbn. apply vec3_eq; cbn [x1 x2 x3]; field. }
    rewrite E. split; [cbn; intros Q; injection Q; lra|]. left. cbn. auto.
  - discriminate.
  - eexists. split; [|exact D]. unfold generate_final_state, final_cm, elastic_scattering. rewrite (effective _ _ _ MA), (effective _ _ _ MB), cm_sqrt. cbn [kind_of ew]. rewrite SA. reflexivity.
Qed.
(** The outgoing momenta in the centre-of-mass frame that belong to an elastic final state. *)
Lemma elastic_spins w iso out x a b f ma mb l :
  colliding w a b ma mb -> draws_ok (f_angles f) -> generate_final_state w true iso Elastic out x a b f = Ok (Elastic, l) ->
  exists qa qb a' b', l = [a'; b'] /\ shell ma qa /\ shell mb qb /\ add4 qa qb = V4 (cm_energy (s_mom a) (s_mom b)) 0 0 0 /\
  scatter_angles true iso (kind_of w (s_type a)) (kind_of w (s_type b)) (kind_of w (s_type a)) (kind_of w (s_type b)) (s_mom a) (s_mom b) ma mb ma mb (cm_energy (s_mom a) (s_mom b)) (f_angles f) = Ok (qa, qb) /\
  s_mom a' = boost (neg3 (velocity (add4 (s_mom a) (s_mom b)))) qa /\
  s_spin a' = boost (velocity qa) (s_spin a) /\ s_spin b' = boost (velocity qb) (s_spin b).
Proof.
  intros C (D1 & D2) H. pose proof (colliding_incoming _ _ _ _ _ C) as I. destruct C as (MA & MB & E & M).
  destruct (cm_momentum _ _ _ _ I) as (_ & _ & T & EC). unfold generate_final_state, final_cm, elastic_scattering in H. rewrite (effective w a ma MA), (effective w b mb MB), cm_sqrt in H.
  destruct (scatter_angles _ _ _ _ _ _ _ _ _ _ _ _ _ _) as [[qa qb]| |] eqn:SA; [|discriminate|discriminate]. cbn [rbind] in H.
  destruct (scattering_conserves _ _ _ _ _ _ _ _ _ _ _ _ _ _ _ I (proj1 MA) (proj1 MB) T D1 D2 SA) as (S & S1 & S2).
  match type of H with Ok (_, ?r) = _ => assert (HL : l = r) by congruence end. cbn [spin_interaction map] in HL. exists qa, qb. eexists _, _. split; [exact HL|]. splits; auto.
Qed.
(** Elastic scattering of massive particles keeps the length of the spin vectors. *)
Theorem elastic_spin_length w iso out x a b f ma mb l : 0 < ma -> 0 < mb ->
  colliding w a b ma mb -> draws_ok (f_angles f) -> generate_final_state w true iso Elastic out x a b f = Ok (Elastic, l) ->
  exists a' b', l = [a'; b'] /\ minkowski (s_spin a') (s_spin a') = minkowski (s_spin a) (s_spin a) /\ minkowski (s_spin b') (s_spin b') = minkowski (s_spin b) (s_spin b).
Proof.
  intros A0 B0 C D H. destruct (elastic_spins _ _ _ _ _ _ _ _ _ _ C D H) as (qa & qb & a' & b' & L & SA & SB & _ & _ & _ & Q1 & Q2). exists a', b'. rewrite Q1, Q2.
  assert (K : forall m q, 0 < m -> shell m q -> speed2 (velocity q) < 1).
  { intros m q M0 (S & Q0). assert (0 < minkowski q q) by nra. assert (Y0 : 0 < y0 q). { destruct Q0 as [Q0|Q0]; auto. unfold minkowski in H0. rewrite <- Q0 in H0. nra. } now apply boost_to_rest_frame. }
  split; auto. rewrite !boost_preserves_product by eauto. auto.
Qed.
Print Assumptions elastic_spin_length.
Lemma boost_more q : 0 < y0 q -> 0 < minkowski q q -> exists k, 0 < k /\ threevec (boost (neg3 (velocity q)) q) = scale3 k (threevec q).
Proof.
  intros E M. destruct (boost_to_rest_frame q E M) as (V & _). destruct (gamma_eq _ V) as (G & GE). set (v := velocity q) in *.
  assert (GN : gamma (neg3 v) = gamma v) by (unfold gamma, sqr3, dot3, neg3; cbn [x1 x2 x3]; rewrite !Rmult_opp_opp; reflexivity).
  assert (TV : threevec q = scale3 (y0 q) v) by (unfold v, velocity, div3, scale3, threevec; apply vec3_eq; cbn [x1 x2 x3]; field; lra).
  set (c := gamma v / (gamma v + 1) * (gamma v * (y0 q - dot3 (threevec q) (neg3 v)) + y0 q)).
  assert (C0 : 0 < c). { unfold c. apply Rmult_lt_0_compat; [apply Rdiv_lt_0_compat; lra|]. rewrite TV. unfold dot3, neg3, scale3. cbn [x1 x2 x3].
    replace (y0 q - (x1 v * y0 q * - x1 v + x2 v * y0 q * - x2 v + x3 v * y0 q * - x3 v)) with (y0 q * (1 + speed2 v)) by (unfold speed2; ring). assert (0 <= speed2 v) by (unfold speed2; nra).
    assert (0 < gamma v * (y0 q * (1 + speed2 v))) by (apply Rmult_lt_0_compat; [lra|]; apply Rmult_lt_0_compat; lra). lra. }
  exists (1 + c / y0 q). split; [assert (0 < c / y0 q) by (apply Rdiv_lt_0_compat; lra); lra|].
  unfold boost. rewrite GN. fold c. rewrite TV. unfold threevec at 1, mk4, sub3, scale3, neg3. apply vec3_eq; cbn [x1 x2 x3 y1 y2 y3]; field; lra.
Qed.
(** The spin stays orthogonal to the momentum in elastic scattering: not so, it is boosted again with the new momentum. *)
Theorem elastic_spin_orthogonal_refuted : exists w a b f a' b', colliding w a b 4 4 /\ draws_ok (f_angles f) /\ minkowski (s_spin a) (s_mom a) = 0 /\
  generate_final_state w true true Elastic [] zero4 a b f = Ok (Elastic, [a'; b']) /\ minkowski (s_spin a') (s_mom a') <> 0.
Proof.
  assert (G : forall s, let a := with_spin s ea in colliding ew a eb 4 4 /\ exists l, generate_final_state ew true true Elastic [] zero4 a eb ef = Ok (Elastic, l)).
  { intros s a. split; [exact e_colliding|]. destruct elastic_final_example as (l & E & _). unfold generate_final_state in *. cbn [final_cm] in *. change (elastic_scattering ew true true a eb (f_angles ef)) with
      ('(qa, qb) <- scatter_angles true true (kind_of ew 1) (kind_of ew 1) (kind_of ew 1) (kind_of ew 1) (s_mom ea) (s_mom eb) (effective_mass 4 (s_mom ea)) (effective_mass 4 (s_mom eb)) (effective_mass 4 (s_mom ea)) (effective_mass 4 (s_mom eb)) (sqrt (sqr4 (add4 (s_mom ea) (s_mom eb)))) (f_angles ef) ;; Ok [with_mom qa a; with_mom qb eb]).
    unfold elastic_scattering in E. change (pole ew (s_type ea)) with 4 in E. change (pole ew (s_type eb)) with 4 in E. change (s_type ea) with 1%Z in E. change (s_type eb) with 1%Z in E.
    destruct (scatter_angles _ _ _ _ _ _ _ _ _ _ _ _ _ _) as [[qa qb]| |]; [|discriminate|discriminate]. cbn [rbind]. eexists. reflexivity. }
  assert (D : draws_ok (f_angles ef)) by (unfold draws_ok; cbn; lra).
  assert (NB : forall q : vec4, boost (neg3 (velocity (add4 (V4 5 0 0 3) (V4 5 0 0 (-3))))) q = q).
  { intros q. replace (neg3 _) with (V3 0 0 0); [apply boost_none|]. unfold neg3, velocity, div3, scale3, threevec, add4. cbn [x1 x2 x3 y0 y1 y2 y3]. apply vec3_eq; cbn [x1 x2 x3]; field. }
  assert (K : forall s, y0 s = 0 -> forall l, generate_final_state ew true true Elastic [] zero4 (with_spin s ea) eb ef = Ok (Elastic, l) ->
    exists qa a' b' k, l = [a'; b'] /\ 0 < k /\ shell 4 qa /\ inner (threevec qa) (threevec qa) <> 0 /\ y3 qa = 0 /\ minkowski (s_spin a') (s_mom a') = - (k * inner (threevec s) (threevec qa)) /\
    exists qb, scatter_angles true true (Kind false false false 1 0) (Kind false false false 1 0) (Kind false false false 1 0) (Kind false false false 1 0) (V4 5 0 0 3) (V4 5 0 0 (-3)) 4 4 4 4 (cm_energy (V4 5 0 0 3) (V4 5 0 0 (-3))) (f_angles ef) = Ok (qa, qb)).
  { intros s S0 l H. destruct (elastic_spins _ _ _ _ _ _ _ _ _ _ (proj1 (G s)) D H) as (qa & qb & a' & b' & L & SA & SB & AD & SC & MA & SPA & _).
    assert (QM : 0 < minkowski qa qa) by (rewrite (proj1 SA); lra). assert (Q0 : 0 < y0 qa). { destruct SA as (S1 & [S2|S2]); auto. unfold minkowski in S1. rewrite <- S2 in S1. nra. }
    destruct (boost_more qa Q0 QM) as (k & K0 & KE). destruct (boost_to_rest_frame qa Q0 QM) as (V & _).
    exists qa, a', b', k. splits; auto.
    - intros Z. assert (E1 : y0 qa = 4). { destruct SA as (S1 & S2). unfold minkowski in S1. unfold inner, threevec in Z. cbn in Z. nra. }
      assert (E2 : y0 qb = 4). { assert (T : inner (threevec qb) (threevec qb) = 0). { pose proof (f_equal y1 AD) as A1. pose proof (f_equal y2 AD) as A2. pose proof (f_equal y3 AD) as A3. unfold add4 in A1, A2, A3. cbn in A1, A2, A3. unfold inner, threevec in *. cbn in *.
          replace (y1 qb) with (- y1 qa) by lra. replace (y2 qb) with (- y2 qa) by lra. replace (y3 qb) with (- y3 qa) by lra. lra. }
        destruct SB as (S1 & S2). unfold minkowski in S1. unfold inner, threevec in T. cbn in T. nra. }
      pose proof (f_equal y0 AD) as A0. change (s_mom (with_spin s ea)) with (s_mom ea) in A0. rewrite e_cm in A0. unfold add4 in A0. cbn in A0. lra.
    - destruct e_range as (t0 & t1 & TE & TT). pose proof (colliding_incoming _ _ _ _ _ e_colliding) as I.
      assert (EI : in_cm (s_mom ea) (s_mom eb) = V4 5 0 0 3).
      { unfold in_cm. replace (velocity _) with (V3 0 0 0); [apply boost_none|]. unfold velocity, div3, scale3, threevec. cbn. apply vec3_eq; cbn [x1 x2 x3]; field. }
      destruct (transfer_is_the_drawn_one true true (Kind false false false 1 0) (Kind false false false 1 0) (Kind false false false 1 0) (Kind false false false 1 0) (s_mom ea) (s_mom eb) 4 4 4 4 (f_angles ef) t0 t1 None) as (pa & pb & SA' & TR); auto; try lra.
      + rewrite e_cm. lra.
      + apply D.
      + apply D.
      + rewrite EI. split; [cbn; intros Q; injection Q; lra|]. left. cbn. auto.
      + discriminate.
      + assert (EE : Ok (qa, qb) = Ok (pa, pb)) by (rewrite <- SC; exact SA'). assert (qa = pa) as -> by congruence. rewrite EI in TR. unfold inner, threevec in TR. cbn in TR. lra.
    - rewrite SPA, MA. change (s_mom (with_spin s ea)) with (V4 5 0 0 3). change (s_mom eb) with (V4 5 0 0 (-3)). rewrite NB. change (s_spin (with_spin s ea)) with s.
      rewrite <- (boost_preserves_product (neg3 (velocity qa))) by (unfold speed2, neg3 in *; cbn [x1 x2 x3] in *; lra). rewrite boost_inverse by auto.
      transitivity (y0 s * y0 (boost (neg3 (velocity qa)) qa) - inner (threevec s) (threevec (boost (neg3 (velocity qa)) qa))); [unfold minkowski, inner, threevec; cbn [x1 x2 x3]; ring|].
      rewrite KE, S0. unfold inner, scale3. cbn [x1 x2 x3]. ring.
    - exists qb. exact SC. }
  destruct (G (V4 0 1 0 0)) as (C1 & l1 & H1). destruct (G (V4 0 0 1 0)) as (C2 & l2 & H2).
  destruct (K (V4 0 1 0 0) eq_refl l1 H1) as (q1 & a1 & b1 & k1 & -> & K1 & S1 & N1 & Z1 & E1 & qb1 & SC1). destruct (K (V4 0 0 1 0) eq_refl l2 H2) as (q2 & a2 & b2 & k2 & -> & K2 & S2 & N2 & Z2 & E2 & qb2 & SC2).
  assert (q2 = q1) as -> by congruence. destruct (Req_dec (y1 q1) 0) as [Y|Y].
  - exists ew, (with_spin (V4 0 0 1 0) ea), eb, ef, a2, b2. splits; auto; [unfold minkowski; cbn; ring|]. rewrite E2. unfold inner, threevec in *. cbn in *. intros Q. assert (k2 * y2 q1 = 0) by lra. apply Rmult_integral in H as [H|H]; [lra|]. apply N1. rewrite Y, Z1, H. ring.
  - exists ew, (with_spin (V4 0 1 0 0) ea), eb, ef, a1, b1. splits; auto; [unfold minkowski; cbn; ring|]. rewrite E1. unfold inner, threevec in *. cbn in *. intros Q. assert (k1 * y1 q1 = 0) by lra. apply Rmult_integral in H as [H|H]; lra.
Qed.
Print Assumptions elastic_spin_orthogonal_refuted.
