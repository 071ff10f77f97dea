(** C102: dilepton shining weights. C103: kinematics of Dalitz decays. Exact real arithmetic. *)
From Coq Require Import ZArith Reals List Bool Lia Lra Psatz Permutation.
From Verif Require Import Base VecModel VecProps KinProps MotionModel FinalProps WidthModel DecayFindModel DecayFindProps DileptonModel.
Import ListNotations.
Open Scope R_scope.

(** ** Shining during the evolution *)
(** The width for decays into the dilepton modes selected by [g], at the mass of the particle. *)
Definition dilepton_width (g : mode -> bool) (t : ptype) (p : vec4) : R :=
  rsum (map (partial_width t (mass4 p)) (filter (fun d => dilepton d && g d) (tmodes t))).
(** The weights of the selected modes in the output. *)
Definition shone (g : mode -> bool) (out : list (mode * R)) : R := rsum (map snd (filter (fun d => g (fst d)) out)).
(** A resonance that can decay hadronically at its mass. *)
Definition resonance (t : ptype) (p : vec4) : Prop :=
  is_stable t = false /\ exists d, In d (tmodes t) /\ dilepton d = false /\ 0 < partial_width t (mass4 p) d.
(** What a particle shines in consecutive steps: after each step, with its length. *)
Fixpoint shone_along (g : mode -> bool) (power : R) (t : ptype) (p : particle) (steps : list R) : R :=
  match steps with
  | [] => 0
  | dt :: steps' => shone g (shine_one power dt t false (later dt p)) + shone_along g power t (later dt p) steps'
  end.

Lemma shone_filter (g : mode -> bool) l : shone g (filter (fun d : mode * R => rltb 0 (snd d)) l) = rsum (map (fun d : mode * R => if g (fst d) then Rmax 0 (snd d) else 0) l).
Proof.
  unfold shone, rsum. induction l as [|d l IH]; cbn [filter map fold_right]; auto.
  destruct (rltb 0 (snd d)) eqn:E; cbn [filter]; destruct (g (fst d)); cbn [map fold_right]; rewrite IH.
  - apply rltb_spec in E. rewrite Rmax_right by lra. reflexivity.
  - ring.
  - apply rltb_false in E. rewrite Rmax_left by lra. ring.
  - ring.
Qed.
Lemma widths_sum (g : mode -> bool) t p wh : nonneg_widths t p -> rsum (map (fun d : mode * R => if g (fst d) then snd d else 0) (get_partial_widths t p wh)) =
  rsum (map (partial_width t (mass4 p)) (filter (fun d => wanted wh d && g d) (tmodes t))).
Proof.
  intros N. unfold get_partial_widths. rewrite mass4_eq. unfold nonneg_widths in N. unfold rsum. induction (tmodes t) as [|d l IH]; auto.
  cbn [filter]. assert (N' : forall d, In d l -> 0 <= partial_width t (mass4 p) d) by (intros; apply N; now right). specialize (IH N').
  assert (D := N d (or_introl eq_refl)).
  destruct (rltb 0 (partial_width t (mass4 p) d)) eqn:E; destruct (wanted wh d); cbn [andb map filter fold_right fst snd].
  - destruct (g d); cbn [map fold_right]; rewrite IH; ring.
  - exact IH.
  - apply rltb_false in E. destruct (g d); cbn [map fold_right]; rewrite IH; lra.
  - exact IH.
Qed.
Lemma widths_pos t p wh : Forall (fun d => 0 < snd d) (get_partial_widths t p wh).
Proof.
  unfold get_partial_widths. apply Forall_forall. intros d D. apply in_map_iff in D. destruct D as (m & <- & M). apply filter_In in M.
  destruct M as [_ M]. apply andb_prop in M. destruct M as [M _]. cbn [snd]. now apply rltb_spec.
Qed.
Lemma resonance_shines power dt t p : resonance t (mom p) ->
  shine_one power dt t false p = filter (fun d => rltb 0 (snd d))
    (map (fun d => (fst d, dt * inverse_gamma p * snd d * xsec_scaling_factor power p 0 / hbarc)) (get_partial_widths t (mom p) Dileptons)).
Proof.
  intros (ST & d & D & DL & W). unfold shine_one. rewrite ST.
  assert (L : (length (get_partial_widths t (mom p) Dileptons) < length (get_partial_widths t (mom p) All))%nat).
  { unfold get_partial_widths. rewrite !map_length, mass4_eq. clear ST. induction (tmodes t) as [|e l IH]; [easy|]. cbn [filter].
    assert (LE : (length (filter (fun d => rltb 0 (partial_width t (mass4 (mom p)) d) && wanted Dileptons d) l) <=
                  length (filter (fun d => rltb 0 (partial_width t (mass4 (mom p)) d) && wanted All d) l))%nat).
    { clear. induction l as [|e l IH]; auto. cbn [filter wanted] in *. destruct (rltb 0 _), (dilepton e); cbn [andb length]; lia. }
    destruct D as [->|D].
    - cbn [wanted] in *. apply rltb_spec in W. rewrite W, DL. cbn [andb length]. lia.
    - specialize (IH D). cbn [wanted] in *. destruct (rltb 0 (partial_width t (mass4 (mom p)) e)), (dilepton e); cbn [andb length]; lia. }
  destruct (Nat.eqb_spec (length (get_partial_widths t (mom p) All)) 0) as [Z|_]; [lia|].
  destruct (Nat.eqb_spec (length (get_partial_widths t (mom p) Dileptons)) (length (get_partial_widths t (mom p) All))) as [Z|_]; [lia|]. reflexivity.
Qed.
Lemma hbarc_pos : 0 < hbarc.
Proof. unfold hbarc. lra. Qed.
(** The weights written after one step: time in the rest frame of the particle times the partial width, reduced
    by the factor of an unformed hadron. *)
Theorem shining_weight g power dt t p : 0 <= dt -> massive p -> forming p -> nonneg_widths t (mom p) -> resonance t (mom p) ->
  shone g (shine_one power dt t false p) =
  dt * (mass4 (mom p) / y0 (mom p)) * dilepton_width g t (mom p) / hbarc * factor_at power p (y0 (pos p)).
Proof.
  intros T M F N RS. rewrite (resonance_shines power dt t p RS), shone_filter, map_map. cbn [fst snd].
  destruct (inverse_gamma_eq p M) as [-> MP]. pose proof hbarc_pos as HB.
  assert (FA : 0 <= factor_at power p (y0 (pos p))). { destruct (scaling_factor_grows power p (y0 (pos p)) (y0 (pos p)) F (Rle_refl _)) as [X _]. destruct F. lra. }
  assert (FE : xsec_scaling_factor power p 0 = factor_at power p (y0 (pos p))). { unfold factor_at. f_equal. ring. }
  rewrite FE. set (c := factor_at power p (y0 (pos p))) in *. destruct M as [E _].
  assert (G : 0 < mass4 (mom p) / y0 (mom p)) by now apply Rdiv_lt_0_compat. set (i := mass4 (mom p) / y0 (mom p)) in *.
  unfold dilepton_width. replace (filter (fun d => dilepton d && g d) (tmodes t)) with (filter (fun d => wanted Dileptons d && g d) (tmodes t)) by reflexivity.
  rewrite <- (widths_sum g t (mom p) Dileptons N). pose proof (widths_pos t (mom p) Dileptons) as WP.
  clearbody c i. unfold rsum. induction WP as [|d l D WP IH]; cbn [map fold_right]; [unfold Rdiv; ring|]. rewrite IH.
  destruct (g (fst d)); [|unfold Rdiv; ring]. rewrite Rmax_right; [unfold Rdiv; ring|].
  unfold Rdiv. repeat apply Rmult_le_pos; try lra. left. now apply Rinv_0_lt_compat.
Qed.
Print Assumptions shining_weight.
Lemma later_mom s p : mom (later s p) = mom p.
Proof. reflexivity. Qed.
Lemma later_forming s p : forming p -> forming (later s p).
Proof. auto. Qed.
(** Once formed, what a resonance shines in a time does not depend on how that time is divided into steps: it is
    the time in its rest frame times the partial width. In particular it is the branching ratio times the lifetime
    factor for a particle living for its mean life. *)
Theorem shining_independent_of_steps g power f t : forall steps p, Forall (fun dt => 0 <= dt) steps ->
  massive p -> forming p -> nonneg_widths t (mom p) -> resonance t (mom p) -> form_time p <= y0 (pos p) ->
  shone_along g power t p steps = rsum steps * (mass4 (mom p) / y0 (mom p)) * dilepton_width g t (mom p) / hbarc /\
  (rsum steps = mean_life f t (mom p) -> shone_along g power t p steps = life f * (dilepton_width g t (mom p) / hadronic_width t (mom p))).
Proof.
  intros steps p S M F N RS FT.
  assert (A : shone_along g power t p steps = rsum steps * (mass4 (mom p) / y0 (mom p)) * dilepton_width g t (mom p) / hbarc).
  { revert p M F N RS FT. induction S as [|dt steps DT S IH]; intros p M F N RS FT; cbn [shone_along].
    - unfold rsum. cbn. unfold Rdiv. ring.
    - rewrite (shining_weight g power dt t (later dt p) DT M F N RS), later_mom.
      rewrite IH; auto; [|cbn; lra]. destruct (scaling_factor_grows power (later dt p) (y0 (pos (later dt p))) (y0 (pos (later dt p))) F (Rle_refl _)) as (_ & _ & ONE & _).
      rewrite ONE by (cbn; lra). rewrite later_mom. unfold rsum. cbn [fold_right]. unfold Rdiv. ring. }
  split; auto. intros ML. rewrite A, ML. unfold mean_life. destruct (inverse_gamma_eq p M) as [_ MP]. destruct M as [E _]. pose proof hbarc_pos.
  destruct (Req_dec (hadronic_width t (mom p)) 0) as [Z|Z]; [|field; lra].
  exfalso. destruct RS as (_ & d & D & DL & W). unfold hadronic_width in Z.
  assert (0 < rsum (map (partial_width t (mass4 (mom p))) (filter (fun d => negb (dilepton d)) (tmodes t)))); [|lra].
  clear Z A. unfold nonneg_widths in N. induction (tmodes t) as [|e l IH]; [easy|]. cbn [filter].
  assert (NN : 0 <= rsum (map (partial_width t (mass4 (mom p))) (filter (fun d => negb (dilepton d)) l))).
  { clear -N. induction l as [|x l IH]; cbn [filter map rsum fold_right]; [unfold rsum; cbn; lra|].
    assert (0 <= rsum (map (partial_width t (mass4 (mom p))) (filter (fun d => negb (dilepton d)) l))) by (apply IH; intros y [->|Y]; apply N; cbn; auto).
    destruct (negb (dilepton x)); auto. unfold rsum. cbn [map fold_right]. fold (rsum (map (partial_width t (mass4 (mom p))) (filter (fun d => negb (dilepton d)) l))).
    pose proof (N x ltac:(cbn; auto)). lra. }
  destruct D as [->|D].
  - rewrite DL. cbn [negb]. unfold rsum. cbn [map fold_right]. fold (rsum (map (partial_width t (mass4 (mom p))) (filter (fun d => negb (dilepton d)) l))). lra.
  - assert (I := IH (fun d H => N d (or_intror H)) D). pose proof (N e (or_introl eq_refl)). destruct (negb (dilepton e)); auto.
    unfold rsum. cbn [map fold_right]. fold (rsum (map (partial_width t (mass4 (mom p))) (filter (fun d => negb (dilepton d)) l))). lra.
Qed.
Print Assumptions shining_independent_of_steps.

(** While a hadron forms, the factor at the end of a step is used for the whole step, so the weights depend on
    how the time is divided into steps. *)
Definition dil_mode : mode := Mode 0 (1 / 100) true (fun _ w _ => w) [].
Definition had_mode : mode := Mode 0 1 false (fun _ w _ => w) [].
Definition rho : ptype := PType 1 1 [had_mode; dil_mode].
Definition a_rho : particle := Part (V4 0 0 0 0) (V4 1 0 0 0) 1 1 1 1 0 0.
Lemma rho_width p d : 0 <= mass4 p -> In d (tmodes rho) -> partial_width rho (mass4 p) d = ratio d.
Proof. intros M D. unfold partial_width. destruct D as [<-|[<-|[]]]; cbn [thr wfun ratio had_mode dil_mode twidth rho]; destruct (Rlt_dec _ _); lra. Qed.
Lemma mass4_nonneg p : 0 <= mass4 p.
Proof. apply sqrt_pos. Qed.
Lemma rho_nonneg p : nonneg_widths rho p.
Proof. intros d D. rewrite rho_width by (auto using mass4_nonneg). destruct D as [<-|[<-|[]]]; cbn; lra. Qed.
Lemma rho_unstable : is_stable rho = false.
Proof. unfold is_stable, rltb, width_cutoff. cbn [twidth rho]. destruct (Rlt_dec _ _); auto. lra. Qed.
Lemma rho_resonance p : resonance rho p.
Proof. split; [apply rho_unstable|]. exists had_mode. splits; auto; [now left|]. rewrite rho_width by (auto using mass4_nonneg; now left). cbn. lra. Qed.
Lemma rho_dilepton p : dilepton_width (fun _ => true) rho p = 1 / 100.
Proof. unfold dilepton_width. cbn [tmodes rho filter had_mode dil_mode dilepton andb map rsum fold_right]. rewrite rho_width by (auto using mass4_nonneg; cbn; auto). cbn. lra. Qed.
Theorem shining_of_unformed_refuted : exists power t p s1 s2,
  Forall (fun dt => 0 < dt) s1 /\ Forall (fun dt => 0 < dt) s2 /\ rsum s1 = rsum s2 /\
  massive p /\ forming p /\ nonneg_widths t (mom p) /\ resonance t (mom p) /\
  shone_along (fun _ => true) power t p s1 <> shone_along (fun _ => true) power t p s2.
Proof.
  exists 1, rho, a_rho, [1], [1 / 2; 1 / 2]. assert (MA : massive a_rho) by (unfold massive, minkowski; cbn; lra). assert (FO : forming a_rho) by (unfold forming; cbn; lra).
  splits; auto; try (repeat constructor; lra); try (unfold rsum; cbn; lra); [apply rho_nonneg|apply rho_resonance|].
  cbn [shone_along]. rewrite !shining_weight by (try lra; auto; try apply rho_nonneg; try apply rho_resonance). rewrite !later_mom, !rho_dilepton.
  assert (M1 : mass4 (mom a_rho) = 1). { unfold mass4, minkowski. cbn. replace (1 * 1 - (0 * 0 + 0 * 0 + 0 * 0)) with 1 by ring. apply sqrt_1. }
  rewrite M1. pose proof hbarc_pos as H.
  assert (ONE : forall p, forming p -> form_time p <= y0 (pos p) -> factor_at 1 p (y0 (pos p)) = 1).
  { intros p F T. apply (scaling_factor_grows 1 p (y0 (pos p)) (y0 (pos p)) F (Rle_refl _)); auto. }
  rewrite (ONE (later 1 a_rho)), (ONE (later (1 / 2) (later (1 / 2) a_rho))) by (auto; cbn; lra).
  assert (HALF : factor_at 1 (later (1 / 2) a_rho) (y0 (pos (later (1 / 2) a_rho))) = 1 / 2).
  { unfold factor_at, xsec_scaling_factor, later, set_pos, a_rho. cbn [pos mom y0 y1 y2 y3 form_time begin_form scaling].
    destruct (Rle_dec 1 0); [lra|]. destruct (Rle_dec 1 _); [lra|]. destruct (Rle_dec _ 0); [lra|]. rewrite Rpower_1 by lra. field. }
  rewrite HALF. cbn [mom a_rho y0 later set_pos]. intros Q.
  assert (X : 0 < 1 / 100 / hbarc) by (apply Rdiv_lt_0_compat; lra). set (z := 1 / 100 / hbarc) in *.
  assert (Q' : 1 * (1 / 1) * (1 / 100) / hbarc * 1 + 0 = z). { unfold z. field. lra. }
  rewrite Q' in Q. assert (Q2 : 1 / 2 * (1 / 1) * (1 / 100) / hbarc = z / 2) by (unfold z; field; lra). rewrite Q2 in Q. lra.
Qed.
Print Assumptions shining_of_unformed_refuted.
Example shining_hypotheses : massive a_rho /\ forming (later 2 a_rho) /\ nonneg_widths rho (mom a_rho) /\ resonance rho (mom a_rho) /\
  form_time (later 2 a_rho) <= y0 (pos (later 2 a_rho)) /\ dilepton_width (fun _ => true) rho (mom a_rho) = 1 / 100.
Proof. splits; [unfold massive, minkowski; cbn; lra|unfold forming; cbn; lra|apply rho_nonneg|apply rho_resonance|cbn; lra|apply rho_dilepton]. Qed.

(** ** Shining at the end *)
(** Every weight written at the end is the branching fraction of the mode at the mass of the particle, a number in
    (0, 1], and those of all dilepton modes add up to at most 1. Nothing is divided by zero. *)
Theorem final_weight_is_branching_fraction only_res t p : nonneg_widths t p ->
  let total := rsum (map (partial_width t (mass4 p)) (tmodes t)) in
  Forall (fun d => In (fst d) (tmodes t) /\ dilepton (fst d) = true /\ 0 < total /\ snd d = partial_width t (mass4 p) (fst d) / total /\ 0 < snd d <= 1)
    (shine_final_one only_res t p) /\
  rsum (map snd (shine_final_one only_res t p)) <= 1 /\
  (only_res = false \/ is_stable t = false ->
   forall d, In d (tmodes t) -> dilepton d = true -> 0 < partial_width t (mass4 p) d ->
   In (d, partial_width t (mass4 p) d / total) (shine_final_one only_res t p)).
Proof.
  intros N total.
  assert (TE : total_weight (get_partial_widths t p All) = total).
  { unfold total_weight. rewrite fold_plus, Rplus_0_l. transitivity (rsum (map (fun d : mode * R => if (fun _ : mode => true) (fst d) then snd d else 0) (get_partial_widths t p All))).
    - reflexivity.
    - rewrite (widths_sum (fun _ => true) t p All N). unfold total. f_equal. f_equal. clear. induction (tmodes t) as [|d l IH]; cbn [filter wanted andb]; [auto|now rewrite IH at 1]. }
  assert (BIG : forall d, In d (tmodes t) -> partial_width t (mass4 p) d <= total).
  { unfold total. unfold nonneg_widths in N. clear TE. induction (tmodes t) as [|e l IH]; intros d D; [easy|]. unfold rsum. cbn [map fold_right]. fold (rsum (map (partial_width t (mass4 p)) l)).
    assert (N' : forall d, In d l -> 0 <= partial_width t (mass4 p) d) by (intros; apply N; now right). specialize (IH N').
    assert (0 <= rsum (map (partial_width t (mass4 p)) l)). { clear -N'. induction l as [|x l IH]; unfold rsum; cbn [map fold_right]; [lra|]. fold (rsum (map (partial_width t (mass4 p)) l)). pose proof (N' x (or_introl eq_refl)). pose proof (IH (fun d H => N' d (or_intror H))). lra. }
    pose proof (N e (or_introl eq_refl)). destruct D as [->|D]; [lra|]. specialize (IH d D). lra. }
  assert (T0 : 0 <= total). { unfold total. unfold nonneg_widths in N. clear -N. induction (tmodes t) as [|x l IH]; unfold rsum; cbn [map fold_right]; [lra|]. fold (rsum (map (partial_width t (mass4 p)) l)). pose proof (N x (or_introl eq_refl)). pose proof (IH (fun d H => N d (or_intror H))). lra. }
  unfold shine_final_one. rewrite TE.
  assert (ALL : Forall (fun d : mode * R => In (fst d) (tmodes t) /\ dilepton (fst d) = true /\ snd d = partial_width t (mass4 p) (fst d) /\ 0 < snd d) (get_partial_widths t p Dileptons)).
  { apply Forall_forall. intros d D. unfold get_partial_widths in D. rewrite mass4_eq in D. apply in_map_iff in D. destruct D as (m & <- & D).
    apply filter_In in D. destruct D as [D1 D2]. apply andb_prop in D2. destruct D2 as [D2 D3]. cbn [fst snd]. apply rltb_spec in D2. auto. }
  destruct ((match tmodes t with [] => true | _ => false end) || (only_res && is_stable t)) eqn:GUARD.
  - splits; [constructor|cbn; lra|]. intros H d D. apply orb_prop in GUARD. destruct GUARD as [G|G].
    + destruct (tmodes t); [easy|discriminate].
    + apply andb_prop in G. destruct G as [-> G]. destruct H; congruence.
  - assert (SUM : rsum (map snd (filter (fun d : mode * R => rltb 0 (snd d)) (map (fun d : mode * R => (fst d, snd d / total)) (get_partial_widths t p Dileptons)))) <= 1).
    { pose proof (shone_filter (fun _ => true) (map (fun d : mode * R => (fst d, snd d / total)) (get_partial_widths t p Dileptons))) as Q.
      unfold shone in Q. rewrite map_map in Q. cbn [fst snd] in Q.
      assert (ID : forall l : list (mode * R), filter (fun _ => true) l = l) by (induction l; cbn; congruence). rewrite ID in Q. rewrite Q. clear Q.
      destruct (Req_dec total 0) as [Z|Z].
      - assert (E : get_partial_widths t p Dileptons = []). { destruct (get_partial_widths t p Dileptons) as [|d l]; auto. inversion ALL as [|? ? (A1 & _ & A2 & A3)]. subst. pose proof (BIG _ A1). lra. }
        rewrite E. cbn. lra.
      - assert (P : 0 < total) by lra. apply Rle_trans with (rsum (map (fun d : mode * R => if (fun _ : mode => true) (fst d) then snd d else 0) (get_partial_widths t p Dileptons)) / total).
        + right. clear BIG. induction ALL as [|d l (_ & _ & _ & A) ALL IH]; unfold rsum; cbn [map fold_right]; [unfold Rdiv; ring|].
          unfold rsum in IH. rewrite IH. rewrite Rmax_right by (left; now apply Rdiv_lt_0_compat). unfold Rdiv. ring.
        + rewrite (widths_sum (fun _ => true) t p Dileptons N). apply (Rmult_le_reg_r total); auto. unfold Rdiv. rewrite Rmult_assoc, Rinv_l, Rmult_1_l, Rmult_1_r by lra.
          unfold total. unfold nonneg_widths in N. clear -N. induction (tmodes t) as [|x l IH]; [cbn; lra|]. assert (I := IH (fun d H => N d (or_intror H))). pose proof (N x (or_introl eq_refl)).
          cbn [filter wanted] in *. destruct (dilepton x); cbn [andb map]; unfold rsum in *; cbn [fold_right]; lra. }
    splits; auto.
    + apply Forall_forall. intros d D. apply filter_In in D. destruct D as [D1 D2]. apply rltb_spec in D2. apply in_map_iff in D1. destruct D1 as (m & <- & D1).
      rewrite Forall_forall in ALL. destruct (ALL m D1) as (A1 & A2 & A3 & A4). cbn [fst snd] in *. pose proof (BIG _ A1) as B. rewrite <- A3 in B.
      assert (0 < total) by lra. splits; auto; [now rewrite A3|]. apply (Rmult_le_reg_r total); auto. unfold Rdiv. rewrite Rmult_assoc, Rinv_l by lra. lra.
    + intros _ d D DD W. apply filter_In. split; [|cbn [snd]; apply rltb_spec; apply Rdiv_lt_0_compat; auto; pose proof (BIG _ D); lra].
      apply in_map_iff. exists (d, partial_width t (mass4 p) d). split; auto. unfold get_partial_widths. rewrite mass4_eq. apply in_map_iff. exists d. split; auto.
      apply filter_In. split; auto. cbn [wanted]. rewrite DD, andb_true_r. now apply rltb_spec.
Qed.
Print Assumptions final_weight_is_branching_fraction.
Example final_weight_hypotheses : nonneg_widths rho (V4 1 0 0 0) /\ exists d, In d (tmodes rho) /\ dilepton d = true /\ 0 < partial_width rho (mass4 (V4 1 0 0 0)) d.
Proof.
  split; [apply rho_nonneg|]. exists dil_mode. splits; [cbn; auto|auto|]. rewrite rho_width; [cbn; lra|apply mass4_nonneg|cbn; auto].
Qed.

(** *** Once for every particle *)
(** Everything that existed between the end of the evolution and the end of the event: the particles at the end
    of the evolution and all products of the final decays. *)
Fixpoint products (f : dfinder) (tab : nat -> ptype) (dr : nat -> draw) (i : nat) (ps : list fpart) : list fpart :=
  match ps with
  | [] => []
  | p :: r => (if finds_final f (tab (pty p)) then match decay tab p (dr i) with Ok out => out | _ => [] end else []) ++ products f tab dr (S i) r
  end.
Fixpoint ever (f : dfinder) (tab : nat -> ptype) (dr : nat -> nat -> draw) (k fuel : nat) (ps : list fpart) : list fpart :=
  match fuel with
  | O => ps
  | S fuel' => match pass f tab (dr k) 0 ps with
               | Ok (ps', n) => if (n =? 0)%nat then ps else filter (fun p => finds_final f (tab (pty p))) ps ++ ever f tab dr (S k) fuel' ps'
               | _ => ps
               end
  end.
Definition shines (x : fpart * list (mode * R)) : bool := match snd x with [] => false | _ => true end.
(** The particle with its dilepton branching fractions. *)
Definition with_fractions (tab : nat -> ptype) (p : fpart) : fpart * list (mode * R) := (p, shine_final_one false (tab (pty p)) (pmom p)).

Lemma pass_products f tab dr : forall ps i ps' n, pass f tab dr i ps = Ok (ps', n) -> Permutation ps' (filter (kept f tab) ps ++ products f tab dr i ps).
Proof.
  induction ps as [|p ps IH]; intros i ps' n H; cbn [pass] in H.
  - assert (ps' = []) by congruence. subst. constructor.
  - cbn [filter products]. unfold kept at 1. destruct (finds_final f (tab (pty p))) eqn:E; cbn [negb].
    + destruct (decay _ _ _) as [out| |] eqn:D; cbn in H; try discriminate. destruct (pass f tab dr (S i) ps) as [[rest m]| |] eqn:P; cbn in H; try discriminate.
      assert (ps' = out ++ rest) by congruence. subst. rewrite (IH _ _ _ P). rewrite !app_assoc. apply Permutation_app_tail. apply Permutation_app_comm.
    + destruct (pass f tab dr (S i) ps) as [[rest m]| |] eqn:P; cbn in H; try discriminate.
      assert (ps' = p :: rest) by congruence. subst. cbn [app]. constructor. rewrite (IH _ _ _ P). cbn. reflexivity.
Qed.
(** What has ever existed is the initial particles and the products of all passes (the definition of [ever]
    counts every particle once, in the pass in which it decays or at the end). *)
Theorem ever_counts_once f tab dr : forall fuel k ps ps', final_loop f tab dr k fuel ps = Some (Ok ps') ->
  exists created : list (list fpart), Permutation (ever f tab dr k fuel ps) (ps ++ concat created) /\
  Forall (fun l => exists k' ps0, l = products f tab (dr k') 0 ps0) created.
Proof.
  induction fuel as [|fuel IH]; intros k ps ps' H; [discriminate|]. cbn [final_loop ever] in *.
  destruct (pass f tab (dr k) 0 ps) as [[q n]| |] eqn:P; try discriminate. destruct (Nat.eqb_spec n 0) as [->|N].
  - exists []. cbn. rewrite app_nil_r. auto.
  - destruct (IH _ _ _ H) as (cr & PE & FO). exists (products f tab (dr k) 0 ps :: cr). split; [|constructor; eauto].
    rewrite PE. cbn [concat]. rewrite (pass_products _ _ _ _ _ _ _ P). rewrite !app_assoc. repeat apply Permutation_app_tail.
    clear. induction ps as [|p ps IH]; cbn [filter]; auto. unfold kept at 1. destruct (finds_final f (tab (pty p))); cbn [negb app].
    + now constructor.
    + rewrite <- Permutation_middle. now constructor.
Qed.
Print Assumptions ever_counts_once.
Lemma shine_true f tab p : final_decays f = true -> non_strong f = false ->
  shine_final_one true (tab (pty p)) (pmom p) = if finds_final f (tab (pty p)) then shine_final_one false (tab (pty p)) (pmom p) else [].
Proof.
  intros F N. unfold finds_final. rewrite F, N. cbn [negb andb]. unfold shine_final_one. destruct (tmodes (tab (pty p))); cbn [negb andb orb].
  - now rewrite andb_false_r.
  - rewrite andb_true_r. destruct (is_stable (tab (pty p))); reflexivity.
Qed.
Lemma shine_true_list f tab ps : final_decays f = true -> non_strong f = false ->
  filter shines (shine_list true tab ps) = filter shines (map (with_fractions tab) (filter (fun p => finds_final f (tab (pty p))) ps)).
Proof.
  intros F N. induction ps as [|p ps IH]; auto. unfold shine_list in *. cbn [map filter]. rewrite (shine_true f tab p F N).
  destruct (finds_final f (tab (pty p))); cbn [map filter].
  - unfold with_fractions at 1. now rewrite IH.
  - cbn [shines snd]. exact IH.
Qed.
Lemma filter_app' {A} (g : A -> bool) a b : filter g (a ++ b) = filter g a ++ filter g b.
Proof. induction a as [|x a IH]; cbn; auto. destruct (g x); cbn; congruence. Qed.
Lemma perm_filter {A} (g : A -> bool) a b : Permutation a b -> Permutation (filter g a) (filter g b).
Proof. induction 1; cbn; try destruct (g x); try destruct (g y); try constructor; eauto using perm_trans. Qed.
(** With decays forced at the end (the default), every particle that can shine does so exactly once, with its
    branching fractions: resonances before they decay, stable particles at the very end. *)
Theorem everything_shines_once f tab dr fuel ps q s : final_decays f = true -> non_strong f = false ->
  shine_event f tab dr fuel ps = Some (Ok (q, s)) ->
  final_loop f tab dr 0 fuel ps = Some (Ok q) /\
  Permutation (filter shines s) (filter shines (map (with_fractions tab) (ever f tab dr 0 fuel ps))).
Proof.
  intros F N H. unfold shine_event in H. destruct (shine_loop f tab dr 0 fuel ps) as [[[q' s']| |]|] eqn:L; try discriminate.
  assert (q' = q /\ s = s' ++ shine_list false tab q') as [-> ->] by (split; congruence). clear H.
  revert L. generalize 0%nat as k. revert ps s'. induction fuel as [|fuel IH]; intros ps s k L; [discriminate|].
  cbn [shine_loop final_loop ever] in *. destruct (pass f tab (dr k) 0 ps) as [[ps' n]| |] eqn:P; try discriminate.
  destruct (Nat.eqb_spec n 0) as [->|NZ].
  - assert (ps' = q /\ s = shine_list true tab ps) as [-> ->] by (split; congruence). split; auto.
    destruct (pass_none _ _ _ _ _ _ _ P eq_refl) as [-> FS]. rewrite filter_app', (shine_true_list f tab ps F N).
    assert (E : filter (fun p => finds_final f (tab (pty p))) ps = []).
    { clear -FS. induction FS as [|p l A FS IH]; auto. cbn [filter]. apply finds_final_spec in A. now rewrite A. }
    rewrite E. cbn. reflexivity.
  - destruct (shine_loop f tab dr (S k) fuel ps') as [[[q0 s0]| |]|] eqn:L'; try discriminate.
    assert (q0 = q /\ s = shine_list true tab ps ++ s0) as [-> ->] by (split; congruence).
    destruct (IH _ _ _ L') as [A B]. split; auto. rewrite <- app_assoc, filter_app', B, map_app, filter_app'.
    apply Permutation_app_tail. now rewrite (shine_true_list f tab ps F N).
Qed.
Print Assumptions everything_shines_once.
(** Without forced decays at the end a resonance left over shines twice: once in the single pass of the loop and
    again when the particles left at the end shine. *)
Theorem unforced_shines_twice_refuted : exists f tab dr p s1 s2, final_decays f = false /\
  shine_event f tab dr 1 [p] = Some (Ok ([p], [(p, s1); (p, s2)])) /\ shines (p, s1) = true /\ s1 = s2.
Proof.
  set (p := FPart 0 (V4 1 0 0 0)). set (w := shine_final_one false rho (V4 1 0 0 0)).
  exists (DFinder 1 true false false 1), (fun _ => rho), (fun _ _ => Draw 0 []), p, w, w.
  assert (TF : shine_final_one true rho (V4 1 0 0 0) = w) by (unfold w, shine_final_one; rewrite rho_unstable; reflexivity).
  splits; auto.
  - unfold shine_event, shine_loop, shine_list. cbn [pass map pty p finds_final final_decays andb pmom rbind Nat.eqb app]. rewrite TF. reflexivity.
  - destruct (final_weight_is_branching_fraction false rho (V4 1 0 0 0) (rho_nonneg _)) as (_ & _ & IN).
    assert (I : In (dil_mode, partial_width rho (mass4 (V4 1 0 0 0)) dil_mode / rsum (map (partial_width rho (mass4 (V4 1 0 0 0))) (tmodes rho))) w).
    { apply IN; auto; [cbn; auto|]. rewrite rho_width; [cbn; lra|apply mass4_nonneg|cbn; auto]. }
    unfold shines. cbn [snd]. destruct w; [easy|reflexivity].
Qed.
Print Assumptions unforced_shines_twice_refuted.

(** ** Dalitz decays *)
Lemma scale_neg k u : scale3 k (neg3 u) = scale3 (- k) u.
Proof. unfold scale3, neg3. cbn [x1 x2 x3]. f_equal; ring. Qed.
Lemma on_shell_energy m k u : unit u -> on_shell m (scale3 k u) = mk4 (energy m k) (scale3 k u).
Proof. intros U. unfold on_shell, energy. now rewrite dot_scale. Qed.
Lemma place_nth i a b c : (i < 3)%nat -> nth i (place i a b c) zero4 = a /\ nth (Nat.modulo (i + 1) 3) (place i a b c) zero4 = b /\
  nth (Nat.modulo (i + 2) 3) (place i a b c) zero4 = c /\ length (place i a b c) = 3%nat /\ sum4 (place i a b c) = add4 a (add4 b c).
Proof.
  intros I. destruct i as [|[|[|i]]]; [| | |lia]; cbn; splits; auto; apply vec4_eq; unfold add4, zero4; cbn [y0 y1 y2 y3]; ring.
Qed.
Theorem dalitz_kinematics out M x n1 n2 i : length out = 3%nat ->
  (i < 3)%nat -> lepton (nth i out (Prod true 0)) = false -> (forall j, (j < i)%nat -> lepton (nth j out (Prod true 0)) = true) ->
  (forall j, 0 <= pole (nth j out (Prod true 0))) ->
  let m := fun j => pole (nth j out (Prod true 0)) in let a := Nat.modulo (i + 1) 3 in let b := Nat.modulo (i + 2) 3 in
  0 < m a + m b -> m 0%nat + m 1%nat + m 2%nat <= M -> 0 <= x <= 1 -> unit n1 -> unit n2 ->
  exists dm ps, dalitz out M x n1 n2 = Ok (dm, ps) /\ length ps = 3%nat /\
    (** energy and momentum are conserved, every product is on its mass shell *)
    sum4 ps = V4 M 0 0 0 /\ (forall j, (j < 3)%nat -> shell (m j) (nth j ps zero4)) /\
    (** the pair of leptons has the mass drawn, between threshold and what is left *)
    minkowski (add4 (nth a ps zero4) (nth b ps zero4)) (add4 (nth a ps zero4) (nth b ps zero4)) = dm * dm /\
    dm = (1 - x) * (m a + m b) + x * (M - m i).
Proof.
  intros L I NL FIRST MP m a b LP SUM X U1 U2.
  assert (POS : non_lepton_position out = Some i).
  { unfold non_lepton_position. destruct i as [|[|[|i]]]; [| | |lia].
    - now rewrite NL.
    - rewrite (FIRST 0%nat) by lia. now rewrite NL.
    - rewrite (FIRST 0%nat), (FIRST 1%nat) by lia. now rewrite NL. }
  assert (TOT : m i + (m a + m b) <= M). { unfold a, b. destruct i as [|[|[|i]]]; [| | |lia]; cbn [Nat.add Nat.modulo Nat.divmod fst snd Nat.sub]; cbn; lra. }
  unfold dalitz. rewrite L, POS. cbn [Nat.eqb negb]. fold (m i). fold a b. fold (m a) (m b).
  set (dm := m a + m b + x * (M - m i - (m a + m b))). pose proof (MP i) as MI. pose proof (MP a) as MA. pose proof (MP b) as MB. fold (m i) in MI. fold (m a) in MA. fold (m b) in MB.
  assert (DM : m a + m b <= dm <= M - m i) by (unfold dm; nra).
  set (P := pCM M dm (m i)). set (Q := pCM dm (m a) (m b)).
  set (d := mk4 (sqrt (dm * dm + P * P)) (scale3 P n1)).
  assert (DSH : shell dm d) by (apply shell_scale; auto).
  assert (D0 : 0 < y0 d). { unfold d. cbn [mk4 y0]. apply sqrt_lt_R0. nra. }
  assert (DD : minkowski d d = dm * dm) by apply DSH.
  destruct (boost_to_rest_frame d D0 ltac:(rewrite DD; nra)) as [SP RF]. rewrite DD, sqrt_square in RF by lra.
  assert (NSP : speed2 (neg3 (velocity d)) < 1). { unfold speed2, neg3 in *. cbn [x1 x2 x3]. lra. }
  assert (BACK : boost (neg3 (velocity d)) (V4 dm 0 0 0) = d) by (rewrite <- RF; now apply boost_inverse).
  set (l1 := on_shell (m a) (scale3 Q n2)). set (l2 := on_shell (m b) (scale3 Q (neg3 n2))). set (nl := on_shell (m i) (scale3 P (neg3 n1))).
  assert (PAIR : add4 l1 l2 = V4 dm 0 0 0).
  { unfold l1, l2. rewrite !on_shell_energy by (auto using unit_neg). rewrite <- (pair_sum dm (m a) (m b) (neg3 n2)); try lra. fold Q. do 2 f_equal. rewrite scale_neg. now rewrite Ropp_involutive. }
  assert (MAIN : add4 nl d = V4 M 0 0 0).
  { rewrite <- (pair_sum M (m i) dm n1); try lra. assert (C : pCM M (m i) dm = P).
    { unfold P. destruct (pCM_is_two_body_momentum M (m i) dm) as (C1 & C2 & _); try lra. destruct (pCM_is_two_body_momentum M dm (m i)) as (_ & _ & C3); try lra.
      apply C3; auto. lra. }
    rewrite C. unfold nl. rewrite on_shell_energy by (auto using unit_neg). rewrite scale_neg. reflexivity. }
  assert (LEP : add4 (boost (neg3 (velocity d)) l1) (boost (neg3 (velocity d)) l2) = d) by (rewrite <- boost_add, PAIR; exact BACK).
  destruct (place_nth i nl (boost (neg3 (velocity d)) l1) (boost (neg3 (velocity d)) l2) I) as (N1 & N2 & N3 & N4 & N5).
  exists dm, (place i nl (boost (neg3 (velocity d)) l1) (boost (neg3 (velocity d)) l2)).
  assert (SL : forall mm k u, unit u -> shell mm (on_shell mm (scale3 k u))). { intros mm k u UU. rewrite on_shell_energy by auto. now apply shell_scale. }
  splits; auto.
  - rewrite N5, LEP. exact MAIN.
  - assert (S1 : shell (m i) nl) by (apply SL; now apply unit_neg). assert (S2 : shell (m a) (boost (neg3 (velocity d)) l1)) by (apply boost_shell; auto; apply SL; auto).
    assert (S3 : shell (m b) (boost (neg3 (velocity d)) l2)) by (apply boost_shell; auto; apply SL; now apply unit_neg).
    rewrite <- N1 in S1. rewrite <- N2 in S2. rewrite <- N3 in S3. fold a b in S2, S3.
    intros j J. unfold a, b in S2, S3. destruct i as [|[|[|i]]]; [| | |lia]; destruct j as [|[|[|j]]]; try lia; assumption.
  - unfold a, b. rewrite N2, N3, LEP. exact DD.
  - unfold dm. ring.
Qed.
Print Assumptions dalitz_kinematics.
(** A wrong number of products, or leptons only, are refused. *)
Theorem dalitz_refuses out M x n1 n2 : length out <> 3%nat \/ Forall (fun p => lepton p = true) out -> dalitz out M x n1 n2 = Throw E_runtime.
Proof.
  intros H. unfold dalitz. destruct (Nat.eqb_spec (length out) 3) as [L|L]; auto. cbn [negb]. destruct H as [H|H]; [contradiction|].
  unfold non_lepton_position. destruct out as [|p0 [|p1 [|p2 [|]]]]; try discriminate. rewrite Forall_forall in H.
  assert (A := H p0 ltac:(cbn; auto)). assert (B := H p1 ltac:(cbn; auto)). assert (C := H p2 ltac:(cbn; auto)).
  cbn [nth]. now rewrite A, B, C.
Qed.
Print Assumptions dalitz_refuses.
Example dalitz_example : let out := [Prod true (1 / 1000); Prod true (1 / 1000); Prod false (135 / 1000)] in
  lepton (nth 2 out (Prod true 0)) = false /\ (forall j, (j < 2)%nat -> lepton (nth j out (Prod true 0)) = true) /\
  (forall j, 0 <= pole (nth j out (Prod true 0))) /\ unit (V3 1 0 0).
Proof.
  cbv zeta. splits; auto.
  - intros j J. destruct j as [|[|j]]; auto; lia.
  - intros j. destruct j as [|[|[|[|j]]]]; cbn; lra.
  - unfold unit, inner. cbn. ring.
Qed.
