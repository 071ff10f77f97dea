(** The weights of the processes of a two-particle scattering (C125). *)
From Coq Require Import ZArith Reals List Bool Lra Lia Psatz.
From Verif Require Import Base VecModel KinProps MotionModel ScatModel.
Import ListNotations.
Open Scope R_scope.

(** the sum of the weights that are positive *)
Fixpoint positive_sum {B} (l : list (B * R)) : R := match l with [] => 0 | c :: r => Rmax 0 (snd c) + positive_sum r end.
Fixpoint weight_sum {B} (l : list (B * R)) : R := match l with [] => 0 | c :: r => snd c + weight_sum r end.
Definition positive {B} (l : list (B * R)) : list (B * R) := filter (fun c => rltb 0 (snd c)) l.
Lemma weight_app {B} (l r : list (B * R)) : weight_sum (l ++ r) = weight_sum l + weight_sum r.
Proof. induction l as [|c l IH]; cbn [app weight_sum]; [ring|rewrite IH; ring]. Qed.
Lemma positive_weight {B} (l : list (B * R)) : weight_sum (positive l) = positive_sum l.
Proof.
  induction l as [|c l IH]; auto. cbn [positive filter positive_sum]. fold (positive l). destruct (Rlt_dec 0 (snd c)) as [L|L].
  - rewrite (proj2 (rltb_spec _ _) L). cbn [weight_sum]. rewrite IH, Rmax_right by lra. ring.
  - rewrite (proj2 (rltb_false _ _)) by lra. rewrite IH, Rmax_left by lra. ring.
Qed.
Lemma positive_sum_ge {B} (l : list (B * R)) : 0 <= positive_sum l.
Proof. induction l as [|c l IH]; cbn [positive_sum]; [lra|]. pose proof (Rmax_l 0 (snd c)). lra. Qed.
Lemma add_one {B} (p : B * R) x : add_collision p x = Act (channels x ++ positive [p]) (wsum x + positive_sum [p]) (added x) (total x).
Proof.
  unfold add_collision. cbn [positive filter positive_sum]. destruct (Rlt_dec 0 (snd p)) as [L|L].
  - rewrite (proj2 (rltb_spec _ _) L), Rmax_right by lra. f_equal. ring.
  - rewrite (proj2 (rltb_false _ _)) by lra. rewrite Rmax_left, app_nil_r by lra. destruct x. cbn. f_equal. ring.
Qed.
Lemma add_many {B} (l : list (B * R)) : forall x, add_collisions l x = Act (channels x ++ positive l) (wsum x + positive_sum l) (added x) (total x).
Proof.
  unfold add_collisions. induction l as [|p l IH]; intros x; cbn [fold_left].
  - cbn [positive filter positive_sum]. rewrite app_nil_r, Rplus_0_r. now destruct x.
  - rewrite IH, add_one. cbn [channels wsum added total]. cbn [positive filter positive_sum]. fold (positive l). destruct (rltb 0 (snd p)); cbn [app]; rewrite <- app_assoc; cbn [app]; f_equal; ring.
Qed.

(** ** Specification *)
(** The strings that fill what is missing to the high-energy total, if they are not added with a probability. *)
Definition string_part {B} (o : offers B) : list (B * R) :=
  if negb (o_prob o) && rltb 0 (o_strprob o) then
    if Rlt_dec 0 (o_high o - positive_sum (o_list o)) then o_strings o (o_high o - positive_sum (o_list o)) else [] else [].
(** All processes that are offered, without the pseudoresonance. *)
Definition offered {B} (o : offers B) : list (B * R) := positive (o_list o ++ string_part o).
(** The pseudoresonance gets the gap to the total, if there is one. *)
Definition gap {B} (o : offers B) (t : option R) : R := match t with Some t => t | None => o_high o end - weight_sum (offered o).
Definition with_pseudo {B} (o : offers B) (t : option R) : list (B * R) :=
  offered o ++ match o_pseudo o with Some r => if o_two_to_one o then if Rlt_dec (/ 1000000) (gap o t) then [(r, gap o t)] else [] else [] | None => [] end.

Lemma positive_app {B} (l r : list (B * R)) : positive (l ++ r) = positive l ++ positive r.
Proof. unfold positive. induction l as [|c l IH]; auto. cbn [app filter]. rewrite IH. destruct (rltb 0 (snd c)); reflexivity. Qed.
Lemma positive_sum_app {B} (l r : list (B * R)) : positive_sum (l ++ r) = positive_sum l + positive_sum r.
Proof. rewrite <- !positive_weight, positive_app. apply weight_app. Qed.
(** what is in the action before the rescaling *)
Lemma before_rescaling {B} (o : offers B) (t : option R) :
  add_all_scatterings o (new_action t) =
  let x := Act (with_pseudo o t) (weight_sum (with_pseudo o t)) true t in match t with Some _ => rescale (o_elastic o) x | None => Ok x end.
Proof.
  unfold add_all_scatterings, new_action. cbn [added channels wsum total]. rewrite add_many. cbn [added channels wsum total app].
  set (x1 := Act (positive (o_list o)) (0 + positive_sum (o_list o)) true t).
  assert (E1 : (if negb (o_prob o) && rltb 0 (o_strprob o) then let diff := o_high o - (0 + positive_sum (o_list o)) in if Rlt_dec 0 diff then add_collisions (o_strings o diff) x1 else x1 else x1) =
    Act (offered o) (weight_sum (offered o)) true t).
  { unfold offered, string_part. rewrite positive_weight, positive_app, positive_sum_app. rewrite Rplus_0_l. destruct (negb (o_prob o) && rltb 0 (o_strprob o)).
    - destruct (Rlt_dec 0 (o_high o - positive_sum (o_list o))).
      + rewrite add_many. unfold x1. cbn [channels wsum added total]. now rewrite Rplus_0_l.
      + unfold x1. cbn [positive filter positive_sum]. rewrite app_nil_r. f_equal. ring.
    - unfold x1. cbn [positive filter positive_sum]. rewrite app_nil_r. f_equal. ring. }
  cbv zeta in E1 |- *. rewrite E1. clear E1 x1.
  assert (E2 : match o_pseudo o with
      | Some r => if o_two_to_one o then
          if Rlt_dec really_small (match t with Some t0 => t0 | None => o_high o end - weight_sum (offered o))
          then add_collision (r, match t with Some t0 => t0 | None => o_high o end - weight_sum (offered o)) (Act (offered o) (weight_sum (offered o)) true t)
          else Act (offered o) (weight_sum (offered o)) true t
        else Act (offered o) (weight_sum (offered o)) true t
      | None => Act (offered o) (weight_sum (offered o)) true t end = Act (with_pseudo o t) (weight_sum (with_pseudo o t)) true t).
  { unfold with_pseudo. fold (gap o t). rewrite weight_app. unfold really_small.
    assert (N : Act (offered o) (weight_sum (offered o)) true t = Act (offered o ++ []) (weight_sum (offered o) + weight_sum (@nil (B * R))) true t) by (rewrite app_nil_r; cbn [weight_sum]; f_equal; ring).
    destruct (o_pseudo o) as [r|]; [|exact N]. destruct (o_two_to_one o); [|exact N]. destruct (Rlt_dec (/ 1000000) (gap o t)) as [L|L]; [|exact N].
    rewrite add_one. cbn [channels wsum added total]. rewrite <- positive_weight. cbn [positive filter snd]. rewrite (proj2 (rltb_spec _ _)) by lra. reflexivity. }
  cbn [channels wsum added total] in *. rewrite E2. cbn [total]. reflexivity.
Qed.
Lemma pseudo_positive {B} (o : offers B) t c : In c (with_pseudo o t) -> 0 < snd c.
Proof.
  unfold with_pseudo. rewrite in_app_iff. intros [I|I].
  - unfold offered, positive in I. apply filter_In in I as (_ & I). now apply rltb_spec.
  - destruct (o_pseudo o); [|destruct I]. destruct (o_two_to_one o); [|destruct I]. destruct (Rlt_dec _ _) as [L|L]; [|destruct I]. destruct I as [<-|[]]. cbn [snd]. lra.
Qed.

(** Without a parametrised total: every process that is offered with a positive cross section has exactly that one, and the
    cross section of the action is their sum. *)
Theorem unparametrised_weights {B} (o : offers B) : exists x, add_all_scatterings o (new_action None) = Ok x /\
  channels x = with_pseudo o None /\ cross_section x = weight_sum (channels x) /\ forall fa fb, get_total_weight fa fb x = cross_section x * fa * fb.
Proof. rewrite before_rescaling. eexists. split; [reflexivity|]. repeat split. Qed.
Print Assumptions unparametrised_weights.
(** With a parametrised total T: the processes keep their ratios, their weights add up to T, and T is the cross section; if
    all processes together have less than 1e-6 mb, elastic scattering gets T (and the others stay). *)
Theorem parametrised_weights {B} (o : offers B) T : 0 < T -> exists x, add_all_scatterings o (new_action (Some T)) = Ok x /\ cross_section x = T /\
  (/ 1000000 <= weight_sum (with_pseudo o (Some T)) ->
     (exists k, 0 < k /\ channels x = map (fun c => (fst c, k * snd c)) (with_pseudo o (Some T))) /\ weight_sum (channels x) = T) /\
  (weight_sum (with_pseudo o (Some T)) < / 1000000 -> channels x = with_pseudo o (Some T) ++ [(o_elastic o, T)]).
Proof.
  intros T0. rewrite before_rescaling. cbv zeta. unfold rescale. cbn [added total wsum channels]. set (l := with_pseudo o (Some T)). unfold really_small. destruct (Rlt_dec (weight_sum l) (/ 1000000)) as [L|L].
  - eexists. split; [reflexivity|]. rewrite add_one. cbn [channels total cross_section]. splits; auto; [intros; lra|]. intros _. cbn [positive filter snd]. now rewrite (proj2 (rltb_spec _ _) T0).
  - eexists. split; [reflexivity|]. unfold cross_section. cbn [channels total]. splits; auto; [|intros; lra]. intros _. split.
    + exists (T / weight_sum l). split; [apply Rdiv_lt_0_compat; lra|]. apply map_ext. intros (c & r). cbn. f_equal. ring.
    + assert (G : forall k (m : list (B * R)), weight_sum (map (fun c => (fst c, snd c * k)) m) = weight_sum m * k).
      { intros k m. induction m as [|c m IH]; cbn [map weight_sum snd]; [ring|rewrite IH; ring]. }
      rewrite G. field. lra.
Qed.
Print Assumptions parametrised_weights.
(** A pseudoresonance fills the gap to the parametrised total exactly, so that nothing is rescaled. *)
Theorem pseudoresonance_fills_gap {B} (o : offers B) T r : o_pseudo o = Some r -> o_two_to_one o = true -> / 1000000 < gap o (Some T) -> / 1000000 <= T ->
  exists x, add_all_scatterings o (new_action (Some T)) = Ok x /\ channels x = offered o ++ [(r, T - weight_sum (offered o))].
Proof.
  intros P W G TT. assert (EL : with_pseudo o (Some T) = offered o ++ [(r, gap o (Some T))]) by (unfold with_pseudo; rewrite P, W; destruct (Rlt_dec _ _); [auto|lra]).
  assert (S : weight_sum (with_pseudo o (Some T)) = T) by (rewrite EL, weight_app; cbn [weight_sum snd]; unfold gap; ring).
  rewrite before_rescaling. cbv zeta. rewrite S. unfold rescale. cbn [added total wsum channels]. unfold really_small. destruct (Rlt_dec T (/ 1000000)); [lra|].
  eexists. split; [reflexivity|]. cbn [channels]. rewrite EL. replace (T / T) with 1 by (field; lra). rewrite (map_ext _ (fun c => c)) by (intros (c & w); cbn; f_equal; ring). rewrite map_id. reflexivity.
Qed.
Print Assumptions pseudoresonance_fills_gap.
(** Processes can be added only once. *)
Theorem scatterings_added_once {B} (o o' : offers B) t x : add_all_scatterings o (new_action t) = Ok x -> add_all_scatterings o' x = Throw E_logic.
Proof.
  rewrite before_rescaling. cbv zeta. intros H. assert (A : added x = true).
  { destruct t as [T|]; [|assert (x = Act (with_pseudo o None) (weight_sum (with_pseudo o None)) true None) as -> by congruence; reflexivity].
    unfold rescale in H. cbn [added total wsum channels] in H. destruct (Rlt_dec _ _).
    - match type of H with Ok ?y = _ => assert (x = y) as -> by congruence end. rewrite add_one. reflexivity.
    - match type of H with Ok ?y = _ => assert (x = y) as -> by congruence end. reflexivity. }
  unfold add_all_scatterings. now rewrite A.
Qed.
Print Assumptions scatterings_added_once.

(** The choice of a process never fails, and a process is chosen for the draws in an interval as long as its share of the cross section. *)
Definition before_of {B} (l : list (B * R)) (n : nat) : R := weight_sum (firstn n l).
Lemma choose_from_spec {B} (y : R) : forall (l : list (B * R)) acc n c, (forall c, In c l -> 0 < snd c) -> nth_error l n = Some c ->
  acc + before_of l n < y <= acc + before_of l (S n) -> choose_from y acc l = Ok c.
Proof.
  unfold before_of. induction l as [|d l IH]; intros acc n c P N H; [destruct n; discriminate|]. cbn [choose_from]. destruct n as [|n].
  - cbn [firstn weight_sum] in H. assert (d = c) as -> by (cbn in N; congruence). destruct (Rle_dec y (acc + snd c)); auto. lra.
  - change (firstn (S n) (d :: l)) with (d :: firstn n l) in H. change (firstn (S (S n)) (d :: l)) with (d :: firstn (S n) l) in H. cbn [weight_sum] in H.
    assert (G : 0 <= weight_sum (firstn n l)). { assert (K : forall c, In c (firstn n l) -> 0 < snd c) by (intros e I; apply P; right; rewrite <- (firstn_skipn n l); apply in_or_app; auto).
      clear - K. induction (firstn n l) as [|e m IH]; cbn [weight_sum]; [lra|]. pose proof (K e ltac:(now left)). specialize (IH ltac:(intros; apply K; now right)). lra. }
    destruct (Rle_dec y (acc + snd d)); [lra|]. apply (IH _ n); auto. { intros; apply P; now right. } lra.
Qed.
Theorem process_chosen_by_share {B} (o : offers B) T x n c u :
  0 < T -> / 1000000 <= weight_sum (with_pseudo o (Some T)) -> add_all_scatterings o (new_action (Some T)) = Ok x -> nth_error (channels x) n = Some c ->
  before_of (channels x) n / T < u <= before_of (channels x) (S n) / T -> choose u x = Ok c.
Proof.
  intros T0 W A N U. destruct (parametrised_weights o T T0) as (x' & A' & CS & K & _). assert (x' = x) as -> by congruence. destruct (K W) as ((k & K0 & CH) & SW).
  unfold choose. rewrite CS. apply (choose_from_spec _ _ _ n); auto.
  - intros d I. rewrite CH in I. apply in_map_iff in I as (e & <- & I). apply pseudo_positive in I. cbn [snd]. nra.
  - unfold uniform. destruct U as (U1 & U2). apply (Rmult_lt_compat_r T) in U1; auto. apply (Rmult_le_compat_r T) in U2; [|lra].
    replace (before_of (channels x) n / T * T) with (before_of (channels x) n) in U1 by (field; lra). replace (before_of (channels x) (S n) / T * T) with (before_of (channels x) (S n)) in U2 by (field; lra). lra.
Qed.
Print Assumptions process_chosen_by_share.
Lemma choose_some {B} (l : list (B * R)) : forall y acc, l <> [] -> y <= acc + weight_sum l -> (forall c, In c l -> 0 < snd c) -> exists c, choose_from y acc l = Ok c /\ In c l.
Proof.
  induction l as [|c l IH]; intros y acc NE H P; [congruence|]. cbn [choose_from weight_sum] in *. destruct (Rle_dec y (acc + snd c)); [exists c; split; auto; now left|].
  destruct l as [|d l]; [cbn in H; lra|]. destruct (IH y (acc + snd c)) as (e & E & I); [discriminate|lra|intros; apply P; now right|]. exists e. split; auto. now right.
Qed.
Theorem process_always_chosen {B} (o : offers B) t x u : (match t with Some T => 0 < T | None => 0 < weight_sum (with_pseudo o None) end) -> 0 <= u < 1 ->
  add_all_scatterings o (new_action t) = Ok x -> exists c, choose u x = Ok c /\ In c (channels x).
Proof.
  intros TP U A. assert (G : forall (l : list (B * R)) T, weight_sum l = T -> 0 < T -> l <> []) by (intros l T <- L ->; cbn in L; lra).
  assert (PP : forall l : list (B * R), (forall c, In c l -> 0 < snd c) -> 0 <= weight_sum l).
  { induction l as [|e m IH]; intros K; cbn [weight_sum]; [lra|]. pose proof (K e ltac:(now left)). specialize (IH ltac:(intros; apply K; now right)). lra. }
  destruct t as [T|].
  - destruct (parametrised_weights o T TP) as (x' & A' & CS & K1 & K2). assert (x' = x) as -> by congruence. unfold choose. rewrite CS. destruct (Rle_dec (/ 1000000) (weight_sum (with_pseudo o (Some T)))) as [L|L].
    + destruct (K1 L) as ((k & K0 & CH) & SW). apply choose_some; [eapply G; eauto|unfold uniform; nra|]. intros c I. rewrite CH in I. apply in_map_iff in I as (e & <- & I). apply pseudo_positive in I. cbn [snd]. nra.
    + rewrite (K2 ltac:(lra)). apply choose_some; [intros C; apply app_eq_nil in C as (_ & C); discriminate| |].
      * rewrite weight_app. cbn [weight_sum snd]. pose proof (PP _ (fun c => pseudo_positive o (Some T) c)). unfold uniform. nra.
      * intros c I. apply in_app_iff in I as [I|[<-|[]]]; [now apply pseudo_positive in I|]. exact TP.
  - rewrite before_rescaling in A. cbv zeta in A. assert (x = Act (with_pseudo o None) (weight_sum (with_pseudo o None)) true None) as -> by congruence. unfold choose, cross_section. cbn [total wsum channels].
    apply choose_some; [eapply G; eauto|unfold uniform; nra|]. intros c I. now apply pseudo_positive in I.
Qed.
Print Assumptions process_always_chosen.

(** Finding: the total weight written to the output is the cross section of the collision: not so with a parametrised total, it
    is the sum of the processes before they were rescaled, while the partial weights are those after. *)
Theorem reported_total_refuted : exists (o : offers nat) T x c, 0 < T /\ add_all_scatterings o (new_action (Some T)) = Ok x /\ channels x = [c] /\
  cross_section x = T /\ get_partial_weight 1 1 (snd c) = T /\ get_total_weight 1 1 x = T / 2.
Proof.
  set (o := Offers [(0%nat, 5)] true 0 0 (fun _ => []) None false 1%nat).
  assert (W : with_pseudo o (Some 10) = [(0%nat, 5)]).
  { unfold with_pseudo, offered, string_part. cbn [o o_prob negb andb o_list app positive filter snd o_pseudo]. rewrite (proj2 (rltb_spec 0 5)) by lra. reflexivity. }
  assert (A : add_all_scatterings o (new_action (Some 10)) = Ok (Act [(0%nat, 5 * (10 / (5 + 0)))] (5 + 0) true (Some 10))).
  { rewrite before_rescaling. cbv zeta. rewrite W. cbn [weight_sum snd]. unfold rescale. cbn [added total wsum channels]. unfold really_small. destruct (Rlt_dec (5 + 0) (/ 1000000)); [lra|]. reflexivity. }
  exists o, 10. eexists _, _. split; [lra|]. split; [exact A|]. split; [reflexivity|]. unfold cross_section, get_partial_weight, get_total_weight. cbn [total wsum snd]. splits; auto; lra.
Qed.
Print Assumptions reported_total_refuted.

(** ** Pseudoresonances *)
(** the energy from which on they are used: the masses plus an offset that depends on the pair *)
Definition cutoff (t : transition) (a b : pkind) (m1 m2 : R) : R := m1 + m2 + string_offset t a b.
Lemma max_by_spec {B} (f : B -> R) : forall l b, let m := max_by f b l in (m = b \/ In m l) /\ f b <= f m /\ forall x, In x l -> f x <= f m.
Proof.
  induction l as [|x l IH]; intros b; cbn [max_by]; [splits; auto; [lra|intros y []]|]. destruct (IH (if Rlt_dec (f b) (f x) then x else b)) as (I1 & I2 & I3).
  destruct (Rlt_dec (f b) (f x)) as [L|L]; splits.
  - right. destruct I1 as [->|I1]; [now left|now right].
  - lra.
  - intros y [<-|I]; auto.
  - destruct I1 as [->|I1]; [now left|right; now right].
  - lra.
  - intros y [<-|I]; [lra|auto].
Qed.
Lemma min_max {B} (f : B -> R) : forall l b, min_by f b l = max_by (fun x => - f x) b l.
Proof. induction l as [|x l IH]; intros b; cbn [min_by max_by]; auto. destruct (Rlt_dec (f x) (f b)), (Rlt_dec (- f b) (- f x)); auto; lra. Qed.
Theorem pseudoresonance_found {B} (mass : B -> R) meth t a b m1 m2 sqrts cand r :
  find_pseudo mass meth t a b m1 m2 sqrts cand = Some r ->
  cutoff t a b m1 m2 <= sqrts /\ In r cand /\ meth <> NoPseudo /\
  ((meth = LargestFromUnstable \/ meth = ClosestFromUnstable) -> p_stable a = false \/ p_stable b = false) /\
  ((meth = Largest \/ meth = LargestFromUnstable) -> forall c, In c cand -> mass c <= mass r) /\
  ((meth = Closest \/ meth = ClosestFromUnstable) -> forall c, In c cand -> Rabs (mass r - sqrts) <= Rabs (mass c - sqrts)).
Proof.
  unfold find_pseudo. destruct (Rlt_dec _ _) as [L|L]; [discriminate|]. assert (NP : meth = NoPseudo \/ meth <> NoPseudo) by (destruct meth; auto; right; discriminate).
  destruct NP as [->|NP]; [discriminate|]. intros H. split; [unfold cutoff; lra|].
  assert (ST : (meth = LargestFromUnstable \/ meth = ClosestFromUnstable) -> p_stable a && p_stable b = false).
  { intros [-> | ->]; destruct (p_stable a && p_stable b); auto; discriminate. }
  assert (CC : exists c rest, cand = c :: rest /\ r = match meth with Largest | LargestFromUnstable => max_by mass c rest | _ => min_by (fun x => Rabs (mass x - sqrts)) c rest end).
  { destruct cand as [|c rest]; [destruct meth; try discriminate; destruct (p_stable a && p_stable b); discriminate|]. exists c, rest. split; auto. destruct meth; try congruence; destruct (p_stable a && p_stable b); congruence. }
  destruct CC as (c & rest & -> & ER).
  destruct (max_by_spec mass rest c) as (X1 & X2 & X3). destruct (max_by_spec (fun x => - Rabs (mass x - sqrts)) rest c) as (Y1 & Y2 & Y3). rewrite <- min_max in Y1, Y2, Y3.
  splits; auto.
  - destruct meth; try congruence; rewrite ER; [destruct X1 as [->|]|destruct Y1 as [->|]|destruct X1 as [->|]|destruct Y1 as [->|]]; try (now left); now right.
  - intros Q. specialize (ST Q). apply andb_false_iff in ST. tauto.
  - intros Q d I. assert (r = max_by mass c rest) as -> by (destruct Q as [-> | ->]; auto). destruct I as [<-|I]; auto.
  - intros Q d I. assert (r = min_by (fun x => Rabs (mass x - sqrts)) c rest) as -> by (destruct Q as [-> | ->]; auto). destruct I as [<-|I]; [lra|]. specialize (Y3 d I). lra.
Qed.
Print Assumptions pseudoresonance_found.
Theorem pseudoresonance_not_missed {B} (mass : B -> R) meth t a b m1 m2 sqrts cand :
  cutoff t a b m1 m2 <= sqrts -> cand <> [] -> meth <> NoPseudo -> ((meth = LargestFromUnstable \/ meth = ClosestFromUnstable) -> p_stable a = false \/ p_stable b = false) ->
  exists r, find_pseudo mass meth t a b m1 m2 sqrts cand = Some r.
Proof.
  intros C NE NP U. unfold find_pseudo. destruct (Rlt_dec _ _) as [L|L]; [unfold cutoff in C; lra|]. destruct cand as [|c rest]; [congruence|].
  destruct meth; try congruence; try (eexists; reflexivity); destruct (U ltac:(auto)) as [-> | ->]; rewrite ?andb_false_r; eexists; reflexivity.
Qed.
Print Assumptions pseudoresonance_not_missed.
(** The offsets for the pairs with their own string threshold; the order of the pair does not matter. *)
Theorem offsets t a b : string_offset t a b = string_offset t b a.
Proof. unfold string_offset. destruct (p_nucleon a), (p_nucleon b), (p_pion a), (p_pion b), (p_kaon a), (p_kaon b); reflexivity. Qed.
Print Assumptions offsets.
Example cutoff_example : cutoff (Trans 0.9 1.9 3.5 1.12 15.15) (PKind true false false true) (PKind true false false true) 0.938 0.938 = 3.5.
Proof. unfold cutoff, string_offset, nucleon_mass. cbn [p_nucleon p_pion p_kaon andb orb range_NN]. lra. Qed.
(** An action with a total of 10 mb and processes of 3 and 1 mb: they get 7.5 and 2.5 mb. *)
Example weights_example : exists x, add_all_scatterings (Offers [(0%nat, 3); (1%nat, -2); (2%nat, 1)] true 0 0 (fun _ => []) None false 9%nat) (new_action (Some 10)) = Ok x /\
  length (channels x) = 2%nat /\ weight_sum (channels x) = 10 /\ exists c, choose (1 / 2) x = Ok c.
Proof.
  set (o := Offers _ _ _ _ _ _ _ _). destruct (parametrised_weights o 10 ltac:(lra)) as (x & A & _ & K & _).
  assert (W : with_pseudo o (Some 10) = [(0%nat, 3); (2%nat, 1)]).
  { unfold with_pseudo, offered, string_part. cbn [o o_prob negb andb o_list app positive filter snd o_pseudo]. rewrite (proj2 (rltb_spec 0 3)), (proj2 (rltb_false 0 (-2))), (proj2 (rltb_spec 0 1)) by lra. reflexivity. }
  destruct K as ((k & _ & CH) & SW); [rewrite W; cbn; lra|]. exists x. splits; auto; [rewrite CH, map_length, W; reflexivity|].
  destruct (process_always_chosen o (Some 10) x (1 / 2) ltac:(lra) ltac:(lra) A) as (c & C & _). eauto.
Qed.

(** The cut-off for a nucleon pair and for a nucleon and a pion with their usual masses is the lower end of the range in which
    strings set in; for pions and for kaons on nucleons it is the masses plus the offset of the user, for all other pairs half
    the general offset. *)
Theorem cutoffs t a b m1 m2 :
  (p_nucleon a = true -> p_nucleon b = true -> p_pion a = false -> p_pion b = false -> cutoff t a b 0.938 0.938 = range_NN t) /\
  (p_nucleon a = true -> p_pion b = true -> cutoff t a b 0.938 0.138 = range_Npi t /\ cutoff t b a 0.138 0.938 = range_Npi t) /\
  (p_pion a = true -> p_pion b = true -> p_nucleon a = false -> p_nucleon b = false -> cutoff t a b m1 m2 = m1 + m2 + pipi_offset t) /\
  (p_nucleon a = true -> p_kaon b = true -> p_pion a = false -> p_pion b = false -> p_nucleon b = false -> cutoff t a b m1 m2 = m1 + m2 + KN_offset t /\ cutoff t b a m1 m2 = m1 + m2 + KN_offset t) /\
  (p_nucleon a = false -> p_nucleon b = false -> p_pion a = false \/ p_pion b = false -> cutoff t a b m1 m2 = m1 + m2 + add_lower t / 2) /\
  (p_nucleon a = true -> p_nucleon b = false -> p_pion b = false -> p_kaon b = false -> cutoff t a b m1 m2 = m1 + m2 + add_lower t / 2).
Proof.
  unfold cutoff, string_offset, nucleon_mass, pion_mass. splits.
  - intros -> -> -> ->. cbn [andb orb]. lra.
  - intros -> ->. cbn [andb orb]. rewrite orb_true_r. lra.
  - intros -> -> -> ->. cbn [andb orb]. lra.
  - intros -> -> -> -> ->. cbn [andb orb]. rewrite ?andb_false_r, ?orb_true_r. cbn [orb]. lra.
  - intros -> -> H. cbn [andb orb]. rewrite ?andb_false_r. cbn [orb]. destruct H as [-> | ->]; rewrite ?andb_false_r; cbn [andb]; lra.
  - intros -> -> -> ->. rewrite ?andb_false_r. cbn [andb orb]. lra.
Qed.
Print Assumptions cutoffs.
