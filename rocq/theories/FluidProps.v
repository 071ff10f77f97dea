(** C115 (finding of fluidizations) and C116 (the end of an event with a
    fluid). *)
From Coq Require Import ZArith List Bool Reals Lia Lra Permutation.
Import ListNotations.
From Verif Require Import Base VecModel VecProps ActionsModel FluidModel.
Open Scope R_scope.

Lemma rltb_t x y : rltb x y = true <-> x < y.
Proof. unfold rltb. destruct (Rlt_dec x y); split; intro; try assumption; try reflexivity; [discriminate|contradiction]. Qed.
Lemma rltb_f x y : rltb x y = false <-> y <= x.
Proof. unfold rltb. destruct (Rlt_dec x y); split; intro; try discriminate; try reflexivity; lra. Qed.

(** * Specification *)

(** where a particle comes from, as the documentation of Fluidizable_Processes
    names it *)
Inductive origin := FromElastic | FromDecay | FromInelastic | FromSoftString | FromHardString | Nowhere.
Definition origin_of (ty : proc) : origin :=
  match ty with
  | PElastic => FromElastic
  | PDecay => FromDecay
  | PTwoToOne | PTwoToTwo | PTwoToThree | PTwoToFour | PTwoToFive => FromInelastic
  | PThreeMesonsToOne | PThreeToTwo | PFourToTwo | PFiveToTwo => FromInelastic
  | PSoftAX | PSoftXB | PSoftDD | PSoftAnnihilation | PSoftNonDiff => FromSoftString
  | PStringHard => FromHardString
  | PNone | PWall | PThermalization | PFluidization | PFluidizationNoRemoval
  | PBremsstrahlung | PFailedString | PFreeforall => Nowhere
  end.
Definition included (s : settings) (o : origin) : bool :=
  match o with
  | FromElastic => from_elastic s | FromDecay => from_decay s | FromInelastic => from_inelastic s
  | FromSoftString => from_soft s | FromHardString => from_hard s | Nowhere => false
  end.

(** A particle is due for fluidization in the step from t0 to t0 + dt: it is not
    yet core, the required fraction of its formation time ends within the step,
    its last process is one of the chosen kinds - the first elastic scattering
    not counting if so configured -, and where it is the energy density exceeds
    the threshold after its own contribution is taken off. *)
Definition due (s : settings) (density : vec3 -> option R) (b : list (Z * R)) (pole : Z -> R)
    (dt : R) (p : part) : Prop :=
  f_core p = false
  /\ f_begin p + fraction s * (f_form p - f_begin p) < y0 (f_pos p) + dt
  /\ included s (origin_of (f_proc p)) = true
  /\ ~ (f_proc p = PElastic /\ f_ncoll p = 1%Z /\ delay_elastic s = true)
  /\ exists e, density (threevec (f_pos p)) = Some e
       /\ threshold s + pole (f_type p) * kernel0 s <= e + background_of b (f_id p).

(** * C115 *)

Lemma fluidizable_spec s ty n : process_fluidizable s ty n = true <->
  included s (origin_of ty) = true /\ ~ (ty = PElastic /\ n = 1%Z /\ delay_elastic s = true).
Proof.
  unfold process_fluidizable. destruct ty; cbn [is_soft origin_of included];
    try (split; [intro H; split; [exact H|intros (E & _); discriminate]|intros (H & _); exact H]).
  destruct (n =? 1)%Z eqn:N; cbn [andb].
  - apply Z.eqb_eq in N. destruct (delay_elastic s).
    + split; [discriminate|]. intros (_ & H). exfalso. apply H. splits; auto.
    + split; [intro H; split; [exact H|intros (_ & _ & E); discriminate]|tauto].
  - apply Z.eqb_neq in N. split; [intro H; split; [exact H|intros (_ & E & _); contradiction]|tauto].
Qed.

(** In one time step exactly the particles that are due are found, in the order
    of the list, and only while the time window is open.  Each fluidizes within
    the step; one that is still forming not before the required fraction of its
    formation time. *)
Theorem fluidization_exact s density b pole scaling dt t0 l :
  0 < dt -> (forall p, In p l -> y0 (f_pos p) = t0) ->
  let found := find_in_cell s density b pole scaling dt l in
  ((t0 + dt < min_time s \/ max_time s < t0) -> found = [])
  /\ (min_time s <= t0 + dt -> t0 <= max_time s ->
       exists sel, (forall p, sel p = true <-> due s density b pole dt p)
                   /\ map fst found = filter sel l)
  /\ (forall p d, In (p, d) found ->
        0 <= d < dt
        /\ (really_small < 1 - scaling p ->
            f_begin p + fraction s * (f_form p - f_begin p) <= t0 + d)).
Proof.
  intros DT SAME found. unfold found. splits.
  - intro W. destruct l as [|p l]; [reflexivity|]. cbn [find_in_cell].
    rewrite (SAME p (or_introl eq_refl)).
    destruct W as [W|W].
    + apply rltb_t in W. rewrite W. reflexivity.
    + apply rltb_t in W. rewrite W, orb_true_r. reflexivity.
  - intros W1 W2.
    exists (fun p => negb (f_core p) && rltb (fluidization_time s p) (y0 (f_pos p) + dt)
                     && process_fluidizable s (f_proc p) (f_ncoll p)
                     && above_threshold s density b pole p). split.
    + intro p. rewrite !andb_true_iff, negb_true_iff, rltb_t, fluidizable_spec. unfold due, above_threshold, fluidization_time.
      destruct (density (threevec (f_pos p))) as [e|].
      * rewrite negb_true_iff, rltb_f. split.
        -- intros (((A & B) & (C & C')) & D). splits; auto. exists e. split; [reflexivity|lra].
        -- intros (A & B & C & C' & (e' & E & D)). injection E as <-. splits; auto.
      * split; [intros (_ & D); discriminate|intros (_ & _ & _ & _ & e & E & _); discriminate].
    + clear found. induction l as [|p l IH]; [reflexivity|]. cbn [find_in_cell filter].
      pose proof (SAME p (or_introl eq_refl)) as T.
      assert (IH' : map fst (find_in_cell s density b pole scaling dt l) = filter
        (fun p => negb (f_core p) && rltb (fluidization_time s p) (y0 (f_pos p) + dt)
                     && process_fluidizable s (f_proc p) (f_ncoll p)
                     && above_threshold s density b pole p) l)
        by (apply IH; intros q Q; apply SAME; right; exact Q).
      replace (rltb (y0 (f_pos p) + dt) (min_time s)) with false by (symmetry; apply rltb_f; lra).
      replace (rltb (max_time s) (y0 (f_pos p))) with false by (symmetry; apply rltb_f; lra).
      cbn [orb]. destruct (f_core p); cbn [negb andb]; [exact IH'|].
      destruct (rltb (fluidization_time s p) (y0 (f_pos p) + dt)); cbn [negb andb]; [|exact IH'].
      destruct (process_fluidizable s (f_proc p) (f_ncoll p)); cbn [negb andb]; [|exact IH'].
      destruct (above_threshold s density b pole p); [|exact IH'].
      cbn [map fst]. f_equal. exact IH'.
  - intros p d. clear found. induction l as [|q l IH]; cbn [find_in_cell]; [contradiction|].
    pose proof (SAME q (or_introl eq_refl)) as T.
    assert (IH' : In (p, d) (find_in_cell s density b pole scaling dt l) ->
        0 <= d < dt /\ (really_small < 1 - scaling p ->
            f_begin p + fraction s * (f_form p - f_begin p) <= t0 + d))
      by (apply IH; intros r Q; apply SAME; right; exact Q).
    destruct (_ || _)%bool; [contradiction|]. destruct (f_core q); [exact IH'|].
    destruct (rltb (fluidization_time s q) (y0 (f_pos q) + dt)) eqn:F; cbn [negb]; [|exact IH'].
    destruct (process_fluidizable s (f_proc q) (f_ncoll q)); cbn [negb]; [|exact IH'].
    destruct (above_threshold s density b pole q); [|exact IH'].
    intros [E|I]; [|apply IH'; exact I].
    assert (E1 : q = p) by congruence. subst q.
    apply rltb_t in F. fold (fluidization_time s p). rewrite T in *.
    destruct (rltb really_small (1 - scaling p)) eqn:SC; cbn [negb] in E.
    + assert (E2 : Rmax (fluidization_time s p - t0) 0 = d) by congruence. subst d.
      split; [split; [apply Rmax_r|]|].
      * apply Rmax_lub_lt; lra.
      * intros _. pose proof (Rmax_l (fluidization_time s p - t0) 0). lra.
    + assert (E2 : 0 = d) by congruence. subst d. apply rltb_f in SC. split; [lra|]. intro. lra.
Qed.
Print Assumptions fluidization_exact.

Definition ex_set : settings := Settings 5 20 1 (1/2) 0 true true true true true true.
Definition ex_p (i : Z) (t : R) : part :=
  P i 7 2212 (V4 t 0 0 0) (V4 1 0 0 0) 0 0 1 false 2 1 PTwoToTwo 1.
Example fluidization_applies :
  exists p d, In (p, d) (find_in_cell ex_set (fun _ => Some 1) [] (fun _ => 1) (fun _ => 1) 1 [ex_p 0 6; ex_p 1 6]).
Proof.
  destruct (fluidization_exact ex_set (fun _ => Some 1) [] (fun _ => 1) (fun _ => 1) 1 6 [ex_p 0 6; ex_p 1 6])
    as (_ & B & _); [lra|intros p [<-|[<-|[]]]; reflexivity|].
  destruct B as (sel & SP & E); [cbn; lra|cbn; lra|].
  assert (D : sel (ex_p 0 6) = true).
  { apply SP. unfold due. cbn. splits; try reflexivity; [lra|intros (E1 & _); discriminate|].
    exists 1. split; [reflexivity|lra]. }
  assert (I : In (ex_p 0 6) (filter sel [ex_p 0 6; ex_p 1 6])) by (apply filter_In; split; [left; reflexivity|exact D]).
  rewrite <- E in I. apply in_map_iff in I. destruct I as ([p d] & _ & I). exists p, d. exact I.
Qed.

(** Fluidization removes nothing and changes nothing but the flag (dynamic
    mode), and its own conservation check never fails; in the other mode exactly
    the particle disappears. *)
Theorem fluidization_harmless qn_differ p :
  (forall l l', map (fun q => (f_type q, f_mom q)) l = map (fun q => (f_type q, f_mom q)) l' ->
     qn_differ l l' = false) ->
  (exists q, fluidization_final false [p] = Ok [q] /\ f_core q = true
     /\ (f_id q, f_idproc q, f_type q, f_pos q, f_mom q) = (f_id p, f_idproc p, f_type p, f_pos p, f_mom p)
     /\ (f_form q, f_begin q, f_scal q, f_ncoll q, f_tlast q, f_proc q, f_weight q)
        = (f_form p, f_begin p, f_scal p, f_ncoll p, f_tlast p, f_proc p, f_weight p)
     /\ fluidization_check false qn_differ [p] [q] = Ok tt)
  /\ fluidization_final true [p] = Ok []
  /\ fluidization_check true qn_differ [p] [] = Ok tt.
Proof.
  intro Q. splits; try reflexivity. exists (fluidize p). splits; try reflexivity.
  unfold fluidization_check. rewrite (Q [p] [fluidize p]) by reflexivity. reflexivity.
Qed.
Print Assumptions fluidization_harmless.

(** The lattice of energy densities is that of the current step whenever the step
    starts within the time window, and with steps of at most 5 fm it always
    reaches out to the light cone. *)
Fixpoint history (s : settings) (l : fluid_lattice) (ts : list R) : fluid_lattice :=
  match ts with [] => l | t :: r => history s (build_lattice s t l) r end.
Fixpoint small_steps (from : R) (ts : list R) : Prop :=
  match ts with [] => True | t :: r => from <= t <= from + 5 /\ small_steps t r end.

Lemma small_steps_app a : forall from b, small_steps from (a ++ b) -> small_steps from a.
Proof. induction a; cbn; intros; [trivial|]. destruct H. eauto. Qed.

Theorem fluid_lattice_current s ts t : small_steps 0 (ts ++ [t]) ->
  min_time s <= t <= max_time s ->
  filled (history s (fresh_lattice s) (ts ++ [t])) = Some t
  /\ t <= side (history s (fresh_lattice s) (ts ++ [t])).
Proof.
  intros SS (W1 & W2).
  assert (G : forall ts from l, small_steps from (ts ++ [t]) ->
    (from <= max_time s -> from <= side l) -> min_time s <= side l ->
    filled (history s l (ts ++ [t])) = Some t /\ t <= side (history s l (ts ++ [t]))).
  { clear ts SS. induction ts as [|u ts IH]; intros from l SS A B; cbn [app history] in *.
    - destruct SS as ((S1 & S2) & _). unfold build_lattice.
      replace (rltb t (min_time s)) with false by (symmetry; apply rltb_f; lra).
      replace (rltb (max_time s) t) with false by (symmetry; apply rltb_f; lra).
      cbn [orb filled side]. split; [reflexivity|].
      assert (from <= side l) by (apply A; lra).
      destruct (rltb (side l) t) eqn:F; [lra|]. apply rltb_f in F. exact F.
    - destruct SS as ((S1 & S2) & SS). apply (IH u); [exact SS| |].
      + intro U. unfold build_lattice.
        replace (rltb (max_time s) u) with false by (symmetry; apply rltb_f; lra).
        destruct (rltb u (min_time s)) eqn:F; cbn [orb side].
        * apply rltb_t in F. lra.
        * assert (from <= side l) by (apply A; lra).
          destruct (rltb (side l) u) eqn:F2; [lra|]. apply rltb_f in F2. exact F2.
      + unfold build_lattice. destruct (_ || _)%bool; [exact B|]. cbn [side].
        destruct (rltb (side l) u); lra. }
  apply (G ts 0); [exact SS| |].
  - intros _. unfold fresh_lattice. cbn [side]. pose proof (Rmax_r (min_time s) 40). lra.
  - unfold fresh_lattice. cbn [side]. apply Rmax_l.
Qed.
Print Assumptions fluid_lattice_current.

Example lattice_applies : small_steps 0 [3; 6; 8] /\ min_time ex_set <= 8 <= max_time ex_set.
Proof. cbn. lra. Qed.

(** The step in which the window opens: the finder already acts - even before
    min_time - but the lattice is only filled if the step STARTS within the
    window.  In every event but the first it then still holds the densities of
    the end of the previous event. *)
Theorem opening_step_refuted :
  exists s ts t0 dt p d,
    (* previous event, then the first steps of the new one *)
    filled (history s (fresh_lattice s) (ts ++ [t0])) = Some 20
    /\ y0 (f_pos p) = t0 /\ t0 + d < min_time s
    /\ In (p, d) (find_in_cell s (fun _ => Some 1) [] (fun _ => 1) (fun _ => 1) dt [p]).
Proof.
  exists ex_set, [10; 20; 0], (9/2), 1, (ex_p 0 (9/2)), 0. splits.
  - cbn [app history]. unfold build_lattice, fresh_lattice. cbn [min_time max_time ex_set].
    repeat (match goal with |- context[rltb ?a ?b] =>
      first [replace (rltb a b) with false by (symmetry; apply rltb_f; lra)
            |replace (rltb a b) with true by (symmetry; apply rltb_t; lra)] end; cbn [orb]).
    reflexivity.
  - reflexivity.
  - cbn. lra.
  - cbn [find_in_cell]. cbn [f_pos ex_p y0 min_time max_time ex_set f_core].
    replace (rltb (9/2+1) 5) with false by (symmetry; apply rltb_f; lra).
    replace (rltb 20 (9/2)) with false by (symmetry; apply rltb_f; lra). cbn [orb].
    unfold fluidization_time. cbn.
    replace (rltb (0 + 1 * (0 - 0)) (9/2+1)) with true by (symmetry; apply rltb_t; lra). cbn [negb].
    unfold above_threshold. cbn.
    replace (rltb (1 + 0) (1 / 2 + 1 * 0)) with false by (symmetry; apply rltb_f; lra). cbn [negb].
    replace (rltb really_small (1 - 1)) with false by (symmetry; apply rltb_f; unfold really_small; lra).
    cbn [negb]. left. reflexivity.
Qed.
Print Assumptions opening_step_refuted.
