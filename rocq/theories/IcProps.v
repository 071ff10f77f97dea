(** C129: the initial-conditions output lists the removed particles that have interacted, on one hypersurface. *)
From Coq Require Import ZArith Reals List Bool Lia Lra.
From Verif Require Import Base IcModel.
Import ListNotations.
Open Scope Z_scope.

(** * Specification *)
(** what a run asks the output to do, without reference to the output *)
Definition single {A} (c : call A) : list (icp A) := match c with C_inter _ ins => ins | _ => [] end.
(** all particles handed over, in order *)
Definition handed {A} (h : list (call A)) : list (icp A) := flat_map single h.
(** the lines a reader expects: events in order, in each the particles that collided before *)
Definition expected_call {A} (c : call A) : list (line A) :=
  match c with
  | C_start _ ev ens => [L_start ev ens]
  | C_end _ ev ens => [L_end ev ens]
  | C_time => []
  | C_inter _ ins => map (fun p => L_row (q_data p)) (filter (fun p => negb (q_hits p =? 0)) ins)
  end.
Definition expected {A} (h : list (call A)) : list (line A) := flat_map expected_call h.
(** calls the output is made for: one ensemble, one removed particle at a time *)
Definition proper_call {A} (c : call A) : Prop :=
  match c with C_start n _ _ | C_end n _ _ => n = 1 | C_time => True | C_inter fluid ins => fluid = true /\ length ins = 1%nat end.
(** within the light cone in t and z; only then is there a proper time *)
Definition inside {A} (p : icp A) : Prop := (0 <= q_t p * q_t p - q_z p * q_z p)%R.
Definition tau {A} (p : icp A) : R := sqrt (q_t p * q_t p - q_z p * q_z p).
(** the output's check: nothing to compare for at most one particle *)
Definition not_later {A} (l : list (icp A)) : Prop :=
  match l with
  | [] | [_] => True
  | p :: r => inside p /\ Forall (fun q => inside q /\ (tau q - tau p < / 1000000)%R) r
  end.

(** * Lemmas *)
Lemma proper_in {A} (p : icp A) : inside p -> proper_time p = Some (tau p).
Proof. unfold inside, proper_time, tau. intros. destruct Rlt_dec; [lra|reflexivity]. Qed.
Lemma proper_out {A} (p : icp A) : ~ inside p -> proper_time p = None.
Proof. unfold inside, proper_time. intros. destruct Rlt_dec; [reflexivity|lra]. Qed.
Lemma in_dec {A} (p : icp A) : {inside p} + {~ inside p}.
Proof. unfold inside. destruct (Rle_dec 0 (q_t p * q_t p - q_z p * q_z p)); auto. Qed.
Lemma tau_pos {A} (p : icp A) : (0 <= tau p)%R.
Proof. apply sqrt_pos. Qed.

(** the reference after a first particle *)
Definition ref_ok {A} (t : option R) (l : list (icp A)) : Prop :=
  match t with
  | Some t => Forall (fun q => inside q /\ (tau q - t < / 1000000)%R) l
  | None => l = []
  end.

Lemma run_app {A} (h1 h2 : list (call A)) s :
  run s (h1 ++ h2) = match run s h1 with (s', Ok _) => run s' h2 | r => r end.
Proof.
  revert s. induction h1 as [|c h1 IH]; intros s; [reflexivity|]. cbn [run app].
  destruct (step s c) as [s' [u|e|u]]; [apply IH|reflexivity|reflexivity].
Qed.

Lemma file_of_run {A} (h : list (call A)) : forall s s', run s h = (s', Ok tt) -> c_file s' = c_file s ++ expected h.
Proof.
  induction h as [|c h IH]; intros s s' E.
  - injection E as <-. now rewrite app_nil_r.
  - cbn [run] in E. destruct (step s c) as [s1 [[]|e|u]] eqn:F; [|discriminate E|discriminate E].
    rewrite (IH _ _ E). unfold expected. cbn [flat_map]. rewrite app_assoc. f_equal.
    destruct c as [n ev ens|n ev ens| |fluid ins]; cbn [step] in F.
    + unfold at_eventstart in F. destruct (negb (n =? 1)); [discriminate F|]. injection F as <-. reflexivity.
    + unfold at_eventend in F. destruct (negb (n =? 1)); [discriminate F|]. injection F as <-. reflexivity.
    + injection F as <-. symmetry; apply app_nil_r.
    + unfold at_interaction in F. destruct (negb fluid); [discriminate F|].
      destruct ins as [|p [|q r]]; [discriminate F| |discriminate F]. cbn [expected_call filter].
      destruct (q_hits p =? 0); cbn [negb map]; cbv zeta in F;
        (destruct (lt _ _) in F; [injection F as <-; cbn; rewrite ?app_nil_r; reflexivity|]);
        (destruct (negb _) in F; [discriminate F|]); injection F as <-; cbn; rewrite ?app_nil_r; reflexivity.
Qed.

Lemma lt_zero_set {A} (p : icp A) : lt (proper_time p) (Some 0%R) = false.
Proof.
  destruct (in_dec p) as [i|i]; [rewrite (proper_in p i)|rewrite (proper_out p i)]; [|reflexivity].
  cbn. pose proof (tau_pos p). destruct Rlt_dec; [lra|reflexivity].
Qed.

Lemma check_ok {A} (p : icp A) (t : option R) :
  lt (minus (proper_time p) t) (Some small) = true <-> match t with Some t => inside p /\ (tau p - t < / 1000000)%R | None => False end.
Proof.
  destruct (in_dec p) as [i|i]; [rewrite (proper_in p i)|rewrite (proper_out p i)]; destruct t as [t|]; cbn; unfold small.
  - destruct Rlt_dec; split; auto; try discriminate; intros []; lra.
  - split; [discriminate|tauto].
  - split; [discriminate|tauto].
  - split; [discriminate|tauto].
Qed.

Lemma ref_cons {A} t (p : icp A) l :
  ref_ok t (p :: l) <-> match t with Some t => inside p /\ (tau p - t < / 1000000)%R | None => False end /\ ref_ok t l.
Proof.
  destruct t as [t|]; cbn; [apply Forall_cons_iff|]. split; [discriminate|tauto].
Qed.

Lemma run_set {A} (h : list (call A)) : forall s, lt (c_tau s) (Some 0%R) = false ->
  ((exists s', run s h = (s', Ok tt)) <-> Forall proper_call h /\ ref_ok (c_tau s) (handed h)).
Proof.
  induction h as [|c h IH]; intros s N.
  - cbn. split; [intros _|intros _; now exists s]. split; [constructor|]. destruct (c_tau s); [constructor|reflexivity].
  - assert (K : forall s1, c_tau s1 = c_tau s -> ((exists s', run s1 h = (s', Ok tt)) <-> Forall proper_call h /\ ref_ok (c_tau s) (handed h))).
    { intros s1 E. rewrite (IH s1); [rewrite E; reflexivity|rewrite E; exact N]. }
    rewrite Forall_cons_iff. unfold handed in *. cbn [flat_map run].
    destruct c as [n ev ens|n ev ens| |fluid ins]; cbn [step single proper_call app].
    + unfold at_eventstart. destruct (Z.eqb_spec n 1) as [->|D]; cbn [negb].
      * rewrite (K (write s (L_start ev ens)) eq_refl). tauto.
      * split; [intros [s' X]; discriminate X|tauto].
    + unfold at_eventend. destruct (Z.eqb_spec n 1) as [->|D]; cbn [negb].
      * rewrite (K (write s (L_end ev ens)) eq_refl). tauto.
      * split; [intros [s' X]; discriminate X|tauto].
    + rewrite (K s eq_refl). tauto.
    + unfold at_interaction. destruct fluid; cbn [negb]; [|split; [intros [s' X]; discriminate X|intros [[[X _] _] _]; discriminate X]].
      destruct ins as [|p [|q r]].
      * split; [intros [s' X]; discriminate X|intros [[[_ X] _] _]; discriminate X].
      * set (s1 := if q_hits p =? 0 then s else write s (L_row (q_data p))).
        assert (E : c_tau s1 = c_tau s) by (unfold s1; destruct (q_hits p =? 0); reflexivity).
        cbv zeta. rewrite E, N. cbn [app]. rewrite ref_cons, <- (check_ok p (c_tau s)).
        destruct (lt (minus (proper_time p) (c_tau s)) (Some small)); cbn [negb].
        -- rewrite (K s1 E). cbn. tauto.
        -- split; [intros [s' X]; discriminate X|intros [_ [X _]]; discriminate X].
      * split; [intros [s' X]; discriminate X|intros [[[_ X] _] _]; discriminate X].
Qed.

Lemma run_unset {A} (h : list (call A)) : forall s, lt (c_tau s) (Some 0%R) = true ->
  ((exists s', run s h = (s', Ok tt)) <-> Forall proper_call h /\ not_later (handed h)).
Proof.
  induction h as [|c h IH]; intros s N.
  - cbn. split; [intros _|intros _; now exists s]. split; [constructor|exact I].
  - assert (K : forall s1, c_tau s1 = c_tau s -> ((exists s', run s1 h = (s', Ok tt)) <-> Forall proper_call h /\ not_later (handed h))).
    { intros s1 E. apply IH. rewrite E; exact N. }
    rewrite Forall_cons_iff. unfold handed in *. cbn [flat_map run].
    destruct c as [n ev ens|n ev ens| |fluid ins]; cbn [step single proper_call app].
    + unfold at_eventstart. destruct (Z.eqb_spec n 1) as [->|D]; cbn [negb].
      * rewrite (K (write s (L_start ev ens)) eq_refl). tauto.
      * split; [intros [s' X]; discriminate X|tauto].
    + unfold at_eventend. destruct (Z.eqb_spec n 1) as [->|D]; cbn [negb].
      * rewrite (K (write s (L_end ev ens)) eq_refl). tauto.
      * split; [intros [s' X]; discriminate X|tauto].
    + rewrite (K s eq_refl). tauto.
    + unfold at_interaction. destruct fluid; cbn [negb]; [|split; [intros [s' X]; discriminate X|intros [[[X _] _] _]; discriminate X]].
      destruct ins as [|p [|q r]].
      * split; [intros [s' X]; discriminate X|intros [[[_ X] _] _]; discriminate X].
      * set (s1 := if q_hits p =? 0 then s else write s (L_row (q_data p))).
        assert (E : c_tau s1 = c_tau s) by (unfold s1; destruct (q_hits p =? 0); reflexivity).
        cbv zeta. rewrite E, N. rewrite (run_set h (IC (proper_time p) (c_file s1)) (lt_zero_set p)). cbn [c_tau app].
        assert (X : ref_ok (proper_time p) (flat_map single h) <-> not_later (p :: flat_map single h)).
        { destruct (in_dec p) as [i|i]; [rewrite (proper_in p i)|rewrite (proper_out p i)]; cbn [ref_ok not_later];
            destruct (flat_map single h) as [|q r]; split; auto; try tauto; try discriminate. }
        unfold handed. rewrite X. cbn. tauto.
      * split; [intros [s' X]; discriminate X|intros [[[_ X] _] _]; discriminate X].
Qed.

(** * Properties *)
Lemma init_unset {A} : lt (c_tau (@ic_init A)) (Some 0%R) = true.
Proof. cbn. destruct Rlt_dec; [reflexivity|lra]. Qed.

(** C129: after a run that was not stopped, the file contains exactly the start and end lines of the events and between them, in order,
    one line for each particle handed over that had collided before; spectators are left out. *)
Theorem ic_file {A} (h : list (call A)) s : run ic_init h = (s, Ok tt) -> c_file s = expected h.
Proof. exact (file_of_run h ic_init s). Qed.
Print Assumptions ic_file.

(** C129: which runs are not stopped: one ensemble, one particle at a time, and no particle later than the first one by 1e-6 fm. *)
Theorem ic_accepts {A} (h : list (call A)) :
  (exists s, run ic_init h = (s, Ok tt)) <-> Forall proper_call h /\ not_later (handed h).
Proof. exact (run_unset h ic_init init_unset). Qed.
Print Assumptions ic_accepts.

(** C129: in a completed run with at least two particles, none has a proper time later than that of the first by 1e-6 fm or more.
    Missing: that none is earlier, which is false (ic_same_time_refuted). *)
Theorem ic_same_time_partial {A} (h : list (call A)) s p r : run ic_init h = (s, Ok tt) -> handed h = p :: r ->
  forall q, In q r -> inside p /\ inside q /\ (tau q < tau p + / 1000000)%R.
Proof.
  intros E H q I. destruct (proj1 (ic_accepts h) (ex_intro _ s E)) as [_ N]. rewrite H in N.
  destruct r as [|x r]; [destruct I|]. destruct N as [J N]. destruct (proj1 (Forall_forall _ _) N q I) as [K L].
  splits; auto. lra.
Qed.
Print Assumptions ic_same_time_partial.

(** C129: a run with another number of ensembles than one is refused at its first event, before anything is written. *)
Theorem ic_one_ensemble {A} (h : list (call A)) n ev ens : n <> 1 ->
  run ic_init (C_start n ev ens :: h) = (ic_init, Throw E_logic).
Proof. intros D. cbn [run step]. unfold at_eventstart. destruct (Z.eqb_spec n 1); [contradiction|reflexivity]. Qed.
Print Assumptions ic_one_ensemble.

(** C129: whatever is in the file stays there, at a failure too: the file of a run begins with that of each part of it. *)
Theorem ic_only_appends {A} (h1 h2 : list (call A)) s :
  run ic_init h1 = (s, Ok tt) -> exists l, c_file (fst (run ic_init (h1 ++ h2))) = expected h1 ++ l.
Proof.
  intros E. rewrite run_app, E. rewrite <- (ic_file h1 s E). clear E.
  assert (W : forall (x : ic A) c, exists l, c_file (fst (step x c)) = c_file x ++ l).
  { intros x [n ev ens|n ev ens| |fluid ins]; cbn [step].
    - unfold at_eventstart. destruct (negb _); cbn; [exists []; now rewrite app_nil_r|eauto].
    - unfold at_eventend. destruct (negb _); cbn; [exists []; now rewrite app_nil_r|eauto].
    - exists []; cbn; now rewrite app_nil_r.
    - unfold at_interaction. destruct (negb fluid); [exists []; cbn; now rewrite app_nil_r|].
      destruct ins as [|p [|q r]]; [exists []; cbn; now rewrite app_nil_r| |exists []; cbn; now rewrite app_nil_r].
      cbv zeta. destruct (q_hits p =? 0).
      + exists []. rewrite app_nil_r. destruct (lt _ _); [reflexivity|]. destruct (negb _); reflexivity.
      + exists [L_row (q_data p)]. destruct (lt _ _); [reflexivity|]. destruct (negb _); reflexivity. }
  revert s. induction h2 as [|c h2 IH]; intros s; cbn [run].
  - exists []. cbn. now rewrite app_nil_r.
  - destruct (W s c) as [l L]. destruct (step s c) as [s' [u|e|u]]; cbn in L; [|now exists l|now exists l].
    destruct (IH s') as [k K]. exists (l ++ k). now rewrite K, L, app_assoc.
Qed.
Print Assumptions ic_only_appends.

(** C129: when the proper time is found to have changed, the line of the particle that is too late is already in the file. *)
Theorem ic_late_particle {A} (h : list (call A)) s p q r : run ic_init h = (s, Ok tt) -> handed h = p :: r ->
  inside p -> q_hits q <> 0 -> ~ (inside q /\ (tau q - tau p < / 1000000)%R) ->
  exists s', run ic_init (h ++ [C_inter true [q]]) = (s', Throw E_runtime) /\ c_file s' = expected h ++ [L_row (q_data q)].
Proof.
  intros E H I Q L.
  assert (T : lt (c_tau s) (Some 0%R) = false /\ c_tau s = Some (tau p)).
  { assert (G : forall (h : list (call A)) x y, lt (c_tau x) (Some 0%R) = true -> run x h = (y, Ok tt) ->
      match handed h with [] => c_tau y = c_tau x | p :: _ => c_tau y = proper_time p end).
    { assert (G0 : forall (h : list (call A)) x y, lt (c_tau x) (Some 0%R) = false -> run x h = (y, Ok tt) -> c_tau y = c_tau x).
      { clear. induction h as [|c h IH]; intros x y N E; [now injection E as <-|]. cbn [run] in E.
        destruct (step x c) as [x1 [[]|e|u]] eqn:F; [|discriminate E|discriminate E].
        assert (X : c_tau x1 = c_tau x).
        { destruct c as [n ev ens|n ev ens| |fluid ins]; cbn [step] in F.
          - unfold at_eventstart in F. destruct (negb _); [discriminate F|]. now injection F as <-.
          - unfold at_eventend in F. destruct (negb _); [discriminate F|]. now injection F as <-.
          - now injection F as <-.
          - unfold at_interaction in F. destruct (negb fluid); [discriminate F|].
            destruct ins as [|p [|q r]]; [discriminate F| |discriminate F]. cbv zeta in F.
            destruct (q_hits p =? 0); cbn [c_tau write] in F; rewrite N in F; (destruct (negb _); [discriminate F|]); now injection F as <-. }
        rewrite <- X. apply IH; [now rewrite X|exact E]. }
      clear - G0. induction h as [|c h IH]; intros x y N E; [now injection E as <-|]. cbn [run] in E.
      destruct (step x c) as [x1 [[]|e|u]] eqn:F; [|discriminate E|discriminate E].
      unfold handed. cbn [flat_map]. destruct c as [n ev ens|n ev ens| |fluid ins]; cbn [step single app] in *.
      - unfold at_eventstart in F. destruct (negb _); [discriminate F|]. injection F as <-. exact (IH (write x (L_start ev ens)) y N E).
      - unfold at_eventend in F. destruct (negb _); [discriminate F|]. injection F as <-. exact (IH (write x (L_end ev ens)) y N E).
      - injection F as <-. exact (IH x y N E).
      - unfold at_interaction in F. destruct (negb fluid); [discriminate F|].
        destruct ins as [|p [|q r]]; [discriminate F| |discriminate F]. cbv zeta in F. cbn [app].
        destruct (q_hits p =? 0); cbn [c_tau write] in F; rewrite N in F; injection F as <-;
          exact (G0 h (IC (proper_time p) _) y (lt_zero_set p) E). }
    pose proof (G h ic_init s init_unset E) as X. rewrite H in X. rewrite X. split; [apply lt_zero_set|apply proper_in; exact I]. }
  destruct T as [T1 T2].
  rewrite run_app, E. cbn [run step]. unfold at_interaction. cbn [negb]. cbv zeta.
  destruct (Z.eqb_spec (q_hits q) 0) as [e|_]; [contradiction|]. cbn [c_tau write]. rewrite T1.
  destruct (lt (minus (proper_time q) (c_tau s)) (Some small)) eqn:C.
  - exfalso. apply L. rewrite T2 in C. exact (proj1 (check_ok q (Some (tau p))) C).
  - cbn [negb]. eexists; split; [reflexivity|]. cbn. now rewrite (ic_file h s E).
Qed.
Print Assumptions ic_late_particle.

(** * Counterexamples and witnesses *)
Definition at_t (a : nat) (hits : Z) (t : R) : icp nat := ICP a hits t 0%R.
Lemma at_t_inside a k t : inside (at_t a k t).
Proof. unfold inside, at_t; cbn. pose proof (Rle_0_sqr t). unfold Rsqr in *. lra. Qed.
Lemma at_t_tau a k t : (0 <= t)%R -> tau (at_t a k t) = t.
Proof. intros. unfold tau, at_t; cbn. replace (t * t - 0 * 0)%R with (t * t)%R by ring. now apply sqrt_square. Qed.

Lemma accept2 (p q : icp nat) (h : list (call nat)) : handed h = [p; q] -> Forall proper_call h -> inside p -> inside q -> (tau q - tau p < / 1000000)%R ->
  exists s, run ic_init h = (s, Ok tt).
Proof. intros H F I J L. apply ic_accepts. rewrite H. split; [exact F|]. split; [exact I|]. constructor; [auto|constructor]. Qed.

(** C129: the proper times of the listed particles need not agree: one that is earlier by any amount is accepted, because the difference
    is compared with 1e-6 without taking its absolute value. *)
Theorem ic_same_time_refuted :
  exists (h : list (call nat)) s p q, run ic_init h = (s, Ok tt) /\ handed h = [p; q] /\ In (L_row (q_data p)) (c_file s) /\
    In (L_row (q_data q)) (c_file s) /\ (tau p - tau q = 10)%R.
Proof.
  set (p := at_t 1 1 11%R). set (q := at_t 2 1 1%R).
  assert (TP : tau p = 11%R) by (apply at_t_tau; lra). assert (TQ : tau q = 1%R) by (apply at_t_tau; lra).
  destruct (accept2 p q [C_start 1 0 0; C_inter true [p]; C_inter true [q]; C_end 1 0 0]) as [s E]; auto.
  - repeat constructor.
  - apply at_t_inside.
  - apply at_t_inside.
  - lra.
  - exists [C_start 1 0 0; C_inter true [p]; C_inter true [q]; C_end 1 0 0], s, p, q. rewrite (ic_file _ s E). splits; auto.
    + right; left; reflexivity.
    + right; right; left; reflexivity.
    + lra.
Qed.
Print Assumptions ic_same_time_refuted.

(** C129: an event is not judged by itself: two events, each accepted alone, are refused one after the other, because the reference proper
    time of the first event is kept. *)
Theorem ic_events_independent_refuted :
  exists h1 h2 : list (call nat), (exists s, run ic_init h1 = (s, Ok tt)) /\ (exists s, run ic_init h2 = (s, Ok tt)) /\
    ~ exists s, run ic_init (h1 ++ h2) = (s, Ok tt).
Proof.
  exists [C_start 1 0 0; C_inter true [at_t 1 1 1%R]; C_end 1 0 0], [C_start 1 1 0; C_inter true [at_t 2 1 2%R]; C_end 1 1 0].
  split; [|split]; [apply ic_accepts; split; [repeat constructor|exact I]..|].
  intros X. apply ic_accepts in X. destruct X as [_ [_ X]]. apply Forall_inv in X. destruct X as [_ X].
  rewrite !at_t_tau in X; lra.
Qed.
Print Assumptions ic_events_independent_refuted.

(** C129: a spectator, which is not listed, still sets the reference: without it the run is accepted, with it refused. *)
Theorem ic_spectators_ignored_refuted :
  exists (p q : icp nat), q_hits p = 0 /\ (exists s, run ic_init [C_start 1 0 0; C_inter true [q]; C_end 1 0 0] = (s, Ok tt)) /\
    ~ exists s, run ic_init [C_start 1 0 0; C_inter true [p]; C_inter true [q]; C_end 1 0 0] = (s, Ok tt).
Proof.
  exists (at_t 1 0 1%R), (at_t 2 1 2%R). splits; auto.
  - apply ic_accepts; split; [repeat constructor|exact I].
  - intros X. apply ic_accepts in X. destruct X as [_ [_ X]]. apply Forall_inv in X. destruct X as [_ X].
    rewrite !at_t_tau in X; lra.
Qed.
Print Assumptions ic_spectators_ignored_refuted.

(** two events with a spectator and three listed particles: a completed run as in ic_file, ic_accepts and ic_same_time_partial *)
Example ic_witness : let h := [C_start 1 0 0; C_inter true [at_t 1 1 2%R]; C_inter true [at_t 2 0 2%R]; C_time; C_inter true [at_t 3 4 2%R]; C_end 1 0 0;
    C_start 1 1 0; C_inter true [at_t 4 1 2%R]; C_end 1 1 0] in
  (exists s, run ic_init h = (s, Ok tt)) /\ expected h = [L_start 0 0; L_row 1%nat; L_row 3%nat; L_end 0 0; L_start 1 0; L_row 4%nat; L_end 1 0].
Proof.
  split; [|reflexivity]. apply ic_accepts. split; [repeat constructor|]. split; [apply at_t_inside|].
  apply Forall_forall. cbn [handed flat_map single app In].
  intros q [<-|[<-|[<-|[]]]]; (split; [apply at_t_inside|rewrite !at_t_tau; lra]).
Qed.
(** a late particle, as in ic_late_particle *)
Example ic_late_witness : inside (at_t 1 1 2%R) /\ q_hits (at_t 2 1 3%R) <> 0 /\ ~ (inside (at_t 2 1 3%R) /\ (tau (at_t 2 1 3%R) - tau (at_t 1 1 2%R) < / 1000000)%R) /\
  exists s, run ic_init [C_start 1 0 0; C_inter true [at_t 1 1 2%R]] = (s, Ok tt).
Proof.
  splits; [apply at_t_inside|discriminate| |apply ic_accepts; split; [repeat constructor|exact I]].
  intros [_ X]. rewrite !at_t_tau in X; lra.
Qed.
