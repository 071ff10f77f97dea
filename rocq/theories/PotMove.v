(** One step of the momenta in the potentials (C123): each particle is pushed by its own force for the time step, keeps
    its mass, place and identity, and nothing that was found for one particle acts on another; the Coulomb fields. *)
From Coq Require Import ZArith Reals List Bool Lra Lia.
From Verif Require Import Base VecModel VecProps DensModel DensSpec DensProofs DensProps DensMore WidthModel WoodsSaxon PotModel PotProps PotForce.
Import ListNotations.
Open Scope R_scope.

(** ** What a particle should feel *)
(** The force a lattice holds at a place: none where the lattice does not reach, zero for a potential that is off *)
Definition on_lattice (on : bool) (l : lattice) (r : vec3) : option force :=
  if on then match l with Some v => v r | None => None end else Some no_force.
(** The mean field at a place: from the lattices where all those needed reach it, otherwise from all the particles *)
Inductive mean_field (P : pot) (FB FI : lattice) (plist : list dpart) (r : vec3) : force -> force -> Prop :=
| from_lattices fb fi : on_lattice (use_skyrme P || use_vdf P) FB r = Some fb -> on_lattice (use_symmetry P) FI r = Some fi ->
    mean_field P FB FI plist r fb fi
| from_particles fb fi : on_lattice (use_skyrme P || use_vdf P) FB r = None \/ on_lattice (use_symmetry P) FI r = None ->
    outside_lattice P = true -> all_forces P r plist = Some (fb, fi) -> mean_field P FB FI plist r fb fi.
(** Particles that feel nothing: those that are not made of baryons, and those outside the lattices if the potentials
    end there *)
Definition free (P : pot) (FB FI : lattice) (p : mpart) : Prop :=
  affected (d_type (m_part p)) = false \/
  (outside_lattice P = false /\ (on_lattice (use_skyrme P || use_vdf P) FB (d_pos (m_part p)) = None \/ on_lattice (use_symmetry P) FI (d_pos (m_part p)) = None)).
Definition push (f : force) (v : vec3) : vec3 := add3 (fst f) (cross3 v (snd f)).
Definition coulomb_part (P : pot) (EM : lattice) (d : dpart) (F : vec3) : Prop :=
  if use_coulomb P then exists l, EM = Some l /\
    F = match l (d_pos d) with Some em => scale3 (hbarc * IZR (charge (d_type d)) * elementary_charge) (push em (velocity (d_mom d))) | None => zero3 end
  else F = zero3.
(** The force on a particle *)
Definition force_on (P : pot) (energy : vec3 -> vec4 -> R -> res R) (jB : option current_lattice) (FB FI EM : lattice)
    (plist : list dpart) (p : mpart) (F : vec3) : Prop :=
  let d := m_part p in let t := d_type d in let v := velocity (d_mom d) in
  exists fb fi m A C, mean_field P FB FI plist (d_pos d) fb fi /\ effective_mass p = Ok m /\
    (if use_momentum_dependence P then exists g, energy_gradient P energy jB (d_pos d) (threevec (d_mom d)) m plist = Ok g /\ A = neg3 g else A = push fb v) /\
    coulomb_part P EM d C /\
    F = add3 (add3 (scale3 (fst (force_scale t)) A) (scale3 (IZR (baryon_number t) * isospin3_rel t) (push fi v))) C.
(** What becomes of a particle *)
Definition pushed (dt : R) (F : vec3) (p q : mpart) : Prop :=
  exists m, effective_mass p = Ok m /\
  m_id q = m_id p /\ m_pole q = m_pole p /\ d_type (m_part q) = d_type (m_part p) /\ d_pos (m_part q) = d_pos (m_part p) /\
  d_collisions (m_part q) = d_collisions (m_part p) /\
  threevec (d_mom (m_part q)) = add3 (threevec (d_mom (m_part p))) (scale3 dt F) /\
  y0 (d_mom (m_part q)) = sqrt (m * m + sqr3 (threevec (d_mom (m_part q)))).
Definition stepped P dt energy jB FB FI EM plist (p q : mpart) : Prop :=
  (free P FB FI p /\ q = p) \/ (~ free P FB FI p /\ exists F, force_on P energy jB FB FI EM plist p F /\ pushed dt F p q).
(** a particle whose momentum changes by more than a tenth in the step *)
Definition too_fast P dt energy jB FB FI EM plist (p q : mpart) : Prop :=
  ~ free P FB FI p /\ exists F, force_on P energy jB FB FI EM plist p F /\ really_small <= abs3 F /\ y0 (d_mom (m_part q)) / abs3 F / 10 < dt.

(** ** Proof *)
Lemma add3_zero a : add3 a zero3 = a.
Proof. unfold zero3. destruct a. v3. Qed.
Lemma lookup_spec P FB FI r fb0 fi0 :
  let has (l : lattice) := match l with Some _ => true | None => false end in
  let possibly := (if use_skyrme P then has FB else true) && (if use_vdf P then has FB else true) && (if use_symmetry P then has FI else true) in
  let '(u1, f1) := lookup (use_skyrme P) FB r possibly fb0 in
  let '(u2, f2) := lookup (use_vdf P) FB r u1 f1 in
  let '(use, i1) := lookup (use_symmetry P) FI r u2 fi0 in
  if use then on_lattice (use_skyrme P || use_vdf P) FB r = Some (if negb (use_skyrme P) && negb (use_vdf P) then no_force else f2) /\
              on_lattice (use_symmetry P) FI r = Some (if negb (use_symmetry P) then no_force else i1)
  else on_lattice (use_skyrme P || use_vdf P) FB r = None \/ on_lattice (use_symmetry P) FI r = None.
Proof.
  cbv zeta. unfold lookup, on_lattice, value_at.
  destruct (use_skyrme P), (use_vdf P), (use_symmetry P), FB as [vb|], FI as [vi|]; cbn [andb orb negb]; auto;
    try (destruct (vb r)); cbn; auto; try (destruct (vi r)); cbn; auto.
Qed.
Lemma some_pair {A B} (a c : A) (b d : B) : Some (a, b) = Some (c, d) -> a = c /\ b = d.
Proof. now intros [= -> ->]. Qed.
Lemma mean_field_unique P FB FI plist r a b c d : mean_field P FB FI plist r a b -> mean_field P FB FI plist r c d -> a = c /\ b = d.
Proof.
  intros [? ? A B|? ? A U B] [? ? C D|? ? C V D].
  - rewrite C in A. rewrite D in B. split; congruence.
  - destruct C; congruence.
  - destruct A; congruence.
  - rewrite B in D. now apply some_pair in D.
Qed.
Lemma coulomb_unique P EM d a b : coulomb_part P EM d a -> coulomb_part P EM d b -> a = b.
Proof. unfold coulomb_part. destruct (use_coulomb P); [|congruence]. intros (l & L & ->) (l' & L' & ->). rewrite L in L'. now injection L' as <-. Qed.
Lemma force_unique P energy jB FB FI EM plist p F G :
  force_on P energy jB FB FI EM plist p F -> force_on P energy jB FB FI EM plist p G -> F = G.
Proof.
  intros (fb & fi & m & A & C & M1 & M2 & M3 & M4 & ->) (fb' & fi' & m' & A' & C' & N1 & N2 & N3 & N4 & ->).
  destruct (mean_field_unique _ _ _ _ _ _ _ _ _ M1 N1) as (<- & <-). rewrite M2 in N2. injection N2 as <-.
  rewrite (coulomb_unique _ _ _ _ _ M4 N4). f_equal. f_equal. f_equal. destruct (use_momentum_dependence P).
  - destruct M3 as (g & G1 & ->). destruct N3 as (g' & G2 & ->). rewrite G1 in G2. now injection G2 as <-.
  - now rewrite M3, N3.
Qed.
Lemma ok_pair {A B} (a c : A) (b d : B) : Ok (a, b) = Ok (c, d) -> a = c /\ b = d.
Proof. now intros [= -> ->]. Qed.
Definition below (dt : R) (s : carried) : Prop := match c_scale s with Some x => 1 / 10 * x < dt | None => False end.
Lemma kick_spec P dt energy jB FB FI EM plist s p s' q :
  kick P dt plist (fun x k m => energy_gradient P energy jB x k m plist) FB FI EM s p = Ok (s', q) ->
  stepped P dt energy jB FB FI EM plist p q /\ (below dt s' <-> below dt s \/ too_fast P dt energy jB FB FI EM plist p q).
Proof.
  unfold kick. cbv zeta. set (r := d_pos (m_part p)). set (t := d_type (m_part p)).
  destruct (affected t) eqn:AF; cbn [negb].
  2:{ intros [= <- <-]. assert (free P FB FI p) by (left; exact AF). split; [left; auto|]. split; auto. intros [H1|(H1 & _)]; tauto. }
  pose proof (lookup_spec P FB FI r (c_FB s) (c_FI3 s)) as LS. cbv zeta in LS.
  destruct (lookup (use_skyrme P) FB r _ (c_FB s)) as [u1 f1]. destruct (lookup (use_vdf P) FB r u1 f1) as [u2 f2]. destruct (lookup (use_symmetry P) FI r u2 (c_FI3 s)) as [use i1].
  destruct (negb use && negb (outside_lattice P)) eqn:NO.
  { apply andb_prop in NO. destruct NO as (NU & NO). apply negb_true_iff in NU, NO. rewrite NU in LS.
    intros [= <- <-]. assert (free P FB FI p) by (right; auto). split; [left; auto|]. unfold below. cbn [c_scale]. split; auto. intros [H1|(H1 & _)]; tauto. }
  assert (NF : ~ free P FB FI p).
  { intros [H1|(H1 & H2)]; [fold t in H1; congruence|]. fold r in H2. rewrite H1 in NO. destruct use; [|discriminate]. destruct LS as (L1 & L2). destruct H2; congruence. }
  set (FB' := if negb (use_skyrme P) && negb (use_vdf P) then no_force else f2) in *. set (FI' := if negb (use_symmetry P) then no_force else i1) in *.
  assert (MF : forall x, (if negb use then to_res (all_forces P r plist) else Ok (FB', FI')) = Ok x -> mean_field P FB FI plist r (fst x) (snd x)).
  { intros [x y] H1. destruct use; cbn [negb] in H1.
    - injection H1 as <- <-. now apply from_lattices.
    - cbn in NO. apply negb_false_iff in NO. apply from_particles; auto. unfold to_res in H1. destruct (all_forces P r plist) as [z|]; [|discriminate]. now injection H1 as ->. }
  destruct (if negb use then to_res (all_forces P r plist) else Ok (FB', FI')) as [[fb fi]|e|u]; cbn [rbind]; try discriminate.
  specialize (MF _ eq_refl). cbn [fst snd] in MF.
  destruct (effective_mass p) as [m|e|u] eqn:EM'; cbn [rbind]; try discriminate.
  set (iso := scale3 (snd (force_scale t) * isospin3_rel t) (lorentz fi (velocity (d_mom (m_part p))))).
  assert (FA : forall F, (if use_momentum_dependence P then
              g <- energy_gradient P energy jB r (threevec (d_mom (m_part p))) m plist ;; Ok (add3 (scale3 (fst (force_scale t)) (neg3 g)) iso)
            else Ok (add3 (scale3 (fst (force_scale t)) (lorentz fb (velocity (d_mom (m_part p))))) iso)) = Ok F ->
     exists A, (if use_momentum_dependence P then exists g, energy_gradient P energy jB r (threevec (d_mom (m_part p))) m plist = Ok g /\ A = neg3 g else A = push fb (velocity (d_mom (m_part p)))) /\
       F = add3 (scale3 (fst (force_scale t)) A) iso).
  { intros F. destruct (use_momentum_dependence P).
    - destruct (energy_gradient P energy jB r (threevec (d_mom (m_part p))) m plist) as [g|e|u]; cbn [rbind]; try discriminate. intros [= <-]. exists (neg3 g). split; eauto.
    - intros [= <-]. exists (push fb (velocity (d_mom (m_part p)))). split; auto. }
  destruct (if use_momentum_dependence P then _ else _) as [F|e|u]; cbn [rbind]; try discriminate.
  destruct (FA F eq_refl) as (A & A1 & A2). clear FA.
  assert (CO : forall em F', (if use_coulomb P then
              match EM with
              | None => UB UB_oob
              | Some l => let '(ok, em) := value_at l r in
                  Ok (em, if ok then add3 F (scale3 (hbarc * IZR (charge t) * elementary_charge) (lorentz em (velocity (d_mom (m_part p))))) else F)
              end else Ok (c_EM s, F)) = Ok (em, F') -> exists C, coulomb_part P EM (m_part p) C /\ F' = add3 F C).
  { intros em F'. unfold coulomb_part. destruct (use_coulomb P).
    - destruct EM as [l|]; [|discriminate]. unfold value_at. fold r. destruct (l r) as [x|] eqn:LR; intros [= <- <-].
      + eexists. split; [exists l; rewrite LR; split; reflexivity|]. reflexivity.
      + exists zero3. split; [exists l; rewrite LR; auto|]. now rewrite add3_zero.
    - intros [= <- <-]. exists zero3. rewrite add3_zero. auto. }
  destruct (if use_coulomb P then _ else _) as [[em F']|e|u]; cbn [rbind]; try discriminate.
  destruct (CO em F' eq_refl) as (C & C1 & C2). clear CO.
  assert (FO : force_on P energy jB FB FI EM plist p F').
  { exists fb, fi, m, A, C. fold r t. splits; auto. rewrite C2, A2. reflexivity. }
  set (q' := set_momentum p m (add3 (threevec (d_mom (m_part p))) (scale3 dt F'))).
  assert (PQ : pushed dt F' p q').
  { exists m. unfold q', set_momentum. cbn. splits; auto; unfold threevec, mk4; cbn; auto. }
  intros OI. apply ok_pair in OI. destruct OI as (<- & <-). split; [right; split; auto; exists F'; auto|].
  assert (TF : too_fast P dt energy jB FB FI EM plist p q' <-> really_small <= abs3 F' /\ y0 (d_mom (m_part q')) / abs3 F' / 10 < dt).
  { split; [|intros (T1 & T2); split; eauto]. intros (_ & G & G1 & G2). now rewrite (force_unique _ _ _ _ _ _ _ _ _ _ FO G1). }
  rewrite TF. unfold below. cbn [c_scale]. set (ts := y0 (d_mom (m_part q')) / abs3 F') in *. clearbody ts. destruct (Rlt_dec (abs3 F') really_small).
  - split; auto. intros [H1|(H1 & _)]; auto. lra.
  - assert (really_small <= abs3 F') by lra. destruct (c_scale s) as [x|]; [|split; [right; split; auto; lra|intros [[]|(_ & H1)]; lra]].
    destruct (Rlt_dec _ x); (split; [intros H1|intros [H1|(_ & H1)]]; try (left; lra); try (right; split; auto; lra); lra).
Qed.
(** Every particle of every ensemble is treated by itself: it stays as it is if it feels nothing, and otherwise it gets
    the momentum dt times the force on it, where the force is that of all particles as they were before the step.  A
    warning says exactly that some momentum changed too fast. *)
Lemma loop_spec P dt energy jB FB FI EM plist ps : forall s s' qs,
  loop (kick P dt plist (fun x k m => energy_gradient P energy jB x k m plist) FB FI EM) s ps = Ok (s', qs) ->
  Forall2 (stepped P dt energy jB FB FI EM plist) ps qs /\
  (below dt s' <-> below dt s \/ exists p q, In (p, q) (combine ps qs) /\ too_fast P dt energy jB FB FI EM plist p q).
Proof.
  induction ps as [|p ps IH]; intros s s' qs; cbn [loop].
  - intros [= <- <-]. split; [constructor|]. split; auto. intros [H1|(p & q & [] & _)]; auto.
  - destruct (kick _ _ _ _ _ _ _ s p) as [[s1 q]|e|u] eqn:K; cbn [rbind]; try discriminate.
    destruct (loop _ s1 ps) as [[s2 qs']|e|u] eqn:L; cbn [rbind]; try discriminate. intros [= <- <-].
    destruct (kick_spec _ _ _ _ _ _ _ _ _ _ _ _ K) as (K1 & K2). destruct (IH _ _ _ L) as (L1 & L2). split; [constructor; auto|].
    rewrite L2, K2. cbn [combine]. split.
    + intros [[H1|H1]|(a & b & H1 & H2)]; auto; right; [exists p, q|exists a, b]; split; auto; [now left|now right].
    + intros [H1|(a & b & [H1|H1] & H2)]; auto; [|right; eauto]. injection H1 as <- <-. auto.
Qed.
Theorem update_momenta_correct P dt energy jB FB FI EM ensembles out warn :
  update_momenta P dt energy jB FB FI EM ensembles = Ok (out, warn) ->
  let plist := map m_part (concat ensembles) in
  Forall2 (Forall2 (stepped P dt energy jB FB FI EM plist)) ensembles out /\
  (warn = true <-> exists ps qs p q, In (ps, qs) (combine ensembles out) /\ In (p, q) (combine ps qs) /\ too_fast P dt energy jB FB FI EM plist p q).
Proof.
  unfold update_momenta. cbv zeta. set (plist := map m_part (concat ensembles)). clearbody plist.
  assert (L : forall es s s' os, loop (fun s ps => loop (kick P dt plist (fun x k m => energy_gradient P energy jB x k m plist) FB FI EM) s ps) s es = Ok (s', os) ->
    Forall2 (Forall2 (stepped P dt energy jB FB FI EM plist)) es os /\
    (below dt s' <-> below dt s \/ exists ps qs p q, In (ps, qs) (combine es os) /\ In (p, q) (combine ps qs) /\ too_fast P dt energy jB FB FI EM plist p q)).
  { induction es as [|ps es IH]; intros s s' os.
    - cbn [loop]. intros [= <- <-]. split; [constructor|]. split; auto. intros [H1|(ps & qs & p & q & [] & _)]; auto.
    - intros H0. cbn [loop] in H0. destruct (loop (kick P dt plist (fun x k m => energy_gradient P energy jB x k m plist) FB FI EM) s ps) as [[s1 qs]|e|u] eqn:K; cbn [rbind] in H0; try discriminate.
      match type of H0 with context [loop ?f s1 es] => destruct (loop f s1 es) as [[s2 os']|e|u] eqn:L end; cbn [rbind] in H0; try discriminate.
      injection H0 as <- <-. destruct (loop_spec _ _ _ _ _ _ _ _ _ _ _ _ K) as (K1 & K2). destruct (IH _ _ _ L) as (L1 & L2). split; [constructor; auto|].
      rewrite L2, K2. cbn [combine]. split.
      + intros [[H1|(p & q & H1 & H2)]|(a & b & p & q & H1 & H2 & H3)]; auto; right; [exists ps, qs, p, q|exists a, b, p, q]; splits; auto; [now left|now right].
      + intros [H1|(a & b & p & q & [H1|H1] & H2)]; auto; [|right; exists a, b, p, q; auto]. injection H1 as <- <-. left. right. exists p, q. exact H2. }
  match goal with |- context [loop ?f ?s ensembles] => destruct (loop f s ensembles) as [[s' os]|e|u] eqn:E end; cbn [rbind]; try discriminate.
  intros [= <- <-]. destruct (L _ _ _ _ E) as (L1 & L2). split; auto.
  assert (B0 : ~ below dt (Car no_force no_force no_force None)) by (cbn; auto).
  assert (W : (match c_scale s' with Some x => if Rlt_dec (1 / 10 * x) dt then true else false | None => false end) = true <-> below dt s').
  { unfold below. destruct (c_scale s') as [x|]; [destruct (Rlt_dec _ _)|]; split; auto; try discriminate; tauto. }
  rewrite W, L2. tauto.
Qed.
Print Assumptions update_momenta_correct.

(** A pushed particle stays on its mass shell. *)
Theorem mass_kept dt F p q : pushed dt F p q -> really_small <= m_pole p -> 0 <= dot4 (d_mom (m_part p)) (d_mom (m_part p)) ->
  dot4 (d_mom (m_part q)) (d_mom (m_part q)) = dot4 (d_mom (m_part p)) (d_mom (m_part p)).
Proof.
  intros (m & EM & _ & _ & _ & _ & _ & _ & E) PM D. unfold effective_mass in EM. destruct (Rlt_dec (m_pole p) really_small); [lra|].
  rewrite abs4_ok in EM by auto. injection EM as <-.
  assert (E2 : y0 (d_mom (m_part q)) * y0 (d_mom (m_part q)) = dot4 (d_mom (m_part p)) (d_mom (m_part p)) + sqr3 (threevec (d_mom (m_part q)))).
  { rewrite E. unfold length4. rewrite (sqrt_sqrt (dot4 _ _)) by auto. apply sqrt_sqrt. unfold sqr3, dot3, threevec. cbn [x1 x2 x3].
    pose proof (Rle_0_sqr (y1 (d_mom (m_part q)))). pose proof (Rle_0_sqr (y2 (d_mom (m_part q)))). pose proof (Rle_0_sqr (y3 (d_mom (m_part q)))). unfold Rsqr in *. lra. }
  unfold dot4 at 1. rewrite E2. unfold sqr3, dot3, threevec. cbn [x1 x2 x3]. ring.
Qed.
Print Assumptions mass_kept.
(** What happens to a particle does not depend on the order of the others nor on how they are spread over ensembles: two
    calls with the same particles and the same lattices do the same to it. *)
Theorem order_irrelevant P dt energy jB FB FI EM plist p q q' :
  stepped P dt energy jB FB FI EM plist p q -> stepped P dt energy jB FB FI EM plist p q' -> q = q'.
Proof.
  intros [(A1 & A2)|(A1 & F & A2 & A3)] [(B1 & B2)|(B1 & G & B2 & B3)]; try tauto; [congruence|].
  rewrite <- (force_unique _ _ _ _ _ _ _ _ _ _ A2 B2) in B3. destruct A3 as (m & M & I & T & Y & X & C & K & E). destruct B3 as (m' & M' & I' & T' & Y' & X' & C' & K' & E').
  rewrite M in M'. injection M' as <-. destruct q as [i t [ty po [a b c d] co]], q' as [i' t' [ty' po' [a' b' c' d'] co']]. cbn in *. rewrite <- K' in K. injection K as -> -> ->. pose proof (eq_trans E (eq_sym E')) as AA. clear E E'. subst. reflexivity.
Qed.
Print Assumptions order_irrelevant.
(** With the Coulomb potential on and no lattice for its fields, the null pointer is used for the first particle made of baryons. *)
Theorem coulomb_needs_lattice_refuted P dt energy jB p :
  use_coulomb P = true -> use_skyrme P = false -> use_vdf P = false -> use_symmetry P = false -> use_momentum_dependence P = false ->
  affected (d_type (m_part p)) = true -> 0 <= dot4 (d_mom (m_part p)) (d_mom (m_part p)) ->
  update_momenta P dt energy jB None None None [[p]] = UB UB_oob.
Proof.
  intros C K V Y M A D. unfold update_momenta. cbn [loop]. unfold kick. rewrite A, K, V, Y, M, C. cbn [negb andb lookup to_res].
  unfold effective_mass. rewrite abs4_ok by auto. destruct (Rlt_dec _ _); reflexivity.
Qed.
Print Assumptions coulomb_needs_lattice_refuted.

(** ** The Coulomb fields *)
(** The electric potential at [x] of a charge [Q] (in units of e) at [c], in the units of the code *)
Definition charge_potential (Q : R) (c x : vec3) : R := elementary_charge * Q / abs3 (sub3 x c).
Lemma deriv_inv_dist b s : 0 < s * s + b -> derivable_pt_lim (fun h => / sqrt ((s + h) * (s + h) + b)) 0 (- (s / sqrt (s * s + b) ^ 3)).
Proof.
  intros D.
  assert (D1 : derivable_pt_lim (fun h => (s + h) * (s + h) + b) 0 (2 * s)).
  { apply (deriv_ext (fun h => (s * s + b) + h * (2 * s) + h * h)); [intros; ring|].
    set (k := 2 * s). enough (G : derivable_pt_lim (fun h => (s * s + b + h * k) + h * h) 0 (k + 2 * 0)) by (now rewrite Rmult_0_r, Rplus_0_r in G).
    apply (derivable_pt_lim_plus (fun h => (s * s + b) + h * k) (fun h => h * h)).
    - pose proof (derivable_pt_lim_plus (fun _ => s * s + b) (fun h => h * k) 0 0 k (derivable_pt_lim_const _ _) (deriv_linear k 0)) as E. now rewrite Rplus_0_l in E.
    - apply derivable_pt_lim_Rsqr. }
  assert (S0 : 0 < sqrt (s * s + b)) by (now apply sqrt_lt_R0).
  assert (E0 : (s + 0) * (s + 0) + b = s * s + b) by ring.
  assert (D2 : derivable_pt_lim (fun h => sqrt ((s + h) * (s + h) + b)) 0 (/ (2 * sqrt (s * s + b)) * (2 * s))).
  { apply (derivable_pt_lim_comp (fun h => (s + h) * (s + h) + b) sqrt); auto. rewrite E0. now apply derivable_pt_lim_sqrt. }
  apply (deriv_ext (fun h => 1 / sqrt ((s + h) * (s + h) + b))); [intros; unfold Rdiv; ring|].
  replace (- (s / sqrt (s * s + b) ^ 3)) with ((0 * sqrt ((s + 0) * (s + 0) + b) - / (2 * sqrt (s * s + b)) * (2 * s) * 1) / Rsqr (sqrt ((s + 0) * (s + 0) + b))).
  - apply (derivable_pt_lim_div (fun _ => 1) (fun h => sqrt ((s + h) * (s + h) + b))); auto; [apply derivable_pt_lim_const|]. rewrite E0. lra.
  - rewrite E0. unfold Rsqr. field. lra.
Qed.
Lemma potential_slope Q c r e x dj : axis e dj x -> 0 < abs3 (sub3 r c) ->
  derivable_pt_lim (fun h => charge_potential Q c (add3 r (scale3 h e))) 0 (- (elementary_charge * Q * x (sub3 r c) / abs3 (sub3 r c) ^ 3)).
Proof.
  intros A D. set (d := sub3 r c) in *.
  assert (PS : 0 < sqr3 d). { unfold abs3 in D. apply Rnot_le_lt. intros N. rewrite sqrt_neg_0 in D; [lra|]. exact N. }
  set (b := sqr3 d - x d * x d).
  assert (PB : 0 < x d * x d + b) by (unfold b; lra).
  pose proof (deriv_inv_dist b (x d) PB) as H. pose proof (derivable_pt_lim_scal _ (elementary_charge * Q) _ _ H) as H2. unfold mult_real_fct in H2.
  replace (- (elementary_charge * Q * x d / abs3 d ^ 3)) with (elementary_charge * Q * - (x d / sqrt (x d * x d + b) ^ 3)).
  2:{ replace (x d * x d + b) with (sqr3 d) by (unfold b; ring). unfold abs3, sqr3. unfold Rdiv. ring. }
  eapply deriv_ext; [|exact H2]. intros h. unfold charge_potential, Rdiv. f_equal. f_equal. unfold abs3. f_equal. unfold b.
  destruct A; unfold d, sqr3, dot3, sub3, add3, scale3; cbn [x1 x2 x3]; ring.
Qed.
(** The electric field of a cell is minus the gradient of the potential of its charge. *)
Theorem coulomb_gradient rho volume c r e x dj : axis e dj x -> really_small <= abs3 (sub3 r c) ->
  derivable_pt_lim (fun h => charge_potential (rho * volume) c (add3 r (scale3 h e))) 0 (- x (scale3 volume (E_field_integrand c rho r))).
Proof.
  intros A D. assert (0 < abs3 (sub3 r c)) by (unfold really_small in D; lra).
  replace (- x (scale3 volume (E_field_integrand c rho r))) with (- (elementary_charge * (rho * volume) * x (sub3 r c) / abs3 (sub3 r c) ^ 3)); [eapply potential_slope; eauto|].
  unfold E_field_integrand. destruct (Rlt_dec _ _); [lra|]. set (d := sub3 r c) in *. f_equal.
  destruct A; unfold scale3, div3; cbn [x1 x2 x3]; unfold scale3, div3, Rdiv; cbn [x1 x2 x3]; ring.
Qed.
Print Assumptions coulomb_gradient.
(** The field at a point is the sum over the cells in the cube around it. *)
Fixpoint sum3 (l : list vec3) : vec3 := match l with [] => zero3 | a :: r => add3 a (sum3 r) end.
Definition cells_near (rcut : R) (point : vec3) (cells : list (vec3 * R * vec3)) := filter (fun c => in_cube point rcut (fst (fst c))) cells.
Theorem fields_sum cells rcut volume point : fields_at cells rcut volume point =
  (sum3 (map (fun c => scale3 volume (E_field_integrand (fst (fst c)) (snd (fst c)) point)) (cells_near rcut point cells)),
   sum3 (map (fun c => scale3 volume (B_field_integrand (fst (fst c)) (snd c) point)) (cells_near rcut point cells))).
Proof.
  unfold fields_at. assert (G : forall cells f, fold_left (fun (f : force) c => let '(pos, rho, j) := c in
      if in_cube point rcut pos
      then (add3 (fst f) (scale3 volume (E_field_integrand pos rho point)), add3 (snd f) (scale3 volume (B_field_integrand pos j point)))
      else f) cells f = (add3 (fst f) (sum3 (map (fun c => scale3 volume (E_field_integrand (fst (fst c)) (snd (fst c)) point)) (cells_near rcut point cells))),
   add3 (snd f) (sum3 (map (fun c => scale3 volume (B_field_integrand (fst (fst c)) (snd c) point)) (cells_near rcut point cells))))).
  { clear cells. induction cells as [|[[pos rho] j] cells IH]; intros [a b]; cbn [fold_left cells_near filter fst snd map sum3].
    - now rewrite !add3_zero.
    - rewrite IH. destruct (in_cube point rcut pos); auto. cbn [fst snd map sum3]. f_equal; generalize (E_field_integrand pos rho point), (B_field_integrand pos j point); intros; unfold cells_near; v3. }
  rewrite G. cbn [fst snd no_force]. f_equal; unfold zero3, no_force; cbn [fst snd]; unfold zero3; match goal with |- add3 _ ?v = _ => destruct v end; v3.
Qed.
Print Assumptions fields_sum.
(** The force between two unit charges at distance d along the x axis should be alpha hbar c / d^2.  The charge density
    is that of one charge in a cell.  The constant e is the one of Heaviside-Lorentz units, e^2 = 4 pi alpha, but
    the field is computed without the factor 1 / (4 pi) that belongs to these units. *)
Definition unit_force (d volume : R) : R :=
  hbarc * 1 * elementary_charge * x1 (fst (fields_at [(V3 0 0 0, 1 / volume, V3 0 0 0)] (2 * d) volume (V3 d 0 0))).
Theorem coulomb_law_refuted d volume : 0 < volume -> really_small <= d ->
  unit_force d volume = 4 * PI * (fine_structure * hbarc / (d * d)) /\ unit_force d volume <> fine_structure * hbarc / (d * d).
Proof.
  intros V D. assert (D0 : 0 < d) by (unfold really_small in D; lra). assert (P3 := PI_RGT_0). assert (P4 := PI_4).
  assert (F0 : 0 < fine_structure) by (unfold fine_structure; lra). assert (H0 : 0 < hbarc) by (unfold hbarc; lra).
  assert (EE : elementary_charge * elementary_charge = 4 * PI * fine_structure). { unfold elementary_charge. rewrite sqrt_sqrt; [ring|]. nra. }
  assert (U : unit_force d volume = 4 * PI * (fine_structure * hbarc / (d * d))).
  { unfold unit_force. rewrite fields_sum. unfold cells_near. cbn [filter fst snd].
    assert (IC : in_cube (V3 d 0 0) (2 * d) (V3 0 0 0) = true). { unfold in_cube. cbn [x1 x2 x3]. repeat (destruct (Rle_dec _ _); [|exfalso; lra]; destruct (Rlt_dec _ _); [|exfalso; lra]). reflexivity. }
    rewrite IC. cbn [map sum3 fst snd]. rewrite add3_zero. unfold E_field_integrand.
    assert (AB : abs3 (sub3 (V3 d 0 0) (V3 0 0 0)) = d). { unfold abs3, sqr3, dot3, sub3. cbn [x1 x2 x3]. replace (_ + _ + _) with (Rsqr d) by (unfold Rsqr; ring). apply sqrt_Rsqr. lra. }
    rewrite AB. destruct (Rlt_dec d really_small); [exfalso; lra|]. unfold scale3, div3, sub3. cbn [x1 x2 x3]. unfold scale3. cbn [x1 x2 x3].
    transitivity (hbarc * (elementary_charge * elementary_charge) / (d * d)); [field; lra|]. rewrite EE. field. lra. }
  split; auto. rewrite U. set (k := fine_structure * hbarc / (d * d)). assert (0 < k). { unfold k. apply Rdiv_lt_0_compat; nra. }
  pose proof PI2_1. nra.
Qed.
Print Assumptions coulomb_law_refuted.
Lemma Forall2_weaken {A B} (R S : A -> B -> Prop) l m : (forall a b, R a b -> S a b) -> Forall2 R l m -> Forall2 S l m.
Proof. intros H. induction 1; constructor; auto. Qed.
(** Charged mesons and leptons do not feel the fields they make. *)
Theorem charged_mesons_refuted P dt energy jB FB FI EM ensembles out warn :
  update_momenta P dt energy jB FB FI EM ensembles = Ok (out, warn) ->
  Forall2 (Forall2 (fun p q => affected (d_type (m_part p)) = false -> q = p)) ensembles out.
Proof.
  intros U. destruct (update_momenta_correct _ _ _ _ _ _ _ _ _ _ U) as (F & _). revert F. apply Forall2_weaken. intros ps qs. apply Forall2_weaken.
  intros p q S A. destruct S as [(_ & S)|(S & _)]; auto. exfalso. apply S. now left.
Qed.
Print Assumptions charged_mesons_refuted.
(** A proton and a pion where the lattice holds a field of 1 GeV / fm along x *)
Definition step_pot : pot := Pot true (-1) 1 (3 / 2) false 0 None false 1 [] false 0 1 false false (param usual).
Definition field_x : lattice := Some (fun _ => Some (V3 1 0 0, V3 0 0 0)).
Definition p_proton : mpart := MP 1 1 (DP (d_type a_proton) (V3 0 0 0) (V4 1 0 0 0) 0).
Definition p_pion : mpart := MP 2 1 (DP (DT true false false true 0 1 0 2 2) (V3 0 0 0) (V4 1 0 0 0) 0).
Example step_case : exists q, update_momenta step_pot 1 (fun _ _ _ => Ok 0) None field_x None None [[p_pion; p_proton]] = Ok ([[p_pion; q]], true) /\
  threevec (d_mom (m_part q)) = V3 1 0 0.
Proof.
  assert (EM : effective_mass p_proton = Ok 1).
  { unfold effective_mass. cbn [m_pole p_proton]. destruct (Rlt_dec 1 really_small) as [Q|_]; [unfold really_small in Q; lra|].
    rewrite abs4_ok by (unfold dot4; cbn; lra). f_equal. unfold length4, dot4. cbn. replace (1 * 1 - 0 * 0 - 0 * 0 - 0 * 0) with 1 by ring. apply sqrt_1. }
  set (F := add3 (scale3 (fst (force_scale (d_type a_proton))) (lorentz (V3 1 0 0, V3 0 0 0) (velocity (V4 1 0 0 0))))
                 (scale3 (snd (force_scale (d_type a_proton)) * isospin3_rel (d_type a_proton)) (lorentz no_force (velocity (V4 1 0 0 0))))).
  assert (EF : F = V3 1 0 0).
  { unfold F, force_scale, lorentz, velocity, no_force, zero3, isospin3_rel. cbn. unfold div3. v3; field. }
  assert (AF : abs3 F = 1). { rewrite EF. unfold abs3, sqr3, dot3. cbn [x1 x2 x3]. replace (1 * 1 + 0 * 0 + 0 * 0) with 1 by ring. apply sqrt_1. }
  set (q := set_momentum p_proton 1 (add3 (V3 0 0 0) (scale3 1 F))).
  assert (K : forall plist g s, c_scale s = None -> exists s', kick step_pot 1 plist g field_x None None s p_proton = Ok (s', q) /\ c_scale s' = Some (sqrt 2)).
  { intros plist g s S0. unfold kick. rewrite EM.
    replace (affected (d_type (m_part p_proton))) with true by reflexivity. unfold step_pot, field_x, lookup, value_at.
    cbn [negb andb use_skyrme use_vdf use_symmetry outside_lattice use_momentum_dependence use_coulomb rbind c_scale]. rewrite S0.
    change (d_type (m_part p_proton)) with (d_type a_proton). change (d_mom (m_part p_proton)) with (V4 1 0 0 0). fold F. rewrite AF. change (threevec (V4 1 0 0 0)) with (V3 0 0 0). fold q.
    destruct (Rlt_dec 1 really_small) as [Q|_]; [unfold really_small in Q; lra|]. eexists. split; [reflexivity|]. cbn [c_scale]. f_equal.
    unfold q. rewrite EF. cbn. unfold Rdiv; rewrite Rinv_1, Rmult_1_r. f_equal. unfold dot3. cbn. ring. }
  exists q. split.
  - unfold update_momenta. cbn [loop]. match goal with |- context [kick step_pot 1 ?pl ?g field_x None None ?s p_pion] => change (kick step_pot 1 pl g field_x None None s p_pion) with (Ok (s, p_pion)) end. cbn [rbind loop].
    match goal with |- context [kick step_pot 1 ?pl ?g field_x None None ?s p_proton] => destruct (K pl g s eq_refl) as (s' & K1 & K2) end.
    rewrite K1. cbn [rbind loop]. rewrite K2. destruct (Rlt_dec _ 1) as [_|N]; auto. exfalso. apply N.
    assert (sqrt 2 < 2) by (rewrite <- (sqrt_square 2) at 2 by lra; apply sqrt_lt_1; lra). lra.
  - unfold q. rewrite EF. v3; cbn; ring.
Qed.
