(** Choice of a resonance for a low-mass string and of the leading hadrons:
    src/stringprocess.cc.  Masses are exact reals; the particle list is an argument. *)
From Coq Require Import ZArith Reals List Bool Lia Lra.
From Verif Require Import Base PdgSpec PdgModel PdgProofs PdgMore StringSpec StringModel StringProps StringExcess StringRestore.
Import ListNotations.
Open Scope Z_scope.

(** what is read of a ParticleType: code, is_stable(), min_mass_spectral(), mass() *)
Record ptype := mk_ptype { pt_pdg : pdg; pt_stable : bool; pt_min : R; pt_pole : R }.

(** signed number of quarks in a string end, stringprocess.cc:2708-2724 *)
Definition end_number (id f : Z) : Z :=
  if id <? 0 then - n_quarks (Z.abs id) f else n_quarks (Z.abs id) f.

(** the loop over candidates, stringprocess.cc:2768-2778; mass_diff is mass - pole *)
Fixpoint closest (mass : R) (best : ptype) (min : R) (l : list ptype) : ptype :=
  match l with
  | [] => best
  | p :: t =>
    let d := (mass - pt_pole p)%R in
    if Rlt_dec (Rabs d) min then closest mass p d t else closest mass best min t
  end.

(** baryon number of the string, stringprocess.cc:2677-2700; None: return 0 *)
Definition string_baryon (id1 id2 : Z) : option Z :=
  let end1_is_quark := (0 <? id1) && isQuark id1 in
  let end1_is_antidiq := (id1 <? 0) && isDiquark id1 in
  let end2_is_antiq := (id2 <? 0) && isQuark id2 in
  let end2_is_diquark := (0 <? id2) && isDiquark id2 in
  if end1_is_quark then (if end2_is_antiq then Some 0 else if end2_is_diquark then Some 1 else None)
  else if end1_is_antidiq then (if end2_is_antiq then Some (-1) else None)
  else None.

(** stringprocess.cc:2728-2762 *)
Definition possible (mass : R) (baryon : Z) (n : Z -> Z) (p : ptype) : bool :=
  let w := pt_pdg p in
  is_hadron w && negb (pt_stable p) && (baryon_number w =? baryon) &&
  (if Rlt_dec mass (pt_min p) then false else true) &&
  (isospin3 w =? n 2 - n 1) && (strangeness w =? - n 3) && (charmness w =? n 4) && (bottomness w =? - n 5).

(** get_resonance_from_quark, stringprocess.cc:2664-2786, returning the type instead of its
    decimal code; None: the function returns 0 *)
Definition get_resonance (pion_mass : R) (types : list ptype) (id1 id2 : Z) (mass : R) : option ptype :=
  if Rlt_dec mass pion_mass then None
  else match string_baryon id1 id2 with
  | None => None
  | Some b =>
    let n f := end_number id1 f + end_number id2 f in
    match filter (possible mass b n) types with
    | [] => None
    | p :: t => Some (closest mass p (Rabs (mass - pt_pole p)) t)
    end
  end.

(** *** specification: the resonances that fit the string *)
Definition fits (id1 id2 : Z) (mass : R) (p : ptype) : Prop :=
  is_hadron (pt_pdg p) = true /\ pt_stable p = false /\ (pt_min p <= mass)%R /\
  forall f, flavour f -> nq (pt_pdg p) f = net f [id1; id2].
Definition legal (p : ptype) : Prop := accepted (pt_pdg p) /\ nq (pt_pdg p) 6 = 0.

Lemma closest_in mass l : forall best min, In (closest mass best min l) (best :: l).
Proof.
  induction l as [|p t IH]; intros best min; [left; reflexivity|]. cbn [closest].
  destruct (Rlt_dec _ _).
  - right. apply IH.
  - destruct (IH best min) as [E|I]; [left; exact E|right; right; exact I].
Qed.

Lemma end_number_net f x : flavour f -> parton x -> end_number x f = net f [x].
Proof.
  intros F P. rewrite net_counts by (try apply Forall_cons; auto).
  rewrite qc_cons, ac_cons. change (qc f []) with 0. change (ac f []) with 0. unfold end_number.
  destruct (Z.ltb_spec x 0) as [N|N].
  - rewrite (proj2 (Z.ltb_ge 0 x)) by lia. destruct (parton_opp x P ltac:(lia)) as (Po & Pp & Co).
    rewrite Z.abs_neq by lia. rewrite n_quarks_spec, Co by assumption. lia.
  - assert (0 < x). { destruct P as [-> |[Q|D]]; [lia|unfold quark, flavour in Q; lia|].
      destruct D as (s & a & b & g & Sg & A & B & _ & G & _ & ->). unfold flavour in *. destruct Sg; subst; lia. }
    rewrite (proj2 (Z.ltb_lt 0 x)) by assumption. rewrite Z.abs_eq by lia. rewrite n_quarks_spec by assumption. lia.
Qed.

Lemma net_two f x y : net f [x; y] = net f [x] + net f [y].
Proof.
  unfold net. cbn [flat_map]. rewrite !app_nil_r. unfold net_count. rewrite map_app. apply zsum_app.
Qed.

Lemma string_number id1 id2 : string_ends id1 id2 ->
  exists b, string_baryon id1 id2 = Some b /\
  net 1 [id1; id2] + net 2 [id1; id2] + net 3 [id1; id2] + net 4 [id1; id2] + net 5 [id1; id2] = 3 * b.
Proof.
  intros En. rewrite !net_two. unfold string_baryon.
    assert (q1 : forall x, quark x -> net 1 [x] + net 2 [x] + net 3 [x] + net 4 [x] + net 5 [x] = Z.sgn x).
    { intros x Q. unfold quark, flavour in Q.
      assert (x = 1 \/ x = 2 \/ x = 3 \/ x = 4 \/ x = 5 \/ x = -1 \/ x = -2 \/ x = -3 \/ x = -4 \/ x = -5) as X by lia.
      repeat (destruct X as [-> |X]; [reflexivity|]). subst. reflexivity. }
    assert (q2 : forall x, diquark x -> net 1 [x] + net 2 [x] + net 3 [x] + net 4 [x] + net 5 [x] = 2 * Z.sgn x).
    { intros x (s & a & c & g & Sg & A & B & L & G & Gn & ->). unfold flavour in *.
      five a; five c; try lia; destruct Sg as [-> | ->]; destruct G as [-> | ->]; reflexivity. }
    assert (kq : forall x, quark x -> isQuark x = true) by (intros x Q; apply quark_kind; exact Q).
    assert (kd : forall x, diquark x -> isQuark x = false /\ isDiquark x = true).
    { intros x (s & a & c & g & Sg & A & B & L & G & Gn & ->). apply diquark_kind; assumption. }
    destruct En as [(S1 & Q1 & S2 & Q2)|[(S1 & Q1 & S2 & Q2)|(S1 & Q1 & S2 & Q2)]].
    - pose proof (q1 _ Q1). pose proof (q1 _ Q2). rewrite (kq _ Q1), (kq _ Q2).
      rewrite (proj2 (Z.ltb_lt 0 id1)), (proj2 (Z.ltb_lt id2 0)) by assumption. cbn [andb].
      exists 0. split; [reflexivity|lia].
    - pose proof (q1 _ Q1). pose proof (q2 _ Q2). rewrite (kq _ Q1), (proj1 (kd _ Q2)), (proj2 (kd _ Q2)).
      rewrite (proj2 (Z.ltb_lt 0 id1)), (proj2 (Z.ltb_lt 0 id2)), andb_false_r by assumption. cbn [andb].
      exists 1. split; [reflexivity|lia].
    - pose proof (q2 _ Q1). pose proof (q1 _ Q2). rewrite (kq _ Q2), (proj1 (kd _ Q1)), (proj2 (kd _ Q1)).
      rewrite (proj2 (Z.ltb_lt id1 0)), (proj2 (Z.ltb_lt id2 0)), andb_false_r by assumption. cbn [andb].
      exists (-1). split; [reflexivity|lia].
Qed.

Lemma possible_fits id1 id2 mass b p : string_ends id1 id2 -> string_baryon id1 id2 = Some b -> legal p ->
  possible mass b (fun f => end_number id1 f + end_number id2 f) p = true <-> fits id1 id2 mass p.
Proof.
  intros En Eb [Ac Top].
  assert (P1 : parton id1 /\ parton id2) by (destruct En as [(?&?&?&?)|[(?&?&?&?)|(?&?&?&?)]]; unfold parton; tauto).
  assert (Nn : forall f, flavour f -> end_number id1 f + end_number id2 f = net f [id1; id2]).
  { intros f F. rewrite !end_number_net by tauto. rewrite net_two. reflexivity. }
  destruct (string_number id1 id2 En) as (b' & Eb' & Tot). assert (b' = b) by congruence. subst b'.
  unfold possible, fits. rewrite !Nn by (unfold flavour; lia).
  destruct (is_hadron (pt_pdg p)) eqn:Ch; [|cbn [andb]; split; [discriminate|intros (Q & _); discriminate]].
  assert (Hn : is_nucleus (pt_pdg p) = false).
  { unfold is_hadron in Ch. destruct (is_nucleus (pt_pdg p)); [rewrite !andb_false_r in Ch; discriminate|reflexivity]. }
  assert (S6 : six (pt_pdg p)) by (apply (shape_word _ (accepted_shape _ Ac)); exact Hn).
  assert (Sm := sum_nq (pt_pdg p)). rewrite Ch, orb_true_l in Sm. specialize (Sm eq_refl (fun _ => S6)).
  rewrite !andb_true_iff, !Z.eqb_eq, negb_true_iff. unfold isospin3, strangeness, charmness, bottomness.
  split.
  - intros (((((((_ & Cs) & Cb) & Cm) & Ci) & Cst) & Cc) & Cbo). splits; auto.
    + destruct (Rlt_dec mass (pt_min p)); [discriminate|lra].
    + apply five_all; lia.
  - intros (_ & Cs & Cm & Cf).
    pose proof (Cf 1 ltac:(unfold flavour; lia)). pose proof (Cf 2 ltac:(unfold flavour; lia)). pose proof (Cf 3 ltac:(unfold flavour; lia)).
    pose proof (Cf 4 ltac:(unfold flavour; lia)). pose proof (Cf 5 ltac:(unfold flavour; lia)).
    splits; auto; try lia. destruct (Rlt_dec mass (pt_min p)); [exfalso; lra|reflexivity].
Qed.

(** C57 (part): the chosen resonance is one of the list and fits the string: it is an unstable
    hadron that the mass can form, and its net quark numbers are exactly those of the string
    ends.  Nothing is chosen only if nothing fits (or the mass is below the pion mass). *)
Theorem resonance_carries_the_flavour pion types id1 id2 mass :
  string_ends id1 id2 -> Forall legal types ->
  match get_resonance pion types id1 id2 mass with
  | Some p => In p types /\ fits id1 id2 mass p
  | None => (mass < pion)%R \/ forall p, In p types -> ~ fits id1 id2 mass p
  end.
Proof.
  intros En T. unfold get_resonance. destruct (Rlt_dec mass pion) as [?|_]; [left; assumption|].
  destruct (string_number id1 id2 En) as (b & Eb & _). rewrite Eb. rewrite Forall_forall in T.
  set (n := fun f => end_number id1 f + end_number id2 f) in *.
  destruct (filter (possible mass b n) types) as [|p0 t] eqn:Ef.
  - right. intros p I Fi. apply (possible_fits _ _ _ b) in Fi; auto.
    assert (Q : In p (filter (possible mass b n) types)) by (apply filter_In; split; assumption). rewrite Ef in Q. destruct Q.
  - pose proof (closest_in mass t p0 (Rabs (mass - pt_pole p0))) as I. set (p := closest _ _ _ _) in *. clearbody p.
    rewrite <- Ef in I. apply filter_In in I as [I C]. split; [exact I|]. apply (possible_fits _ _ _ b); auto.
Qed.
Print Assumptions resonance_carries_the_flavour.

(** C57 (part): if no candidate lies above the given mass, the closest one is chosen. *)
Lemma closest_below mass l : forall best, (pt_pole best <= mass)%R -> Forall (fun p => pt_pole p <= mass)%R l ->
  let r := closest mass best (mass - pt_pole best) l in
  Forall (fun p => pt_pole p <= pt_pole r)%R (best :: l) /\ (pt_pole r <= mass)%R.
Proof.
  induction l as [|p t IH]; intros best B F; cbv zeta.
  - cbn [closest]. split; [apply Forall_cons; [apply Rle_refl|constructor]|assumption].
  - inversion F as [|? ? Fp Ft]; subst. cbn [closest]. rewrite (Rabs_pos_eq (mass - pt_pole p)) by lra.
    destruct (Rlt_dec (mass - pt_pole p) (mass - pt_pole best)) as [L|L].
    + destruct (IH p Fp Ft) as [I1 I2]. split; [|assumption]. inversion I1; subst. apply Forall_cons; [lra|assumption].
    + destruct (IH best B Ft) as [I1 I2]. split; [|assumption]. inversion I1; subst.
      apply Forall_cons; [assumption|apply Forall_cons; [lra|assumption]].
Qed.
Theorem resonance_closest_partial pion types id1 id2 mass p q :
  string_ends id1 id2 -> Forall legal types ->
  (forall r, In r types -> fits id1 id2 mass r -> (pt_pole r <= mass)%R) ->
  get_resonance pion types id1 id2 mass = Some p ->
  In q types -> fits id1 id2 mass q ->
  (Rabs (mass - pt_pole p) <= Rabs (mass - pt_pole q))%R.
Proof.
  intros En T Hm H I C. unfold get_resonance in H. destruct (Rlt_dec mass pion) as [?|_]; [discriminate|].
  destruct (string_number id1 id2 En) as (b & Eb & _). rewrite Eb in H. rewrite Forall_forall in T.
  apply (possible_fits _ _ _ b) in C; auto.
  set (n := fun f => end_number id1 f + end_number id2 f) in *.
  assert (Iq : In q (filter (possible mass b n) types)) by (apply filter_In; split; assumption).
  destruct (filter (possible mass b n) types) as [|p0 t] eqn:Ef; [discriminate|].
  assert (X : p = closest mass p0 (Rabs (mass - pt_pole p0)) t) by congruence.
  assert (All : forall r, In r (p0 :: t) -> (pt_pole r <= mass)%R).
  { intros r Ir. rewrite <- Ef in Ir. apply filter_In in Ir as [I1 I2]. apply Hm; [assumption|]. apply (possible_fits _ _ _ b); auto. }
  assert (B0 : (pt_pole p0 <= mass)%R) by (apply All; left; reflexivity).
  assert (B1 : Forall (fun p => pt_pole p <= mass)%R t) by (apply Forall_forall; intros r Ir; apply All; right; exact Ir).
  destruct (closest_below mass t p0 B0 B1) as [K1 K2]. rewrite Forall_forall in K1. specialize (K1 q Iq).
  rewrite (Rabs_pos_eq (mass - pt_pole p0)) in X by lra. rewrite X.
  specialize (All q Iq). rewrite !Rabs_pos_eq by lra. lra.
Qed.
Print Assumptions resonance_closest_partial.

(** C57 is refuted: after a candidate above the mass was taken, its (negative) difference is
    remembered without absolute value, and no later candidate can be closer.  Delta+ states
    with poles at 0.5, 3 and 2.1 GeV and a mass of 2 GeV: the one at 3 GeV is returned. *)
Definition ex_types : list ptype :=
  [mk_ptype 0x2214 false 0%R 0.5%R; mk_ptype 0x12214 false 0%R 3%R; mk_ptype 0x22214 false 0%R 2.1%R].
Example ex_types_legal : Forall legal ex_types.
Proof.
  assert (A : forall c s m x, in_i32 c = true -> of_int32 c = Ok c -> nq c 6 = 0 -> legal (mk_ptype c s m x))
    by (intros; split; [eapply Acc_int32; eassumption|assumption]).
  unfold ex_types. repeat apply Forall_cons; try apply Forall_nil; apply A; reflexivity.
Qed.
Theorem closest_resonance_refuted : exists pion types id1 id2 mass p q,
  string_ends id1 id2 /\ Forall legal types /\ In q types /\ fits id1 id2 mass q /\
  get_resonance pion types id1 id2 mass = Some p /\
  (Rabs (mass - pt_pole q) < Rabs (mass - pt_pole p))%R.
Proof.
  exists 0.138%R, ex_types, 2, 2101, 2%R, (mk_ptype 0x12214 false 0%R 3%R), (mk_ptype 0x22214 false 0%R 2.1%R).
  assert (Pos : forall w x, (x = 0.5 \/ x = 3 \/ x = 2.1)%R -> (w = 0x2214 \/ w = 0x12214 \/ w = 0x22214) ->
    possible 2%R 1 (fun f => end_number 2 f + end_number 2101 f) (mk_ptype w false 0%R x) = true).
  { intros w x _ W. unfold possible. cbn [pt_pdg pt_stable pt_min].
    destruct (Rlt_dec 2 0) as [Q|_]; [exfalso; lra|]. destruct W as [-> |[-> | ->]]; vm_compute; reflexivity. }
  assert (En : string_ends 2 2101).
  { right; left. split; [lia|]. split; [unfold quark, flavour; lia|]. split; [lia|]. exists 1, 2, 1, 1. unfold flavour. splits; lia. }
  assert (Lg : Forall legal ex_types) by exact ex_types_legal.
  split; [exact En|]. split; [exact Lg|]. split; [right; right; left; reflexivity|].
  split; [apply (possible_fits _ _ _ 1); [exact En|reflexivity|rewrite Forall_forall in Lg; apply Lg; right; right; left; reflexivity|apply Pos; tauto]|]. split.
  - unfold get_resonance. destruct (Rlt_dec 2 0.138) as [Q|_]; [exfalso; lra|].
    change (string_baryon 2 2101) with (Some 1). cbv beta iota zeta. unfold ex_types. cbn [filter].
    rewrite !Pos by tauto. cbn [closest pt_pole].
    rewrite (Rabs_right (2 - 0.5)) by lra.
    replace (Rabs (2 - 3)) with 1%R by (rewrite Rabs_left by lra; lra).
    replace (Rabs (2 - 2.1)) with 0.1%R by (rewrite Rabs_left by lra; lra).
    destruct (Rlt_dec 1 (2 - 0.5)) as [_|Q]; [|exfalso; lra].
    destruct (Rlt_dec 0.1 (2 - 3)) as [Q|_]; [exfalso; lra|]. reflexivity.
  - cbn [pt_pole]. rewrite !Rabs_left by lra. lra.
Qed.
Print Assumptions closest_resonance_refuted.
