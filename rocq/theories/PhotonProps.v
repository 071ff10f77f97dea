(** Properties of the reactions that produce direct photons. *)
From Coq Require Import ZArith Reals List Bool Lia Lra.
From Verif Require Import Base VecModel MotionModel ScatModel PhotonModel.
Import ListNotations.
Open Scope Z_scope.

(** ** Specification: species as isospin triplets *)
Inductive meson := Pi | Rho.
(** the PDG code of a meson of charge -1, 0 or 1 *)
Definition code_of (k : meson) (q : Z) : Z :=
  match k with
  | Pi => if q =? 0 then 0x111 else q * 0x211
  | Rho => if q =? 0 then 0x113 else q * 0x213
  end.
Definition charge_state (q : Z) : Prop := q = -1 \/ q = 0 \/ q = 1.
Definition int32 (x : Z) : Prop := -2 ^ 31 <= x < 2 ^ 31.
(** pairs that can give a hadron and a photon, in this order: two pions that differ, or a pion and a rho; the total charge must be
    one a meson can have *)
Definition radiates (a b : Z) (out : Z) : Prop :=
  exists p q, charge_state p /\ charge_state q /\ charge_state (p + q) /\ a = code_of Pi p /\
  ((b = code_of Pi q /\ p <> q /\ out = code_of Rho (p + q)) \/ (b = code_of Rho q /\ out = code_of Pi (p + q))).

Lemma pack_eq x y : pack x y = (x mod 2 ^ 32) * 2 ^ 32 + y mod 2 ^ 32.
Proof.
  unfold pack. rewrite Z.shiftl_mul_pow2 by lia. set (u := x mod 2 ^ 32). set (v := y mod 2 ^ 32). assert (V : 0 <= v < 2 ^ 32) by (apply Z.mod_pos_bound; lia).
  symmetry. rewrite <- Z.lxor_lor; [apply Z.add_nocarry_lxor|]; apply Z.bits_inj'; intros n N; rewrite Z.land_spec, Z.bits_0; destruct (Z.lt_ge_cases n 32).
  all: try (rewrite Z.mul_pow2_bits_low by lia; reflexivity).
  all: rewrite andb_comm; replace (Z.testbit v n) with false; [reflexivity|]; symmetry; destruct (Z.eq_dec v 0) as [->|]; [apply Z.bits_0|]; apply Z.bits_above_log2; [lia|]; apply Z.lt_le_trans with 32; [|lia]; apply Z.log2_lt_pow2; lia.
Qed.
Lemma pack_inj a b c d : int32 a -> int32 b -> int32 c -> int32 d -> pack a b = pack c d -> a = c /\ b = d.
Proof.
  unfold int32. intros A B C D. rewrite !pack_eq. intros H.
  assert (X : forall u v, -2 ^ 31 <= u < 2 ^ 31 -> -2 ^ 31 <= v < 2 ^ 31 -> u mod 2 ^ 32 = v mod 2 ^ 32 -> u = v).
  { intros u v U V E. pose proof (Z.div_mod u (2 ^ 32) ltac:(lia)). pose proof (Z.div_mod v (2 ^ 32) ltac:(lia)).
    assert (u - v = 2 ^ 32 * (u / 2 ^ 32 - v / 2 ^ 32)) by lia. assert (u / 2 ^ 32 - v / 2 ^ 32 = 0) by nia. lia. }
  pose proof (Z.mod_pos_bound a (2 ^ 32) ltac:(lia)). pose proof (Z.mod_pos_bound b (2 ^ 32) ltac:(lia)).
  pose proof (Z.mod_pos_bound c (2 ^ 32) ltac:(lia)). pose proof (Z.mod_pos_bound d (2 ^ 32) ltac:(lia)).
  assert (a mod 2 ^ 32 = c mod 2 ^ 32) by nia. split; apply X; auto. nia.
Qed.
(** a table whose keys are packed pairs: the entry of a pair is the first one of this pair *)
Fixpoint find2 {A} (a b : Z) (d : A) (l : list (Z * Z * A)) : A :=
  match l with [] => d | (c, e, x) :: r => if (a =? c) && (b =? e) then x else find2 a b d r end.
Lemma lookup_find2 {A} a b (d : A) l : int32 a -> int32 b -> Forall (fun e => int32 (fst (fst e)) /\ int32 (snd (fst e))) l ->
  lookup (pack a b) d (map (fun e => (pack (fst (fst e)) (snd (fst e)), snd e)) l) = find2 a b d l.
Proof.
  intros A1 B1 F. induction F as [|[[c e] x] l (C & E) F IH]; cbn [map lookup find2 fst snd] in *; auto.
  destruct (Z.eqb_spec (pack a b) (pack c e)) as [P|P].
  - apply pack_inj in P; auto. destruct P as (-> & ->). now rewrite !Z.eqb_refl.
  - destruct (Z.eqb_spec a c) as [->|]; [destruct (Z.eqb_spec b e) as [->|]; [congruence|]|]; exact IH.
Qed.
Definition photon_pairs_table : list (Z * Z * reaction) :=
  [(pi_p, pi_z, pi_z_pi_p_rho_p); (pi_z, pi_p, pi_z_pi_p_rho_p); (pi_m, pi_z, pi_z_pi_m_rho_m);
   (pi_z, pi_m, pi_z_pi_m_rho_m); (pi_p, rho_z, pi_p_rho_z_pi_p); (pi_m, rho_z, pi_m_rho_z_pi_m);
   (pi_m, rho_p, pi_m_rho_p_pi_z); (pi_p, rho_m, pi_p_rho_m_pi_z); (pi_z, rho_p, pi_z_rho_p_pi_p);
   (pi_z, rho_m, pi_z_rho_m_pi_m); (pi_p, pi_m, pi_p_pi_m_rho_z); (pi_m, pi_p, pi_p_pi_m_rho_z);
   (pi_z, rho_z, pi_z_rho_z_pi_z)].
Lemma table_small {A} (l : list (Z * Z * A)) : forallb (fun e => (Z.abs (fst (fst e)) <? 1000) && (Z.abs (snd (fst e)) <? 1000)) l = true ->
  Forall (fun e => int32 (fst (fst e)) /\ int32 (snd (fst e))) l.
Proof.
  intros H. apply Forall_forall. intros e I. rewrite forallb_forall in H. specialize (H e I). rewrite andb_true_iff, !Z.ltb_lt in H. unfold int32. lia.
Qed.
Lemma reaction_eq a b : int32 a -> int32 b ->
  photon_reaction_type [a; b] = if is_pion a then find2 a b no_reaction photon_pairs_table else find2 b a no_reaction photon_pairs_table.
Proof.
  intros A B. cbn [photon_reaction_type].
  assert (F : Forall (fun e => int32 (fst (fst e)) /\ int32 (snd (fst e))) photon_pairs_table) by (apply table_small; reflexivity).
  destruct (is_pion a).
  - rewrite <- (lookup_find2 a b no_reaction photon_pairs_table A B F). reflexivity.
  - rewrite <- (lookup_find2 b a no_reaction photon_pairs_table B A F). reflexivity.
Qed.
Lemma find2_In {A} a b (d : A) l : find2 a b d l = d \/ In (a, b, find2 a b d l) l.
Proof.
  induction l as [|[[c e] x] l IH]; cbn [find2]; auto. destruct ((a =? c) && (b =? e)) eqn:E.
  - apply andb_prop in E. destruct E as (E1 & E2). apply Z.eqb_eq in E1, E2. subst. right. left. auto.
  - destruct IH; [left|right; right]; auto.
Qed.
Lemma listed a b out : a = a -> (exists r, In (a, b, r) photon_pairs_table /\ outgoing_hadron_type r = Some out) <-> radiates a b out.
Proof.
  intros _. split.
  - intros (r & I & O). cbn [In photon_pairs_table] in I.
    repeat (destruct I as [I|I]; [|]); try contradiction;
      injection I as <- <- <-; cbn [outgoing_hadron_type] in O; injection O as <-; unfold radiates;
      match goal with |- exists p q, _ /\ _ /\ _ /\ ?a = _ /\ ((?b = _ /\ _ /\ _) \/ _) =>
        let pa := eval vm_compute in (Z.sgn a * (if a =? 273 then 0 else 1)) in
        let pb := eval vm_compute in (Z.sgn b * (if (b =? 273) || (b =? 275) then 0 else 1)) in exists pa, pb end;
      unfold charge_state; repeat split; try lia; first [left; repeat split; solve [reflexivity|lia]|right; repeat split; reflexivity].
  - intros (p & q & P & Q & S & -> & H). unfold charge_state in *.
    destruct P as [E|[E|E]], Q as [F|[F|F]]; subst p q; try lia;
      destruct H as [(-> & N & ->)|(-> & ->)]; try lia; cbn;
      match goal with |- exists r, _ /\ _ = Some _ => idtac end;
      eexists; (split; [repeat (first [left; reflexivity|right])|reflexivity]).
Qed.
(** A pair gives a hadron and a photon exactly when it is one of the pairs above, in either order; the hadron has the total
    charge of the pair, and is a rho for two pions and a pion for a pion and a rho. *)
Theorem photon_reactions a b out : int32 a -> int32 b ->
  (outgoing_hadron_type (photon_reaction_type [a; b]) = Some out <-> radiates a b out \/ radiates b a out).
Proof.
  intros A B. rewrite reaction_eq by auto. split.
  - intros H. destruct (is_pion a).
    + destruct (find2_In a b no_reaction photon_pairs_table) as [E|I]; [rewrite E in H; discriminate|]. left. apply listed; eauto.
    + destruct (find2_In b a no_reaction photon_pairs_table) as [E|I]; [rewrite E in H; discriminate|]. right. apply listed; eauto.
  - intros [H|H].
    + destruct H as (p & q & P & Q & S & -> & H). unfold charge_state in *.
      destruct P as [E|[E|E]], Q as [F|[F|F]]; subst p q; try lia; destruct H as [(-> & N & ->)|(-> & ->)]; try lia; reflexivity.
    + destruct H as (p & q & P & Q & S & -> & H). unfold charge_state in *.
      destruct P as [E|[E|E]], Q as [F|[F|F]]; subst p q; try lia; destruct H as [(-> & N & ->)|(-> & ->)]; try lia; reflexivity.
Qed.
Print Assumptions photon_reactions.
(** The order of the two particles does not matter, and anything but two particles gives no photon. *)
Theorem photon_order a b : int32 a -> int32 b -> photon_reaction_type [a; b] = photon_reaction_type [b; a].
Proof.
  intros A B. rewrite !reaction_eq by auto. destruct (is_pion a) eqn:E, (is_pion b) eqn:F; auto.
  - unfold is_pion in *. rewrite !orb_true_iff, !Z.eqb_eq in E, F. destruct E as [[E|E]|E], F as [[F|F]|F]; subst; reflexivity.
  - assert (X : forall x y, is_pion x = false -> find2 x y no_reaction photon_pairs_table = no_reaction).
    { intros x y N. destruct (find2_In x y no_reaction photon_pairs_table) as [->|I]; auto. exfalso. cbn [In photon_pairs_table] in I.
      repeat (destruct I as [I|I]; [injection I as <- _ _; discriminate|]). contradiction. }
    rewrite !X; auto.
Qed.
Print Assumptions photon_order.
Theorem photon_needs_two l : length l <> 2%nat -> photon_reaction_type l = no_reaction /\ bremsstrahlung_reaction_type l = no_brems.
Proof. destruct l as [|? [|? [|? ?]]]; cbn; intros H; auto; congruence. Qed.
Print Assumptions photon_needs_two.
Example some_radiate : radiates 529 273 531 /\ radiates 273 (-531) (-529).
Proof.
  split; [exists 1, 0|exists 0, (-1)]; unfold charge_state; repeat split; try lia; [left|right]; repeat split; try reflexivity; lia.
Qed.

(** The final state has the energy it needs: when the collision is found possible, the mass of the outgoing hadron can be
    chosen - without an exception, unless the energy is exactly the mass of a stable hadron - and a stable hadron is not heavier than the available energy. *)
Definition sensible (w : species) : Prop := forall h, (min_kinematic w h <= min_spectral w h)%R /\ (stable w h = true -> min_kinematic w h = pole_mass w h).
Theorem possible_photon w sqrts a b m : sensible w -> is_kinematically_possible w sqrts [a; b] = true ->
  exists h, outgoing_hadron_type (photon_reaction_type [a; b]) = Some h /\
  ((stable w h = true /\ (pole_mass w h <= sqrts)%R /\ (pole_mass w h <> sqrts -> sample_out_hadron_mass w sqrts (Some h) m = Ok (pole_mass w h))) \/
   (stable w h = false /\ (min_spectral w h < sqrts)%R /\ sample_out_hadron_mass w sqrts (Some h) m = Ok m)).
Proof.
  intros S. unfold is_kinematically_possible. destruct (outgoing_hadron_type _) as [h|]; [|discriminate]. intros H. exists h. split; auto.
  destruct (S h) as (K & E). unfold sample_out_hadron_mass. destruct (stable w h) eqn:ST.
  - left. split; auto. unfold rltb in H. destruct (Rlt_dec sqrts (pole_mass w h)) as [L|L]; [discriminate|]. split; [lra|]. intros N.
    destruct (Rle_dec sqrts (min_kinematic w h)) as [L2|L2]; auto. rewrite E in L2 by auto. lra.
  - right. split; auto. unfold rltb, really_small in H. destruct (Rlt_dec sqrts (min_spectral w h + _)) as [L|L]; [discriminate|]. split; [lra|].
    destruct (Rle_dec sqrts (min_kinematic w h)) as [L2|L2]; auto. lra.
Qed.
Print Assumptions possible_photon.

(** ** Bremsstrahlung *)
Definition brems_pairs_table : list (Z * Z * breaction) :=
  [(pi_z, pi_m, b_pi_z_pi_m); (pi_m, pi_z, b_pi_z_pi_m); (pi_z, pi_p, b_pi_z_pi_p); (pi_p, pi_z, b_pi_z_pi_p);
   (pi_m, pi_p, b_pi_p_pi_m); (pi_p, pi_m, b_pi_p_pi_m); (pi_m, pi_m, b_pi_m_pi_m); (pi_p, pi_p, b_pi_p_pi_p);
   (pi_z, pi_z, b_pi_z_pi_z)].
Lemma brems_eq a b : int32 a -> int32 b -> bremsstrahlung_reaction_type [a; b] = find2 a b no_brems brems_pairs_table.
Proof.
  intros A B. cbn [bremsstrahlung_reaction_type]. rewrite <- (lookup_find2 a b no_brems brems_pairs_table A B); [reflexivity|]. apply table_small. reflexivity.
Qed.
(** every pair of pions radiates, and nothing else does *)
Theorem brems_reactions a b : int32 a -> int32 b ->
  (bremsstrahlung_reaction_type [a; b] <> no_brems <-> exists p q, charge_state p /\ charge_state q /\ a = code_of Pi p /\ b = code_of Pi q).
Proof.
  intros A B. split.
  - rewrite brems_eq by auto. intros H. destruct (find2_In a b no_brems brems_pairs_table) as [E|I]; [contradiction|]. cbn [In brems_pairs_table] in I.
    assert (X : charge_state (-1) /\ charge_state 0 /\ charge_state 1) by (unfold charge_state; lia). destruct X as (X1 & X2 & X3).
    repeat (destruct I as [I|I]; [|]); try contradiction; injection I as <- <- _;
      match goal with |- exists p q, _ /\ _ /\ ?a = _ /\ ?b = _ =>
        let pa := eval vm_compute in (Z.sgn a * (if a =? 273 then 0 else 1)) in
        let pb := eval vm_compute in (Z.sgn b * (if b =? 273 then 0 else 1)) in exists pa, pb end; repeat split; auto.
  - intros (p & q & P & Q & -> & ->). unfold charge_state in *.
    destruct P as [E|[E|E]], Q as [F|[F|F]]; subst p q; vm_compute; discriminate.
Qed.
Print Assumptions brems_reactions.
(** what a set of tables is for: charges of the incoming and the outgoing pions *)
Definition table_for (ch : bchannel) (p q p' q' : Z) : Prop :=
  match ch with
  | Opp => p + q = 0 /\ p <> 0 /\ p' = p /\ q' = q
  | To_pi0 => p + q = 0 /\ p <> 0 /\ p' = 0 /\ q' = 0
  | Same => p = q /\ p <> 0 /\ p' = p /\ q' = q
  | Mixed => p <> q /\ (p = 0 \/ q = 0) /\ p' = p /\ q' = q
  | From_pi0 => p = 0 /\ q = 0 /\ p' = 1 /\ q' = -1
  end.
Open Scope R_scope.
Lemma positive_pos x : 0 < positive x.
Proof. unfold positive, really_small. destruct (Rle_dec x 0); lra. Qed.
(** The final state of a pair of pions is again a pair of pions with the same total charge; its cross section is that of the
    matching table (positive even if the interpolation is not), and the differential cross sections are taken from the same set. *)
Theorem brems_final_pions x p q u : charge_state p -> charge_state q -> 0 <= u <= 1 ->
  exists p' q' ch, charge_state p' /\ charge_state q' /\ (p' + q' = p + q)%Z /\ table_for ch p q p' q' /\
  brems_cross_sections x (code_of Pi p) (code_of Pi q) u = Ok ((code_of Pi p', code_of Pi q'), positive (x ch)) /\ 0 < positive (x ch) /\
  brems_diff_table (bremsstrahlung_reaction_type [code_of Pi p; code_of Pi q]) (code_of Pi p') = Ok ch.
Proof.
  intros P Q U. assert (X : charge_state (-1) /\ charge_state 0 /\ charge_state 1) by (unfold charge_state; lia). destruct X as (X1 & X2 & X3).
  assert (OPP : forall a b, bremsstrahlung_reaction_type [a; b] = b_pi_p_pi_m ->
    brems_cross_sections x a b u = Ok ((a, b), positive (x Opp)) \/ brems_cross_sections x a b u = Ok ((pi_z, pi_z), positive (x To_pi0))).
  { intros a b E. unfold brems_cross_sections. rewrite E. pose proof (positive_pos (x Opp)). pose proof (positive_pos (x To_pi0)).
    cbn [choose_from snd]. destruct (Rle_dec _ _); auto. right. destruct (Rle_dec _ _) as [L|L]; auto. exfalso. apply L. unfold uniform. nra. }
  unfold charge_state in P, Q. destruct P as [E|[E|E]], Q as [F|[F|F]]; subst p q;
    try (match goal with |- context [brems_cross_sections x (code_of Pi ?a) (code_of Pi ?b) u] =>
           destruct (OPP (code_of Pi a) (code_of Pi b) eq_refl) as [O|O]; [exists a, b, Opp|exists 0%Z, 0%Z, To_pi0] end;
         splits; auto; try apply positive_pos; cbn [table_for]; lia || reflexivity);
    match goal with |- context [brems_cross_sections x (code_of Pi ?a) (code_of Pi ?b) u] =>
      match constr:((a, b)) with
      | (0, 0)%Z => exists 1%Z, (-1)%Z, From_pi0
      | (?c, ?c) => exists a, b, Same
      | _ => exists a, b, Mixed
      end end;
    splits; auto; try apply positive_pos; cbn [table_for]; try lia; reflexivity.
Qed.
Print Assumptions brems_final_pions.
(** a pi+ pi- pair keeps its charges with the share of this channel in the sum *)
Theorem brems_share x p q u : (p = 1 /\ q = -1 \/ p = -1 /\ q = 1)%Z -> 0 <= u <= 1 ->
  let s1 := positive (x Opp) in let s2 := positive (x To_pi0) in
  (brems_cross_sections x (code_of Pi p) (code_of Pi q) u = Ok ((code_of Pi p, code_of Pi q), s1) <-> u <= s1 / (s1 + s2)).
Proof.
  intros C U s1 s2. assert (E : bremsstrahlung_reaction_type [code_of Pi p; code_of Pi q] = b_pi_p_pi_m) by (destruct C as [(-> & ->)|(-> & ->)]; reflexivity).
  unfold brems_cross_sections. rewrite E. fold s1 s2. assert (S1 : 0 < s1) by apply positive_pos. assert (S2 : 0 < s2) by apply positive_pos.
  cbn [choose_from snd]. assert (I : uniform 0 (s1 + s2) u <= 0 + s1 <-> u <= s1 / (s1 + s2)).
  { unfold uniform. replace (0 + (s1 + s2 - 0) * u) with (u * (s1 + s2)) by ring. rewrite Rplus_0_l. split; intros H.
    - apply Rmult_le_reg_r with (s1 + s2); [lra|]. unfold Rdiv. rewrite Rmult_assoc, Rinv_l, Rmult_1_r by lra. auto.
    - apply (Rmult_le_compat_r (s1 + s2)) in H; [|lra]. unfold Rdiv in H. rewrite Rmult_assoc, Rinv_l, Rmult_1_r in H by lra. auto. }
  rewrite <- I. destruct (Rle_dec _ _) as [L|L]; [tauto|]. split; [|tauto]. destruct (Rle_dec _ _); [|discriminate].
  intros H. exfalso. assert (Z1 : code_of Pi p = pi_z) by congruence. destruct C as [(-> & _)|(-> & _)]; discriminate.
Qed.
Print Assumptions brems_share.
