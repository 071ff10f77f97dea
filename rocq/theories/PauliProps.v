(** Phase-space density of the Pauli blocker: src/pauliblocking.cc:46-91.  Doubles are exact
    reals; the ensembles are one list of particles. *)
From Coq Require Import ZArith Reals List Bool Lia Lra Psatz Permutation.
From Flocq Require Import Core.
From Verif Require Import Base VecModel.
Import ListNotations.
Open Scope R_scope.

(** what is read of a particle: code, id, momentum and position *)
Record pbody := PB { b_pdg : Z; b_id : Z; b_p : vec3; b_r : vec3 }.

(** one particle's term, pauliblocking.cc:57-88; None: the particle is skipped.
    numeric_cast<size_t> of a negative number throws. *)
Definition pauli_term (weights : list R) (rr rc rp : R) (r p : vec3) (pdg : Z) (disregard : list Z) (b : pbody) : res R :=
  if negb (b_pdg b =? pdg)%Z then Ok 0
  else if Rlt_dec (rp * rp) (sqr3 (sub3 (b_p b) p)) then Ok 0
  else if Rle_dec ((rr + rc) * (rr + rc)) (sqr3 (sub3 (b_r b) r)) then Ok 0
  else if existsb (Z.eqb (b_id b)) disregard then Ok 0
  else
    let i_real := sqrt (sqr3 (sub3 (b_r b) r)) / (rr + rc) * INR (length weights) in
    let i := Zfloor i_real in
    if (i <? 0)%Z then Throw E_domain
    else
      let rest := i_real - IZR i in
      let n := Z.to_nat i in
      if Nat.ltb (n + 1) (length weights)
      then Ok (nth n weights 0 * rest + nth (n + 1) weights 0 * (1 - rest))
      else Ok 0.
Definition phasespace_dens (weights : list R) (rr rc rp ntest nens : R) (r p : vec3) (ps : list pbody) (pdg : Z) (disregard : list Z) : res R :=
  f <- foldM (fun f b => t <- pauli_term weights rr rc rp r p pdg disregard b ;; Ok (f + t)) 0 ps ;;
  Ok (f / ntest / nens).

(** *** specification *)
Definition counts (rr rc rp : R) (r p : vec3) (pdg : Z) (disregard : list Z) (b : pbody) : Prop :=
  b_pdg b = pdg /\ sqr3 (sub3 (b_p b) p) <= rp * rp /\
  sqr3 (sub3 (b_r b) r) < (rr + rc) * (rr + rc) /\ ~ In (b_id b) disregard.
Definition distance (r : vec3) (b : pbody) : R := sqrt (sqr3 (sub3 (b_r b) r)).
(** the table has [length weights] cells up to rr + rc; x lies in cell n *)
Definition in_cell (weights : list R) (rr rc x : R) (n : nat) : Prop :=
  INR n <= x / (rr + rc) * INR (length weights) < INR n + 1.
(** linear interpolation in the table *)
Definition interpolated (weights : list R) (rr rc x : R) (n : nat) : R :=
  let t := x / (rr + rc) * INR (length weights) - INR n in nth n weights 0 * (1 - t) + nth (n + 1) weights 0 * t.

Lemma sqr3_nonneg a : 0 <= sqr3 a.
Proof. destruct a as [x y z]. unfold sqr3, dot3. cbn. nra. Qed.

Lemma term_spec weights rr rc rp r p pdg dis b : 0 < rr + rc -> weights <> [] ->
  exists t, pauli_term weights rr rc rp r p pdg dis b = Ok t /\
  (~ counts rr rc rp r p pdg dis b -> t = 0) /\
  (counts rr rc rp r p pdg dis b -> exists n, (n < length weights)%nat /\ in_cell weights rr rc (distance r b) n /\
     ((n + 1 = length weights)%nat -> t = 0) /\
     ((n + 1 < length weights)%nat -> exists s, 0 <= s < 1 /\ distance r b / (rr + rc) * INR (length weights) = INR n + s /\
        t = nth n weights 0 * s + nth (n + 1) weights 0 * (1 - s))).
Proof.
  intros H W. unfold pauli_term.
  destruct (Z.eqb_spec (b_pdg b) pdg) as [E|E]; cbn [negb]; [|exists 0; split; [reflexivity|]; split; [auto|intros (Q & _); contradiction]].
  destruct (Rlt_dec _ _) as [L|L]; [exists 0; split; [reflexivity|]; split; [auto|intros (_ & Q & _); lra]|].
  destruct (Rle_dec _ _) as [M|M]; [exists 0; split; [reflexivity|]; split; [auto|intros (_ & _ & Q & _); lra]|].
  destruct (existsb _ dis) eqn:D.
  { exists 0. split; [reflexivity|]. split; [auto|]. intros (_ & _ & _ & Q). exfalso. apply Q.
    apply existsb_exists in D as (x & I & X). apply Z.eqb_eq in X. subst. exact I. }
  assert (C : counts rr rc rp r p pdg dis b).
  { unfold counts. split; [exact E|]. split; [lra|]. split; [lra|]. intros I.
    assert (existsb (Z.eqb (b_id b)) dis = true) by (apply existsb_exists; exists (b_id b); split; [exact I|apply Z.eqb_refl]). congruence. }
  set (x := sqrt _ / _ * _). cbv zeta.
  assert (L0 : 0 < INR (length weights)) by (apply lt_0_INR; destruct weights; [contradiction|cbn; lia]).
  assert (Dd : 0 <= distance r b < rr + rc).
  { unfold distance. split; [apply sqrt_pos|]. apply Rsqr_incrst_0; [|apply sqrt_pos|lra]. unfold Rsqr. rewrite sqrt_sqrt by apply sqr3_nonneg. lra. }
  assert (Ix : / (rr + rc) > 0) by (apply Rinv_0_lt_compat; lra).
  assert (X : 0 <= x < INR (length weights)).
  { unfold x. fold (distance r b). split; [apply Rmult_le_pos; [|lra]; apply Rmult_le_pos; lra|].
    rewrite <- (Rmult_1_l (INR (length weights))) at 2. apply Rmult_lt_compat_r; [exact L0|].
    apply (Rmult_lt_reg_r (rr + rc)); [exact H|]. unfold Rdiv. rewrite Rmult_assoc, Rinv_l by lra. lra. }
  pose proof (Zfloor_lb x) as F1. pose proof (Zfloor_ub x) as F2.
  assert (Fn : (0 <= Zfloor x)%Z) by (apply Zfloor_lub; cbn; lra).
  assert (En : IZR (Zfloor x) = INR (Z.to_nat (Zfloor x))) by (rewrite INR_IZR_INZ, Z2Nat.id by lia; reflexivity).
  set (n := Z.to_nat (Zfloor x)) in *.
  assert (Nl : (n < length weights)%nat) by (apply INR_lt; rewrite <- En; lra).
  destruct (Z.ltb_spec (Zfloor x) 0); [lia|].
  destruct (Nat.ltb_spec (n + 1) (length weights)) as [G|G].
  - eexists. split; [reflexivity|]. split; [contradiction|]. intros _. exists n. split; [exact Nl|].
    unfold in_cell. fold (distance r b) in x. fold x. rewrite <- En. split; [lra|]. split; [lia|]. intros _.
    exists (x - IZR (Zfloor x)). split; [lra|]. split; [ring|]. reflexivity.
  - exists 0. split; [reflexivity|]. split; [auto|]. intros _. exists n. split; [exact Nl|].
    unfold in_cell. fold (distance r b) in x. fold x. rewrite <- En. split; [lra|]. split; [auto|]. lia.
Qed.

Lemma fold_terms (f : pbody -> res R) ps (F : forall b, exists t, f b = Ok t) : exists ts, Forall2 (fun b t => f b = Ok t) ps ts /\
  forall a, foldM (fun acc b => t <- f b ;; Ok (acc + t)) a ps = Ok (a + fold_right Rplus 0 ts).
Proof.
  induction ps as [|b l IH].
  - exists []. split; [constructor|]. intros a. cbn. f_equal. ring.
  - destruct IH as (ts & A & B). destruct (F b) as (t & T). exists (t :: ts). split; [constructor; assumption|].
    intros a. cbn [foldM]. rewrite T. cbn [rbind]. rewrite B. cbn [fold_right]. f_equal. ring.
Qed.

(** C58 (part): the density is the sum over the particles that count, and no other, of a value
    between the two table entries next to the distance (zero in the last cell), divided by the
    number of test particles and ensembles. *)
Theorem density_between_entries_partial weights rr rc rp ntest nens r p ps pdg dis : 0 < rr + rc -> weights <> [] ->
  exists ts, phasespace_dens weights rr rc rp ntest nens r p ps pdg dis = Ok (fold_right Rplus 0 ts / ntest / nens) /\
  Forall2 (fun b t => (~ counts rr rc rp r p pdg dis b -> t = 0) /\
    (counts rr rc rp r p pdg dis b -> exists n, in_cell weights rr rc (distance r b) n /\
       ((n + 1 = length weights)%nat -> t = 0) /\
       ((n + 1 < length weights)%nat -> Rmin (nth n weights 0) (nth (n + 1) weights 0) <= t <= Rmax (nth n weights 0) (nth (n + 1) weights 0)))) ps ts.
Proof.
  intros H W.
  destruct (fold_terms (pauli_term weights rr rc rp r p pdg dis) ps) as (ts & A & B).
  { intros b. destruct (term_spec weights rr rc rp r p pdg dis b H W) as (t & T & _). eauto. }
  exists ts. split; [unfold phasespace_dens; rewrite B; cbn [rbind]; rewrite Rplus_0_l; reflexivity|].
  clear B. induction A as [|b t l ts' E A IH]; constructor; [|exact IH].
  destruct (term_spec weights rr rc rp r p pdg dis b H W) as (t' & T' & N & C).
  assert (t' = t) by congruence. subst t'. split; [exact N|]. intros Cn. destruct (C Cn) as (n & Nl & Ic & Z & In1).
  exists n. split; [exact Ic|]. split; [exact Z|]. intros L. destruct (In1 L) as (s & S & _ & ->).
  set (u := nth n weights 0). set (v := nth (n + 1) weights 0). unfold Rmin, Rmax. destruct (Rle_dec u v); nra.
Qed.
Print Assumptions density_between_entries_partial.

(** ... so it does not depend on the order of the particles. *)
Theorem density_order_free weights rr rc rp ntest nens r p ps qs pdg dis : 0 < rr + rc -> weights <> [] -> Permutation ps qs ->
  phasespace_dens weights rr rc rp ntest nens r p ps pdg dis = phasespace_dens weights rr rc rp ntest nens r p qs pdg dis.
Proof.
  intros H W P. unfold phasespace_dens.
  assert (G : forall a, foldM (fun f b => t <- pauli_term weights rr rc rp r p pdg dis b ;; Ok (f + t)) a ps =
    foldM (fun f b => t <- pauli_term weights rr rc rp r p pdg dis b ;; Ok (f + t)) a qs); [|rewrite G; reflexivity].
  induction P as [|x l l' P IH|x y l|l l' l'' P1 IH1 P2 IH2]; intros a.
  - reflexivity.
  - cbn [foldM]. destruct (pauli_term _ _ _ _ _ _ _ _ x); cbn [rbind]; auto.
  - cbn [foldM].
    destruct (term_spec weights rr rc rp r p pdg dis x H W) as (t & -> & _). destruct (term_spec weights rr rc rp r p pdg dis y H W) as (u & -> & _).
    cbn [rbind]. replace (a + u + t) with (a + t + u) by ring. reflexivity.
  - rewrite IH1, IH2. reflexivity.
Qed.
Print Assumptions density_order_free.

(** C58 is refuted: the weights of the two entries are swapped.  One particle at the position
    itself gives the second entry of the table instead of the first. *)
Theorem pauli_interpolation_refuted : exists weights rr rc r b,
  counts rr rc 1 r (V3 0 0 0) 0x2212 [] b /\ in_cell weights rr rc (distance r b) 0 /\
  interpolated weights rr rc (distance r b) 0 = 1 /\
  phasespace_dens weights rr rc 1 1 1 r (V3 0 0 0) [b] 0x2212 [] = Ok (1/2).
Proof.
  exists [1; 1/2; 1/4], 1, 2, (V3 0 0 0), (PB 0x2212 7 (V3 0 0 0) (V3 0 0 0)).
  assert (Z0 : sqr3 (sub3 (V3 0 0 0) (V3 0 0 0)) = 0) by (unfold sqr3, dot3, sub3; cbn; ring).
  assert (D0 : distance (V3 0 0 0) (PB 0x2212 7 (V3 0 0 0) (V3 0 0 0)) = 0) by (unfold distance; cbn [b_r]; rewrite Z0; apply sqrt_0).
  split; [unfold counts; cbn [b_pdg b_p b_r b_id]; rewrite Z0; split; [reflexivity|]; split; [lra|]; split; [lra|intros []]|].
  split; [unfold in_cell; rewrite D0; cbn [length INR]; lra|].
  split; [unfold interpolated; rewrite D0; cbn [length INR nth Nat.add]; lra|].
  unfold phasespace_dens, pauli_term. cbn [foldM b_pdg b_p b_r b_id existsb]. rewrite Z0, sqrt_0.
  change (negb (0x2212 =? 0x2212)%Z) with false. cbv iota.
  destruct (Rlt_dec (1 * 1) 0) as [Q|_]; [exfalso; lra|]. destruct (Rle_dec ((1 + 2) * (1 + 2)) 0) as [Q|_]; [exfalso; lra|].
  replace (0 / (1 + 2) * INR (length [1; 1/2; 1/4])) with 0 by (cbn [length INR]; lra).
  rewrite (Zfloor_imp 0) by (cbn; lra). cbv zeta. change (0 <? 0)%Z with false. cbv iota. change (Z.to_nat 0 + 1)%nat with 1%nat.
  cbn [length Nat.ltb Nat.leb nth Z.to_nat rbind]. f_equal. lra.
Qed.
Print Assumptions pauli_interpolation_refuted.
