(** Cross section scaling factors of the leading hadrons of a string: src/stringprocess.cc
    3182-3261 and 157-171.  Factors are exact reals. *)
From Coq Require Import ZArith Reals List Bool Lia Lra Permutation.
From Verif Require Import Base PdgSpec PdgModel PdgProofs StringRestore.
Import ListNotations.
Open Scope Z_scope.

(** assign_scaling_factor, stringprocess.cc:3182-3195; None: the factor is left alone *)
Definition scaling (nquark : Z) (w : Z) (sf : R) : option R :=
  if baryon_number w =? 0 then Some (0.5 * sf)%R
  else if is_baryon w then Some (sf * IZR nquark / (3 * IZR (baryon_number w)))%R
  else None.
Definition assign (nquark : Z) (l : list Z) (i : Z) (sf : R) (fs : list R) : res (list R) :=
  if (i <? 0) || (Z.of_nat (length l) <=? i) then UB UB_oob
  else match scaling nquark (nth (Z.to_nat i) l 0) sf with
       | Some x => Ok (upd (Z.to_nat i) x fs)
       | None => Ok fs
       end.

(** the loops of find_leading, stringprocess.cc:3197-3212: first index from the front, from i *)
Fixpoint first_from (nq : Z) (i : Z) (l : list Z) : res Z :=
  match l with
  | [] => Ok i
  | w :: t => b <- contains_enough_valence_quarks w nq ;; if b then Ok i else first_from nq (i + 1) t
  end.
(** the same over the reversed list, counting down from the end *)
Fixpoint last_from (nq : Z) (i : Z) (rl : list Z) : res Z :=
  match rl with
  | [] => Ok i
  | w :: t => b <- contains_enough_valence_quarks w nq ;; if b then Ok i else last_from nq (i - 1) t
  end.
Definition find_leading (nq1 nq2 : Z) (l : list Z) : res (Z * Z) :=
  if Z.of_nat (length l) <? 2 then UB UB_assert
  else i1 <- first_from nq1 0 l ;;
       i2 <- last_from nq2 (Z.of_nat (length l) - 1) (rev l) ;;
       Ok (i1, i2).

(** assign_all_scaling_factors, stringprocess.cc:3214-3261.  [l] is the list after the sort by
    longitudinal velocity; the theorems quantify over every order the sort may produce. *)
Definition string_end_quarks (b : Z) : option (Z * Z) :=
  if b =? 0 then Some (-1, 1) else if b =? 1 then Some (2, 1) else if b =? -1 then Some (-2, -1) else None.
Definition scaling_factors (b : Z) (l : list Z) (sf : R) : res (list R) :=
  let zero := map (fun _ => 0%R) l in
  match string_end_quarks b with
  | None => Throw E_runtime
  | Some (nq1, nq2) =>
    i <- find_leading nq1 nq2 l ;;
    j <- find_leading nq2 nq1 l ;;
    if (b =? 0) && (snd i - fst i <? snd j - fst j) then
      fs <- assign nq2 l (fst j) sf zero ;; assign nq1 l (snd j) sf fs
    else
      fs <- assign nq1 l (fst i) sf zero ;; assign nq2 l (snd i) sf fs
  end.
(** its call, stringprocess.cc:160-172: the baryon number of the string is summed from the list *)
Definition string_scaling (l : list Z) (sf : R) : res (list R) :=
  scaling_factors (zsum (map baryon_number l)) l sf.

(** *** specification: hadrons a quark of a string end may go into *)
Definition meson_or_baryon (w : Z) : Prop := is_hadron w = true.
Definition takes (w : Z) (nq : Z) : bool :=
  if baryon_number w =? 0 then (nq =? 1) || (nq =? -1)
  else (nq =? baryon_number w) || (nq =? 2 * baryon_number w).

Lemma hadron_bn w : is_hadron w = true ->
  (is_meson w = true /\ is_baryon w = false /\ baryon_number w = 0) \/
  (is_meson w = false /\ is_baryon w = true /\ (baryon_number w = 1 \/ baryon_number w = -1)).
Proof.
  intros H. unfold is_meson, is_baryon, baryon_number. rewrite H.
  assert (N : is_nucleus w = false). { unfold is_hadron in H. destruct (is_nucleus w); [rewrite !andb_false_r in H; discriminate|reflexivity]. }
  rewrite N. cbn [negb orb andb]. destruct (n_q1 w =? 0); [left; auto|right]. unfold asign. destruct (is_anti w); auto.
Qed.

Lemma enough_takes w nq : is_hadron w = true -> contains_enough_valence_quarks w nq = Ok (takes w nq).
Proof.
  intros H. unfold contains_enough_valence_quarks, takes.
  destruct (hadron_bn w H) as [(-> & _ & ->)|(-> & -> & [-> | ->])]; reflexivity.
Qed.

Lemma first_spec nq (l : list Z) : forall i, Forall (fun w : Z => is_hadron w = true) l ->
  exists k : nat, first_from nq i l = Ok (i + Z.of_nat k) /\ (k <= length l)%nat /\
    (forall m, (m < k)%nat -> takes (nth m l 0) nq = false) /\
    ((k < length l)%nat -> takes (nth k l 0) nq = true).
Proof.
  induction l as [|w t IH]; intros i F.
  - exists 0%nat. cbn [first_from length]. split; [f_equal; lia|]. splits; intros; lia.
  - inversion F; subst. cbn [first_from]. rewrite enough_takes by assumption. cbn [rbind].
    destruct (takes w nq) eqn:T.
    + exists 0%nat. split; [f_equal; lia|]. split; [lia|]. split; [intros; lia|]. intros _. exact T.
    + destruct (IH (i + 1) ltac:(assumption)) as (k & E & K & A & B). exists (S k). rewrite E. cbn [length].
      split; [f_equal; lia|]. split; [lia|]. split.
      * intros [|m] M; [exact T|]. cbn [nth]. apply A. lia.
      * intros M. cbn [nth]. apply B. lia.
Qed.
Lemma last_first nq rl : forall i, Forall (fun w : Z => is_hadron w = true) rl ->
  exists k : nat, last_from nq i rl = Ok (i - Z.of_nat k) /\ (k <= length rl)%nat /\
    (forall m, (m < k)%nat -> takes (nth m rl 0) nq = false) /\
    ((k < length rl)%nat -> takes (nth k rl 0) nq = true).
Proof.
  induction rl as [|w t IH]; intros i F.
  - exists 0%nat. cbn [last_from length]. split; [f_equal; lia|]. splits; intros; lia.
  - inversion F; subst. cbn [last_from]. rewrite enough_takes by assumption. cbn [rbind].
    destruct (takes w nq) eqn:T.
    + exists 0%nat. split; [f_equal; lia|]. split; [lia|]. split; [intros; lia|]. intros _. exact T.
    + destruct (IH (i - 1) ltac:(assumption)) as (k & E & K & A & B). exists (S k). rewrite E. cbn [length].
      split; [f_equal; lia|]. split; [lia|]. split.
      * intros [|m] M; [exact T|]. cbn [nth]. apply A. lia.
      * intros M. cbn [nth]. apply B. lia.
Qed.

(** the first and last index that takes a number of quarks, if any does *)
Definition is_first (l : list Z) (nq : Z) (k : nat) : Prop :=
  (k < length l)%nat /\ takes (nth k l 0) nq = true /\ forall m, (m < k)%nat -> takes (nth m l 0) nq = false.
Definition is_last (l : list Z) (nq : Z) (k : nat) : Prop :=
  (k < length l)%nat /\ takes (nth k l 0) nq = true /\ forall m, (k < m < length l)%nat -> takes (nth m l 0) nq = false.

Lemma find_leading_spec nq1 nq2 (l : list Z) : (2 <= length l)%nat -> Forall (fun w : Z => is_hadron w = true) l ->
  (exists w, In w l /\ takes w nq1 = true) -> (exists w, In w l /\ takes w nq2 = true) ->
  exists a b : nat, find_leading nq1 nq2 l = Ok (Z.of_nat a, Z.of_nat b) /\ is_first l nq1 a /\ is_last l nq2 b.
Proof.
  intros L F (w1 & I1 & T1) (w2 & I2 & T2). unfold find_leading. rewrite (proj2 (Z.ltb_ge _ 2)) by lia.
  destruct (first_spec nq1 l 0 F) as (a & E1 & A1 & A2 & A3). rewrite E1. cbn [rbind].
  assert (Fr : Forall (fun w : Z => is_hadron w = true) (rev l)).
  { apply Forall_forall. intros w I. rewrite Forall_forall in F. apply F, in_rev, I. }
  destruct (last_first nq2 (rev l) (Z.of_nat (length l) - 1) Fr) as (k & E2 & K1 & K2 & K3). rewrite E2. cbn [rbind].
  rewrite rev_length in *.
  apply (In_nth _ _ 0) in I1 as (n1 & N1 & X1). apply (In_nth _ _ 0) in I2 as (n2 & N2 & X2).
  assert (a <= n1)%nat. { destruct (Nat.le_gt_cases a n1); [assumption|]. rewrite <- X1, A2 in T1 by assumption. discriminate. }
  assert (k <= length l - 1 - n2)%nat.
  { destruct (Nat.le_gt_cases k (length l - 1 - n2)) as [|G]; [assumption|]. pose proof (K2 _ G) as Q. rewrite rev_nth in Q by lia.
    assert (En : (length l - S (length l - 1 - n2) = n2)%nat) by (clear - N2; lia). rewrite En, X2, T2 in Q. discriminate. }
  exists a, (length l - 1 - k)%nat. split; [do 2 f_equal; lia|]. split; [split; [lia|split; [apply A3; lia|assumption]]|].
  split; [lia|]. split.
  - pose proof (K3 ltac:(lia)) as Q. rewrite rev_nth in Q by lia. replace (length l - S k)%nat with (length l - 1 - k)%nat in Q by lia. exact Q.
  - intros m M. pose proof (K2 (length l - 1 - m)%nat ltac:(lia)) as Q. rewrite rev_nth in Q by lia.
    replace (length l - S (length l - 1 - m))%nat with m in Q by lia. exact Q.
Qed.

(** a hadron that takes nq quarks gets 1/2, 1/3 or 2/3 *)
Definition share (w : Z) (nq : Z) : R := if baryon_number w =? 0 then (1/2)%R else (IZR (Z.abs nq) / 3)%R.
Lemma scaling_share w nq sf : is_hadron w = true -> takes w nq = true -> scaling nq w sf = Some (sf * share w nq)%R.
Proof.
  intros H. unfold scaling, share, takes.
  destruct (hadron_bn w H) as [(_ & _ & ->)|(_ & -> & [-> | ->])].
  - change (0 =? 0) with true. cbv iota. intros _. f_equal. lra.
  - change (1 =? 0) with false in *. cbv iota. rewrite orb_true_iff, !Z.eqb_eq. intros T. destruct T as [-> | ->]; f_equal; cbn; lra.
  - change (-1 =? 0) with false in *. cbv iota. rewrite orb_true_iff, !Z.eqb_eq. intros T. destruct T as [-> | ->]; f_equal; cbn; lra.
Qed.
Lemma assign_spec nq l k sf fs : Forall (fun w : Z => is_hadron w = true) l -> (k < length l)%nat -> takes (nth k l 0) nq = true ->
  assign nq l (Z.of_nat k) sf fs = Ok (upd k (sf * share (nth k l 0%Z) nq)%R fs).
Proof.
  intros F K T. unfold assign. rewrite (proj2 (Z.ltb_ge _ 0)), (proj2 (Z.leb_gt _ _)) by lia. cbn [orb]. rewrite Nat2Z.id.
  rewrite (scaling_share _ nq) by (auto; rewrite Forall_forall in F; apply F, nth_In, K). reflexivity.
Qed.

Lemma zsum_bound (f : Z -> Z) l c : (forall w, In w l -> f w <= c) -> zsum (map f l) <= c * Z.of_nat (length l).
Proof.
  induction l as [|w t IH]; intros H; [change (zsum (map f [])) with 0; cbn [length]; lia|].
  cbn [map length]. rewrite zsum_cons. assert (f w <= c) by (apply H; left; reflexivity).
  assert (zsum (map f t) <= c * Z.of_nat (length t)) by (apply IH; intros; apply H; right; assumption). lia.
Qed.
Lemma some_positive (l : list Z) : 0 < zsum (map baryon_number l) -> exists w, In w l /\ 0 < baryon_number w.
Proof.
  intros P. destruct (existsb (fun w => 0 <? baryon_number w) l) eqn:E.
  - apply existsb_exists in E as (w & I & T). apply Z.ltb_lt in T. eauto.
  - exfalso. assert (zsum (map baryon_number l) <= 0 * Z.of_nat (length l)); [|lia]. apply zsum_bound. intros w I.
    destruct (Z.le_gt_cases (baryon_number w) 0) as [|G]; [assumption|]. exfalso.
    assert (existsb (fun w => 0 <? baryon_number w) l = true) by (apply existsb_exists; exists w; split; [assumption|apply Z.ltb_lt; lia]). congruence.
Qed.
Lemma zsum_opp (f : Z -> Z) (l : list Z) : zsum (map (fun w => - f w) l) = - zsum (map f l).
Proof. induction l as [|w t IH]; [reflexivity|]. cbn [map]. rewrite !zsum_cons. lia. Qed.
Lemma some_negative (l : list Z) : zsum (map baryon_number l) < 0 -> exists w, In w l /\ baryon_number w < 0.
Proof.
  intros P. destruct (existsb (fun w => baryon_number w <? 0) l) eqn:E.
  - apply existsb_exists in E as (w & I & T). apply Z.ltb_lt in T. eauto.
  - exfalso. assert (zsum (map (fun w => - baryon_number w) l) <= 0 * Z.of_nat (length l)) as Q; [|assert (O : zsum (map (fun w => - baryon_number w) l) = - zsum (map baryon_number l)) by exact (zsum_opp baryon_number l); lia]. apply zsum_bound. intros w I.
    destruct (Z.le_gt_cases 0 (baryon_number w)) as [|G]; [lia|]. exfalso.
    assert (existsb (fun w => baryon_number w <? 0) l = true) by (apply existsb_exists; exists w; split; [assumption|apply Z.ltb_lt; lia]). congruence.
Qed.

Lemma takes_pos w : is_hadron w = true -> 0 <= baryon_number w -> takes w 1 = true.
Proof. intros H P. unfold takes. destruct (hadron_bn w H) as [(_ & _ & ->)|(_ & _ & [E|E])]; [reflexivity|rewrite E; reflexivity|lia]. Qed.
Lemma takes_neg w : is_hadron w = true -> baryon_number w <= 0 -> takes w (-1) = true.
Proof. intros H P. unfold takes. destruct (hadron_bn w H) as [(_ & _ & ->)|(_ & _ & [E|E])]; [reflexivity|lia|rewrite E; reflexivity]. Qed.
Lemma takes_one_iff w : is_hadron w = true -> takes w 1 = (0 <=? baryon_number w).
Proof. intros H. unfold takes. destruct (hadron_bn w H) as [(_ & _ & ->)|(_ & _ & [-> | ->])]; reflexivity. Qed.
Lemma takes_m1_iff w : is_hadron w = true -> takes w (-1) = (baryon_number w <=? 0).
Proof. intros H. unfold takes. destruct (hadron_bn w H) as [(_ & _ & ->)|(_ & _ & [-> | ->])]; reflexivity. Qed.

(** the hadron list with a zero-sum has both kinds *)
Lemma zero_kinds (l : list Z) : (2 <= length l)%nat -> Forall (fun w : Z => is_hadron w = true) l -> zsum (map baryon_number l) = 0 ->
  (exists w, In w l /\ takes w 1 = true) /\ (exists w, In w l /\ takes w (-1) = true).
Proof.
  intros L F Z0. destruct l as [|w t]; [cbn in L; lia|]. inversion F as [|? ? Hw Ft]; subst. cbn [map] in Z0. rewrite zsum_cons in Z0.
  rewrite Forall_forall in Ft.
  destruct (hadron_bn w Hw) as [(_ & _ & E)|(_ & _ & [E|E])].
  - split; exists w; (split; [left; reflexivity|]); [apply takes_pos|apply takes_neg]; auto; lia.
  - split; [exists w; split; [left; reflexivity|apply takes_pos; auto; lia]|].
    destruct (some_negative t) as (v & I & N); [lia|]. exists v. split; [right; exact I|apply takes_neg; auto; lia].
  - split; [|exists w; split; [left; reflexivity|apply takes_neg; auto; lia]].
    destruct (some_positive t) as (v & I & N); [lia|]. exists v. split; [right; exact I|apply takes_pos; auto; lia].
Qed.

(** one of the two assignments of a mesonic string has distinct ends in the right order *)
Lemma ends_apart l a b c d : (2 <= length l)%nat -> Forall (fun w : Z => is_hadron w = true) l -> zsum (map baryon_number l) = 0 ->
  is_first l (-1) a -> is_last l 1 b -> is_first l 1 c -> is_last l (-1) d ->
  (a < b)%nat \/ (c < d)%nat.
Proof.
  intros L F Z0 (A1 & A2 & A3) (B1 & B2 & B3) (C1 & C2 & C3) (D1 & D2 & D3).
  destruct l as [|w t]; [cbn in L; lia|]. inversion F as [|? ? Hw Ft]; subst. cbn [map] in Z0. rewrite zsum_cons in Z0.
  rewrite Forall_forall in Ft. cbn [length] in *.
  destruct (Z.le_gt_cases (baryon_number w) 0) as [N|P].
  - left. assert (a = 0)%nat. { destruct a as [|a]; [reflexivity|]. specialize (A3 0%nat ltac:(lia)). cbn [nth] in A3. rewrite takes_neg in A3 by assumption. discriminate. }
    subst a. destruct b as [|b]; [|lia]. exfalso.
    cbn [nth] in B2. rewrite takes_one_iff in B2 by assumption. apply Z.leb_le in B2. assert (baryon_number w = 0) by lia.
    assert (X : zsum (map baryon_number t) <= -1 * Z.of_nat (length t)).
    { apply zsum_bound. intros v I. pose proof (Ft v I) as Hv. apply (In_nth _ _ 0) in I as (m & M & E).
      specialize (B3 (S m) ltac:(lia)). cbn [nth] in B3. rewrite E, takes_one_iff in B3 by assumption. apply Z.leb_gt in B3. lia. }
    lia.
  - right. assert (c = 0)%nat. { destruct c as [|c]; [reflexivity|]. specialize (C3 0%nat ltac:(lia)). cbn [nth] in C3. rewrite takes_pos in C3 by (auto; lia). discriminate. }
    subst c. destruct d as [|d]; [|lia]. exfalso.
    cbn [nth] in D2. rewrite takes_m1_iff in D2 by assumption. apply Z.leb_le in D2. lia.
Qed.

(** the factors: zero except at two places *)
Definition two_leading (l : list Z) (sf : R) (fs : list R) (a b : nat) (na nb : Z) : Prop :=
  length fs = length l /\ (a < length l)%nat /\ (b < length l)%nat /\
  takes (nth a l 0) na = true /\ takes (nth b l 0) nb = true /\
  nth a fs 0%R = (sf * share (nth a l 0%Z) na)%R /\ nth b fs 0%R = (sf * share (nth b l 0%Z) nb)%R /\
  forall m, m <> a -> m <> b -> nth m fs 0%R = 0%R.

Lemma upd_two (l : list Z) a b x y : (a < length l)%nat -> (b < length l)%nat ->
  let fs := upd b y (upd a x (map (fun _ => 0%R) l)) in
  length fs = length l /\ (a <> b -> nth a fs 0%R = x) /\ nth b fs 0%R = y /\ forall m, m <> a -> m <> b -> nth m fs 0%R = 0%R.
Proof.
  intros A B fs. assert (G : forall (k : nat) z (g : list R) m, (k < length g)%nat -> nth m (upd k z g) 0%R = if Nat.eqb m k then z else nth m g 0%R).
  { intros k z g m K. destruct (Nat.eqb_spec m k) as [-> |N].
    - apply nth_error_nth. apply nth_error_upd_eq. exact K.
    - assert (X : nth_error (upd k z g) m = nth_error g m) by (apply nth_error_upd_neq; auto).
      destruct (nth_error g m) as [v|] eqn:E.
      + rewrite (nth_error_nth _ _ _ X), (nth_error_nth _ _ _ E). reflexivity.
      + apply nth_error_None in X. apply nth_error_None in E. rewrite !nth_overflow by assumption. reflexivity. }
  assert (Z : forall m, nth m (map (fun _ : Z => 0%R) l) 0%R = 0%R).
  { clear. induction l as [|w t IH]; intros [|m]; cbn [map nth]; auto. }
  subst fs. split; [rewrite !upd_length, map_length; reflexivity|]. split; [|split].
  - intros N. rewrite !G by (rewrite ?upd_length, map_length; assumption). destruct (Nat.eqb_spec a b); [contradiction|]. rewrite Nat.eqb_refl. reflexivity.
  - rewrite G by (rewrite ?upd_length, map_length; assumption). rewrite Nat.eqb_refl. reflexivity.
  - intros m M1 M2. rewrite !G by (rewrite ?upd_length, map_length; assumption).
    destruct (Nat.eqb_spec m b); [contradiction|]. destruct (Nat.eqb_spec m a); [contradiction|]. apply Z.
Qed.

(** C86: in a mesonic string exactly two different hadrons lead, one for the quark and one for
    the antiquark; each of them gets its share and all others get zero. *)
Theorem mesonic_string_has_two_leading_hadrons l sf :
  (2 <= length l)%nat -> Forall (fun w : Z => is_hadron w = true) l -> zsum (map baryon_number l) = 0 ->
  exists fs a b na nb, string_scaling l sf = Ok fs /\ (a < b)%nat /\
    ((na = 1 /\ nb = -1) \/ (na = -1 /\ nb = 1)) /\ two_leading l sf fs a b na nb.
Proof.
  intros L F Z0. destruct (zero_kinds l L F Z0) as [K1 K2].
  destruct (find_leading_spec (-1) 1 l L F K2 K1) as (a & b & E1 & FA & LB).
  destruct (find_leading_spec 1 (-1) l L F K1 K2) as (c & d & E2 & FC & LD).
  pose proof (ends_apart l a b c d L F Z0 FA LB FC LD) as Ap.
  unfold string_scaling, scaling_factors. rewrite Z0. change (string_end_quarks 0) with (Some (-1, 1)). cbv iota beta zeta.
  rewrite E1, E2. cbn [rbind fst snd]. change (0 =? 0) with true. cbn [andb].
  destruct FA as (A1 & A2 & _), LB as (B1 & B2 & _), FC as (C1 & C2 & _), LD as (D1 & D2 & _).
  destruct (Z.ltb_spec (Z.of_nat b - Z.of_nat a) (Z.of_nat d - Z.of_nat c)) as [Lt|Ge].
  - rewrite !assign_spec by assumption. cbn [rbind]. rewrite !assign_spec by assumption.
    eexists _, c, d, 1, (-1). split; [reflexivity|]. split; [|split]; [|left; split; reflexivity|]; [lia|].
    destruct (upd_two l c d (sf * share (nth c l 0%Z) 1) (sf * share (nth d l 0%Z) (-1)) C1 D1) as (U1 & U2 & U3 & U4).
    unfold two_leading. splits; auto. apply U2. lia.
  - rewrite !assign_spec by assumption. cbn [rbind]. rewrite !assign_spec by assumption.
    eexists _, a, b, (-1), 1. split; [reflexivity|]. split; [|split]; [|right; split; reflexivity|]; [lia|].
    destruct (upd_two l a b (sf * share (nth a l 0%Z) (-1)) (sf * share (nth b l 0%Z) 1) A1 B1) as (U1 & U2 & U3 & U4).
    unfold two_leading. splits; auto. apply U2. lia.
Qed.
Print Assumptions mesonic_string_has_two_leading_hadrons.

(** C86 (part): in a string of baryon number +-1 the access is never out of range, and if the
    first baryon with that number is not the last hadron that takes one quark, it gets 2/3 and
    that last hadron gets 1/2 or 1/3. *)
Theorem baryonic_string_factors_partial l sf b :
  (2 <= length l)%nat -> Forall (fun w : Z => is_hadron w = true) l -> zsum (map baryon_number l) = b -> (b = 1 \/ b = -1) ->
  exists fs i j, string_scaling l sf = Ok fs /\
    is_first l (2 * b) i /\ is_last l b j /\ baryon_number (nth i l 0) = b /\
    length fs = length l /\ (forall m, m <> i -> m <> j -> nth m fs 0%R = 0%R) /\
    nth j fs 0%R = (sf * share (nth j l 0%Z) b)%R /\
    (i <> j -> nth i fs 0%R = (sf * (2 / 3))%R).
Proof.
  intros L F Z0 B.
  assert (Bn : exists w, In w l /\ baryon_number w = b).
  { rewrite Forall_forall in F. destruct B as [-> | ->].
    - destruct (some_positive l) as (w & I & P); [lia|]. exists w. split; [exact I|]. destruct (hadron_bn w (F w I)) as [(_ & _ & ?)|(_ & _ & ?)]; lia.
    - destruct (some_negative l) as (w & I & P); [lia|]. exists w. split; [exact I|]. destruct (hadron_bn w (F w I)) as [(_ & _ & ?)|(_ & _ & ?)]; lia. }
  destruct Bn as (w & I & Eb).
  assert (K1 : exists w, In w l /\ takes w b = true). { exists w. split; [exact I|]. unfold takes. rewrite Eb. destruct B as [-> | ->]; reflexivity. }
  assert (K2 : exists w, In w l /\ takes w (2 * b) = true). { exists w. split; [exact I|]. unfold takes. rewrite Eb. destruct B as [-> | ->]; reflexivity. }
  destruct (find_leading_spec (2 * b) b l L F K2 K1) as (i & j & E1 & FI & LJ).
  destruct (find_leading_spec b (2 * b) l L F K1 K2) as (c & d & E2 & _ & _).
  assert (Q : string_end_quarks b = Some (2 * b, b)) by (destruct B as [-> | ->]; reflexivity).
  assert (Nz : (b =? 0) = false) by (destruct B as [-> | ->]; reflexivity).
  unfold string_scaling, scaling_factors. rewrite Z0, Q, E1, E2, Nz. cbn [rbind fst snd andb].
  pose proof FI as (A1 & A2 & _). pose proof LJ as (B1 & B2 & _).
  rewrite !assign_spec by assumption. cbn [rbind]. rewrite !assign_spec by assumption.
  destruct (upd_two l i j (sf * share (nth i l 0%Z) (2 * b)) (sf * share (nth j l 0%Z) b) A1 B1) as (U1 & U2 & U3 & U4).
  assert (Bi : baryon_number (nth i l 0) = b).
  { rewrite Forall_forall in F. pose proof (F _ (nth_In l 0 A1)) as Hi. unfold takes in A2.
    destruct (hadron_bn _ Hi) as [(_ & _ & E)|(_ & _ & [E|E])]; rewrite E in *; destruct B as [-> | ->]; cbn in A2; congruence. }
  exists (upd j (sf * share (nth j l 0%Z) b)%R (upd i (sf * share (nth i l 0%Z) (2 * b))%R (map (fun _ => 0%R) l))), i, j.
  splits; auto. intros N. rewrite (U2 N). unfold share. rewrite Bi, Nz. f_equal. destruct B as [-> | ->]; cbn; lra.
Qed.
Print Assumptions baryonic_string_factors_partial.

(** C86 is refuted for baryonic strings: if the proton is at the far end of the string, both
    ends are given to it, it is left with 1/3 and the pion at the near end with nothing. *)
Theorem leading_pair_refuted : exists l, (2 <= length l)%nat /\ Forall (fun w : Z => is_hadron w = true) l /\
  zsum (map baryon_number l) = 1 /\
  exists fs, string_scaling l 1 = Ok fs /\ nth 0 fs 0%R = 0%R /\ nth 1 fs 0%R = (1/3)%R.
Proof.
  exists [0x211; 0x2212]. split; [cbn; lia|]. split; [repeat constructor|]. split; [reflexivity|].
  destruct (baryonic_string_factors_partial [0x211; 0x2212] 1 1) as (fs & i & j & E & I & J & _ & _ & Z & Pj & _); [cbn; lia|repeat constructor|reflexivity|lia|].
  assert (j = 1)%nat. { destruct J as (J1 & _ & J2). cbn [length] in J1. destruct j as [|[|j]]; [|reflexivity|lia].
    specialize (J2 1%nat). cbn [length] in J2. specialize (J2 ltac:(lia)). vm_compute in J2. discriminate. }
  assert (i = 1)%nat. { destruct I as (I1 & I2 & _). cbn [length] in I1. destruct i as [|[|i]]; [|reflexivity|lia]. vm_compute in I2. discriminate. }
  subst. exists fs. split; [exact E|]. split; [apply Z; lia|]. rewrite Pj. unfold share. change (baryon_number (nth 1 [0x211; 0x2212] 0) =? 0) with false. cbv iota. cbn. lra.
Qed.
Print Assumptions leading_pair_refuted.

(** a string into antiproton, two pions and a proton *)
Example leading_example : exists fs a b na nb, string_scaling [0x80002212; 0x111; 0x211; 0x2212] (7/10) = Ok fs /\ (a < b)%nat /\
  ((na = 1 /\ nb = -1) \/ (na = -1 /\ nb = 1)) /\ two_leading [0x80002212; 0x111; 0x211; 0x2212] (7/10) fs a b na nb.
Proof. apply mesonic_string_has_two_leading_hadrons; [cbn; lia|repeat constructor|reflexivity]. Qed.
