(** The flavour conversion in hard string processes: what every step keeps, and that the
    loop ends (C56). *)
From Coq Require Import ZArith List Bool Lia Permutation.
From Verif Require Import Base PdgSpec PdgModel PdgProofs StringSpec StringModel StringProps.
Import ListNotations.
Open Scope Z_scope.

(** ** arrays of five *)
Definition el (e : list Z) (f : Z) : Z := nth (Z.to_nat (f - 1)) e 0.
Definition sum5 (e : list Z) : Z := el e 1 + el e 2 + el e 3 + el e 4 + el e 5.
Definition abs5 (e : list Z) : Z :=
  Z.abs (el e 1) + Z.abs (el e 2) + Z.abs (el e 3) + Z.abs (el e 4) + Z.abs (el e 5).
Definition ind (a b : Z) : Z := if a =? b then 1 else 0.

Lemma len5 (e : list Z) : length e = 5%nat -> exists a b c d x, e = [a; b; c; d; x].
Proof.
  destruct e as [|a [|b [|c [|d [|x [|y t]]]]]]; try discriminate. intros _. do 5 eexists; reflexivity.
Qed.

Lemma el_nth e f : flavour f -> el e f = nth (Z.to_nat (f - 1)) e 0.
Proof. reflexivity. Qed.

Lemma bump_spec e f x : length e = 5%nat -> flavour f ->
  length (bump e (f - 1) x) = 5%nat /\ forall g, flavour g -> el (bump e (f - 1) x) g = el e g + (if g =? f then x else 0).
Proof.
  intros L F. unfold flavour in *. destruct (len5 e L) as (a & b & c & d & y & ->). split.
  - unfold bump. rewrite upd_length. reflexivity.
  - intros g G. five f; five g; unfold bump, el;
    change (Z.to_nat (1 - 1)) with 0%nat; change (Z.to_nat (2 - 1)) with 1%nat; change (Z.to_nat (3 - 1)) with 2%nat;
    change (Z.to_nat (4 - 1)) with 3%nat; change (Z.to_nat (5 - 1)) with 4%nat; cbn [upd nth Z.eqb Pos.eqb]; lia.
Qed.

Lemma add5_spec e f x : length e = 5%nat -> flavour f -> add5 e (f - 1) x = Ok (bump e (f - 1) x).
Proof.
  intros L F. unfold flavour in F. unfold add5. rewrite (proj2 (Z.leb_le _ _)), (proj2 (Z.ltb_lt _ _)) by lia. reflexivity.
Qed.
Lemma get5_spec e f : flavour f -> get5 e (f - 1) = Ok (el e f).
Proof.
  intros F. unfold flavour in F. unfold get5. rewrite (proj2 (Z.leb_le _ _)), (proj2 (Z.ltb_lt _ _)) by lia. reflexivity.
Qed.

(** ** find_excess *)
Lemma excess_step_spec A M st i :
  length (fst st) = 5%nat -> length (snd st) = 5%nat ->
  Z.abs (nth i A 0) <= 5 -> Z.abs (nth i M 0) <= 5 ->
  exists eq ea, excess_step A M st i = Ok (eq, ea) /\ length eq = 5%nat /\ length ea = 5%nat /\
    forall f, flavour f ->
      el eq f = el (fst st) f + ind (nth i A 0) f - ind (nth i M 0) f /\
      el ea f = el (snd st) f + ind (nth i A 0) (- f) - ind (nth i M 0) (- f).
Proof.
  destruct st as [eq ea]; cbn [fst snd]. intros L1 L2 HA HM. unfold excess_step.
  set (a := nth i A 0) in *. set (m := nth i M 0) in *.
  assert (S1 : exists e', (if 0 <? a then add5 eq (a - 1) 1 else Ok eq) = Ok e' /\ length e' = 5%nat /\
             forall f, flavour f -> el e' f = el eq f + ind a f).
  { destruct (Z.ltb_spec 0 a).
    - rewrite add5_spec by (unfold flavour; auto; lia). eexists. split; [reflexivity|].
      destruct (bump_spec eq a 1 L1) as [B1 B2]; [unfold flavour; lia|]. split; [exact B1|]. intros f F. rewrite B2 by exact F.
      unfold ind. rewrite (Z.eqb_sym a f). reflexivity.
    - exists eq. splits; auto. intros f F. unfold ind, flavour in *. rewrite (proj2 (Z.eqb_neq _ _)) by lia. lia. }
  destruct S1 as (e1 & -> & Le1 & E1). cbn [rbind].
  assert (S2 : exists e', (if 0 <? m then add5 e1 (m - 1) (-1) else Ok e1) = Ok e' /\ length e' = 5%nat /\
             forall f, flavour f -> el e' f = el e1 f - ind m f).
  { destruct (Z.ltb_spec 0 m).
    - rewrite add5_spec by (unfold flavour; auto; lia). eexists. split; [reflexivity|].
      destruct (bump_spec e1 m (-1) Le1) as [B1 B2]; [unfold flavour; lia|]. split; [exact B1|]. intros f F. rewrite B2 by exact F.
      unfold ind. rewrite (Z.eqb_sym m f). destruct (f =? m); lia.
    - exists e1. splits; auto. intros f F. unfold ind, flavour in *. rewrite (proj2 (Z.eqb_neq _ _)) by lia. lia. }
  destruct S2 as (e2 & -> & Le2 & E2). cbn [rbind].
  assert (S3 : exists e', (if a <? 0 then add5 ea (Z.abs a - 1) 1 else Ok ea) = Ok e' /\ length e' = 5%nat /\
             forall f, flavour f -> el e' f = el ea f + ind a (- f)).
  { destruct (Z.ltb_spec a 0).
    - rewrite add5_spec by (unfold flavour; auto; lia). eexists. split; [reflexivity|].
      destruct (bump_spec ea (Z.abs a) 1 L2) as [B1 B2]; [unfold flavour; lia|]. split; [exact B1|]. intros f F. rewrite B2 by exact F.
      unfold ind, flavour in *. destruct (Z.eqb_spec f (Z.abs a)), (Z.eqb_spec a (- f)); lia.
    - exists ea. splits; auto. intros f F. unfold ind, flavour in *. rewrite (proj2 (Z.eqb_neq _ _)) by lia. lia. }
  destruct S3 as (e3 & -> & Le3 & E3). cbn [rbind].
  assert (S4 : exists e', (if m <? 0 then add5 e3 (Z.abs m - 1) (-1) else Ok e3) = Ok e' /\ length e' = 5%nat /\
             forall f, flavour f -> el e' f = el e3 f - ind m (- f)).
  { destruct (Z.ltb_spec m 0).
    - rewrite add5_spec by (unfold flavour; auto; lia). eexists. split; [reflexivity|].
      destruct (bump_spec e3 (Z.abs m) (-1) Le3) as [B1 B2]; [unfold flavour; lia|]. split; [exact B1|]. intros f F. rewrite B2 by exact F.
      unfold ind, flavour in *. destruct (Z.eqb_spec f (Z.abs m)), (Z.eqb_spec m (- f)); lia.
    - exists e3. splits; auto. intros f F. unfold ind, flavour in *. rewrite (proj2 (Z.eqb_neq _ _)) by lia. lia. }
  destruct S4 as (e4 & -> & Le4 & E4). cbn [rbind].
  exists e2, e4. splits; auto. intros f F. rewrite E2, E1, E4, E3 by exact F. lia.
Qed.

(** how often q occurs in a list *)
Definition occ (q : Z) (l : list Z) : Z := Z.of_nat (count_occ Z.eq_dec l q).
Lemma occ3 q a b c : occ q [a; b; c] = ind a q + ind b q + ind c q.
Proof.
  unfold occ, ind. cbn [count_occ].
  destruct (Z.eq_dec a q), (Z.eq_dec b q), (Z.eq_dec c q), (Z.eqb_spec a q), (Z.eqb_spec b q), (Z.eqb_spec c q); try lia; congruence.
Qed.

(** the excess of a hadron over the one it is mapped to is the difference of the numbers of
    quarks and of antiquarks of each flavour *)
Theorem excess_exact A M : is_hadron A = true -> is_hadron M = true -> no_top A -> no_top M ->
  exists eq ea, find_excess A M = Ok (eq, ea) /\ length eq = 5%nat /\ length ea = 5%nat /\
    forall f, flavour f ->
      el eq f = occ f (quark_content A) - occ f (quark_content M) /\
      el ea f = occ (- f) (quark_content A) - occ (- f) (quark_content M).
Proof.
  intros HA HM TA TM.
  destruct (nonzero_content A HA) as (a0 & a1 & a2 & EA & _). destruct (nonzero_content M HM) as (m0 & m1 & m2 & EM & _).
  unfold find_excess, no_top in *. rewrite EA, EM in *.
  inversion TA as [|? ? A0 TA']; subst. inversion TA' as [|? ? A1 TA'']; subst. inversion TA'' as [|? ? A2 _]; subst.
  inversion TM as [|? ? M0 TM']; subst. inversion TM' as [|? ? M1 TM'']; subst. inversion TM'' as [|? ? M2 _]; subst.
  cbn [foldM].
  destruct (excess_step_spec [a0; a1; a2] [m0; m1; m2] (zero5, zero5) 0) as (q1 & b1 & E1 & L1 & L1' & S1); auto.
  rewrite E1. cbn [rbind].
  destruct (excess_step_spec [a0; a1; a2] [m0; m1; m2] (q1, b1) 1) as (q2 & b2 & E2 & L2 & L2' & S2); auto.
  rewrite E2. cbn [rbind].
  destruct (excess_step_spec [a0; a1; a2] [m0; m1; m2] (q2, b2) 2) as (q3 & b3 & E3 & L3 & L3' & S3); auto.
  rewrite E3. cbn [rbind]. exists q3, b3. splits; auto. intros f F.
  destruct (S1 f F) as [U1 V1]. destruct (S2 f F) as [U2 V2]. destruct (S3 f F) as [U3 V3]. cbn [fst snd nth] in *.
  assert (Z0 : el zero5 f = 0) by (unfold flavour in F; five f; reflexivity).
  rewrite !occ3. lia.
Qed.
Print Assumptions excess_exact.

Lemma occ_sum A : is_hadron A = true -> no_top A ->
  occ 1 (quark_content A) + occ 2 (quark_content A) + occ 3 (quark_content A) + occ 4 (quark_content A) + occ 5 (quark_content A)
    = (if is_baryon A then (if is_anti A then 0 else 3) else 1) /\
  occ (-1) (quark_content A) + occ (-2) (quark_content A) + occ (-3) (quark_content A) + occ (-4) (quark_content A) + occ (-5) (quark_content A)
    = (if is_baryon A then (if is_anti A then 3 else 0) else 1).
Proof.
  intros H T. destruct (content_shape A H) as (a & b & c & E & Nb & Nc & M & B1 & B2).
  unfold no_top in T. rewrite E in *.
  inversion T as [|? ? A0 TA']; subst. inversion TA' as [|? ? A1 TA'']; subst. inversion TA'' as [|? ? A2 _]; subst.
  assert (N : is_nucleus A = false).
  { unfold is_hadron in H. destruct (is_nucleus A); [rewrite !andb_false_r in H; discriminate|reflexivity]. }
  assert (one : forall x, 0 < x <= 5 -> ind x 1 + ind x 2 + ind x 3 + ind x 4 + ind x 5 = 1 /\
    ind x (-1) + ind x (-2) + ind x (-3) + ind x (-4) + ind x (-5) = 0).
  { intros x Hx. five x; split; reflexivity. }
  assert (neg : forall x, -5 <= x < 0 -> ind x 1 + ind x 2 + ind x 3 + ind x 4 + ind x 5 = 0 /\
    ind x (-1) + ind x (-2) + ind x (-3) + ind x (-4) + ind x (-5) = 1).
  { intros x Hx. assert (x = -1 \/ x = -2 \/ x = -3 \/ x = -4 \/ x = -5) as [-> |[-> |[-> |[-> | ->]]]] by lia; split; reflexivity. }
  rewrite !occ3. unfold is_baryon, baryon_number, asign in *. rewrite H, N in *. cbn [negb orb andb] in *.
  destruct (n_q1 A =? 0); cbn [negb].
  - destruct (M eq_refl) as [-> [[? ?]|[? ?]]].
    + pose proof (one b ltac:(lia)). pose proof (neg c ltac:(lia)). unfold ind at 1 4 7 10 13 16 19 22 25 28. cbn [Z.eqb]. lia.
    + pose proof (neg b ltac:(lia)). pose proof (one c ltac:(lia)). unfold ind at 1 4 7 10 13 16 19 22 25 28. cbn [Z.eqb]. lia.
  - destruct (is_anti A).
    + destruct (B2 eq_refl) as (? & ? & ?). pose proof (neg a ltac:(lia)). pose proof (neg b ltac:(lia)). pose proof (neg c ltac:(lia)). lia.
    + destruct (B1 eq_refl) as (? & ? & ?). pose proof (one a ltac:(lia)). pose proof (one b ltac:(lia)). pose proof (one c ltac:(lia)). lia.
Qed.

(** the mapping keeps the kind of hadron *)
Lemma map_kind A M : is_hadron A = true -> 0 <= A < 2 ^ 32 -> map_for_pythia A = Ok M ->
  is_hadron M = true /\ no_top M /\ is_baryon M = is_baryon A /\ (is_baryon A = true -> is_anti M = is_anti A).
Proof.
  intros H Hw E. unfold map_for_pythia in E.
  assert (N : is_nucleus A = false).
  { unfold is_hadron in H. destruct (is_nucleus A); [rewrite !andb_false_r in H; discriminate|reflexivity]. }
  assert (B : baryon_number A = if n_q1 A =? 0 then 0 else asign A).
  { unfold baryon_number. rewrite N, H. reflexivity. }
  assert (Q : is_baryon A = negb (n_q1 A =? 0)) by (unfold is_baryon; rewrite H; reflexivity).
  assert (top : forall M, M = PROTON \/ M = NEUTRON \/ M = PROTON + ANTI \/ M = NEUTRON + ANTI \/ M = PIPLUS \/ M = PIPLUS + ANTI -> no_top M).
  { intros m Hm. unfold no_top. repeat destruct Hm as [Hm|Hm]; subst; vm_compute; repeat constructor; discriminate. }
  rewrite Q, B in *. unfold asign in *. destruct (n_q1 A =? 0); [|destruct (is_anti A)]; cbn [Z.eqb Pos.eqb] in E; rewrite ?H in E.
  - assert (C : M = PIPLUS \/ M = PIPLUS + ANTI) by (destruct (0 <=? charge A); [left|right]; congruence).
    splits; [destruct C; subst; reflexivity|apply top; tauto|destruct C; subst; reflexivity|discriminate].
  - assert (C : M = PROTON + ANTI \/ M = NEUTRON + ANTI) by (destruct (charge A <? 0); [left|right]; congruence).
    splits; [destruct C; subst; reflexivity|apply top; tauto|destruct C; subst; reflexivity|destruct C; subst; reflexivity].
  - assert (C : M = PROTON \/ M = NEUTRON) by (destruct (0 <? charge A); [left|right]; congruence).
    splits; [destruct C; subst; reflexivity|apply top; tauto|destruct C; subst; reflexivity|destruct C; subst; reflexivity].
Qed.

Lemma excess_balanced A M eq ea : is_hadron A = true -> 0 <= A < 2 ^ 32 -> no_top A -> map_for_pythia A = Ok M ->
  find_excess A M = Ok (eq, ea) -> sum5 eq = 0 /\ sum5 ea = 0.
Proof.
  intros H Hw T Em Ef. destruct (map_kind A M H Hw Em) as (HM & TM & K1 & K2).
  destruct (excess_exact A M H HM T TM) as (q & a & E & _ & _ & S).
  assert (q = eq /\ a = ea) as [-> ->] by (split; congruence).
  destruct (occ_sum A H T) as [U1 U2]. destruct (occ_sum M HM TM) as [V1 V2].
  assert (F : forall f, 1 <= f <= 5 -> flavour f) by (intros f Hf; exact Hf).
  unfold sum5.
  destruct (S 1 (F 1 ltac:(lia))), (S 2 (F 2 ltac:(lia))), (S 3 (F 3 ltac:(lia))), (S 4 (F 4 ltac:(lia))), (S 5 (F 5 ltac:(lia))).
  cbn [Z.opp] in *. rewrite K1 in V1, V2. destruct (is_baryon A); [rewrite K2 in V1, V2 by reflexivity|]; lia.
Qed.

(** ** convert *)
Lemma convert_spec e q r : length e = 5%nat -> quark q ->
  exists q' e', convert e q r = Ok (q', e') /\ length e' = 5%nat /\ quark q' /\ 0 < q * q' /\
    (forall f, flavour f -> el e' f + ind (Z.abs q') f = el e f + ind (Z.abs q) f) /\
    sum5 e' = sum5 e /\
    ((q' = q /\ e' = e /\ (sum5 e = 0 -> 0 <= el e (Z.abs q))) \/ abs5 e' <= abs5 e - 2).
Proof.
  intros L Q. unfold quark in Q. unfold convert. rewrite get5_spec by exact Q. cbn [rbind].
  set (j := Z.abs q) in *.
  destruct (Z.ltb_spec (el e j) 0) as [N|N].
  2: { exists q, e. splits; auto. unfold flavour in Q; nia. }
  set (found := filter _ _).
  assert (F : forall k, In k found -> 0 <= k <= 4 /\ k <> j - 1 /\ 0 < el e (k + 1)).
  { intros k I. apply filter_In in I as [I C]. apply andb_true_iff in C as [C1 C2].
    apply negb_true_iff, Z.eqb_neq in C1. apply Z.ltb_lt in C2. unfold el. replace (k + 1 - 1) with k by lia.
    splits; auto; cbn in I; lia. }
  destruct found as [|k0 t] eqn:Ef.
  - exists q, e. splits; auto; [unfold flavour in Q; nia|]. left. splits; auto. intros S0. exfalso.
    assert (P : forall k, 0 <= k <= 4 -> k <> j - 1 -> el e (k + 1) <= 0).
    { intros k K1 K2. destruct (Z.leb_spec (el e (k + 1)) 0); [assumption|]. exfalso.
      assert (I : In k found); [|rewrite Ef in I; destruct I]. unfold found. apply filter_In. split.
      - cbn. lia.
      - apply andb_true_iff. split; [apply negb_true_iff, Z.eqb_neq; exact K2|]. apply Z.ltb_lt.
        unfold el in H. replace (k + 1 - 1) with k in H by lia. exact H. }
    unfold sum5 in S0. unfold flavour in Q. subst j.
    assert (P0 := P 0). assert (P1 := P 1). assert (P2 := P 2). assert (P3 := P 3). assert (P4 := P 4).
    cbn [Z.add Pos.add Pos.succ] in *.
    assert (C : Z.abs q = 1 \/ Z.abs q = 2 \/ Z.abs q = 3 \/ Z.abs q = 4 \/ Z.abs q = 5) by lia.
    destruct C as [C|[C|[C|[C|C]]]]; rewrite C in *; lia.
  - rewrite <- Ef in *. set (k := nth _ found 0).
    assert (I : In k found).
    { apply nth_In. assert (length found <> 0%nat) by (rewrite Ef; discriminate).
      pose proof (Z.mod_pos_bound r (Z.of_nat (length found)) ltac:(lia)). lia. }
    destruct (F k I) as (K1 & K2 & K3).
    rewrite add5_spec by (auto). cbn [rbind].
    destruct (bump_spec e j 1 L Q) as [L1 B1].
    assert (A2 : add5 (bump e (j - 1) 1) k (-1) = Ok (bump (bump e (j - 1) 1) (k + 1 - 1) (-1))).
    { rewrite <- add5_spec by (unfold flavour; auto; lia). f_equal. lia. }
    rewrite A2. cbn [rbind].
    destruct (bump_spec (bump e (j - 1) 1) (k + 1) (-1) L1) as [L2 B2]; [unfold flavour; lia|].
    set (e2 := bump (bump e (j - 1) 1) (k + 1 - 1) (-1)) in *.
    assert (B : forall f, flavour f -> el e2 f = el e f + (if f =? j then 1 else 0) + (if f =? k + 1 then -1 else 0)).
    { intros f Hf. rewrite B2, B1 by exact Hf. reflexivity. }
    assert (B1' := B 1). assert (B2' := B 2). assert (B3' := B 3). assert (B4' := B 4). assert (B5' := B 5).
    unfold flavour in *.
    specialize (B1' ltac:(lia)). specialize (B2' ltac:(lia)). specialize (B3' ltac:(lia)). specialize (B4' ltac:(lia)). specialize (B5' ltac:(lia)).
    assert (Cj : j = 1 \/ j = 2 \/ j = 3 \/ j = 4 \/ j = 5) by lia.
    assert (Ck : k = 0 \/ k = 1 \/ k = 2 \/ k = 3 \/ k = 4) by lia.
    assert (X : sum5 e2 = sum5 e /\ abs5 e2 <= abs5 e - 2).
    { unfold sum5, abs5. rewrite B1', B2', B3', B4', B5'.
      clear B B1 B2 B1' B2' B3' B4' B5' I F Ef.
      destruct Cj as [C|[C|[C|[C|C]]]]; destruct Ck as [D|[D|[D|[D|D]]]]; rewrite C, D in *; cbn [Z.add Pos.add Pos.succ Z.eqb Pos.eqb] in *; lia. }
    exists (if 0 <? q then k + 1 else - (k + 1)), e2. splits; auto.
    + unfold quark, flavour. destruct (0 <? q); lia.
    + destruct (Z.ltb_spec 0 q); nia.
    + intros f Hf. rewrite B by exact Hf.
      replace (Z.abs (if 0 <? q then k + 1 else - (k + 1))) with (k + 1) by (destruct (0 <? q); lia).
      unfold ind. rewrite (Z.eqb_sym (k + 1) f). fold j. rewrite (Z.eqb_sym j f). destruct (f =? j), (f =? k + 1); lia.
    + tauto.
    + right; tauto.
Qed.

(** number of constituents of flavour f (either sign) in a parton *)
Definition cnt (f : Z) (x : Z) : Z := zsum (map (fun q => ind (Z.abs q) f) (constituents x)).

Lemma quark_kind q : quark q -> isQuark q = true /\ constituents q = [q].
Proof.
  unfold quark, flavour. intros H. unfold isQuark, constituents.
  rewrite (proj2 (Z.ltb_lt 0 _)), (proj2 (Z.ltb_lt _ 9)), (proj2 (Z.ltb_lt _ 10)) by lia. split; reflexivity.
Qed.
Lemma diquark_kind s a b g : (s = 1 \/ s = -1) -> flavour a -> flavour b -> b <= a -> (g = 1 \/ g = 3) ->
  isQuark (s * (1000 * a + 100 * b + g)) = false /\ isDiquark (s * (1000 * a + 100 * b + g)) = true.
Proof.
  unfold flavour. intros S A B L G.
  five a; five b; try lia; destruct S as [-> | ->]; destruct G as [-> | ->]; split; reflexivity.
Qed.

Lemma ind_max_min a b f : ind (Z.max a b) f + ind (Z.min a b) f = ind a f + ind b f.
Proof.
  destruct (Z.le_ge_cases a b) as [H|H].
  - rewrite Z.max_r, Z.min_l by exact H. apply Z.add_comm.
  - rewrite Z.max_l, Z.min_r by exact H. reflexivity.
Qed.

Lemma same_sign s a b g u v g' : (s = 1 \/ s = -1) -> flavour a -> flavour b -> (g = 1 \/ g = 3) ->
  flavour u -> flavour v -> (g' = 1 \/ g' = 3) -> 0 < s * (1000 * a + 100 * b + g) * (s * (1000 * u + 100 * v + g')).
Proof.
  unfold flavour. intros S A B G U V G'.
  assert (0 < (1000 * a + 100 * b + g) * (1000 * u + 100 * v + g')) by (apply Z.mul_pos_pos; lia).
  destruct S as [-> | ->]; lia.
Qed.

Lemma replace_spec id e r0 r1 : length e = 5%nat -> parton id ->
  exists id' e', replace_constituent id e r0 r1 = Ok (id', e') /\ length e' = 5%nat /\ parton id' /\
    0 < id * id' /\
    (forall f, flavour f -> el e' f + cnt f id' = el e f + cnt f id) /\ sum5 e' = sum5 e /\
    ((e' = e /\ (forall f, flavour f -> cnt f id' = cnt f id) /\
      (sum5 e = 0 -> forall q, In q (constituents id) -> 0 <= el e (Z.abs q))) \/ abs5 e' <= abs5 e - 2).
Proof.
  intros L P. unfold replace_constituent.
  destruct P as [-> | P].
  { exists 21, e. splits; auto; try lia; [left; reflexivity|]. left. splits; auto. intros _ q I. destruct I. }
  assert (Zr : e = zero5 -> forall q, quark q -> 0 <= el e (Z.abs q)).
  { intros -> q Q. unfold quark, flavour in Q. set (j := Z.abs q) in *. clearbody j. five j; vm_compute; discriminate. }
  destruct P as [Q|D].
  - destruct (quark_kind id Q) as [K C]. rewrite K. cbn [negb andb].
    assert (Cn : forall f x, quark x -> cnt f x = ind (Z.abs x) f).
    { intros f x X. unfold cnt. rewrite (proj2 (quark_kind x X)). cbn. lia. }
    destruct (list_eq_dec Z.eq_dec e zero5) as [E0|E0].
    { exists id, e. splits; auto; [right; left; exact Q|unfold quark, flavour in Q; nia|]. left. splits; auto.
      intros _ q I. rewrite C in I. destruct I as [<-|[]]. apply Zr; auto. }
    destruct (convert_spec e id r0 L Q) as (q' & e' & E & L' & Q' & Sg & Cs & S5 & Pr).
    rewrite E. exists q', e'. splits; auto; [right; left; exact Q'| |].
    + intros f F. rewrite !Cn by assumption. apply Cs; exact F.
    + destruct Pr as [(-> & -> & Pr)|Pr]; [left|right; exact Pr]. splits; auto.
      intros S0 q I. rewrite C in I. destruct I as [<-|[]]. apply Pr; exact S0.
  - destruct D as (s & a & b & g & S & A & B & Lab & G & Gn & Hid).
    destruct (diquark_kind s a b g S A B Lab G) as [K1 K2]. destruct (diquark_parts s a b g S A B Lab G) as [Qd C].
    rewrite <- Hid in *. rewrite K1, K2. cbn [negb andb].
    assert (Did : diquark id) by (exists s, a, b, g; splits; auto).
    assert (Qa : quark (s * a) /\ quark (s * b)) by (unfold quark, flavour in *; destruct S; subst; lia).
    destruct (list_eq_dec Z.eq_dec e zero5) as [E0|E0].
    { exists id, e. splits; auto; [right; right; exact Did|unfold flavour in *; destruct S; subst; nia|]. left. splits; auto.
      intros _ q I. rewrite C in I. destruct I as [<-|[<-|[]]]; apply Zr; tauto. }
    rewrite Qd. cbn [rbind].
    destruct (convert_spec e (s * a) r0 L (proj1 Qa)) as (x & e1 & Ex & L1 & Qx & Sx & Cx & S5x & Px).
    rewrite Ex. cbn [rbind].
    destruct (convert_spec e1 (s * b) r1 L1 (proj2 Qa)) as (y & e2 & Ey & L2 & Qy & Sy & Cy & S5y & Py).
    rewrite Ey. cbn [rbind].
    set (u := Z.max (Z.abs x) (Z.abs y)). set (v := Z.min (Z.abs x) (Z.abs y)).
    assert (R1 : (let '(q0, q1) := if Z.abs x <? Z.abs y then (y, x) else (x, y) in
       Ok (if id <? 0 then - (Z.abs q0 * 1000 + Z.abs q1 * 100 + (if Z.abs q0 =? Z.abs q1 then 3 else g))
           else Z.abs q0 * 1000 + Z.abs q1 * 100 + (if Z.abs q0 =? Z.abs q1 then 3 else g), e2)) =
      Ok (s * (1000 * u + 100 * v + (if u =? v then 3 else g)), e2)).
    { assert (Sid : id <? 0 = (s =? -1)).
      { unfold flavour in *. destruct S as [-> | ->]; cbn [Z.eqb]; [apply Z.ltb_ge|apply Z.ltb_lt]; lia. }
      rewrite Sid. destruct (Z.ltb_spec (Z.abs x) (Z.abs y)) as [Hxy|Hxy].
      - replace (Z.abs y) with u by (clear - Hxy; subst u; lia). replace (Z.abs x) with v by (clear - Hxy; subst v; lia).
        set (h := if u =? v then 3 else g); clearbody h; destruct S as [-> | ->]; cbn [Z.eqb Pos.eqb]; f_equal; f_equal; lia.
      - replace (Z.abs y) with v by (clear - Hxy; subst v; lia). replace (Z.abs x) with u by (clear - Hxy; subst u; lia).
        set (h := if u =? v then 3 else g); clearbody h; destruct S as [-> | ->]; cbn [Z.eqb Pos.eqb]; f_equal; f_equal; lia. }
    set (g' := if u =? v then 3 else g) in *.
    assert (Hu : flavour u /\ flavour v /\ v <= u) by (clear - Qx Qy; unfold quark, flavour in *; subst u v; lia).
    assert (Hg : (g' = 1 \/ g' = 3) /\ (u = v -> g' = 3)).
    { unfold g'. destruct (Z.eqb_spec u v); [auto|]. split; [exact G|lia]. }
    destruct (diquark_parts s u v g') as [_ Cn']; try tauto.
    exists (s * (1000 * u + 100 * v + g')), e2.
    assert (CN : forall f, cnt f id = ind a f + ind b f /\ cnt f (s * (1000 * u + 100 * v + g')) = ind u f + ind v f).
    { intros f. unfold cnt. rewrite C, Cn'. cbn [map zsum fold_right]. unfold flavour in *.
      replace (Z.abs (s * a)) with a by (clear - S A; unfold flavour in *; destruct S; subst s; lia). replace (Z.abs (s * b)) with b by (clear - S B; unfold flavour in *; destruct S; subst s; lia).
      replace (Z.abs (s * u)) with u by (clear - S Hu; unfold flavour in *; destruct S; subst s; lia). replace (Z.abs (s * v)) with v by (clear - S Hu; unfold flavour in *; destruct S; subst s; lia). lia. }
    assert (UV : forall f, ind u f + ind v f = ind (Z.abs x) f + ind (Z.abs y) f) by (intros f; apply ind_max_min).
    assert (AB : Z.abs (s * a) = a /\ Z.abs (s * b) = b) by (clear - S A B; unfold flavour in *; destruct S; subst s; lia).
    destruct AB as [Aa Ab].
    splits.
    + exact R1.
    + exact L2.
    + right; right. exists s, u, v, g'. tauto.
    + rewrite Hid. apply same_sign; tauto.
    + intros f F. destruct (CN f) as [-> ->]. rewrite UV. specialize (Cx f F). specialize (Cy f F). rewrite Aa in Cx. rewrite Ab in Cy. clear - Cx Cy; lia.
    + clear - S5x S5y; lia.
    + destruct Px as [(-> & -> & Px)|Px].
      * destruct Py as [(-> & -> & Py)|Py]; [left|right; exact Py]. splits; auto.
        -- intros f F. destruct (CN f) as [-> ->]. rewrite UV, Aa, Ab. reflexivity.
        -- intros S0 q I. rewrite C in I. destruct I as [<-|[<-|[]]]; [apply Px|apply Py]; exact S0.
      * right. destruct Py as [(-> & -> & Py)|Py]; lia.
Qed.
