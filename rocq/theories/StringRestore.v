(** The restoration of the hadrons' flavours in hard string processes ends and gives back
    exactly the flavours of the two hadrons (C56). *)
From Coq Require Import ZArith List Bool Lia Permutation.
From Verif Require Import Base PdgSpec PdgModel PdgProofs StringSpec StringModel StringProps StringExcess.
Import ListNotations.
Open Scope Z_scope.

(** quarks and antiquarks of flavour f in the partons *)
Definition qc (f : Z) (ev : list Z) : Z := zsum (map (fun x => if 0 <? x then cnt f x else 0) ev).
Definition ac (f : Z) (ev : list Z) : Z := zsum (map (fun x => if 0 <? x then 0 else cnt f x) ev).

Lemma zsum_app a b : zsum (a ++ b) = zsum a + zsum b.
Proof. induction a as [|x t IH]; [reflexivity|]. cbn [app]. unfold zsum in *. cbn [fold_right]. lia. Qed.
Lemma zsum_cons x t : zsum (x :: t) = x + zsum t. Proof. reflexivity. Qed.
Lemma qc_app f a b : qc f (a ++ b) = qc f a + qc f b.
Proof. unfold qc. rewrite map_app. apply zsum_app. Qed.
Lemma ac_app f a b : ac f (a ++ b) = ac f a + ac f b.
Proof. unfold ac. rewrite map_app. apply zsum_app. Qed.
Lemma qc_cons f x t : qc f (x :: t) = (if 0 <? x then cnt f x else 0) + qc f t. Proof. reflexivity. Qed.
Lemma ac_cons f x t : ac f (x :: t) = (if 0 <? x then 0 else cnt f x) + ac f t. Proof. reflexivity. Qed.
Lemma ind_pos a b : 0 <= ind a b. Proof. unfold ind. destruct (a =? b); lia. Qed.
Lemma cnt_pos f x : 0 <= cnt f x.
Proof.
  unfold cnt. induction (constituents x) as [|q t IH]; [cbn; lia|]. cbn [map]. rewrite zsum_cons. pose proof (ind_pos (Z.abs q) f). lia.
Qed.
Lemma qc_pos f ev : 0 <= qc f ev.
Proof.
  induction ev as [|x t IH]; [cbn; lia|]. rewrite qc_cons. pose proof (cnt_pos f x). destruct (0 <? x); lia.
Qed.
Lemma ac_pos f ev : 0 <= ac f ev.
Proof.
  induction ev as [|x t IH]; [cbn; lia|]. rewrite ac_cons. pose proof (cnt_pos f x). destruct (0 <? x); lia.
Qed.
Lemma cnt_in f x : 0 < cnt f x -> exists q, In q (constituents x) /\ Z.abs q = f.
Proof.
  unfold cnt. induction (constituents x) as [|q t IH]; [cbn; lia|]. cbn [map]. rewrite zsum_cons. intros H.
  unfold ind in H at 1. destruct (Z.eqb_spec (Z.abs q) f).
  - exists q. split; [left; reflexivity|assumption].
  - destruct IH as (y & I & E); [lia|]. exists y. split; [right; exact I|exact E].
Qed.

Lemma take_out (l : list Z) i : (i < length l)%nat ->
  exists a b, l = a ++ nth i l 0 :: b /\ firstn i l ++ skipn (S i) l = a ++ b /\ length l = S (length (a ++ b)).
Proof.
  intros H. destruct (nth_split l 0 H) as (a & b & E & L). exists a, b. split; [exact E|].
  assert (N : nth i l 0 :: b = nth i l 0 :: b) by reflexivity.
  split; [|rewrite E at 1; rewrite !app_length; cbn [length]; lia].
  set (x := nth i l 0) in *. clearbody x. subst l. subst i.
  clear. induction a as [|y a IH]; [reflexivity|]. cbn [length app firstn skipn] in *. f_equal. exact IH.
Qed.

(** ** one sweep *)
Definition stuck (e : list Z) (c : Z -> Z) : Prop :=
  sum5 e = 0 -> forall f, flavour f -> 0 < c f -> 0 <= el e f.

Lemma sweep_spec n : forall todo done eq ea o, n = length todo ->
  length eq = 5%nat -> length ea = 5%nat -> Forall parton todo -> Forall parton done ->
  exists ev' eq' ea', sweep n todo done eq ea o = Ok (ev', eq', ea') /\
    length eq' = 5%nat /\ length ea' = 5%nat /\ Forall parton ev' /\
    (forall f, flavour f -> qc f ev' + el eq' f = qc f (todo ++ done) + el eq f) /\
    (forall f, flavour f -> ac f ev' + el ea' f = ac f (todo ++ done) + el ea f) /\
    sum5 eq' = sum5 eq /\ sum5 ea' = sum5 ea /\
    ((eq' = eq /\ ea' = ea /\ stuck eq (fun f => qc f todo) /\ stuck ea (fun f => ac f todo)) \/
     abs5 eq' + abs5 ea' <= abs5 eq + abs5 ea - 2).
Proof.
  induction n as [|m IH]; intros todo done eq ea o Hn Lq La Pt Pd.
  - destruct todo; [|discriminate]. cbn [sweep app]. exists done, eq, ea. splits; auto. left.
    splits; auto; unfold stuck; intros _ f _ H; cbn in H; lia.
  - cbn [sweep]. destruct (o m) as [[pos r0] r1].
    set (i := (pos mod length todo)%nat).
    assert (Hi : (i < length todo)%nat) by (apply Nat.mod_upper_bound; lia).
    destruct (take_out todo i Hi) as (a & b & E & Er & El). rewrite Er. clear Er Hi.
    set (id := nth i todo 0) in *. clearbody id i. subst todo.
    apply Forall_app in Pt as [Pa Pb]. inversion Pb as [|? ? Pid Pb']; subst.
    assert (Pr : Forall parton (a ++ b)) by (apply Forall_app; split; assumption).
    destruct (Z.ltb_spec 0 id) as [Pos|Neg].
    + destruct (replace_spec id eq r0 r1 Lq Pid) as (id' & eq1 & E1 & L1 & Pid' & Sg & C & S5 & Pr1).
      rewrite E1. cbn [rbind].
      assert (Pos' : 0 < id') by nia.
      destruct (IH (a ++ b) (done ++ [id']) eq1 ea o) as (ev' & eq' & ea' & E2 & L2 & L2' & P2 & Q2 & A2 & S2 & S2' & G2); auto.
      { lia. }
      { apply Forall_app; split; [assumption|constructor; [assumption|constructor]]. }
      exists ev', eq', ea'. split; [exact E2|]. splits; auto.
      * intros f F. rewrite Q2 by exact F. specialize (C f F).
        rewrite !qc_app, !qc_cons. rewrite (proj2 (Z.ltb_lt 0 id)), (proj2 (Z.ltb_lt 0 id')) by assumption. cbn. lia.
      * intros f F. rewrite A2 by exact F.
        rewrite !ac_app, !ac_cons. rewrite (proj2 (Z.ltb_lt 0 id)), (proj2 (Z.ltb_lt 0 id')) by assumption. cbn. lia.
      * lia.
      * destruct Pr1 as [(-> & Cn & St)|D]; [|right; destruct G2 as [(-> & -> & _)|G2]; lia].
        destruct G2 as [(-> & -> & G3 & G4)|G2]; [left|right; lia]. splits; auto.
        -- intros Z0 f F H. rewrite qc_app, qc_cons in H. rewrite (proj2 (Z.ltb_lt 0 id)) in H by assumption.
           destruct (Z.ltb_spec 0 (cnt f id)) as [Hc|Hc].
           ++ destruct (cnt_in f id Hc) as (q & I & <-). apply St; assumption.
           ++ apply G3; auto. rewrite qc_app. pose proof (cnt_pos f id). lia.
        -- intros Z0 f F H. rewrite ac_app, ac_cons in H. rewrite (proj2 (Z.ltb_lt 0 id)) in H by assumption.
           apply G4; auto. rewrite ac_app. lia.
    + destruct (replace_spec id ea r0 r1 La Pid) as (id' & ea1 & E1 & L1 & Pid' & Sg & C & S5 & Pr1).
      rewrite E1. cbn [rbind].
      assert (Neg' : id' <= 0) by nia.
      destruct (IH (a ++ b) (done ++ [id']) eq ea1 o) as (ev' & eq' & ea' & E2 & L2 & L2' & P2 & Q2 & A2 & S2 & S2' & G2); auto.
      { lia. }
      { apply Forall_app; split; [assumption|constructor; [assumption|constructor]]. }
      exists ev', eq', ea'. split; [exact E2|]. splits; auto.
      * intros f F. rewrite Q2 by exact F.
        rewrite !qc_app, !qc_cons. rewrite (proj2 (Z.ltb_ge 0 id)), (proj2 (Z.ltb_ge 0 id')) by assumption. cbn. lia.
      * intros f F. rewrite A2 by exact F. specialize (C f F).
        rewrite !ac_app, !ac_cons. rewrite (proj2 (Z.ltb_ge 0 id)), (proj2 (Z.ltb_ge 0 id')) by assumption. cbn. lia.
      * lia.
      * destruct Pr1 as [(-> & Cn & St)|D]; [|right; destruct G2 as [(-> & -> & _)|G2]; lia].
        destruct G2 as [(-> & -> & G3 & G4)|G2]; [left|right; lia]. splits; auto.
        -- intros Z0 f F H. rewrite qc_app, qc_cons in H. rewrite (proj2 (Z.ltb_ge 0 id)) in H by assumption.
           apply G3; auto. rewrite qc_app. lia.
        -- intros Z0 f F H. rewrite ac_app, ac_cons in H. rewrite (proj2 (Z.ltb_ge 0 id)) in H by assumption.
           destruct (Z.ltb_spec 0 (cnt f id)) as [Hc|Hc].
           ++ destruct (cnt_in f id Hc) as (q & I & <-). apply St; assumption.
           ++ apply G4; auto. rewrite ac_app. pose proof (cnt_pos f id). lia.
Qed.

(** ** the whole loop *)
Record state_ok (ev : list Z) (eq ea : arr2) : Prop := mk_ok {
  ok_p : Forall parton ev;
  ok_l : length (fst eq) = 5%nat /\ length (snd eq) = 5%nat /\ length (fst ea) = 5%nat /\ length (snd ea) = 5%nat;
  ok_s : sum5 (fst eq) = 0 /\ sum5 (snd eq) = 0 /\ sum5 (fst ea) = 0 /\ sum5 (snd ea) = 0;
  ok_q : forall f, flavour f -> 0 <= qc f ev + el (fst eq) f + el (snd eq) f;
  ok_a : forall f, flavour f -> 0 <= ac f ev + el (fst ea) f + el (snd ea) f }.
Definition measure (eq ea : arr2) : Z := abs5 (fst eq) + abs5 (snd eq) + abs5 (fst ea) + abs5 (snd ea).

Lemma five_all (P : Z -> Prop) : P 1 -> P 2 -> P 3 -> P 4 -> P 5 -> forall f, flavour f -> P f.
Proof. intros ? ? ? ? ? f F. unfold flavour in F. five f; assumption. Qed.

Lemma no_excess_spec eq ea : no_excess eq ea = true <->
  forall f, flavour f -> el (fst eq) f - el (fst ea) f + (el (snd eq) f - el (snd ea) f) = 0.
Proof.
  unfold no_excess. cbn [forallb]. rewrite !andb_true_iff, !Z.eqb_eq. split.
  - intros (H1 & H2 & H3 & H4 & H5 & _). apply five_all; assumption.
  - intros H. splits; auto; [apply (H 1)|apply (H 2)|apply (H 3)|apply (H 4)|apply (H 5)]; unfold flavour; lia.
Qed.

Lemma abs5_pos e : 0 <= abs5 e. Proof. unfold abs5. lia. Qed.

Lemma zero_of_sum e0 e1 : sum5 e0 = 0 -> sum5 e1 = 0 -> (forall f, flavour f -> 0 <= el e0 f + el e1 f) ->
  forall f, flavour f -> el e0 f + el e1 f = 0.
Proof.
  intros S0 S1 H. unfold sum5 in *.
  assert (H1 := H 1 ltac:(unfold flavour; lia)). assert (H2 := H 2 ltac:(unfold flavour; lia)).
  assert (H3 := H 3 ltac:(unfold flavour; lia)). assert (H4 := H 4 ltac:(unfold flavour; lia)).
  assert (H5 := H 5 ltac:(unfold flavour; lia)). apply five_all; lia.
Qed.

Lemma pass_spec ev eq ea o : state_ok ev eq ea ->
  exists ev' eq' ea', pass ev eq ea o = Ok (ev', eq', ea') /\ state_ok ev' eq' ea' /\
    (forall f, flavour f -> qc f ev' + el (fst eq') f + el (snd eq') f = qc f ev + el (fst eq) f + el (snd eq) f) /\
    (forall f, flavour f -> ac f ev' + el (fst ea') f + el (snd ea') f = ac f ev + el (fst ea) f + el (snd ea) f) /\
    (no_excess eq' ea' = true \/ measure eq' ea' <= measure eq ea - 2).
Proof.
  destruct eq as [q0 q1], ea as [a0 a1]. intros [P L Sm Q A]. cbn [fst snd] in *.
  destruct L as (Lq0 & Lq1 & La0 & La1). destruct Sm as (Sq0 & Sq1 & Sa0 & Sa1).
  unfold pass. cbn [fst snd].
  destruct (sweep_spec (length ev) ev [] q0 a0 (o false)) as (ev1 & q0' & a0' & E1 & L1 & L1' & P1 & C1 & D1 & S1 & S1' & G1); auto.
  rewrite E1. cbn [rbind].
  destruct (sweep_spec (length ev1) ev1 [] q1 a1 (o true)) as (ev2 & q1' & a1' & E2 & L2 & L2' & P2 & C2 & D2 & S2 & S2' & G2); auto.
  rewrite E2. cbn [rbind].
  rewrite app_nil_r in *.
  assert (HQ : forall f, flavour f -> qc f ev2 + el q0' f + el q1' f = qc f ev + el q0 f + el q1 f).
  { intros f F. specialize (C1 f F). specialize (C2 f F). lia. }
  assert (HA : forall f, flavour f -> ac f ev2 + el a0' f + el a1' f = ac f ev + el a0 f + el a1 f).
  { intros f F. specialize (D1 f F). specialize (D2 f F). lia. }
  exists ev2, (q0', q1'), (a0', a1'). split; [reflexivity|]. cbn [fst snd]. splits; auto.
  - constructor; cbn [fst snd]; auto.
    + splits; lia.
    + intros f F. rewrite HQ by exact F. apply Q; exact F.
    + intros f F. rewrite HA by exact F. apply A; exact F.
  - unfold measure. cbn [fst snd].
    destruct G1 as [(-> & -> & G1q & G1a)|G1]; [|right; destruct G2 as [(-> & -> & _)|G2]; lia].
    destruct G2 as [(-> & -> & G2q & G2a)|G2]; [left|right; lia].
    apply no_excess_spec. cbn [fst snd]. intros f F.
    assert (Zq := zero_of_sum q0 q1 Sq0 Sq1). assert (Za := zero_of_sum a0 a1 Sa0 Sa1).
    rewrite Z.add_sub_assoc. replace (el q0 f - el a0 f + el q1 f - el a1 f) with ((el q0 f + el q1 f) - (el a0 f + el a1 f)) by lia.
    rewrite Zq, Za; auto.
    + intros g G. pose proof (ac_pos g ev). specialize (A g G). specialize (D1 g G).
      destruct (Z.ltb_spec 0 (ac g ev)); [|lia].
      pose proof (G1a Sa0 g G). pose proof (G2a Sa1 g G). cbn beta in *. lia.
    + intros g G. pose proof (qc_pos g ev). specialize (Q g G). specialize (C1 g G).
      destruct (Z.ltb_spec 0 (qc g ev)); [|lia].
      pose proof (G1q Sq0 g G). pose proof (G2q Sq1 g G). cbn beta in *. lia.
Qed.

Lemma recover_spec fuel : forall ev eq ea o, state_ok ev eq ea -> measure eq ea < Z.of_nat fuel ->
  exists ev', recover fuel ev eq ea o = Ok ev' /\ Forall parton ev' /\
    forall f, flavour f -> qc f ev' - ac f ev' =
      qc f ev - ac f ev + (el (fst eq) f - el (fst ea) f) + (el (snd eq) f - el (snd ea) f).
Proof.
  induction fuel as [|m IH]; intros ev eq ea o H M.
  { exfalso. unfold measure in M. pose proof (abs5_pos (fst eq)). pose proof (abs5_pos (snd eq)).
    pose proof (abs5_pos (fst ea)). pose proof (abs5_pos (snd ea)). lia. }
  cbn [recover]. destruct (pass_spec ev eq ea (o m) H) as (ev1 & eq1 & ea1 & E & H1 & Q1 & A1 & G).
  rewrite E. cbn [rbind]. destruct (no_excess eq1 ea1) eqn:N.
  - exists ev1. splits; [reflexivity|apply (ok_p _ _ _ H1)|]. intros f F.
    rewrite no_excess_spec in N. specialize (N f F). specialize (Q1 f F). specialize (A1 f F). lia.
  - destruct G as [G|G]; [discriminate|].
    destruct (IH ev1 eq1 ea1 o H1) as (ev' & E' & P' & R'); [lia|].
    exists ev'. splits; auto. intros f F. rewrite R' by exact F. specialize (Q1 f F). specialize (A1 f F). lia.
Qed.

(** ** counting the partons *)
Lemma n_quarks_spec id f : parton id -> 0 < id -> flavour f -> n_quarks id f = cnt f id.
Proof.
  intros [-> |[Q|D]] Pos F; [reflexivity| |].
  - destruct (quark_kind id Q) as [K C]. unfold n_quarks, cnt. rewrite K, C. cbn [map]. rewrite zsum_cons. unfold ind. rewrite Z.abs_eq by lia.
    unfold b2z. cbn. destruct (id =? f); reflexivity.
  - destruct D as (s & a & b & g & Sg & A & B & Lab & G & Gn & E). destruct (diquark_kind s a b g Sg A B Lab G) as [K1 K2].
    destruct (diquark_parts s a b g Sg A B Lab G) as [_ C].
    assert (s = 1) as -> by (unfold flavour in *; destruct Sg; subst; lia).
    unfold n_quarks, cnt. rewrite <- E in *. rewrite K1, K2, C. rewrite !Z.mul_1_l in *. unfold flavour in *.
    assert (D1 : id / 1000 = a).
    { symmetry. apply Z.div_unique with (100 * b + g); lia. }
    assert (D2 : (id / 100) mod 10 = b).
    { assert (id / 100 = 10 * a + b) as -> by (symmetry; apply Z.div_unique with g; lia).
      symmetry. apply Z.mod_unique with a; lia. }
    rewrite D1, D2. cbn [map]. rewrite !zsum_cons. rewrite !Z.abs_eq by lia. unfold ind, b2z. change (zsum []) with 0. lia.
Qed.

Lemma parton_opp id : parton id -> id <= 0 -> parton (- id) /\ 0 < - id /\ forall f, cnt f (- id) = cnt f id.
Proof.
  intros [-> |[Q|D]] N; [lia| |].
  - assert (Q' : quark (- id)) by (unfold quark in *; rewrite Z.abs_opp; exact Q).
    splits; [right; left; exact Q'|unfold quark, flavour in Q; lia|]. intros f. unfold cnt.
    rewrite (proj2 (quark_kind _ Q)), (proj2 (quark_kind _ Q')). cbn [map]. rewrite Z.abs_opp. reflexivity.
  - destruct D as (s & a & b & g & Sg & A & B & Lab & G & Gn & E).
    assert (E' : - id = - s * (1000 * a + 100 * b + g)) by lia.
    assert (Sg' : - s = 1 \/ - s = -1) by lia.
    splits.
    + right; right. exists (- s), a, b, g. splits; auto.
    + unfold flavour in *. destruct Sg; subst; lia.
    + intros f. unfold cnt. rewrite E'. rewrite (proj2 (diquark_parts (- s) a b g Sg' A B Lab G)).
      rewrite E. rewrite (proj2 (diquark_parts s a b g Sg A B Lab G)). cbn [map].
      replace (Z.abs (- s * a)) with (Z.abs (s * a)) by lia. replace (Z.abs (- s * b)) with (Z.abs (s * b)) by lia. reflexivity.
Qed.

Lemma add_list_spec e g : length e = 5%nat -> length (add_list e (map g flavours5)) = 5%nat /\
  forall f, flavour f -> el (add_list e (map g flavours5)) f = el e f + g f.
Proof.
  intros L. destruct (len5 e L) as (a & b & c & d & x & ->). split; [reflexivity|]. apply five_all; reflexivity.
Qed.

Lemma find_total_from ev : forall nq na, length nq = 5%nat -> length na = 5%nat -> Forall parton ev ->
  exists nq' na', fold_left total_step ev (nq, na) = (nq', na') /\ length nq' = 5%nat /\ length na' = 5%nat /\
    forall f, flavour f -> el nq' f = el nq f + qc f ev /\ el na' f = el na f + ac f ev.
Proof.
  induction ev as [|x t IH]; intros nq na Lq La P.
  - exists nq, na. splits; auto. intros f F. cbn. lia.
  - inversion P as [|? ? Px Pt]; subst. cbn [fold_left total_step].
    destruct (Z.ltb_spec 0 x) as [Pos|Neg].
    + destruct (add_list_spec nq (n_quarks x) Lq) as [L' S'].
      destruct (IH _ na L' La Pt) as (nq' & na' & E & L1 & L2 & H). exists nq', na'. splits; auto. intros f F.
      destruct (H f F) as [H1 H2]. rewrite qc_cons, ac_cons, (proj2 (Z.ltb_lt 0 x)) by assumption.
      rewrite H1, H2, S', n_quarks_spec by assumption. lia.
    + destruct (parton_opp x Px Neg) as (Po & Pos & Co).
      assert (Eo : Z.abs x = - x) by lia. rewrite Eo.
      destruct (add_list_spec na (n_quarks (- x)) La) as [L' S'].
      destruct (IH nq _ Lq L' Pt) as (nq' & na' & E & L1 & L2 & H). exists nq', na'. splits; auto. intros f F.
      destruct (H f F) as [H1 H2]. rewrite qc_cons, ac_cons, (proj2 (Z.ltb_ge 0 x)) by assumption.
      rewrite H1, H2, S', n_quarks_spec, Co by assumption. lia.
Qed.

(** ** splitting gluons *)
Definition tallies (ev nq na : list Z) : Prop :=
  length nq = 5%nat /\ length na = 5%nat /\ Forall parton ev /\
  forall f, flavour f -> el nq f = qc f ev /\ el na f = ac f ev.

Lemma find_total_spec ev : Forall parton ev -> exists nq na, find_total ev = (nq, na) /\ tallies ev nq na.
Proof.
  intros P. destruct (find_total_from ev zero5 zero5 eq_refl eq_refl P) as (nq & na & E & L1 & L2 & H).
  exists nq, na. split; [exact E|]. unfold tallies. splits; auto. intros f F. destruct (H f F) as [H1 H2].
  assert (Z0 : el zero5 f = 0) by (revert f F H1 H2; clear; intros f F _ _; revert f F; apply five_all; reflexivity).
  lia.
Qed.

Definition same_net (ev ev' : list Z) : Prop := forall f, flavour f -> qc f ev' - ac f ev' = qc f ev - ac f ev.

Lemma split_many_spec n : forall ev nq na f picks, flavour f -> tallies ev nq na ->
  exists ok ev' nq' na', split_many n ev nq na f picks = (ok, (ev', nq', na')) /\ tallies ev' nq' na' /\ same_net ev ev'.
Proof.
  induction n as [|m IH]; intros ev nq na f picks F T; cbn [split_many].
  { do 4 eexists. splits; [reflexivity|exact T|]. intros g G; reflexivity. }
  unfold split_gluon.
  destruct (picks m) as [i|]; [|do 4 eexists; splits; [reflexivity|exact T|]; intros g G; reflexivity].
  destruct (isGluon (nth i ev 0)) eqn:Eg; [|do 4 eexists; splits; [reflexivity|exact T|]; intros g G; reflexivity].
  unfold isGluon in Eg. apply Z.eqb_eq in Eg.
  assert (Hi : (i < length ev)%nat).
  { destruct (Nat.lt_ge_cases i (length ev)); [assumption|]. rewrite nth_overflow in Eg by assumption. discriminate. }
  destruct (take_out ev i Hi) as (a & b & E & Er & _). rewrite Eg in E. rewrite app_assoc, Er.
  destruct T as (Lq & La & P & H).
  destruct (bump_spec nq f 1 Lq F) as [Bl Bq]. destruct (bump_spec na f 1 La F) as [Bl' Ba].
  fold (bump nq (f - 1) 1) (bump na (f - 1) 1).
  assert (Qf : quark f /\ quark (- f)) by (unfold quark, flavour in *; lia).
  assert (Cf : forall g, flavour g -> qc g [f; - f] = (if g =? f then 1 else 0) /\ ac g [f; - f] = (if g =? f then 1 else 0)).
  { intros g G. rewrite !qc_cons, !ac_cons. rewrite (proj2 (Z.ltb_lt 0 f)), (proj2 (Z.ltb_ge 0 (- f))) by (unfold flavour in F; lia).
    unfold cnt. rewrite (proj2 (quark_kind f (proj1 Qf))), (proj2 (quark_kind (- f) (proj2 Qf))). cbn [map]. rewrite !zsum_cons.
    rewrite Z.abs_opp, Z.abs_eq by (unfold flavour in F; lia). unfold ind. rewrite (Z.eqb_sym f g).
    change (qc g []) with 0. change (ac g []) with 0. change (zsum []) with 0. lia. }
  assert (N : forall g, flavour g -> qc g ((a ++ b) ++ [f; - f]) = qc g ev + (if g =? f then 1 else 0) /\
                         ac g ((a ++ b) ++ [f; - f]) = ac g ev + (if g =? f then 1 else 0)).
  { intros g G. destruct (Cf g G) as [C1 C2]. rewrite E. rewrite !qc_app, !ac_app, C1, C2, qc_cons, ac_cons. cbn. lia. }
  destruct (IH ((a ++ b) ++ [f; - f]) (bump nq (f - 1) 1) (bump na (f - 1) 1) f picks F) as (ok & ev' & nq' & na' & E' & T' & N').
  { unfold tallies. splits; auto.
    - rewrite E in P. apply Forall_app in P as [P1 P2]. inversion P2; subst. apply Forall_app; split; [apply Forall_app; split; assumption|].
      constructor; [right; left; tauto|constructor; [right; left; tauto|constructor]].
    - intros g G. rewrite Bq, Ba by exact G. destruct (N g G), (H g G). lia. }
  exists ok, ev', nq', na'. splits; auto. intros g G. rewrite N' by exact G. destruct (N g G). lia.
Qed.

Lemma split_flavours_spec fs : forall sign e0 e1 ev nq na picks, Forall flavour fs -> tallies ev nq na ->
  exists ok ev' nq' na', split_flavours fs sign e0 e1 ev nq na picks = (ok, (ev', nq', na')) /\ tallies ev' nq' na' /\ same_net ev ev'.
Proof.
  induction fs as [|f r IH]; intros sign e0 e1 ev nq na picks F T; cbn [split_flavours].
  { do 4 eexists. splits; [reflexivity|exact T|]. intros g G; reflexivity. }
  inversion F as [|? ? Ff Fr]; subst.
  destruct (0 <=? _); [apply IH; assumption|].
  destruct (split_many_spec (Z.to_nat (Z.abs (nth (Z.to_nat (f - 1)) e0 0 + nth (Z.to_nat (f - 1)) e1 0 +
     (if sign then nth (Z.to_nat (f - 1)) nq 0 else nth (Z.to_nat (f - 1)) na 0)))) ev nq na f (picks f) Ff T)
    as (ok & ev1 & nq1 & na1 & E1 & T1 & N1).
  rewrite E1. destruct ok.
  - destruct (IH sign e0 e1 ev1 nq1 na1 picks Fr T1) as (ok & ev2 & nq2 & na2 & E2 & T2 & N2).
    exists ok, ev2, nq2, na2. splits; auto. intros g G. rewrite N2, N1 by exact G. reflexivity.
  - do 4 eexists. splits; [reflexivity|exact T1|exact N1].
Qed.

Lemma splitting_gluon_spec ev sign e0 e1 picks : Forall parton ev ->
  exists ok ev' nq' na', splitting_gluon ev sign e0 e1 picks = (ok, (ev', nq', na')) /\ tallies ev' nq' na' /\ same_net ev ev'.
Proof.
  intros P. unfold splitting_gluon. destruct (find_total_spec ev P) as (nq & na & -> & T).
  apply split_flavours_spec; [|exact T]. unfold flavours5. repeat constructor; unfold flavour; lia.
Qed.

(** ** rearranging the excess *)
Lemma sum5_bump e f x : length e = 5%nat -> flavour f -> sum5 (bump e (f - 1) x) = sum5 e + x.
Proof.
  intros L F. unfold sum5. destruct (bump_spec e f x L F) as [_ B].
  rewrite (B 1), (B 2), (B 3), (B 4), (B 5) by (unfold flavour; lia). unfold flavour in F. five f; cbn [Z.eqb Pos.eqb]; lia.
Qed.

Lemma rearrange_one_spec f eq ea : flavour f -> length eq = 5%nat -> length ea = 5%nat -> sum5 eq = 0 -> sum5 ea = 0 -> el eq f < 0 ->
  exists eq' ea', rearrange_one (f - 1) eq ea = (eq', ea') /\ length eq' = 5%nat /\ length ea' = 5%nat /\
    sum5 eq' = 0 /\ sum5 ea' = 0 /\ el eq' f = el eq f + 1 /\
    (forall g, flavour g -> el eq' g - el ea' g = el eq g - el ea g).
Proof.
  intros F Lq La Sq Sa N. unfold rearrange_one.
  destruct (bump_spec eq f 1 Lq F) as [Lq1 Bq]. destruct (bump_spec ea f 1 La F) as [La1 Ba].
  pose proof (sum5_bump eq f 1 Lq F) as Sq1. pose proof (sum5_bump ea f 1 La F) as Sa1.
  set (q1 := bump eq (f - 1) 1) in *. set (a1 := bump ea (f - 1) 1) in *. clearbody q1 a1.
  destruct (first_positive q1 (f - 1)) as [j|] eqn:Ef; unfold first_positive in Ef.
  - apply find_some in Ef as [I C]. apply andb_true_iff in C as [C1 C2]. apply negb_true_iff, Z.eqb_neq in C1.
    assert (Fj : flavour (j + 1)) by (unfold flavour; cbn in I; lia).
    assert (Ej : j = j + 1 - 1) by lia. rewrite Ej. set (g := j + 1) in *.
    destruct (bump_spec q1 g (-1) Lq1 Fj) as [Lq2 Bq2]. destruct (bump_spec a1 g (-1) La1 Fj) as [La2 Ba2].
    do 2 eexists. split; [reflexivity|]. splits; auto.
    + rewrite sum5_bump by assumption. lia.
    + rewrite sum5_bump by assumption. lia.
    + rewrite Bq2, Bq by exact F. rewrite Z.eqb_refl. rewrite (proj2 (Z.eqb_neq f g)) by lia. lia.
    + intros h Hh. rewrite Bq2, Ba2, Bq, Ba by exact Hh. lia.
  - exfalso. unfold flavour in F.
    assert (Nf : forall k, flavour k -> k <> f -> el q1 k <= 0).
    { intros k K Kf. unfold flavour in K. pose proof (find_none _ _ Ef (k - 1)) as Q.
      assert (I : In (k - 1) [0; 1; 2; 3; 4]) by (cbn; lia). specialize (Q I). apply andb_false_iff in Q.
      rewrite negb_false_iff, Z.eqb_eq, Z.ltb_ge in Q. destruct Q as [Q|Q]; [lia|exact Q]. }
    assert (M : forall k, flavour k -> el eq k <= 0).
    { intros k K. destruct (Z.eqb_spec k f) as [->|Kf]; [lia|]. pose proof (Nf k K Kf) as Q. rewrite Bq in Q by exact K.
      rewrite (proj2 (Z.eqb_neq k f)) in Q by exact Kf. lia. }
    unfold sum5 in Sq.
    assert (M1 := M 1 ltac:(unfold flavour; lia)). assert (M2 := M 2 ltac:(unfold flavour; lia)).
    assert (M3 := M 3 ltac:(unfold flavour; lia)). assert (M4 := M 4 ltac:(unfold flavour; lia)). assert (M5 := M 5 ltac:(unfold flavour; lia)).
    clear Nf M Bq Ba Ef. five f; lia.
Qed.

Definition arr_ok (e : arr2) : Prop :=
  length (fst e) = 5%nat /\ length (snd e) = 5%nat /\ sum5 (fst e) = 0 /\ sum5 (snd e) = 0.
Definition diff (eq ea : arr2) (f : Z) : Z := (el (fst eq) f - el (fst ea) f) + (el (snd eq) f - el (snd ea) f).

Lemma rearrange_many_spec n : forall f eq ea, flavour f -> arr_ok eq -> arr_ok ea ->
  el (fst eq) f + el (snd eq) f <= - Z.of_nat n ->
  exists eq' ea', rearrange_many n (f - 1) eq ea = (eq', ea') /\ arr_ok eq' /\ arr_ok ea' /\
    forall g, flavour g -> diff eq' ea' g = diff eq ea g.
Proof.
  induction n as [|m IH]; intros f [q0 q1] [a0 a1] F Oq Oa H; cbn [rearrange_many fst snd].
  { do 2 eexists. splits; [reflexivity|exact Oq|exact Oa|reflexivity]. }
  destruct Oq as (L0 & L1 & S0 & S1). destruct Oa as (M0 & M1 & T0 & T1). cbn [fst snd] in *.
  change (nth (Z.to_nat (f - 1)) q0 0) with (el q0 f).
  destruct (Z.ltb_spec (el q0 f) 0) as [N|N].
  - destruct (rearrange_one_spec f q0 a0 F L0 M0 S0 T0 N) as (q & a & E & Lq & La & Sq & Sa & Eq & D). rewrite E.
    destruct (IH f (q, q1) (a, a1) F) as (eq' & ea' & E' & O1 & O2 & D').
    + unfold arr_ok; cbn [fst snd]; auto.
    + unfold arr_ok; cbn [fst snd]; auto.
    + cbn [fst snd]. lia.
    + exists eq', ea'. splits; auto. intros g G. rewrite D' by exact G. unfold diff; cbn [fst snd]. specialize (D g G). lia.
  - destruct (rearrange_one_spec f q1 a1 F L1 M1 S1 T1) as (q & a & E & Lq & La & Sq & Sa & Eq & D); [lia|]. rewrite E.
    destruct (IH f (q0, q) (a0, a) F) as (eq' & ea' & E' & O1 & O2 & D').
    + unfold arr_ok; cbn [fst snd]; auto.
    + unfold arr_ok; cbn [fst snd]; auto.
    + cbn [fst snd]. lia.
    + exists eq', ea'. splits; auto. intros g G. rewrite D' by exact G. unfold diff; cbn [fst snd]. specialize (D g G). lia.
Qed.

Lemma rearrange_spec nq eq ea : (forall f, flavour f -> 0 <= el nq f) -> arr_ok eq -> arr_ok ea ->
  exists eq' ea', rearrange nq eq ea = (eq', ea') /\ arr_ok eq' /\ arr_ok ea' /\
    forall g, flavour g -> diff eq' ea' g = diff eq ea g.
Proof.
  intros Hn Oq Oa. unfold rearrange.
  assert (G : forall l eq ea, Forall (fun i => flavour (i + 1)) l -> arr_ok eq -> arr_ok ea ->
    exists eq' ea', fold_left (rearrange_flavour nq) l (eq, ea) = (eq', ea') /\ arr_ok eq' /\ arr_ok ea' /\
    forall g, flavour g -> diff eq' ea' g = diff eq ea g).
  { clear eq ea Oq Oa. induction l as [|i t IH]; intros eq ea Fl Oq Oa.
    - do 2 eexists. splits; [reflexivity|exact Oq|exact Oa|reflexivity].
    - inversion Fl as [|? ? Fi Ft]; subst. cbn [fold_left]. unfold rearrange_flavour at 2.
      destruct (Z.leb_spec 0 (nth (Z.to_nat i) nq 0 + nth (Z.to_nat i) (fst eq) 0 + nth (Z.to_nat i) (snd eq) 0)) as [L|L].
      + apply IH; assumption.
      + assert (Ei : i = i + 1 - 1) by lia.
        assert (El : forall e, nth (Z.to_nat i) e 0 = el e (i + 1)) by (intros e; unfold el; rewrite <- Ei; reflexivity).
        rewrite !El in *.
        destruct (rearrange_many_spec (Z.to_nat (Z.abs (el nq (i + 1) + el (fst eq) (i + 1) + el (snd eq) (i + 1)))) (i + 1) eq ea Fi Oq Oa)
          as (eq1 & ea1 & E1 & O1 & O1' & D1).
        { specialize (Hn (i + 1) Fi). lia. }
        rewrite <- Ei in E1. rewrite E1. destruct (IH eq1 ea1 Ft O1 O1') as (eq2 & ea2 & E2 & O2 & O2' & D2).
        exists eq2, ea2. splits; auto. intros g Hg. rewrite D2, D1 by exact Hg. reflexivity. }
  apply G; auto. repeat constructor; unfold flavour; lia.
Qed.

Lemma enough_spec n e : enough n e = true -> forall f, flavour f -> 0 <= el n f + el (fst e) f + el (snd e) f.
Proof.
  unfold enough. cbn [forallb]. rewrite !andb_true_iff, !Z.leb_le. intros (H1 & H2 & H3 & H4 & H5 & _).
  apply five_all; assumption.
Qed.

(** ** the whole of restore_constituent *)
Lemma restore_spec ev eq ea picks : Forall parton ev -> arr_ok eq -> arr_ok ea ->
  exists N, forall fuel o, (N <= fuel)%nat ->
    restore fuel ev eq ea picks o = Ok None \/
    exists ev', restore fuel ev eq ea picks o = Ok (Some ev') /\ Forall parton ev' /\
      forall f, flavour f -> qc f ev' - ac f ev' = qc f ev - ac f ev + diff eq ea f.
Proof.
  intros P Oq Oa. unfold restore.
  destruct (splitting_gluon_spec ev true (fst eq) (snd eq) (picks true) P) as (ok1 & ev1 & nq1 & na1 & -> & T1 & N1).
  destruct (splitting_gluon_spec ev1 false (fst ea) (snd ea) (picks false)) as (ok2 & ev2 & nq & na & -> & T2 & N2).
  { apply T1. }
  destruct T2 as (Lq & La & P2 & T2).
  assert (X : exists eq' ea', (if negb ok1 || negb ok2 then
      let '(eq1, ea1) := rearrange nq eq ea in
      let '(ea2, eq2) := rearrange na ea1 eq1 in (eq2, ea2)
    else (eq, ea)) = (eq', ea') /\ arr_ok eq' /\ arr_ok ea' /\ forall g, flavour g -> diff eq' ea' g = diff eq ea g).
  { destruct (negb ok1 || negb ok2); [|do 2 eexists; splits; [reflexivity|exact Oq|exact Oa|reflexivity]].
    destruct (rearrange_spec nq eq ea) as (eq1 & ea1 & -> & O1 & O1' & D1); auto.
    { intros f F. rewrite (proj1 (T2 f F)). apply qc_pos. }
    destruct (rearrange_spec na ea1 eq1) as (ea2 & eq2 & -> & O2 & O2' & D2); auto.
    { intros f F. rewrite (proj2 (T2 f F)). apply ac_pos. }
    do 2 eexists. splits; [reflexivity|exact O2'|exact O2|]. intros g G. rewrite <- D1 by exact G.
    specialize (D2 g G). unfold diff in *. lia. }
  destruct X as (eq' & ea' & -> & Oq' & Oa' & D).
  exists (S (Z.to_nat (measure eq' ea'))). intros fuel o Hf.
  destruct (enough nq eq' && enough na ea') eqn:En; [|left; reflexivity]. right.
  apply andb_true_iff in En as [En1 En2].
  assert (En1' := enough_spec _ _ En1). assert (En2' := enough_spec _ _ En2).
  destruct Oq' as (Lq0 & Lq1 & Sq0 & Sq1). destruct Oa' as (La0 & La1 & Sa0 & Sa1).
  destruct (recover_spec fuel ev2 eq' ea' o) as (ev3 & E3 & P3 & H3).
  - constructor; auto.
    + intros f F. rewrite <- (proj1 (T2 f F)). apply En1'; exact F.
    + intros f F. rewrite <- (proj2 (T2 f F)). apply En2'; exact F.
  - lia.
  - exists ev3. rewrite E3. cbn [rbind]. splits; auto. intros f F. rewrite H3 by exact F.
    rewrite <- D by exact F. unfold diff. specialize (N1 f F). specialize (N2 f F). lia.
Qed.

(** ** in terms of net flavour *)
Lemma net_counts f ev : flavour f -> Forall parton ev -> net f ev = qc f ev - ac f ev.
Proof.
  intros F. unfold net. induction ev as [|x t IH]; intros P; [reflexivity|].
  inversion P as [|? ? Px Pt]; subst. cbn [flat_map]. rewrite qc_cons, ac_cons.
  specialize (IH Pt).
  assert (A : forall a b, net_count f (a ++ b) = net_count f a + net_count f b).
  { intros a b. unfold net_count. rewrite map_app. apply zsum_app. }
  rewrite A, IH.
  enough (N : net_count f (constituents x) = (if 0 <? x then cnt f x else 0) - (if 0 <? x then 0 else cnt f x)) by lia.
  assert (One : forall q, quark q -> net_count f [q] = if 0 <? q then ind (Z.abs q) f else - ind (Z.abs q) f).
  { intros q Q. unfold net_count, ind, quark, flavour in *. cbn [map]. rewrite zsum_cons. change (zsum []) with 0.
    destruct (Z.eqb_spec q f), (Z.eqb_spec q (- f)), (Z.ltb_spec 0 q), (Z.eqb_spec (Z.abs q) f); lia. }
  unfold cnt. destruct Px as [-> |[Q|D]].
  - reflexivity.
  - rewrite (proj2 (quark_kind x Q)). cbn [map]. rewrite zsum_cons. change (zsum []) with 0. rewrite One by exact Q. destruct (0 <? x); lia.
  - destruct D as (s & a & b & g & Sg & Ha & Hb & Lab & G & Gn & E).
    assert (Px : 0 <? x = (0 <? s)).
    { unfold flavour in *. destruct Sg; subst; [apply Z.ltb_lt|apply Z.ltb_ge]; lia. }
    rewrite Px. rewrite E. rewrite (proj2 (diquark_parts s a b g Sg Ha Hb Lab G)). cbn [map]. rewrite !zsum_cons. change (zsum []) with 0.
    change [s * a; s * b] with ([s * a] ++ [s * b]). rewrite A. rewrite !One by (unfold quark, flavour in *; destruct Sg; subst; lia).
    unfold flavour in *. destruct Sg; subst.
    + rewrite (proj2 (Z.ltb_lt 0 (1 * a))), (proj2 (Z.ltb_lt 0 (1 * b))) by lia. cbn [Z.ltb Z.compare]. lia.
    + rewrite (proj2 (Z.ltb_ge 0 (-1 * a))), (proj2 (Z.ltb_ge 0 (-1 * b))) by lia. cbn [Z.ltb Z.compare]. lia.
Qed.

Lemma net_occ f l : flavour f -> net_count f l = occ f l - occ (- f) l.
Proof.
  intros F. unfold net_count, occ. induction l as [|x t IH]; [reflexivity|]. cbn [map count_occ]. rewrite zsum_cons, IH. unfold flavour in F.
  destruct (Z.eqb_spec x f), (Z.eqb_spec x (- f)), (Z.eq_dec x f), (Z.eq_dec x (- f)); lia.
Qed.

(** C56: let two hadrons (no top quarks) be mapped to the species PYTHIA simulates, and let
    PYTHIA return partons carrying the mapped hadrons' net flavour.  Then for every choice of
    split gluons there is a number of turns after which, for all further random choices, the
    conversion has stopped; either it reports failure or the partons carry exactly the net
    flavour of the two actual hadrons. *)
Theorem restored_flavour A B mA mB qA aA qB aB ev picks :
  0 <= A < 2 ^ 32 -> 0 <= B < 2 ^ 32 -> is_hadron A = true -> is_hadron B = true -> no_top A -> no_top B ->
  map_for_pythia A = Ok mA -> map_for_pythia B = Ok mB ->
  find_excess A mA = Ok (qA, aA) -> find_excess B mB = Ok (qB, aB) ->
  Forall parton ev ->
  (forall f, flavour f -> net f ev = net_count f (quark_content mA) + net_count f (quark_content mB)) ->
  exists N, forall fuel o, (N <= fuel)%nat ->
    restore fuel ev (qA, qB) (aA, aB) picks o = Ok None \/
    exists ev', restore fuel ev (qA, qB) (aA, aB) picks o = Ok (Some ev') /\ Forall parton ev' /\
      forall f, flavour f -> net f ev' = net_count f (quark_content A) + net_count f (quark_content B).
Proof.
  intros HwA HwB HA HB TA TB MA MB EA EB P Hn.
  destruct (map_kind A mA HA HwA MA) as (HmA & TmA & _). destruct (map_kind B mB HB HwB MB) as (HmB & TmB & _).
  destruct (excess_exact A mA HA HmA TA TmA) as (x1 & x2 & X1 & X2 & X3 & XA).
  assert (x1 = qA /\ x2 = aA) as [-> ->] by (split; congruence).
  destruct (excess_exact B mB HB HmB TB TmB) as (y1 & y2 & Y1 & Y2 & Y3 & YB).
  assert (y1 = qB /\ y2 = aB) as [-> ->] by (split; congruence).
  destruct (excess_balanced A mA qA aA HA HwA TA MA EA) as [SA SA'].
  destruct (excess_balanced B mB qB aB HB HwB TB MB EB) as [SB SB'].
  destruct (restore_spec ev (qA, qB) (aA, aB) picks P) as (N & HN).
  { unfold arr_ok; cbn [fst snd]; auto. }
  { unfold arr_ok; cbn [fst snd]; auto. }
  exists N. intros fuel o Hf. destruct (HN fuel o Hf) as [E|(ev' & E & P' & H')]; [left; exact E|right].
  exists ev'. splits; auto. intros f F. rewrite net_counts, H' by assumption. rewrite <- net_counts, Hn by assumption.
  unfold diff; cbn [fst snd]. destruct (XA f F) as [U1 U2]. destruct (YB f F) as [V1 V2]. rewrite U1, U2, V1, V2.
  rewrite (net_occ f (quark_content mA)), (net_occ f (quark_content mB)), (net_occ f (quark_content A)), (net_occ f (quark_content B)) by exact F. lia.
Qed.
Print Assumptions restored_flavour.

(** K+ Lambda, simulated as pi+ n *)
Definition ex_ev : list Z := [2; -1; 21; 1; 2101].
Example restored_example :
  exists qA aA qB aB, map_for_pythia 0x321 = Ok PIPLUS /\ map_for_pythia 0x3122 = Ok NEUTRON /\
    find_excess 0x321 PIPLUS = Ok (qA, aA) /\ find_excess 0x3122 NEUTRON = Ok (qB, aB) /\
    (forall f, flavour f -> net f ex_ev = net_count f (quark_content PIPLUS) + net_count f (quark_content NEUTRON)) /\
    Forall parton ex_ev /\
    restore 5 ex_ev (qA, qB) (aA, aB) (fun _ _ _ => None) (fun _ _ _ => (0%nat, 0, 0)) = Ok (Some [2; -3; 21; 3; 2101]).
Proof.
  do 4 eexists. splits; try reflexivity.
  - apply five_all; reflexivity.
  - unfold ex_ev. repeat apply Forall_cons; [right; left|right; left|left|right; left|right; right|constructor]; unfold quark, flavour; try lia.
    exists 1, 2, 1, 1. unfold flavour. splits; lia.
Qed.
