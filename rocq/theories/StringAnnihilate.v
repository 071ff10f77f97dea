(** Baryon-antibaryon annihilation keeps every net flavour (C56). *)
From Coq Require Import ZArith List Bool Lia Permutation.
From Verif Require Import Base PdgSpec PdgModel PdgProofs PdgMore PdgProps StringSpec StringModel StringProps StringExcess StringRestore.
Import ListNotations.
Open Scope Z_scope.

Lemma nq_list w : is_hadron w = true -> baryon_number w <> 0 -> no_top w -> six w ->
  exists c, mapM (net_quark_number w) flavours5 = Ok c /\ length c = 5%nat /\
    (forall f, flavour f -> el c f = net_count f (quark_content w)).
Proof.
  intros H B T S6.
  assert (N : is_nucleus w = false).
  { unfold is_hadron in H. destruct (is_nucleus w); [rewrite !andb_false_r in H; discriminate|reflexivity]. }
  assert (Q : n_q1 w = 0 -> n_q3 w <= n_q2 w).
  { intros Z0. exfalso. apply B. unfold baryon_number. rewrite N, H, Z0. reflexivity. }
  assert (K : forall f, flavour f -> net_quark_number w f = Ok (net_count f (quark_content w))).
  { intros f F. unfold flavour in F. rewrite (content_count w f ltac:(lia) H S6 Q). unfold nq.
    unfold net_quark_number. rewrite (proj2 (Z.ltb_ge f 1)), (proj2 (Z.ltb_ge 6 f)) by lia. cbn [orb]. rewrite N.
    repeat (match goal with |- context [if ?b then _ else _] => destruct b end; try reflexivity). }
  exists (map (fun f => net_count f (quark_content w)) flavours5). split.
  - unfold flavours5. cbn [mapM map]. rewrite !K by (unfold flavour; lia). reflexivity.
  - split; [reflexivity|]. apply five_all; reflexivity.
Qed.

Lemma net_app f a b : net_count f (a ++ b) = net_count f a + net_count f b.
Proof. unfold net_count. rewrite map_app. apply zsum_app. Qed.
Lemma net_repeat f q n : flavour f -> quark q ->
  net_count f (repeat q n) = Z.of_nat n * ((if q =? f then 1 else 0) - (if q =? - f then 1 else 0)).
Proof.
  intros F Q. unfold quark, flavour in *. induction n as [|m IH]; [reflexivity|]. cbn [repeat].
  change (q :: repeat q m) with ([q] ++ repeat q m). rewrite net_app, IH. unfold net_count. cbn [map]. rewrite zsum_cons.
  change (zsum []) with 0. destruct (Z.eqb_spec q f), (Z.eqb_spec q (- f)); lia.
Qed.

Lemma repeat_flavours_spec c s : (s = 1 \/ s = -1) -> length c = 5%nat -> (forall f, flavour f -> 0 <= el c f) ->
  Z.of_nat (length (repeat_flavours c s)) = sum5 c /\
  Forall (fun q => flavour (s * q)) (repeat_flavours c s) /\
  forall f, flavour f -> net_count f (repeat_flavours c s) = s * el c f.
Proof.
  intros Sg L P. unfold repeat_flavours, flavours5. cbn [flat_map].
  change (nth (Z.to_nat (1 - 1)) c 0) with (el c 1). change (nth (Z.to_nat (2 - 1)) c 0) with (el c 2).
  change (nth (Z.to_nat (3 - 1)) c 0) with (el c 3). change (nth (Z.to_nat (4 - 1)) c 0) with (el c 4).
  change (nth (Z.to_nat (5 - 1)) c 0) with (el c 5).
  assert (P1 := P 1 ltac:(unfold flavour; lia)). assert (P2 := P 2 ltac:(unfold flavour; lia)).
  assert (P3 := P 3 ltac:(unfold flavour; lia)). assert (P4 := P 4 ltac:(unfold flavour; lia)). assert (P5 := P 5 ltac:(unfold flavour; lia)).
  splits.
  - rewrite !app_length, !repeat_length. cbn [length]. unfold sum5. lia.
  - rewrite !Forall_app. splits; try (constructor); apply Forall_forall; intros q I; apply repeat_spec in I; subst q; unfold flavour;
      destruct Sg; subst; lia.
  - intros f F. rewrite !net_app. change (net_count f []) with 0.
    rewrite !net_repeat by (auto; unfold quark, flavour; destruct Sg; subst; lia).
    rewrite !Z2Nat.id by assumption. unfold flavour in F.
    five f; destruct Sg; subst;
      repeat match goal with |- context [?a =? ?b] => let v := eval vm_compute in (a =? b) in change (a =? b) with v end; cbv iota; lia.
Qed.

Lemma swap2_spec l (b : bool) : length l = 2%nat ->
  Permutation l (if b then swap2 l else l).
Proof.
  destruct l as [|x [|y [|z t]]]; try discriminate. intros _. destruct b; [apply perm_swap|reflexivity].
Qed.
Lemma net_perm f a b : Permutation a b -> net_count f a = net_count f b.
Proof.
  intros P. unfold net_count. induction P; cbn [map]; rewrite ?zsum_cons; lia.
Qed.

Lemma baryon_counts w c s : is_hadron w = true -> no_top w -> (s = 1 \/ s = -1) -> baryon_number w = s -> length c = 5%nat ->
  (forall f, flavour f -> el c f = s * net_count f (quark_content w)) ->
  (forall f, flavour f -> 0 <= el c f /\ (0 < el c f <-> In (s * f) (quark_content w))) /\ sum5 c = 3.
Proof.
  intros H T Sg B L E.
  destruct (content_shape w H) as (a & b & d & Ec & Nb & Nd & _ & B1 & B2).
  unfold no_top in T. rewrite Ec in *.
  inversion T as [|? ? A0 TA']; subst. inversion TA' as [|? ? A1 TA'']; subst. inversion TA'' as [|? ? A2 _]; subst.
  assert (V : 1 <= baryon_number w * a <= 5 /\ 1 <= baryon_number w * b <= 5 /\ 1 <= baryon_number w * d <= 5).
  { destruct Sg as [Sg|Sg]; rewrite Sg in *; [destruct (B1 eq_refl) as (? & ? & ?)|destruct (B2 eq_refl) as (? & ? & ?)]; lia. }
  set (s := baryon_number w) in *. clearbody s.
  assert (K : forall f, flavour f -> el c f = ind (s * a) f + ind (s * b) f + ind (s * d) f).
  { intros f F. rewrite E by exact F. unfold net_count. cbn [map]. rewrite !zsum_cons. change (zsum []) with 0.
    assert (one : forall x, 1 <= s * x <= 5 -> s * (if x =? f then 1 else if x =? - f then -1 else 0) = ind (s * x) f).
    { intros x X. unfold ind, flavour in *. destruct Sg; subst s;
        destruct (Z.eqb_spec x f), (Z.eqb_spec x (- f)), (Z.eqb_spec (1 * x) f), (Z.eqb_spec (-1 * x) f); lia. }
    rewrite <- !one by tauto. ring. }
  split.
  - intros f F. rewrite K by exact F. pose proof (ind_pos (s * a) f). pose proof (ind_pos (s * b) f). pose proof (ind_pos (s * d) f).
    split; [lia|]. cbn [In].
    assert (one : forall x, 0 < ind (s * x) f <-> x = s * f).
    { intros x. unfold ind. destruct (Z.eqb_spec (s * x) f); destruct Sg; subst s; lia. }
    pose proof (one a). pose proof (one b). pose proof (one d). split; [|intuition lia].
    intros Q. destruct (Z.ltb_spec 0 (ind (s * a) f)); [left; tauto|]. destruct (Z.ltb_spec 0 (ind (s * b) f)); [right; left; tauto|].
    right; right; left. apply H5. lia.
  - unfold sum5. rewrite !K by (unfold flavour; lia).
    assert (tot : forall x, 1 <= x <= 5 -> ind x 1 + ind x 2 + ind x 3 + ind x 4 + ind x 5 = 1) by (intros x X; five x; reflexivity).
    pose proof (tot (s * a) ltac:(tauto)). pose proof (tot (s * b) ltac:(tauto)). pose proof (tot (s * d) ltac:(tauto)). lia.
Qed.

(** C56: after a baryon-antibaryon annihilation two quarks and two antiquarks are left, with
    exactly the net flavours of the two incoming particles; nothing happens only if the
    antibaryon contains no antiquark of any flavour of the baryon. *)
Theorem annihilation_keeps_flavour w0 w1 pick s1 s2 :
  accepted w0 -> accepted w1 -> is_hadron w0 = true -> is_hadron w1 = true -> no_top w0 -> no_top w1 ->
  baryon_number w0 = 1 /\ baryon_number w1 = -1 \/ baryon_number w0 = -1 /\ baryon_number w1 = 1 ->
  (annihilate w0 w1 pick s1 s2 = Ok None /\
   forall f, flavour f -> ~ (In f (quark_content w0 ++ quark_content w1) /\ In (- f) (quark_content w0 ++ quark_content w1))) \/
  exists q1 q2 a1 a2, annihilate w0 w1 pick s1 s2 = Ok (Some ([q1; q2], [a1; a2])) /\
    flavour q1 /\ flavour q2 /\ flavour (- a1) /\ flavour (- a2) /\
    forall f, flavour f -> net_count f [q1; q2; a1; a2] = net_count f (quark_content w0) + net_count f (quark_content w1).
Proof.
  intros A0 A1 H0 H1 T0 T1 B.
  assert (X : exists b a, (if baryon_number w0 =? -1 then (w1, w0) else (w0, w1)) = (b, a) /\
     accepted b /\ accepted a /\ is_hadron b = true /\ is_hadron a = true /\ no_top b /\ no_top a /\
     baryon_number b = 1 /\ baryon_number a = -1 /\
     (forall f, net_count f (quark_content w0) + net_count f (quark_content w1) = net_count f (quark_content b) + net_count f (quark_content a)) /\
     (forall x, In x (quark_content w0 ++ quark_content w1) <-> In x (quark_content b ++ quark_content a))).
  { destruct B as [[B0 B1]|[B0 B1]]; rewrite B0; cbn [Z.eqb Pos.eqb].
    - exists w0, w1. splits; auto. intros x; reflexivity.
    - exists w1, w0. splits; auto; [intros; lia|]. intros x. rewrite !in_app_iff. tauto. }
  destruct X as (b & a & E & Ab & Aa & Hb & Ha & Tb & Ta & Bb & Ba & Nt & Ct).
  assert (six' : forall w, accepted w -> is_hadron w = true -> six w).
  { intros w Aw Hw. apply (shape_word w (accepted_shape w Aw)).
    unfold is_hadron in Hw. destruct (is_nucleus w); [rewrite !andb_false_r in Hw; discriminate|reflexivity]. }
  unfold annihilate. rewrite E, Bb, Ba. cbn [Z.eqb Pos.eqb negb orb].
  destruct (nq_list b Hb ltac:(lia) Tb (six' b Ab Hb)) as (cb & -> & Lb & Eb). cbn [rbind].
  destruct (nq_list a Ha ltac:(lia) Ta (six' a Aa Ha)) as (ca0 & -> & La0 & Ea0). cbn [rbind].
  set (ca := map Z.opp ca0).
  assert (La : length ca = 5%nat) by (unfold ca; rewrite map_length; exact La0).
  assert (Ea : forall f, flavour f -> el ca f = -1 * net_count f (quark_content a)).
  { intros f F. rewrite <- Ea0 by exact F. pose proof (map_nth Z.opp ca0 0 (Z.to_nat (f - 1))) as M. change (- 0) with 0 in M. unfold el, ca. lia. }
  destruct (baryon_counts b cb 1 Hb Tb (or_introl eq_refl) Bb Lb) as [Cb Sb]; [intros f F; rewrite Eb by exact F; lia|].
  destruct (baryon_counts a ca (-1) Ha Ta (or_intror eq_refl) Ba La Ea) as [Ca Sa].
  assert (En : forall f, flavour f -> nth (Z.to_nat (f - 1)) (map (fun p => fst p * snd p) (combine cb ca)) 0 = el cb f * el ca f).
  { clear - Lb La. destruct (len5 cb Lb) as (u1 & u2 & u3 & u4 & u5 & ->). destruct (len5 ca La) as (v1 & v2 & v3 & v4 & v5 & Ev). rewrite Ev.
    apply five_all; reflexivity. }
  set (n := map _ (combine cb ca)) in *.
  destruct (filter (fun f => 0 <? nth (Z.to_nat (f - 1)) n 0) flavours5) as [|f0 fr] eqn:Ef.
  - left. split; [reflexivity|]. intros f F [I1 I2].
    assert (Q : In f (filter (fun f => 0 <? nth (Z.to_nat (f - 1)) n 0) flavours5)); [|rewrite Ef in Q; destruct Q].
    apply filter_In. split; [unfold flavour in F; unfold flavours5; cbn; lia|]. rewrite En by exact F. apply Z.ltb_lt.
    destruct (Cb f F) as [_ Cb1]. destruct (Ca f F) as [_ Ca1].
    rewrite Ct, in_app_iff in I1, I2.
    assert (Pb : Forall (fun q => 0 < q) (quark_content b)).
    { destruct (content_shape b Hb) as (x & y & z & -> & _ & _ & _ & P & _). destruct (P Bb) as (? & ? & ?). repeat constructor; assumption. }
    assert (Pa : Forall (fun q => q < 0) (quark_content a)).
    { destruct (content_shape a Ha) as (x & y & z & -> & _ & _ & _ & _ & P). destruct (P Ba) as (? & ? & ?). repeat constructor; assumption. }
    rewrite Forall_forall in Pa, Pb. assert (F' := F). unfold flavour in F'.
    apply Z.mul_pos_pos; [apply Cb1|apply Ca1].
    + replace (1 * f) with f by lia. destruct I1 as [I1|I1]; [exact I1|]. apply Pa in I1. lia.
    + replace (-1 * f) with (- f) by lia. destruct I2 as [I2|I2]; [apply Pb in I2; lia|exact I2].
  - right. rewrite <- Ef. set (pos := filter _ flavours5) in *. set (q := nth (pick mod length pos) pos 0).
    assert (Iq : In q pos).
    { apply nth_In. apply Nat.mod_upper_bound. rewrite Ef. discriminate. }
    unfold pos in Iq. apply filter_In in Iq as [Iq Wq]. clearbody q.
    assert (Fq : flavour q) by (unfold flavour; unfold flavours5 in Iq; cbn in Iq; lia).
    rewrite En in Wq by exact Fq. apply Z.ltb_lt in Wq.
    assert (Gq : 0 < el cb q /\ 0 < el ca q) by (pose proof (proj1 (Cb q Fq)); pose proof (proj1 (Ca q Fq)); nia).
    assert (side : forall c s, (s = 1 \/ s = -1) -> length c = 5%nat -> (forall f, flavour f -> 0 <= el c f) -> sum5 c = 3 -> 0 < el c q ->
       exists x y, repeat_flavours (bump c (q - 1) (-1)) s = [x; y] /\ flavour (s * x) /\ flavour (s * y) /\
         forall f, flavour f -> net_count f [x; y] = s * (el c f - if f =? q then 1 else 0)).
    { intros c s Sg Lc Pc Sc Gc. destruct (bump_spec c q (-1) Lc Fq) as [Lc' Bc].
      destruct (repeat_flavours_spec (bump c (q - 1) (-1)) s Sg Lc') as (Ll & Fl & Nl).
      { intros f F. rewrite Bc by exact F. specialize (Pc f F). destruct (Z.eqb_spec f q); subst; lia. }
      rewrite sum5_bump in Ll by assumption.
      destruct (repeat_flavours (bump c (q - 1) (-1)) s) as [|x [|y [|z t]]]; cbn [length] in Ll; try lia.
      exists x, y. inversion Fl as [|? ? F1 Fl']; subst. inversion Fl' as [|? ? F2 _]; subst. splits; auto.
      intros f F. rewrite Nl, Bc by exact F. destruct (f =? q); f_equal; lia. }
    destruct (side cb 1 (or_introl eq_refl) Lb (fun f F => proj1 (Cb f F)) Sb (proj1 Gq)) as (x1 & x2 & R1 & F1 & F2 & N1).
    destruct (side ca (-1) (or_intror eq_refl) La (fun f F => proj1 (Ca f F)) Sa (proj2 Gq)) as (y1 & y2 & R2 & F3 & F4 & N2).
    rewrite R1, R2. cbn [length Nat.eqb andb].
    replace (1 * x1) with x1 in F1 by lia. replace (1 * x2) with x2 in F2 by lia.
    replace (-1 * y1) with (- y1) in F3 by lia. replace (-1 * y2) with (- y2) in F4 by lia.
    pose proof (swap2_spec [x1; x2] s1 eq_refl) as S1. pose proof (swap2_spec [y1; y2] s2 eq_refl) as S2.
    assert (P1 : exists u1 u2, (if s1 then swap2 [x1; x2] else [x1; x2]) = [u1; u2] /\ flavour u1 /\ flavour u2).
    { destruct s1; [exists x2, x1|exists x1, x2]; auto. }
    assert (P2 : exists v1 v2, (if s2 then swap2 [y1; y2] else [y1; y2]) = [v1; v2] /\ flavour (- v1) /\ flavour (- v2)).
    { destruct s2; [exists y2, y1|exists y1, y2]; auto. }
    destruct P1 as (u1 & u2 & Eu & U1 & U2). destruct P2 as (v1 & v2 & Ev & V1 & V2). rewrite Eu, Ev in *.
    exists u1, u2, v1, v2. splits; auto. intros f F. change [u1; u2; v1; v2] with ([u1; u2] ++ [v1; v2]).
    rewrite net_app, <- (net_perm f _ _ S1), <- (net_perm f _ _ S2), N1, N2 by exact F. rewrite Nt, Eb, Ea by exact F. lia.
Qed.
Print Assumptions annihilation_keeps_flavour.

(** a proton and an anti-Lambda: a u-ubar or a d-dbar pair disappears *)
Example annihilation_example :
  annihilate 0x2212 (0x3122 + 2 ^ 31) 0 false false = Ok (Some ([2; 2], [-2; -3])) /\
  annihilate (0x3122 + 2 ^ 31) 0x2212 1 true true = Ok (Some ([2; 1], [-3; -1])) /\
  annihilate 0x2224 (0x3334 + 2 ^ 31) 0 true true = Ok None.
Proof. splits; reflexivity. Qed.
