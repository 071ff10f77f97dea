(** Claims about the flavour bookkeeping of strings (C56). *)
From Coq Require Import ZArith List Bool Lia Permutation.
From Verif Require Import Base PdgSpec PdgModel PdgProofs StringSpec StringModel.
Import ListNotations.
Open Scope Z_scope.

Ltac five x := assert (x = 1 \/ x = 2 \/ x = 3 \/ x = 4 \/ x = 5) as [-> |[-> |[-> |[-> | ->]]]] by lia.

(** ** diquarks *)
Lemma diquark_cases d : diquark d -> exists s a b g, (s = 1 \/ s = -1) /\ flavour a /\ flavour b /\ b <= a /\
    (g = 1 \/ g = 3) /\ (a = b -> g = 3) /\ d = s * (1000 * a + 100 * b + g).
Proof. intros H; exact H. Qed.

Lemma diquark_parts s a b g : (s = 1 \/ s = -1) -> flavour a -> flavour b -> b <= a -> (g = 1 \/ g = 3) ->
  quarks_from_diquark (s * (1000 * a + 100 * b + g)) = Ok (s * a, s * b, g) /\
  constituents (s * (1000 * a + 100 * b + g)) = [s * a; s * b].
Proof.
  unfold flavour. intros S A B L G.
  five a; five b; try lia; destruct S as [-> | ->]; destruct G as [-> | ->]; split; reflexivity.
Qed.

(** C56: joining two (anti)quarks and taking the diquark apart gives the two back, for every
    random draw. *)
Theorem diquark_round_trip a b r : quark a -> quark b -> 0 < a * b ->
  exists d x y g, diquark_from_quarks a b r = Ok d /\ diquark d /\
    quarks_from_diquark d = Ok (x, y, g) /\ constituents d = [x; y] /\ Permutation [a; b] [x; y].
Proof.
  unfold quark. intros A B P.
  assert (E : exists g, (g = 1 \/ g = 3) /\ (Z.abs a = Z.abs b -> g = 3) /\
    diquark_from_quarks a b r =
    Ok (Z.sgn a * (1000 * Z.max (Z.abs a) (Z.abs b) + 100 * Z.min (Z.abs a) (Z.abs b) + g))).
  { unfold diquark_from_quarks.
    exists (if negb (a =? b) && (r mod 4 =? 0) then 1 else 3).
    assert (N : (Z.abs a =? Z.abs b) = (a =? b)).
    { destruct (Z.eqb_spec (Z.abs a) (Z.abs b)), (Z.eqb_spec a b); try reflexivity; exfalso; nia. }
    split; [destruct (_ && _); auto|]. split.
    { intros Q. apply Z.eqb_eq in Q. rewrite N in Q. rewrite Q. reflexivity. }
    assert (C : (0 < a /\ 0 < b /\ Z.sgn a = 1) \/ (a < 0 /\ b < 0 /\ Z.sgn a = -1)) by nia.
    destruct (Z.ltb_spec (Z.abs a) (Z.abs b)).
    - rewrite (Z.eqb_sym b a). set (g := if _ && _ then 1 else 3).
      destruct C as [(? & ? & ->)|(? & ? & ->)].
      + rewrite (proj2 (Z.ltb_lt 0 a)), (proj2 (Z.ltb_lt 0 b)) by lia. cbn [andb orb]. rewrite (proj2 (Z.ltb_ge b 0)) by lia. f_equal. lia.
      + rewrite (proj2 (Z.ltb_ge 0 a)) by lia. rewrite (proj2 (Z.ltb_lt a 0)), (proj2 (Z.ltb_lt b 0)) by lia. cbn [andb orb]. f_equal. lia.
    - set (g := if _ && _ then 1 else 3).
      destruct C as [(? & ? & ->)|(? & ? & ->)].
      + rewrite (proj2 (Z.ltb_lt 0 a)), (proj2 (Z.ltb_lt 0 b)) by lia. cbn [andb orb]. rewrite (proj2 (Z.ltb_ge a 0)) by lia. f_equal. lia.
      + rewrite (proj2 (Z.ltb_ge 0 a)) by lia. rewrite (proj2 (Z.ltb_lt a 0)), (proj2 (Z.ltb_lt b 0)) by lia. cbn [andb orb]. f_equal. lia. }
  destruct E as (g & G & Gn & E).
  destruct (diquark_parts (Z.sgn a) (Z.max (Z.abs a) (Z.abs b)) (Z.min (Z.abs a) (Z.abs b)) g) as [Q C];
    unfold flavour in *; try lia.
  do 4 eexists. splits; [exact E| |exact Q|exact C|].
  - exists (Z.sgn a), (Z.max (Z.abs a) (Z.abs b)), (Z.min (Z.abs a) (Z.abs b)), g. unfold flavour. splits; lia.
  - assert (Sg : Z.sgn a = Z.sgn b) by nia.
    destruct (Z.le_ge_cases (Z.abs a) (Z.abs b)).
    + rewrite Z.max_r, Z.min_l by lia. replace (Z.sgn a * Z.abs a) with a by lia.
      rewrite Sg. replace (Z.sgn b * Z.abs b) with b by lia. apply perm_swap.
    + rewrite Z.max_l, Z.min_r by lia. replace (Z.sgn a * Z.abs a) with a by lia.
      rewrite Sg. replace (Z.sgn b * Z.abs b) with b by lia. reflexivity.
Qed.
Print Assumptions diquark_round_trip.

(** ... and every diquark is made of the two quarks it is taken apart into, by some draw. *)
Theorem diquark_round_trip_back d : diquark d ->
  exists x y g, quarks_from_diquark d = Ok (x, y, g) /\ quark x /\ quark y /\ constituents d = [x; y] /\
    exists r, diquark_from_quarks x y r = Ok d.
Proof.
  intros (s & a & b & g & S & A & B & L & G & Gn & ->).
  destruct (diquark_parts s a b g) as [Q C]; auto.
  do 3 eexists. splits; [exact Q| | |exact C|]; unfold quark, flavour in *; try (destruct S; subst; lia).
  exists (if g =? 1 then 0 else 1).
  five a; five b; try lia; destruct S as [-> | ->]; destruct G as [-> | ->]; try (specialize (Gn eq_refl); lia); reflexivity.
Qed.
Print Assumptions diquark_round_trip_back.

Example diquark_example : diquark_from_quarks 1 2 0 = Ok 2101 /\ diquark_from_quarks (-1) (-2) 5 = Ok (-2103) /\
  diquark_from_quarks 3 3 0 = Ok 3303 /\ quarks_from_diquark (-2103) = Ok (-2, -1, 3).
Proof. splits; reflexivity. Qed.

(** ** string ends *)
(** a hadron without top quark *)
Definition no_top (w : pdg) : Prop := Forall (fun q => Z.abs q <= 5) (quark_content w).

Lemma nonzero_content w : is_hadron w = true -> exists a b c, quark_content w = [a; b; c] /\ b <> 0 /\ c <> 0 /\
    (is_meson w = true -> a = 0 /\ ((0 < b /\ c < 0) \/ (b < 0 /\ 0 < c))) /\
    (is_baryon w = true -> 0 < a /\ 0 < b /\ 0 < c \/ a < 0 /\ b < 0 /\ c < 0).
Proof.
  intros H. destruct (content_shape w H) as (a & b & c & E & Nb & Nc & M & B1 & B2).
  exists a, b, c. splits; auto.
  - unfold is_meson. rewrite H. cbn [andb]. intros Q. apply M. unfold baryon_number. rewrite H, Q. cbn.
    unfold is_hadron in H. destruct (is_nucleus w); [|reflexivity]. rewrite !andb_false_r in H. discriminate.
  - unfold is_baryon. rewrite H. cbn [andb]. intros Q. apply negb_true_iff in Q.
    assert (X : baryon_number w = asign w).
    { unfold baryon_number. rewrite H, Q. unfold is_hadron in H.
      destruct (is_nucleus w); [rewrite !andb_false_r in H; discriminate|]. reflexivity. }
    unfold asign in X. destruct (is_anti w); [right|left]; auto.
Qed.

Lemma nucleon_baryon w : 0 <= w < 2 ^ 32 -> is_nucleon w = true -> is_baryon w = true.
Proof.
  intros Hw H. unfold is_nucleon in H.
  assert (C : exists c, (c = 0x2212 \/ c = 0x2112) /\ (w = c \/ w = c + 2 ^ 31)).
  { pose proof (Z.div_mod w (2 ^ 31)) as D. assert (Q : w / 2 ^ 31 = 0 \/ w / 2 ^ 31 = 1).
    { assert (0 <= w / 2 ^ 31 < 2); [|lia]. split; [apply Z.div_pos; lia|apply Z.div_lt_upper_bound; lia]. }
    exists (w mod 2 ^ 31). split; [apply orb_true_iff in H as [H|H]; apply Z.eqb_eq in H; auto|].
    specialize (D ltac:(lia)). destruct Q as [Q|Q]; rewrite Q in D; lia. }
  destruct C as (c & [-> | ->] & [-> | ->]); reflexivity.
Qed.

Lemma at3_0 a b c : at3 [a; b; c] 0 = a. Proof. reflexivity. Qed.
Lemma at3_1 a b c : at3 [a; b; c] 1 = b. Proof. reflexivity. Qed.
Lemma at3_2 a b c : at3 [a; b; c] 2 = c. Proof. reflexivity. Qed.

(** C56: the two string ends of a hadron carry exactly its quarks, for all random choices;
    only a d-dbar meson may be taken as u-ubar. *)
Theorem string_ends_carry_the_quarks w below r dr :
  0 <= w < 2 ^ 32 -> is_hadron w = true -> no_top w ->
  exists a b, make_string_ends w below r dr = Ok (a, b) /\ string_ends a b /\
    (Permutation (0 :: constituents a ++ constituents b) (quark_content w) \/
     is_baryon w = true /\ Permutation (constituents a ++ constituents b) (quark_content w) \/
     is_meson w = true /\ Permutation [0; 1; -1] (quark_content w) /\ a = 2 /\ b = -2).
Proof.
  intros Hw H T. destruct (nonzero_content w H) as (q0 & q1 & q2 & E & N1 & N2 & M & B).
  unfold no_top in T. rewrite E in *. unfold make_string_ends. rewrite E. cbv zeta.
  rewrite !at3_0, !at3_1, !at3_2.
  inversion T as [|? ? T0 T']; subst. inversion T' as [|? ? T1 T'']; subst. inversion T'' as [|? ? T2 _]; subst. clear T T' T''.
  assert (J : is_baryon w = true -> forall x y z, Permutation [x; y; z] [q0; q1; q2] ->
    exists d, diquark_from_quarks y z dr = Ok d /\
      string_ends (fst (if x <? 0 then (d, x) else (x, d))) (snd (if x <? 0 then (d, x) else (x, d))) /\
      Permutation (constituents (fst (if x <? 0 then (d, x) else (x, d))) ++
                   constituents (snd (if x <? 0 then (d, x) else (x, d)))) [q0; q1; q2]).
  { intros Hb x y z P. specialize (B Hb).
    assert (Q : Forall (fun u => quark u /\ 0 < u * q0) [x; y; z]).
    { apply (Permutation_Forall (Permutation_sym P)). unfold quark, flavour. repeat constructor; nia. }
    inversion Q as [|? ? [X1 X2] Q']; subst. inversion Q' as [|? ? [Y1 Y2] Q'']; subst. inversion Q'' as [|? ? [Z1 Z2] _]; subst.
    assert (YZ : 0 < y * z) by nia.
    destruct (diquark_round_trip y z dr Y1 Z1 YZ) as (d & u & v & g & Ed & Dd & Qd & Cd & Pd).
    exists d. split; [exact Ed|].
    assert (Cx : constituents x = [x]).
    { unfold constituents. unfold quark, flavour in X1. rewrite (proj2 (Z.ltb_lt _ _)) by lia. reflexivity. }
    assert (Sd : 0 < x * d).
    { clear - Ed X2 Y2 Z2 Y1 Z1. unfold quark, flavour in *. unfold diquark_from_quarks in Ed.
      destruct (_ || _); [|discriminate].
      assert (C : (0 < x /\ 0 < y /\ 0 < z) \/ (x < 0 /\ y < 0 /\ z < 0)) by nia.
      set (g := fun q1 q2 => if negb (q1 =? q2) && (dr mod 4 =? 0) then 1 else 3) in *.
      destruct (Z.abs y <? Z.abs z).
      - assert (G : (if negb (z =? y) && (dr mod 4 =? 0) then 1 else 3) = 1 \/ (if negb (z =? y) && (dr mod 4 =? 0) then 1 else 3) = 3) by (destruct (_ && _); auto).
        destruct (Z.ltb_spec z 0).
        + assert (d = - (Z.abs (z * 1000 + y * 100) + (if negb (z =? y) && (dr mod 4 =? 0) then 1 else 3))) by congruence. nia.
        + assert (d = Z.abs (z * 1000 + y * 100) + (if negb (z =? y) && (dr mod 4 =? 0) then 1 else 3)) by congruence. nia.
      - assert (G : (if negb (y =? z) && (dr mod 4 =? 0) then 1 else 3) = 1 \/ (if negb (y =? z) && (dr mod 4 =? 0) then 1 else 3) = 3) by (destruct (_ && _); auto).
        destruct (Z.ltb_spec y 0).
        + assert (d = - (Z.abs (y * 1000 + z * 100) + (if negb (y =? z) && (dr mod 4 =? 0) then 1 else 3))) by congruence. nia.
        + assert (d = Z.abs (y * 1000 + z * 100) + (if negb (y =? z) && (dr mod 4 =? 0) then 1 else 3)) by congruence. nia. }
    destruct (Z.ltb_spec x 0); cbn [fst snd].
    - split; [right; right; splits; auto; nia|]. rewrite Cx, Cd. rewrite Permutation_app_comm. cbn [app].
      rewrite <- P. constructor. symmetry. exact Pd.
    - assert (x <> 0) by nia. split; [right; left; splits; auto; nia|]. rewrite Cx, Cd. cbn [app].
      rewrite <- P. constructor. symmetry. exact Pd. }
  destruct (is_nucleon w) eqn:Nu.
  - pose proof (nucleon_baryon w Hw Nu) as Hb.
    destruct (charge w =? 0), below.
    + destruct (J Hb q0 q1 q2) as (d & Ed & Se & Pe); [reflexivity|]. rewrite Ed. cbn [rbind].
      eexists _, _. split; [rewrite (surjective_pairing (if _ <? 0 then _ else _)); reflexivity|]. split; [exact Se|]. right; left; auto.
    + destruct (J Hb q1 q0 q2) as (d & Ed & Se & Pe); [apply perm_swap|]. rewrite Ed. cbn [rbind].
      eexists _, _. split; [rewrite (surjective_pairing (if _ <? 0 then _ else _)); reflexivity|]. split; [exact Se|]. right; left; auto.
    + destruct (J Hb q2 q0 q1) as (d & Ed & Se & Pe); [apply (Permutation_app_comm [q2] [q0; q1])|]. rewrite Ed. cbn [rbind].
      eexists _, _. split; [rewrite (surjective_pairing (if _ <? 0 then _ else _)); reflexivity|]. split; [exact Se|]. right; left; auto.
    + destruct (J Hb q0 q1 q2) as (d & Ed & Se & Pe); [reflexivity|]. rewrite Ed. cbn [rbind].
      eexists _, _. split; [rewrite (surjective_pairing (if _ <? 0 then _ else _)); reflexivity|]. split; [exact Se|]. right; left; auto.
  - destruct (is_meson w) eqn:Me.
    + destruct (M eq_refl) as (Z0 & Sg).
      destruct ((q1 =? 1) && (q2 =? -1) && (r mod 2 =? 0)) eqn:C; cbn [rbind].
      * exists 2, (-2). splits; [reflexivity|left; unfold quark, flavour; splits; lia|].
        right; right. apply andb_true_iff in C as [C _]. apply andb_true_iff in C as [C1 C2].
        apply Z.eqb_eq in C1, C2. subst. auto.
      * destruct Sg as [[S1 S2]|[S1 S2]].
        -- rewrite (proj2 (Z.ltb_ge q1 0)) by lia. exists q1, q2. splits; [reflexivity|left; unfold quark, flavour; splits; lia|].
           left. subst q0. unfold constituents. rewrite !(proj2 (Z.ltb_lt _ 10)) by lia. cbn [app]. reflexivity.
        -- rewrite (proj2 (Z.ltb_lt q1 0)) by lia. exists q2, q1. splits; [reflexivity|left; unfold quark, flavour; splits; lia|].
           left. subst q0. unfold constituents. rewrite !(proj2 (Z.ltb_lt _ 10)) by lia. cbn [app]. constructor. apply perm_swap.
    + assert (Hb : is_baryon w = true).
      { unfold is_meson, is_baryon in *. rewrite H in *. cbn [andb] in *. rewrite Me. reflexivity. }
      rewrite Hb.
      destruct (r mod 3 =? 0); [|destruct (r mod 3 =? 1)]; rewrite !at3_0, !at3_1, !at3_2.
      * destruct (J Hb q0 q1 q2) as (d & Ed & Se & Pe); [reflexivity|]. rewrite Ed. cbn [rbind].
        eexists _, _. split; [rewrite (surjective_pairing (if _ <? 0 then _ else _)); reflexivity|]. split; [exact Se|]. right; left; auto.
      * destruct (J Hb q1 q0 q2) as (d & Ed & Se & Pe); [apply perm_swap|]. rewrite Ed. cbn [rbind].
        eexists _, _. split; [rewrite (surjective_pairing (if _ <? 0 then _ else _)); reflexivity|]. split; [exact Se|]. right; left; auto.
      * destruct (J Hb q2 q1 q0) as (d & Ed & Se & Pe).
        { apply (perm_trans (l' := [q2; q0; q1])); [constructor; apply perm_swap|apply (Permutation_app_comm [q2] [q0; q1])]. }
        rewrite Ed. cbn [rbind].
        eexists _, _. split; [rewrite (surjective_pairing (if _ <? 0 then _ else _)); reflexivity|]. split; [exact Se|]. right; left; auto.
Qed.
Print Assumptions string_ends_carry_the_quarks.

Example string_ends_example :
  make_string_ends 0x2212 true 0 0 = Ok (1, 2203) /\ make_string_ends (0x2112 + 2 ^ 31) false 0 0 = Ok (-2101, -1) /\
  make_string_ends 0x111 false 1 0 = Ok (1, -1) /\ make_string_ends 0x321 false 1 0 = Ok (2, -3) /\
  make_string_ends 0x3122 false 2 1 = Ok (2, 3103).
Proof. splits; reflexivity. Qed.
