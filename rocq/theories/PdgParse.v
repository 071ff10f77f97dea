From Coq Require Import ZArith List Bool Lia Ascii String.
From Verif Require Import Base PdgModel PdgSpec PdgProofs.
Import ListNotations.
Open Scope Z_scope.
Open Scope bool_scope.

(** What the accessors of a code report, in the vocabulary of the specification. *)
Definition view (w : pdg) : digits :=
  Digits (is_anti w) (n_n w) (n_R w) (n_L w) (n_q1 w) (n_q2 w) (n_q3 w) (n_J w).
Definition nview (w : pdg) : nucleus := Nucleus (is_anti w) (nuc_L w) (nuc_Z w) (nuc_A w) (nuc_I w).
Definition sgn (b : bool) : Z := if b then 1 else 0.
Definition wd (d : digits) : Z :=
  pk (sgn (d_anti d)) 0 0 (d_n d) (d_R d) (d_L d) (d_q1 d) (d_q2 d) (d_q3 d) (d_J d).
Definition wn (c : nucleus) : Z := pn (sgn (c_anti c)) (c_L c) (c_Z c) (c_A c) (c_I c).

Definition hexd (d : digits) : Prop :=
  h4 (d_n d) /\ h4 (d_R d) /\ h4 (d_L d) /\ h4 (d_q1 d) /\ h4 (d_q2 d) /\ h4 (d_q3 d) /\ h4 (d_J d).
Lemma ok_hexd d : digits_ok d -> hexd d.
Proof. unfold digits_ok, hexd, in09, in06, h4. lia. Qed.
Lemma h1_sgn b : h1 (sgn b).
Proof. destruct b; unfold h1; cbn; lia. Qed.
Lemma sgn_eqb b : (sgn b =? 1) = b.
Proof. now destruct b. Qed.

Lemma wd_fields d : hexd d ->
  word (wd d) /\ view (wd d) = d /\ is_nucleus (wd d) = false /\ pad (wd d) = 0
  /\ anti_bit (wd d) = sgn (d_anti d) /\ ucode (wd d) = d_code d.
Proof.
  intros (Hn & Hr & Hl & H1 & H2 & H3 & Hj).
  pose proof (h1_sgn (d_anti d)) as Hs.
  assert (h1 0) by (unfold h1; lia). assert (h2 0) by (unfold h2; lia).
  unfold wd, view, is_nucleus, is_anti.
  rewrite pk_a, pk_n, pk_R, pk_L, pk_q1, pk_q2, pk_q3, pk_J, pk_nb, pk_pad, pk_ucode by assumption.
  rewrite sgn_eqb. splits; try reflexivity.
  - red. now apply pk_range.
  - now destruct d.
  - unfold d_code, hex_value. cbn [fold_left]. lia.
Qed.

Lemma wd_view w : word w -> is_nucleus w = false -> pad w = 0 -> w = wd (view w) /\ hexd (view w).
Proof.
  intros H En Ep. split.
  - pose proof (pk_of_word w H) as E.
    unfold wd, view. cbn [d_anti d_n d_R d_L d_q1 d_q2 d_q3 d_J].
    rewrite Ep in E.
    replace (nucleus_bit w) with 0 in E.
    2:{ unfold is_nucleus in En. pose proof (field_h1 30 w) as F. fold (nucleus_bit w) in F. unfold h1 in F.
        apply Z.eqb_neq in En. lia. }
    replace (sgn (is_anti w)) with (anti_bit w); [exact E|].
    unfold is_anti. pose proof (field_h1 31 w) as F. fold (anti_bit w) in F. unfold h1 in F.
    destruct (Z.eqb_spec (anti_bit w) 1); cbn; lia.
  - unfold hexd, view; cbn. splits; apply field_h4.
Qed.

Lemma dump_eq d k : hexd d -> 0 <= k < 2 ^ 28 ->
  (dump (wd d) =? k) = negb (d_anti d) && (d_code d =? k).
Proof.
  intros Hd Hk. destruct (wd_fields d Hd) as (_ & _ & _ & _ & Ea & Eu).
  unfold dump. rewrite Ea, Eu.
  assert (0 <= d_code d).
  { destruct Hd as (?&?&?&?&?&?&?). unfold h4 in *. unfold d_code, hex_value. cbn [fold_left]. lia. }
  destruct (d_anti d); cbn [sgn negb andb].
  - apply Z.eqb_neq. lia.
  - now rewrite Z.mul_0_l, Z.add_0_r.
Qed.

Lemma view_proj d : hexd d ->
  is_anti (wd d) = d_anti d /\ n_n (wd d) = d_n d /\ n_R (wd d) = d_R d /\ n_L (wd d) = d_L d
  /\ n_q1 (wd d) = d_q1 d /\ n_q2 (wd d) = d_q2 d /\ n_q3 (wd d) = d_q3 d /\ n_J (wd d) = d_J d.
Proof.
  intros Hd. destruct (wd_fields d Hd) as (_ & Ev & _).
  rewrite <- Ev at 2 4 6 8 10 12 14 16. cbn. splits; reflexivity.
Qed.

Lemma kind_hadron d : hexd d ->
  is_hadron (wd d) = match kind_of d with KOther => false | _ => true end
  /\ (baryon_number (wd d) =? 0) = match kind_of d with KBaryon => false | _ => true end.
Proof.
  intros Hd. destruct (wd_fields d Hd) as (_ & _ & En & _).
  destruct (view_proj d Hd) as (Pa & Pn & PR & PL & P1 & P2 & P3 & PJ).
  unfold baryon_number, is_hadron, kind_of. rewrite En, P1, P2, P3.
  destruct (Z.eqb_spec (d_q3 d) 0); [now split|]. destruct (Z.eqb_spec (d_q2 d) 0); [now split|].
  destruct (Z.eqb_spec (d_q1 d) 0); [now split|]. cbn. split; [reflexivity|].
  unfold asign. now destruct (is_anti _).
Qed.

Lemma has_anti_eq d : hexd d -> has_antiparticle (wd d) = has_anti d.
Proof.
  intros Hd. destruct (kind_hadron d Hd) as [Kh Kb]. destruct (wd_fields d Hd) as (_ & _ & En & _).
  destruct (view_proj d Hd) as (Pa & Pn & PR & PL & P1 & P2 & P3 & PJ).
  unfold has_antiparticle, has_anti. rewrite En, Kh, Kb, P2, P3.
  destruct (kind_of d); reflexivity.
Qed.

Lemma mod2_odd j : (j mod 2 =? 0) = negb (Z.odd j).
Proof. rewrite Zmod_odd. now destruct (Z.odd j). Qed.

Lemma check_physical d : hexd d -> (check (wd d) = Ok tt <-> physical d).
Proof.
  intros Hd. destruct (kind_hadron d Hd) as [Kh Kb].
  destruct (view_proj d Hd) as (Pa & Pn & PR & PL & P1 & P2 & P3 & PJ).
  unfold check, physical, spin_ok. rewrite Kh, Kb, PJ, Pa, (has_anti_eq d Hd).
  rewrite !dump_eq by (try assumption; lia). rewrite mod2_odd, negb_involutive.
  destruct (kind_of d) eqn:K; [| rewrite <- Z.negb_odd |];
    repeat match goal with
    | |- context [Z.odd ?x] => destruct (Z.odd x)
    | |- context [Z.eqb ?x ?y] => destruct (Z.eqb_spec x y)
    end; destruct (d_anti d); destruct (has_anti d); cbn; intuition (try congruence).
Qed.

Lemma check_cases w : check w = Ok tt \/ check w = Throw E_invalid_pdg.
Proof.
  unfold check. repeat match goal with |- context [if ?b then _ else _] => destruct b end; auto.
Qed.

Lemma test_code_ok d : hexd d -> (test_code_fails (wd d) = false <-> digits_ok d).
Proof.
  intros Hd. destruct (view_proj d Hd) as (Pa & Pn & PR & PL & P1 & P2 & P3 & PJ).
  unfold test_code_fails. rewrite Pn, PR, PL, P1, P2, P3, PJ.
  rewrite !orb_false_iff, !Z.ltb_ge. unfold digits_ok, in09, in06.
  destruct Hd as (?&?&?&?&?&?&?). unfold h4 in *. lia.
Qed.

(** ** Integer constructors *)
Lemma code_range d : hexd d -> 0 <= d_code d < 2 ^ 28.
Proof.
  intros (?&?&?&?&?&?&?). unfold h4, d_code, hex_value in *. cbn [fold_left]. lia.
Qed.

Lemma wd_code d : wd d = d_code d + sgn (d_anti d) * 2 ^ 31.
Proof. unfold wd, pk, d_code, hex_value. cbn [fold_left]. lia. Qed.

Lemma set_fields_iff d : hexd d ->
  set_fields (sgn (d_anti d)) (d_code d)
  = if test_code_fails (wd d) then Throw E_invalid_pdg else _ <- check (wd d) ;; Ok (wd d).
Proof.
  intros Hd. unfold set_fields. rewrite Z.mod_small by now apply code_range.
  now rewrite <- wd_code.
Qed.

(** Any 28 bits are the code of some digits. *)
Lemma digits_exist b c : 0 <= c < 2 ^ 28 -> exists d, hexd d /\ d_code d = c /\ d_anti d = b.
Proof.
  intros H. assert (W : word c) by (red; lia).
  assert (En : is_nucleus c = false).
  { unfold is_nucleus, nucleus_bit, field. rewrite Z.div_small by lia. reflexivity. }
  assert (Ep : pad c = 0).
  { unfold pad, field. rewrite Z.div_small by lia. reflexivity. }
  destruct (wd_view c W En Ep) as [E Hh].
  destruct (view c) as [a n r l q1 q2 q3 j] eqn:V.
  exists (Digits b n r l q1 q2 q3 j). split; [exact Hh|]. split; [|reflexivity].
  destruct (wd_fields _ Hh) as (_ & _ & _ & _ & _ & Eu). rewrite <- E in Eu.
  unfold ucode in Eu. rewrite Z.mod_small in Eu by lia. rewrite Eu. reflexivity.
Qed.

Lemma set_fields_ok a c w : h1 a -> set_fields a c = Ok w ->
  exists d, w = wd d /\ digits_ok d /\ physical d /\ d_code d = c mod 2 ^ 28 /\ sgn (d_anti d) = a.
Proof.
  intros Ha H.
  destruct (digits_exist (a =? 1) (c mod 2 ^ 28)) as (d & Hd & Ec & Eb).
  { apply Z.mod_pos_bound; lia. }
  assert (Es : sgn (d_anti d) = a).
  { rewrite Eb. unfold h1 in Ha. destruct (Z.eqb_spec a 1); cbn; lia. }
  unfold set_fields in H. rewrite <- Ec in H.
  rewrite <- Es in H. rewrite <- wd_code in H.
  destruct (test_code_fails (wd d)) eqn:T; [discriminate|].
  destruct (check_cases (wd d)) as [C|C]; rewrite C in H; cbn in H; [|discriminate].
  injection H as <-. exists d. splits; auto.
  - now apply test_code_ok.
  - now apply check_physical.
Qed.

Definition signed_code (d : digits) : Z := (if d_anti d then -1 else 1) * d_code d.

Lemma of_int32_sound c w : of_int32 c = Ok w ->
  exists d, w = wd d /\ digits_ok d /\ physical d
    /\ d_code d = Z.abs c mod 2 ^ 28 /\ d_anti d = (c <? 0).
Proof.
  unfold of_int32. destruct (Z.ltb_spec c 0) as [Hc|Hc].
  - unfold sint. destruct (in_i32 (- c)); [|discriminate]. cbn [rbind]. intros H.
    apply set_fields_ok in H; [|unfold h1; lia]. destruct H as (d & ? & ? & ? & ? & Es).
    exists d. rewrite Z.abs_neq by lia. splits; auto. destruct (d_anti d); [reflexivity|discriminate].
  - intros H. apply set_fields_ok in H; [|unfold h1; lia]. destruct H as (d & ? & ? & ? & ? & Es).
    exists d. rewrite Z.abs_eq by lia. splits; auto. destruct (d_anti d); [discriminate|reflexivity].
Qed.

Lemma of_uint32_sound c w : word c -> of_uint32 c = Ok w ->
  exists d, w = wd d /\ digits_ok d /\ physical d
    /\ d_code d = c mod 2 ^ 28 /\ d_anti d = (2 ^ 31 <=? c).
Proof.
  unfold of_uint32. intros W H. apply set_fields_ok in H; [|apply field_h1].
  destruct H as (d & ? & ? & ? & ? & Es). exists d. splits; auto.
  red in W. unfold field in Es. destruct (Z.leb_spec (2^31) c).
  - replace (c / 2 ^ 31) with 1 in Es.
    2:{ apply (Z.div_unique_pos _ _ _ (c - 2 ^ 31)); lia. }
    destruct (d_anti d); [reflexivity|discriminate].
  - rewrite Z.div_small in Es by lia. destruct (d_anti d); [discriminate|reflexivity].
Qed.

Lemma physical_code0 d : digits_ok d -> physical d -> d_code d = 0 -> d_anti d = false.
Proof.
  intros Hok [Hs Ha] Hc. destruct (d_anti d) eqn:E; [|reflexivity].
  specialize (Ha eq_refl). unfold d_code, hex_value in Hc. cbn [fold_left] in Hc.
  unfold digits_ok, in09, in06 in Hok.
  assert (E3 : d_q3 d = 0) by lia. assert (E2 : d_q2 d = 0) by lia.
  unfold has_anti, kind_of in Ha. rewrite E3 in Ha. discriminate.
Qed.

Lemma of_int32_complete d : digits_ok d -> physical d -> of_int32 (signed_code d) = Ok (wd d).
Proof.
  intros Hok Hph. pose proof (ok_hexd d Hok) as Hd. pose proof (code_range d Hd) as Hr.
  assert (Hset : set_fields (sgn (d_anti d)) (d_code d) = Ok (wd d)).
  { rewrite set_fields_iff by assumption.
    rewrite (proj2 (test_code_ok d Hd) Hok). rewrite (proj2 (check_physical d Hd) Hph). reflexivity. }
  unfold of_int32, signed_code. destruct (d_anti d) eqn:E; cbn [sgn] in Hset.
  - assert (d_code d <> 0).
    { intros K. pose proof (physical_code0 d Hok Hph K). congruence. }
    destruct (Z.ltb_spec (-1 * d_code d) 0); [|lia].
    replace (- (-1 * d_code d)) with (d_code d) by lia.
    unfold sint. replace (in_i32 (d_code d)) with true; [exact Hset|].
    symmetry. unfold in_i32, INT_MIN, INT_MAX. rewrite andb_true_iff, !Z.leb_le. lia.
  - destruct (Z.ltb_spec (1 * d_code d) 0); [lia|]. rewrite Z.mul_1_l. exact Hset.
Qed.

(** of_int32 never reaches undefined behaviour except for the most negative int. *)
Lemma of_int32_no_ub c : in_i32 c = true -> c <> INT_MIN ->
  (exists w, of_int32 c = Ok w) \/ of_int32 c = Throw E_invalid_pdg.
Proof.
  intros Hi Hm. unfold of_int32.
  assert (S : forall a k, (exists w, set_fields a k = Ok w) \/ set_fields a k = Throw E_invalid_pdg).
  { intros a k. unfold set_fields. destruct (test_code_fails _); [now right|].
    destruct (check_cases (k mod 2^28 + a * 2^31)) as [C|C]; rewrite C; cbn; eauto. }
  destruct (Z.ltb_spec c 0); [|apply S].
  unfold sint. replace (in_i32 (- c)) with true; [cbn [rbind]; apply S|].
  symmetry. unfold in_i32, INT_MIN, INT_MAX in *. rewrite andb_true_iff, !Z.leb_le in *. lia.
Qed.
