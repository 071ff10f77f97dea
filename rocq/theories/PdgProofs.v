From Coq Require Import ZArith List Bool Lia Ascii String.
From Verif Require Import Base PdgModel PdgSpec.
Import ListNotations.
Open Scope Z_scope.
Open Scope bool_scope.

(** ** Bit-field lemmas *)
Lemma field_eq pos len w lo d hi :
  0 <= pos -> 0 <= len ->
  w = lo + (d + hi * 2 ^ len) * 2 ^ pos -> 0 <= lo < 2 ^ pos -> 0 <= d < 2 ^ len ->
  field pos len w = d.
Proof.
  intros Hp Hl -> Hlo Hd. unfold field.
  rewrite Z.div_add by lia. rewrite (Z.div_small lo) by lia. rewrite Z.add_0_l.
  rewrite Z.mod_add by lia. apply Z.mod_small; lia.
Qed.

Lemma field_range pos len w : 0 <= len -> 0 <= field pos len w < 2 ^ len.
Proof. intros. unfold field. apply Z.mod_pos_bound. apply Z.pow_pos_nonneg; lia. Qed.

Ltac fr :=
  repeat match goal with
  | |- context [field ?p ?l ?w] =>
      lazymatch goal with
      | _ : 0 <= field p l w < _ |- _ => fail
      | _ => let H := fresh "FR" in
             pose proof (field_range p l w ltac:(lia)) as H;
             let v := eval vm_compute in (2 ^ l) in change (2 ^ l) with v in H
      end
  | K : context [field ?p ?l ?w] |- _ =>
      lazymatch goal with
      | _ : 0 <= field p l w < _ |- _ => fail
      | _ => let H := fresh "FR" in
             pose proof (field_range p l w ltac:(lia)) as H;
             let v := eval vm_compute in (2 ^ l) in change (2 ^ l) with v in H
      end
  end.

(** [pk]: packing of in-range digits, without the truncation. *)
Definition pk (a nb p n r l q1 q2 q3 j : Z) : Z :=
  j + q3 * 16 + q2 * 256 + q1 * 4096 + l * 65536 + r * 1048576 + n * 16777216
  + p * 268435456 + nb * 1073741824 + a * 2147483648.
Definition h4 (x : Z) := 0 <= x < 16.
Definition h1 (x : Z) := 0 <= x < 2.
Definition h2 (x : Z) := 0 <= x < 4.

Lemma pack_pk a nb p n r l q1 q2 q3 j :
  h1 a -> h1 nb -> h2 p -> h4 n -> h4 r -> h4 l -> h4 q1 -> h4 q2 -> h4 q3 -> 
  pack_digits a nb p n r l q1 q2 q3 j = pk a nb p n r l q1 q2 q3 (j mod 16).
Proof.
  unfold h1, h2, h4, pack_digits, pk; intros.
  change (2 ^ 4) with 16. change (2 ^ 2) with 4.
  rewrite ?Z.mod_small by lia. 
  rewrite (Z.mod_small q3), (Z.mod_small q2), (Z.mod_small q1), (Z.mod_small l),
    (Z.mod_small r), (Z.mod_small n), (Z.mod_small p), (Z.mod_small nb), (Z.mod_small a) by lia.
  lia.
Qed.

Section Fields.
Variables a nb p n r l q1 q2 q3 j : Z.
Hypothesis (Ha : h1 a) (Hnb : h1 nb) (Hp : h2 p) (Hn : h4 n) (Hr : h4 r) (Hl : h4 l)
  (H1 : h4 q1) (H2 : h4 q2) (H3 : h4 q3) (Hj : h4 j).
Let w := pk a nb p n r l q1 q2 q3 j.

Ltac fld lo hi := apply (field_eq _ _ _ lo _ hi);
  unfold w, pk, h1, h2, h4 in *; try lia;
  match goal with |- context [2 ^ ?k] => idtac end; lia.

Lemma pk_J : n_J w = j.
Proof. apply (field_eq 0 4 w 0 j (q3 + q2 * 16 + q1 * 256 + l * 4096 + r * 65536 + n * 1048576
  + p * 16777216 + nb * 67108864 + a * 134217728)); unfold w, pk, h1, h2, h4 in *; lia. Qed.
Lemma pk_q3 : n_q3 w = q3.
Proof. apply (field_eq 4 4 w j q3 (q2 + q1 * 16 + l * 256 + r * 4096 + n * 65536
  + p * 1048576 + nb * 4194304 + a * 8388608)); unfold w, pk, h1, h2, h4 in *; lia. Qed.
Lemma pk_q2 : n_q2 w = q2.
Proof. apply (field_eq 8 4 w (j + q3 * 16) q2 (q1 + l * 16 + r * 256 + n * 4096
  + p * 65536 + nb * 262144 + a * 524288)); unfold w, pk, h1, h2, h4 in *; lia. Qed.
Lemma pk_q1 : n_q1 w = q1.
Proof. apply (field_eq 12 4 w (j + q3 * 16 + q2 * 256) q1 (l + r * 16 + n * 256
  + p * 4096 + nb * 16384 + a * 32768)); unfold w, pk, h1, h2, h4 in *; lia. Qed.
Lemma pk_L : n_L w = l.
Proof. apply (field_eq 16 4 w (j + q3 * 16 + q2 * 256 + q1 * 4096) l (r + n * 16
  + p * 256 + nb * 1024 + a * 2048)); unfold w, pk, h1, h2, h4 in *; lia. Qed.
Lemma pk_R : n_R w = r.
Proof. apply (field_eq 20 4 w (j + q3 * 16 + q2 * 256 + q1 * 4096 + l * 65536) r (n
  + p * 16 + nb * 64 + a * 128)); unfold w, pk, h1, h2, h4 in *; lia. Qed.
Lemma pk_n : n_n w = n.
Proof. apply (field_eq 24 4 w (j + q3 * 16 + q2 * 256 + q1 * 4096 + l * 65536 + r * 1048576) n (
  p + nb * 4 + a * 8)); unfold w, pk, h1, h2, h4 in *; lia. Qed.
Lemma pk_pad : pad w = p.
Proof. apply (field_eq 28 2 w (j + q3 * 16 + q2 * 256 + q1 * 4096 + l * 65536 + r * 1048576 + n * 16777216) p
  (nb + a * 2)); unfold w, pk, h1, h2, h4 in *; lia. Qed.
Lemma pk_nb : nucleus_bit w = nb.
Proof. apply (field_eq 30 1 w (j + q3 * 16 + q2 * 256 + q1 * 4096 + l * 65536 + r * 1048576 + n * 16777216
  + p * 268435456) nb a); unfold w, pk, h1, h2, h4 in *; lia. Qed.
Lemma pk_a : anti_bit w = a.
Proof. apply (field_eq 31 1 w (j + q3 * 16 + q2 * 256 + q1 * 4096 + l * 65536 + r * 1048576 + n * 16777216
  + p * 268435456 + nb * 1073741824) a 0); unfold w, pk, h1, h2, h4 in *; lia. Qed.
Lemma pk_ucode : ucode w = j + q3 * 16 + q2 * 256 + q1 * 4096 + l * 65536 + r * 1048576 + n * 16777216.
Proof.
  unfold ucode. symmetry. apply (Z.mod_unique_pos w (2^28) (p + nb * 4 + a * 8));
  unfold w, pk, h1, h2, h4 in *; lia.
Qed.
Lemma pk_range : 0 <= w < 2 ^ 32.
Proof. unfold w, pk, h1, h2, h4 in *; lia. Qed.
Lemma pk_low : w mod 2 ^ 16 = j + q3 * 16 + q2 * 256 + q1 * 4096.
Proof.
  symmetry. apply (Z.mod_unique_pos w (2^16) (l + r * 16 + n * 256 + p * 4096 + nb * 16384 + a * 32768));
  unfold w, pk, h1, h2, h4 in *; lia.
Qed.
End Fields.

(** Every word is the packing of its fields. *)
Lemma mod_step x m : 0 <= x -> 0 < m -> x = x mod m + m * (x / m).
Proof. intros. rewrite Z.add_comm. apply Z.div_mod. lia. Qed.

Lemma pk_of_word w : 0 <= w < 2 ^ 32 ->
  w = pk (anti_bit w) (nucleus_bit w) (pad w) (n_n w) (n_R w) (n_L w) (n_q1 w) (n_q2 w) (n_q3 w) (n_J w).
Proof.
  intros H. unfold pk, anti_bit, nucleus_bit, pad, n_n, n_R, n_L, n_q1, n_q2, n_q3, n_J, field.
  change (2^4) with 16. change (2 ^ 2) with 4. change (2^1) with 2.
  rewrite Z.pow_0_r, Z.div_1_r.
  replace (w / 2^8) with (w / 2^4 / 16) by (rewrite Z.div_div by lia; reflexivity).
  replace (w / 2^12) with (w / 2^4 / 16 / 16) by (rewrite !Z.div_div by lia; reflexivity).
  replace (w / 2^16) with (w / 2^4 / 16 / 16 / 16) by (rewrite !Z.div_div by lia; reflexivity).
  replace (w / 2^20) with (w / 2^4 / 16 / 16 / 16 / 16) by (rewrite !Z.div_div by lia; reflexivity).
  replace (w / 2^24) with (w / 2^4 / 16 / 16 / 16 / 16 / 16) by (rewrite !Z.div_div by lia; reflexivity).
  replace (w / 2^28) with (w / 2^4 / 16 / 16 / 16 / 16 / 16 / 16) by (rewrite !Z.div_div by lia; reflexivity).
  replace (w / 2^30) with (w / 2^4 / 16 / 16 / 16 / 16 / 16 / 16 / 4) by (rewrite !Z.div_div by lia; reflexivity).
  replace (w / 2^31) with (w / 2^4 / 16 / 16 / 16 / 16 / 16 / 16 / 4 / 2) by (rewrite !Z.div_div by lia; reflexivity).
  change (2 ^ 4) with 16.
  set (w1 := w / 16). set (w2 := w1 / 16). set (w3 := w2 / 16). set (w4 := w3 / 16).
  set (w5 := w4 / 16). set (w6 := w5 / 16). set (w7 := w6 / 16). set (w8 := w7 / 4). set (w9 := w8 / 2).
  pose proof (Z.div_mod w 16 ltac:(lia)) as E1. fold w1 in E1.
  pose proof (Z.div_mod w1 16 ltac:(lia)) as E2. fold w2 in E2.
  pose proof (Z.div_mod w2 16 ltac:(lia)) as E3. fold w3 in E3.
  pose proof (Z.div_mod w3 16 ltac:(lia)) as E4. fold w4 in E4.
  pose proof (Z.div_mod w4 16 ltac:(lia)) as E5. fold w5 in E5.
  pose proof (Z.div_mod w5 16 ltac:(lia)) as E6. fold w6 in E6.
  pose proof (Z.div_mod w6 16 ltac:(lia)) as E7. fold w7 in E7.
  pose proof (Z.div_mod w7 4 ltac:(lia)) as E8. fold w8 in E8.
  pose proof (Z.div_mod w8 2 ltac:(lia)) as E9. fold w9 in E9.
  assert (E10 : w9 mod 2 = w9).
  { apply Z.mod_small.
    pose proof (Z.mod_pos_bound w 16 ltac:(lia)). pose proof (Z.mod_pos_bound w1 16 ltac:(lia)).
    pose proof (Z.mod_pos_bound w2 16 ltac:(lia)). pose proof (Z.mod_pos_bound w3 16 ltac:(lia)).
    pose proof (Z.mod_pos_bound w4 16 ltac:(lia)). pose proof (Z.mod_pos_bound w5 16 ltac:(lia)).
    pose proof (Z.mod_pos_bound w6 16 ltac:(lia)). pose proof (Z.mod_pos_bound w7 4 ltac:(lia)).
    pose proof (Z.mod_pos_bound w8 2 ltac:(lia)).
    change (2 ^ 32) with 4294967296 in H.
    clearbody w9 w8 w7 w6 w5 w4 w3 w2 w1. lia. }
  clearbody w9 w8 w7 w6 w5 w4 w3 w2 w1. rewrite E10. clear E10 H. lia.
Qed.

Lemma field_h4 pos w : h4 (field pos 4 w).
Proof. unfold h4. pose proof (field_range pos 4 w ltac:(lia)). lia. Qed.
Lemma field_h1 pos w : h1 (field pos 1 w).
Proof. unfold h1. pose proof (field_range pos 1 w ltac:(lia)). lia. Qed.
Lemma field_h2 pos w : h2 (field pos 2 w).
Proof. unfold h2. pose proof (field_range pos 2 w ltac:(lia)). lia. Qed.

(** Decompose an arbitrary word. *)
Lemma word_cases w : 0 <= w < 2 ^ 32 ->
  exists a nb p n r l q1 q2 q3 j,
    h1 a /\ h1 nb /\ h2 p /\ h4 n /\ h4 r /\ h4 l /\ h4 q1 /\ h4 q2 /\ h4 q3 /\ h4 j
    /\ w = pk a nb p n r l q1 q2 q3 j.
Proof.
  intros H. pose proof (pk_of_word w H) as E.
  do 10 eexists. splits; [| | | | | | | | | | exact E];
  first [apply field_h1 | apply field_h2 | apply field_h4].
Qed.

(** ** Nucleus view *)
Definition pn (a l z aa i : Z) : Z :=
  l + z * 64 + aa * 65536 + i * 67108864 + 1073741824 + a * 2147483648.
Definition h6 (x : Z) := 0 <= x < 64.
Definition h10 (x : Z) := 0 <= x < 1024.

Section NFields.
Variables a l z aa i : Z.
Hypothesis (Ha : h1 a) (Hl : h6 l) (Hz : h10 z) (Haa : h10 aa) (Hi : h4 i).
Let w := pn a l z aa i.
Lemma pn_L : nuc_L w = l.
Proof. apply (field_eq 0 6 w 0 l (z + aa * 1024 + i * 1048576 + 16777216 + a * 33554432));
  unfold w, pn, h1, h6, h10, h4 in *; lia. Qed.
Lemma pn_Z : nuc_Z w = z.
Proof. apply (field_eq 6 10 w l z (aa + i * 1024 + 16384 + a * 32768));
  unfold w, pn, h1, h6, h10, h4 in *; lia. Qed.
Lemma pn_A : nuc_A w = aa.
Proof. apply (field_eq 16 10 w (l + z * 64) aa (i + 16 + a * 32));
  unfold w, pn, h1, h6, h10, h4 in *; lia. Qed.
Lemma pn_I : nuc_I w = i.
Proof. apply (field_eq 26 4 w (l + z * 64 + aa * 65536) i (1 + a * 2));
  unfold w, pn, h1, h6, h10, h4 in *; lia. Qed.
Lemma pn_nb : nucleus_bit w = 1.
Proof. apply (field_eq 30 1 w (l + z * 64 + aa * 65536 + i * 67108864) 1 a);
  unfold w, pn, h1, h6, h10, h4 in *; lia. Qed.
Lemma pn_a : anti_bit w = a.
Proof. apply (field_eq 31 1 w (l + z * 64 + aa * 65536 + i * 67108864 + 1073741824) a 0);
  unfold w, pn, h1, h6, h10, h4 in *; lia. Qed.
Lemma pn_range : 0 <= w < 2 ^ 32.
Proof. unfold w, pn, h1, h6, h10, h4 in *; lia. Qed.
End NFields.

Lemma pack_pn a l z aa i :
  h1 a -> h6 l -> h10 z -> h10 aa -> h4 i -> pack_nucleus a l z aa i = pn a l z aa i.
Proof.
  unfold h1, h6, h10, h4, pack_nucleus, pn; intros.
  rewrite (Z.mod_small l), (Z.mod_small z), (Z.mod_small aa), (Z.mod_small i), (Z.mod_small a) by lia.
  lia.
Qed.

Lemma pn_of_word w : 0 <= w < 2 ^ 32 -> nucleus_bit w = 1 ->
  w = pn (anti_bit w) (nuc_L w) (nuc_Z w) (nuc_A w) (nuc_I w).
Proof.
  intros H. unfold pn, anti_bit, nucleus_bit, nuc_L, nuc_Z, nuc_A, nuc_I, field.
  rewrite Z.pow_0_r, Z.div_1_r.
  change (2 ^ 10) with 1024. change (2 ^ 4) with 16. change (2 ^ 1) with 2.
  replace (w / 2^16) with (w / 2^6 / 1024) by (rewrite Z.div_div by lia; reflexivity).
  replace (w / 2^26) with (w / 2^6 / 1024 / 1024) by (rewrite !Z.div_div by lia; reflexivity).
  replace (w / 2^30) with (w / 2^6 / 1024 / 1024 / 16) by (rewrite !Z.div_div by lia; reflexivity).
  replace (w / 2^31) with (w / 2^6 / 1024 / 1024 / 16 / 2) by (rewrite !Z.div_div by lia; reflexivity).
  change (2 ^ 6) with 64.
  set (w1 := w / 64). set (w2 := w1 / 1024). set (w3 := w2 / 1024). set (w4 := w3 / 16). set (w5 := w4 / 2).
  pose proof (Z.div_mod w 64 ltac:(lia)) as E1. fold w1 in E1.
  pose proof (Z.div_mod w1 1024 ltac:(lia)) as E2. fold w2 in E2.
  pose proof (Z.div_mod w2 1024 ltac:(lia)) as E3. fold w3 in E3.
  pose proof (Z.div_mod w3 16 ltac:(lia)) as E4. fold w4 in E4.
  pose proof (Z.div_mod w4 2 ltac:(lia)) as E5. fold w5 in E5.
  pose proof (Z.mod_pos_bound w 64 ltac:(lia)). pose proof (Z.mod_pos_bound w1 1024 ltac:(lia)).
  pose proof (Z.mod_pos_bound w2 1024 ltac:(lia)). pose proof (Z.mod_pos_bound w3 16 ltac:(lia)).
  pose proof (Z.mod_pos_bound w4 2 ltac:(lia)).
  intros E. rewrite E in *.
  assert (E10 : w5 mod 2 = w5) by (apply Z.mod_small; clearbody w5 w4 w3 w2 w1; lia).
  rewrite E10. clearbody w5 w4 w3 w2 w1. lia.
Qed.

Lemma nuc_cases w : 0 <= w < 2 ^ 32 -> nucleus_bit w = 1 ->
  exists a l z aa i, h1 a /\ h6 l /\ h10 z /\ h10 aa /\ h4 i /\ w = pn a l z aa i.
Proof.
  intros H E. pose proof (pn_of_word w H E) as E'.
  do 5 eexists. splits; [| | | | | exact E'].
  - apply field_h1.
  - unfold h6. pose proof (field_range 0 6 w ltac:(lia)). unfold nuc_L. lia.
  - unfold h10. pose proof (field_range 6 10 w ltac:(lia)). unfold nuc_Z. lia.
  - unfold h10. pose proof (field_range 16 10 w ltac:(lia)). unfold nuc_A. lia.
  - apply field_h4.
Qed.

(** ** Antiparticles *)
Definition word (w : Z) : Prop := 0 <= w < 2 ^ 32.

Lemma anti_pk a nb p n r l q1 q2 q3 j :
  h1 a -> h1 nb -> h2 p -> h4 n -> h4 r -> h4 l -> h4 q1 -> h4 q2 -> h4 q3 -> h4 j ->
  get_antiparticle (pk a nb p n r l q1 q2 q3 j) = pk (1 - a) nb p n r l q1 q2 q3 j.
Proof.
  intros. unfold get_antiparticle, is_anti. rewrite pk_a by auto.
  unfold h1 in *. change (2^31) with 2147483648.
  destruct (Z.eqb_spec a 1); unfold pk; lia.
Qed.

Lemma anti_fields w : word w ->
  let v := get_antiparticle w in
  word v /\ n_J v = n_J w /\ n_q3 v = n_q3 w /\ n_q2 v = n_q2 w /\ n_q1 v = n_q1 w
  /\ n_L v = n_L w /\ n_R v = n_R w /\ n_n v = n_n w /\ pad v = pad w
  /\ nucleus_bit v = nucleus_bit w /\ anti_bit v = 1 - anti_bit w
  /\ w mod 2 ^ 16 = v mod 2 ^ 16
  /\ nuc_L v = nuc_L w /\ nuc_Z v = nuc_Z w /\ nuc_A v = nuc_A w /\ nuc_I v = nuc_I w.
Proof.
  intros H v.
  assert (N : nuc_L v = nuc_L w /\ nuc_Z v = nuc_Z w /\ nuc_A v = nuc_A w /\ nuc_I v = nuc_I w).
  { assert (E : exists k, v = w + k * 2 ^ 31).
    { unfold v, get_antiparticle. destruct (is_anti w).
      - exists (-1). lia.
      - exists 1. lia. }
    destruct E as [k ->].
    unfold nuc_L, nuc_Z, nuc_A, nuc_I, field. rewrite Z.pow_0_r, !Z.div_1_r.
    splits.
    - replace (w + k * 2^31) with (w + (k * 2 ^ 25) * 2 ^ 6) by lia. now rewrite Z.mod_add by lia.
    - replace (w + k * 2^31) with (w + (k * 2 ^ 25) * 2 ^ 6) by lia.
      rewrite Z.div_add by lia. replace (k * 2^25) with ((k * 2^15) * 2^10) by lia. now rewrite Z.mod_add by lia.
    - replace (w + k * 2^31) with (w + (k * 2 ^ 15) * 2 ^ 16) by lia.
      rewrite Z.div_add by lia. replace (k * 2^15) with ((k * 2^5) * 2^10) by lia. now rewrite Z.mod_add by lia.
    - replace (w + k * 2^31) with (w + (k * 2 ^ 5) * 2 ^ 26) by lia.
      rewrite Z.div_add by lia. replace (k * 2^5) with ((k * 2) * 2^4) by lia. now rewrite Z.mod_add by lia. }
  destruct (word_cases w H) as (a & nb & p & n & r & l & q1 & q2 & q3 & j & Ha & Hnb & Hp & Hn & Hr & Hl & H1 & H2 & H3 & Hj & E).
  assert (Ha' : h1 (1 - a)) by (unfold h1 in *; lia).
  assert (Ev : v = pk (1 - a) nb p n r l q1 q2 q3 j) by (unfold v; rewrite E; now apply anti_pk).
  destruct N as (N1 & N2 & N3 & N4).
  splits; try assumption; rewrite Ev, ?E.
  - red. now apply pk_range.
  - now rewrite !pk_J.
  - now rewrite !pk_q3.
  - now rewrite !pk_q2.
  - now rewrite !pk_q1.
  - now rewrite !pk_L.
  - now rewrite !pk_R.
  - now rewrite !pk_n.
  - now rewrite !pk_pad.
  - now rewrite !pk_nb.
  - now rewrite !pk_a.
  - now rewrite !pk_low.
Qed.

Lemma asign_anti w : word w -> asign (get_antiparticle w) = - asign w.
Proof.
  intros H. destruct (anti_fields w H) as (_ & _ & _ & _ & _ & _ & _ & _ & _ & _ & Ea & _).
  unfold asign, is_anti. rewrite Ea. unfold anti_bit. pose proof (field_h1 31 w) as F. unfold h1 in F.
  destruct (Z.eqb_spec (field 31 1 w) 1); destruct (Z.eqb_spec (1 - field 31 1 w) 1); lia.
Qed.

Lemma antiparticle_involutive w : word w -> get_antiparticle (get_antiparticle w) = w.
Proof.
  intros H. destruct (anti_fields w H) as (_ & _ & _ & _ & _ & _ & _ & _ & _ & _ & Ea & _).
  unfold get_antiparticle at 1. unfold is_anti. rewrite Ea.
  unfold get_antiparticle, is_anti. unfold anti_bit in *.
  pose proof (field_h1 31 w) as F. unfold h1 in F.
  destruct (Z.eqb_spec (field 31 1 w) 1); destruct (Z.eqb_spec (1 - field 31 1 w) 1); lia.
Qed.

Lemma antiparticle_distinct w : get_antiparticle w <> w.
Proof. unfold get_antiparticle. destruct (is_anti w); lia. Qed.

Lemma nq_anti w q : word w -> nq (get_antiparticle w) q = - nq w q.
Proof.
  intros H.
  destruct (anti_fields w H) as (_ & EJ & E3 & E2 & E1 & _ & _ & _ & _ & En & Ea & _ & NL & NZ & NA & NI).
  pose proof (asign_anti w H) as Es.
  unfold nq, net_quark_number, is_hadron, baryon_number, is_nucleus.
  unfold is_hadron, is_nucleus.
  rewrite E3, E2, E1, En, NL, NZ, NA, Es.
  destruct ((q <? 1) || (6 <? q)); [reflexivity|].
  destruct (nucleus_bit w =? 1).
  { destruct (q =? 1); [lia|]. destruct (q =? 2); [lia|]. destruct (q =? 3); lia. }
  destruct (negb (negb (n_q3 w =? 0) && negb (n_q2 w =? 0) && negb false) ||
     negb (n_q1 w =? q) && negb (n_q2 w =? q) && negb (n_q3 w =? q)) eqn:E0; [lia|].
  assert (Hs : asign w = 1 \/ asign w = -1) by (unfold asign; destruct (is_anti w); auto).
  set (cond := negb (negb (n_q3 w =? 0) && negb (n_q2 w =? 0) && negb false) || (n_q1 w =? 0)).
  destruct cond.
  - cbn [negb Z.eqb]. destruct ((n_q3 w =? q) && (n_q2 w =? q)); [lia|].
    destruct ((if n_q2 w =? q then n_q3 w else n_q2 w) <? q); lia.
  - replace (- asign w =? 0) with false by (symmetry; apply Z.eqb_neq; lia).
    replace (asign w =? 0) with false by (symmetry; apply Z.eqb_neq; lia).
    cbn [negb]. lia.
Qed.

Lemma baryon_number_anti w : word w -> baryon_number (get_antiparticle w) = - baryon_number w.
Proof.
  intros H.
  destruct (anti_fields w H) as (_ & EJ & E3 & E2 & E1 & _ & _ & _ & _ & En & Ea & _ & NL & NZ & NA & NI).
  pose proof (asign_anti w H) as Es.
  unfold baryon_number, is_hadron, is_nucleus. rewrite E3, E2, E1, En, NA, Es.
  destruct (nucleus_bit w =? 1); [lia|].
  destruct (_ || _); lia.
Qed.

Lemma charge3_anti w : word w -> charge3 (get_antiparticle w) = - charge3 w.
Proof. intros H. unfold charge3. rewrite !nq_anti by assumption. lia. Qed.

Lemma charge_anti w : word w -> charge (get_antiparticle w) = - charge w.
Proof.
  intros H. unfold charge. rewrite charge3_anti by assumption.
  destruct (anti_fields w H) as (_ & EJ & E3 & E2 & E1 & _ & _ & _ & _ & En & Ea & EM & NL & NZ & NA & NI).
  pose proof (asign_anti w H) as Es.
  rewrite <- EM. unfold is_hadron, is_nucleus. rewrite E3, E2, En, EJ, Es.
  destruct (_ || _). { rewrite Z.quot_opp_l by lia. reflexivity. }
  destruct (n_q3 w =? 1); [lia|].
  destruct (w mod 2 ^ 16 =? 36); lia.
Qed.

Lemma spin_anti w : word w -> spin (get_antiparticle w) = spin w.
Proof.
  intros H.
  destruct (anti_fields w H) as (_ & EJ & E3 & E2 & E1 & _ & _ & _ & _ & En & Ea & EM & NL & NZ & NA & NI).
  unfold spin, is_nucleus, is_hadron, is_nucleus. now rewrite E3, E2, En, EJ, NA.
Qed.

(** ** Quark sums *)
Definition six (w : Z) : Prop := 0 <= n_q1 w <= 6 /\ 0 <= n_q2 w <= 6 /\ 0 <= n_q3 w <= 6.

Ltac cases7 x H :=
  let E := fresh "E" in
  assert (E : x = 0 \/ x = 1 \/ x = 2 \/ x = 3 \/ x = 4 \/ x = 5 \/ x = 6) by (clear - H; lia);
  destruct E as [E|[E|[E|[E|[E|[E|E]]]]]].

Lemma sum_nq w : is_hadron w || is_nucleus w = true -> (is_nucleus w = false -> six w) ->
  nq w 1 + nq w 2 + nq w 3 + nq w 4 + nq w 5 + nq w 6 = 3 * baryon_number w.
Proof.
  intros Hh H6. unfold nq, net_quark_number, baryon_number. cbn [Z.ltb Z.compare Z.eqb orb Pos.compare Pos.compare_cont Pos.eqb].
  destruct (is_nucleus w) eqn:En.
  - lia.
  - rewrite orb_false_r in Hh. rewrite Hh. cbn [negb orb].
    specialize (H6 eq_refl). destruct H6 as (K1 & K2 & K3).
    assert (Hnz : n_q3 w <> 0 /\ n_q2 w <> 0).
    { unfold is_hadron in Hh. rewrite !andb_true_iff, !negb_true_iff, !Z.eqb_neq in Hh. tauto. }
    destruct Hnz as [Z3 Z2].
    assert (Hs : asign w = 1 \/ asign w = -1) by (unfold asign; destruct (is_anti w); auto).
    set (s := asign w) in *. clearbody s. clear Hh En.
    set (q1 := n_q1 w) in *; set (q2 := n_q2 w) in *; set (q3 := n_q3 w) in *. clearbody q1 q2 q3.
    cases7 q2 K2; subst q2; try (now contradiction Z2);
    cases7 q3 K3; subst q3; try (now contradiction Z3);
    cases7 q1 K1; subst q1; destruct Hs; subst s; reflexivity.
Qed.

Lemma nq_top_gmn w : 3 * (isospin3 w) + (nq w 1 + nq w 2 + nq w 3 + nq w 4 + nq w 5 + nq w 6)
   + 3 * (strangeness w + charmness w + bottomness w + nq w 6) = 2 * charge3 w.
Proof. unfold isospin3, strangeness, charmness, bottomness, charge3. lia. Qed.

Lemma charge3_mult w : is_hadron w || is_nucleus w = true -> (is_nucleus w = false -> six w) ->
  exists k, charge3 w = 3 * k.
Proof.
  intros Hh H6. pose proof (sum_nq w Hh H6) as S. pose proof (nq_top_gmn w) as G. rewrite S in G.
  exists (2 * (isospin3 w + baryon_number w + strangeness w + charmness w + bottomness w + nq w 6) - charge3 w).
  lia.
Qed.

Lemma charge_exact w : is_hadron w || is_nucleus w = true -> (is_nucleus w = false -> six w) ->
  3 * charge w = charge3 w.
Proof.
  intros Hh H6. destruct (charge3_mult w Hh H6) as [k E]. unfold charge. rewrite Hh, E.
  rewrite Z.mul_comm, Z.mul_comm with (n := 3). rewrite Z.quot_mul by lia. lia.
Qed.

Lemma gmn w : is_hadron w || is_nucleus w = true -> (is_nucleus w = false -> six w) ->
  2 * charge w = isospin3 w + baryon_number w + strangeness w + charmness w + bottomness w + nq w 6.
Proof.
  intros Hh H6. pose proof (sum_nq w Hh H6) as S. pose proof (nq_top_gmn w) as G. rewrite S in G.
  pose proof (charge_exact w Hh H6). lia.
Qed.

Lemma nucleus_charge w : is_nucleus w = true -> charge w = asign w * nuc_Z w.
Proof.
  intros E. assert (K : 3 * charge w = charge3 w).
  { apply charge_exact. rewrite E. apply orb_true_r. intros; congruence. }
  revert K. unfold charge3, nq, net_quark_number. rewrite E. cbn [Z.ltb Z.compare Z.eqb orb Pos.compare Pos.compare_cont Pos.eqb].
  lia.
Qed.

(** ** Quark content *)
Lemma content_count w f : 1 <= f <= 6 -> is_hadron w = true -> six w ->
  (n_q1 w = 0 -> n_q3 w <= n_q2 w) ->
  net_count f (quark_content w) = nq w f.
Proof.
  intros Hf Hh (K1 & K2 & K3) Hord.
  assert (En : is_nucleus w = false).
  { unfold is_hadron in Hh. destruct (is_nucleus w); [|reflexivity]. now rewrite andb_false_r in Hh. }
  assert (Hnz : n_q3 w <> 0 /\ n_q2 w <> 0).
  { unfold is_hadron in Hh. rewrite !andb_true_iff, !negb_true_iff, !Z.eqb_neq in Hh. tauto. }
  destruct Hnz as [Z3 Z2].
  unfold nq, net_quark_number, baryon_number, quark_content, asign. rewrite Hh, En.
  set (q1 := n_q1 w) in *; set (q2 := n_q2 w) in *; set (q3 := n_q3 w) in *. clearbody q1 q2 q3.
  assert (Hf' : 0 <= f <= 6) by lia.
  cases7 q2 K2; subst q2; try (now contradiction Z2);
  cases7 q3 K3; subst q3; try (now contradiction Z3);
  cases7 q1 K1; subst q1; try (exfalso; lia);
  destruct (is_anti w);
  cases7 f Hf'; subst f; try (exfalso; lia); reflexivity.
Qed.

Lemma content_shape w : is_hadron w = true ->
  exists a b c, quark_content w = [a; b; c] /\ b <> 0 /\ c <> 0 /\
    (baryon_number w = 0 -> a = 0 /\ ((0 < b /\ c < 0) \/ (b < 0 /\ 0 < c))) /\
    (baryon_number w = 1 -> 0 < a /\ 0 < b /\ 0 < c) /\
    (baryon_number w = -1 -> a < 0 /\ b < 0 /\ c < 0).
Proof.
  intros Hh.
  assert (En : is_nucleus w = false).
  { unfold is_hadron in Hh. destruct (is_nucleus w); [|reflexivity]. now rewrite andb_false_r in Hh. }
  assert (Hnz : n_q3 w <> 0 /\ n_q2 w <> 0).
  { unfold is_hadron in Hh. rewrite !andb_true_iff, !negb_true_iff, !Z.eqb_neq in Hh. tauto. }
  destruct Hnz as [Z3 Z2].
  unfold quark_content, baryon_number, asign. rewrite Hh, En. cbn [negb orb].
  pose proof (field_h4 12 w) as F1. pose proof (field_h4 8 w) as F2. pose proof (field_h4 4 w) as F3.
  fold (n_q1 w) in F1. fold (n_q2 w) in F2. fold (n_q3 w) in F3. unfold h4 in *.
  destruct (Z.eqb_spec (n_q1 w) 0); cbn [negb].
  - destruct (Z.eqb_spec (n_q2 w) (n_q3 w)); cbn [negb andb].
    + do 3 eexists. split; [reflexivity|]. lia.
    + destruct (is_anti w); destruct (n_q2 w mod 2 =? 1);
      do 3 eexists; (split; [reflexivity|]); lia.
  - destruct (is_anti w); do 3 eexists; (split; [reflexivity|]); lia.
Qed.
