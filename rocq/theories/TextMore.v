(** Claims about padding of UTF-8 text and removal of substrings. *)
From Coq Require Import ZArith Ascii String List Bool Lia.
From Verif Require Import Base TextModel TextSpec.
Import ListNotations.
Open Scope list_scope.
Open Scope Z_scope.

(** ** padding *)

Definition extras (s : text) : Z := fold_right (fun c n => extra_bytes c + n) 0 s.

Lemma extras_app a b : extras (a ++ b) = extras a + extras b.
Proof. induction a as [|c t IH]; [reflexivity|]. unfold extras in *. cbn [app fold_right]. lia. Qed.

Lemma u64_add x y : u64 (u64 x + y) = u64 (x + y).
Proof. unfold u64. apply Zplus_mod_idemp_l. Qed.

Lemma adjust_sum s w : adjust s (u64 w) = u64 (w + extras s).
Proof.
  unfold adjust. revert w; induction s as [|c t IH]; intros w.
  - cbn. rewrite Z.add_0_r. reflexivity.
  - cbn [fold_left]. rewrite u64_add, IH. f_equal. unfold extras. cbn [fold_right]. lia.
Qed.

Lemma extras_conts l : Forall (fun b => 128 <= b < 192) l -> extras l = 0.
Proof.
  induction 1 as [|b t H _ IH]; [reflexivity|]. unfold extras in *. cbn [fold_right]. rewrite IH.
  unfold extra_bytes.
  rewrite !(proj2 (Z.leb_gt _ _)) by lia. rewrite !(proj2 (Z.eqb_neq _ _)) by lia. reflexivity.
Qed.

Lemma extras_char c : wf_char c ->
  extras c = Z.of_nat (length c) - (if combining c then 0 else 1).
Proof.
  intros (l & t & -> & F & H). unfold extras. cbn [fold_right]. fold (extras t). rewrite (extras_conts t F).
  cbn [combining length]. unfold extra_bytes.
  destruct H as [[B L]|[[B L]|[[B L]|[B L]]]]; rewrite L.
  - rewrite !(proj2 (Z.leb_gt _ _)) by lia. rewrite !(proj2 (Z.eqb_neq _ _)) by lia. reflexivity.
  - rewrite (proj2 (Z.leb_gt 0xFC _)), (proj2 (Z.leb_gt 0xF8 _)), (proj2 (Z.leb_gt 0xF0 _)),
      (proj2 (Z.leb_gt 0xE0 _)) by lia.
    destruct ((l =? 0xCC) || (l =? 0xCD)); [reflexivity|].
    rewrite (proj2 (Z.leb_le 0xC0 _)) by lia. reflexivity.
  - rewrite (proj2 (Z.leb_gt 0xFC _)), (proj2 (Z.leb_gt 0xF8 _)), (proj2 (Z.leb_gt 0xF0 _)) by lia.
    rewrite (proj2 (Z.leb_le 0xE0 _)) by lia.
    rewrite !(proj2 (Z.eqb_neq _ _)) by lia. reflexivity.
  - rewrite (proj2 (Z.leb_gt 0xFC _)), (proj2 (Z.leb_gt 0xF8 _)) by lia.
    rewrite (proj2 (Z.leb_le 0xF0 _)) by lia.
    rewrite !(proj2 (Z.eqb_neq _ _)) by lia. reflexivity.
Qed.

Lemma extras_text cs : Forall wf_char cs ->
  extras (concat cs) = Z.of_nat (length (concat cs)) - positions cs.
Proof.
  unfold positions. induction 1 as [|c t H _ IH]; [reflexivity|].
  cbn [concat filter]. rewrite extras_app, app_length, extras_char, IH by assumption.
  destruct (combining c); cbn [negb length]; lia.
Qed.

Lemma pad_width cs w : Forall wf_char cs ->
  adjust (concat cs) (u64 (w - Z.of_nat (length (concat cs)))) = u64 (w - positions cs).
Proof. intros F. rewrite adjust_sum, extras_text by assumption. f_equal. lia. Qed.

Lemma positions_nonneg cs : 0 <= positions cs.
Proof. unfold positions. lia. Qed.

Lemma positions_length cs : Forall wf_char cs -> positions cs <= Z.of_nat (length (concat cs)).
Proof.
  intros F. pose proof (extras_text cs F). 
  assert (X : forall s, 0 <= extras s).
  { induction s as [|c t IH]; [cbn; lia|]. unfold extras in *. cbn [fold_right].
    assert (0 <= extra_bytes c); [|lia].
    unfold extra_bytes. repeat match goal with |- context [if ?b then _ else _] => destruct b end; lia. }
  specialize (X (concat cs)). lia.
Qed.

Lemma u64_id x : 0 <= x < 2 ^ 64 -> u64 x = x.
Proof. intros. unfold u64. apply Z.mod_small. lia. Qed.

Lemma repeat_0 A (x : A) : repeat x (Z.to_nat 0) = [].
Proof. reflexivity. Qed.

(** C81: a well-formed UTF-8 text that takes at most [width] positions is padded to exactly
    [width] positions: on the left, on the right, or on both sides with the extra filler on
    the right. *)
Theorem padding_exact cs width fill : Forall wf_char cs -> positions cs <= width < 2 ^ 31 ->
  let s := concat cs in
  let n := width - positions cs in
  fill_left s width fill = Ok (repeat fill (Z.to_nat n) ++ s) /\
  fill_right s width fill = Ok (s ++ repeat fill (Z.to_nat n)) /\
  fill_both s width fill = Ok (repeat fill (Z.to_nat (n / 2)) ++ s ++ repeat fill (Z.to_nat (n - n / 2))).
Proof.
  intros F W s n. unfold fill_left, fill_right, fill_both, s. rewrite pad_width by assumption.
  pose proof (positions_nonneg cs). fold n. rewrite (u64_id n) by (unfold n; lia).
  assert (H1 : 0 <= n / 2 <= n) by (split; [apply Z.div_pos; unfold n; lia|apply Z.div_le_upper_bound; unfold n; lia]).
  destruct (Z.ltb_spec 0 n) as [P|P].
  - unfold make_string. rewrite (proj2 (Z.leb_le n _)) by (unfold n; lia). cbn [rbind].
    assert (I : forall x, 0 <= x < 2 ^ 31 -> i32 x = x).
    { intros x X. unfold i32, to_signed. rewrite Z.mod_small by lia.
      rewrite (proj2 (Z.ltb_lt _ _)) by (cbn; lia). reflexivity. }
    assert (Nb : n < 2 ^ 31) by (unfold n; lia).
    rewrite (I (n / 2)) by lia. rewrite (u64_id (n - n / 2)), (I (n - n / 2)) by lia.
    rewrite !u64_id by lia. rewrite !(proj2 (Z.leb_le _ _)) by lia. cbn [rbind]. splits; reflexivity.
  - assert (n = 0) by (unfold n in *; lia). rewrite H0. cbn. rewrite app_nil_r. splits; reflexivity.
Qed.
Print Assumptions padding_exact.

Example padding_hyps :
  Forall wf_char [codes "a"; [0xCF; 0x80]; [0xE2; 0x81; 0xBA]] /\
  positions [codes "a"; [0xCF; 0x80]; [0xE2; 0x81; 0xBA]] = 3 /\
  fill_both (concat [codes "a"; [0xCF; 0x80]; [0xE2; 0x81; 0xBA]]) 6 46 =
    Ok ([46] ++ codes "a" ++ [0xCF; 0x80; 0xE2; 0x81; 0xBA; 46; 46]).
Proof.
  splits; try reflexivity. repeat constructor.
  - exists 97, []. splits; auto. left. cbn. lia.
  - exists 0xCF, [0x80]. splits; auto; [repeat constructor; lia|]. right; left. cbn. lia.
  - exists 0xE2, [0x81; 0xBA]. splits; auto; [repeat constructor; lia|]. right; right; left. cbn. lia.
Qed.

(** C81 is false for text that is wider than the width asked for: instead of returning it
    unchanged the three functions throw std::length_error. *)
Theorem padding_too_wide_refuted cs width fill : Forall wf_char cs ->
  0 <= width < positions cs -> Z.of_nat (length (concat cs)) < 2 ^ 31 ->
  fill_left (concat cs) width fill = Throw E_length /\
  fill_right (concat cs) width fill = Throw E_length /\
  fill_both (concat cs) width fill = Throw E_length.
Proof.
  intros F W L. unfold fill_left, fill_right, fill_both. rewrite pad_width by assumption.
  pose proof (positions_length cs F) as PL. set (k := positions cs - width) in *.
  assert (K : 1 <= k < 2 ^ 31) by (unfold k; lia).
  replace (width - positions cs) with (- k) by (unfold k; lia).
  assert (E : u64 (- k) = 2 ^ 64 - k).
  { unfold u64. symmetry. apply (Z.mod_unique_pos _ _ (-1)); lia. }
  rewrite E. rewrite (proj2 (Z.ltb_lt 0 _)) by lia. unfold make_string.
  rewrite (proj2 (Z.leb_gt (2 ^ 64 - k) _)) by lia. cbn [rbind]. splits; try reflexivity.
  set (m := (k + 1) / 2).
  assert (M : 1 <= m <= 2 ^ 30).
  { unfold m. split; [apply Z.div_le_lower_bound; lia|apply Z.div_le_upper_bound; lia]. }
  assert (D : (2 ^ 64 - k) / 2 = 2 ^ 63 - m).
  { unfold m. pose proof (Z.div_mod k 2 ltac:(lia)) as Q1. pose proof (Z.mod_pos_bound k 2 ltac:(lia)) as Q2.
    assert (C : k mod 2 = 0 \/ k mod 2 = 1) by lia. destruct C as [C|C]; rewrite C in Q1.
    - replace (k + 1) with (k / 2 * 2 + 1) by lia. rewrite (Z.div_add_l _ 2) by lia.
      replace (2 ^ 64 - k) with ((2 ^ 63 - k / 2) * 2) by lia. rewrite Z.div_mul by lia.
      change (1 / 2) with 0. lia.
    - replace (k + 1) with ((k / 2 + 1) * 2) by lia. rewrite Z.div_mul by lia.
      replace (2 ^ 64 - k) with ((2 ^ 63 - k / 2 - 1) * 2 + 1) by lia. rewrite (Z.div_add_l _ 2) by lia.
      change (1 / 2) with 0. lia. }
  rewrite D. assert (Li : i32 (2 ^ 63 - m) = - m).
  { unfold i32, to_signed. assert (Q : (2 ^ 63 - m) mod 2 ^ 32 = 2 ^ 32 - m).
    { symmetry. apply (Z.mod_unique_pos _ _ (2 ^ 31 - 1)); lia. }
    rewrite Q. change (2 ^ (32 - 1)) with (2 ^ 31). rewrite (proj2 (Z.ltb_ge _ _)) by lia. lia. }
  rewrite Li. assert (U : u64 (- m) = 2 ^ 64 - m).
  { unfold u64. symmetry. apply (Z.mod_unique_pos _ _ (-1)); lia. }
  rewrite U. rewrite (proj2 (Z.leb_gt _ _)) by lia. reflexivity.
Qed.
Print Assumptions padding_too_wide_refuted.

Example padding_too_wide_hyps :
  let cs := map (fun c => [c]) (codes "too long") in
  positions cs = 8 /\ fill_left (concat cs) 5 32 = Throw E_length.
Proof. split; reflexivity. Qed.

(** ** removal of substrings *)

Lemma prefixb_spec p s : prefixb p s = true <-> exists b, s = p ++ b.
Proof.
  revert s; induction p as [|a p IH]; intros s; cbn.
  - split; [exists s; reflexivity|reflexivity].
  - destruct s as [|c s]; [split; [discriminate|intros (b & B); discriminate]|].
    rewrite andb_true_iff, Z.eqb_eq, IH. split.
    + intros [-> (b & ->)]. exists b. reflexivity.
    + intros (b & B). cbn in B. split; [congruence|exists b; congruence].
Qed.

Lemma find_some p s i : find_str p s = Some i ->
  exists a b, s = a ++ p ++ b /\ length a = i.
Proof.
  revert i; induction s as [|c t IH]; intros i; cbn.
  - destruct (prefixb p []) eqn:B; [|discriminate]. intros E. assert (i = 0%nat) by congruence. subst.
    apply prefixb_spec in B as (b & B). exists [], b. auto.
  - destruct (prefixb p (c :: t)) eqn:B.
    + intros E. assert (i = 0%nat) by congruence. subst.
      apply prefixb_spec in B as (b & B). exists [], b. auto.
    + destruct (find_str p t) as [j|] eqn:E; [|discriminate]. intros Q.
      assert (i = S j) by congruence. subst. destruct (IH j eq_refl) as (a & b & -> & <-).
      exists (c :: a), b. auto.
Qed.

Lemma find_none p s : find_str p s = None -> ~ occurs p s.
Proof.
  induction s as [|c t IH]; cbn.
  - destruct (prefixb p []) eqn:B; [discriminate|]. intros _ (a & b & E).
    destruct a; [|discriminate]. cbn in E. assert (prefixb p [] = true) by (apply prefixb_spec; exists b; exact E).
    congruence.
  - destruct (prefixb p (c :: t)) eqn:B; [discriminate|].
    destruct (find_str p t); [discriminate|]. intros _ (a & b & E). destruct a as [|x a].
    + assert (prefixb p (c :: t) = true) by (apply prefixb_spec; exists b; exact E). congruence.
    + apply (IH eq_refl). exists a, b. cbn in E. congruence.
Qed.

Lemma erase_spec a p b : erase (length a) (length p) (a ++ p ++ b) = a ++ b.
Proof.
  unfold erase. rewrite firstn_app, firstn_all, Nat.sub_diag. cbn. rewrite app_nil_r. f_equal.
  rewrite skipn_app, skipn_all2 by lia. cbn.
  rewrite skipn_app, skipn_all2 by lia.
  replace (length a + length p - length a - length p)%nat with 0%nat by lia. reflexivity.
Qed.

(** deleting one occurrence after the other *)
Inductive erases (p : text) : text -> text -> Prop :=
| er_done s : erases p s s
| er_step a b r : erases p (a ++ b) r -> erases p (a ++ p ++ b) r.

Lemma remove_loop_spec p fuel s : p <> [] -> (length s < fuel)%nat ->
  exists r, remove_loop fuel s p = Ok r /\ ~ occurs p r /\ erases p s r.
Proof.
  intros Np. revert s; induction fuel as [|f IH]; intros s L; [lia|]. cbn.
  destruct (find_str p s) as [i|] eqn:E.
  - apply find_some in E as (a & b & -> & <-). rewrite erase_spec.
    destruct (IH (a ++ b)) as (r & R1 & R2 & R3).
    + rewrite !app_length in L. rewrite app_length. destruct p; [congruence|]. cbn in L. lia.
    + exists r. splits; auto. constructor; exact R3.
  - exists s. splits; auto; [apply find_none; exact E|constructor].
Qed.

(** C82: removing a non-empty substring terminates, the result does not contain it, and
    only occurrences of it have been deleted. *)
Theorem remove_substr_spec s p : p <> [] ->
  exists r, remove_substr s p = Ok r /\ ~ occurs p r /\ erases p s r.
Proof. intros N. apply remove_loop_spec; [exact N|lia]. Qed.
Print Assumptions remove_substr_spec.

(** ... but removing the empty string never ends. *)
Theorem remove_empty_refuted s : remove_substr s [] = UB UB_no_progress.
Proof.
  unfold remove_substr. generalize (S (length s)) as n. intros n; revert s. induction n as [|n IH]; intros s.
  - destruct s; reflexivity.
  - assert (E : find_str [] s = Some 0%nat) by (destruct s; reflexivity). cbn [remove_loop]. rewrite E.
    cbn [length]. change (erase 0 0 s) with s. apply IH.
Qed.
Print Assumptions remove_empty_refuted.

Example remove_example : remove_substr (codes "aXXYYb") (codes "XY") = Ok (codes "ab").
Proof. reflexivity. Qed.

Lemma app_conts (p c : list Z) rest cont :
  Forall (fun b => 128 <= b < 192) p -> Forall (fun b => 128 <= b < 192) c ->
  length p = length c -> p ++ cont = c ++ rest -> p = c.
Proof.
  intros _ _. revert c; induction p as [|a p IH]; intros [|b c] L E; try discriminate; [reflexivity|].
  cbn in *. f_equal; [congruence|]. apply (IH c); [lia|congruence].
Qed.

Lemma char_prefix p c rest b : wf_char p -> wf_char c -> c ++ rest = p ++ b -> p = c.
Proof.
  intros (l & t & -> & F & H) (l' & t' & -> & F' & H') E. cbn in E.
  assert (l = l') by congruence. subst l'. f_equal.
  assert (Q : t ++ b = t' ++ rest) by congruence.
  apply (app_conts t t' rest b F F'); [|exact Q]. lia.
Qed.

Lemma find_cons_skip p c s : prefixb p (c :: s) = false ->
  find_str p (c :: s) = match find_str p s with Some i => Some (S i) | None => None end.
Proof. intros B. cbn [find_str]. rewrite B. reflexivity. Qed.

Lemma find_conts p t s : wf_char p -> Forall (fun b => 128 <= b < 192) t ->
  find_str p (t ++ s) = match find_str p s with Some i => Some (length t + i)%nat | None => None end.
Proof.
  intros W F. induction F as [|c t H _ IH].
  - cbn. destruct (find_str p s); reflexivity.
  - cbn [app]. rewrite find_cons_skip.
    + rewrite IH. destruct (find_str p s); reflexivity.
    + destruct (prefixb p (c :: t ++ s)) eqn:B; [|reflexivity]. exfalso.
      apply prefixb_spec in B as (b & B). destruct W as (l & u & -> & _ & D). cbn in B.
      assert (c = l) by congruence. lia.
Qed.

Lemma find_chars p cs : wf_char p -> Forall wf_char cs ->
  (find_str p (concat cs) = None /\ ~ In p cs) \/
  exists cs1 cs2, cs = cs1 ++ p :: cs2 /\ ~ In p cs1 /\ find_str p (concat cs) = Some (length (concat cs1)).
Proof.
  intros W F. induction F as [|c cs Hc _ IH].
  - left. split; [|intros []]. destruct W as (l & u & -> & _). reflexivity.
  - destruct (list_eq_dec Z.eq_dec c p) as [->|N].
    + right. exists [], cs. splits; auto. cbn [concat]. destruct W as (l & u & -> & _).
      cbn [app find_str]. assert (B : prefixb (l :: u) (l :: u ++ concat cs) = true)
        by (apply prefixb_spec; exists (concat cs); reflexivity).
      rewrite B. reflexivity.
    + cbn [concat]. assert (B : prefixb p (c ++ concat cs) = false).
      { destruct (prefixb p (c ++ concat cs)) eqn:B; [|reflexivity]. exfalso. apply N.
        apply prefixb_spec in B as (b & B). symmetry. eapply char_prefix; eauto. }
      destruct Hc as (l & t & -> & Ft & D). cbn [app] in *. rewrite find_cons_skip by exact B.
      rewrite (find_conts p t (concat cs) W Ft). destruct IH as [[E NI]|(cs1 & cs2 & -> & NI & E)].
      * left. rewrite E. split; [reflexivity|]. intros [Q|Q]; [auto|auto].
      * right. exists ((l :: t) :: cs1), cs2. rewrite E. splits.
        -- reflexivity.
        -- intros [Q|Q]; auto.
        -- cbn [concat]. rewrite app_length. reflexivity.
Qed.

Definition other (p c : text) : bool := if list_eq_dec Z.eq_dec c p then false else true.

Lemma filter_none p cs : ~ In p cs -> filter (other p) cs = cs.
Proof.
  induction cs as [|c t IH]; [reflexivity|]. intros N. cbn. unfold other at 1.
  destruct (list_eq_dec Z.eq_dec c p) as [->|_]; [exfalso; apply N; left; reflexivity|].
  f_equal. apply IH. intros Q; apply N; right; exact Q.
Qed.

Lemma remove_chars p fuel cs : wf_char p -> Forall wf_char cs -> (length (concat cs) < fuel)%nat ->
  remove_loop fuel (concat cs) p = Ok (concat (filter (other p) cs)).
Proof.
  intros W. revert cs; induction fuel as [|f IH]; intros cs F L; [lia|]. cbn [remove_loop].
  destruct (find_chars p cs W F) as [[E NI]|(cs1 & cs2 & -> & NI & E)]; rewrite E.
  - rewrite filter_none by exact NI. reflexivity.
  - rewrite concat_app. cbn [concat]. rewrite erase_spec, <- concat_app. rewrite IH.
    + f_equal. f_equal. rewrite !filter_app. f_equal. cbn. unfold other at 2.
      destruct (list_eq_dec Z.eq_dec p p); [reflexivity|congruence].
    + apply Forall_app in F as [F1 F2]. apply Forall_app. split; [exact F1|]. inversion F2; assumption.
    + rewrite concat_app in *. cbn [concat] in L. rewrite !app_length in *.
      destruct W as (l & u & -> & _). cbn in L. lia.
Qed.

(** the UTF-8 bytes of a code point from U+0800 to U+FFFF *)
Definition utf8_3 (u : Z) : text := [0xE0 + u / 2 ^ 12; 0x80 + (u / 2 ^ 6) mod 2 ^ 6; 0x80 + u mod 2 ^ 6].

(** C82: from a well-formed UTF-8 text, isoclean removes exactly the characters
    superscript plus (U+207A), minus (U+207B) and zero (U+2070). *)
Theorem isoclean_exact_partial cs : Forall wf_char cs ->
  isoclean (concat cs) =
  Ok (concat (filter (fun c => other (utf8_3 0x207A) c && other (utf8_3 0x207B) c && other (utf8_3 0x2070) c) cs)).
Proof.
  intros F.
  change (utf8_3 0x207A) with SUP_PLUS. change (utf8_3 0x207B) with SUP_MINUS. change (utf8_3 0x2070) with SUP_ZERO.
  assert (P : forall b, 128 <= b < 192 -> wf_char [0xE2; 0x81; b]).
  { intros b B. exists 0xE2, [0x81; b]. splits; auto; [repeat constructor; lia|]. right; right; left. cbn. lia. }
  assert (FF : forall f cs, Forall wf_char cs -> Forall wf_char (filter f cs)).
  { clear. intros f cs F. rewrite Forall_forall in *. intros c I. apply F. apply filter_In in I. apply I. }
  unfold isoclean, remove_substr.
  rewrite remove_chars; [|apply P; lia|exact F|lia]. cbn [rbind].
  rewrite remove_chars; [|apply P; lia|apply FF; exact F|lia]. cbn [rbind].
  rewrite remove_chars; [|apply P; lia|apply FF, FF; exact F|lia]. f_equal. f_equal.
  clear. induction cs as [|c cs IH]; [reflexivity|].
  cbn [filter]. destruct (other SUP_PLUS c); cbn [andb filter]; [|exact IH].
  destruct (other SUP_MINUS c); cbn [andb filter]; [|exact IH].
  destruct (other SUP_ZERO c); cbn [andb filter]; [f_equal; exact IH|exact IH].
Qed.
Print Assumptions isoclean_exact_partial.

(** For bytes that are not UTF-8 a superscript can be left over. *)
Theorem isoclean_refuted :
  isoclean [0xE2; 0x81; 0xE2; 0x81; 0xBB; 0xBA] = Ok SUP_PLUS.
Proof. reflexivity. Qed.
Print Assumptions isoclean_refuted.

Example isoclean_hyps :
  Forall wf_char [[0xCF; 0x80]; SUP_PLUS] /\
  isoclean (concat [[0xCF; 0x80]; SUP_PLUS]) = Ok [0xCF; 0x80].
Proof.
  split; [|reflexivity]. repeat constructor.
  - exists 0xCF, [0x80]. splits; auto; [repeat constructor; lia|]. right; left. cbn. lia.
  - exists 0xE2, [0x81; 0xBA]. splits; auto; [repeat constructor; lia|]. right; right; left. cbn. lia.
Qed.
