(** Words and lines of the texts that are printed (lemmas for C121). *)
From Coq Require Import ZArith Reals Ascii String List Bool Lia Lra.
From Verif Require Import Base TextModel TextSpec TextProps PdgModel PdgStrings PrintfModel PrintfProps OutModel OutSpec OutProps OscarModel OscarSpec.
Import ListNotations.
Open Scope list_scope.
Open Scope Z_scope.

Definition clean (c : Z) : Prop := c <> 32 /\ c <> 10 /\ c <> 35.
Definition word (t : text) : Prop := t <> [] /\ Forall clean t.

Lemma cut_ne d t : cut d t <> [].
Proof. destruct t; cbn; [discriminate|]. destruct (_ =? _); [discriminate|]. destruct (cut d t); discriminate. Qed.
Lemma cut_app d a b : cut d (a ++ d :: b) = cut d a ++ cut d b.
Proof.
  induction a as [|c a IH]; cbn [app cut]; [rewrite Z.eqb_refl; reflexivity|]. rewrite IH. destruct (c =? d); [reflexivity|].
  pose proof (cut_ne d a). destruct (cut d a); [congruence|]. reflexivity.
Qed.
Lemma cut_one d a : ~ In d a -> cut d a = [a].
Proof.
  induction a as [|c a IH]; intros N; [reflexivity|]. cbn [cut]. destruct (Z.eqb_spec c d) as [->|_]; [exfalso; apply N; left; reflexivity|].
  rewrite IH; [reflexivity|]. intros I. apply N. right. exact I.
Qed.
(** text of lines *)
Definition text_of (ls : list text) : text := flat_map (fun l => l ++ nl) ls.
Lemma text_of_app a b : text_of (a ++ b) = text_of a ++ text_of b.
Proof. apply flat_map_app. Qed.
Lemma lines_text ls : Forall (fun l => ~ In 10 l) ls -> lines (text_of ls) = ls.
Proof.
  intros F. unfold lines. assert (E : cut 10 (text_of ls) = ls ++ [[]]).
  { induction F as [|l ls N F IH]; [reflexivity|]. change (text_of (l :: ls)) with ((l ++ nl) ++ text_of ls). unfold nl, NEWLINE. rewrite <- app_assoc. cbn [app]. rewrite cut_app, cut_one by exact N. rewrite IH. reflexivity. }
  rewrite E. apply removelast_last.
Qed.
Lemma words_app a b : words (a ++ SPACE :: b) = words a ++ words b.
Proof. unfold words, SPACE. rewrite cut_app, filter_app. reflexivity. Qed.
Lemma words_nil : words [] = [].
Proof. reflexivity. Qed.
Lemma clean_no t : Forall clean t -> ~ In 32 t /\ ~ In 10 t.
Proof. intros F. rewrite Forall_forall in F. split; intros I; apply F in I; unfold clean in I; lia. Qed.
Lemma words_word w : word w -> words w = [w].
Proof. intros (N & F). unfold words. rewrite cut_one by (apply clean_no in F; tauto). cbn. destruct w; [congruence|reflexivity]. Qed.
Lemma words_pad k w : word w -> words (pad k w) = [w].
Proof.
  intros W. unfold pad. induction (k - length w)%nat as [|n IH]; cbn [repeat app]; [apply words_word; auto|].
  change (SPACE :: repeat SPACE n ++ w) with ([] ++ SPACE :: repeat SPACE n ++ w). rewrite words_app, IH. reflexivity.
Qed.
Lemma no_nl_pad k w : ~ In 10 w -> ~ In 10 (pad k w).
Proof. intros N I. unfold pad in I. apply in_app_iff in I as [I|I]; [apply repeat_spec in I; unfold SPACE in I; lia|tauto]. Qed.

(** ** numbers *)
Lemma chars_clean l : digs l -> Forall clean (chars l).
Proof. intros D. unfold chars. rewrite Forall_map. eapply Forall_impl; [|exact D]. intros a A. unfold clean. cbn in A. lia. Qed.
Lemma dec_ne f n : (0 < f)%nat -> dec_digits f n <> [].
Proof. destruct f; [lia|]. intros _. cbn. destruct (n <? 10); [discriminate|]. destruct (dec_digits f (n / 10)); discriminate. Qed.
Lemma dec_value f n : 0 <= n < 10 ^ Z.of_nat f -> value (dec_digits f n) = n.
Proof.
  revert n. induction f as [|f IH]; intros n H; [cbn in *; lia|]. cbn [dec_digits]. destruct (Z.ltb_spec n 10); [reflexivity|].
  rewrite value_snoc, IH; [pose proof (Z.div_mod n 10); lia|]. rewrite Nat2Z.inj_succ, Z.pow_succ_r in H by lia. split; [apply Z.div_pos; lia|apply Z.div_lt_upper_bound; lia].
Qed.
Lemma dec_digs f n : 0 <= n -> digs (dec_digits f n).
Proof. intros H. pose proof (dec_digits_range f n H) as F. eapply Forall_impl; [|exact F]. cbn. intros; lia. Qed.
Lemma read_nat_dec n : 0 <= n < 10 ^ 20 -> read_nat (chars (dec_digits 20 n)) = Some n.
Proof.
  intros H. unfold read_nat. rewrite <- (app_nil_r (chars _)), take_chars by (auto; apply dec_digs; lia).
  pose proof (dec_value 20 n H). pose proof (dec_ne 20 n ltac:(lia)). destruct (dec_digits 20 n); [congruence|]. congruence.
Qed.
Lemma to_string_word x : word (to_string x).
Proof.
  unfold to_string. assert (D : forall n, 0 <= n -> word (chars (dec_digits 20 n))).
  { intros n N. split; [|apply chars_clean, dec_digs; auto]. pose proof (dec_ne 20 n ltac:(lia)). unfold chars. destruct (dec_digits 20 n); [congruence|discriminate]. }
  destruct (Z.ltb_spec x 0).
  - destruct (D (- x) ltac:(lia)) as (_ & F). split; [discriminate|]. constructor; [unfold clean; lia|exact F].
  - apply D. lia.
Qed.
Lemma read_nat_to_string x : 0 <= x < 10 ^ 20 -> read_nat (to_string x) = Some x.
Proof. intros H. unfold to_string. destruct (Z.ltb_spec x 0); [lia|]. apply read_nat_dec; auto. Qed.
Lemma read_int_to_string x : - 10 ^ 20 < x < 10 ^ 20 -> read_int (to_string x) = Some x.
Proof.
  intros H. unfold to_string. destruct (Z.ltb_spec x 0).
  - unfold read_int. fold (chars (dec_digits 20 (- x))). rewrite read_nat_dec by lia. f_equal. lia.
  - fold (chars (dec_digits 20 x)). pose proof (read_nat_dec x ltac:(lia)) as R. pose proof (dec_digs 20 x ltac:(lia)) as D.
    destruct (dec_digits 20 x) as [|d l]; [cbn in R; discriminate|]. inversion D as [|? ? D1 D2]; subst. unfold read_int. change (chars (d :: l)) with (48 + d :: chars l) in *.
    destruct (48 + d) as [|q|q] eqn:E; try lia. repeat (destruct q; try (exact R); try lia).
Qed.
Lemma fraction_clean l : digs l -> Forall clean (fraction l).
Proof. intros D. unfold fraction. pose proof (strip_digs l D). destruct (strip l); [constructor|]. constructor; [unfold clean; lia|]. apply chars_clean. auto. Qed.
Lemma app_ne A (a b : list A) : a <> [] -> a ++ b <> [].
Proof. destruct a; [congruence|discriminate]. Qed.
Lemma printf_g_word P bits : 1 <= P -> word (printf_g P bits).
Proof.
  intros HP. assert (MINUS : forall s : bool, Forall clean (if s then [45] else [])) by (intros []; repeat constructor; unfold clean; lia).
  unfold printf_g. destruct (double_of bits) as [((neg & n) & d)|].
  - assert (W : word (if n =? 0 then [48] else g_positive P n d)).
    { destruct (n =? 0); [split; [discriminate|repeat constructor; unfold clean; lia]|]. unfold g_positive. destruct (significant P n d) as (q, x).
      set (ds := digits_n (Z.to_nat P) q). assert (D : digs ds) by apply digits_digs. assert (L : length ds = Z.to_nat P) by apply digits_len.
      destruct ((x <? -4) || (P <=? x)).
      - split.
        + apply app_ne. destruct ds; [cbn in L; lia|discriminate].
        + apply Forall_app; split; [apply chars_clean, firstn_digs; auto|]. apply Forall_app; split; [apply fraction_clean, skipn_digs; auto|].
          unfold exponent_text. constructor; [unfold clean; lia|]. constructor; [destruct (x <? 0); unfold clean; lia|]. destruct (Z.abs x <? 100); apply chars_clean, digits_digs.
      - destruct (Z.leb_spec 0 x).
        + split; [|apply Forall_app; split; [apply chars_clean, firstn_digs; auto|apply fraction_clean, skipn_digs; auto]].
          apply app_ne. destruct ds; [cbn in L; lia|]. destruct (Z.to_nat (x + 1)) eqn:E; [lia|discriminate].
        + split; [discriminate|]. constructor; [unfold clean; lia|]. apply fraction_clean. apply Forall_app; split; auto. apply Forall_forall. intros y Y. apply repeat_spec in Y. subst. cbn. lia. }
    destruct W as (W1 & W2). split; [intros E; apply app_eq_nil in E; tauto|apply Forall_app; auto].
  - split; [intros E; apply app_eq_nil in E as (_ & E); destruct (_ =? 0); discriminate|]. apply Forall_app; split; auto. destruct (_ =? 0); repeat constructor; unfold clean; lia.
Qed.
Lemma f_positive_word P n d : word (f_positive P n d).
Proof.
  unfold f_positive. set (q := round_even _ _). split.
  - apply app_ne. set (k := Z.to_nat _). assert (K : (0 < k)%nat) by (unfold k; lia). pose proof (digits_len k (q / 10 ^ P)) as L. intros E. unfold chars in E. apply map_eq_nil in E. rewrite E in L. cbn in L. lia.
  - apply Forall_app; split; [apply chars_clean, digits_digs|]. constructor; [unfold clean; lia|]. apply chars_clean, digits_digs.
Qed.
Lemma printf_f_word P bits : 1 <= P -> word (printf_f P bits).
Proof.
  intros HP. unfold printf_f. destruct (double_of bits) as [((neg & n) & d)|] eqn:E.
  - destruct (f_positive_word P n d) as (W1 & W2). split; [intros X; apply app_eq_nil in X; tauto|]. apply Forall_app; split; auto. destruct neg; repeat constructor; unfold clean; lia.
  - apply printf_g_word; auto.
Qed.
(** the number with P decimals *)
Lemma digits_mod k n : digits_n k n = digits_n k (n mod 10 ^ Z.of_nat k).
Proof.
  revert n. induction k as [|k IH]; intros n; [reflexivity|]. cbn [digits_n]. rewrite (IH (n / 10)), (IH (n mod _ / 10)).
  rewrite Nat2Z.inj_succ, Z.pow_succ_r by lia. assert (0 < 10 ^ Z.of_nat k) by (apply Z.pow_pos_nonneg; lia). rewrite Z.rem_mul_r by lia. f_equal.
  - f_equal. rewrite Z.add_comm, Z.mul_comm, Z.div_add_l by lia. rewrite (Z.div_small (n mod 10)) by (apply Z.mod_pos_bound; lia). rewrite Z.add_0_r, Z.mod_mod by lia. reflexivity.
  - f_equal. rewrite Z.add_comm, Z.mul_comm, Z.add_comm, Z.mod_add by lia. rewrite Z.mod_mod; lia.
Qed.
Lemma f_reads P n d : 1 <= P -> 0 <= n -> 0 < d ->
  read_unsigned (f_positive P n d) = Some (round_even (n * 10 ^ P) d, - P).
Proof.
  intros HP N D. unfold f_positive. set (q := round_even _ _). assert (T : 0 < 10 ^ P) by (apply Z.pow_pos_nonneg; lia).
  assert (Q : 0 <= q).
  { unfold q, round_even. assert (0 <= n * 10 ^ P / d) by (apply Z.div_pos; nia). repeat destruct (_ <? _); try lia. destruct (Z.even _); lia. }
  set (ip := q / 10 ^ P). assert (I : 0 <= ip) by (apply Z.div_pos; lia). set (a := digits_n (Z.to_nat (Z.max 1 (ndig ip))) ip). set (b := digits_n (Z.to_nat P) q).
  assert (VA : value a = ip).
  { unfold a. apply digits_value. rewrite Z2Nat.id by lia. split; auto. destruct (Z.eq_dec ip 0) as [->|]; [apply Z.pow_pos_nonneg; lia|].
    destruct (ndig_spec ip ltac:(lia)) as (K & _ & B). eapply Z.lt_le_trans; [exact B|]. apply Z.pow_le_mono_r; lia. }
  assert (VB : value b = q mod 10 ^ P).
  { unfold b. rewrite digits_mod, digits_value; rewrite Z2Nat.id by lia; auto. apply Z.mod_pos_bound; auto. }
  assert (LB : length b = Z.to_nat P) by apply digits_len. assert (LA : length a = Z.to_nat (Z.max 1 (ndig ip))) by apply digits_len.
  unfold read_unsigned. rewrite take_chars; [|apply digits_digs|reflexivity]. rewrite <- (app_nil_r (chars b)), take_chars by (auto; apply digits_digs).
  destruct a as [|a0 a'] eqn:EA; [cbn in LA; lia|]. rewrite <- EA in *. rewrite value_app, VA, VB, LB, Z2Nat.id by lia. f_equal. f_equal.
  unfold ip. pose proof (Z.div_mod q (10 ^ P)). lia.
Qed.
Lemma f_head P n d : hd 0 (f_positive P n d) <> 45.
Proof.
  unfold f_positive. set (q := round_even _ _). set (k := Z.to_nat _). assert (K : (0 < k)%nat) by (unfold k; lia). pose proof (digits_len k (q / 10 ^ P)) as L. pose proof (digits_digs k (q / 10 ^ P)) as D.
  destruct (digits_n k _) as [|c l]; [cbn in L; lia|]. inversion D as [|? ? D1 D2]; subst. cbn [chars map app hd]. lia.
Qed.
Lemma printed_decimals P bits : 1 <= P -> 0 <= bits < 2 ^ 64 -> decimals P bits (printf_f P bits).
Proof.
  intros HP B v V. unfold double_value in V. unfold printf_f, within. destruct (double_of bits) as [((neg & n) & d)|] eqn:E; [|discriminate]. injection V as <-.
  destruct (double_bounds bits neg n d B E) as (N0 & D0 & _). pose proof (f_reads P n d HP N0 D0) as R. set (q := round_even _ _) in *.
  assert (ER : (Rabs (dec (q, (- P)%Z) - IZR n / IZR d) <= 1 / 2 * powerRZ 10 (- P))%R).
  { pose proof (round_even_spec (n * 10 ^ P) d D0) as S. fold q in S. unfold dec. cbn [fst snd]. pose proof (ten_pos (- P)) as T. pose proof (ten_opp P) as TO. assert (D' : (0 < IZR d)%R) by (apply IZR_lt; auto).
    replace (IZR q * powerRZ 10 (- P) - IZR n / IZR d)%R with ((IZR q - IZR (n * 10 ^ P) / IZR d) * powerRZ 10 (- P))%R.
    - rewrite Rabs_mult, (Rabs_right (powerRZ 10 (- P))) by lra. apply Rmult_le_compat_r; lra.
    - rewrite mult_IZR, <- ten_Z by lia. transitivity (IZR q * powerRZ 10 (- P) - IZR n / IZR d * (powerRZ 10 (- P) * powerRZ 10 P))%R; [field; lra|rewrite TO; ring]. }
  pose proof (f_head P n d) as H. destruct neg; cbn [app].
  - exists (- q, - P). split.
    + unfold read_decimal. rewrite R. reflexivity.
    + unfold dec in *. cbn [fst snd] in *. rewrite opp_IZR. replace (- IZR q * powerRZ 10 (- P) - -1 * (IZR n / IZR d))%R with (- (IZR q * powerRZ 10 (- P) - IZR n / IZR d))%R by ring. rewrite Rabs_Ropp. exact ER.
  - exists (q, - P). split; [|rewrite Rmult_1_l; exact ER]. unfold read_decimal. destruct (f_positive P n d) as [|c l]; [exact R|]. cbn [hd] in H.
    destruct c as [|c|c]; try exact R. repeat (destruct c; try exact R). congruence.
Qed.
