(** Lemmas for ShaProps.v: macros, compression, buffering. *)
From Coq Require Import ZArith List Bool Lia.
Import ListNotations.
From Verif Require Import Base ShaModel ShaSpec.
Open Scope Z_scope.

(** * Words *)
Lemma word_mod x : word (x mod 2 ^ 32).
Proof. apply Z.mod_pos_bound. reflexivity. Qed.
Lemma word_0 : word 0. Proof. unfold word. lia. Qed.
Lemma word_high x n : word x -> 32 <= n -> Z.testbit x n = false.
Proof. intros (A & B) H. destruct (Z.eq_dec x 0) as [-> | D]; [apply Z.testbit_0_l|]. apply Z.bits_above_log2; [lia|]. assert (Z.log2 x < 32) by (apply Z.log2_lt_pow2; lia). lia. Qed.
Lemma lor_add a b k : 0 <= k -> 0 <= b < 2 ^ k -> Z.lor (a * 2 ^ k) b = a * 2 ^ k + b.
Proof.
  intros Hk Hb. assert (L : Z.land (a * 2 ^ k) b = 0).
  { apply Z.bits_inj'. intros n Hn. rewrite Z.land_spec, Z.testbit_0_l. destruct (Z_lt_le_dec n k).
    - rewrite Z.mul_pow2_bits_low by lia. reflexivity.
    - assert (X : Z.testbit b n = false); [|rewrite X; apply andb_false_r].
      destruct (Z.eq_dec b 0) as [-> | D]; [apply Z.testbit_0_l|]. apply Z.bits_above_log2; [lia|].
      assert (Z.log2 b < k) by (apply Z.log2_lt_pow2; lia). lia. }
  rewrite Z.add_nocarry_lxor by exact L. apply Z.bits_inj'. intros n Hn. rewrite Z.lor_spec, Z.lxor_spec.
  assert (Q : Z.testbit (Z.land (a * 2 ^ k) b) n = false) by (rewrite L; apply Z.testbit_0_l). rewrite Z.land_spec in Q.
  destruct (Z.testbit (a * 2 ^ k) n), (Z.testbit b n); try discriminate; reflexivity.
Qed.

Lemma ror_spec x n : word x -> 0 < n < 32 -> ror x n = ROTR n x.
Proof.
  intros (A & B) H. unfold ror, ROTR, u32. rewrite Z.shiftr_div_pow2, Z.shiftl_mul_pow2 by lia.
  assert (E : x * 2 ^ (32 - n) mod 2 ^ 32 = (x mod 2 ^ n) * 2 ^ (32 - n)).
  { replace (2 ^ 32) with (2 ^ n * 2 ^ (32 - n)) by (rewrite <- Z.pow_add_r by lia; f_equal; lia).
    apply Z.mul_mod_distr_r; apply Z.pow_nonzero; lia. }
  rewrite E, Z.lor_comm, lor_add; [lia | lia |].
  split; [apply Z.div_pos; lia|]. apply Z.div_lt_upper_bound; [lia|]. rewrite <- Z.pow_add_r by lia. replace (n + (32 - n)) with 32 by lia. lia.
Qed.
Lemma shr_spec x n : word x -> 0 <= n -> shr x n = SHR n x.
Proof.
  intros (A & B) H. unfold shr, SHR. change 0xFFFFFFFF with (Z.ones 32). rewrite Z.land_ones, Z.mod_small by lia. apply Z.shiftr_div_pow2. lia.
Qed.
Lemma not_bits x n : word x -> 0 <= n < 32 -> Z.testbit (Not x) n = negb (Z.testbit x n).
Proof.
  intros W H. unfold Not. replace (2 ^ 32 - 1 - x) with (Z.lnot x + 1 * 2 ^ 32) by (unfold Z.lnot; lia).
  rewrite <- (Z.mod_pow2_bits_low _ 32 n) by lia. rewrite Z_mod_plus_full, Z.mod_pow2_bits_low by lia. apply Z.lnot_spec. lia.
Qed.
Lemma ch_spec x y z : word x -> word y -> word z -> ch x y z = Ch x y z.
Proof.
  intros X Y W. unfold ch, Ch. apply Z.bits_inj'. intros n Hn. repeat rewrite ?Z.lxor_spec, ?Z.land_spec.
  destruct (Z_lt_le_dec n 32).
  - rewrite not_bits by (auto; lia). destruct (Z.testbit x n), (Z.testbit y n), (Z.testbit z n); reflexivity.
  - rewrite !word_high by auto. rewrite !andb_false_r. reflexivity.
Qed.
Lemma maj_spec x y z : maj x y z = Maj x y z.
Proof.
  unfold maj, Maj. apply Z.bits_inj'. intros n Hn. repeat rewrite ?Z.lor_spec, ?Z.lxor_spec, ?Z.land_spec.
  destruct (Z.testbit x n), (Z.testbit y n), (Z.testbit z n); reflexivity.
Qed.
Lemma big_sigma0_spec x : word x -> big_sigma0 x = Sigma0 x.
Proof. intros. unfold big_sigma0, Sigma0. rewrite !ror_spec by (auto; lia). reflexivity. Qed.
Lemma big_sigma1_spec x : word x -> big_sigma1 x = Sigma1 x.
Proof. intros. unfold big_sigma1, Sigma1. rewrite !ror_spec by (auto; lia). reflexivity. Qed.
Lemma gamma0_spec x : word x -> gamma0 x = sigma0 x.
Proof. intros. unfold gamma0, sigma0. rewrite !ror_spec, shr_spec by (auto; lia). reflexivity. Qed.
Lemma gamma1_spec x : word x -> gamma1 x = sigma1 x.
Proof. intros. unfold gamma1, sigma1. rewrite !ror_spec, shr_spec by (auto; lia). reflexivity. Qed.

Lemma add32_3 a b c : add32 (add32 a b) c = u32 (a + b + c).
Proof. unfold add32, u32. apply Zplus_mod_idemp_l. Qed.
Lemma add32_4 a b c d : add32 (add32 (add32 a b) c) d = u32 (a + b + c + d).
Proof. rewrite (add32_3 a b c). unfold add32, u32. apply Zplus_mod_idemp_l. Qed.
Lemma add32_5 a b c d e : add32 (add32 (add32 (add32 a b) c) d) e = u32 (a + b + c + d + e).
Proof. rewrite (add32_4 a b c d). unfold add32, u32. apply Zplus_mod_idemp_l. Qed.

(** * Bytes *)
Lemma land255 x : Z.land x 255 = x mod 2 ^ 8.
Proof. change 255 with (Z.ones 8). apply Z.land_ones. lia. Qed.
Lemma store32h_spec x : store32h x = be 4 x.
Proof. unfold store32h. rewrite !land255, !Z.shiftr_div_pow2 by lia. cbn [be]. change (2 ^ (8 * Z.of_nat 0)) with 1. rewrite Z.div_1_r. reflexivity. Qed.
Lemma store64h_spec x : store64h x = be 8 x.
Proof. unfold store64h. rewrite !land255, !Z.shiftr_div_pow2 by lia. cbn [be]. change (2 ^ (8 * Z.of_nat 0)) with 1. rewrite Z.div_1_r. reflexivity. Qed.
Lemma nth_byte b i : Forall byte b -> byte (nth i b 0).
Proof. intros F. destruct (nth_in_or_default i b 0) as [I | ->]; [rewrite Forall_forall in F; auto | unfold byte; lia]. Qed.
Lemma nth_word b i : Forall word b -> word (nth i b 0).
Proof. intros F. destruct (nth_in_or_default i b 0) as [I | ->]; [rewrite Forall_forall in F; auto | apply word_0]. Qed.
Lemma load32h_spec b i : Forall byte b -> load32h b (4 * i) = word_of b i.
Proof.
  intros F. unfold load32h, word_of.
  pose proof (nth_byte b (4 * i) F) as B0. pose proof (nth_byte b (4 * i + 1) F) as B1.
  pose proof (nth_byte b (4 * i + 2) F) as B2. pose proof (nth_byte b (4 * i + 3) F) as B3.
  unfold byte in *. rewrite !land255, !Z.mod_small by lia. rewrite !Z.shiftl_mul_pow2 by lia.
  set (x := nth (4 * i) b 0) in *. set (y := nth (4 * i + 1) b 0) in *. set (z := nth (4 * i + 2) b 0) in *. set (t := nth (4 * i + 3) b 0) in *.
  rewrite (lor_add x) by lia.
  replace (x * 2 ^ 24 + y * 2 ^ 16) with ((x * 2 ^ 8 + y) * 2 ^ 16) by lia. rewrite lor_add by lia.
  replace ((x * 2 ^ 8 + y) * 2 ^ 16 + z * 2 ^ 8) with ((x * 2 ^ 16 + y * 2 ^ 8 + z) * 2 ^ 8) by lia. rewrite lor_add by lia. lia.
Qed.
Lemma word_of_word b i : Forall byte b -> word (word_of b i).
Proof.
  intros F. unfold word_of. pose proof (nth_byte b (4 * i) F). pose proof (nth_byte b (4 * i + 1) F).
  pose proof (nth_byte b (4 * i + 2) F). pose proof (nth_byte b (4 * i + 3) F). unfold byte, word in *. lia.
Qed.
Lemma nth_firstn {A} (l : list A) n i d : (i < n)%nat -> nth i (firstn n l) d = nth i l d.
Proof. revert n l. induction i; intros [|n] [|x l] H; cbn; auto; try lia. apply IHi. lia. Qed.

(** * Message schedule *)
Lemma firstn_upd {A} (l : list A) i x : (i < length l)%nat -> firstn (S i) (upd i x l) = firstn i l ++ [x].
Proof. revert i. induction l as [|a l IH]; intros [|i] H; cbn in *; try lia; auto. rewrite <- IH by lia. reflexivity. Qed.
Lemma firstn_upd_lt {A} (l : list A) i x n : (n <= i)%nat -> firstn n (upd i x l) = firstn n l.
Proof. revert i n. induction l as [|a l IH]; intros [|i] [|n] H; cbn; auto; try lia. f_equal. apply IH. lia. Qed.
Lemma load_loop b k : (k <= 64)%nat -> forall W, length W = 64%nat ->
  let W' := fold_left (fun W i => upd i (load32h b (4 * i)) W) (seq 0 k) W in
  length W' = 64%nat /\ firstn k W' = map (fun i => load32h b (4 * i)) (seq 0 k).
Proof.
  intros Hk W L. induction k as [|k IH]; [split; auto|]. rewrite seq_S, fold_left_app, map_app. cbn [fold_left map Nat.add].
  destruct (IH ltac:(lia)) as (A & B). cbv zeta in *. split; [rewrite upd_length; auto|]. rewrite firstn_upd by lia. rewrite B. reflexivity.
Qed.
Lemma iter_extend_length l k : length (Nat.iter k extend l) = (k + length l)%nat.
Proof. induction k; cbn [Nat.iter nat_rect]; auto. unfold extend at 1. rewrite app_length. cbn. unfold Nat.iter in IHk. lia. Qed.
Lemma iter_extend_word l k : Forall word l -> Forall word (Nat.iter k extend l).
Proof.
  intros F. induction k; [exact F|]. change (Nat.iter (S k) extend l) with (extend (Nat.iter k extend l)).
  unfold extend at 1. apply Forall_app. split; auto. constructor; auto. apply word_mod.
Qed.
Lemma fill_loop k : (k <= 48)%nat -> forall W, length W = 64%nat -> Forall word (firstn 16 W) ->
  let W' := fold_left fill (seq 16 k) W in
  length W' = 64%nat /\ firstn (16 + k) W' = Nat.iter k extend (firstn 16 W).
Proof.
  intros Hk W L F. induction k as [|k IH]; [split; auto|]. rewrite seq_S, fold_left_app. cbn [fold_left].
  destruct (IH ltac:(lia)) as (A & B). cbv zeta in *. set (V := fold_left fill (seq 16 k) W) in *.
  change (Nat.iter (S k) extend (firstn 16 W)) with (extend (Nat.iter k extend (firstn 16 W))). rewrite <- B.
  unfold fill. split; [rewrite upd_length; auto|]. rewrite <- plus_n_Sm, firstn_upd by lia. unfold extend.
  assert (LV : length (firstn (16 + k) V) = (16 + k)%nat) by (rewrite firstn_length; lia). rewrite LV.
  assert (FV : Forall word (firstn (16 + k) V)) by (rewrite B; apply iter_extend_word; auto).
  f_equal. f_equal. rewrite !nth_firstn by lia.
  assert (N : forall i, (i < 16 + k)%nat -> word (nth i V 0)) by (intros i Hi; rewrite <- (nth_firstn V (16 + k) i) by lia; apply nth_word; auto).
  rewrite gamma0_spec, gamma1_spec by (apply N; lia). rewrite add32_4. reflexivity.
Qed.
Lemma schedule_spec b : Forall byte b ->
  fold_left fill (seq 16 48) (fold_left (fun W i => upd i (load32h b (4 * i)) W) (seq 0 16) (repeat 0 64)) = schedule (firstn 64 b).
Proof.
  intros F. destruct (load_loop b 16 ltac:(lia) (repeat 0 64) (repeat_length 0 64)) as (L & M). cbv zeta in *.
  set (W := fold_left _ (seq 0 16) _) in *.
  assert (Q : firstn 16 W = words (firstn 64 b)).
  { rewrite M. unfold words. apply map_ext_in. intros i I. apply in_seq in I. rewrite load32h_spec by auto. unfold word_of. rewrite !nth_firstn by lia. reflexivity. }
  assert (FW : Forall word (firstn 16 W)).
  { rewrite M. apply Forall_forall. intros x I. apply in_map_iff in I. destruct I as (i & <- & _). rewrite load32h_spec by auto. apply word_of_word. auto. }
  destruct (fill_loop 48 ltac:(lia) W L FW) as (L' & M'). cbv zeta in *. rewrite Q in M'. unfold schedule. rewrite <- M'.
  symmetry. apply firstn_all2. change (16 + 48)%nat with 64%nat. rewrite L'. lia.
Qed.
Lemma schedule_word b : Forall byte b -> Forall word (schedule b).
Proof.
  intros F. apply iter_extend_word. apply Forall_forall. intros x I. apply in_map_iff in I. destruct I as (i & <- & _). apply word_of_word. auto.
Qed.

(** * Compression *)
Definition tup := (Z * Z * Z * Z * Z * Z * Z * Z)%type.
Definition to_list (v : tup) : list Z := let '(a, b, c, d, e, f, g, h) := v in [a; b; c; d; e; f; g; h].
Definition wordy (v : tup) : Prop := Forall word (to_list v).
Lemma round_spec W v i : wordy v -> round W (to_list v) i = to_list (step K W v i) /\ wordy (step K W v i).
Proof.
  destruct v as [[[[[[[a b] c] d] e] f] g] h]. unfold wordy. cbn [to_list]. intros F.
  repeat match goal with H : Forall _ (_ :: _) |- _ => inversion H; clear H; subst end.
  unfold step. rewrite (add32_5 h (Sigma1 e) (Ch e f g) (nth i K 0) (nth i W 0)). unfold round. cbn [nth upd]. rewrite big_sigma0_spec, big_sigma1_spec, ch_spec, maj_spec by auto.
  cbn [to_list]. split.
  - reflexivity.
  - repeat (apply Forall_cons; [first [assumption | apply word_mod]|]); apply Forall_nil.
Qed.
Lemma rounds_spec W l : forall v, wordy v -> fold_left (round W) l (to_list v) = to_list (fold_left (step K W) l v) /\ wordy (fold_left (step K W) l v).
Proof. induction l as [|i l IH]; intros v H; [auto|]. cbn [fold_left]. destruct (round_spec W v i H) as (-> & H'). auto. Qed.

Definition hash_value (H : list Z) : Prop := length H = 8%nat /\ Forall word H.
Lemma transform_spec H b : hash_value H -> Forall byte b ->
  transform H b = compress K H (firstn 64 b) /\ hash_value (compress K H (firstn 64 b)).
Proof.
  intros (L & F) B. do 8 (destruct H as [|? H]; [discriminate|]). destruct H; [|discriminate].
  unfold transform. rewrite schedule_spec by auto. unfold compress. cbn [nth].
  set (v := (z, z0, z1, z2, z3, z4, z5, z6)). destruct (rounds_spec (schedule (firstn 64 b)) (seq 0 64) v F) as (E & Wv).
  change (fold_left (round (schedule (firstn 64 b))) (seq 0 64) [z; z0; z1; z2; z3; z4; z5; z6]) with (fold_left (round (schedule (firstn 64 b))) (seq 0 64) (to_list v)).
  rewrite E. clear E.
  assert (X : forall w : tup,
    fold_left (fun st i => upd i (u32 (nth i st 0 + nth i (to_list w) 0)) st) (seq 0 8) [z; z0; z1; z2; z3; z4; z5; z6] =
    (let '(a', b', c', d', e', f', g', h') := w in
     [add32 a' z; add32 b' z0; add32 c' z1; add32 d' z2; add32 e' z3; add32 f' z4; add32 g' z5; add32 h' z6]) /\
    hash_value (let '(a', b', c', d', e', f', g', h') := w in
     [add32 a' z; add32 b' z0; add32 c' z1; add32 d' z2; add32 e' z3; add32 f' z4; add32 g' z5; add32 h' z6])).
  { intros [[[[[[[a1 b1] c1] d1] e1] f1] g1] h1]. cbn [to_list seq fold_left nth upd]. unfold u32, add32. split.
    - rewrite (Z.add_comm z a1), (Z.add_comm z0 b1), (Z.add_comm z1 c1), (Z.add_comm z2 d1), (Z.add_comm z3 e1), (Z.add_comm z4 f1), (Z.add_comm z5 g1), (Z.add_comm z6 h1). reflexivity.
    - split; [reflexivity|]. repeat (apply Forall_cons; [apply word_mod|]); apply Forall_nil. }
  apply X.
Qed.
