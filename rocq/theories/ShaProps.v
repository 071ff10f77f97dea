(** SHA-256: properties C31 and C32. *)
From Coq Require Import String Ascii ZArith List Bool Lia.
Import ListNotations.
From Verif Require Import Base ShaModel ShaSpec ShaProofs.
Local Open Scope list_scope.
Open Scope Z_scope.

(** ** The constants *)
Lemma root_unique e n r s : 0 < e -> 0 <= r -> 0 <= s ->
  r ^ e <= n < (r + 1) ^ e -> s ^ e <= n < (s + 1) ^ e -> r = s.
Proof.
  intros He Hr Hs (A & B) (C & D).
  assert (forall a b, 0 <= a -> 0 <= b -> a ^ e <= n -> n < (b + 1) ^ e -> a <= b).
  { intros a b Ha Hb X Y. destruct (Z_le_gt_dec a b); auto. exfalso.
    assert ((b + 1) ^ e <= a ^ e) by (apply Z.pow_le_mono_l; lia). lia. }
  apply Z.le_antisymm; auto.
Qed.
Lemma first_bits_unique e p k k' : 0 < e -> first_bits e p k -> first_bits e p k' -> k = k'.
Proof.
  intros He (_ & r & Hr & -> & R) (_ & s & Hs & -> & S). rewrite (root_unique e _ r s He Hr Hs R S). reflexivity.
Qed.
Lemma forall2_unique e ps : 0 < e -> forall l l', Forall2 (first_bits e) ps l -> Forall2 (first_bits e) ps l' -> l = l'.
Proof.
  intros He. induction ps as [|p ps IH]; intros l l' A B; inversion A; inversion B; subst; auto.
  f_equal; [eapply first_bits_unique; eauto | auto].
Qed.
(** integer e-th root by bisection, to find the witnesses *)
Fixpoint bisect (fuel : nat) (e n lo hi : Z) : Z :=
  match fuel with
  | O => lo
  | S f => let m := (lo + hi) / 2 in if m ^ e <=? n then bisect f e n m hi else bisect f e n lo m
  end.
Definition bits_ok (e p k : Z) : bool :=
  let r := bisect 70 e (p * 2 ^ (32 * e)) 0 (2 ^ 40) in
  (0 <=? k) && (k <? 2 ^ 32) && (0 <=? r) && (k =? r mod 2 ^ 32) && (r ^ e <=? p * 2 ^ (32 * e)) && (p * 2 ^ (32 * e) <? (r + 1) ^ e).
Lemma bits_ok_spec e p k : bits_ok e p k = true -> first_bits e p k.
Proof.
  unfold bits_ok. set (r := bisect 70 _ _ _ _). intros H. rewrite !andb_true_iff in H. destruct H as (((((A & B) & C) & D) & E) & F).
  split; [lia|]. exists r. lia.
Qed.
Fixpoint all2 (f : Z -> Z -> bool) (l m : list Z) : bool :=
  match l, m with [], [] => true | a :: l, b :: m => f a b && all2 f l m | _, _ => false end.
Lemma all2_spec f (P : Z -> Z -> Prop) : (forall a b, f a b = true -> P a b) -> forall l m, all2 f l m = true -> Forall2 P l m.
Proof.
  intros H. induction l as [|a l IH]; intros [|b m] E; cbn in E; try discriminate; [constructor|].
  apply andb_true_iff in E. destruct E. constructor; auto.
Qed.
(** The tables in the source are those of the standard. *)
Theorem constants_are_standard :
  length primes = 64%nat /\ Forall2 (first_bits 3) primes K /\ Forall2 (first_bits 2) (firstn 8 primes) initial_state.
Proof.
  split; [vm_compute; reflexivity|]. split.
  - apply (all2_spec (bits_ok 3)); [apply bits_ok_spec | vm_compute; reflexivity].
  - apply (all2_spec (bits_ok 2)); [apply bits_ok_spec | vm_compute; reflexivity].
Qed.
Print Assumptions constants_are_standard.

(** ** Feeding data *)
Lemma blocks_app a b q r : length a = (64 * q)%nat -> blocks (q + r) (a ++ b) = blocks q a ++ blocks r b.
Proof.
  revert a. induction q as [|q IH]; intros a L.
  - destruct a; [reflexivity | cbn in L; lia].
  - cbn [Nat.add blocks List.app].
    assert (X : length (skipn 64 a) = (64 * q)%nat) by (rewrite skipn_length; lia).
    rewrite firstn_app, skipn_app. replace (64 - length a)%nat with 0%nat by lia. rewrite app_nil_r. cbn [skipn]. rewrite IH by auto. reflexivity.
Qed.
Definition digest_after (q : nat) (a : list Z) : list Z := fold_left (compress K) (blocks q a) initial_state.
(** what the context holds after the message [m] was fed *)
Definition fed (c : ctx) (m : list Z) : Prop :=
  Forall byte m /\ length (buf c) = 64%nat /\
  exists q a r, m = a ++ r /\ length a = (64 * q)%nat /\ length r = curlen c /\ (curlen c < 64)%nat /\
    firstn (curlen c) (buf c) = r /\ state_ c = digest_after q a /\ length_ c = u64 (512 * Z.of_nat q).

Lemma initial_hash_value : hash_value initial_state.
Proof. split; [reflexivity|]. unfold initial_state, word. repeat (apply Forall_cons; [unfold word; lia|]). apply Forall_nil. Qed.
Lemma Forall_firstn' {A} (P : A -> Prop) n l : Forall P l -> Forall P (firstn n l).
Proof. intros F. rewrite Forall_forall in *. intros x I. apply F. rewrite <- (firstn_skipn n l). apply in_or_app. auto. Qed.
Lemma Forall_skipn' {A} (P : A -> Prop) n l : Forall P l -> Forall P (skipn n l).
Proof. intros F. rewrite Forall_forall in *. intros x I. apply F. rewrite <- (firstn_skipn n l). apply in_or_app. auto. Qed.
Lemma schedule_first b : schedule (firstn 64 b) = schedule b.
Proof.
  unfold schedule. f_equal. unfold words. apply map_ext_in. intros i I. apply in_seq in I. unfold word_of.
  rewrite !nth_firstn by lia. reflexivity.
Qed.
Lemma compress_first Kc H b : compress Kc H (firstn 64 b) = compress Kc H b.
Proof. unfold compress. rewrite schedule_first. reflexivity. Qed.
Lemma fold_cons {A B} (f : A -> B -> A) x l a : fold_left f (x :: l) a = fold_left f l (f a x).
Proof. reflexivity. Qed.
#[local] Opaque compress transform.
Lemma fold_hash_value bs : (forall b, In b bs -> Forall byte b) -> forall H, hash_value H -> hash_value (fold_left (compress K) bs H).
Proof.
  induction bs as [|b bs IH]; intros F H HV; [exact HV|]. rewrite fold_cons. apply IH; [intros; apply F; right; auto|].
  destruct (transform_spec H b HV (F b (or_introl eq_refl))) as (_ & X).
  rewrite compress_first in X. exact X.
Qed.
Lemma blocks_bytes q : forall l, Forall byte l -> forall b, In b (blocks q l) -> Forall byte b.
Proof.
  induction q as [|q IH]; intros l F b I; cbn [blocks] in I; [destruct I|]. destruct I as [<- | I].
  - apply Forall_firstn'. exact F.
  - exact (IH _ (Forall_skipn' _ _ _ F) b I).
Qed.
Lemma digest_hash_value q a : Forall byte a -> hash_value (digest_after q a).
Proof. intros F. apply fold_hash_value; [apply blocks_bytes; auto | apply initial_hash_value]. Qed.
(** one more block *)
Lemma digest_next q a b : length a = (64 * q)%nat -> length b = 64%nat -> Forall byte a -> Forall byte b ->
  transform (digest_after q a) b = digest_after (S q) (a ++ b).
Proof.
  intros La Lb Fa Fb. destruct (transform_spec (digest_after q a) b (digest_hash_value q a Fa) Fb) as (-> & _).
  unfold digest_after. replace (S q) with (q + 1)%nat by lia. rewrite blocks_app by auto. rewrite fold_left_app. reflexivity.
Qed.

Lemma copy_to_length pos src b : (pos + length src <= length b)%nat -> length (copy_to pos src b) = length b.
Proof. intros H. unfold copy_to. rewrite !app_length, firstn_length, skipn_length. lia. Qed.
Lemma firstn_copy_to pos src b : (pos + length src <= length b)%nat -> firstn (pos + length src) (copy_to pos src b) = firstn pos b ++ src.
Proof.
  intros H. unfold copy_to. rewrite app_assoc. rewrite firstn_app.
  rewrite firstn_all2 by (rewrite app_length, firstn_length; lia).
  replace (pos + length src - length (firstn pos b ++ src))%nat with 0%nat by (rewrite app_length, firstn_length; lia).
  cbn [firstn]. apply app_nil_r.
Qed.

Lemma u64_add x y : u64 (u64 x + y) = u64 (x + y).
Proof. apply Zplus_mod_idemp_l. Qed.

Lemma update_loop_fed : forall fuel c m d, (length d < fuel)%nat -> fed c m -> Forall byte d ->
  exists c', update_loop fuel c d = Ok c' /\ fed c' (m ++ d).
Proof.
  induction fuel as [|fuel IH]; intros c m d Hf I Fd; [lia|]. destruct d as [|x d].
  { exists c. rewrite app_nil_r. auto. }
  cbn [update_loop]. set (D := x :: d) in *.
  assert (LD : (1 <= length D)%nat) by (cbn; lia).
  destruct I as (Fm & Lb & q & a & r & -> & La & Lr & C & Fr & St & Le). apply Forall_app in Fm. destruct Fm as (Fa & Frr).
  destruct ((curlen c =? 0) && (64 <=? length D))%nat eqn:B.
  - apply andb_true_iff in B. destruct B as (B1 & B2). apply Nat.eqb_eq in B1. apply Nat.leb_le in B2.
    rewrite B1 in *. destruct r; [|discriminate]. rewrite app_nil_r.
    destruct (IH (Ctx (u64 (length_ c + 64 * 8)) (transform (state_ c) D) 0 (buf c)) (a ++ firstn 64 D) (skipn 64 D)) as (c' & E & F').
    + rewrite skipn_length. lia.
    + split; [apply Forall_app; split; auto; apply Forall_firstn'; auto|]. split; [auto|].
      exists (S q), (a ++ firstn 64 D), []. cbn [curlen buf state_ length_]. rewrite app_nil_r, app_length, firstn_length.
      split; [auto|]. split; [lia|]. split; [auto|]. split; [lia|]. split; [reflexivity|]. split.
      * rewrite St. rewrite <- (digest_next q a (firstn 64 D)); auto; [|rewrite firstn_length; lia | apply Forall_firstn'; auto].
        destruct (transform_spec (digest_after q a) D (digest_hash_value q a Fa) Fd) as (-> & _).
        destruct (transform_spec (digest_after q a) (firstn 64 D) (digest_hash_value q a Fa) (Forall_firstn' _ _ _ Fd)) as (-> & _).
        rewrite firstn_firstn. reflexivity.
      * rewrite Le, u64_add. f_equal. lia.
    + apply Forall_skipn'. auto.
    + exists c'. split; auto. rewrite <- app_assoc, firstn_skipn in F'. exact F'.
  - set (n := Nat.min (length D) (64 - curlen c)). cbv zeta. cbn [curlen state_ length_].
    assert (Hn : (1 <= n /\ n <= length D /\ n <= 64 - curlen c)%nat) by lia.
    assert (Ln : length (firstn n D) = n) by (rewrite firstn_length; lia).
    assert (FB : firstn (curlen c + n) (copy_to (curlen c) (firstn n D) (buf c)) = r ++ firstn n D).
    { rewrite <- Ln at 1. rewrite firstn_copy_to by lia. rewrite Fr. reflexivity. }
    assert (LB : length (copy_to (curlen c) (firstn n D) (buf c)) = 64%nat) by (rewrite copy_to_length; lia).
    assert (M : a ++ r ++ D = ((a ++ r) ++ firstn n D) ++ skipn n D) by (rewrite <- !app_assoc, firstn_skipn; reflexivity).
    rewrite <- app_assoc, M.
    apply IH; [rewrite skipn_length; lia | | apply Forall_skipn'; auto].
    split; [repeat (apply Forall_app; split); auto; apply Forall_firstn'; auto|].
    destruct (Nat.eqb_spec (curlen c + n) 64) as [E | E]; cbn [buf curlen state_ length_]; (split; [auto|]).
    + exists (S q), (a ++ r ++ firstn n D), []. rewrite app_nil_r, <- app_assoc, !app_length.
      split; [auto|]. split; [lia|]. split; [auto|]. split; [lia|]. split; [reflexivity|]. split; [|rewrite Le, u64_add; f_equal; lia].
      rewrite St. rewrite E in FB. rewrite firstn_all2 in FB by lia. rewrite FB. apply digest_next; auto; [rewrite app_length; lia | apply Forall_app; split; auto; apply Forall_firstn'; auto].
    + exists q, a, (r ++ firstn n D). rewrite <- app_assoc, app_length. split; [auto|]. split; [auto|]. split; [lia|]. split; [lia|]. auto.
Qed.
Lemma update_fed c m d : fed c m -> Forall byte d -> exists c', update c d = Ok c' /\ fed c' (m ++ d).
Proof.
  intros I F. unfold update. pose proof I as (_ & _ & q & a & r & _ & _ & _ & C & _).
  destruct (64 <? curlen c)%nat eqn:B; [apply Nat.ltb_lt in B; lia|]. apply update_loop_fed; auto.
Qed.
Lemma reset_fed c : length (buf c) = 64%nat -> fed (reset c) [].
Proof. intros L. split; [constructor|]. split; [auto|]. exists 0%nat, [], []. cbn. repeat split; auto. lia. Qed.

(** ** Finalising *)
Lemma skipn_firstn_nil {A} n (l : list A) : skipn n (firstn n l) = [].
Proof. apply skipn_all2. rewrite firstn_length. lia. Qed.
Lemma zero_fill_spec from upto : forall b, (from <= upto <= length b)%nat ->
  length (zero_fill from upto b) = length b /\
  firstn upto (zero_fill from upto b) = firstn from b ++ repeat 0 (upto - from).
Proof.
  unfold zero_fill. intros b H. remember (upto - from)%nat as n eqn:E. revert upto E H.
  induction n as [|n IH]; intros upto E H.
  - replace upto with from by lia. cbn. rewrite app_nil_r. auto.
  - rewrite seq_S, fold_left_app. cbn [fold_left]. destruct (IH (from + n)%nat ltac:(lia) ltac:(lia)) as (L & Q).
    rewrite upd_length. split; auto. replace upto with (S (from + n)) by lia. rewrite firstn_upd by lia. rewrite Q.
    rewrite <- app_assoc. f_equal. change (repeat 0 (S n)) with (0 :: repeat 0 n). rewrite repeat_cons. reflexivity.
Qed.
Lemma byte_128 : byte 128. Proof. unfold byte. lia. Qed.
Lemma bytes_zero n : Forall byte (repeat 0 n).
Proof. apply Forall_forall. intros x I. apply repeat_spec in I. subst. unfold byte. lia. Qed.
Lemma bytes_be n x : Forall byte (be n x).
Proof. induction n; cbn [be]; constructor; auto. apply Z.mod_pos_bound. reflexivity. Qed.
Lemma be_length n x : length (be n x) = n.
Proof. induction n; cbn; auto. Qed.

Lemma digest_split q a b : length a = (64 * q)%nat -> forall n, digest_after (q + n) (a ++ b) = fold_left (compress K) (blocks n b) (digest_after q a).
Proof. intros L n. unfold digest_after. rewrite blocks_app, fold_left_app by auto. reflexivity. Qed.

Lemma firstn_S_upd_buf c r : length (buf c) = 64%nat -> (curlen c < 64)%nat -> firstn (curlen c) (buf c) = r ->
  firstn (curlen c + 1) (upd (curlen c) 128 (buf c)) = r ++ [128].
Proof. intros L C F. replace (curlen c + 1)%nat with (S (curlen c)) by lia. rewrite firstn_upd by lia. rewrite F. reflexivity. Qed.

Lemma digest_bytes d : length d = 8%nat -> flat_map (fun i => store32h (nth i d 0)) (seq 0 8) = flat_map (be 4) d.
Proof.
  intros L. do 8 (destruct d as [|? d]; [discriminate|]). destruct d; [|discriminate].
  cbn [seq flat_map nth]. rewrite !store32h_spec. reflexivity.
Qed.
Lemma finalize_fed c m : fed c m -> Z.of_nat (length m) < 2 ^ 61 -> fst (finalize c) = sha256 K initial_state m.
Proof.
  intros (Fm & Lb & q & a & r & -> & La & Lr & C & Fr & St & Le) Len.
  apply Forall_app in Fm. destruct Fm as (Fa & Frr).
  unfold finalize. destruct (64 <=? curlen c)%nat eqn:B; [apply Nat.leb_le in B; lia|]. clear B.
  (* message length *)
  assert (EL : u64 (length_ c + Z.of_nat (curlen c) * 8) = 8 * Z.of_nat (length (a ++ r))).
  { rewrite Le, u64_add. rewrite app_length in *. unfold u64. rewrite Z.mod_small; lia. }
  rewrite EL. set (l8 := 8 * Z.of_nat (length (a ++ r))) in *. clear EL.
  set (b0 := upd (curlen c) 128 (buf c)).
  assert (L0 : length b0 = 64%nat) by (unfold b0; rewrite upd_length; auto).
  assert (F0 : firstn (curlen c + 1) b0 = r ++ [128]) by (apply firstn_S_upd_buf; auto).
  (* the state and the last block, in both cases *)
  assert (Main : exists n st b,
     (let '(st, b, cur) := if (56 <? curlen c + 1)%nat then
          let b := zero_fill (curlen c + 1) 64 b0 in (transform (state_ c) b, b, 0%nat) else (state_ c, b0, (curlen c + 1)%nat) in
      let b := copy_to 56 (store64h l8) (zero_fill cur 56 b) in
      (st, b)) = (st, b) /\ 
     transform st b = digest_after (q + n) (pad (a ++ r)) /\ length (pad (a ++ r)) = (64 * (q + n))%nat).
  { assert (LP : forall z, Z.to_nat ((55 - Z.of_nat (length (a ++ r))) mod 64) = z -> length (pad (a ++ r)) = (64 * q + (curlen c + 1 + z + 8))%nat).
    { intros z <-. unfold pad. rewrite !app_length, repeat_length, be_length. cbn [length]. lia. }
    destruct (56 <? curlen c + 1)%nat eqn:B; [apply Nat.ltb_lt in B | apply Nat.ltb_ge in B].
    - (* two blocks *)
      destruct (zero_fill_spec (curlen c + 1) 64 b0 ltac:(lia)) as (L1 & F1). set (b1 := zero_fill (curlen c + 1) 64 b0) in *.
      rewrite firstn_all2 in F1 by lia. rewrite F0 in F1.
      destruct (zero_fill_spec 0 56 b1 ltac:(lia)) as (L2 & F2). set (b2 := zero_fill 0 56 b1) in *.
      change (firstn 56 b2 = repeat 0 56) in F2.
      exists 2%nat, (transform (state_ c) b1), (copy_to 56 (store64h l8) b2). split; [reflexivity|].
      assert (Z0 : Z.to_nat ((55 - Z.of_nat (length (a ++ r))) mod 64) = (64 - (curlen c + 1) + 56)%nat).
      { rewrite app_length, La, Lr. replace (55 - Z.of_nat (64 * q + curlen c)) with (119 - Z.of_nat (curlen c) + (- Z.of_nat q - 1) * 64) by lia.
        rewrite Z_mod_plus_full, Z.mod_small by lia. lia. }
      split; [|rewrite (LP _ Z0); lia].
      assert (E2 : copy_to 56 (store64h l8) b2 = repeat 0 56 ++ be 8 l8).
      { unfold copy_to. rewrite F2, store64h_spec, be_length. rewrite (skipn_all2 b2) by lia. rewrite app_nil_r. reflexivity. }
      assert (PE : pad (a ++ r) = a ++ (b1 ++ (repeat 0 56 ++ be 8 l8))).
      { unfold pad. fold l8. rewrite Z0, repeat_app, F1, <- !app_assoc. reflexivity. }
      rewrite E2, St, PE.
      assert (Fb1 : Forall byte b1).
      { rewrite F1. repeat (apply Forall_app; split); auto; [constructor; [apply byte_128 | constructor] | apply bytes_zero]. }
      rewrite digest_next by (auto; lia). rewrite digest_next.
      + replace (q + 2)%nat with (S (S q)) by lia. rewrite <- !app_assoc. reflexivity.
      + rewrite app_length. lia.
      + rewrite app_length, repeat_length, be_length. reflexivity.
      + apply Forall_app. auto.
      + apply Forall_app. split; [apply bytes_zero | apply bytes_be].
    - (* one block *)
      destruct (zero_fill_spec (curlen c + 1) 56 b0 ltac:(lia)) as (L1 & F1). set (b1 := zero_fill (curlen c + 1) 56 b0) in *. rewrite F0 in F1.
      exists 1%nat, (state_ c), (copy_to 56 (store64h l8) b1). split; [reflexivity|].
      assert (Z0 : Z.to_nat ((55 - Z.of_nat (length (a ++ r))) mod 64) = (56 - (curlen c + 1))%nat).
      { rewrite app_length, La, Lr. replace (55 - Z.of_nat (64 * q + curlen c)) with (55 - Z.of_nat (curlen c) + (- Z.of_nat q) * 64) by lia.
        rewrite Z_mod_plus_full, Z.mod_small by lia. lia. }
      split; [|rewrite (LP _ Z0); lia].
      assert (E2 : copy_to 56 (store64h l8) b1 = r ++ [128] ++ repeat 0 (56 - (curlen c + 1)) ++ be 8 l8).
      { unfold copy_to. rewrite F1, store64h_spec, be_length. rewrite (skipn_all2 b1) by lia. rewrite app_nil_r, <- !app_assoc. reflexivity. }
      assert (PE : pad (a ++ r) = a ++ (r ++ [128] ++ repeat 0 (56 - (curlen c + 1)) ++ be 8 l8)).
      { unfold pad. fold l8. rewrite Z0, <- !app_assoc. reflexivity. }
      rewrite E2, St, PE. rewrite digest_next.
      + replace (q + 1)%nat with (S q) by lia. reflexivity.
      + auto.
      + rewrite !app_length, repeat_length, be_length. cbn [length]. lia.
      + auto.
      + repeat (apply Forall_app; split); auto; [constructor; [apply byte_128 | constructor] | apply bytes_zero | apply bytes_be]. }
  destruct Main as (n & st & b & E & T & LP).
  assert (Done : flat_map (fun i => store32h (nth i (transform st b) 0)) (seq 0 8) = sha256 K initial_state (a ++ r)).
  { rewrite T. unfold sha256. rewrite LP. rewrite (Nat.mul_comm 64), Nat.div_mul by lia. fold (digest_after (q + n) (pad (a ++ r))).
    apply digest_bytes. apply digest_hash_value. unfold pad. repeat (apply Forall_app; split); auto; [constructor; [apply byte_128 | constructor] | apply bytes_zero | apply bytes_be]. }
  destruct (56 <? curlen c + 1)%nat; cbv zeta in E; cbv zeta; pose proof (f_equal fst E) as E1; pose proof (f_equal snd E) as E2; cbn [fst snd] in E1, E2; rewrite E2; cbn [fst]; rewrite ?E1; exact Done.
Qed.

(** ** C31 *)
(** For every message the computed hash is the one of the standard, whatever the buffer
    contained before. *)
Theorem hash_is_sha256 garbage m Kc H0 :
  Forall2 (first_bits 3) primes Kc -> Forall2 (first_bits 2) (firstn 8 primes) H0 ->
  length garbage = 64%nat -> Forall byte m -> Z.of_nat (length m) < 2 ^ 61 ->
  calculate garbage m = Ok (sha256 Kc H0 m).
Proof.
  intros HK HH L F Len. destruct constants_are_standard as (_ & A & B).
  rewrite (forall2_unique 3 primes ltac:(lia) _ _ HK A), (forall2_unique 2 (firstn 8 primes) ltac:(lia) _ _ HH B).
  unfold calculate. destruct (update_fed (reset (Ctx 0 [] 0 garbage)) [] m (reset_fed (Ctx 0 [] 0 garbage) L) F) as (c & -> & I).
  cbn [rbind]. f_equal. rewrite (finalize_fed c m I Len). reflexivity.
Qed.
Print Assumptions hash_is_sha256.
(** Test vector of the standard, so the definitions compute what they should. *)
Example hash_of_abc : calculate (repeat 255 64) [97; 98; 99] = Ok
  [0xba; 0x78; 0x16; 0xbf; 0x8f; 0x01; 0xcf; 0xea; 0x41; 0x41; 0x40; 0xde; 0x5d; 0xae; 0x22; 0x23;
   0xb0; 0x03; 0x61; 0xa3; 0x96; 0x17; 0x7a; 0x9c; 0xb4; 0x10; 0xff; 0x61; 0xf2; 0x00; 0x15; 0xad].
Proof. vm_compute. reflexivity. Qed.
Example spec_of_abc : sha256 K initial_state [97; 98; 99] = 
  [0xba; 0x78; 0x16; 0xbf; 0x8f; 0x01; 0xcf; 0xea; 0x41; 0x41; 0x40; 0xde; 0x5d; 0xae; 0x22; 0x23;
   0xb0; 0x03; 0x61; 0xa3; 0x96; 0x17; 0x7a; 0x9c; 0xb4; 0x10; 0xff; 0x61; 0xf2; 0x00; 0x15; 0xad].
Proof. vm_compute. reflexivity. Qed.

(** ** C32 *)
(** A context that is reset and then fed any pieces gives the hash of the pieces put
    together. *)
Theorem chunking_does_not_matter c pieces :
  length (buf c) = 64%nat -> Forall (Forall byte) pieces -> Z.of_nat (length (concat pieces)) < 2 ^ 61 ->
  (c' <- foldM update (reset c) pieces ;; Ok (fst (finalize c'))) = Ok (sha256 K initial_state (concat pieces)).
Proof.
  intros L F Len. assert (G : forall ps c0 m, fed c0 m -> Forall (Forall byte) ps -> exists c', foldM update c0 ps = Ok c' /\ fed c' (m ++ concat ps)).
  { clear. induction ps as [|p ps IH]; intros c0 m I F; [exists c0; cbn; rewrite app_nil_r; auto|].
    inversion F; subst. destruct (update_fed c0 m p I) as (c1 & E & I1); auto. cbn [foldM concat]. rewrite E. cbn [rbind].
    destruct (IH c1 (m ++ p) I1) as (c2 & E2 & I2); auto. exists c2. split; auto. rewrite <- app_assoc in I2. exact I2. }
  destruct (G pieces (reset c) [] (reset_fed c L) F) as (c' & -> & I). cbn [rbind]. f_equal. apply finalize_fed; auto.
Qed.
Print Assumptions chunking_does_not_matter.
Example chunking_case : (c' <- foldM update (reset (Ctx 5 [1] 77 (repeat 9 64))) [[]; [97]; []; [98; 99]] ;; Ok (fst (finalize c'))) =
  calculate (repeat 255 64) [97; 98; 99].
Proof. vm_compute. reflexivity. Qed.

(** Finalising without a reset in between does not give the hash again. *)
Theorem finalize_needs_reset : exists c, 
  let '(d1, c1) := finalize (reset c) in let '(d2, c2) := finalize c1 in d1 <> d2.
Proof. exists (Ctx 0 [] 0 (repeat 0 64)). vm_compute. discriminate. Qed.
Print Assumptions finalize_needs_reset.

(** ** The text form *)
Lemma hex_two b : byte b -> setw2 (hex_number 4 b) = [hex_digit (b / 16); hex_digit (b mod 16)].
Proof.
  intros (A & B). cbn [hex_number]. destruct (Z.ltb_spec b 16).
  - rewrite Z.div_small, Z.mod_small by lia. reflexivity.
  - assert (b / 16 < 16) by (apply Z.div_lt_upper_bound; lia). destruct (Z.ltb_spec (b / 16) 16); [reflexivity | lia].
Qed.
Lemma hex_digit_inj a b : 0 <= a < 16 -> 0 <= b < 16 -> hex_digit a = hex_digit b -> a = b.
Proof.
  intros A B E. assert (H : forallb (fun i => forallb (fun j => if ascii_dec (hex_digit i) (hex_digit j) then i =? j else true) (map Z.of_nat (seq 0 16))) (map Z.of_nat (seq 0 16)) = true) by (vm_compute; reflexivity).
  rewrite forallb_forall in H. 
  assert (I : forall x, 0 <= x < 16 -> In x (map Z.of_nat (seq 0 16))) by (intros x X; apply in_map_iff; exists (Z.to_nat x); split; [lia | apply in_seq; lia]).
  specialize (H a (I a A)). rewrite forallb_forall in H. specialize (H b (I b B)). destruct (ascii_dec (hex_digit a) (hex_digit b)); [lia | contradiction].
Qed.
(** The text of a hash has two characters per byte, and different hashes have different
    texts. *)
Theorem hash_text_faithful h h' : Forall byte h -> Forall byte h' ->
  length (hash_to_string h) = (2 * length h)%nat /\ (hash_to_string h = hash_to_string h' -> h = h').
Proof.
  intros F F'. split.
  - clear F'. induction F as [|b h B F IH]; [reflexivity|]. unfold hash_to_string in *. cbn [flat_map]. rewrite app_length, IH, hex_two by auto. cbn. lia.
  - revert h' F'. induction F as [|b h B F IH]; intros h' F' E; unfold hash_to_string in *; cbn [flat_map] in E.
    + destruct F' as [|b' h' B' F']; auto. cbn [flat_map] in E. rewrite hex_two in E by auto. discriminate.
    + destruct F' as [|b' h' B' F']; [rewrite hex_two in E by auto; discriminate|]. cbn [flat_map] in E. rewrite !hex_two in E by auto.
      cbn [List.app] in E. assert (E1 : hex_digit (b / 16) = hex_digit (b' / 16)) by congruence. assert (E2 : hex_digit (b mod 16) = hex_digit (b' mod 16)) by congruence.
      unfold byte in *.
      apply hex_digit_inj in E1; [|split; [apply Z.div_pos; lia | apply Z.div_lt_upper_bound; lia]|split; [apply Z.div_pos; lia | apply Z.div_lt_upper_bound; lia]].
      apply hex_digit_inj in E2; [|apply Z.mod_pos_bound; lia|apply Z.mod_pos_bound; lia].
      f_equal; [rewrite (Z.div_mod b 16), (Z.div_mod b' 16) by lia; congruence | apply IH; auto; congruence].
Qed.
Print Assumptions hash_text_faithful.
