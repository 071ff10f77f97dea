(** Numbers in text output (C120): what is printed can be read back as a decimal number and is close to the value.
    Specification: [read_decimal] reads a numeral (sign, digits, optional fraction, optional exponent) as an integer
    times a power of ten, as strtod and every reader of the files does. *)
From Coq Require Import String.
From Coq Require Import ZArith Reals List Bool Lia Lra.
From Verif Require Import Base TextModel PdgModel PrintfModel.
Import ListNotations.
Open Scope Z_scope.

(** ** Specification *)
Definition is_digit (c : Z) : bool := (48 <=? c) && (c <=? 57).
Fixpoint take_digits (t : text) : list Z * text :=
  match t with
  | [] => ([], [])
  | c :: r => if is_digit c then let '(l, r') := take_digits r in (c - 48 :: l, r') else ([], t)
  end.
Definition value (l : list Z) : Z := fold_left (fun a d => 10 * a + d) l 0.
Definition read_unsigned (t : text) : option (Z * Z) :=
  let '(a, r) := take_digits t in
  match a with
  | [] => None
  | _ =>
      let '(b, r2) := match r with 46 :: r' => take_digits r' | _ => ([], r) end in
      let m := value (a ++ b) in let s := - Z.of_nat (length b) in
      match r2 with
      | [] => Some (m, s)
      | 101 :: sg :: r3 =>
          let '(c, r4) := take_digits r3 in
          match c, r4 with
          | _ :: _, [] => if sg =? 45 then Some (m, s - value c) else if sg =? 43 then Some (m, s + value c) else None
          | _, _ => None
          end
      | _ => None
      end
  end.
Definition read_decimal (t : text) : option (Z * Z) :=
  match t with
  | 45 :: r => match read_unsigned r with Some (m, e) => Some (- m, e) | None => None end
  | _ => read_unsigned t
  end.
Definition dec (p : Z * Z) : R := (IZR (fst p) * powerRZ 10 (snd p))%R.
(** the value of a finite double *)
Definition double_value (bits : Z) : option R :=
  match double_of bits with
  | Some (neg, n, d) => Some ((if neg then -1 else 1) * (IZR n / IZR d))%R
  | None => None
  end.

(** ** Digits *)
Lemma value_snoc l d : value (l ++ [d]) = 10 * value l + d.
Proof. unfold value. now rewrite fold_left_app. Qed.
Lemma value_app a b : value (a ++ b) = value a * 10 ^ Z.of_nat (length b) + value b.
Proof.
  induction b as [|d b IH] using rev_ind; [rewrite app_nil_r; cbn; lia|].
  rewrite app_assoc, !value_snoc, IH, app_length, Nat2Z.inj_add. cbn [length]. rewrite Z.pow_add_r by lia. change (10 ^ Z.of_nat 1) with 10. lia.
Qed.
Lemma value_zeros k : value (repeat 0 k) = 0.
Proof. induction k as [|k IH]; [reflexivity|]. change (repeat 0 (S k)) with ([0] ++ repeat 0 k). rewrite value_app, IH. reflexivity. Qed.
Definition digs (l : list Z) : Prop := Forall (fun d => 0 <= d <= 9) l.
Lemma digits_len k n : length (digits_n k n) = k.
Proof. revert n; induction k as [|k IH]; intros n; cbn; [reflexivity|]. rewrite app_length, IH. cbn. lia. Qed.
Lemma digits_digs k n : digs (digits_n k n).
Proof. revert n; induction k as [|k IH]; intros n; cbn; [constructor|]. apply Forall_app. split; [apply IH|]. constructor; [|constructor]. pose proof (Z.mod_pos_bound n 10). lia. Qed.
Lemma digits_value k n : 0 <= n < 10 ^ Z.of_nat k -> value (digits_n k n) = n.
Proof.
  revert n; induction k as [|k IH]; intros n H; [cbn in *; lia|]. cbn [digits_n]. rewrite value_snoc, IH.
  - pose proof (Z.div_mod n 10). lia.
  - rewrite Nat2Z.inj_succ, Z.pow_succ_r in H by lia. split; [apply Z.div_pos; lia|]. apply Z.div_lt_upper_bound; lia.
Qed.
Lemma strip_spec l : exists k, l = strip l ++ repeat 0 k.
Proof.
  induction l as [|x l (k & E)]; [exists O; reflexivity|]. cbn [strip]. destruct (strip l) as [|y t] eqn:SL.
  - destruct (Z.eqb_spec x 0) as [->|N]; [exists (S k)|exists k]; cbn; f_equal; exact E.
  - exists k. cbn. f_equal. exact E.
Qed.
Lemma strip_len l : (length (strip l) <= length l)%nat.
Proof. destruct (strip_spec l) as (k & E). rewrite E at 2. rewrite app_length. lia. Qed.
Lemma strip_digs l : digs l -> digs (strip l).
Proof. intros D. destruct (strip_spec l) as (k & E). rewrite E in D. apply Forall_app in D. tauto. Qed.
Lemma chars_len l : length (chars l) = length l.
Proof. apply map_length. Qed.
Lemma chars_app a b : chars (a ++ b) = chars a ++ chars b.
Proof. apply map_app. Qed.
Lemma take_chars l r : digs l -> match r with [] => True | c :: _ => is_digit c = false end -> take_digits (chars l ++ r) = (l, r).
Proof.
  induction 1 as [|d l D _ IH]; intros N; cbn [chars map app take_digits].
  - destruct r as [|c r]; [reflexivity|]. cbn. now rewrite N.
  - unfold is_digit. replace (48 <=? 48 + d) with true by (symmetry; apply Z.leb_le; lia). replace (48 + d <=? 57) with true by (symmetry; apply Z.leb_le; lia).
    cbn [andb]. fold (chars l). rewrite IH by auto. do 2 f_equal. lia.
Qed.

(** ** Powers of ten *)
Open Scope R_scope.
Lemma ten_pos x : 0 < powerRZ 10 x.
Proof. apply powerRZ_lt. lra. Qed.
Lemma ten_add a b : powerRZ 10 (a + b) = powerRZ 10 a * powerRZ 10 b.
Proof. apply powerRZ_add. lra. Qed.
Lemma ten_Z k : (0 <= k)%Z -> powerRZ 10 k = IZR (10 ^ k).
Proof.
  intros H. rewrite <- (Z2Nat.id k) by auto. generalize (Z.to_nat k). intros n. rewrite <- pow_powerRZ. now rewrite <- pow_IZR.
Qed.
Lemma ten_opp k : powerRZ 10 (- k) * powerRZ 10 k = 1.
Proof. rewrite <- ten_add. now replace (- k + k)%Z with 0%Z by lia. Qed.
Lemma ndig_loop_spec f n : (0 < n)%Z -> (n < 2 ^ Z.of_nat f)%Z -> (1 <= ndig_loop f n /\ 10 ^ (ndig_loop f n - 1) <= n < 10 ^ ndig_loop f n)%Z.
Proof.
  revert n; induction f as [|f IH]; intros n N H; [cbn in H; lia|]. cbn [ndig_loop]. destruct (Z.leb_spec n 0); [lia|].
  rewrite Nat2Z.inj_succ, Z.pow_succ_r in H by lia.
  destruct (Z_le_dec 10 n) as [L|L].
  - assert (1 <= n / 10)%Z by (apply Z.div_le_lower_bound; lia). assert (n / 10 < 2 ^ Z.of_nat f)%Z by (apply Z.div_lt_upper_bound; lia).
    destruct (IH (n / 10)%Z) as (A & B & C); [lia|auto|]. set (k := ndig_loop f (n / 10)) in *.
    splits; [lia| |].
    + replace (1 + k - 1)%Z with (Z.succ (k - 1)) by lia. rewrite Z.pow_succ_r by lia. pose proof (Z.mul_div_le n 10). lia.
    + replace (1 + k)%Z with (Z.succ k) by lia. rewrite Z.pow_succ_r by lia. pose proof (Z.mul_succ_div_gt n 10). lia.
  - assert (E : ndig_loop f (n / 10) = 0%Z). { destruct f; [reflexivity|]. cbn. now rewrite (Z.div_small n 10) by lia. }
    rewrite E. cbn. lia.
Qed.
Lemma ndig_spec n : (0 < n)%Z -> (1 <= ndig n /\ 10 ^ (ndig n - 1) <= n < 10 ^ ndig n)%Z.
Proof. intros H. apply ndig_loop_spec; auto. rewrite Nat2Z.inj_succ, Z2Nat.id by apply Z.log2_nonneg. apply Z.log2_spec; auto. Qed.
Lemma exponent_spec n d : (0 < n)%Z -> (0 < d)%Z -> powerRZ 10 (exponent10 n d) <= IZR n / IZR d < powerRZ 10 (exponent10 n d + 1).
Proof.
  intros N D. assert (D' : 0 < IZR d) by (apply IZR_lt; auto). assert (N' : 0 < IZR n) by (apply IZR_lt; auto). unfold exponent10. destruct (Z.leb_spec d n) as [L|L].
  - assert (1 <= n / d)%Z by (apply Z.div_le_lower_bound; lia). destruct (ndig_spec (n / d)) as (A & B & C); [lia|]. set (k := ndig (n / d)) in *.
    replace (k - 1 + 1)%Z with k by lia. rewrite !ten_Z by lia. pose proof (Z.mul_div_le n d D). pose proof (Z.mul_succ_div_gt n d D). split.
    + apply (Rmult_le_reg_r (IZR d)); auto. unfold Rdiv. rewrite Rmult_assoc, Rinv_l, Rmult_1_r by lra. rewrite <- mult_IZR. apply IZR_le. nia.
    + apply (Rmult_lt_reg_r (IZR d)); auto. unfold Rdiv. rewrite Rmult_assoc, Rinv_l, Rmult_1_r by lra. rewrite <- mult_IZR. apply IZR_lt. nia.
  - assert (1 <= (d - 1) / n)%Z by (apply Z.div_le_lower_bound; lia). destruct (ndig_spec ((d - 1) / n)) as (A & B & C); [lia|]. set (k := ndig ((d - 1) / n)) in *.
    pose proof (Z.mul_div_le (d - 1) n N). pose proof (Z.mul_succ_div_gt (d - 1) n N). split.
    + apply (Rmult_le_reg_r (IZR d)); auto. unfold Rdiv. rewrite Rmult_assoc, Rinv_l, Rmult_1_r by lra.
      apply (Rmult_le_reg_l (powerRZ 10 k)); [apply ten_pos|]. rewrite <- Rmult_assoc, (Rmult_comm (powerRZ 10 k) (powerRZ 10 (- k))), ten_opp, ten_Z by lia.
      rewrite Rmult_1_l, <- mult_IZR. apply IZR_le. nia.
    + apply (Rmult_lt_reg_r (IZR d)); auto. unfold Rdiv. rewrite Rmult_assoc, Rinv_l, Rmult_1_r by lra.
      apply (Rmult_lt_reg_l (powerRZ 10 (k - 1))); [apply ten_pos|]. rewrite <- Rmult_assoc, <- ten_add. replace (k - 1 + (- k + 1))%Z with 0%Z by lia. cbn [powerRZ].
      rewrite Rmult_1_l, ten_Z by lia. rewrite <- mult_IZR. apply IZR_lt. nia.
Qed.
Lemma round_even_spec a b : (0 < b)%Z -> Rabs (IZR (round_even a b) - IZR a / IZR b) <= 1 / 2.
Proof.
  intros B. assert (B' : 0 < IZR b) by (apply IZR_lt; auto).
  assert (H : (b * (2 * round_even a b - 1) <= 2 * a <= b * (2 * round_even a b + 1))%Z).
  { unfold round_even. pose proof (Z.div_mod a b ltac:(lia)). pose proof (Z.mod_pos_bound a b B). set (q := (a / b)%Z) in *. set (r := (a mod b)%Z) in *.
    destruct (Z.ltb_spec (2 * r) b); [nia|]. destruct (Z.ltb_spec b (2 * r)); [nia|]. destruct (Z.even q); nia. }
  set (q := round_even a b) in *. destruct H as (H1 & H2). apply IZR_le in H1, H2. rewrite !mult_IZR, minus_IZR, mult_IZR in H1. rewrite !mult_IZR, plus_IZR, mult_IZR in H2.
  apply Rabs_le. split; apply (Rmult_le_reg_r (IZR b)); auto; rewrite Rmult_minus_distr_r; unfold Rdiv; rewrite (Rmult_assoc (IZR a)), Rinv_l by lra; lra.
Qed.
Lemma significant_spec P n d q x : (1 <= P)%Z -> (0 < n)%Z -> (0 < d)%Z -> significant P n d = (q, x) ->
  (10 ^ (P - 1) <= q < 10 ^ P)%Z /\ (x = exponent10 n d \/ x = exponent10 n d + 1)%Z /\
  Rabs (IZR q * powerRZ 10 (x - (P - 1)) - IZR n / IZR d) <= 1 / 2 * powerRZ 10 (exponent10 n d - (P - 1)).
Proof.
  intros HP N D. unfold significant. set (X := exponent10 n d). set (k := (P - 1 - X)%Z).
  set (r := if (0 <=? k)%Z then round_even (n * 10 ^ k) d else round_even n (d * 10 ^ (- k))).
  pose proof (exponent_spec n d N D) as E. fold X in E. assert (D' : 0 < IZR d) by (apply IZR_lt; auto).
  assert (W : Rabs (IZR r - IZR n / IZR d * powerRZ 10 k) <= 1 / 2).
  { unfold r. destruct (Z.leb_spec 0 k) as [K|K].
    - pose proof (round_even_spec (n * 10 ^ k) d D) as Q. rewrite mult_IZR, <- ten_Z in Q by auto. replace (IZR n / IZR d * powerRZ 10 k) with (IZR n * powerRZ 10 k / IZR d) by (field; lra). exact Q.
    - assert (T : (0 < 10 ^ (- k))%Z) by (apply Z.pow_pos_nonneg; lia). pose proof (round_even_spec n (d * 10 ^ (- k)) ltac:(nia)) as Q. rewrite mult_IZR, <- ten_Z in Q by lia.
      replace (IZR n / IZR d * powerRZ 10 k) with (IZR n / (IZR d * powerRZ 10 (- k))); [exact Q|].
      pose proof (ten_opp k) as O. pose proof (ten_pos k). pose proof (ten_pos (- k)).
      replace (IZR n / (IZR d * powerRZ 10 (- k))) with (IZR n / (IZR d * powerRZ 10 (- k)) * (powerRZ 10 (- k) * powerRZ 10 k)) by (rewrite O; ring). field. lra. }
  set (v := IZR n / IZR d) in *. pose proof (ten_pos k) as TK.
  assert (LO : powerRZ 10 (P - 1) <= v * powerRZ 10 k). { replace (P - 1)%Z with (X + k)%Z by (unfold k; lia). rewrite ten_add. apply Rmult_le_compat_r; lra. }
  assert (HI : v * powerRZ 10 k < powerRZ 10 P). { replace P with (X + 1 + k)%Z by (unfold k; lia). rewrite (ten_add (X + 1) k). apply Rmult_lt_compat_r; lra. }
  rewrite (ten_Z (P - 1)) in LO by lia. rewrite (ten_Z P) in HI by lia.
  assert (WW : - (1 / 2) <= IZR r - v * powerRZ 10 k <= 1 / 2) by (revert W; unfold Rabs; destruct (Rcase_abs _); lra). destruct WW as (W1 & W2).
  assert (R1 : (10 ^ (P - 1) <= r)%Z). { apply Z.lt_succ_r. apply lt_IZR. rewrite succ_IZR. lra. }
  assert (R2 : (r <= 10 ^ P)%Z). { apply Z.lt_succ_r. apply lt_IZR. rewrite succ_IZR. lra. }
  assert (KX : powerRZ 10 k * powerRZ 10 (X - (P - 1)) = 1) by (rewrite <- ten_add; unfold k; now replace (P - 1 - X + (X - (P - 1)))%Z with 0%Z by lia).
  set (u := powerRZ 10 (X - (P - 1))) in *. assert (U : 0 < u) by apply ten_pos.
  assert (F : Rabs (IZR r * u - v) <= 1 / 2 * u).
  { replace (IZR r * u - v) with ((IZR r - v * powerRZ 10 k) * u + v * (powerRZ 10 k * u - 1)) by ring. rewrite KX.
    set (e := IZR r - v * powerRZ 10 k) in *. replace (e * u + v * (1 - 1)) with (e * u) by ring. apply Rabs_le. split; nra. }
  destruct (Z.eqb_spec r (10 ^ P)) as [EQ|NE]; intros EE; injection EE as <- <-.
  - splits; auto; [lia|apply Z.pow_lt_mono_r; lia|].
    replace (IZR (10 ^ (P - 1)) * powerRZ 10 (X + 1 - (P - 1))) with (IZR r * u); auto. rewrite EQ, <- !ten_Z by lia. unfold u. rewrite <- !ten_add. f_equal. lia.
  - splits; auto. lia.
Qed.

(** ** Reading back *)
Lemma frac_dec a b : dec (value (a ++ strip b), (- Z.of_nat (length (strip b)))%Z) = dec (value (a ++ b), (- Z.of_nat (length b))%Z).
Proof.
  destruct (strip_spec b) as (k & E). set (s := strip b) in *. clearbody s. subst b. unfold dec. cbn [fst snd].
  rewrite app_assoc, (value_app (a ++ s)), value_zeros, Z.add_0_r, repeat_length, app_length, repeat_length, mult_IZR, <- ten_Z by lia.
  rewrite Rmult_assoc, <- ten_add. do 2 f_equal. lia.
Qed.
Lemma read_plain a b : digs a -> digs b -> a <> [] -> read_unsigned (chars a ++ fraction b) = Some (value (a ++ strip b), (- Z.of_nat (length (strip b)))%Z).
Proof.
  intros A B N. unfold read_unsigned, fraction. pose proof (strip_digs b B) as SB. destruct (strip b) as [|y s] eqn:SS.
  - rewrite take_chars by (auto; exact I). destruct a; [contradiction|]. reflexivity.
  - rewrite take_chars by (auto; reflexivity). destruct a as [|a0 a]; [contradiction|]. cbv beta iota.
    rewrite <- (app_nil_r (chars (y :: s))), take_chars by (auto; exact I). reflexivity.
Qed.
Lemma read_exp a b x : digs a -> digs b -> a <> [] -> (Z.abs x < 1000)%Z ->
  read_unsigned (chars a ++ fraction b ++ exponent_text x) = Some (value (a ++ strip b), (- Z.of_nat (length (strip b)) + x)%Z).
Proof.
  intros A B N X.
  assert (T : exists c, c <> [] /\ digs c /\ value c = Z.abs x /\ exponent_text x = (101 :: (if (x <? 0)%Z then 45 else 43) :: chars c)%Z).
  { unfold exponent_text. destruct (Z.ltb_spec (Z.abs x) 100); [exists (digits_n 2 (Z.abs x))|exists (digits_n 3 (Z.abs x))];
    (split; [intros E; apply (f_equal (@length Z)) in E; rewrite digits_len in E; discriminate|split; [apply digits_digs|split; [apply digits_value; cbn; lia|reflexivity]]]). }
  destruct T as (c & NC & DC & VC & ->). unfold read_unsigned, fraction. pose proof (strip_digs b B) as SB.
  assert (TC : take_digits (chars c) = (c, [])) by (rewrite <- (app_nil_r (chars c)); apply take_chars; auto; exact I).
  assert (FIN : forall s : Z, match c with _ :: _ => match (@nil Z) with [] => (if ((if (x <? 0)%Z then 45 else 43) =? 45)%Z then Some (s, (- Z.of_nat (length (strip b)) - value c)%Z) else if ((if (x <? 0)%Z then 45 else 43) =? 43)%Z then Some (s, (- Z.of_nat (length (strip b)) + value c)%Z) else None) | _ => None end | _ => None end = Some (s, (- Z.of_nat (length (strip b)) + x)%Z)).
  { intros s. destruct c; [contradiction|]. rewrite VC. destruct (Z.ltb_spec x 0); cbn; f_equal; f_equal; lia. }
  destruct (strip b) as [|y s] eqn:SS.
  - rewrite take_chars by (auto; reflexivity). destruct a as [|a0 a]; [contradiction|]. cbn [app]. rewrite TC. rewrite app_nil_r. exact (FIN (value (a0 :: a))).
  - rewrite <- app_comm_cons. rewrite take_chars by (auto; reflexivity). destruct a as [|a0 a]; [contradiction|]. cbv beta iota.
    rewrite take_chars by (auto; reflexivity). cbv beta iota. rewrite TC. apply FIN.
Qed.
Lemma firstn_digs k l : digs l -> digs (firstn k l).
Proof. intros D. rewrite <- (firstn_skipn k l) in D. apply Forall_app in D. tauto. Qed.
Lemma skipn_digs k l : digs l -> digs (skipn k l).
Proof. intros D. rewrite <- (firstn_skipn k l) in D. apply Forall_app in D. tauto. Qed.
Lemma g_reads P n d q x : (1 <= P)%Z -> (0 < n)%Z -> (0 < d)%Z -> significant P n d = (q, x) -> (Z.abs x < 1000)%Z ->
  exists me, read_unsigned (g_positive P n d) = Some me /\ dec me = IZR q * powerRZ 10 (x - (P - 1)).
Proof.
  intros HP N D E X. destruct (significant_spec P n d q x HP N D E) as (Q & _ & _). unfold g_positive. rewrite E.
  set (ds := digits_n (Z.to_nat P) q). assert (DS : digs ds) by apply digits_digs. assert (LS : length ds = Z.to_nat P) by apply digits_len.
  assert (VS : value ds = q) by (apply digits_value; rewrite Z2Nat.id by lia; lia).
  destruct (((x <? -4)%Z || (P <=? x)%Z)%bool) eqn:C.
  - eexists. split; [apply read_exp; auto using firstn_digs, skipn_digs; intros F; apply (f_equal (@length Z)) in F; rewrite firstn_length, LS in F; cbn [length] in F; lia|].
    pose proof (frac_dec (firstn 1 ds) (skipn 1 ds)) as FD. rewrite firstn_skipn, VS, skipn_length, LS in FD. unfold dec in *. cbn [fst snd] in *.
    rewrite ten_add, <- Rmult_assoc, FD, Rmult_assoc, <- ten_add. do 2 f_equal. lia.
  - apply Bool.orb_false_iff in C as (C1 & C2). apply Z.ltb_ge in C1. apply Z.leb_gt in C2. destruct (Z.leb_spec 0 x) as [X0|X0].
    + eexists. split; [apply read_plain; auto using firstn_digs, skipn_digs; intros F; apply (f_equal (@length Z)) in F; rewrite firstn_length, LS in F; cbn [length] in F; lia|].
      rewrite frac_dec, firstn_skipn, VS, skipn_length, LS. unfold dec. cbn [fst snd]. do 2 f_equal. lia.
    + change (48 :: fraction (repeat 0%Z (Z.to_nat (- x - 1)) ++ ds))%Z with (chars [0%Z] ++ fraction (repeat 0%Z (Z.to_nat (- x - 1)) ++ ds)).
      assert (DZ : digs (repeat 0%Z (Z.to_nat (- x - 1)) ++ ds)).
      { apply Forall_app. split; auto. apply Forall_forall. intros z Hz. apply repeat_spec in Hz. lia. }
      eexists. split; [apply (read_plain [0%Z]); [constructor; [lia|constructor]|exact DZ|discriminate]|].
      rewrite frac_dec, app_assoc. rewrite value_app, VS. change ([0%Z] ++ repeat 0%Z (Z.to_nat (- x - 1))) with (repeat 0%Z (S (Z.to_nat (- x - 1)))). rewrite value_zeros, app_length, repeat_length, LS.
      unfold dec. cbn [fst snd]. rewrite Z.mul_0_l, Z.add_0_l. do 2 f_equal. lia.
Qed.

(** ** Doubles *)
Lemma powZ_R k : (0 <= k)%Z -> IZR (2 ^ k) = powerRZ 2 k.
Proof. intros H. rewrite <- (Z2Nat.id k) by auto. generalize (Z.to_nat k). intros n. rewrite <- pow_powerRZ. now rewrite <- pow_IZR. Qed.
Lemma ten_mono a b : (a <= b)%Z -> powerRZ 10 a <= powerRZ 10 b.
Proof.
  intros H. replace b with (a + (b - a))%Z by lia. rewrite ten_add, (ten_Z (b - a)) by lia. pose proof (ten_pos a).
  assert (1 <= IZR (10 ^ (b - a))) by (apply IZR_le; pose proof (Z.pow_pos_nonneg 10 (b - a)); lia). nra.
Qed.
Lemma ten_lt_inv a b : powerRZ 10 a < powerRZ 10 b -> (a < b)%Z.
Proof. intros H. destruct (Z_lt_le_dec a b) as [L|L]; auto. pose proof (ten_mono b a L). lra. Qed.
Lemma double_bounds bits neg n d : (0 <= bits < 2 ^ 64)%Z -> double_of bits = Some (neg, n, d) ->
  (0 <= n)%Z /\ (0 < d)%Z /\ ((0 < n)%Z -> (d <= n * 2 ^ 1074)%Z /\ (n < d * 2 ^ 1024)%Z).
Proof.
  intros B. unfold double_of. set (ex := ((bits / 2 ^ 52) mod 2 ^ 11)%Z). set (fr := (bits mod 2 ^ 52)%Z).
  assert (FR : (0 <= fr < 2 ^ 52)%Z) by (apply Z.mod_pos_bound; lia). assert (EX : (0 <= ex < 2048)%Z) by (apply (Z.mod_pos_bound _ (2 ^ 11)); lia).
  destruct (Z.eqb_spec ex 2047); [discriminate|]. set (m := if (ex =? 0)%Z then fr else (fr + 2 ^ 52)%Z). set (s := ((if (ex =? 0)%Z then 1 else ex) - 1075)%Z).
  assert (S1 : (-1074 <= s <= 971)%Z) by (unfold s; destruct (Z.eqb_spec ex 0); lia).
  assert (M1 : (0 <= m < 2 ^ 53)%Z) by (unfold m; destruct (Z.eqb_spec ex 0); lia).
  intros E. injection E as _ <- <-. destruct (Z.leb_spec 0 s) as [L|L].
  - assert (P : (0 < 2 ^ s)%Z) by (apply Z.pow_pos_nonneg; lia). assert (PM : (2 ^ s <= 2 ^ 971)%Z) by (apply Z.pow_le_mono_r; lia).
    splits; [nia|lia|intros N; assert (0 < m)%Z by nia; change (2 ^ 1024)%Z with (2 ^ 53 * 2 ^ 971)%Z; split; [|nia]].
    assert (1 <= 2 ^ 1074)%Z by (apply (Z.pow_le_mono_r 2 0 1074); lia). nia.
  - assert (P : (0 < 2 ^ (- s))%Z) by (apply Z.pow_pos_nonneg; lia). splits; [lia|lia|intros N; split].
    + apply Z.le_trans with (2 ^ 1074)%Z; [apply Z.pow_le_mono_r; lia|]. assert (0 < 2 ^ 1074)%Z by (apply Z.pow_pos_nonneg; lia). nia.
    + apply Z.lt_le_trans with (2 ^ 53)%Z; [lia|]. change (2 ^ 1024)%Z with (2 ^ 53 * 2 ^ 971)%Z. assert (1 <= 2 ^ 971)%Z by (apply (Z.pow_le_mono_r 2 0 971); lia). nia.
Qed.
Lemma exponent_bounds n d : (0 < n)%Z -> (0 < d)%Z -> (d <= n * 2 ^ 1074)%Z -> (n < d * 2 ^ 1024)%Z -> (-324 <= exponent10 n d <= 308)%Z.
Proof.
  intros N D A B. destruct (exponent_spec n d N D) as (L & H). assert (D' : 0 < IZR d) by (apply IZR_lt; auto). split.
  - assert (powerRZ 10 (-324) < powerRZ 10 (exponent10 n d + 1)); [|apply ten_lt_inv in H0; lia].
    apply Rle_lt_trans with (2 := H). apply (Rmult_le_reg_r (IZR d)); auto. unfold Rdiv. rewrite Rmult_assoc, Rinv_l, Rmult_1_r by lra.
    apply (Rmult_le_reg_l (powerRZ 10 324)); [apply ten_pos|]. rewrite <- Rmult_assoc, <- ten_add. change (324 + -324)%Z with 0%Z. rewrite powerRZ_O, Rmult_1_l, ten_Z, <- mult_IZR by lia.
    apply IZR_le. apply Z.le_trans with (1 := A). assert (2 ^ 1074 <= 10 ^ 324)%Z by (vm_compute; discriminate). nia.
  - assert (powerRZ 10 (exponent10 n d) < powerRZ 10 309); [|apply ten_lt_inv in H0; lia].
    apply Rle_lt_trans with (1 := L). apply (Rmult_lt_reg_r (IZR d)); auto. unfold Rdiv. rewrite Rmult_assoc, Rinv_l, Rmult_1_r by lra. rewrite ten_Z, <- mult_IZR by lia.
    apply IZR_lt. assert (2 ^ 1024 <= 10 ^ 309)%Z by (vm_compute; discriminate). nia.
Qed.
Lemma g_head P n d : (1 <= P)%Z -> (0 < n)%Z -> (0 < d)%Z -> hd 0%Z (g_positive P n d) <> 45%Z.
Proof.
  intros HP N D. unfold g_positive. destruct (significant P n d) as (q, x). set (ds := digits_n (Z.to_nat P) q).
  assert (H : forall k r, (1 <= k)%nat -> hd 0%Z (chars (firstn k ds) ++ r) <> 45%Z).
  { intros k r K. pose proof (digits_digs (Z.to_nat P) q) as DG. pose proof (digits_len (Z.to_nat P) q) as LN. fold ds in DG, LN. destruct ds as [|y s]; [cbn in LN; lia|]. destruct k; [lia|]. cbn [chars firstn map app hd]. inversion DG; subst. lia. }
  destruct (_ || _)%bool; [apply H; lia|]. destruct (Z.leb_spec 0 x); [apply H; lia|]. cbn [hd]. lia.
Qed.

(** ** C120 *)
(** Every finite double is printed as a decimal number whose relative error is at most half a unit of the last of the P
    digits: 5e-6 for coordinates (P = 6), 5e-9 for momenta (P = 9). *)
Theorem number_printed P bits v : (1 <= P)%Z -> (0 <= bits < 2 ^ 64)%Z -> double_value bits = Some v ->
  exists me, read_decimal (printf_g P bits) = Some me /\ Rabs (dec me - v) <= 1 / 2 * powerRZ 10 (1 - P) * Rabs v.
Proof.
  intros HP B. unfold double_value, printf_g. destruct (double_of bits) as [((neg & n) & d)|] eqn:E; [|discriminate]. intros V. injection V as <-.
  destruct (double_bounds bits neg n d B E) as (N0 & D0 & BD). assert (D' : 0 < IZR d) by (apply IZR_lt; auto).
  destruct (Z.eqb_spec n 0) as [->|NZ].
  - exists (0, 0)%Z. split; [destruct neg; reflexivity|]. unfold dec, Rdiv. cbn [fst snd]. rewrite !Rmult_0_l, Rmult_0_r, Rminus_0_r, Rabs_R0. lra.
  - destruct BD as (B1 & B2); [lia|]. pose proof (exponent_bounds n d ltac:(lia) D0 B1 B2) as XB.
    destruct (significant P n d) as (q, x) eqn:SG. destruct (significant_spec P n d q x HP ltac:(lia) D0 SG) as (Q & XX & ER).
    destruct (g_reads P n d q x HP ltac:(lia) D0 SG ltac:(lia)) as ((m & e) & RD & DV). destruct (exponent_spec n d ltac:(lia) D0) as (LO & _).
    set (v := IZR n / IZR d) in *. assert (V0 : 0 < v) by (pose proof (ten_pos (exponent10 n d)); lra).
    assert (ERR : Rabs (dec (m, e) - v) <= 1 / 2 * powerRZ 10 (1 - P) * v).
    { rewrite DV. apply Rle_trans with (1 := ER). replace (exponent10 n d - (P - 1))%Z with (1 - P + exponent10 n d)%Z by lia. rewrite ten_add. pose proof (ten_pos (1 - P)). rewrite Rmult_assoc. apply Rmult_le_compat_l; [lra|]. apply Rmult_le_compat_l; lra. }
    destruct neg; cbn [app].
    + exists ((- m)%Z, e). cbn [read_decimal]. rewrite RD. split; auto. replace (dec ((- m)%Z, e)) with (- dec (m, e)) by (unfold dec; cbn [fst snd]; rewrite opp_IZR; ring).
      replace (- dec (m, e) - -1 * v) with (- (dec (m, e) - v)) by ring. rewrite Rabs_Ropp. replace (-1 * v) with (- v) by ring. rewrite Rabs_Ropp, (Rabs_right v) by lra. exact ERR.
    + exists (m, e). rewrite Rmult_1_l, (Rabs_right v) by lra. split; [|exact ERR].
      pose proof (g_head P n d HP ltac:(lia) D0) as HD. unfold read_decimal. destruct (g_positive P n d) as [|c r]; [exact RD|]. cbn in HD.
      destruct (Z.eq_dec c 45); [congruence|]. destruct c as [|c|c]; auto. do 6 (destruct c; auto; try congruence).
Qed.
Print Assumptions number_printed.
Open Scope Z_scope.
Lemma fraction_len l : (length (fraction l) <= S (length l))%nat.
Proof. unfold fraction. pose proof (strip_len l). destruct (strip l); cbn [length] in *; [lia|]. rewrite chars_len. cbn [length]. lia. Qed.
Lemma g_length P n d q x : 1 <= P -> significant P n d = (q, x) ->
  Z.of_nat (length (g_positive P n d)) <= P + (if Z.abs x <? 100 then 5 else 6).
Proof.
  intros HP E. unfold g_positive. rewrite E. set (ds := digits_n (Z.to_nat P) q). assert (LS : length ds = Z.to_nat P) by apply digits_len.
  destruct ((x <? -4) || (P <=? x))%bool eqn:C.
  - rewrite !app_length, chars_len, firstn_length, LS. pose proof (fraction_len (skipn 1 ds)) as F. rewrite skipn_length, LS in F.
    unfold exponent_text. cbn [length]. destruct (Z.abs x <? 100); rewrite chars_len, digits_len; lia.
  - apply Bool.orb_false_iff in C as (C1 & C2). apply Z.ltb_ge in C1. apply Z.leb_gt in C2.
    assert (5 <= (if Z.abs x <? 100 then 5 else 6)) by (destruct (_ <? _); lia). destruct (Z.leb_spec 0 x).
    + rewrite app_length, chars_len, firstn_length, LS. pose proof (fraction_len (skipn (Z.to_nat (x + 1)) ds)) as F. rewrite skipn_length, LS in F. lia.
    + cbn [length]. pose proof (fraction_len (repeat 0 (Z.to_nat (- x - 1)) ++ ds)) as F. rewrite app_length, repeat_length, LS in F. lia.
Qed.
(** The text of a number has at most 6 characters beside its P digits, hence fits the buffer of as_double and
    as_precise_double, except for negative numbers with an exponent of three digits. *)
Theorem text_fits P bits : 1 <= P -> 0 <= bits < 2 ^ 64 ->
  (bits < 2 ^ 63 \/ forall v, double_value bits = Some v -> v = 0%R \/ (powerRZ 10 (-99) <= Rabs v < powerRZ 10 99)%R) ->
  Z.of_nat (length (printf_g P bits)) <= P + 6.
Proof.
  intros HP B H. unfold printf_g. destruct (double_of bits) as [((neg & n) & d)|] eqn:E.
  - destruct (double_bounds bits neg n d B E) as (N0 & D0 & BD). rewrite app_length.
    destruct (Z.eqb_spec n 0) as [->|NZ]; [destruct neg; cbn; lia|]. destruct (significant P n d) as (q, x) eqn:SG. pose proof (g_length P n d q x HP SG) as L.
    assert (NG : neg = (2 ^ 63 <=? bits)). { unfold double_of in E. destruct (_ =? 2047); [discriminate|]. injection E. congruence. }
    destruct H as [H|H].
    + replace (2 ^ 63 <=? bits) with false in NG by (symmetry; apply Z.leb_gt; lia). subst neg. cbn [length]. destruct (_ <? 100); lia.
    + unfold double_value in H. rewrite E in H. specialize (H _ eq_refl). assert (D' : (0 < IZR d)%R) by (apply IZR_lt; auto). assert (N' : (0 < IZR n)%R) by (apply IZR_lt; lia).
      destruct (significant_spec P n d q x HP ltac:(lia) D0 SG) as (_ & XX & _). destruct (exponent_spec n d ltac:(lia) D0) as (LO & HI).
      set (v := (IZR n / IZR d)%R) in *. assert (V0 : (0 < v)%R) by (apply Rdiv_lt_0_compat; auto).
      assert (AV : Rabs ((if neg then -1 else 1) * v) = v) by (destruct neg; [replace (-1 * v)%R with (- v)%R by ring; rewrite Rabs_Ropp|rewrite Rmult_1_l]; apply Rabs_right; lra).
      destruct H as [H|(H1 & H2)]; [exfalso; destruct neg; lra|]. rewrite AV in H1, H2.
      assert (exponent10 n d < 99) by (apply ten_lt_inv; lra). assert (-99 < exponent10 n d + 1) by (apply ten_lt_inv; lra).
      assert (length (if neg then [45] else []) <= 1)%nat by (destruct neg; cbn; lia).
      replace (Z.abs x <? 100) with true in L by (symmetry; apply Z.ltb_lt; lia). rewrite Nat2Z.inj_add. destruct neg; cbn [length] in *; lia.
  - rewrite app_length. destruct (_ <=? bits), (_ =? 0); cbn; lia.
Qed.
Print Assumptions text_fits.
Lemma half_ten k : 0 <= k -> (1 / 2 * powerRZ 10 (- k) = 5 / IZR (10 ^ (k + 1)))%R.
Proof.
  intros K. rewrite Z.pow_add_r, mult_IZR, <- ten_Z by lia. pose proof (ten_opp k) as T. pose proof (ten_pos k) as P. change (IZR (10 ^ 1)) with 10%R.
  apply Rmult_eq_reg_r with (powerRZ 10 k); [|lra]. rewrite Rmult_assoc, T. field. lra.
Qed.
(** Coordinates and momenta in the range of every simulation are printed. *)
Theorem printed bits v : 0 <= bits < 2 ^ 64 -> double_value bits = Some v -> (v = 0 \/ powerRZ 10 (-99) <= Rabs v < powerRZ 10 99)%R ->
  exists t u m1 m2, show_double bits = Ok t /\ show_precise bits = Ok u /\ read_decimal t = Some m1 /\ read_decimal u = Some m2 /\
    (Rabs (dec m1 - v) <= 5 / 1000000 * Rabs v)%R /\ (Rabs (dec m2 - v) <= 5 / 1000000000 * Rabs v)%R.
Proof.
  intros B V H. assert (FIT : forall P, 1 <= P -> Z.of_nat (length (printf_g P bits)) <= P + 6).
  { intros P HP. apply text_fits; auto. right. intros w W. rewrite V in W. injection W as <-. auto. }
  destruct (number_printed 6 bits v ltac:(lia) B V) as (m1 & R1 & E1). destruct (number_printed 9 bits v ltac:(lia) B V) as (m2 & R2 & E2).
  exists (printf_g 6 bits), (printf_g 9 bits), m1, m2. pose proof (FIT 6 ltac:(lia)) as F6. pose proof (FIT 9 ltac:(lia)) as F9.
  unfold show_double, show_precise, into_buffer. replace (Z.of_nat (length (printf_g 6 bits)) <? 13) with true by (symmetry; apply Z.ltb_lt; lia). replace (Z.of_nat (length (printf_g 9 bits)) <? 16) with true by (symmetry; apply Z.ltb_lt; lia).
  splits; auto.
  - apply Rle_trans with (1 := E1). apply Rmult_le_compat_r; [apply Rabs_pos|]. right. exact (half_ten 5 ltac:(lia)).
  - apply Rle_trans with (1 := E2). apply Rmult_le_compat_r; [apply Rabs_pos|]. right. exact (half_ten 8 ltac:(lia)).
Qed.
Print Assumptions printed.
(** pi *)
Example printed_ex : show_double 0x400921fb54442d18 = Ok (codes "3.14159"%string) /\ show_precise 0x400921fb54442d18 = Ok (codes "3.14159265"%string) /\
  show_double 0xc1dfffffffc00000 = Ok (codes "-2.14748e+09"%string) /\ show_double 0x3f1a36e2eb1c432d = Ok (codes "0.0001"%string).
Proof. vm_compute. auto. Qed.
(** The buffers are one character too small for a negative number with a three-digit exponent: the assertion fails, and
    without assertions the last digit of the exponent is lost (-1.23457e-100 would appear as -1.23457e-10). *)
Theorem small_buffer_refuted : show_double 0xab314831d5a439f1 = UB UB_assert /\ show_precise 0xab31482fe61959a6 = UB UB_assert /\
  printf_g 6 0xab314831d5a439f1 = codes "-1.23457e-100"%string.
Proof. vm_compute. auto. Qed.
Print Assumptions small_buffer_refuted.
