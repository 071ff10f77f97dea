From Coq Require Import ZArith List Bool Lia Ascii String.
From Verif Require Import Base PdgModel PdgSpec PdgProofs PdgParse.
Import ListNotations.
Open Scope Z_scope.
Open Scope bool_scope.

(** ** Digit lists *)
Lemma dig_cons0 ds k : dig (0 :: ds) k = dig ds k.
Proof.
  unfold dig. cbn [rev]. destruct (lt_dec k (List.length (rev ds))).
  - now rewrite app_nth1.
  - rewrite app_nth2 by lia. rewrite (nth_overflow (rev ds)) by lia.
    destruct (k - List.length (rev ds))%nat as [|[|]]; reflexivity.
Qed.
Lemma dig_app_last ds x k : dig (ds ++ [x]) k = match k with O => x | S k' => dig ds k' end.
Proof. unfold dig. rewrite rev_app_distr. cbn. now destruct k. Qed.

Lemma dec_digits_dig f : forall n k, 0 <= n < 10 ^ Z.of_nat f ->
  dig (dec_digits f n) k = (n / 10 ^ Z.of_nat k) mod 10.
Proof.
  induction f; intros n k Hn.
  - cbn in Hn. replace n with 0 by lia. rewrite Z.div_0_l by (apply Z.pow_nonzero; lia).
    cbn. unfold dig. cbn. now destruct k.
  - cbn [dec_digits]. destruct (Z.ltb_spec n 10).
    + unfold dig. cbn [rev app]. destruct k.
      * cbn. rewrite Z.div_1_r, Z.mod_small; lia.
      * cbn [nth]. rewrite Nat2Z.inj_succ.
        rewrite Z.div_small.
        -- now destruct k.
        -- split; [lia|]. rewrite Z.pow_succ_r by lia.
           pose proof (Z.pow_pos_nonneg 10 (Z.of_nat k) ltac:(lia) ltac:(lia)). lia.
    + rewrite dig_app_last. destruct k.
      * cbn. now rewrite Z.div_1_r.
      * rewrite IHf.
        -- rewrite Nat2Z.inj_succ, Z.pow_succ_r by lia. rewrite Z.div_div; [reflexivity|lia|].
           apply Z.pow_pos_nonneg; lia.
        -- rewrite Nat2Z.inj_succ, Z.pow_succ_r in Hn by lia. split.
           ++ apply Z.div_pos; lia.
           ++ apply Z.div_lt_upper_bound; lia.
Qed.

Lemma dec_digits_range f : forall n, 0 <= n -> Forall (fun d => 0 <= d <= 9) (dec_digits f n).
Proof.
  induction f; intros n Hn; cbn [dec_digits]; [constructor|].
  destruct (Z.ltb_spec n 10).
  - constructor; [lia|constructor].
  - apply Forall_app. split.
    + apply IHf. apply Z.div_pos; lia.
    + constructor; [|constructor]. pose proof (Z.mod_pos_bound n 10). lia.
Qed.

Lemma dec_digits_length_le f : forall n k, (1 <= k)%nat -> 0 <= n < 10 ^ Z.of_nat k ->
  (List.length (dec_digits f n) <= k)%nat.
Proof.
  induction f; intros n k Hk Hn; cbn [dec_digits]; [cbn; lia|].
  destruct (Z.ltb_spec n 10); [cbn; lia|].
  rewrite app_length. cbn [List.length].
  destruct k as [|[|k]]; [lia| cbn in Hn; lia |].
  enough (List.length (dec_digits f (n / 10)) <= S k)%nat by lia.
  apply IHf; [lia|]. rewrite Nat2Z.inj_succ, Z.pow_succ_r in Hn by lia. split.
  - apply Z.div_pos; lia.
  - apply Z.div_lt_upper_bound; lia.
Qed.
Lemma dec_digits_length_ge f : forall n k, (k < f)%nat -> 10 ^ Z.of_nat k <= n ->
  (S k <= List.length (dec_digits f n))%nat.
Proof.
  induction f; intros n k Hk Hn; cbn [dec_digits]; [lia|].
  destruct k.
  - destruct (Z.ltb_spec n 10); [cbn; lia|]. rewrite app_length; cbn; lia.
  - rewrite Nat2Z.inj_succ, Z.pow_succ_r in Hn by lia.
    pose proof (Z.pow_pos_nonneg 10 (Z.of_nat k) ltac:(lia) ltac:(lia)).
    destruct (Z.ltb_spec n 10); [lia|].
    rewrite app_length. cbn [List.length].
    enough (S k <= List.length (dec_digits f (n / 10)))%nat by lia.
    apply IHf; [lia|]. apply Z.div_le_lower_bound; lia.
Qed.

Lemma digit_eq k n lo d hi :
  n = lo + (d + hi * 10) * 10 ^ Z.of_nat k -> 0 <= lo < 10 ^ Z.of_nat k -> 0 <= d < 10 ->
  (n / 10 ^ Z.of_nat k) mod 10 = d.
Proof.
  intros -> Hlo Hd. rewrite Z.div_add by lia. rewrite (Z.div_small lo) by lia.
  rewrite Z.add_0_l, Z.mod_add by lia. apply Z.mod_small; lia.
Qed.

Ltac dlia :=
  repeat match goal with
  | |- context [10 ^ Z.of_nat ?k] => let v := eval vm_compute in (10 ^ Z.of_nat k) in change (10 ^ Z.of_nat k) with v
  end; lia.

(** ** Characters *)
Lemma digit_dec d : in09 d -> digit_of_char (48 + d) = Ok d.
Proof.
  unfold in09, digit_of_char. intros.
  replace ((48 <=? 48 + d) && (48 + d <=? 57)) with true.
  - f_equal. lia.
  - symmetry. rewrite andb_true_iff, !Z.leb_le. lia.
Qed.
Lemma digit_hex d : h4 d -> digit_of_char (hex_char d) = Ok d.
Proof.
  unfold h4, hex_char, digit_of_char. intros. destruct (Z.ltb_spec d 10).
  - replace ((48 <=? 48 + d) && (48 + d <=? 57)) with true.
    + f_equal. lia.
    + symmetry. rewrite andb_true_iff, !Z.leb_le. lia.
  - replace ((48 <=? 87 + d) && (87 + d <=? 57)) with false.
    2:{ symmetry. rewrite andb_false_iff, !Z.leb_gt. lia. }
    replace ((65 <=? 87 + d) && (87 + d <=? 70)) with false.
    2:{ symmetry. rewrite andb_false_iff, !Z.leb_gt. lia. }
    replace ((97 <=? 87 + d) && (87 + d <=? 102)) with true.
    2:{ symmetry. rewrite andb_true_iff, !Z.leb_le. lia. }
    f_equal. lia.
Qed.
Lemma digit_cases c : (exists d, digit_of_char c = Ok d /\ h4 d /\ is_hex_char c)
  \/ (digit_of_char c = Throw E_invalid_pdg /\ ~ is_hex_char c).
Proof.
  unfold digit_of_char, is_hex_char, h4.
  destruct ((48 <=? c) && (c <=? 57)) eqn:E1.
  { rewrite andb_true_iff, !Z.leb_le in E1. left. eexists. split; [reflexivity|]. lia. }
  destruct ((65 <=? c) && (c <=? 70)) eqn:E2.
  { rewrite andb_true_iff, !Z.leb_le in E2. left. eexists. split; [reflexivity|]. lia. }
  destruct ((97 <=? c) && (c <=? 102)) eqn:E3.
  { rewrite andb_true_iff, !Z.leb_le in E3. left. eexists. split; [reflexivity|]. lia. }
  right. split; [reflexivity|].
  rewrite andb_false_iff, !Z.leb_gt in E1, E2, E3. lia.
Qed.

Lemma mapM_map {A B} (f : B -> res A) (g : A -> B) l :
  Forall (fun x => f (g x) = Ok x) l -> mapM f (map g l) = Ok l.
Proof. induction 1; cbn; [reflexivity|]. rewrite H. cbn. now rewrite IHForall. Qed.

Lemma mapM_digit_spec l :
  (exists ds, mapM digit_of_char l = Ok ds /\ List.length ds = List.length l
     /\ Forall h4 ds /\ Forall is_hex_char l
     /\ (Forall is_dec_char l -> l = map (Z.add 48) ds /\ Forall in09 ds))
  \/ (mapM digit_of_char l = Throw E_invalid_pdg /\ ~ Forall is_hex_char l).
Proof.
  induction l as [|c l IH]; cbn [mapM].
  - left. exists []. splits; auto.
  - destruct (digit_cases c) as [(d & E & Hd & Hc)|[E Hc]]; rewrite E; cbn [rbind].
    + destruct IH as [(ds & E' & HL & HF & HH & HD)|[E' HF]]; rewrite E'; cbn [rbind].
      * left. exists (d :: ds). splits; auto; [cbn [List.length]; lia|].
        intros Hdec. inversion Hdec as [|? ? Hc' Hl']; subst.
        destruct (HD Hl') as [-> HF9].
        assert (Ed : d = c - 48).
        { unfold digit_of_char, is_dec_char in *.
          replace ((48 <=? c) && (c <=? 57)) with true in E; [congruence|].
          symmetry. rewrite andb_true_iff, !Z.leb_le. lia. }
        split.
        -- cbn [map]. f_equal. lia.
        -- constructor; auto. unfold in09, is_dec_char in *. lia.
      * right. split; auto. intros K. inversion K; auto.
    + right. split; auto. intros K. inversion K; auto.
Qed.

(** ** Result of parsing a digit list of length 1..8 *)
Definition digits_of_list (anti : bool) (d : list Z) : digits :=
  Digits anti (dig d 6) (dig d 5) (dig d 4) (dig d 3) (dig d 2) (dig d 1) ((dig d 7 + dig d 0) mod 16).

Definition parse_result (anti : bool) (d : list Z) : res pdg :=
  if (6 <? dig d 3) || (6 <? dig d 2) || (6 <? dig d 1) then Throw E_invalid_pdg
  else _ <- check (wd (digits_of_list anti d)) ;; Ok (wd (digits_of_list anti d)).

Lemma dig_h4 d k : Forall h4 d -> h4 (dig d k).
Proof.
  intros H. unfold dig. destruct (lt_dec k (List.length (rev d))) as [L|L].
  - rewrite Forall_forall in H. apply H. apply in_rev. now apply nth_In.
  - rewrite nth_overflow by lia. unfold h4; lia.
Qed.
Lemma dig_in09 d k : Forall in09 d -> in09 (dig d k).
Proof.
  intros H. unfold dig. destruct (lt_dec k (List.length (rev d))) as [L|L].
  - rewrite Forall_forall in H. apply H. apply in_rev. now apply nth_In.
  - rewrite nth_overflow by lia. unfold in09; lia.
Qed.

Lemma digits_of_list_hexd a d : Forall h4 d -> hexd (digits_of_list a d).
Proof.
  intros H. unfold hexd, digits_of_list; cbn.
  splits; try (now apply dig_h4). unfold h4. apply Z.mod_pos_bound. lia.
Qed.

Definition signpre (s : list Z) : Prop := s = [] \/ s = [43] \/ s = [45].
Definition preanti (s : list Z) : bool := match s with 45 :: _ => true | _ => false end.

Lemma hex_not_sign c : is_hex_char c -> (c =? 45) = false /\ (c =? 43) = false.
Proof. unfold is_hex_char. rewrite !Z.eqb_neq. lia. Qed.

Lemma sfs_body pre body : signpre pre -> Forall is_hex_char body ->
  set_from_string (pre ++ body) =
    if Nat.eqb (List.length body) 10 then
        match body with
        | x :: y :: ds =>
            if (x =? 49) && (y =? 48) then
              d <- mapM digit_of_char ds ;;
              let g k := nth k d 0 in
              Ok (pack_nucleus (sgn (preanti pre)) (g 0%nat)
                    (100 * g 1%nat + 10 * g 2%nat + g 3%nat)
                    (100 * g 4%nat + 10 * g 5%nat + g 6%nat) (g 7%nat))
            else Throw E_invalid_pdg
        | _ => Throw E_invalid_pdg
        end
      else if Nat.ltb 8 (List.length body) then Throw E_invalid_pdg
      else if Nat.eqb (List.length body) 0 then Throw E_invalid_pdg
      else
        d <- mapM digit_of_char body ;;
        if (6 <? dig d 3) || (6 <? dig d 2) || (6 <? dig d 1) then Throw E_invalid_pdg
        else
          let w := pack_digits (sgn (preanti pre)) 0 0 (dig d 6) (dig d 5) (dig d 4) (dig d 3) (dig d 2)
                     (dig d 1) (dig d 7 + dig d 0) in
          _ <- check w ;; Ok w.
Proof.
  intros [-> | [-> | ->]] HF.
  - destruct body as [|c t]; [reflexivity|].
    inversion HF as [|? ? Hc Ht]; subst. destruct (hex_not_sign c Hc) as [E1 E2].
    cbn [app set_from_string preanti sgn]. now rewrite E1, E2.
  - reflexivity.
  - reflexivity.
Qed.

Lemma sfs_digits pre body ds : signpre pre ->
  mapM digit_of_char body = Ok ds -> Forall h4 ds -> Forall is_hex_char body ->
  (1 <= List.length body <= 8)%nat ->
  set_from_string (pre ++ body) = parse_result (preanti pre) ds.
Proof.
  intros Hp E H4 HH HL. rewrite sfs_body by assumption.
  destruct (Nat.eqb_spec (List.length body) 10); [lia|].
  destruct (Nat.ltb_spec 8 (List.length body)); [lia|].
  destruct (Nat.eqb_spec (List.length body) 0); [lia|].
  rewrite E. cbn [rbind]. unfold parse_result.
  destruct (_ || _); [reflexivity|].
  assert (Ew : pack_digits (sgn (preanti pre)) 0 0 (dig ds 6) (dig ds 5) (dig ds 4) (dig ds 3) (dig ds 2)
                     (dig ds 1) (dig ds 7 + dig ds 0) = wd (digits_of_list (preanti pre) ds)).
  { rewrite pack_pk; try (now apply dig_h4); try apply h1_sgn; try (unfold h1, h2; lia).
    unfold wd, digits_of_list; cbn. reflexivity. }
  cbv zeta. now rewrite Ew.
Qed.

(** ** Everything accepted from a string *)
Lemma sfs_split s : exists pre body, s = pre ++ body /\ signpre pre /\ body = unsigned_part s
   /\ (body = s -> pre = []) .
Proof.
  destruct s as [|c t].
  - exists [], []. splits; auto. now left.
  - unfold unsigned_part. destruct (Z.eqb_spec c 45); [subst|destruct (Z.eqb_spec c 43); [subst|]].
    + exists [45], t. splits; auto. right; now right.
      cbn. intros K. exfalso. assert (L : List.length t = List.length (45 :: t)) by congruence. cbn in L. lia.
    + exists [43], t. splits; auto. right; now left.
      cbn. intros K. exfalso. assert (L : List.length t = List.length (43 :: t)) by congruence. cbn in L. lia.
    + exists [], (c :: t). splits; auto. now left.
Qed.

Lemma sfs_nonhex s : ~ Forall is_hex_char (unsigned_part s) -> set_from_string s = Throw E_invalid_pdg.
Proof.
  intros H. destruct s as [|c t]; [reflexivity|].
  unfold set_from_string. unfold unsigned_part in H.
  set (body := if (c =? 45) || (c =? 43) then t else c :: t) in *.
  destruct (Nat.eqb_spec (List.length body) 10) as [HL|].
  - destruct body as [|x [|y ds]]; try reflexivity.
    destruct (Z.eqb_spec x 49); [|reflexivity]. destruct (Z.eqb_spec y 48); [|reflexivity]. cbn [andb].
    destruct (mapM_digit_spec ds) as [(d & E & _ & _ & HF & _)|[E _]]; rewrite E; [|reflexivity].
    exfalso. apply H. constructor; [unfold is_hex_char; lia|]. constructor; [unfold is_hex_char; lia|]. exact HF.
  - destruct (Nat.ltb _ _); [reflexivity|]. destruct (Nat.eqb _ 0); [reflexivity|].
    destruct (mapM_digit_spec body) as [(d & E & _ & _ & HF & _)|[E _]]; rewrite E; [|reflexivity].
    contradiction.
Qed.

Lemma sfs_sound s w : set_from_string s = Ok w ->
  Forall is_hex_char (unsigned_part s)
  /\ ((exists d, (1 <= List.length (unsigned_part s) <= 8)%nat
         /\ w = wd d /\ hexd d /\ physical d /\ in06 (d_q1 d) /\ in06 (d_q2 d) /\ in06 (d_q3 d)
         /\ d_anti d = preanti s
         /\ (Forall is_dec_char (unsigned_part s) -> digits_ok d
             /\ exists ds, unsigned_part s = map (Z.add 48) ds /\ Forall in09 ds /\ d = digits_of_list (preanti s) ds))
      \/ (exists l z a i, List.length (unsigned_part s) = 10%nat /\ h1 (sgn (preanti s)) /\
           w = pack_nucleus (sgn (preanti s)) l z a i
         /\ (Forall is_dec_char (unsigned_part s) ->
              exists ds, unsigned_part s = map (Z.add 48) ds /\ Forall in09 ds /\
                List.length ds = 10%nat /\ nth 0 ds 0 = 1 /\ nth 1 ds 0 = 0
                /\ l = nth 2 ds 0 /\ z = 100 * nth 3 ds 0 + 10 * nth 4 ds 0 + nth 5 ds 0
                /\ a = 100 * nth 6 ds 0 + 10 * nth 7 ds 0 + nth 8 ds 0 /\ i = nth 9 ds 0))).
Proof.
  intros H.
  destruct (mapM_digit_spec (unsigned_part s)) as [(ds & E & HL & H4 & HH & HD)|[_ HF]].
  2:{ rewrite sfs_nonhex in H by assumption. discriminate. }
  split; [exact HH|].
  destruct (sfs_split s) as (pre & body & Es & Hp & Eb & Hpre).
  rewrite <- Eb in *.
  assert (Epa : preanti pre = preanti s).
  { subst s. destruct Hp as [-> | [-> | ->]]; try reflexivity. cbn [app preanti].
    destruct body as [|c t]; [reflexivity|]. inversion HH as [|? ? Hc _]; subst.
    destruct (hex_not_sign c Hc) as [N1 N2]. apply Z.eqb_neq in N1.
    cbn. destruct c as [|p|p]; try reflexivity.
    do 7 (try (destruct p as [p|p|])); try reflexivity; exfalso; apply N1; reflexivity. }
  rewrite Es in H.
  destruct (Nat.eqb_spec (List.length body) 10) as [L10|L10].
  - right. rewrite sfs_body in H by assumption. rewrite L10 in H. cbn [Nat.eqb] in H.
    destruct body as [|x [|y t]]; try discriminate.
    destruct ((x =? 49) && (y =? 48)) eqn:Exy; [|discriminate].
    destruct (mapM_digit_spec t) as [(dt & E' & HL' & H4' & HH' & HD')|[E' _]]; rewrite E' in H; [|discriminate].
    cbn [rbind] in H. injection H as Hw. rewrite Epa in Hw.
    do 4 eexists. split; [exact L10|]. split; [apply h1_sgn|]. split; [symmetry; exact Hw|].
    intros Hdec. inversion Hdec as [|? ? Hx Hdec1]; subst. inversion Hdec1 as [|? ? Hy Hdec2]; subst.
    destruct (HD' Hdec2) as [Et H9]. rewrite andb_true_iff, !Z.eqb_eq in Exy. destruct Exy as [-> ->].
    exists (1 :: 0 :: dt). splits.
    + cbn. now rewrite <- Et.
    + constructor; [unfold in09; lia|]. constructor; [unfold in09; lia|]. exact H9.
    + cbn in *. lia.
    + reflexivity.
    + reflexivity.
    + reflexivity.
    + reflexivity.
    + reflexivity.
    + reflexivity.
  - destruct (Nat.ltb_spec 8 (List.length body)) as [L8|L8].
    { rewrite sfs_body in H by assumption. apply Nat.eqb_neq in L10. rewrite L10 in H.
      apply Nat.ltb_lt in L8. rewrite L8 in H. discriminate. }
    destruct (Nat.eq_dec (List.length body) 0) as [L0|L0].
    { rewrite sfs_body in H by assumption. rewrite L0 in H. discriminate. }
    left. rewrite (sfs_digits pre body ds) in H; try assumption; try lia.
    unfold parse_result in H.
    destruct ((6 <? dig ds 3) || (6 <? dig ds 2) || (6 <? dig ds 1)) eqn:E6; [discriminate|].
    rewrite !orb_false_iff, !Z.ltb_ge in E6. destruct E6 as [[Q1 Q2] Q3].
    pose proof (digits_of_list_hexd (preanti pre) ds H4) as Hd.
    destruct (check_cases (wd (digits_of_list (preanti pre) ds))) as [C|C]; rewrite C in H; cbn [rbind] in H; [|discriminate].
    injection H as <-.
    pose proof (dig_h4 ds 3 H4). pose proof (dig_h4 ds 2 H4). pose proof (dig_h4 ds 1 H4). unfold h4 in *.
    exists (digits_of_list (preanti pre) ds). splits; auto; try lia.
    + now apply check_physical.
    + unfold in06, digits_of_list; cbn. lia.
    + unfold in06, digits_of_list; cbn. lia.
    + unfold in06, digits_of_list; cbn. lia.
    + intros Hdec. destruct (HD Hdec) as [Eb' H9]. split.
      * unfold digits_ok, digits_of_list, in06; cbn. splits; try (now apply dig_in09); try lia.
        all: pose proof (Z.mod_pos_bound (dig ds 7 + dig ds 0) 16); lia.
      * exists ds. now rewrite Epa.
Qed.

Lemma sfs_no_ub s : (exists w, set_from_string s = Ok w) \/ set_from_string s = Throw E_invalid_pdg.
Proof.
  destruct (mapM_digit_spec (unsigned_part s)) as [(ds & E & HL & H4 & HH & HD)|[_ HF]].
  2:{ right. now apply sfs_nonhex. }
  destruct (sfs_split s) as (pre & body & Es & Hp & Eb & _). rewrite <- Eb in *. rewrite Es.
  rewrite sfs_body by assumption.
  destruct (Nat.eqb _ 10).
  - destruct body as [|x [|y t]]; auto. destruct (_ && _); auto.
    destruct (mapM_digit_spec t) as [(dt & E' & _)|[E' _]]; rewrite E'; cbn [rbind]; eauto.
  - destruct (Nat.ltb _ _); auto. destruct (Nat.eqb _ 0); auto. rewrite E. cbn [rbind].
    destruct (_ || _); auto. cbv zeta.
    match goal with |- context [check ?w] => destruct (check_cases w) as [C|C]; rewrite C end; cbn; eauto.
Qed.

Lemma sfs_bad_length s : (List.length (unsigned_part s) = 0 \/ List.length (unsigned_part s) = 9
   \/ 11 <= List.length (unsigned_part s))%nat -> set_from_string s = Throw E_invalid_pdg.
Proof.
  intros HL. destruct (sfs_no_ub s) as [[w E]|E]; [|exact E].
  destruct (sfs_sound s w E) as [_ [(d & L & _)|(l & z & a & i & L & _)]]; lia.
Qed.

(** ** Decimal output and back *)
Lemma get_decimal_wd d : hexd d -> get_decimal (wd d) = d_decimal d.
Proof.
  intros Hd. destruct (view_proj d Hd) as (Pa & Pn & PR & PL & P1 & P2 & P3 & PJ).
  destruct (wd_fields d Hd) as (_ & _ & En & _).
  unfold get_decimal, asign. rewrite En, Pa, Pn, PR, PL, P1, P2, P3, PJ.
  unfold d_decimal, dec_value. cbn [fold_left map].
  destruct (Z.ltb_spec 9 (d_J d)).
  - rewrite Z.min_l, Z.max_r by lia. f_equal. lia.
  - rewrite Z.min_r, Z.max_l by lia. f_equal. lia.
Qed.

Lemma nucleus_ok_h c : nucleus_ok c -> h1 (sgn (c_anti c)) /\ h6 (c_L c) /\ h10 (c_Z c) /\ h10 (c_A c) /\ h4 (c_I c).
Proof. unfold nucleus_ok, in09, h6, h10, h4. intros. splits; try lia. apply h1_sgn. Qed.

Lemma wn_fields c : nucleus_ok c ->
  word (wn c) /\ nview (wn c) = c /\ is_nucleus (wn c) = true.
Proof.
  intros H. destruct (nucleus_ok_h c H) as (Ha & Hl & Hz & HA & Hi).
  unfold wn, nview, is_nucleus, is_anti.
  rewrite pn_L, pn_Z, pn_A, pn_I, pn_a, pn_nb by assumption. rewrite sgn_eqb. splits.
  - red. now apply pn_range.
  - now destruct c.
  - reflexivity.
Qed.

Lemma get_decimal_wn c : nucleus_ok c -> get_decimal (wn c) = c_decimal c.
Proof.
  intros H. destruct (wn_fields c H) as (_ & Ev & En).
  unfold get_decimal, asign. rewrite En.
  assert (E1 : is_anti (wn c) = c_anti c) by (rewrite <- Ev at 2; reflexivity).
  assert (E2 : nuc_L (wn c) = c_L c) by (rewrite <- Ev at 2; reflexivity).
  assert (E3 : nuc_Z (wn c) = c_Z c) by (rewrite <- Ev at 2; reflexivity).
  assert (E4 : nuc_A (wn c) = c_A c) by (rewrite <- Ev at 2; reflexivity).
  assert (E5 : nuc_I (wn c) = c_I c) by (rewrite <- Ev at 2; reflexivity).
  rewrite E1, E2, E3, E4, E5. unfold c_decimal. f_equal. lia.
Qed.

Definition absdec (d : digits) : Z :=
  Z.min 9 (d_J d) + 10 * d_q3 d + 100 * d_q2 d + 1000 * d_q1 d + 10000 * d_L d + 100000 * d_R d
  + 1000000 * d_n d + Z.max 0 (d_J d - 9) * 10000000.
Lemma d_decimal_abs d : d_decimal d = (if d_anti d then -1 else 1) * absdec d.
Proof. unfold d_decimal, absdec, dec_value. cbn [fold_left map]. f_equal. lia. Qed.

Lemma absdec_range d : digits_ok d -> 0 <= absdec d < 10 ^ 8.
Proof. unfold digits_ok, absdec, in09, in06. intros. lia. Qed.

Lemma absdec_digits d : digits_ok d ->
  let ds := dec_digits 20 (absdec d) in
  dig ds 0 = Z.min 9 (d_J d) /\ dig ds 1 = d_q3 d /\ dig ds 2 = d_q2 d /\ dig ds 3 = d_q1 d
  /\ dig ds 4 = d_L d /\ dig ds 5 = d_R d /\ dig ds 6 = d_n d /\ dig ds 7 = Z.max 0 (d_J d - 9).
Proof.
  intros Hok ds. pose proof (absdec_range d Hok) as Hr.
  assert (E : forall k, dig ds k = (absdec d / 10 ^ Z.of_nat k) mod 10).
  { intros k. apply dec_digits_dig. dlia. }
  rewrite !E. clear E ds.
  unfold digits_ok, in09, in06 in Hok.
  set (j2 := Z.min 9 (d_J d)). set (j1 := Z.max 0 (d_J d - 9)).
  assert (0 <= j2 <= 9) by (unfold j2; lia). assert (0 <= j1 <= 6) by (unfold j1; lia).
  unfold absdec in *. fold j2 j1 in Hr |- *. clearbody j1 j2.
  splits.
  - apply (digit_eq 0 _ 0 j2 (d_q3 d + 10 * d_q2 d + 100 * d_q1 d + 1000 * d_L d + 10000 * d_R d + 100000 * d_n d + 1000000 * j1)); dlia.
  - apply (digit_eq 1 _ j2 (d_q3 d) (d_q2 d + 10 * d_q1 d + 100 * d_L d + 1000 * d_R d + 10000 * d_n d + 100000 * j1)); dlia.
  - apply (digit_eq 2 _ (j2 + 10 * d_q3 d) (d_q2 d) (d_q1 d + 10 * d_L d + 100 * d_R d + 1000 * d_n d + 10000 * j1)); dlia.
  - apply (digit_eq 3 _ (j2 + 10 * d_q3 d + 100 * d_q2 d) (d_q1 d) (d_L d + 10 * d_R d + 100 * d_n d + 1000 * j1)); dlia.
  - apply (digit_eq 4 _ (j2 + 10 * d_q3 d + 100 * d_q2 d + 1000 * d_q1 d) (d_L d) (d_R d + 10 * d_n d + 100 * j1)); dlia.
  - apply (digit_eq 5 _ (j2 + 10 * d_q3 d + 100 * d_q2 d + 1000 * d_q1 d + 10000 * d_L d) (d_R d) (d_n d + 10 * j1)); dlia.
  - apply (digit_eq 6 _ (j2 + 10 * d_q3 d + 100 * d_q2 d + 1000 * d_q1 d + 10000 * d_L d + 100000 * d_R d) (d_n d) (j1)); dlia.
  - apply (digit_eq 7 _ (j2 + 10 * d_q3 d + 100 * d_q2 d + 1000 * d_q1 d + 10000 * d_L d + 100000 * d_R d + 1000000 * d_n d) j1 0); dlia.
Qed.

Lemma to_string_pre x : exists pre, signpre pre /\ preanti pre = (x <? 0)
  /\ to_string x = pre ++ map (Z.add 48) (dec_digits 20 (Z.abs x)).
Proof.
  unfold to_string. destruct (Z.ltb_spec x 0).
  - exists [45]. rewrite Z.abs_neq by lia. splits; auto. right; now right.
  - exists []. rewrite Z.abs_eq by lia. splits; auto. now left.
Qed.

Lemma dec_chars_hex ds : Forall in09 ds -> Forall is_hex_char (map (Z.add 48) ds).
Proof. induction 1; cbn [map]; constructor; auto. unfold in09, is_hex_char in *. lia. Qed.
Lemma dec_chars_map ds : Forall in09 ds -> mapM digit_of_char (map (Z.add 48) ds) = Ok ds.
Proof.
  intros H. apply mapM_map. eapply Forall_impl; [|exact H]. intros a Ha. now apply digit_dec.
Qed.
Lemma in09_h4 ds : Forall in09 ds -> Forall h4 ds.
Proof. apply Forall_impl. unfold in09, h4. lia. Qed.

Lemma absdec_sign d : digits_ok d -> physical d -> d_decimal d <? 0 = d_anti d.
Proof.
  intros Hok Hph. rewrite d_decimal_abs. pose proof (absdec_range d Hok).
  destruct (d_anti d) eqn:E.
  - assert (absdec d <> 0).
    { intros K. assert (d_code d = 0).
      { unfold absdec, digits_ok, in09, in06 in *. unfold d_code, hex_value. cbn [fold_left]. lia. }
      pose proof (physical_code0 d Hok Hph H0). congruence. }
    apply Z.ltb_lt. lia.
  - apply Z.ltb_ge. lia.
Qed.

Lemma string_roundtrip_wd d : digits_ok d -> physical d ->
  set_from_string (to_string (d_decimal d)) = Ok (wd d).
Proof.
  intros Hok Hph. destruct (to_string_pre (d_decimal d)) as (pre & Hp & Epre & Estr).
  rewrite (absdec_sign d Hok Hph) in Epre.
  assert (Eabs : Z.abs (d_decimal d) = absdec d).
  { rewrite d_decimal_abs. pose proof (absdec_range d Hok). destruct (d_anti d); lia. }
  rewrite Eabs in Estr. rewrite Estr.
  pose proof (absdec_range d Hok) as Hr.
  set (ds := dec_digits 20 (absdec d)) in *.
  assert (H9 : Forall in09 ds) by (apply dec_digits_range; lia).
  rewrite (sfs_digits pre (map (Z.add 48) ds) ds).
  - unfold parse_result.
    destruct (absdec_digits d Hok) as (D0 & D1 & D2 & D3 & D4 & D5 & D6 & D7). fold ds in D0, D1, D2, D3, D4, D5, D6, D7.
    assert (Edl : digits_of_list (preanti pre) ds = d).
    { unfold digits_of_list. rewrite D0, D1, D2, D3, D4, D5, D6, D7, Epre.
      assert (EJ : (Z.max 0 (d_J d - 9) + Z.min 9 (d_J d)) mod 16 = d_J d).
      { unfold digits_ok in Hok. rewrite Z.mod_small by lia. lia. }
      rewrite EJ. now destruct d. }
    rewrite Edl, D1, D2, D3.
    replace ((6 <? d_q1 d) || (6 <? d_q2 d) || (6 <? d_q3 d)) with false.
    2:{ symmetry. rewrite !orb_false_iff, !Z.ltb_ge. unfold digits_ok, in06 in Hok. lia. }
    rewrite (proj2 (check_physical d (ok_hexd d Hok)) Hph). reflexivity.
  - exact Hp.
  - now apply dec_chars_map.
  - now apply in09_h4.
  - now apply dec_chars_hex.
  - rewrite map_length. split.
    + unfold ds. cbn [dec_digits]. destruct (absdec d <? 10); [cbn; lia|]. rewrite app_length; cbn; lia.
    + apply (dec_digits_length_le 20 (absdec d) 8); [lia|]. dlia.
Qed.

Lemma ten_digits n : 10 ^ 9 <= n < 10 ^ 10 ->
  exists x9 x8 x7 x6 x5 x4 x3 x2 x1 x0, dec_digits 20 n = [x9; x8; x7; x6; x5; x4; x3; x2; x1; x0]
   /\ x9 = (n / 10^9) mod 10 /\ x8 = (n / 10^8) mod 10 /\ x7 = (n / 10^7) mod 10
   /\ x6 = (n / 10^6) mod 10 /\ x5 = (n / 10^5) mod 10 /\ x4 = (n / 10^4) mod 10
   /\ x3 = (n / 10^3) mod 10 /\ x2 = (n / 10^2) mod 10 /\ x1 = (n / 10^1) mod 10 /\ x0 = (n / 10^0) mod 10.
Proof.
  intros H.
  assert (E : forall k, dig (dec_digits 20 n) k = (n / 10 ^ Z.of_nat k) mod 10).
  { intros k. apply dec_digits_dig. dlia. }
  pose proof (dec_digits_length_le 20 n 10 ltac:(lia) ltac:(dlia)) as L1.
  pose proof (dec_digits_length_ge 20 n 9 ltac:(lia) ltac:(dlia)) as L2.
  assert (L : List.length (dec_digits 20 n) = 10%nat) by lia.
  set (ds := dec_digits 20 n) in *. clearbody ds.
  do 11 (destruct ds as [|? ds]; try discriminate).
  do 10 eexists. split; [reflexivity|].
  pose proof (E 0%nat) as E0. pose proof (E 1%nat) as E1. pose proof (E 2%nat) as E2. pose proof (E 3%nat) as E3.
  pose proof (E 4%nat) as E4. pose proof (E 5%nat) as E5. pose proof (E 6%nat) as E6. pose proof (E 7%nat) as E7.
  pose proof (E 8%nat) as E8. pose proof (E 9%nat) as E9. splits; assumption.
Qed.

Lemma three_digits n k : 0 <= n ->
  100 * ((n / (10^2 * 10 ^ k)) mod 10) + 10 * ((n / (10 ^ 1 * 10 ^ k)) mod 10) + (n / 10 ^ k) mod 10
  = (n / 10 ^ k) mod 1000 \/ k < 0.
Proof.
  intros Hn. destruct (Z.ltb_spec k 0); [now right|left].
  pose proof (Z.pow_pos_nonneg 10 k ltac:(lia) ltac:(lia)).
  rewrite (Z.mul_comm (10^2) (10^k)), (Z.mul_comm (10^1) (10^k)). rewrite <- !Z.div_div by lia.
  set (m := n / 10 ^ k). assert (0 <= m) by (apply Z.div_pos; lia). clearbody m.
  change (10^2) with 100. change (10^1) with 10.
  replace (m / 100) with (m / 10 / 10) by (rewrite Z.div_div by lia; reflexivity).
  pose proof (Z.div_mod m 10 ltac:(lia)) as M1. pose proof (Z.div_mod (m / 10) 10 ltac:(lia)) as M2.
  pose proof (Z.div_mod (m / 10 / 10) 10 ltac:(lia)) as M3.
  pose proof (Z.mod_pos_bound m 10 ltac:(lia)). pose proof (Z.mod_pos_bound (m / 10) 10 ltac:(lia)).
  pose proof (Z.mod_pos_bound (m / 10 / 10) 10 ltac:(lia)).
  apply (Z.mod_unique_pos m 1000 (m / 10 / 10 / 10)); lia.
Qed.

Lemma nuc_digit_values c : nucleus_ok c ->
  let n := 10 ^ 9 + c_L c * 10 ^ 7 + c_Z c * 10 ^ 4 + c_A c * 10 + c_I c in
  (n / 10^9) mod 10 = 1 /\ (n / 10^8) mod 10 = 0 /\ (n / 10^7) mod 10 = c_L c
  /\ 100 * ((n / 10^6) mod 10) + 10 * ((n / 10^5) mod 10) + (n / 10^4) mod 10 = c_Z c
  /\ 100 * ((n / 10^3) mod 10) + 10 * ((n / 10^2) mod 10) + (n / 10^1) mod 10 = c_A c
  /\ (n / 10 ^ 0) mod 10 = c_I c.
Proof.
  intros Hok n. unfold nucleus_ok, in09 in Hok. destruct Hok as (HL & HZ & HA & HI).
  assert (Hn : 0 <= n) by (unfold n; lia).
  pose proof (three_digits n 4 Hn) as [T4|?]; [|lia]. pose proof (three_digits n 1 Hn) as [T1|?]; [|lia].
  change (10 ^ 2 * 10 ^ 4) with (10 ^ 6) in T4. change (10 ^ 1 * 10 ^ 4) with (10 ^ 5) in T4.
  change (10 ^ 2 * 10 ^ 1) with (10 ^ 3) in T1. change (10 ^ 1 * 10 ^ 1) with (10 ^ 2) in T1.
  rewrite T4, T1. splits.
  - apply (digit_eq 9 n (n - 10^9) 1 0); unfold n; dlia.
  - apply (digit_eq 8 n (n - 10^9) 0 1); unfold n; dlia.
  - apply (digit_eq 7 n (c_Z c * 10^4 + c_A c * 10 + c_I c) (c_L c) 10); unfold n; dlia.
  - assert (E : n / 10 ^ 4 = c_Z c + 1000 * (c_L c + 100)).
    { symmetry. apply (Z.div_unique_pos _ _ _ (c_A c * 10 + c_I c)); unfold n; lia. }
    rewrite E. rewrite Z.mul_comm, Z.mod_add by lia. apply Z.mod_small. lia.
  - assert (E : n / 10 ^ 1 = c_A c + (c_Z c + 1000 * (c_L c + 100)) * 1000).
    { symmetry. apply (Z.div_unique_pos _ _ _ (c_I c)); unfold n; lia. }
    rewrite E. rewrite Z.mod_add by lia. apply Z.mod_small. lia.
  - apply (digit_eq 0 n 0 (c_I c) (c_A c + 1000 * c_Z c + 1000000 * (c_L c + 100))); unfold n; dlia.
Qed.

Lemma string_roundtrip_wn c : nucleus_ok c -> set_from_string (to_string (c_decimal c)) = Ok (wn c).
Proof.
  intros Hok.
  set (n := 10 ^ 9 + c_L c * 10 ^ 7 + c_Z c * 10 ^ 4 + c_A c * 10 + c_I c).
  assert (Hr : 10 ^ 9 <= n < 10 ^ 10) by (unfold nucleus_ok, in09, n in *; lia).
  destruct (to_string_pre (c_decimal c)) as (pre & Hp & Epre & Estr).
  assert (Eabs : Z.abs (c_decimal c) = n).
  { unfold c_decimal. fold n. destruct (c_anti c); lia. }
  assert (Eneg : preanti pre = c_anti c).
  { rewrite Epre. unfold c_decimal. fold n. destruct (c_anti c); [apply Z.ltb_lt|apply Z.ltb_ge]; lia. }
  rewrite Eabs in Estr. rewrite Estr.
  assert (H9 : Forall in09 (dec_digits 20 n)) by (apply dec_digits_range; lia).
  rewrite sfs_body; [|exact Hp|now apply dec_chars_hex].
  destruct (ten_digits n Hr) as (x9 & x8 & x7 & x6 & x5 & x4 & x3 & x2 & x1 & x0 & Eds & E9 & E8 & E7 & E6 & E5 & E4 & E3 & E2 & E1 & E0).
  destruct (nuc_digit_values c Hok) as (V9 & V8 & V7 & VZ & VA & VI). fold n in V9, V8, V7, VZ, VA, VI.
  rewrite Eds in *. cbn [map List.length Nat.eqb].
  rewrite <- E9 in V9. rewrite <- E8 in V8. rewrite V9, V8.
  change ((48 + 1 =? 49) && (48 + 0 =? 48)) with true. cbv iota.
  assert (EM : mapM digit_of_char [48 + x7; 48 + x6; 48 + x5; 48 + x4; 48 + x3; 48 + x2; 48 + x1; 48 + x0]
     = Ok [x7; x6; x5; x4; x3; x2; x1; x0]).
  { apply (dec_chars_map [x7; x6; x5; x4; x3; x2; x1; x0]).
    inversion H9 as [|? ? _ H8]; subst. inversion H8; subst. assumption. }
  rewrite EM. cbn [rbind nth]. rewrite Eneg.
  rewrite E7, E6, E5, E4, E3, E2, E1, E0, V7, VZ, VA, VI.
  destruct (nucleus_ok_h c Hok) as (Ha & Hl & Hz & HA & Hi).
  rewrite pack_pn by assumption. reflexivity.
Qed.

(** ** from_decimal *)
Definition val10 (ds : list Z) : Z := fold_right (fun d v => d + 10 * v) 0 ds.
Definition val16 (ds : list Z) : Z := fold_right (fun d v => d + 16 * v) 0 ds.

Lemma val10_cons d ds : val10 (d :: ds) = d + 10 * val10 ds. Proof. reflexivity. Qed.
Lemma val16_cons d ds : val16 (d :: ds) = d + 16 * val16 ds. Proof. reflexivity. Qed.
Lemma val10_nonneg ds : Forall in09 ds -> 0 <= val10 ds.
Proof. unfold in09. induction 1; rewrite ?val10_cons; [cbn; lia|lia]. Qed.
Lemma val_zero ds : Forall in09 ds -> val10 ds = 0 -> val16 ds = 0.
Proof.
  induction 1 as [|d l Hd Hl IH]; [reflexivity|]. rewrite val10_cons, val16_cons.
  pose proof (val10_nonneg l Hl). unfold in09 in Hd. intros. rewrite IH by lia. lia.
Qed.

Lemma hex_loop_val : forall ds s h t f, s = 1 \/ s = -1 -> Forall in09 ds ->
  0 <= h < t -> t * 16 ^ Z.of_nat (List.length ds) <= 2 ^ 28 -> (List.length ds < f)%nat ->
  hex_loop f (s * val10 ds) (s * h) t = Ok (s * (h + t * val16 ds)).
Proof.
  induction ds as [|d ds IH]; intros s h t f Hs H9 Hh Ht Hf.
  - destruct f as [|f]; [cbn in Hf; lia|]. cbn. rewrite Z.mul_0_r. cbn. f_equal. lia.
  - inversion H9 as [|? ? Hd H9']; subst.
    destruct f as [|f]; [cbn in Hf; lia|].
    cbn [hex_loop]. pose proof (val10_nonneg ds H9') as Hn.
    destruct (Z.eqb_spec (s * val10 (d :: ds)) 0) as [E|E].
    + assert (Ev : val10 (d :: ds) = 0) by (destruct Hs; subst s; lia).
      rewrite (val_zero (d :: ds)) by assumption. f_equal. lia.
    + unfold in09 in Hd.
      assert (Er : Z.rem (s * val10 (d :: ds)) 10 = s * d /\ Z.quot (s * val10 (d :: ds)) 10 = s * val10 ds).
      { change (val10 (d :: ds)) with (d + 10 * val10 ds).
        assert (R1 : Z.rem (d + 10 * val10 ds) 10 = d) by (symmetry; apply (Z.rem_unique _ _ (val10 ds)); lia).
        assert (R2 : Z.quot (d + 10 * val10 ds) 10 = val10 ds) by (symmetry; apply (Z.quot_unique _ _ _ d); lia).
        destruct Hs; subst s.
        - rewrite !Z.mul_1_l. now split.
        - replace (-1 * (d + 10 * val10 ds)) with (- (d + 10 * val10 ds)) by lia.
          rewrite Z.rem_opp_l, Z.quot_opp_l by lia. rewrite R1, R2. lia. }
      destruct Er as [-> ->].
      cbn [List.length] in Ht. rewrite Nat2Z.inj_succ, Z.pow_succ_r in Ht by lia.
      pose proof (Z.pow_pos_nonneg 16 (Z.of_nat (List.length ds)) ltac:(lia) ltac:(lia)) as HP.
      assert (Ht16 : t * 16 <= 2 ^ 28) by nia.
      assert (Hdt : 0 <= d * t <= 9 * t) by nia.
      assert (I1 : in_i32 (s * h + s * d * t) = true).
      { unfold in_i32, INT_MIN, INT_MAX. rewrite andb_true_iff, !Z.leb_le.
        destruct Hs; subst s; lia. }
      assert (I2 : in_i32 (t * 16) = true).
      { unfold in_i32, INT_MIN, INT_MAX. rewrite andb_true_iff, !Z.leb_le. lia. }
      unfold sint. rewrite I1, I2. cbn [rbind].
      replace (s * h + s * d * t) with (s * (h + d * t)) by lia.
      rewrite IH; auto.
      * f_equal. change (val16 (d :: ds)) with (d + 16 * val16 ds). lia.
      * lia.
      * nia.
      * cbn in Hf. lia.
Qed.

Lemma from_decimal_wd d : digits_ok d -> physical d -> from_decimal (d_decimal d) = Ok (wd d).
Proof.
  intros Hok Hph. pose proof (absdec_range d Hok) as Hr.
  assert (Eabs : Z.abs (d_decimal d) = absdec d).
  { rewrite d_decimal_abs. destruct (d_anti d); lia. }
  unfold from_decimal. rewrite Eabs. unfold sint.
  assert (I : in_i32 (absdec d) = true).
  { unfold in_i32, INT_MIN, INT_MAX. rewrite andb_true_iff, !Z.leb_le. lia. }
  rewrite I. cbn [rbind].
  destruct (Z.ltb_spec 10000000 (absdec d)) as [L|L].
  - now apply string_roundtrip_wd.
  - assert (HJ : d_J d <= 9) by (unfold absdec, digits_ok, in09, in06 in *; lia).
    rewrite d_decimal_abs.
    assert (E10 : absdec d = val10 [d_J d; d_q3 d; d_q2 d; d_q1 d; d_L d; d_R d; d_n d]).
    { unfold absdec. cbn [val10 fold_right]. rewrite Z.min_r, Z.max_l by lia. lia. }
    rewrite E10.
    pose proof (hex_loop_val [d_J d; d_q3 d; d_q2 d; d_q1 d; d_L d; d_R d; d_n d] (if d_anti d then -1 else 1) 0 1 20) as HL.
    rewrite Z.mul_0_r in HL. rewrite HL.
    + cbn [rbind].
      replace ((if d_anti d then -1 else 1) * (0 + 1 * val16 [d_J d; d_q3 d; d_q2 d; d_q1 d; d_L d; d_R d; d_n d]))
        with (signed_code d).
      * now apply of_int32_complete.
      * unfold signed_code, d_code, hex_value. cbn [fold_left val16 fold_right]. f_equal. lia.
    + destruct (d_anti d); auto.
    + unfold digits_ok, in09, in06 in *. repeat constructor; lia.
    + lia.
    + cbn. lia.
    + cbn. lia.
Qed.

Lemma from_decimal_wn c : nucleus_ok c -> in_i32 (c_decimal c) = true ->
  from_decimal (c_decimal c) = Ok (wn c).
Proof.
  intros Hok Hi.
  assert (Hr : 10 ^ 9 <= Z.abs (c_decimal c) < 10 ^ 10).
  { unfold c_decimal, nucleus_ok, in09 in *. destruct (c_anti c); lia. }
  assert (Hm : Z.abs (c_decimal c) < 1100000000).
  { unfold c_decimal, nucleus_ok, in09 in *. destruct (c_anti c); lia. }
  unfold from_decimal, sint.
  assert (I : in_i32 (Z.abs (c_decimal c)) = true).
  { unfold in_i32, INT_MIN, INT_MAX in *. rewrite andb_true_iff, !Z.leb_le in *. lia. }
  rewrite I. cbn [rbind]. destruct (Z.ltb_spec 10000000 (Z.abs (c_decimal c))); [|lia].
  now apply string_roundtrip_wn.
Qed.
