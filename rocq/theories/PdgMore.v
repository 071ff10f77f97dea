From Coq Require Import ZArith List Bool Lia Ascii String.
From Verif Require Import Base PdgModel PdgSpec PdgProofs PdgParse PdgStrings.
Import ListNotations.
Open Scope Z_scope.
Open Scope bool_scope.

(** A code some constructor or reader of PdgCode has returned. *)
Inductive accepted : pdg -> Prop :=
| Acc_int32 c w : in_i32 c = true -> of_int32 c = Ok w -> accepted w
| Acc_uint32 c w : 0 <= c < 2 ^ 32 -> of_uint32 c = Ok w -> accepted w
| Acc_int64 c w : in_i64 c = true -> of_int64 c = Ok w -> accepted w
| Acc_string s w : set_from_string s = Ok w -> accepted w
| Acc_decimal x w : in_i32 x = true -> from_decimal x = Ok w -> accepted w.

Lemma pack_nucleus_fields a l z aa i : h1 a ->
  let w := pack_nucleus a l z aa i in
  word w /\ is_nucleus w = true /\ anti_bit w = a
  /\ nuc_L w = l mod 64 /\ nuc_Z w = z mod 1024 /\ nuc_A w = aa mod 1024 /\ nuc_I w = i mod 16.
Proof.
  intros Ha w.
  assert (E : w = pn a (l mod 64) (z mod 1024) (aa mod 1024) (i mod 16)).
  { unfold w, pack_nucleus, pn. rewrite (Z.mod_small a) by (unfold h1 in Ha; lia).
    change (2 ^ 6) with 64. change (2 ^ 10) with 1024. change (2 ^ 4) with 16. lia. }
  assert (h6 (l mod 64)) by (apply Z.mod_pos_bound; lia).
  assert (h10 (z mod 1024)) by (apply Z.mod_pos_bound; lia).
  assert (h10 (aa mod 1024)) by (apply Z.mod_pos_bound; lia).
  assert (h4 (i mod 16)) by (apply Z.mod_pos_bound; lia).
  rewrite E. unfold is_nucleus. rewrite pn_L, pn_Z, pn_A, pn_I, pn_a, pn_nb by assumption.
  splits; try reflexivity. red. now apply pn_range.
Qed.

(** Shape of every accepted code. *)
Definition shape (w : pdg) : Prop :=
  (exists d, w = wd d /\ hexd d /\ physical d /\ in06 (d_q1 d) /\ in06 (d_q2 d) /\ in06 (d_q3 d))
  \/ (exists a l z aa i, h1 a /\ w = pack_nucleus a l z aa i).

Lemma shape_string s w : set_from_string s = Ok w -> shape w.
Proof.
  intros H. destruct (sfs_sound s w H) as [_ [(d & _ & E & Hd & Hp & Q1 & Q2 & Q3 & _)|(l & z & a & i & _ & Ha & E & _)]].
  - left. exists d. splits; auto.
  - right. exists (sgn (preanti s)), l, z, a, i. now split.
Qed.
Lemma shape_digits d : digits_ok d -> physical d -> shape (wd d).
Proof.
  intros Hok Hp. left. exists d. splits; auto; [now apply ok_hexd|..]; unfold digits_ok in Hok; tauto.
Qed.

Lemma accepted_shape w : accepted w -> shape w.
Proof.
  destruct 1.
  - destruct (of_int32_sound _ _ H0) as (d & -> & Hok & Hp & _). now apply shape_digits.
  - destruct (of_uint32_sound _ _ H H0) as (d & -> & Hok & Hp & _). now apply shape_digits.
  - unfold of_int64 in H0. destruct (c <? 0).
    + unfold sint64 in H0. destruct (in_i64 (- c)); [|discriminate]. cbn [rbind] in H0. eapply shape_string; eauto.
    + eapply shape_string; eauto.
  - eapply shape_string; eauto.
  - unfold from_decimal in H0. destruct (sint (Z.abs x)); cbn [rbind] in H0; try discriminate.
    destruct (10000000 <? a); [eapply shape_string; eauto|].
    destruct (hex_loop 20 x 0 1); cbn [rbind] in H0; try discriminate.
    destruct (of_int32_sound _ _ H0) as (d & -> & Hok & Hp & _). now apply shape_digits.
Qed.

Lemma shape_word w : shape w -> word w /\ (is_nucleus w = false -> six w).
Proof.
  intros [(d & -> & Hd & Hp & Q1 & Q2 & Q3)|(a & l & z & aa & i & Ha & ->)].
  - destruct (wd_fields d Hd) as (W & _). split; [exact W|]. intros _.
    destruct (view_proj d Hd) as (_ & _ & _ & _ & P1 & P2 & P3 & _).
    unfold six. rewrite P1, P2, P3. unfold in06 in *. lia.
  - destruct (pack_nucleus_fields a l z aa i Ha) as (W & En & _). split; [exact W|]. congruence.
Qed.

Lemma shape_physical w : shape w -> is_nucleus w = false ->
  physical (view w) /\ in06 (n_q1 w) /\ in06 (n_q2 w) /\ in06 (n_q3 w).
Proof.
  intros [(d & -> & Hd & Hp & Q1 & Q2 & Q3)|(a & l & z & aa & i & Ha & ->)] En.
  - destruct (wd_fields d Hd) as (W & Ev & _). rewrite Ev. split; [exact Hp|].
    destruct (view_proj d Hd) as (_ & _ & _ & _ & P1 & P2 & P3 & _). now rewrite P1, P2, P3.
  - destruct (pack_nucleus_fields a l z aa i Ha) as (_ & E & _). congruence.
Qed.

(** Codes that come from integers or from strings of decimal digits. *)
Definition decimal_code (w : pdg) : Prop :=
  (exists d, w = wd d /\ digits_ok d /\ physical d) \/ (exists c, w = wn c /\ nucleus_ok c).

Lemma decimal_string_code s w : Forall is_dec_char (unsigned_part s) ->
  set_from_string s = Ok w -> decimal_code w.
Proof.
  intros Hdec H. destruct (sfs_sound s w H) as [_ [(d & _ & E & Hd & Hp & _ & _ & _ & _ & K)|(l & z & a & i & _ & Ha & E & K)]].
  - left. exists d. destruct (K Hdec) as [Hok _]. now splits.
  - right. destruct (K Hdec) as (ds & _ & H9 & HL & _ & _ & El & Ez & Ea & Ei).
    exists (Nucleus (preanti s) l z a i).
    assert (N : forall k, in09 (nth k ds 0)).
    { intros k. destruct (lt_dec k (List.length ds)).
      - rewrite Forall_forall in H9. apply H9. now apply nth_In.
      - rewrite nth_overflow by lia. unfold in09; lia. }
    pose proof (N 2%nat). pose proof (N 3%nat). pose proof (N 4%nat). pose proof (N 5%nat).
    pose proof (N 6%nat). pose proof (N 7%nat). pose proof (N 8%nat). pose proof (N 9%nat).
    assert (Hok : nucleus_ok (Nucleus (preanti s) l z a i)).
    { unfold nucleus_ok, in09 in *; cbn [c_L c_Z c_A c_I]. lia. }
    split; [|exact Hok].
    rewrite E. unfold wn. destruct (nucleus_ok_h _ Hok) as (? & ? & ? & ? & ?).
    cbn [c_anti c_L c_Z c_A c_I] in *. now rewrite pack_pn.
Qed.

Lemma to_string_dec x : Forall is_dec_char (unsigned_part (to_string x)).
Proof.
  assert (D : forall n, 0 <= n -> Forall is_dec_char (map (Z.add 48) (dec_digits 20 n))).
  { intros n Hn. pose proof (dec_digits_range 20 n Hn) as F. induction F; cbn [map]; constructor; auto.
    unfold is_dec_char. lia. }
  unfold to_string. destruct (Z.ltb_spec x 0).
  - cbn [unsigned_part Z.eqb orb Pos.eqb]. apply D; lia.
  - specialize (D x ltac:(lia)). unfold unsigned_part.
    destruct (map (Z.add 48) (dec_digits 20 x)) as [|c t]; [constructor|].
    inversion D as [|? ? Hc Ht]; subst.
    replace ((c =? 45) || (c =? 43)) with false; [exact D|].
    symmetry. rewrite orb_false_iff, !Z.eqb_neq. unfold is_dec_char in Hc. lia.
Qed.

Lemma decimal_code_int32 c w : of_int32 c = Ok w -> decimal_code w.
Proof. intros H. left. destruct (of_int32_sound _ _ H) as (d & ? & ? & ? & _). eauto. Qed.

Lemma from_decimal_code x w : from_decimal x = Ok w -> decimal_code w.
Proof.
  unfold from_decimal. destruct (sint (Z.abs x)); cbn [rbind]; try discriminate.
  destruct (10000000 <? a).
  - intros H. eapply decimal_string_code; [apply to_string_dec|exact H].
  - destruct (hex_loop 20 x 0 1); cbn [rbind]; try discriminate. apply decimal_code_int32.
Qed.

Lemma decimal_roundtrip w : decimal_code w -> from_decimal (get_decimal w) = Ok w.
Proof.
  intros [(d & -> & Hok & Hp)|(c & -> & Hok)].
  - rewrite get_decimal_wd by now apply ok_hexd. now apply from_decimal_wd.
  - rewrite get_decimal_wn by assumption. apply from_decimal_wn; [assumption|].
    unfold in_i32, INT_MIN, INT_MAX, c_decimal, nucleus_ok, in09 in *. rewrite andb_true_iff, !Z.leb_le.
    destruct (c_anti c); lia.
Qed.
Lemma string_roundtrip w : decimal_code w -> set_from_string (pdg_string w) = Ok w.
Proof.
  intros [(d & -> & Hok & Hp)|(c & -> & Hok)]; unfold pdg_string.
  - rewrite get_decimal_wd by now apply ok_hexd. now apply string_roundtrip_wd.
  - rewrite get_decimal_wn by assumption. now apply string_roundtrip_wn.
Qed.

(** ** Reading is faithful to the digits *)
Lemma dec_value_app l x : dec_value (l ++ [x]) = 10 * dec_value l + (x - 48).
Proof. unfold dec_value. rewrite fold_left_app. reflexivity. Qed.
Lemma dec_value_digits f : forall n, 0 <= n < 10 ^ Z.of_nat f -> (0 < f)%nat ->
  dec_value (map (Z.add 48) (dec_digits f n)) = n.
Proof.
  induction f; intros n Hn Hf; [lia|]. cbn [dec_digits].
  destruct (Z.ltb_spec n 10).
  - unfold dec_value. cbn [map fold_left]. lia.
  - rewrite map_app. cbn [map]. rewrite dec_value_app.
    rewrite Nat2Z.inj_succ, Z.pow_succ_r in Hn by lia.
    destruct f; [cbn in Hn; lia|]. rewrite IHf; [| |lia].
    + pose proof (Z.div_mod n 10). lia.
    + split; [apply Z.div_pos; lia|apply Z.div_lt_upper_bound; lia].
Qed.

Lemma digits_of_list_decimal a ds : Forall in09 ds -> (List.length ds <= 7)%nat ->
  d_decimal (digits_of_list a ds) = (if a then -1 else 1) * dec_value (map (Z.add 48) ds).
Proof.
  intros H9 HL. rewrite d_decimal_abs. cbn [digits_of_list d_anti]. f_equal.
  unfold absdec, digits_of_list. cbn [d_J d_q3 d_q2 d_q1 d_L d_R d_n].
  assert (E7 : dig ds 7 = 0).
  { unfold dig. apply nth_overflow. rewrite rev_length. lia. }
  rewrite E7, Z.add_0_l. pose proof (dig_in09 ds 0 H9) as H0. unfold in09 in H0.
  rewrite Z.mod_small by lia. rewrite Z.min_r, Z.max_l by lia.
  do 8 (destruct ds as [|? ds]; [unfold dig, dec_value; cbn [rev app nth map fold_left]; lia|]).
  cbn in HL. lia.
Qed.

Definition is_minus (s : list Z) : bool := match s with c :: _ => c =? 45 | [] => false end.
Lemma preanti_minus s : preanti s = is_minus s.
Proof.
  destruct s as [|c t]; [reflexivity|]. cbn [preanti is_minus]. destruct c as [|p|p]; reflexivity.
Qed.

Lemma string_faithful s w : set_from_string s = Ok w -> Forall is_dec_char (unsigned_part s) ->
  (List.length (unsigned_part s) <> 8)%nat ->
  get_decimal w = (if is_minus s then -1 else 1) * dec_value (unsigned_part s).
Proof.
  intros H Hdec H8. rewrite <- preanti_minus.
  destruct (sfs_sound s w H) as [_ [(d & L & -> & Hd & Hp & _ & _ & _ & Ea & K)|(l & z & a & i & _ & Ha & E & K)]].
  - rewrite get_decimal_wd by assumption. destruct (K Hdec) as [_ (ds & Es & H9 & ->)].
    rewrite Es. apply digits_of_list_decimal; auto.
    rewrite Es, map_length in L, H8. lia.
  - destruct (decimal_string_code s w Hdec H) as [(d & -> & Hok & Hp)|(c & Ew & Hok)].
    { exfalso. destruct (wd_fields d (ok_hexd d Hok)) as (_ & _ & En & _).
      rewrite E in En. destruct (pack_nucleus_fields (sgn (preanti s)) l z a i Ha) as (_ & En' & _). congruence. }
    rewrite Ew, get_decimal_wn by assumption.
    destruct (K Hdec) as (ds & Es & H9 & HL & X0 & X1 & El & Ez & Ea & Ei).
    rewrite Ew in E. destruct (wn_fields c Hok) as (_ & Ev & _).
    destruct (pack_nucleus_fields (sgn (preanti s)) l z a i Ha) as (_ & _ & Pa & PL & PZ & PA & PI).
    rewrite <- E in Pa, PL, PZ, PA, PI.
    assert (Ec : c_anti c = preanti s).
    { rewrite <- Ev. cbn. unfold is_anti. rewrite Pa. apply sgn_eqb. }
    assert (EcL : c_L c = l mod 64) by (rewrite <- Ev; exact PL).
    assert (EcZ : c_Z c = z mod 1024) by (rewrite <- Ev; exact PZ).
    assert (EcA : c_A c = a mod 1024) by (rewrite <- Ev; exact PA).
    assert (EcI : c_I c = i mod 16) by (rewrite <- Ev; exact PI).
    assert (N : forall k, in09 (nth k ds 0)).
    { intros k. destruct (lt_dec k (List.length ds)).
      - rewrite Forall_forall in H9. apply H9. now apply nth_In.
      - rewrite nth_overflow by lia. unfold in09; lia. }
    pose proof (N 2%nat). pose proof (N 3%nat). pose proof (N 4%nat). pose proof (N 5%nat).
    pose proof (N 6%nat). pose proof (N 7%nat). pose proof (N 8%nat). pose proof (N 9%nat). unfold in09 in *.
    rewrite (Z.mod_small l) in EcL by lia. rewrite (Z.mod_small z) in EcZ by lia.
    rewrite (Z.mod_small a) in EcA by lia. rewrite (Z.mod_small i) in EcI by lia.
    unfold c_decimal. rewrite Ec, EcL, EcZ, EcA, EcI, Es. f_equal.
    clear - HL El Ez Ea Ei X0 X1. do 11 (destruct ds as [|? ds]; try discriminate).
    cbn [nth] in *. subst. unfold dec_value. cbn [map fold_left]. lia.
Qed.

Lemma to_string_minus x : is_minus (to_string x) = (x <? 0).
Proof.
  destruct (to_string_pre x) as (pre & Hp & Ep & Es). rewrite Es.
  rewrite <- preanti_minus. rewrite <- Ep. destruct Hp as [-> | [-> | ->]]; try reflexivity.
  rewrite preanti_minus. cbn [app is_minus preanti].
  pose proof (dec_digits_range 20 (Z.abs x) ltac:(lia)) as F.
  destruct (dec_digits 20 (Z.abs x)) as [|d t]; [reflexivity|].
  inversion F; subst. cbn [map is_minus]. apply Z.eqb_neq. lia.
Qed.
Lemma to_string_unsigned x : unsigned_part (to_string x) = map (Z.add 48) (dec_digits 20 (Z.abs x)).
Proof.
  unfold to_string. destruct (Z.ltb_spec x 0).
  - rewrite Z.abs_neq by lia. reflexivity.
  - rewrite Z.abs_eq by lia. pose proof (dec_digits_range 20 x ltac:(lia)) as F.
    destruct (dec_digits 20 x) as [|d t]; [reflexivity|]. inversion F; subst.
    unfold unsigned_part. cbn [map].
    replace ((48 + d =? 45) || (48 + d =? 43)) with false; [reflexivity|].
    symmetry. rewrite orb_false_iff, !Z.eqb_neq. lia.
Qed.

Lemma val10_digits n k : 0 <= n < 10 ^ Z.of_nat k -> exists ds, List.length ds = k /\ Forall in09 ds /\ val10 ds = n.
Proof.
  revert n. induction k; intros n Hn.
  - exists []. cbn in Hn. splits; auto. cbn. lia.
  - rewrite Nat2Z.inj_succ, Z.pow_succ_r in Hn by lia.
    destruct (IHk (n / 10)) as (ds & HL & H9 & Hv).
    { split; [apply Z.div_pos; lia|apply Z.div_lt_upper_bound; lia]. }
    exists (n mod 10 :: ds). splits.
    + cbn. lia.
    + constructor; auto. unfold in09. pose proof (Z.mod_pos_bound n 10). lia.
    + rewrite val10_cons, Hv. pose proof (Z.div_mod n 10). lia.
Qed.

Lemma wd_inj d d' : hexd d -> hexd d' -> wd d = wd d' -> d = d'.
Proof.
  intros H H' E. destruct (wd_fields d H) as (_ & V & _). destruct (wd_fields d' H') as (_ & V' & _).
  rewrite <- V, <- V', E. reflexivity.
Qed.

Lemma from_decimal_faithful x w : from_decimal x = Ok w -> Z.abs x < 10 ^ 7 \/ 10 ^ 9 <= Z.abs x ->
  get_decimal w = x.
Proof.
  unfold from_decimal. destruct (sint (Z.abs x)) eqn:Es; cbn [rbind]; try discriminate.
  unfold sint in Es. destruct (in_i32 (Z.abs x)) eqn:Ei; [|discriminate]. injection Es as <-.
  intros H [Hx|Hx].
  - destruct (Z.ltb_spec 10000000 (Z.abs x)); [lia|].
    destruct (val10_digits (Z.abs x) 7) as (ds & HL & H9 & Hv). { dlia. }
    set (s := if x <? 0 then -1 else 1).
    assert (Hxs : x = s * val10 ds).
    { rewrite Hv. unfold s. destruct (Z.ltb_spec x 0); lia. }
    assert (Hs : s = 1 \/ s = -1) by (unfold s; destruct (x <? 0); auto).
    pose proof (hex_loop_val ds s 0 1 20 Hs H9 ltac:(lia)) as L.
    rewrite HL in L. specialize (L ltac:(cbn; lia) ltac:(lia)).
    rewrite Z.mul_0_r in L. rewrite <- Hxs in L. rewrite L in H. cbn [rbind] in H.
    destruct (of_int32_sound _ _ H) as (d & -> & Hok & Hp & Ec & Ea).
    do 8 (destruct ds as [|? ds]; try discriminate).
    set (d' := Digits (d_anti d) z5 z4 z3 z2 z1 z0 z).
    rewrite !Forall_cons_iff in H9. unfold in09 in H9.
    assert (Hd' : hexd d') by (unfold hexd, h4, d'; cbn [d_n d_R d_L d_q1 d_q2 d_q3 d_J]; lia).
    assert (Ec' : d_code d' = d_code d).
    { rewrite Ec. unfold d_code, d', hex_value, val16. cbn [fold_left fold_right d_n d_R d_L d_q1 d_q2 d_q3 d_J].
      rewrite Z.mod_small; destruct Hs as [-> | ->]; lia. }
    assert (Ed : d' = d).
    { apply wd_inj; auto. now apply ok_hexd. rewrite !wd_code, Ec'. reflexivity. }
    rewrite <- Ed, get_decimal_wd by assumption. rewrite d_decimal_abs. unfold absdec, d' at 2.
    cbn [d_n d_R d_L d_q1 d_q2 d_q3 d_J d_anti d'].
    rewrite Z.min_r, Z.max_l by (unfold d'; cbn [d_J]; lia).
    unfold d'; cbn [d_n d_R d_L d_q1 d_q2 d_q3 d_J d_anti].
    assert (Hsx : (if d_anti d then -1 else 1) = s).
    { rewrite Ea. unfold s. rewrite Z.mul_add_distr_l, Z.mul_0_r, Z.add_0_l, Z.mul_1_l.
      destruct (Z.ltb_spec x 0) as [Hneg|Hpos].
      - assert (s = -1) by (unfold s; destruct (Z.ltb_spec x 0); lia).
        assert (val16 [z; z0; z1; z2; z3; z4; z5] <> 0).
        { cbn [val10 fold_right] in Hv. cbn [val16 fold_right]. lia. }
        assert (0 <= val16 [z; z0; z1; z2; z3; z4; z5]) by (cbn [val16 fold_right]; lia).
        replace (-1 * val16 [z; z0; z1; z2; z3; z4; z5] <? 0) with true; [reflexivity|].
        symmetry. apply Z.ltb_lt. lia.
      - assert (0 <= val16 [z; z0; z1; z2; z3; z4; z5]) by (cbn [val16 fold_right]; lia).
        replace (1 * val16 [z; z0; z1; z2; z3; z4; z5] <? 0) with false; [reflexivity|].
        symmetry. apply Z.ltb_ge. lia. }
    rewrite Hsx, Hxs. f_equal. cbn [val10 fold_right]. lia.
  - destruct (Z.ltb_spec 10000000 (Z.abs x)); [|lia].
    assert (Hlt : Z.abs x < 10 ^ 10).
    { unfold in_i32, INT_MAX in Ei. rewrite andb_true_iff, !Z.leb_le in Ei. lia. }
    rewrite (string_faithful _ _ H (to_string_dec x)).
    + rewrite to_string_minus, to_string_unsigned, dec_value_digits; [|dlia|lia].
      destruct (Z.ltb_spec x 0); lia.
    + rewrite to_string_unsigned, map_length.
      pose proof (dec_digits_length_ge 20 (Z.abs x) 9 ltac:(lia) ltac:(dlia)). lia.
Qed.

(** ** 64-bit and 32-bit constructors *)
Lemma hex_digits_dig f : forall n k, 0 <= n < 16 ^ Z.of_nat f ->
  dig (hex_digits f n) k = (n / 16 ^ Z.of_nat k) mod 16.
Proof.
  induction f; intros n k Hn.
  - cbn in Hn. replace n with 0 by lia. rewrite Z.div_0_l by (apply Z.pow_nonzero; lia).
    cbn. unfold dig. cbn. now destruct k.
  - cbn [hex_digits]. destruct (Z.ltb_spec n 16).
    + unfold dig. cbn [rev app]. destruct k.
      * cbn. rewrite Z.div_1_r, Z.mod_small; lia.
      * cbn [nth]. rewrite Nat2Z.inj_succ.
        rewrite Z.div_small.
        -- now destruct k.
        -- split; [lia|]. rewrite Z.pow_succ_r by lia.
           pose proof (Z.pow_pos_nonneg 16 (Z.of_nat k) ltac:(lia) ltac:(lia)). lia.
    + rewrite dig_app_last. destruct k.
      * cbn. now rewrite Z.div_1_r.
      * rewrite IHf.
        -- rewrite Nat2Z.inj_succ, Z.pow_succ_r by lia. rewrite Z.div_div; [reflexivity|lia|].
           apply Z.pow_pos_nonneg; lia.
        -- rewrite Nat2Z.inj_succ, Z.pow_succ_r in Hn by lia. split.
           ++ apply Z.div_pos; lia.
           ++ apply Z.div_lt_upper_bound; lia.
Qed.
Lemma hex_digits_range f : forall n, 0 <= n -> Forall h4 (hex_digits f n).
Proof.
  induction f; intros n Hn; cbn [hex_digits]; [constructor|].
  destruct (Z.ltb_spec n 16).
  - constructor; [unfold h4; lia|constructor].
  - apply Forall_app. split.
    + apply IHf. apply Z.div_pos; lia.
    + constructor; [|constructor]. pose proof (Z.mod_pos_bound n 16). unfold h4; lia.
Qed.
Lemma hex_digits_length_le f : forall n k, (1 <= k)%nat -> 0 <= n < 16 ^ Z.of_nat k ->
  (List.length (hex_digits f n) <= k)%nat.
Proof.
  induction f; intros n k Hk Hn; cbn [hex_digits]; [cbn; lia|].
  destruct (Z.ltb_spec n 16); [cbn; lia|].
  rewrite app_length. cbn [List.length].
  destruct k as [|[|k]]; [lia| cbn in Hn; lia |].
  enough (List.length (hex_digits f (n / 16)) <= S k)%nat by lia.
  apply IHf; [lia|]. rewrite Nat2Z.inj_succ, Z.pow_succ_r in Hn by lia. split.
  - apply Z.div_pos; lia.
  - apply Z.div_lt_upper_bound; lia.
Qed.
Lemma hex_char_is_hex d : h4 d -> is_hex_char (hex_char d).
Proof. unfold h4, hex_char, is_hex_char. destruct (Z.ltb_spec d 10); lia. Qed.

Lemma hex_string_agrees (b : bool) n : 0 <= n < 2 ^ 28 ->
  field 16 4 n <= 9 -> field 20 4 n <= 9 -> field 24 4 n <= 9 ->
  set_from_string ((if b then 45 else 43) :: map hex_char (hex_digits 20 n)) = set_fields (sgn b) n.
Proof.
  intros Hn HL HR HN.
  destruct (digits_exist b n Hn) as (d & Hd & Ec & Eb).
  pose proof (hex_digits_range 20 n ltac:(lia)) as H4.
  change ((if b then 45 else 43) :: map hex_char (hex_digits 20 n))
    with ([if b then 45 else 43] ++ map hex_char (hex_digits 20 n)).
  set (ds := hex_digits 20 n) in *.
  assert (D : forall k, dig ds k = (n / 16 ^ Z.of_nat k) mod 16).
  { intros k. apply hex_digits_dig. split; [lia|]. change (2 ^ 28) with 268435456 in Hn.
    let v := eval vm_compute in (16 ^ Z.of_nat 20) in change (16 ^ Z.of_nat 20) with v. lia. }
  rewrite (sfs_digits _ _ ds).
  - assert (F : forall k, dig ds k = field (4 * Z.of_nat k) 4 n).
    { intros k. rewrite D. unfold field. rewrite Z.pow_mul_r by lia. reflexivity. }
    assert (Edl : digits_of_list (preanti [if b then 45 else 43]) ds = d).
    { destruct (wd_view (wd d)) as [_ _].
      - now destruct (wd_fields d Hd).
      - now destruct (wd_fields d Hd) as (_ & _ & ? & _).
      - now destruct (wd_fields d Hd) as (_ & _ & _ & ? & _).
      - rewrite <- (proj1 (proj2 (wd_fields d Hd))).
        assert (Ew : n = wd (Digits false (d_n d) (d_R d) (d_L d) (d_q1 d) (d_q2 d) (d_q3 d) (d_J d))).
        { rewrite wd_code. cbn [d_anti sgn]. rewrite Z.mul_0_l, Z.add_0_r. now rewrite <- Ec. }
        assert (Hd0 : hexd (Digits false (d_n d) (d_R d) (d_L d) (d_q1 d) (d_q2 d) (d_q3 d) (d_J d))) by exact Hd.
        destruct (view_proj _ Hd0) as (_ & Pn & PR & PL & P1 & P2 & P3 & PJ).
        rewrite <- Ew in Pn, PR, PL, P1, P2, P3, PJ. cbn [d_n d_R d_L d_q1 d_q2 d_q3 d_J] in *.
        destruct (wd_fields d Hd) as (_ & -> & _).
        unfold digits_of_list. rewrite !F.
        change (field (4 * Z.of_nat 6) 4 n) with (n_n n). change (field (4 * Z.of_nat 5) 4 n) with (n_R n).
        change (field (4 * Z.of_nat 4) 4 n) with (n_L n). change (field (4 * Z.of_nat 3) 4 n) with (n_q1 n).
        change (field (4 * Z.of_nat 2) 4 n) with (n_q2 n). change (field (4 * Z.of_nat 1) 4 n) with (n_q3 n).
        change (field (4 * Z.of_nat 0) 4 n) with (n_J n).
        assert (F7 : field (4 * Z.of_nat 7) 4 n = 0).
        { unfold field. change (4 * Z.of_nat 7) with 28. rewrite Z.div_small by lia. reflexivity. }
        rewrite F7, Z.add_0_l, Pn, PR, PL, P1, P2, P3, PJ.
        rewrite Z.mod_small by (destruct Hd as (?&?&?&?&?&?&?); unfold h4 in *; lia).
        replace (preanti [if b then 45 else 43]) with (d_anti d) by (rewrite Eb; now destruct b).
        now destruct d. }
    unfold parse_result. rewrite Edl.
    assert (Q : dig ds 3 = d_q1 d /\ dig ds 2 = d_q2 d /\ dig ds 1 = d_q3 d) by (rewrite <- Edl; cbn; auto).
    destruct Q as (-> & -> & ->).
    rewrite <- Ec, <- Eb. rewrite set_fields_iff by assumption.
    destruct ((6 <? d_q1 d) || (6 <? d_q2 d) || (6 <? d_q3 d)) eqn:E6.
    + replace (test_code_fails (wd d)) with true; [reflexivity|].
      symmetry. destruct (test_code_fails (wd d)) eqn:T; [reflexivity|].
      apply test_code_ok in T; [|assumption]. unfold digits_ok, in06 in T.
      rewrite !orb_true_iff, !Z.ltb_lt in E6. lia.
    + replace (test_code_fails (wd d)) with false; [reflexivity|].
      symmetry. apply test_code_ok; [assumption|].
      rewrite !orb_false_iff, !Z.ltb_ge in E6.
      assert (G : d_n d = field 24 4 n /\ d_R d = field 20 4 n /\ d_L d = field 16 4 n).
      { rewrite <- Edl. unfold digits_of_list. cbn [d_n d_R d_L]. rewrite !F. splits; reflexivity. }
      destruct G as (G1 & G2 & G3).
      destruct Hd as (?&?&?&?&?&?&?). unfold digits_ok, in09, in06, h4 in *. lia.
  - destruct b; [right; now right|right; now left].
  - apply mapM_map. eapply Forall_impl; [|exact H4]. intros; now apply digit_hex.
  - exact H4.
  - apply Forall_forall. intros c Hc. apply in_map_iff in Hc. destruct Hc as (x & <- & Hx).
    apply hex_char_is_hex. rewrite Forall_forall in H4. auto.
  - rewrite map_length. split.
    + unfold ds. cbn [hex_digits]. destruct (n <? 16); [cbn; lia|]. rewrite app_length; cbn; lia.
    + pose proof (hex_digits_length_le 20 n 7 ltac:(lia)) as L. fold ds in L.
      enough (List.length ds <= 7)%nat by lia. apply L. split; [lia|].
      change (16 ^ Z.of_nat 7) with (2 ^ 28). lia.
Qed.

Lemma int64_agrees x : Z.abs x < 2 ^ 28 ->
  field 16 4 (Z.abs x) <= 9 -> field 20 4 (Z.abs x) <= 9 -> field 24 4 (Z.abs x) <= 9 ->
  of_int64 x = of_int32 x.
Proof.
  intros Hx H1 H2 H3. unfold of_int64, of_int32. destruct (Z.ltb_spec x 0).
  - rewrite Z.abs_neq in * by lia. unfold sint64, sint.
    assert (I1 : in_i64 (- x) = true).
    { unfold in_i64, INT64_MIN, INT64_MAX. rewrite andb_true_iff, !Z.leb_le. lia. }
    assert (I2 : in_i32 (- x) = true).
    { unfold in_i32, INT_MIN, INT_MAX. rewrite andb_true_iff, !Z.leb_le. lia. }
    rewrite I1, I2. cbn [rbind]. apply (hex_string_agrees true); auto; lia.
  - rewrite Z.abs_eq in * by lia. apply (hex_string_agrees false); auto; lia.
Qed.

(** ** Antiparticles of accepted codes are accepted *)
Definition flip (d : digits) : digits :=
  Digits (negb (d_anti d)) (d_n d) (d_R d) (d_L d) (d_q1 d) (d_q2 d) (d_q3 d) (d_J d).
Lemma anti_wd d : hexd d -> get_antiparticle (wd d) = wd (flip d).
Proof.
  intros Hd. unfold get_antiparticle. destruct (view_proj d Hd) as (-> & _).
  rewrite !wd_code. change (d_code (flip d)) with (d_code d). cbn [d_anti flip].
  destruct (d_anti d); cbn [negb sgn]; lia.
Qed.

Lemma antiparticle_accepted_int c w : of_int32 c = Ok w -> has_antiparticle w = true ->
  w <> 0x130 -> w <> 0x310 -> of_int32 (- c) = Ok (get_antiparticle w) \/ 2 ^ 28 <= Z.abs c.
Proof.
  intros H Ha N1 N2. destruct (of_int32_sound _ _ H) as (d & -> & Hok & Hp & Ec & Es).
  destruct (Z.ltb_spec (Z.abs c) (2 ^ 28)) as [L|]; [left|now right].
  pose proof (ok_hexd d Hok) as Hd. rewrite anti_wd by assumption.
  rewrite has_anti_eq in Ha by assumption.
  rewrite Z.mod_small in Ec by lia.
  assert (Hok' : digits_ok (flip d)) by exact Hok.
  assert (Hp' : physical (flip d)).
  { destruct Hp as [S _]. split; [|intros _; exact Ha].
    unfold spin_ok in *. change (kind_of (flip d)) with (kind_of d). change (d_code (flip d)) with (d_code d).
    change (d_J (flip d)) with (d_J d).
    destruct (kind_of d) eqn:K.
    - destruct S as [S|[E [S|S]]]; [now left| exfalso | exfalso].
      + apply N1. rewrite wd_code, E, S. reflexivity.
      + apply N2. rewrite wd_code, E, S. reflexivity.
    - exact S.
    - destruct S as [S|[E S]]; [now left|]. exfalso.
      unfold has_anti in Ha. rewrite K in Ha. apply Z.eqb_eq in Ha.
      unfold d_code, hex_value in S. cbn [fold_left] in S.
      unfold digits_ok, in09, in06 in Hok. lia. }
  pose proof (of_int32_complete (flip d) Hok' Hp') as R.
  replace (- c) with (signed_code (flip d)); [exact R|].
  unfold signed_code. change (d_code (flip d)) with (d_code d). cbn [flip d_anti]. rewrite Es, Ec.
  destruct (Z.ltb_spec c 0); cbn [negb]; lia.
Qed.
