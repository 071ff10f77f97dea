(** Properties C06-C11 of PdgCode.  [accepted w] means that some constructor or reader
    of PdgCode returned the code [w] (PdgMore.v); [view]/[nview] are the digits its
    accessors report (PdgParse.v); the vocabulary of the statements is in PdgSpec.v. *)
From Coq Require Import ZArith List Bool Lia String.
From Verif Require Import Base PdgModel PdgSpec PdgProofs PdgParse PdgStrings PdgMore.
Import ListNotations.
Open Scope Z_scope.

(** Closes computed conjunctions from left to right, so that existential witnesses are
    found by the first one. *)
Ltac compute_all :=
  repeat match goal with |- exists _, _ => eexists end;
  match goal with
  | |- _ /\ _ => split; [vm_compute; reflexivity|compute_all]
  | _ => vm_compute; first [reflexivity|discriminate]
  end.

(** C06.  For every 32-bit code word: the antiparticle is another code with all
    additive quantum numbers reversed and the same spin; twice gives the original. *)
Theorem antiparticle_reverses_quantum_numbers : forall w, 0 <= w < 2 ^ 32 ->
  let v := get_antiparticle w in
  get_antiparticle v = w /\ v <> w
  /\ charge v = - charge w /\ baryon_number v = - baryon_number w
  /\ isospin3 v = - isospin3 w /\ strangeness v = - strangeness w
  /\ charmness v = - charmness w /\ bottomness v = - bottomness w
  /\ (forall q, nq v q = - nq w q)
  /\ spin v = spin w.
Proof.
  intros w H v. unfold v, isospin3, strangeness, charmness, bottomness. rewrite !nq_anti by exact H.
  splits; first [ exact (antiparticle_involutive w H) | exact (antiparticle_distinct w)
    | exact (charge_anti w H) | exact (baryon_number_anti w H) | exact (spin_anti w H)
    | intros q; exact (nq_anti w q H) | lia ].
Qed.
Print Assumptions antiparticle_reverses_quantum_numbers.

(** C06.  An accepted integer code that has an antiparticle has an accepted
    antiparticle, the one with the negative number (except K0_L and K0_S). *)
Theorem antiparticle_of_accepted_is_accepted : forall c w,
  Z.abs c < 2 ^ 28 -> of_int32 c = Ok w -> has_antiparticle w = true ->
  w <> 0x130 -> w <> 0x310 -> of_int32 (- c) = Ok (get_antiparticle w).
Proof.
  intros c w Hc H Ha N1 N2. destruct (antiparticle_accepted_int c w H Ha N1 N2) as [E|E]; [exact E|lia].
Qed.
Print Assumptions antiparticle_of_accepted_is_accepted.
Example antiparticle_example : (* pi+, Lambda, deuteron *)
  of_int32 0x211 = Ok 0x211 /\ has_antiparticle 0x211 = true
  /\ charge 0x211 = 1 /\ charge (get_antiparticle 0x211) = -1
  /\ (exists w, set_from_string (str "1000010020") = Ok w /\ charge w = 1 /\ baryon_number w = 2
        /\ baryon_number (get_antiparticle w) = -2).
Proof. splits; try reflexivity. compute_all. Qed.

(** C07.  For every accepted hadron or nucleus the reported charge is exactly the sum
    of the quark charges (no truncation), and 2Q = 2I3 + B + S + C + B' + T; three
    quarks per baryon. *)
Theorem charge_exact_and_gell_mann_nishijima : forall w, accepted w ->
  is_hadron w = true \/ is_nucleus w = true ->
  3 * charge w = zsum (map (fun f => quark_charge3 f * nq w f) flavours)
  /\ zsum (map (nq w) flavours) = 3 * baryon_number w
  /\ 2 * charge w
     = isospin3 w + baryon_number w + strangeness w + charmness w + bottomness w + nq w 6.
Proof.
  intros w Ha Hh. destruct (shape_word w (accepted_shape w Ha)) as [_ H6].
  assert (Hb : (is_hadron w || is_nucleus w)%bool = true) by (apply orb_true_iff; exact Hh).
  splits.
  - rewrite (charge_exact w Hb H6). unfold charge3, zsum, flavours, quark_charge3.
    cbn [map fold_right Z.even]. lia.
  - rewrite <- (sum_nq w Hb H6). unfold zsum, flavours. cbn [map fold_right]. lia.
  - exact (gmn w Hb H6).
Qed.
Print Assumptions charge_exact_and_gell_mann_nishijima.

Theorem nucleus_charge_is_Z : forall w, is_nucleus w = true ->
  charge w = (if is_anti w then -1 else 1) * nuc_Z w
  /\ baryon_number w = (if is_anti w then -1 else 1) * nuc_A w.
Proof.
  intros w H. split; [exact (nucleus_charge w H)|].
  unfold baryon_number. rewrite H. unfold asign. lia.
Qed.
Print Assumptions nucleus_charge_is_Z.
Example charge_example : accepted 0x2224 /\ is_hadron 0x2224 = true /\ charge 0x2224 = 2.
Proof. splits; try reflexivity. apply (Acc_int32 0x2224); reflexivity. Qed.

(** C08.  Decimal notation: what get_decimal writes, from_decimal reads back, for all
    codes built from integers, from strings of decimal digits or from decimal
    numbers. *)
Theorem decimal_roundtrip_int32 : forall c w, of_int32 c = Ok w -> from_decimal (get_decimal w) = Ok w.
Proof. intros c w H. exact (decimal_roundtrip w (decimal_code_int32 c w H)). Qed.
Print Assumptions decimal_roundtrip_int32.
Theorem decimal_roundtrip_string : forall s w, Forall is_dec_char (unsigned_part s) ->
  set_from_string s = Ok w -> from_decimal (get_decimal w) = Ok w.
Proof. intros s w Hd H. exact (decimal_roundtrip w (decimal_string_code s w Hd H)). Qed.
Print Assumptions decimal_roundtrip_string.
Theorem decimal_roundtrip_decimal : forall x w,
  from_decimal x = Ok w -> from_decimal (get_decimal w) = Ok w.
Proof. intros x w H. exact (decimal_roundtrip w (from_decimal_code x w H)). Qed.
Print Assumptions decimal_roundtrip_decimal.
Theorem decimal_injective : forall c c' w w', of_int32 c = Ok w -> of_int32 c' = Ok w' ->
  get_decimal w = get_decimal w' -> w = w'.
Proof.
  intros c c' w w' H H' E. pose proof (decimal_roundtrip_int32 c w H) as R.
  rewrite E, (decimal_roundtrip_int32 c' w' H') in R. congruence.
Qed.
Print Assumptions decimal_injective.
(** Reading a decimal number of at most seven digits, or of ten, gives a code with
    that decimal number ... *)
Theorem from_decimal_is_faithful : forall x w, from_decimal x = Ok w ->
  Z.abs x < 10 ^ 7 \/ 10 ^ 9 <= Z.abs x -> get_decimal w = x.
Proof. exact from_decimal_faithful. Qed.
Print Assumptions from_decimal_is_faithful.
Example decimal_example :
  (exists w, from_decimal (-2214) = Ok w /\ get_decimal w = -2214)
  /\ (exists w, from_decimal 1000020040 = Ok w /\ get_decimal w = 1000020040 /\ charge w = 2)
  /\ (exists w, from_decimal 10002119 = Ok w /\ n_J w = 10).
Proof. splits; compute_all. Qed.
(** ... but not every eight-digit number does: the two spin digits are added, so
    80000211 is accepted and becomes 219; and exactly 10^7 overflows an int. *)
Theorem from_decimal_eight_digits_refuted :
  exists x w, in_i32 x = true /\ from_decimal x = Ok w /\ get_decimal w <> x.
Proof. exists 80000211. eexists. split; [reflexivity|]. split; [vm_compute; reflexivity|vm_compute; discriminate]. Qed.
Print Assumptions from_decimal_eight_digits_refuted.
Theorem from_decimal_ten_million_refuted :
  from_decimal 10000000 = UB UB_signed_overflow.
Proof. vm_compute. reflexivity. Qed.
Print Assumptions from_decimal_ten_million_refuted.

(** C09.  Strings. *)
Theorem string_roundtrip_int32 : forall c w, of_int32 c = Ok w -> set_from_string (pdg_string w) = Ok w.
Proof. intros c w H. exact (string_roundtrip w (decimal_code_int32 c w H)). Qed.
Print Assumptions string_roundtrip_int32.
Theorem string_roundtrip_string : forall s w, Forall is_dec_char (unsigned_part s) ->
  set_from_string s = Ok w -> set_from_string (pdg_string w) = Ok w.
Proof. intros s w Hd H. exact (string_roundtrip w (decimal_string_code s w Hd H)). Qed.
Print Assumptions string_roundtrip_string.
Theorem string_reads_its_number : forall s w, set_from_string s = Ok w ->
  Forall is_dec_char (unsigned_part s) -> List.length (unsigned_part s) <> 8%nat ->
  get_decimal w = (if is_minus s then -1 else 1) * dec_value (unsigned_part s).
Proof. exact string_faithful. Qed.
Print Assumptions string_reads_its_number.
Theorem bad_strings_rejected : forall s,
  ~ Forall is_hex_char (unsigned_part s)
  \/ List.length (unsigned_part s) = 0%nat \/ List.length (unsigned_part s) = 9%nat
  \/ (11 <= List.length (unsigned_part s))%nat ->
  set_from_string s = Throw E_invalid_pdg /\ read_code s = (0, true).
Proof.
  intros s H.
  assert (E : set_from_string s = Throw E_invalid_pdg).
  { destruct H as [H|H]; [exact (sfs_nonhex s H)|exact (sfs_bad_length s H)]. }
  split; [exact E|]. unfold read_code. now rewrite E.
Qed.
Print Assumptions bad_strings_rejected.
Theorem strings_never_undefined : forall s,
  (exists w, set_from_string s = Ok w) \/ set_from_string s = Throw E_invalid_pdg.
Proof. exact sfs_no_ub. Qed.
Print Assumptions strings_never_undefined.
Example string_example :
  set_from_string (str "-2214") = of_int32 (-0x2214)
  /\ (exists w, set_from_string (str "-1010010030") = Ok w /\ pdg_string w = str "-1010010030")
  /\ set_from_string (str "21x") = Throw E_invalid_pdg.
Proof. splits; [vm_compute; reflexivity| compute_all | vm_compute; reflexivity]. Qed.
(** The reader also takes hexadecimal excitation digits, and then the written number
    is another one: "a0211" is accepted, written as 100211 and read back as a different
    particle. *)
Theorem string_roundtrip_hex_refuted : exists s w w', set_from_string s = Ok w
  /\ set_from_string (pdg_string w) = Ok w' /\ w' <> w.
Proof.
  exists (str "a0211"). do 2 eexists. split; [vm_compute; reflexivity|]. split; [vm_compute; reflexivity|discriminate].
Qed.
Print Assumptions string_roundtrip_hex_refuted.

(** C10.  Quark content of accepted hadrons. *)
Theorem quark_content_matches_net_numbers : forall w f, accepted w -> is_hadron w = true ->
  1 <= f <= 6 -> (baryon_number w = 0 -> n_q3 w <= n_q2 w) ->
  net_count f (quark_content w) = nq w f.
Proof.
  intros w f Ha Hh Hf Ho. apply content_count; try assumption.
  - apply (shape_word w (accepted_shape w Ha)).
    unfold is_hadron in Hh. destruct (is_nucleus w); [|reflexivity]. now rewrite Bool.andb_false_r in Hh.
  - intros E. apply Ho. unfold baryon_number.
    assert (En : is_nucleus w = false).
    { unfold is_hadron in Hh. destruct (is_nucleus w); [|reflexivity]. now rewrite Bool.andb_false_r in Hh. }
    rewrite En, Hh, E. reflexivity.
Qed.
Print Assumptions quark_content_matches_net_numbers.
Theorem quark_content_is_baryon_or_pair : forall w, is_hadron w = true ->
  exists a b c, quark_content w = [a; b; c] /\ b <> 0 /\ c <> 0 /\
    (baryon_number w = 0 -> a = 0 /\ ((0 < b /\ c < 0) \/ (b < 0 /\ 0 < c))) /\
    (baryon_number w = 1 -> 0 < a /\ 0 < b /\ 0 < c) /\
    (baryon_number w = -1 -> a < 0 /\ b < 0 /\ c < 0).
Proof. exact content_shape. Qed.
Print Assumptions quark_content_is_baryon_or_pair.
Example quark_content_example :
  accepted 0x211 /\ is_hadron 0x211 = true /\ n_q3 0x211 <= n_q2 0x211
  /\ quark_content 0x211 = [0; 2; -1] /\ nq 0x211 2 = 1 /\ nq 0x211 1 = -1.
Proof. splits; try reflexivity; [apply (Acc_int32 0x211); reflexivity|vm_compute; discriminate]. Qed.
(** For K0_L = 130 (lighter flavour first) the two interfaces disagree. *)
Theorem quark_content_K0L_refuted : exists w f, accepted w /\ is_hadron w = true /\ 1 <= f <= 6
  /\ net_count f (quark_content w) <> nq w f.
Proof.
  exists 0x130, 3. splits; try reflexivity; try (vm_compute; discriminate).
  apply (Acc_int32 0x130); reflexivity.
Qed.
Print Assumptions quark_content_K0L_refuted.

(** C11.  Accepted codes are physical. *)
Theorem accepted_codes_are_physical : forall w, accepted w ->
  0 <= w < 2 ^ 32 /\
  (is_nucleus w = false ->
   physical (view w) /\ in06 (n_q1 w) /\ in06 (n_q2 w) /\ in06 (n_q3 w)).
Proof.
  intros w Ha. pose proof (accepted_shape w Ha) as S. split; [exact (proj1 (shape_word w S))|].
  exact (shape_physical w S).
Qed.
Print Assumptions accepted_codes_are_physical.
Theorem int_constructor_accepts_exactly_physical : forall d, digits_ok d ->
  let c := (if d_anti d then -1 else 1) * d_code d in
  (physical d -> exists w, of_int32 c = Ok w /\ view w = d /\ is_nucleus w = false)
  /\ (~ physical d -> d_anti d = true -> d_code d <> 0 -> of_int32 c = Throw E_invalid_pdg)
  /\ (~ physical d -> d_anti d = false -> of_int32 c = Throw E_invalid_pdg).
Proof.
  intros d Hok c. pose proof (ok_hexd d Hok) as Hd. pose proof (code_range d Hd) as Hr.
  assert (N : ~ physical d -> (d_anti d = true -> d_code d <> 0) -> of_int32 c = Throw E_invalid_pdg).
  { intros Hn Hz. destruct (of_int32_no_ub c) as [[w E]|E]; [| |exfalso|exact E].
    - unfold c, in_i32, INT_MIN, INT_MAX. apply Bool.andb_true_iff. rewrite !Z.leb_le. destruct (d_anti d); lia.
    - unfold c, INT_MIN. destruct (d_anti d); lia.
    - destruct (of_int32_sound _ _ E) as (d' & -> & Hok' & Hp' & Ec & Es). apply Hn.
      assert (d' = d); [|congruence].
      apply wd_inj; [now apply ok_hexd|exact Hd|]. rewrite !wd_code.
      assert (E1 : d_code d' = d_code d).
      { rewrite Ec. unfold c. destruct (d_anti d); rewrite Z.mod_small by lia; lia. }
      assert (E2 : d_anti d' = d_anti d).
      { rewrite Es. unfold c. destruct (d_anti d); [specialize (Hz eq_refl); apply Z.ltb_lt; lia|apply Z.ltb_ge; lia]. }
      rewrite E1, E2. reflexivity. }
  splits.
  - intros Hp. exists (wd d). destruct (wd_fields d Hd) as (_ & V & En & _).
    splits; auto. exact (of_int32_complete d Hok Hp).
  - intros Hn _ Hz. apply N; auto.
  - intros Hn Hf. apply N; auto. congruence.
Qed.
Print Assumptions int_constructor_accepts_exactly_physical.
(** The 32-bit and the 64-bit (string-based) constructors agree below 2^28 when the
    excitation digits are decimal ... *)
Theorem int_and_string_constructors_agree : forall x, Z.abs x < 2 ^ 28 ->
  field 16 4 (Z.abs x) <= 9 -> field 20 4 (Z.abs x) <= 9 -> field 24 4 (Z.abs x) <= 9 ->
  of_int64 x = of_int32 x.
Proof. exact int64_agrees. Qed.
Print Assumptions int_and_string_constructors_agree.
Example agree_example : of_int64 (-0x2214) = Ok (0x2214 + 2 ^ 31) /\ of_int32 (-0x2214) = Ok (0x2214 + 2 ^ 31).
Proof. split; vm_compute; reflexivity. Qed.
(** ... but not otherwise: the string reader lets excitation digits A-F through, and
    the 32-bit constructor silently drops bits 28-30. *)
Theorem int_and_string_constructors_agree_refuted :
  (exists x w, of_int64 x = Ok w /\ of_int32 x = Throw E_invalid_pdg)
  /\ (exists x w, of_int32 x = Ok w /\ of_int64 x = Throw E_invalid_pdg).
Proof.
  split.
  - exists 0xa0211. compute_all.
  - exists 0x10000211. compute_all.
Qed.
Print Assumptions int_and_string_constructors_agree_refuted.
(** The most negative int is undefined behaviour. *)
Theorem int_constructor_never_undefined : forall c, in_i32 c = true -> c <> INT_MIN ->
  (exists w, of_int32 c = Ok w) \/ of_int32 c = Throw E_invalid_pdg.
Proof. exact of_int32_no_ub. Qed.
Print Assumptions int_constructor_never_undefined.
Theorem int_constructor_min_refuted : of_int32 INT_MIN = UB UB_signed_overflow.
Proof. reflexivity. Qed.
Print Assumptions int_constructor_min_refuted.
