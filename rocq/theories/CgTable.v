(** C114, second half: three-body isospin states, the table of coefficients,
    and its memoisation. *)
From Coq Require Import ZArith QArith List Bool Reals Qreals Lia Lra.
Import ListNotations.
From Verif Require Import Base CgModel CgProps.
Open Scope Z_scope.

(** * Three particles *)

Lemma iota_in n : forall lo x, In x (iota lo n) <-> lo <= x < lo + Z.of_nat n.
Proof.
  induction n; intros lo x; cbn [iota In]; [lia|]. rewrite IHn. lia.
Qed.
Lemma iota_nodup n : forall lo, NoDup (iota lo n).
Proof. induction n; intro lo; cbn; constructor; [rewrite iota_in; lia|auto]. Qed.

Lemma allowed_in a b c r x : 0 <= iso a -> 0 <= iso b ->
  In x (allowed_Iab a b c r) <->
  (Z.abs (iso a - iso b) <= x <= iso a + iso b
   /\ Z.abs (x - iso c) <= iso r <= x + iso c).
Proof.
  intros A B. unfold allowed_Iab. rewrite filter_In, iota_in, andb_true_iff, !Z.leb_le. lia.
Qed.
Lemma allowed_nodup a b c r : NoDup (allowed_Iab a b c r).
Proof. apply NoDup_filter, iota_nodup. Qed.

(** The factor of a three-body state is defined exactly when one and only one
    isospin of the first pair is possible, and is then the squared product of
    the coefficients of a b -> J and J c -> resonance; otherwise an exception
    is thrown.  The code also tries half-odd steps; they never matter. *)
Theorem three_body_isospin cg a b c r :
  complete a -> complete b -> complete c -> complete r ->
  Z.Even (iso a + iso b + iso c + iso r) ->
  (exists J, couples (iso a) (iso b) J /\ couples J (iso c) (iso r)
     /\ (forall J', couples (iso a) (iso b) J' -> couples J' (iso c) (iso r) -> J' = J)
     /\ sqr_3to1 cg a b c r
        = Ok (Rsqr (cg J (iso c) (iso r) (iso3 a + iso3 b)%Z (iso3 c) (iso3 r)
                    * cg (iso a) (iso b) J (iso3 a) (iso3 b) (iso3 a + iso3 b)%Z))%R)
  \/ (~ (exists J, couples (iso a) (iso b) J /\ couples J (iso c) (iso r)
           /\ (forall J', couples (iso a) (iso b) J' -> couples J' (iso c) (iso r) -> J' = J))
      /\ sqr_3to1 cg a b c r = Throw E_runtime).
Proof.
  intros (A & _) (B & _) (C & _) (D & _) [e E].
  pose proof (fun x => allowed_in a b c r x A B) as SP. pose proof (allowed_nodup a b c r) as ND.
  assert (PAR : forall J, In J (allowed_Iab a b c r) -> Z.Even (iso a + iso b + J) ->
                couples (iso a) (iso b) J /\ couples J (iso c) (iso r)).
  { intros J I [q Q]. apply SP in I. unfold couples. splits; try lia; [exists q; lia|].
    exists (e + q - iso a - iso b). lia. }
  assert (COUP : forall J, couples (iso a) (iso b) J -> couples J (iso c) (iso r) ->
                 In J (allowed_Iab a b c r)).
  { intros J (T1 & _) (T2 & _). apply SP. lia. }
  (* a half-odd step brings both its neighbours along *)
  assert (ODD : forall J, In J (allowed_Iab a b c r) -> Z.Odd (iso a + iso b + J) ->
                In (J - 1) (allowed_Iab a b c r) /\ In (J + 1) (allowed_Iab a b c r)).
  { intros J I [q Q]. apply SP in I. rewrite !SP.
    assert (Z.abs (iso a - iso b) <> J /\ J <> iso a + iso b /\ Z.abs (J - iso c) <> iso r
            /\ iso r <> J + iso c) by lia. lia. }
  unfold sqr_3to1. destruct (allowed_Iab a b c r) as [|J [|K l]] eqn:L.
  - right. split; [|reflexivity]. intros (J & C1 & C2 & _). exact (COUP J C1 C2).
  - left. exists J. destruct (Z.Even_or_Odd (iso a + iso b + J)) as [P|P].
    + destruct (PAR J (or_introl eq_refl) P) as (C1 & C2). splits; try assumption.
      * intros J' D1 D2. destruct (COUP J' D1 D2) as [<-|[]]. reflexivity.
      * reflexivity.
    + destruct (ODD J (or_introl eq_refl) P) as ([F|[]] & _). lia.
  - right. split; [|reflexivity]. intros (M & C1 & C2 & U).
    inversion ND as [|? ? N1 N2]; subst.
    (* two different members: two different members of the right parity *)
    assert (W : forall x, In x (J :: K :: l) -> x = M).
    { intros x I. destruct (Z.Even_or_Odd (iso a + iso b + x)) as [P|P].
      - destruct (PAR x I P). apply U; assumption.
      - destruct (ODD x I P) as (I1 & I2). destruct P as [p P].
        assert (Z.Even (iso a + iso b + (x - 1))) as P1 by (exists p; lia).
        assert (Z.Even (iso a + iso b + (x + 1))) as P2 by (exists (p + 1); lia).
        destruct (PAR _ I1 P1), (PAR _ I2 P2).
        assert (x - 1 = M) by (apply U; assumption). assert (x + 1 = M) by (apply U; assumption). lia. }
    apply N1. left. rewrite (W J), (W K); [reflexivity|right; left; reflexivity|left; reflexivity].
Qed.
Print Assumptions three_body_isospin.

Example three_body_applies :
  (* omega -> pi pi pi: unique;  Delta -> N pi pi: not unique *)
  allowed_Iab {| iso := 2; iso3 := 2 |} {| iso := 2; iso3 := 0 |} {| iso := 2; iso3 := -2 |}
              {| iso := 0; iso3 := 0 |} = [2]
  /\ complete {| iso := 2; iso3 := 2 |} /\ complete {| iso := 0; iso3 := 0 |}
  /\ (forall cg, sqr_3to1 cg {| iso := 2; iso3 := 2 |} {| iso := 2; iso3 := -2 |}
                   {| iso := 1; iso3 := 1 |} {| iso := 3; iso3 := 1 |} = Throw E_runtime).
Proof.
  splits; try reflexivity; unfold complete, state; cbn; splits; try lia;
    [exists 2; lia|exists 0; lia].
Qed.

(** * The hash *)

Lemma hash_part_value x s : 0 <= s <= 25 -> hash_part x (59 - s) = (x mod 32) * 2 ^ s.
Proof.
  intro S. unfold hash_part, u64.
  rewrite Z.shiftl_mul_pow2, Z.shiftr_div_pow2 by lia.
  assert (((x mod 2 ^ 64) * 2 ^ 59) mod 2 ^ 64 = (x mod 32) * 2 ^ 59) as ->.
  { replace (2 ^ 64) with (32 * 2 ^ 59) at 2 by reflexivity.
    rewrite Z.mul_mod_distr_r by lia. f_equal.
    change (2 ^ 64) with (32 * 2 ^ 59). rewrite Z.rem_mul_r by lia.
    rewrite Z.mul_comm, Z.mod_add, Z.mod_mod by lia. reflexivity. }
  replace (2 ^ 59) with (2 ^ s * 2 ^ (59 - s)) by (rewrite <- Z.pow_add_r by lia; f_equal; lia).
  rewrite Z.mul_assoc, Z.div_mul; [reflexivity|]. apply Z.pow_nonzero; lia.
Qed.

(** Two different sets of arguments never have the same hash. *)
Theorem hash_injective k k' h : hash k = Ok h -> hash k' = Ok h -> k = k'.
Proof.
  assert (V : forall k h, hash k = Ok h ->
    let '(j1, j2, j3, m1, m2, m3) := k in
    (0 <= j1 < 16 /\ 0 <= j2 < 16 /\ 0 <= j3 < 16 /\ -16 < m1 < 16 /\ -16 < m2 < 16 /\ -16 < m3 < 16)
    /\ h = (((((j1 mod 32) * 32 + j2 mod 32) * 32 + j3 mod 32) * 32 + m1 mod 32) * 32 + m2 mod 32) * 32 + m3 mod 32).
  { clear. intros [[[[[j1 j2] j3] m1] m2] m3] h H. unfold hash in H.
    rewrite !(hash_part_value _ _) in H by lia.
    change (hash_part m3 59) with (hash_part m3 (59 - 0)) in H. rewrite hash_part_value in H by lia.
    destruct (_ && _)%bool eqn:C in H; [|discriminate].
    rewrite !andb_true_iff, !Z.leb_le, !Z.ltb_lt in C. injection H as <-.
    split; [lia|]. unfold u64.
    pose proof (Z.mod_pos_bound j1 32). pose proof (Z.mod_pos_bound j2 32). pose proof (Z.mod_pos_bound j3 32).
    pose proof (Z.mod_pos_bound m1 32). pose proof (Z.mod_pos_bound m2 32). pose proof (Z.mod_pos_bound m3 32).
    rewrite Z.mod_small by lia. lia. }
  intros H H'. pose proof (V _ _ H) as W. pose proof (V _ _ H') as W'. clear V H H'.
  destruct k as [[[[[j1 j2] j3] m1] m2] m3], k' as [[[[[i1 i2] i3] n1] n2] n3].
  destruct W as (B & ->), W' as (B' & E).
  pose proof (Z.mod_pos_bound j2 32). pose proof (Z.mod_pos_bound j3 32).
  pose proof (Z.mod_pos_bound m1 32). pose proof (Z.mod_pos_bound m2 32). pose proof (Z.mod_pos_bound m3 32).
  pose proof (Z.mod_pos_bound i2 32). pose proof (Z.mod_pos_bound i3 32).
  pose proof (Z.mod_pos_bound n1 32). pose proof (Z.mod_pos_bound n2 32). pose proof (Z.mod_pos_bound n3 32).
  assert (E1 : j1 mod 32 = i1 mod 32 /\ j2 mod 32 = i2 mod 32 /\ j3 mod 32 = i3 mod 32
          /\ m1 mod 32 = n1 mod 32 /\ m2 mod 32 = n2 mod 32 /\ m3 mod 32 = n3 mod 32).
  { clear B B'. generalize dependent (j1 mod 32). generalize dependent (j2 mod 32). generalize dependent (j3 mod 32).
    generalize dependent (m1 mod 32). generalize dependent (m2 mod 32). generalize dependent (m3 mod 32).
    generalize dependent (i1 mod 32). generalize dependent (i2 mod 32). generalize dependent (i3 mod 32).
    generalize dependent (n1 mod 32). generalize dependent (n2 mod 32). generalize dependent (n3 mod 32).
    intros. lia. }
  destruct E1 as (E1 & E2 & E3 & E4 & E5 & E6).
  assert (I : forall x y, -16 < x < 16 -> -16 < y < 16 -> x mod 32 = y mod 32 -> x = y).
  { clear. intros x y X Y E. pose proof (Z.div_mod x 32). pose proof (Z.div_mod y 32).
    pose proof (Z.mod_pos_bound x 32). pose proof (Z.mod_pos_bound y 32). lia. }
  apply I in E1, E2, E3, E4, E5, E6; try lia. subst. reflexivity.
Qed.
Print Assumptions hash_injective.

Example hash_applies : hash (3, 2, 5, -3, 2, -1) = Ok (3 * 2 ^ 25 + 2 * 2 ^ 20 + 5 * 2 ^ 15 + 29 * 2 ^ 10 + 2 * 2 ^ 5 + 31).
Proof. vm_compute. reflexivity. Qed.

(** * Memoisation *)

Lemma key_eqb_eq x y : key_eqb x y = true <-> x = y.
Proof.
  destruct x as [[[[[a1 a2] a3] a4] a5] a6], y as [[[[[b1 b2] b3] b4] b5] b6]. unfold key_eqb.
  rewrite !andb_true_iff, !Z.eqb_eq. split.
  - intros (((((-> & ->) & ->) & ->) & ->) & ->). reflexivity.
  - intro E. injection E as -> -> -> -> -> ->. splits; reflexivity.
Qed.

(** the value of a coefficient in a program that never called it before *)
Definition fresh w3j (k : key) : res R :=
  _ <- hash k ;;
  match find initial_map k with Some v => Ok v | None => calculate w3j k end.

Definition consistent w3j (m : list (key * R)) : Prop :=
  forall k, match find m k with
            | Some v => match find initial_map k with Some v' => v = v' | None => calculate w3j k = Ok v end
            | None => find initial_map k = None
            end.

(** Whatever coefficients were asked for before, in whatever order, a
    coefficient has the value it has in a fresh program; a program is never
    stopped by one history and not by another. *)
Theorem coefficient_history w3j past vs m k :
  calls w3j initial_map past = Ok (vs, m) ->
  rbind (coefficient w3j m k) (fun r => Ok (fst r)) = fresh w3j k
  /\ Forall2 (fun q v => fresh w3j q = Ok v) past vs.
Proof.
  assert (C0 : consistent w3j initial_map) by (intro q; destruct (find initial_map q); reflexivity).
  assert (ONE : forall m q, consistent w3j m -> rbind (coefficient w3j m q) (fun r => Ok (fst r)) = fresh w3j q).
  { clear. intros m q C. unfold coefficient, fresh. destruct (hash q); cbn [rbind]; try reflexivity.
    specialize (C q). destruct (find m q) as [v|].
    - cbn [rbind fst]. destruct (find initial_map q); congruence.
    - rewrite C. destruct (calculate w3j q); reflexivity. }
  assert (STEP : forall m q v m', consistent w3j m -> coefficient w3j m q = Ok (v, m') -> consistent w3j m').
  { clear. intros m q v m' C E. unfold coefficient in E. apply rbind_ok in E. destruct E as (? & _ & E).
    pose proof (C q) as CQ. destruct (find m q) as [w|] eqn:F; [injection E as <- <-; assumption|].
    apply rbind_ok in E. destruct E as (w & W & E). injection E as <- <-.
    intro p. cbn [find]. destruct (key_eqb q p) eqn:K; [|apply C].
    apply key_eqb_eq in K. subst. rewrite CQ. assumption. }
  assert (G : forall past m0 vs m, consistent w3j m0 -> calls w3j m0 past = Ok (vs, m) ->
              consistent w3j m /\ Forall2 (fun q v => fresh w3j q = Ok v) past vs).
  { clear past vs m. induction past as [|q past IH]; intros m0 vs m C E; cbn [calls] in E.
    - injection E as <- <-. split; [assumption|constructor].
    - apply rbind_ok in E. destruct E as ([v m1] & E1 & E). apply rbind_ok in E.
      destruct E as ([vs' m2] & E2 & E). injection E as <- <-.
      destruct (IH m1 vs' m2 (STEP _ _ _ _ C E1) E2) as (C2 & F). split; [assumption|].
      constructor; [|assumption]. rewrite <- (ONE m0 q C), E1. reflexivity. }
  intro E. destruct (G past initial_map vs m C0 E) as (C & F). split; [apply ONE; assumption|assumption].
Qed.
Print Assumptions coefficient_history.

(** * The table *)

(** All checks of one entry: it obeys the selection rules, has the sign of the
    exact coefficient, and its square is right to 5e-16. *)
Definition selectionb (k : key) : bool :=
  let '(j1, j2, j3, m1, m2, m3) := k in
  (0 <=? j1) && (0 <=? j2) && (0 <=? j3) && (Z.abs m1 <=? j1) && (Z.abs m2 <=? j2) && (Z.abs m3 <=? j3)
  && Z.even (j1 + m1) && Z.even (j2 + m2) && Z.even (j3 + m3)
  && (Z.abs (j1 - j2) <=? j3) && (j3 <=? j1 + j2) && Z.even (j1 + j2 + j3) && (m1 + m2 =? m3).
Lemma selectionb_spec k : selectionb k = true -> selection k.
Proof.
  destruct k as [[[[[j1 j2] j3] m1] m2] m3]. unfold selectionb, selection, state, couples.
  rewrite !andb_true_iff, !Z.leb_le, !Z.even_spec, Z.eqb_eq. tauto.
Qed.

Definition entry_ok (e : key * Z) : bool :=
  let v := (snd e # 100000000000000000)%Q in
  let d := (v * v - cg2 (fst e))%Q in
  selectionb (fst e)
  && Qle_bool (- (5 # 10000000000000000)) d && Qle_bool d (5 # 10000000000000000)
  && (if 0 <? snd e then Qle_bool 0 (racah_sum (fst e)) && Qle_bool (1 # 5) v
      else Qle_bool (racah_sum (fst e)) 0 && Qle_bool v (- (1 # 5)))
  && Qle_bool 0 (racah_prefactor (fst e)).

Lemma table_ok : forallb entry_ok table = true.
Proof. vm_compute. reflexivity. Qed.

Open Scope R_scope.
Lemma Qle_bool_R p q : Qle_bool p q = true -> Q2R p <= Q2R q.
Proof. intro H. apply Qle_Rle. apply Qle_bool_iff. assumption. Qed.

(** The tabulated values are the Clebsch-Gordan coefficients, sign included,
    to better than 3e-15; no entry is outside the selection rules. *)
Theorem table_accurate k v : In (k, v) initial_map ->
  selection k /\ Rabs (v - CG k) <= 3 / 10 ^ 15.
Proof.
  unfold initial_map. rewrite in_map_iff. intros ([k' n] & E & I). cbn [fst snd] in E. injection E as -> <-.
  pose proof (proj1 (forallb_forall entry_ok table) table_ok _ I) as O. clear I.
  unfold entry_ok in O. cbn [fst snd] in O.
  apply andb_prop in O. destruct O as (O & PF). apply andb_prop in O. destruct O as (O & SG).
  apply andb_prop in O. destruct O as (O & D2). apply andb_prop in O. destruct O as (SEL & D1).
  split; [apply selectionb_spec; assumption|].
  apply Qle_bool_R in D1, D2, PF.
  assert (TH : Q2R (5 # 10000000000000000) = 5 / 10 ^ 16) by (unfold Q2R; cbn [Qnum Qden]; lra).
  rewrite Q2R_opp, TH in D1. rewrite TH in D2. clear TH.
  rewrite Q2R_minus, Q2R_mult in D1, D2. unfold cg2 in D1, D2. rewrite !Q2R_mult in D1, D2.
  assert (VV : Q2R (n # 100000000000000000) = IZR n / IZR (10 ^ 17)) by reflexivity.
  rewrite VV in D1, D2.
  change (Rabs (IZR n / IZR (10 ^ 17) - CG k) <= 3 / 10 ^ 15).
  set (v := IZR n / IZR (10 ^ 17)) in *. set (p := Q2R (racah_prefactor k)) in *.
  assert (Q2R 0 = 0) as Q0 by (unfold Q2R; cbn; lra).
  assert (Q2R (1 # 5) = 1 / 5) as Q5 by (unfold Q2R; cbn; lra).
  rewrite Q0 in PF.
  assert (ALT : (1 / 5 <= v /\ 0 <= Q2R (racah_sum k)) \/ (v <= - (1 / 5) /\ Q2R (racah_sum k) <= 0)).
  { destruct (0 <? n)%Z; apply andb_prop in SG; destruct SG as (G1 & G2); apply Qle_bool_R in G1, G2;
      rewrite ?Q2R_opp in G2; rewrite Q0 in G1; rewrite Q5, VV in G2; [left|right]; split; assumption. }
  clear SG VV Q0 Q5. unfold CG. fold p. set (s := Q2R (racah_sum k)) in *. clearbody v p s. clear SEL n k.
  assert (SQ : p * s * s = (sqrt p * s) * (sqrt p * s)).
  { transitivity ((sqrt p * sqrt p) * s * s); [rewrite sqrt_sqrt by assumption; ring|ring]. }
  rewrite SQ in D1, D2. pose proof (sqrt_pos p) as SP. set (r := sqrt p) in *. clearbody r. clear SQ.
  assert (AB : (1 / 5 <= v /\ 0 <= r * s) \/ (v <= - (1 / 5) /\ r * s <= 0)).
  { destruct ALT as [(? & ?)|(? & ?)]; [left|right]; (split; [assumption|]).
    - apply Rmult_le_pos; assumption.
    - rewrite <- (Rmult_0_r r). apply Rmult_le_compat_l; assumption. }
  set (c := r * s) in *. clearbody c. clear ALT SP PF.
  (* |v - c| |v + c| <= 5e-16 and |v + c| >= 1/5 *)
  assert (PR : Rabs (v - c) * Rabs (v + c) <= 5 / 10 ^ 16).
  { rewrite <- Rabs_mult. apply Rabs_le. replace ((v - c) * (v + c)) with (v * v - c * c) by ring. lra. }
  assert (LB : 1 / 5 <= Rabs (v + c)).
  { destruct AB as [(? & ?)|(? & ?)]; [rewrite Rabs_right by lra|rewrite Rabs_left by lra]; lra. }
  pose proof (Rabs_pos (v - c)) as P0.
  assert (Rabs (v - c) * (1 / 5) <= 5 / 10 ^ 16).
  { eapply Rle_trans; [|exact PR]. apply Rmult_le_compat_l; assumption. }
  lra.
Qed.
Print Assumptions table_accurate.

(** Each coefficient is tabulated at most once, and the table misses only
    coefficients that are zero, for all pairs of isospins up to 3/2. *)
Definition keyZ_find (k : key) : bool := existsb (fun e => key_eqb (fst e) k) table.
Fixpoint distinct (l : list (key * Z)) : bool :=
  match l with [] => true | e :: t => negb (existsb (fun f => key_eqb (fst f) (fst e)) t) && distinct t end.

Theorem table_complete :
  NoDup (map fst initial_map)
  /\ forall k, selection k -> (let '(j1, j2, _, _, _, _) := k in j1 <= 3 /\ j2 <= 3)%Z ->
       (exists v, find initial_map k = Some v) \/ CG k = 0.
Proof.
  split.
  - unfold initial_map. rewrite map_map. cbn [fst].
    assert (D : distinct table = true) by (vm_compute; reflexivity).
    revert D. generalize table as l. induction l as [|e l IH]; cbn [distinct map]; intro D; [constructor|].
    apply andb_prop in D. destruct D as (D & D'). constructor; [|apply IH; assumption].
    intro I. apply in_map_iff in I. destruct I as (f & E & I). apply negb_true_iff in D.
    assert (existsb (fun f => key_eqb (fst f) (fst e)) l = true); [|congruence].
    apply existsb_exists. exists f. split; [assumption|]. apply key_eqb_eq. assumption.
  - intros k SEL SM.
    assert (A : forallb (fun k => keyZ_find k || Qeq_bool (racah_sum k) 0) (all_keys 3) = true)
      by (vm_compute; reflexivity).
    pose proof (proj1 (forallb_forall _ _) A k) as B. cbn beta in B. clear A.
    assert (I : In k (all_keys 3)).
    { apply all_keys_spec. split; [assumption|]. destruct k as [[[[[? ?] ?] ?] ?] ?]. assumption. }
    specialize (B I). apply orb_prop in B. destruct B as [B|B].
    + left. unfold keyZ_find in B. unfold initial_map. revert B. generalize table as l.
      induction l as [|e l IH]; cbn [existsb map find]; intro B; [discriminate|].
      destruct (key_eqb (fst e) k); [eexists; reflexivity|]. apply IH. assumption.
    + right. unfold CG. apply Qeq_bool_iff in B. apply Qeq_eqR in B. rewrite B.
      replace (Q2R 0) with 0 by (unfold Q2R; cbn; lra). ring.
Qed.
Print Assumptions table_complete.

(** * Coefficients that are not tabulated *)

Lemma W3j_abs2 k : let '(j1, j2, j3, m1, m2, m3) := k in
  (0 <= j3)%Z -> 0 <= Q2R (racah_prefactor k) ->
  Rsqr (W3j j1 j2 j3 m1 m2 (- m3)) = Q2R (cg2 k) / IZR (j3 + 1).
Proof.
  destruct k as [[[[[j1 j2] j3] m1] m2] m3]. intros J P. unfold W3j, CG, cg2.
  rewrite Z.opp_involutive, !Q2R_mult. set (p := Q2R (racah_prefactor _)) in *. set (s := Q2R (racah_sum _)).
  set (sg := IZR (if Z.even ((j1 - j2 - - m3) / 2) then 1 else -1)).
  assert (SG : sg * sg = 1) by (unfold sg; destruct (Z.even _); lra).
  assert (J' : 0 < IZR (j3 + 1)) by (apply IZR_lt; lia).
  pose proof (sqrt_sqrt _ P) as SP. pose proof (sqrt_sqrt (IZR (j3 + 1)) (Rlt_le _ _ J')) as SJ.
  pose proof (sqrt_lt_R0 _ J') as SJP.
  unfold Rsqr. transitivity ((sg * sg) * (sqrt p * sqrt p) * s * s / (sqrt (IZR (j3 + 1)) * sqrt (IZR (j3 + 1)))).
  - field. lra.
  - rewrite SG, SP, SJ. field. lra.
Qed.

(** checked below for all isospins up to 3: prefactor not negative, and the
    square of the 3j symbol either zero or at least 1e-12 *)
Definition not_cut (k : key) : bool :=
  let '(_, _, j3, _, _, _) := k in
  Qle_bool 0 (racah_prefactor k)
  && (Qeq_bool (racah_sum k) 0 || Qle_bool ((j3 + 1) # 1000000000000) (cg2 k)).
Lemma none_cut : forallb not_cut (all_keys 6) = true.
Proof. vm_compute. reflexivity. Qed.

(** Given an exact 3j symbol, a coefficient with isospins up to 3 that is
    calculated rather than looked up is the Clebsch-Gordan coefficient, sign
    included: the cut at 1e-6 removes nothing and the parity assertion holds. *)
Theorem calculate_exact k : selection k ->
  (let '(j1, j2, _, _, _, _) := k in j1 <= 6 /\ j2 <= 6)%Z ->
  calculate W3j k = Ok (CG k).
Proof.
  intros SEL SM.
  assert (NC : not_cut k = true).
  { apply (proj1 (forallb_forall _ _) none_cut). apply all_keys_spec. split; assumption. }
  pose proof (W3j_abs2 k) as AB.
  destruct k as [[[[[j1 j2] j3] m1] m2] m3]. cbv beta iota in AB.
  destruct SEL as ((A & _ & [p P]) & (B & _ & [q Q]) & (C & _ & [r RR]) & _ & M). clear SM.
  unfold not_cut in NC. apply andb_prop in NC. destruct NC as (N1 & N2).
  apply Qle_bool_R in N1. replace (Q2R 0) with 0 in N1 by (unfold Q2R; cbn; lra).
  specialize (AB C N1). unfold calculate.
  assert (J' : 0 < IZR (j3 + 1)) by (apply IZR_lt; lia).
  pose proof (sqrt_lt_R0 _ J') as SJP.
  assert (EV : (j1 - j2 + m3 = 2 * (p + q - j2))%Z) by lia.
  destruct (Rlt_dec _ _) as [L|L].
  - (* cut: then the coefficient is zero *)
    apply orb_prop in N2. destruct N2 as [N2|N2].
    + f_equal. unfold CG. apply Qeq_bool_iff in N2. apply Qeq_eqR in N2. rewrite N2.
      replace (Q2R 0) with 0 by (unfold Q2R; cbn; lra). ring.
    + exfalso. apply Qle_bool_R in N2.
      assert (Q2R ((j3 + 1) # 1000000000000) = IZR (j3 + 1) / 10 ^ 12) as E by (unfold Q2R; cbn [Qnum Qden]; lra).
      rewrite E in N2. clear E.
      assert (1 / 10 ^ 12 <= Rsqr (W3j j1 j2 j3 m1 m2 (- m3))).
      { rewrite AB. apply Rmult_le_reg_r with (IZR (j3 + 1)); [assumption|].
        unfold Rdiv at 2. rewrite Rmult_assoc, Rinv_l by lra. lra. }
      assert (Rsqr (Rabs (W3j j1 j2 j3 m1 m2 (- m3))) < Rsqr (1 / 1000000)).
      { apply Rsqr_incrst_1; [assumption|apply Rabs_pos|lra]. }
      rewrite <- Rsqr_abs in H0. unfold Rsqr at 2 in H0. lra.
  - rewrite EV. rewrite (Z.mul_comm 2), Z.rem_mul, Z.quot_mul by lia. cbn [Z.eqb negb].
    f_equal. unfold W3j. rewrite Z.opp_involutive.
    replace (j1 - j2 - - m3)%Z with ((p + q - j2) * 2)%Z by lia. rewrite Z.div_mul by lia.
    set (j := (p + q - j2)%Z). set (c := CG _).
    assert (EE : (Z.rem j 2 =? 0)%Z = Z.even j).
    { destruct (Z.even j) eqn:E.
      - apply Z.even_spec in E. destruct E as [t ->]. rewrite (Z.mul_comm 2), Z.rem_mul by lia. reflexivity.
      - apply Z.eqb_neq. intro Z0. apply Z.rem_divide in Z0; [|lia]. destruct Z0 as [t T].
        assert (Z.even j = true) by (apply Z.even_spec; exists t; lia). congruence. }
    rewrite EE. destruct (Z.even j).
    + change (IZR (1 * 2 - 1)) with 1. field. lra.
    + change (IZR (0 * 2 - 1)) with (-1). field. lra.
Qed.
Print Assumptions calculate_exact.

(** Everything together: after any history of calls, every coefficient of
    isospins up to 3 that obeys the selection rules is within 3e-15 of the
    exact one - provided the library's 3j symbol is exact. *)
Theorem coefficients_correct past vs m k : calls W3j initial_map past = Ok (vs, m) ->
  selection k -> (let '(j1, j2, _, _, _, _) := k in j1 <= 6 /\ j2 <= 6)%Z ->
  exists v m', coefficient W3j m k = Ok (v, m') /\ Rabs (v - CG k) <= 3 / 10 ^ 15.
Proof.
  intros C SEL SM. destruct (coefficient_history W3j past vs m k C) as (H & _).
  assert (exists h, hash k = Ok h) as [h HH].
  { destruct k as [[[[[j1 j2] j3] m1] m2] m3]. unfold selection, state, couples in SEL. unfold hash.
    match goal with |- context[if ?c then _ else _] => assert (c = true) as -> end.
    { rewrite !andb_true_iff, !Z.leb_le, !Z.ltb_lt. lia. }
    eexists; reflexivity. }
  unfold fresh in H. rewrite HH in H. cbn [rbind] in H.
  assert (exists v, Ok v = match find initial_map k with Some v => Ok v | None => calculate W3j k end
                    /\ Rabs (v - CG k) <= 3 / 10 ^ 15) as (v & V & A).
  { destruct (find initial_map k) as [v|] eqn:F.
    - exists v. split; [reflexivity|]. apply table_accurate.
      clear -F. revert F. generalize initial_map as l. induction l as [|[k' v'] l IH]; cbn [find]; intro F; [discriminate|].
      destruct (key_eqb k' k) eqn:K; [|right; auto]. left. apply key_eqb_eq in K. congruence.
    - exists (CG k). split; [symmetry; apply calculate_exact; assumption|].
      rewrite Rminus_diag_eq by reflexivity. rewrite Rabs_R0. lra. }
  rewrite <- V in H. apply rbind_ok in H. destruct H as ([v' m'] & E & H). injection H as H. cbn [fst] in H.
  exists v', m'. split; [assumption|]. rewrite H. assumption.
Qed.
Print Assumptions coefficients_correct.

Example table_applies :
  find initial_map (2, 1, 3, 0, 1, 1)%Z = Some (IZR 81649658092772615 / IZR (10 ^ 17))
  /\ In ((2, 1, 3, 0, 1, 1), 81649658092772615)%Z table.
Proof.
  split; [reflexivity|]. 
  assert (existsb (fun e => key_eqb (fst e) (2, 1, 3, 0, 1, 1)%Z && (snd e =? 81649658092772615)%Z) table = true) by (vm_compute; reflexivity).
  apply existsb_exists in H. destruct H as ([k v] & I & B). apply andb_prop in B. destruct B as (B1 & B2).
  apply key_eqb_eq in B1. apply Z.eqb_eq in B2. cbn [fst snd] in *. subst. assumption.
Qed.
