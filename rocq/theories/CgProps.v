(** C114: isospin coupling.  The specification - which total isospins two
    species can couple to, and what a Clebsch-Gordan coefficient is - comes
    first and does not mention the model. *)
From Coq Require Import ZArith QArith List Bool Reals Qreals Lia Lra.
Import ListNotations.
From Verif Require Import Base CgModel.
Open Scope Z_scope.

(** * Specification *)

(** Isospins are doubled throughout.  A state of a multiplet: |m| <= j in unit
    steps. *)
Definition state (j m : Z) : Prop := 0 <= j /\ Z.abs m <= j /\ Z.Even (j + m).

(** j1 and j2 can couple to j3: triangle rule in unit steps. *)
Definition couples (j1 j2 j3 : Z) : Prop :=
  Z.abs (j1 - j2) <= j3 <= j1 + j2 /\ Z.Even (j1 + j2 + j3).

(** A species that belongs to a complete isospin multiplet. *)
Definition complete (p : sp) : Prop := state (iso p) (iso3 p).

(** The arguments for which a Clebsch-Gordan coefficient is defined and not
    trivially zero. *)
Definition selection (k : key) : Prop :=
  let '(j1, j2, j3, m1, m2, m3) := k in
  state j1 m1 /\ state j2 m2 /\ state j3 m3 /\ couples j1 j2 j3 /\ m1 + m2 = m3.

Fixpoint factorial (n : nat) : Z :=
  match n with O => 1 | S k => Z.of_nat n * factorial k end.
(** n! of half of a doubled number *)
Definition hf (n : Z) : Z := factorial (Z.to_nat (n / 2)).

(** Racah's closed formula: <j1 m1 j2 m2 | j3 m3> = sqrt(prefactor) * sum. *)
Definition racah_prefactor (k : key) : Q :=
  let '(j1, j2, j3, m1, m2, m3) := k in
  inject_Z ((j3 + 1) * hf (j1 + j2 - j3) * hf (j1 - j2 + j3) * hf (j2 + j3 - j1)
            * hf (j1 + m1) * hf (j1 - m1) * hf (j2 + m2) * hf (j2 - m2)
            * hf (j3 + m3) * hf (j3 - m3))
  / inject_Z (hf (j1 + j2 + j3 + 2)).
Definition racah_term (k : key) (i : Z) : Q :=
  let '(j1, j2, j3, m1, m2, m3) := k in
  let ds := [2 * i; j1 + j2 - j3 - 2 * i; j1 - m1 - 2 * i; j2 + m2 - 2 * i;
             j3 - j2 + m1 + 2 * i; j3 - j1 - m2 + 2 * i] in
  if forallb (fun d => 0 <=? d) ds
  then inject_Z (if Z.even i then 1 else -1)
       / inject_Z (fold_right (fun d p => hf d * p) 1 ds)
  else 0.
Definition racah_sum (k : key) : Q :=
  let '(j1, j2, _, _, _, _) := k in
  fold_right (fun i s => (racah_term k (Z.of_nat i) + s)%Q) 0%Q
             (seq 0 (Z.to_nat (j1 + j2 + 1))).
(** square of the coefficient (rational) and the coefficient itself *)
Definition cg2 (k : key) : Q := (racah_prefactor k * racah_sum k * racah_sum k)%Q.
Definition CG (k : key) : R := (sqrt (Q2R (racah_prefactor k)) * Q2R (racah_sum k))%R.
(** Wigner's 3j symbol, with m3 the z component that makes the sum vanish. *)
Definition W3j (j1 j2 j3 m1 m2 m3 : Z) : R :=
  (IZR (if Z.even ((j1 - j2 - m3) / 2) then 1 else -1)
   / sqrt (IZR (j3 + 1)) * CG (j1, j2, j3, m1, m2, - m3)%Z)%R.

(** every argument with j1, j2 <= n that obeys the selection rules *)
Definition zrange (lo hi step : Z) : list Z :=
  map (fun i => lo + step * Z.of_nat i) (seq 0 (Z.to_nat ((hi - lo) / step + 1))).
Definition all_keys (n : Z) : list key :=
  flat_map (fun j1 => flat_map (fun j2 => flat_map (fun j3 =>
    flat_map (fun m1 => flat_map (fun m2 =>
      if Z.abs (m1 + m2) <=? j3 then [(j1, j2, j3, m1, m2, m1 + m2)] else [])
      (zrange (- j2) j2 2)) (zrange (- j1) j1 2))
    (zrange (Z.abs (j1 - j2)) (j1 + j2) 2)) (zrange 0 n 1)) (zrange 0 n 1).

Lemma zrange_in lo hi step x :
  0 < step -> (In x (zrange lo hi step) <-> lo <= x <= hi /\ (step | x - lo)).
Proof.
  intro P. unfold zrange. rewrite in_map_iff. split.
  - intros (i & <- & I). rewrite in_seq in I.
    assert (Z.of_nat i <= (hi - lo) / step) by lia.
    assert (step * Z.of_nat i <= step * ((hi - lo) / step)) by (apply Z.mul_le_mono_nonneg_l; lia).
    pose proof (Z.mul_div_le (hi - lo) step P).
    split; [split; [pose proof (Zle_0_nat i); nia|lia]|].
    exists (Z.of_nat i). ring.
  - intros ([L H] & [q Q]). exists (Z.to_nat q).
    assert (0 <= q) by nia.
    split; [rewrite Z2Nat.id by lia; nia|].
    rewrite in_seq. split; [lia|].
    assert (q <= (hi - lo) / step) by (apply Z.div_le_lower_bound; nia). lia.
Qed.

(** [all_keys] is what its comment says. *)
Lemma all_keys_spec n k : In k (all_keys n) <->
  selection k /\ (let '(j1, j2, _, _, _, _) := k in j1 <= n /\ j2 <= n).
Proof.
  destruct k as [[[[[j1 j2] j3] m1] m2] m3]. unfold all_keys, selection, state, couples.
  rewrite in_flat_map. split.
  - intros (a & A & I). rewrite in_flat_map in I. destruct I as (b & B & I).
    rewrite in_flat_map in I. destruct I as (c & C & I).
    rewrite in_flat_map in I. destruct I as (d & D & I).
    rewrite in_flat_map in I. destruct I as (e & E & I).
    rewrite zrange_in in A, B, C, D, E by lia.
    destruct (Z.abs (d + e) <=? c) eqn:L; [|contradiction].
    destruct I as [I|[]]. injection I as <- <- <- <- <- <-. apply Z.leb_le in L.
    destruct A as (A & _), B as (B & _), C as (C & [c' C']), D as (D & [d' D']), E as (E & [e' E']).
    unfold Z.Even. splits; try lia.
    + exists (a + d' - a). lia.
    + exists (e'). lia.
    + exists (c' + d' + e' + (Z.abs (a - b) - a - b) / 2).
      assert ((Z.abs (a - b) - a - b) mod 2 = 0).
      { destruct (Z.abs_spec (a - b)) as [[_ ->]|[_ ->]].
        - replace (a - b - a - b) with ((- b) * 2) by ring. apply Z.mod_mul; lia.
        - replace (- (a - b) - a - b) with ((- a) * 2) by ring. apply Z.mod_mul; lia. }
      pose proof (Z.div_mod (Z.abs (a - b) - a - b) 2). lia.
    + exists (c' + b + a + (Z.abs (a - b) - a - b) / 2).
      assert ((Z.abs (a - b) - a - b) mod 2 = 0).
      { destruct (Z.abs_spec (a - b)) as [[_ ->]|[_ ->]].
        - replace (a - b - a - b) with ((- b) * 2) by ring. apply Z.mod_mul; lia.
        - replace (- (a - b) - a - b) with ((- a) * 2) by ring. apply Z.mod_mul; lia. }
      pose proof (Z.div_mod (Z.abs (a - b) - a - b) 2). lia.
  - intros (((J1 & M1 & [p P]) & (J2 & M2 & [q Q]) & (J3 & M3 & [r R]) & (T & [t TT]) & S) & N1 & N2).
    exists j1. split; [rewrite zrange_in by lia; split; [lia|exists (j1 - 0); lia]|].
    rewrite in_flat_map. exists j2. split; [rewrite zrange_in by lia; split; [lia|exists (j2 - 0); lia]|].
    rewrite in_flat_map. exists j3. split.
    { rewrite zrange_in by lia. split; [lia|].
      destruct (Z.abs_spec (j1 - j2)) as [[_ ->]|[_ ->]].
      - exists (t - j1). lia. - exists (t - j2). lia. }
    rewrite in_flat_map. exists m1. split; [rewrite zrange_in by lia; split; [lia|exists p; lia]|].
    rewrite in_flat_map. exists m2. split; [rewrite zrange_in by lia; split; [lia|exists q; lia]|].
    replace (Z.abs (m1 + m2) <=? j3) with true by (symmetry; apply Z.leb_le; lia).
    left. rewrite S. reflexivity.
Qed.

(** The formula behaves like Clebsch-Gordan coefficients: for each pair of
    multiplets and each pair of states the squares sum to one. *)
Definition norms (n : Z) : bool :=
  forallb (fun j1 => forallb (fun j2 => forallb (fun m1 => forallb (fun m2 =>
    Qeq_bool (fold_right (fun j3 s =>
       if Z.abs (m1 + m2) <=? j3 then (cg2 (j1, j2, j3, m1, m2, m1 + m2)%Z + s)%Q else s) 0%Q
       (zrange (Z.abs (j1 - j2)) (j1 + j2) 2)) 1%Q)
    (zrange (- j2) j2 2)) (zrange (- j1) j1 2)) (zrange 0 n 1)) (zrange 0 n 1).
Example racah_normalised : norms 4 = true.
Proof. vm_compute. reflexivity. Qed.
Example racah_values :
  Qeq (cg2 (1, 1, 0, 1, -1, 0)) (1 # 2) /\ Qeq (cg2 (2, 1, 3, 0, 1, 1)) (2 # 3)
  /\ (racah_sum (1, 1, 0, -1, 1, 0)%Z < 0)%Q /\ (racah_sum (1, 1, 0, 1, -1, 0)%Z > 0)%Q.
Proof. vm_compute. splits; reflexivity. Qed.

(** * The range of total isospins *)

Lemma walk_ok n : forall f cur last, (n < f)%nat -> cur = last + 2 * Z.of_nat n ->
  INT_MIN <= last -> cur <= INT_MAX ->
  exists l, walk f cur last = Ok l /\ NoDup l
    /\ (forall x, In x l <-> last < x <= cur /\ Z.Even (x - cur)).
Proof.
  induction n; intros f cur last F E B1 B2; (destruct f; [lia|]); cbn [walk].
  - replace (cur =? last) with true by (symmetry; apply Z.eqb_eq; lia).
    exists []. splits; [reflexivity|constructor|]. intro x; cbn. split; [contradiction|lia].
  - replace (cur =? last) with false by (symmetry; apply Z.eqb_neq; lia).
    unfold sint, in_i32. replace ((INT_MIN <=? cur - 2) && (cur - 2 <=? INT_MAX)) with true
      by (symmetry; apply andb_true_intro; split; apply Z.leb_le; lia).
    cbn [rbind]. destruct (IHn f (cur - 2) last) as (l & -> & ND & SP); try lia.
    exists (cur :: l). cbn [rbind]. splits; [reflexivity| |].
    + constructor; [|assumption]. rewrite SP. lia.
    + intro x. cbn [In]. rewrite SP. split.
      * intros [<-|([? ?] & [q Q])]; [split; [lia|exists 0; lia]|].
        split; [lia|exists (q - 1); lia].
      * intros ([? ?] & [q Q]). destruct (Z.eq_dec cur x); [left; assumption|right].
        split; [lia|exists (q + 1); lia].
Qed.

Lemma walk_terminates f : forall cur last l, walk f cur last = Ok l ->
  last <= cur /\ Z.Even (cur - last) /\ (cur - last) / 2 < Z.of_nat f.
Proof.
  induction f; intros cur last l W; cbn [walk] in W; [discriminate|].
  destruct (cur =? last) eqn:E.
  - apply Z.eqb_eq in E. subst. rewrite Z.sub_diag. splits; [lia|exists 0; lia|cbn; lia].
  - apply rbind_ok in W. destruct W as (nx & S1 & W). apply rbind_ok in W. destruct W as (l' & W & _).
    unfold sint in S1. destruct (in_i32 (cur - 2)); [|discriminate]. injection S1 as <-.
    apply IHf in W. destruct W as (A & [q Q] & B). splits; [lia|exists (q + 1); lia|].
    replace (cur - last) with ((cur - 2 - last) + 1 * 2) by ring. rewrite Z.div_add by lia. lia.
Qed.

(** What happens with the bounds (lo, hi): the loop visits exactly the values
    lo, lo + 2, ..., hi - provided hi - lo is even. *)
Lemma range_ok lo hi : INT_MIN <= lo - 2 -> hi <= INT_MAX -> INT_MIN <= hi ->
  (lo <= hi -> Z.Even (hi - lo)) ->
  exists l, range_list (lo, hi) = Ok l /\ NoDup l
    /\ (forall x, In x l <-> lo <= x <= hi /\ Z.Even (x - lo)).
Proof.
  intros B1 B2 B3 EV. unfold range_list, range_fuel, range_end, range_begin. cbn [fst snd].
  destruct (hi <? lo) eqn:L.
  - apply Z.ltb_lt in L. exists []. cbn [walk]. rewrite Z.eqb_refl.
    splits; [reflexivity|constructor|intro x; cbn; split; [contradiction|lia]].
  - apply Z.ltb_ge in L. destruct (EV L) as [q Q].
    destruct (walk_ok (Z.to_nat (q + 1)) (S (Z.to_nat (hi - lo + 4))) hi (lo - 2)) as (l & W & ND & SP); try lia.
    exists l. splits; [assumption|assumption|]. intro x. rewrite SP. split.
    + intros ([? ?] & [r R]). split; [split; [|lia]|exists (q + r); lia].
      lia.
    + intros ([? ?] & [r R]). split; [lia|exists (r - q); lia].
Qed.

(** The look is long enough: a loop that has not ended within the fuel of
    [range_list] does not end within any number of steps. *)
Theorem range_no_end lo hi u : INT_MIN <= lo - 2 -> hi <= INT_MAX -> INT_MIN <= hi ->
  range_list (lo, hi) = UB u ->
  forall f l, walk f (range_begin (lo, hi)) (range_end (lo, hi)) <> Ok l.
Proof.
  intros B1 B2 B3 U f l W. apply walk_terminates in W. destruct W as (A & EV & _).
  unfold range_end, range_begin in A, EV. cbn [fst snd] in A, EV.
  destruct (range_ok lo hi B1 B2 B3) as (l' & K & _); [|congruence].
  intro L. destruct (hi <? lo) eqn:E; [apply Z.ltb_lt in E; lia|].
  destruct EV as [q Q]. exists (q - 1). lia.
Qed.
Print Assumptions range_no_end.

(** Sizes of isospins that occur: well inside int. *)
Definition small (p : sp) : Prop := iso p <= 1000000.

(** The total isospins looped over for a + b are exactly those the two
    multiplets couple to and that have a state with the right z component,
    each once; in particular the loop ends. *)
Theorem total_isospins_exact a b : complete a -> complete b -> small a -> small b ->
  exists l, range_list (range2 a b) = Ok l /\ NoDup l
    /\ forall I, In I l <->
         couples (iso a) (iso b) I /\ state I (iso3 a + iso3 b).
Proof.
  unfold complete, state, small, couples. intros (A0 & A1 & [p P]) (B0 & B1 & [q Q]) SA SB.
  unfold range2. destruct (range_ok (Z.max (Z.abs (iso a - iso b)) (Z.abs (iso3 a + iso3 b)))
                                    (iso a + iso b)) as (l & E & ND & SP);
    try (unfold INT_MIN, INT_MAX; lia).
  { intros _. assert (Z.Even (iso a + iso b - Z.abs (iso a - iso b))).
    { destruct (Z.abs_spec (iso a - iso b)) as [[_ ->]|[_ ->]]; [exists (iso b)|exists (iso a)]; lia. }
    assert (Z.Even (iso a + iso b - Z.abs (iso3 a + iso3 b))).
    { destruct (Z.abs_spec (iso3 a + iso3 b)) as [[_ ->]|[_ ->]];
        [exists (iso a + iso b - p - q)|exists (p + q)]; lia. }
    destruct (Z.max_spec (Z.abs (iso a - iso b)) (Z.abs (iso3 a + iso3 b))) as [[_ ->]|[_ ->]]; assumption. }
  exists l. splits; [assumption|assumption|]. intro I. rewrite SP. clear SP.
  assert (EQ : Z.Even (I - Z.max (Z.abs (iso a - iso b)) (Z.abs (iso3 a + iso3 b)))
               <-> Z.Even (iso a + iso b + I)).
  { assert (exists t, Z.max (Z.abs (iso a - iso b)) (Z.abs (iso3 a + iso3 b)) = iso a + iso b + 2 * t)
      as [t T].
    { destruct (Z.max_spec (Z.abs (iso a - iso b)) (Z.abs (iso3 a + iso3 b))) as [[_ ->]|[_ ->]].
      - destruct (Z.abs_spec (iso3 a + iso3 b)) as [[_ ->]|[_ ->]];
          [exists (p + q - iso a - iso b)|exists (- p - q)]; lia.
      - destruct (Z.abs_spec (iso a - iso b)) as [[_ ->]|[_ ->]]; [exists (- iso b)|exists (- iso a)]; lia. }
    rewrite T. split; intros [r R]; [exists (r + iso a + iso b + t)|exists (r - iso a - iso b - t)]; lia. }
  rewrite EQ. split.
  - intros (L & [r R]). splits; try lia; [exists r; lia|].
    exists (r + p + q - iso a - iso b). lia.
  - intros ((L & EV) & (I0 & I1 & _)). split; [lia|assumption].
Qed.
Print Assumptions total_isospins_exact.

(** The total isospins looped over for a + b -> c + d are exactly those that
    both pairs couple to, with equal z components - none if the z components
    differ. *)
Theorem common_isospins_exact a b c d :
  complete a -> complete b -> complete c -> complete d ->
  small a -> small b -> small c -> small d ->
  exists l, range_list (range4 a b c d) = Ok l /\ NoDup l
    /\ forall I, In I l <->
         iso3 a + iso3 b = iso3 c + iso3 d
         /\ couples (iso a) (iso b) I /\ couples (iso c) (iso d) I /\ state I (iso3 a + iso3 b).
Proof.
  unfold complete, state, small, couples.
  intros (A0 & A1 & [p P]) (B0 & B1 & [q Q]) (C0 & C1 & [r R]) (D0 & D1 & [s S]) SA SB SC SD.
  unfold range4. destruct (iso3 a + iso3 b =? iso3 c + iso3 d) eqn:E; cbn [negb].
  2: { apply Z.eqb_neq in E. destruct (range_ok 1 0) as (l & -> & ND & SP);
         try (unfold INT_MIN, INT_MAX; lia). exists l. splits; [reflexivity|assumption|].
       intro I. rewrite SP. lia. }
  apply Z.eqb_eq in E.
  set (lo := Z.max _ _). set (hi := Z.min _ _).
  assert (exists t, lo = iso a + iso b + 2 * t) as [t T].
  { unfold lo. destruct (Z.max_spec (Z.max (Z.abs (iso a - iso b)) (Z.abs (iso c - iso d)))
                                    (Z.abs (iso3 a + iso3 b))) as [[_ ->]|[_ ->]].
    - destruct (Z.abs_spec (iso3 a + iso3 b)) as [[_ ->]|[_ ->]];
        [exists (p + q - iso a - iso b)|exists (- p - q)]; lia.
    - destruct (Z.max_spec (Z.abs (iso a - iso b)) (Z.abs (iso c - iso d))) as [[_ ->]|[_ ->]].
      + destruct (Z.abs_spec (iso c - iso d)) as [[_ ->]|[_ ->]];
          [exists (r + s - iso d + p + q - iso a - iso b - iso3 a - iso3 b)
          |exists (r + s - iso c + p + q - iso a - iso b - iso3 a - iso3 b)]; lia.
      + destruct (Z.abs_spec (iso a - iso b)) as [[_ ->]|[_ ->]]; [exists (- iso b)|exists (- iso a)]; lia. }
  assert (exists t, hi = iso a + iso b + 2 * t) as [t' T'].
  { unfold hi. destruct (Z.min_spec (iso a + iso b) (iso c + iso d)) as [[_ ->]|[_ ->]];
      [exists 0; lia|exists (r + s - p - q); lia]. }
  destruct (range_ok lo hi) as (l & EL & ND & SP); try (unfold lo, hi, INT_MIN, INT_MAX; lia).
  { intros _. exists (t' - t). lia. }
  exists l. splits; [assumption|assumption|]. intro I. rewrite SP. split.
  - intros (L & [u U]).
    assert (Z.abs (iso a - iso b) <= lo /\ Z.abs (iso c - iso d) <= lo /\ Z.abs (iso3 a + iso3 b) <= lo
            /\ hi <= iso a + iso b /\ hi <= iso c + iso d) as (F1 & F2 & F3 & F4 & F5) by (unfold lo, hi; lia).
    clearbody lo hi. clear A1 B1 C1 D1 SP EL.
    splits; [assumption|clear -F1 L; lia|clear -F4 L; lia| |clear -F2 L; lia|clear -F5 L; lia| |clear -F3 L; lia|clear -F3 L; lia|]; clear F1 F2 F3.
    + exists (u + iso a + iso b + t). lia.
    + exists (u + t + iso a + iso b + r + s - p - q). lia.
    + exists (u + t + p + q). lia.
  - intros (_ & (L1 & [u U]) & (L2 & _) & (I0 & I1 & _)).
    split; [unfold lo, hi; lia|]. exists (u - t - iso a - iso b). lia.
Qed.
Print Assumptions common_isospins_exact.

Example isospins_apply :
  (* pi+ n : total isospins 3/2 and 1/2;  pi+ p : only 3/2 *)
  range_list (range2 {| iso := 2; iso3 := 2 |} {| iso := 1; iso3 := -1 |}) = Ok [3; 1]
  /\ range_list (range2 {| iso := 2; iso3 := 2 |} {| iso := 1; iso3 := 1 |}) = Ok [3]
  /\ (* Delta+ n -> p n *)
  range_list (range4 {| iso := 3; iso3 := 1 |} {| iso := 1; iso3 := -1 |}
                     {| iso := 1; iso3 := 1 |} {| iso := 1; iso3 := -1 |}) = Ok [2].
Proof. vm_compute. splits; reflexivity. Qed.

(** The isospin of a species is taken from the number of states its multiplet
    has in the particles file.  A file that lists only three of the four Delta
    states - which nothing rejects - gives Delta+ the isospin 1, and the loop
    over the total isospins of Delta+ p then steps over its end value and never
    ends (int overflow after 2^30 iterations). *)
Theorem incomplete_multiplet_loop_refuted :
  let delta_plus := {| iso := isospin_of true (Some 3); iso3 := 1 |} in
  let proton := {| iso := isospin_of true (Some 2); iso3 := 1 |} in
  forall f l, walk f (range_begin (range2 delta_plus proton)) (range_end (range2 delta_plus proton)) <> Ok l.
Proof.
  intros dp pr f l W. apply walk_terminates in W.
  destruct W as (_ & [q Q] & _). change (3 - 0 = 2 * q) in Q. lia.
Qed.
Print Assumptions incomplete_multiplet_loop_refuted.

(** * Isospin factors *)

Open Scope R_scope.
Lemma fold_sum (g : Z -> R) (t : Z -> bool) l : forall z,
  fold_left (fun f i => if t i then f + g i else f) l z
  = z + fold_right (fun i s => (if t i then g i else 0) + s) 0 l.
Proof.
  induction l as [|i l IH]; intro z; cbn [fold_left fold_right]; [ring|].
  rewrite IH. destruct (t i); ring.
Qed.

Definition term (cg : cgfun) a b c d (i : Z) : R :=
  Rsqr (cg (iso a) (iso b) i (iso3 a) (iso3 b) (iso3 a + iso3 b)%Z)
  * Rsqr (cg (iso c) (iso d) i (iso3 c) (iso3 d) (iso3 c + iso3 d)%Z).

Definition sumR (l : list Z) (g : Z -> R) : R := fold_right (fun i s => g i + s) 0 l.

Lemma sumR_ext l g h : (forall i, In i l -> g i = h i) -> sumR l g = sumR l h.
Proof. unfold sumR. induction l; intro E; cbn; [reflexivity|]. rewrite E by (left; reflexivity).
  rewrite IHl; [reflexivity|]. intros; apply E; right; assumption. Qed.
Lemma sumR_nonneg l g : (forall i, In i l -> 0 <= g i) -> 0 <= sumR l g.
Proof. unfold sumR. induction l; intro E; cbn; [lra|].
  pose proof (E a (or_introl eq_refl)). assert (0 <= fold_right (fun i s => g i + s) 0 l)
    by (apply IHl; intros; apply E; right; assumption). lra. Qed.
Lemma sumR_remove l g x : NoDup l -> In x l ->
  sumR l g = g x + sumR (List.remove Z.eq_dec x l) g.
Proof.
  unfold sumR. induction l as [|a l IH]; intros ND I; [contradiction|]. inversion ND; subst.
  cbn [remove fold_right]. destruct (Z.eq_dec x a).
  - subst. rewrite notin_remove by assumption. reflexivity.
  - destruct I as [I|I]; [congruence|]. rewrite (IH H2 I). cbn [fold_right]. ring.
Qed.
(** sums over duplicate-free lists depend on the members only; members with
    zero value may be missing *)
Lemma sumR_incl l : forall l' g, NoDup l -> NoDup l' -> incl l l' ->
  (forall i, In i l' -> ~ In i l -> g i = 0) -> sumR l g = sumR l' g.
Proof.
  induction l as [|a l IH]; intros l' g ND ND' INC Z0.
  - assert (forall i, In i l' -> g i = 0) by (intros; apply Z0; [assumption|intros []]).
    unfold sumR at 1; cbn. symmetry. clear -H. unfold sumR. induction l'; cbn; [reflexivity|].
    rewrite H by (left; reflexivity). rewrite IHl'; [ring|]. intros; apply H; right; assumption.
  - inversion ND; subst. rewrite (sumR_remove l' g a) by (auto; apply INC; left; reflexivity).
    change (sumR (a :: l) g) with (g a + sumR l g). f_equal. apply IH.
    + assumption.
    + clear -ND'. induction l' as [|b l' IH]; cbn; [constructor|]. inversion ND'; subst.
      destruct (Z.eq_dec a b); [auto|]. constructor; [|auto].
      intro I. apply in_remove in I. tauto.
    + intros i I. apply in_in_remove; [intro; subst; contradiction|]. apply INC; right; assumption.
    + intros i I NI. apply in_remove in I. destruct I as (I & N). apply Z0; [assumption|].
      intros [E|E]; [congruence|contradiction].
Qed.

(** The factor of a + b -> c + d with total isospin I (all of them if I is
    negative) is the sum over the common total isospins of the product of the
    two squared coefficients. *)
Lemma sqr_2to2_sum cg a b c d I l : range_list (range4 a b c d) = Ok l ->
  sqr_2to2 cg a b c d I = Ok (sumR l (fun i => if (I <? 0)%Z || (i =? I)%Z then term cg a b c d i else 0)).
Proof.
  intro E. unfold sqr_2to2. rewrite E. cbn [rbind]. f_equal.
  assert (l = [] \/ (iso3 a + iso3 b = iso3 c + iso3 d)%Z) as [->|ZZ].
  { unfold range4 in E. destruct (iso3 a + iso3 b =? iso3 c + iso3 d)%Z eqn:EE.
    - right. apply Z.eqb_eq in EE. assumption.
    - left. vm_compute in E. congruence. }
  - reflexivity.
  - rewrite (fold_sum (fun i => cg_2to1 cg a b i (iso3 a + iso3 b)%Z * cg_2to1 cg a b i (iso3 a + iso3 b)%Z
              * cg_2to1 cg c d i (iso3 a + iso3 b)%Z * cg_2to1 cg c d i (iso3 a + iso3 b)%Z)).
    rewrite Rplus_0_l. unfold sumR. apply sumR_ext. intros i _.
    destruct (_ || _)%bool; [|reflexivity]. unfold term, cg_2to1, Rsqr. rewrite <- ZZ. ring.
Qed.

Definition fine (p : sp) : Prop := complete p /\ small p.

(** Explicit meaning of the isospin factor, for every coefficient function. *)
Theorem isospin_factor_value cg a b c d I : fine a -> fine b -> fine c -> fine d ->
  exists l, NoDup l
    /\ (forall J, In J l <-> (iso3 a + iso3 b = iso3 c + iso3 d
          /\ couples (iso a) (iso b) J /\ couples (iso c) (iso d) J /\ state J (iso3 a + iso3 b)
          /\ (0 <= I -> J = I))%Z)
    /\ sqr_2to2 cg a b c d I
       = Ok (sumR l (fun J => Rsqr (cg (iso a) (iso b) J (iso3 a) (iso3 b) (iso3 a + iso3 b)%Z)
                              * Rsqr (cg (iso c) (iso d) J (iso3 c) (iso3 d) (iso3 c + iso3 d)%Z))).
Proof.
  intros (A & A') (B & B') (C & C') (D & D').
  destruct (common_isospins_exact a b c d A B C D A' B' C' D') as (l & E & ND & SP).
  exists (filter (fun i => (I <? 0)%Z || (i =? I)%Z) l). splits.
  - apply NoDup_filter. assumption.
  - intro J. rewrite filter_In, SP, orb_true_iff, Z.ltb_lt, Z.eqb_eq.
    split; [intros ((? & ? & ? & ?) & ?); splits; auto; lia|].
    intros (? & ? & ? & ? & ?). split; [splits; auto|]. lia.
  - rewrite (sqr_2to2_sum cg a b c d I l E). f_equal.
    clear. unfold sumR. induction l as [|i l IH]; cbn [fold_right filter]; [reflexivity|].
    rewrite IH. destruct (_ || _)%bool; cbn [fold_right]; unfold term; ring.
Qed.
Print Assumptions isospin_factor_value.

(** Reaction and inverse reaction have the same factor. *)
Theorem isospin_factor_reversible cg a b c d I : fine a -> fine b -> fine c -> fine d ->
  sqr_2to2 cg a b c d I = sqr_2to2 cg c d a b I.
Proof.
  intros A B C D.
  destruct (isospin_factor_value cg a b c d I A B C D) as (l & ND & SP & ->).
  destruct (isospin_factor_value cg c d a b I C D A B) as (l' & ND' & SP' & ->).
  f_equal. transitivity (sumR l' (fun J => Rsqr (cg (iso a) (iso b) J (iso3 a) (iso3 b) (iso3 a + iso3 b)%Z)
                              * Rsqr (cg (iso c) (iso d) J (iso3 c) (iso3 d) (iso3 c + iso3 d)%Z))).
  - apply sumR_incl; auto.
    + intros i H. apply SP'. apply SP in H. destruct H as (? & ? & ? & ? & ?). splits; auto.
      rewrite <- H; assumption.
    + intros i H N. exfalso. apply N. apply SP. apply SP' in H. destruct H as (? & ? & ? & ? & ?).
      splits; auto. rewrite <- H; assumption.
  - apply sumR_ext. intros. ring.
Qed.
Print Assumptions isospin_factor_reversible.

(** The loops of the cross sections, which treat each total isospin of one pair
    separately, see all of the factor: the parts add up to the whole, whichever
    pair the loop runs over; and the loop of a reaction and the loop of its
    inverse see the same list. *)
Theorem isospin_factors_add_up cg a b c d : fine a -> fine b -> fine c -> fine d ->
  exists l whole, factors_forward cg a b c d = Ok l /\ factors_backward cg c d a b = Ok l
    /\ NoDup (map fst l)
    /\ sqr_2to2 cg a b c d (-1) = Ok whole
    /\ fold_right Rplus 0 (map snd l) = whole
    /\ Forall (fun f => 0 <= snd f) l.
Proof.
  intros FA FB FC FD. pose proof FA as (A & A'). pose proof FB as (B & B'). pose proof FC as (C & C'). pose proof FD as (D & D').
  destruct (total_isospins_exact a b A B A' B') as (r & ER & NR & SR).
  destruct (common_isospins_exact a b c d A B C D A' B' C' D') as (l & E & ND & SP).
  assert (M : forall J, In J l -> In J r) by (intros J H; apply SR; apply SP in H; tauto).
  assert (P0 : forall i, In i r -> (0 <= i)%Z) by (intros i H; apply SR in H; unfold state in H; lia).
  set (g := term cg a b c d).
  assert (V : forall i, In i r -> sqr_2to2 cg a b c d i = Ok (if in_dec Z.eq_dec i l then g i else 0)).
  { intros i H. rewrite (sqr_2to2_sum cg a b c d i l E). f_equal.
    replace (i <? 0)%Z with false by (symmetry; apply Z.ltb_ge; auto). cbn [orb].
    destruct (in_dec Z.eq_dec i l) as [Y|N].
    - rewrite (sumR_remove l _ i ND Y). rewrite Z.eqb_refl.
      rewrite (sumR_ext _ _ (fun _ => 0)).
      + assert (forall m, sumR m (fun _ => 0) = 0) as -> by (unfold sumR; induction m; cbn; lra).
        unfold g; ring.
      + intros j J. apply in_remove in J. destruct J as (_ & J).
        replace (j =? i)%Z with false by (symmetry; apply Z.eqb_neq; assumption). reflexivity.
    - rewrite (sumR_ext _ _ (fun _ => 0)).
      + unfold sumR. clear. induction l; cbn; lra.
      + intros j J. destruct (j =? i)%Z eqn:Q; [apply Z.eqb_eq in Q; subst; contradiction|reflexivity]. }
  set (h := fun i => if in_dec Z.eq_dec i l then g i else 0).
  assert (MM : forall m, incl m r ->
     mapM (fun i => f <- sqr_2to2 cg a b c d i ;; Ok (i, f)) m = Ok (map (fun i => (i, h i)) m)
     /\ mapM (fun i => f <- sqr_2to2 cg c d a b i ;; Ok (i, f)) m = Ok (map (fun i => (i, h i)) m)).
  { induction m as [|i m IH]; intro INC; [split; reflexivity|].
    destruct IH as (IH1 & IH2); [intros x X; apply INC; right; assumption|].
    cbn [mapM map]. rewrite IH1, IH2.
    rewrite <- (isospin_factor_reversible cg a b c d i FA FB FC FD).
    rewrite (V i) by (apply INC; left; reflexivity). cbn [rbind]. split; reflexivity. }
  destruct (MM r (incl_refl r)) as (M1 & M2).
  exists (map (fun i => (i, h i)) r), (sumR l g). splits.
  - unfold factors_forward. rewrite ER. cbn [rbind]. exact M1.
  - unfold factors_backward. rewrite ER. cbn [rbind]. exact M2.
  - rewrite map_map. cbn [fst]. rewrite map_id. assumption.
  - rewrite (sqr_2to2_sum cg a b c d (-1) l E). reflexivity.
  - rewrite map_map. cbn [snd]. transitivity (sumR r h); [unfold sumR; clear; induction r; cbn; congruence|].
    symmetry. transitivity (sumR l h).
    + apply sumR_ext. intros i H. unfold h. destruct (in_dec Z.eq_dec i l); [reflexivity|contradiction].
    + apply sumR_incl; auto. intros i _ N. unfold h. destruct (in_dec Z.eq_dec i l); [contradiction|reflexivity].
  - rewrite Forall_map. apply Forall_forall. intros i _. cbn [snd]. unfold h, g, term.
    destruct (in_dec Z.eq_dec i l); [|lra]. apply Rmult_le_pos; apply Rle_0_sqr.
Qed.
Print Assumptions isospin_factors_add_up.
