(** Decay modes read from the decay file: src/decaymodes.cc. Particle types are their PDG words
    (charge and spin of a type are those of the code, particletype.cc:129-137); weights are real
    numbers; Clebsch-Gordan factors are an argument. *)
From Coq Require Import ZArith List Bool Lia Reals Lra Permutation Sorting.
From Verif Require Import Base PdgModel PdgProofs.
Import ListNotations.
Open Scope Z_scope.

(** *** angular momentum *)
(** min_angular_momentum, decaymodes.cc:141-149 *)
Definition min_L2 (s0 s1 s2 : Z) : res Z :=
  let m := Z.min (Z.min (Z.abs (s0 - s1 - s2)) (Z.abs (s0 - s1 + s2))) (Z.abs (s0 + s1 - s2)) in
  if Z.rem m 2 =? 0 then Ok (m / 2) else Throw E_runtime.
(** min_angular_momentum with three daughters, decaymodes.cc:151-164 *)
Definition min_L3 (s0 s1 s2 s3 : Z) : res Z :=
  let m := Z.min (Z.abs (s0 - s1 + s2 + s3)) (Z.abs (s0 + s1 - s2 + s3)) in
  let m := Z.min m (Z.abs (s0 + s1 + s2 - s3)) in
  let m := Z.min m (Z.abs (s0 - s1 - s2 + s3)) in
  let m := Z.min m (Z.abs (s0 - s1 + s2 - s3)) in
  let m := Z.min m (Z.abs (s0 + s1 - s2 - s3)) in
  let m := Z.min m (Z.abs (s0 - s1 - s2 - s3)) in
  if Z.rem m 2 =? 0 then Ok (m / 2) else Throw E_runtime.
(** the window test of load_decaymodes, decaymodes.cc:444-452, with the bounds set in the four
    branches, decaymodes.cc:285-288, 327-331, 397-405; [multi]: the daughters are multiplets *)
Definition window (lo hi L : Z) : res unit := if (L <? lo) || (hi <? L) then Throw E_other else Ok tt.
Definition check_L (multi : bool) (s0 : Z) (ss : list Z) (L : Z) : res unit :=
  match ss with
  | [s1; s2] => lo <- min_L2 s0 s1 s2 ;; window lo ((s0 + s1 + s2) / 2) L
  | [s1; s2; s3] =>
    let s3 := if multi then s2 else s3 in   (* decaymodes.cc:329 takes the spin of daughter 2 *)
    lo <- min_L3 s0 s1 s2 s3 ;; window lo ((s0 + s1 + s2 + s3) / 2) L
  | _ => Throw E_other
  end.

(** Spec: coupling of angular momenta (all doubled): c is one of the results of coupling a and b *)
Definition couples (a b c : Z) : Prop := Z.abs (a - b) <= c <= a + b /\ Z.even (a + b + c) = true.
Definition allowed2 (s0 s1 s2 L : Z) : Prop := exists ch, couples s1 s2 ch /\ couples ch (2 * L) s0.
Definition allowed3 (s0 s1 s2 s3 L : Z) : Prop :=
  exists c12 ch, couples s1 s2 c12 /\ couples c12 s3 ch /\ couples ch (2 * L) s0.

Lemma rem_even m : 0 <= m -> (Z.rem m 2 =? 0) = Z.even m.
Proof.
  intros H. rewrite Z.rem_mod_nonneg by lia. rewrite Zmod_even. destruct (Z.even m); reflexivity.
Qed.
Lemma even_ex n : Z.even n = true <-> exists k, n = 2 * k.
Proof. rewrite Z.even_spec. reflexivity. Qed.
Lemma window_ok lo hi L : window lo hi L = Ok tt -> lo <= L <= hi.
Proof. unfold window. destruct (Z.ltb_spec L lo); [discriminate|]. destruct (Z.ltb_spec hi L); [discriminate|]. lia. Qed.

(** a spin that couples a to b exists between any two bounds that leave room *)
Lemma pick a b lo hi : 0 <= a -> 0 <= b -> Z.abs (a - b) <= hi -> lo <= a + b -> lo <= hi -> Z.even (a + b + hi) = true -> Z.even (lo + hi) = true ->
  exists c, couples a b c /\ lo <= c <= hi /\ Z.even (c + hi) = true.
Proof.
  intros Ha Hb H1 H2 H3 E1 E2. apply even_ex in E1, E2. destruct E1 as [k K], E2 as [j J].
  exists (Z.min hi (a + b)). split.
  - split; [lia|]. apply even_ex. destruct (Z.min_spec hi (a + b)) as [[_ ->]|[_ ->]].
    + exists k. lia.
    + exists (a + b). lia.
  - split; [lia|]. apply even_ex. destruct (Z.min_spec hi (a + b)) as [[_ ->]|[_ ->]]; [exists hi; lia|exists k; lia].
Qed.
(** four spins that satisfy the polygon inequalities couple *)
Lemma polygon4 s0 s1 s2 l : 0 <= s0 -> 0 <= s1 -> 0 <= s2 -> 0 <= l -> Z.even (s0 + s1 + s2 + l) = true ->
  l <= s0 + s1 + s2 -> s0 <= s1 + s2 + l -> s1 <= s0 + s2 + l -> s2 <= s0 + s1 + l ->
  exists ch, couples s1 s2 ch /\ couples ch l s0.
Proof.
  intros H0 H1 H2 Hl E A B C D. apply even_ex in E. destruct E as [k K].
  destruct (pick s1 s2 (Z.abs (s0 - l)) (s0 + l)) as (c & Cc & Rc & Ec); try lia.
  - apply even_ex. exists k. lia.
  - apply even_ex. destruct (Z.abs_spec (s0 - l)) as [[_ ->]|[_ ->]]; [exists s0|exists l]; lia.
  - exists c. split; [exact Cc|]. split; [lia|]. apply even_ex in Ec. destruct Ec as [j J]. apply even_ex. exists j. lia.
Qed.
Lemma polygon5 s0 s1 s2 s3 l : 0 <= s0 -> 0 <= s1 -> 0 <= s2 -> 0 <= s3 -> 0 <= l -> Z.even (s0 + s1 + s2 + s3 + l) = true ->
  l <= s0 + s1 + s2 + s3 -> s0 <= s1 + s2 + s3 + l -> s1 <= s0 + s2 + s3 + l -> s2 <= s0 + s1 + s3 + l -> s3 <= s0 + s1 + s2 + l ->
  exists c12 ch, couples s1 s2 c12 /\ couples c12 s3 ch /\ couples ch l s0.
Proof.
  intros H0 H1 H2 H3 Hl E A B C D F. apply even_ex in E. destruct E as [k K].
  (* c12 must satisfy the inequalities of the four spins s0, c12, s3, l *)
  destruct (pick s1 s2 (Z.max (Z.max (l - s0 - s3) (s0 - s3 - l)) (s3 - s0 - l)) (s0 + s3 + l)) as (c & Cc & Rc & Ec); try lia.
  - apply even_ex. exists k. lia.
  - apply even_ex. destruct (Z.max_spec (Z.max (l - s0 - s3) (s0 - s3 - l)) (s3 - s0 - l)) as [[_ ->]|[_ ->]]; [exists s3; lia|].
    destruct (Z.max_spec (l - s0 - s3) (s0 - s3 - l)) as [[_ ->]|[_ ->]]; [exists s0|exists l]; lia.
  - assert (0 <= c) by (destruct Cc; lia).
    apply even_ex in Ec. destruct Ec as [j J].
    destruct (polygon4 s0 c s3 l) as (ch & C1 & C2); try lia.
    + apply even_ex. exists j. lia.
    + exists c, ch. auto.
Qed.

Lemma even_rest m x y : Z.even m = true -> m = x \/ m = - x -> Z.even (x + y) = true -> Z.even y = true.
Proof.
  intros Em Hm E. apply even_ex in Em, E. destruct Em as [k ->], E as [j J]. apply even_ex.
  destruct Hm as [M|M]; [exists (j - k)|exists (j + k)]; lia.
Qed.
Lemma even_sum m s (k : Z) : Z.even m = true -> s = m + 2 * k \/ s = - m + 2 * k -> Z.even s = true.
Proof. intros E H. apply even_ex in E. destruct E as [j ->]. apply even_ex. destruct H as [-> | ->]; [exists (j + k)|exists (- j + k)]; lia. Qed.

Lemma min_L2_ok s0 s1 s2 lo : 0 <= s0 -> 0 <= s1 -> 0 <= s2 -> min_L2 s0 s1 s2 = Ok lo ->
  0 <= lo /\ Z.even (s0 + s1 + s2) = true /\ s0 - s1 - s2 <= 2 * lo /\ s1 - s0 - s2 <= 2 * lo /\ s2 - s0 - s1 <= 2 * lo.
Proof.
  intros H0 H1 H2. unfold min_L2.
  set (m := Z.min (Z.min (Z.abs (s0 - s1 - s2)) (Z.abs (s0 - s1 + s2))) (Z.abs (s0 + s1 - s2))).
  assert (M : 0 <= m) by (subst m; lia). rewrite rem_even by exact M. destruct (Z.even m) eqn:E; [|discriminate]. intros X. 
  assert (L : lo = m / 2) by congruence. subst lo. pose proof E as E'. apply even_ex in E'. destruct E' as [k K].
  assert (m / 2 = k) by (rewrite K, Z.mul_comm; apply Z.div_mul; lia).
  split; [lia|]. split; [|subst m; lia].
  assert (C : m = s0 - s1 - s2 \/ m = - (s0 - s1 - s2) \/ m = s0 - s1 + s2 \/ m = - (s0 - s1 + s2) \/ m = s0 + s1 - s2 \/ m = - (s0 + s1 - s2)) by (subst m; lia).
  clearbody m. destruct C as [C|[C|[C|[C|[C|C]]]]].
  - apply (even_sum m _ (s1 + s2)); [exact E|lia].
  - apply (even_sum m _ (s1 + s2)); [exact E|lia].
  - apply (even_sum m _ s1); [exact E|lia].
  - apply (even_sum m _ s1); [exact E|lia].
  - apply (even_sum m _ s2); [exact E|lia].
  - apply (even_sum m _ s2); [exact E|lia].
Qed.
Lemma min_L3_ok s0 s1 s2 s3 lo : 0 <= s0 -> 0 <= s1 -> 0 <= s2 -> 0 <= s3 -> min_L3 s0 s1 s2 s3 = Ok lo ->
  0 <= lo /\ Z.even (s0 + s1 + s2 + s3) = true /\ s0 - s1 - s2 - s3 <= 2 * lo /\ s1 - s0 - s2 - s3 <= 2 * lo /\
  s2 - s0 - s1 - s3 <= 2 * lo /\ s3 - s0 - s1 - s2 <= 2 * lo.
Proof.
  intros H0 H1 H2 H3. unfold min_L3. cbv zeta.
  set (m := Z.min _ (Z.abs (s0 - s1 - s2 - s3))).
  assert (M : 0 <= m) by (subst m; clear - H0 H1 H2 H3; repeat apply Z.min_glb; lia).
  assert (B1 : s0 - s1 - s2 - s3 <= m) by (subst m; clear - H0 H1 H2 H3; repeat apply Z.min_glb; lia).
  assert (B2 : s1 - s0 - s2 - s3 <= m) by (subst m; clear - H0 H1 H2 H3; repeat apply Z.min_glb; lia).
  assert (B3 : s2 - s0 - s1 - s3 <= m) by (subst m; clear - H0 H1 H2 H3; repeat apply Z.min_glb; lia).
  assert (B4 : s3 - s0 - s1 - s2 <= m) by (subst m; clear - H0 H1 H2 H3; repeat apply Z.min_glb; lia).
  assert (C : exists x, (m = x \/ m = - x) /\ (x = s0 - s1 + s2 + s3 \/ x = s0 + s1 - s2 + s3 \/ x = s0 + s1 + s2 - s3 \/ x = s0 - s1 - s2 + s3 \/
     x = s0 - s1 + s2 - s3 \/ x = s0 + s1 - s2 - s3 \/ x = s0 - s1 - s2 - s3)).
  { subst m. clear.
    repeat match goal with |- context [Z.min ?a ?b] => destruct (Z.min_spec a b) as [[_ ->]|[_ ->]] end;
    match goal with |- exists x, (Z.abs ?y = _ \/ _) /\ _ => exists y; split; [lia|tauto] end. }
  clearbody m. rewrite rem_even by exact M. destruct (Z.even m) eqn:E; [|discriminate]. intros X.
  assert (L : lo = m / 2) by congruence. subst lo. pose proof E as E'. apply even_ex in E'. destruct E' as [k K].
  assert (m / 2 = k) by (rewrite K, Z.mul_comm; apply Z.div_mul; lia).
  split; [lia|]. split; [|lia].
  destruct C as (x & Mx & C).
  assert (G : exists k, s0 + s1 + s2 + s3 = x + 2 * k)
    by (destruct C as [-> |[-> |[-> |[-> |[-> |[-> | ->]]]]]]; [exists s1|exists s2|exists s3|exists (s1 + s2)|exists (s1 + s3)|exists (s2 + s3)|exists (s1 + s2 + s3)]; lia).
  destruct G as [j J]. apply (even_sum m _ j); [exact E|lia].
Qed.

Lemma half_sum s L : 0 <= s -> L <= s / 2 -> 2 * L <= s.
Proof. intros H0 H. pose proof (Z.mul_div_le s 2 ltac:(lia)). lia. Qed.

(** C61: an accepted two-body mode, or three-body mode given by states, can conserve angular
    momentum. *)
Theorem accepted_two_body_conserves multi s0 s1 s2 L : 0 <= s0 -> 0 <= s1 -> 0 <= s2 ->
  check_L multi s0 [s1; s2] L = Ok tt -> allowed2 s0 s1 s2 L.
Proof.
  intros H0 H1 H2 A. unfold check_L in A. destruct (min_L2 s0 s1 s2) as [lo| |] eqn:M; try discriminate. cbn [rbind] in A.
  apply window_ok in A. destruct (min_L2_ok _ _ _ _ H0 H1 H2 M) as (P & E & B1 & B2 & B3).
  pose proof (half_sum (s0 + s1 + s2) L ltac:(lia) ltac:(lia)).
  apply (polygon4 s0 s1 s2 (2 * L)); try lia.
  apply even_ex in E. destruct E as [k K]. apply even_ex. exists (k + L). lia.
Qed.
Print Assumptions accepted_two_body_conserves.
Theorem accepted_three_states_conserve s0 s1 s2 s3 L : 0 <= s0 -> 0 <= s1 -> 0 <= s2 -> 0 <= s3 ->
  check_L false s0 [s1; s2; s3] L = Ok tt -> allowed3 s0 s1 s2 s3 L.
Proof.
  intros H0 H1 H2 H3 A. unfold check_L in A. destruct (min_L3 s0 s1 s2 s3) as [lo| |] eqn:M; try discriminate. cbn [rbind] in A.
  apply window_ok in A. destruct (min_L3_ok _ _ _ _ _ H0 H1 H2 H3 M) as (P & E & B1 & B2 & B3 & B4).
  pose proof (half_sum (s0 + s1 + s2 + s3) L ltac:(lia) ltac:(lia)).
  apply (polygon5 s0 s1 s2 s3 (2 * L)); try lia.
  apply even_ex in E. destruct E as [k K]. apply even_ex. exists (k + L). lia.
Qed.
Print Assumptions accepted_three_states_conserve.

(** Delta -> N pi: only L = 1 and L = 2 pass *)
Example delta_example : check_L true 3 [1; 0] 1 = Ok tt /\ check_L true 3 [1; 0] 2 = Ok tt /\ check_L true 3 [1; 0] 0 = Throw E_other /\ check_L true 3 [1; 0] 3 = Throw E_other.
Proof. repeat split. Qed.
Example omega_example : check_L false 2 [0; 0; 0] 1 = Ok tt.
Proof. reflexivity. Qed.

(** C61: the smallest L is too large when the spin of the mother lies inside the range of the
    channel spins: a spin-3/2 resonance decaying to a spin-3/2 and a spin-1 particle. *)
Theorem s_wave_rejected_refuted : allowed2 3 3 2 0 /\ check_L true 3 [3; 2] 0 = Throw E_other.
Proof. split; [|reflexivity]. exists 3. unfold couples. vm_compute. intuition discriminate. Qed.
Print Assumptions s_wave_rejected_refuted.
(** C61: for three multiplets the spin of the third daughter is not looked at: a scalar mother and
    two scalar daughters with a vector in the middle pass with L = 2. *)
Theorem third_daughter_spin_refuted : check_L true 0 [0; 2; 0] 2 = Ok tt /\ ~ allowed3 0 0 2 0 2.
Proof.
  split; [reflexivity|]. intros (a & b & [A _] & [B _] & [C _]). lia.
Qed.
Print Assumptions third_daughter_spin_refuted.

(** *** the list of modes of one particle *)
Fixpoint ins (x : Z) (l : list Z) : list Z :=
  match l with [] => [x] | y :: t => if x <=? y then x :: l else y :: ins x t end.
Fixpoint isort (l : list Z) : list Z := match l with [] => [] | x :: t => ins x (isort t) end.
(** decaytype.cc:62-68, 285-293: the same daughters in any order *)
Definition same_daughters (a b : list Z) : bool := if list_eq_dec Z.eq_dec (isort a) (isort b) then true else false.
Record mode := M { m_parts : list Z; m_L : Z; m_weight : R }.
Definition same_type (d : list Z) (L : Z) (m : mode) : bool := same_daughters (m_parts m) d && (m_L m =? L).
(** add_mode, decaymodes.cc:29-41; two decay types are the same object if mother, daughters and L
    agree (get_decay_type, decaymodes.cc:43-96) *)
Fixpoint add_mode (ms : list mode) (ratio : R) (L : Z) (d : list Z) : list mode :=
  match ms with
  | [] => [M d L ratio]
  | m :: t => if same_type d L m then M (m_parts m) (m_L m) (m_weight m + ratio)%R :: t else m :: add_mode t ratio L d
  end.
Fixpoint total (ms : list mode) : R := match ms with [] => 0%R | m :: t => (m_weight m + total t)%R end.
(** renormalize, decaymodes.cc:98-122; None: the sum is zero and the weights become NaN *)
Definition really_small : R := (1 / 1000000)%R.
Definition renormalize (ms : list mode) : option (list mode) :=
  if Rlt_dec (Rabs (total ms - 1)) really_small then Some ms
  else if Req_EM_T (total ms) 0 then (match ms with [] => Some [] | _ => None end)
  else Some (map (fun m => M (m_parts m) (m_L m) (m_weight m / total ms)%R) ms).

(** weight of a final state, independent of the order of the daughters *)
Fixpoint weight_of (ms : list mode) (d : list Z) (L : Z) : R :=
  match ms with [] => 0%R | m :: t => ((if same_type d L m then m_weight m else 0) + weight_of t d L)%R end.
Definition distinct (ms : list mode) : Prop :=
  ForallOrdPairs (fun a b => ~ (Permutation (m_parts a) (m_parts b) /\ m_L a = m_L b)) ms.

Lemma ins_perm x l : Permutation (x :: l) (ins x l).
Proof.
  induction l as [|y t IH]; cbn [ins]; [apply Permutation_refl|]. destruct (x <=? y); [apply Permutation_refl|].
  eapply perm_trans; [apply perm_swap|]. apply perm_skip, IH.
Qed.
Lemma isort_perm l : Permutation l (isort l).
Proof. induction l as [|x t IH]; cbn [isort]; [constructor|]. eapply perm_trans; [apply perm_skip, IH|apply ins_perm]. Qed.
Lemma ins_comm x y l : ins x (ins y l) = ins y (ins x l).
Proof.
  induction l as [|z t IH]; cbn [ins].
  - destruct (Z.leb_spec x y), (Z.leb_spec y x); try reflexivity; try lia. replace y with x by lia. reflexivity.
  - destruct (Z.leb_spec y z), (Z.leb_spec x z); cbn [ins].
    + destruct (Z.leb_spec x y), (Z.leb_spec y x); try lia; try reflexivity.
      * replace y with x by lia. reflexivity.
      * destruct (Z.leb_spec y z); [reflexivity|lia].
      * destruct (Z.leb_spec x z); [reflexivity|lia].
    + destruct (Z.leb_spec x y), (Z.leb_spec x z), (Z.leb_spec y z); try lia. reflexivity.
    + destruct (Z.leb_spec y x), (Z.leb_spec x z), (Z.leb_spec y z); try lia. reflexivity.
    + destruct (Z.leb_spec x z), (Z.leb_spec y z); try lia. rewrite IH. reflexivity.
Qed.
Lemma isort_eq a b : Permutation a b -> isort a = isort b.
Proof. induction 1; cbn [isort]; [reflexivity|congruence|apply ins_comm|congruence]. Qed.
Lemma same_daughters_spec a b : same_daughters a b = true <-> Permutation a b.
Proof.
  unfold same_daughters. destruct (list_eq_dec Z.eq_dec (isort a) (isort b)) as [E|E]; split; intros H; try reflexivity; try discriminate.
  - eapply perm_trans; [apply isort_perm|]. rewrite E. apply Permutation_sym, isort_perm.
  - exfalso. apply E, isort_eq, H.
Qed.
Lemma same_type_spec d L m : same_type d L m = true <-> Permutation (m_parts m) d /\ m_L m = L.
Proof. unfold same_type. rewrite andb_true_iff, same_daughters_spec, Z.eqb_eq. reflexivity. Qed.

Lemma add_mode_keys ms r L d m : In m (add_mode ms r L d) ->
  (m_parts m = d /\ m_L m = L) \/ exists m0, In m0 ms /\ m_parts m = m_parts m0 /\ m_L m = m_L m0.
Proof.
  induction ms as [|x t IH]; cbn [add_mode].
  - intros [<- |[]]. left. auto.
  - destruct (same_type d L x); intros [<- |H].
    + right. exists x. split; [left; reflexivity|]. auto.
    + right. exists m. split; [right; exact H|auto].
    + right. exists x. split; [left; reflexivity|auto].
    + destruct (IH H) as [A|(m0 & I & E)]; [left; exact A|]. right. exists m0. split; [right; exact I|exact E].
Qed.

(** C61: adding a mode raises the weight of exactly that final state by the ratio, changes no
    other one, and never lists a final state twice. *)
Theorem add_mode_adds_weight ms ratio L d :
  distinct ms ->
  distinct (add_mode ms ratio L d) /\
  total (add_mode ms ratio L d) = (total ms + ratio)%R /\
  (forall d' L', weight_of (add_mode ms ratio L d) d' L' =
     (weight_of ms d' L' + (if same_type d' L' (M d L ratio) then ratio else 0))%R).
Proof.
  intros D. split; [|split].
  - induction D as [|x t H D IH]; cbn [add_mode].
    + constructor; constructor.
    + destruct (same_type d L x) eqn:E.
      * constructor; [exact H|exact D].
      * constructor; [|exact IH]. apply Forall_forall. intros m I [P Q]. destruct (add_mode_keys _ _ _ _ _ I) as [[A B]|(m0 & I0 & A & B)].
        -- assert (T : same_type d L x = true) by (apply same_type_spec; rewrite <- A, <- B; auto). congruence.
        -- rewrite Forall_forall in H. apply (H m0 I0). rewrite <- A, <- B. auto.
  - clear D. induction ms as [|x t IH]; cbn [add_mode total m_weight]; [lra|]. destruct (same_type d L x); cbn [total m_weight]; lra.
  - clear D. intros d' L'. induction ms as [|x t IH]; cbn [add_mode weight_of m_weight]; [destruct (same_type d' L' (M d L ratio)); lra|].
    destruct (same_type d L x) eqn:E; cbn [weight_of m_weight]; [|rewrite IH; lra].
    apply same_type_spec in E. destruct E as [P Q].
    replace (same_type d' L' (M d L ratio)) with (same_type d' L' x).
    + change (same_type d' L' (M (m_parts x) (m_L x) (m_weight x + ratio))) with (same_type d' L' x).
      destruct (same_type d' L' x); lra.
    + apply eq_true_iff_eq. rewrite !same_type_spec. cbn [m_parts m_L]. rewrite Q. split; intros [A B]; split; auto.
      * eapply perm_trans; [apply Permutation_sym, P|exact A].
      * eapply perm_trans; [exact P|exact A].
Qed.
Print Assumptions add_mode_adds_weight.

Lemma total_div ms s : total (map (fun m => M (m_parts m) (m_L m) (m_weight m / s)%R) ms) = (total ms / s)%R.
Proof. induction ms as [|m t IH]; cbn [map total m_weight]; [unfold Rdiv; lra|]. rewrite IH. unfold Rdiv. lra. Qed.

(** C61: after renormalisation the branching ratios sum to one (to within 1e-6 if they already
    did), and their ratios to each other are unchanged. *)
Theorem renormalized_sum ms : ms <> [] -> total ms <> 0%R ->
  exists ms', renormalize ms = Some ms' /\
    (total ms' = 1 \/ (ms' = ms /\ Rabs (total ms' - 1) < 1 / 1000000))%R /\
    exists c, (c <> 0)%R /\ ms' = map (fun m => M (m_parts m) (m_L m) (m_weight m * c)%R) ms.
Proof.
  intros N S0. unfold renormalize. destruct (Rlt_dec _ _) as [H|H].
  - exists ms. split; [reflexivity|]. split; [right; split; [reflexivity|exact H]|].
    exists 1%R. split; [lra|]. rewrite <- (map_id ms) at 1. apply map_ext. intros [a b c]. cbn. f_equal. lra.
  - destruct (Req_EM_T (total ms) 0) as [E|_]; [contradiction|]. eexists. split; [reflexivity|]. split.
    + left. rewrite total_div. field. exact S0.
    + exists (/ total ms)%R. split; [apply Rinv_neq_0_compat, S0|]. reflexivity.
Qed.
Print Assumptions renormalized_sum.
Example renormalized_example : exists ms', renormalize [M [1; 2] 0 (1 / 2)%R; M [1; 3] 1 (1 / 4)%R] = Some ms' /\ total ms' = 1%R.
Proof.
  unfold renormalize. cbn [total m_weight]. destruct (Rlt_dec _ _) as [H|_].
  - unfold really_small in H. rewrite Rabs_left in H by lra. lra.
  - destruct (Req_EM_T _ _) as [E|_]; [lra|]. eexists. split; [reflexivity|]. cbn [map total m_weight]. lra.
Qed.
(** C61: branching ratios that add up to zero are not rejected; they become NaN. *)
Theorem zero_ratios_refuted : exists ms, ms <> [] /\ ms = add_mode [] 0 0 [1; 2] /\ renormalize ms = None.
Proof.
  exists (add_mode [] 0 0 [1; 2]). split; [discriminate|]. split; [reflexivity|]. unfold renormalize. cbn [add_mode total m_weight].
  destruct (Rlt_dec _ _) as [H|_].
  - unfold really_small in H. rewrite Rabs_left in H by lra. lra.
  - destruct (Req_EM_T _ _) as [_|E]; [reflexivity|]. exfalso. apply E. lra.
Qed.
Print Assumptions zero_ratios_refuted.

(** *** one section of the file *)
(** a line: ratio, L, and the daughters as states, or as lists of the states of multiplets *)
Inductive daughters := States (d : list Z) | Multiplets (d : list (list Z)).
Record dline := DL { d_ratio : R; d_L : Z; d_daughters : daughters }.
Definition spin_of (w : Z) : Z := match spin w with Ok s => s | _ => 0 end.
Definition charge_sum (d : list Z) : Z := fold_right (fun w a => charge w + a) 0 d.
(** the parity test, decaymodes.cc:430-441; parities are given in the particle file *)
Definition parity_ok (par : Z -> bool) (mother : Z) (d : list Z) (L : Z) : bool :=
  match d with
  | [a; b] => Bool.eqb (xorb (Z.rem L 2 =? 1) (Bool.eqb (par a) (par b))) (par mother)
  | _ => true
  end.
Definition add_at (mods : list (list mode)) (i : nat) (r : R) (L : Z) (d : list Z) : list (list mode) :=
  upd i (add_mode (nth i mods []) r L d) mods.
(** all combinations of one state of each multiplet, in the order of the loops *)
Fixpoint combos (ms : list (list Z)) : list (list Z) :=
  match ms with [] => [[]] | l :: t => flat_map (fun x => map (cons x) (combos t)) l end.
Definition first_state (l : list Z) : Z := nth 0 l 0.
(** decaymodes.cc:249-453 for one line; cg is the squared Clebsch-Gordan factor *)
Definition read_line (par : Z -> bool) (cg : list Z -> Z -> R) (mothers : list Z) (mods : list (list mode)) (l : dline) : res (list (list mode)) :=
  let m0 := first_state mothers in
  if d_L l <? 0 then Throw E_load_failure else
  match d_daughters l with
  | States d =>
    if negb ((length d =? 2)%nat || (length d =? 3)%nat) then Throw E_other else
    let hits := filter (fun i => charge (nth i mothers 0) =? charge_sum d) (seq 0 (length mothers)) in
    let mods' := fold_left (fun md i => add_at md i (d_ratio l) (d_L l) d) hits mods in
    if (length hits =? 0)%nat then Throw E_other
    else if negb (parity_ok par m0 d (d_L l)) then Throw E_other
    else _ <- check_L false (spin_of m0) (map spin_of d) (d_L l) ;; Ok mods'
  | Multiplets ds =>
    if negb ((length ds =? 2)%nat || (length ds =? 3)%nat) then Throw E_runtime else
    let hits := filter (fun p => if Rlt_dec 0 (cg (snd p) (nth (fst p) mothers 0)) then true else false)
                       (flat_map (fun i => map (fun c => (i, c)) (combos ds)) (seq 0 (length mothers))) in
    let mods' := fold_left (fun md p => add_at md (fst p) (d_ratio l * cg (snd p) (nth (fst p) mothers 0%Z))%R (d_L l) (snd p)) hits mods in
    if (length ds =? 2)%nat && (length hits =? 0)%nat then Throw E_other
    else if negb (parity_ok par m0 (map first_state ds) (d_L l)) then Throw E_other
    else _ <- check_L true (spin_of m0) (map (fun t => spin_of (first_state t)) ds) (d_L l) ;; Ok mods'
  end.
Definition read_lines (par : Z -> bool) (cg : list Z -> Z -> R) (mothers : list Z) (ls : list dline) : res (list (list mode)) :=
  foldM (read_line par cg mothers) (map (fun _ => []) mothers) ls.
(** the conjugate of a final state, decaymodes.cc:217-224 *)
Definition conj (w : Z) : Z := if has_antiparticle w then get_antiparticle w else w.
(** the modes of the antiparticle, decaymodes.cc:206-228 *)
Definition anti_modes (ms : list mode) : list mode :=
  fold_left (fun acc m => add_mode acc (m_weight m) (m_L m) (map conj (m_parts m))) ms [].

(** *** where the modes come from *)
Definition spin_list (d : list Z) : list Z := map spin_of d.
(** Spec: a mode of a mother state follows from a line of its section: the daughters are the
    listed states and carry the charge of the mother, or they are states of the listed multiplets
    with a positive isospin factor. *)
Definition from_line (cg : list Z -> Z -> R) (mother : Z) (m : mode) (l : dline) : Prop :=
  m_L m = d_L l /\ 0 <= d_L l /\
  match d_daughters l with
  | States d => m_parts m = d /\ charge_sum d = charge mother
  | Multiplets ds => Forall2 (fun w t => In w t) (m_parts m) ds /\ (0 < cg (m_parts m) mother)%R
  end.
Definition line_ok (par : Z -> bool) (m0 : Z) (l : dline) : Prop :=
  match d_daughters l with
  | States d => check_L false (spin_of m0) (spin_list d) (d_L l) = Ok tt /\ parity_ok par m0 d (d_L l) = true
  | Multiplets ds => check_L true (spin_of m0) (spin_list (map first_state ds)) (d_L l) = Ok tt /\ parity_ok par m0 (map first_state ds) (d_L l) = true
  end.

Lemma in_combos ds : forall c, In c (combos ds) -> Forall2 (fun w t => In w t) c ds.
Proof.
  induction ds as [|t r IH]; intros c H; cbn [combos] in H.
  - destruct H as [<- |[]]. constructor.
  - apply in_flat_map in H. destruct H as (x & Hx & H). apply in_map_iff in H. destruct H as (c' & <- & H).
    constructor; [exact Hx|apply IH, H].
Qed.
Lemma nth_upd_list {A} (l : list A) i j x d : (i < length l)%nat -> nth j (upd i x l) d = if (j =? i)%nat then x else nth j l d.
Proof.
  intros H. destruct (Nat.eqb_spec j i) as [-> |N].
  - apply nth_error_nth. apply nth_error_upd_eq. exact H.
  - destruct (nth_error l j) as [y|] eqn:E.
    + rewrite (nth_error_nth _ _ _ E). apply nth_error_nth. rewrite nth_error_upd_neq by congruence. exact E.
    + rewrite !nth_overflow; [reflexivity| |]; [apply nth_error_None in E; exact E|]. rewrite upd_length. apply nth_error_None in E. exact E.
Qed.

Lemma add_at_modes {X} (f : X -> nat) (r : X -> R) (L : Z) (d : X -> list Z) hits : forall mods k m,
  Forall (fun p => (f p < length mods)%nat) hits ->
  In m (nth k (fold_left (fun md p => add_at md (f p) (r p) L (d p)) hits mods) []) ->
  (exists p, In p hits /\ f p = k /\ m_parts m = d p /\ m_L m = L) \/
  (exists m0, In m0 (nth k mods []) /\ m_parts m = m_parts m0 /\ m_L m = m_L m0).
Proof.
  induction hits as [|p t IH]; intros mods k m F H; cbn [fold_left] in H; [right; exists m; auto|].
  inversion F as [|? ? Fp Ft]; subst. apply IH in H.
  - destruct H as [(q & Iq & A)|(m0 & I & A)].
    + left. exists q. split; [right; exact Iq|exact A].
    + unfold add_at in I. rewrite nth_upd_list in I by exact Fp. destruct (Nat.eqb_spec k (f p)) as [-> |N].
      * apply add_mode_keys in I. destruct I as [[B1 B2]|(m1 & I1 & B1 & B2)].
        -- left. exists p. split; [left; reflexivity|]. split; [reflexivity|]. destruct A as [A1 A2]. split; congruence.
        -- right. exists m1. split; [exact I1|]. destruct A as [A1 A2]. split; congruence.
      * right. exists m0. auto.
  - unfold add_at. rewrite upd_length. exact Ft.
Qed.
Lemma add_at_length {X} (f : X -> nat) (r : X -> R) (L : Z) (d : X -> list Z) hits : forall mods,
  length (fold_left (fun md p => add_at md (f p) (r p) L (d p)) hits mods) = length mods.
Proof. induction hits as [|p t IH]; intros mods; cbn [fold_left]; [reflexivity|]. rewrite IH. apply upd_length. Qed.

Lemma read_line_ok par cg mothers mods l mods' : length mods = length mothers -> read_line par cg mothers mods l = Ok mods' ->
  length mods' = length mothers /\ line_ok par (first_state mothers) l /\
  (forall k m, In m (nth k mods' []) -> from_line cg (nth k mothers 0) m l \/
     exists m0, In m0 (nth k mods []) /\ m_parts m = m_parts m0 /\ m_L m = m_L m0).
Proof.
  intros Len. unfold read_line. destruct (Z.ltb_spec (d_L l) 0) as [|Lp]; [discriminate|].
  destruct (d_daughters l) as [d|ds] eqn:D.
  - destruct (negb _); [discriminate|]. cbv zeta. set (hits := filter _ _).
    destruct (length hits =? 0)%nat; [discriminate|]. destruct (negb (parity_ok _ _ _ _)) eqn:P; [discriminate|].
    destruct (check_L _ _ _ _) as [[]| |] eqn:C; try discriminate. cbn [rbind]. intros E.
    assert (Em : mods' = fold_left (fun md i => add_at md i (d_ratio l) (d_L l) d) hits mods) by congruence. subst mods'.
    split; [rewrite (add_at_length (fun i : nat => i) (fun _ => d_ratio l) (d_L l) (fun _ => d)); exact Len|].
    split; [unfold line_ok; rewrite D; split; [exact C|apply negb_false_iff, P]|].
    intros k m I. apply (add_at_modes (fun i : nat => i) (fun _ => d_ratio l) (d_L l) (fun _ => d)) in I.
    + destruct I as [(i & Ii & <- & A & B)|I]; [left|right; exact I]. unfold from_line. rewrite D.
      apply filter_In in Ii. destruct Ii as [_ Q]. apply Z.eqb_eq in Q. auto.
    + apply Forall_forall. intros i Ii. apply filter_In in Ii. destruct Ii as [Ii _]. apply in_seq in Ii. lia.
  - destruct (negb _); [discriminate|]. cbv zeta. set (hits := filter _ _).
    destruct (_ && _); [discriminate|]. destruct (negb (parity_ok _ _ _ _)) eqn:P; [discriminate|].
    destruct (check_L _ _ _ _) as [[]| |] eqn:C; try discriminate. cbn [rbind]. intros E.
    set (rat := fun p : nat * list Z => (d_ratio l * cg (snd p) (nth (fst p) mothers 0%Z))%R).
    assert (Em : mods' = fold_left (fun md p => add_at md (fst p) (rat p) (d_L l) (snd p)) hits mods) by (assert (X : forall a b : list (list mode), Ok a = Ok b -> b = a) by congruence; exact (X _ _ E)). subst mods'.
    split; [rewrite (add_at_length fst rat (d_L l) snd); exact Len|].
    split; [unfold line_ok; rewrite D; split; [unfold spin_list; rewrite map_map; exact C|apply negb_false_iff, P]|].
    intros k m I. apply (add_at_modes fst rat (d_L l) snd) in I.
    + destruct I as [(i & Ii & <- & A & B)|I]; [left|right; exact I]. unfold from_line. rewrite D.
      apply filter_In in Ii. destruct Ii as [Ii Q]. apply in_flat_map in Ii. destruct Ii as (x & _ & Ii).
      apply in_map_iff in Ii. destruct Ii as (c & Ei & Ic). subst i. cbn [fst snd] in *.
      destruct (Rlt_dec 0 _) as [Pos|]; [|discriminate]. rewrite A. split; [exact B|]. split; [exact Lp|]. split; [apply in_combos, Ic|exact Pos].
    + apply Forall_forall. intros i Ii. apply filter_In in Ii. destruct Ii as [Ii _]. apply in_flat_map in Ii.
      destruct Ii as (x & Hx & Ii). apply in_map_iff in Ii. destruct Ii as (c & Ei & Ic). subst i. apply in_seq in Hx. cbn [fst]. lia.
Qed.

(** C61: a section is accepted only if every line conserves parity (two-body) and passes the
    angular momentum test, and every mode of every mother state follows from one of the lines. *)
Theorem accepted_section par cg mothers ls mods : read_lines par cg mothers ls = Ok mods ->
  length mods = length mothers /\ Forall (line_ok par (first_state mothers)) ls /\
  forall k m, In m (nth k mods []) -> exists l, In l ls /\ from_line cg (nth k mothers 0) m l.
Proof.
  unfold read_lines.
  assert (G : forall ls0 mods0 mods1, length mods0 = length mothers -> foldM (read_line par cg mothers) mods0 ls0 = Ok mods1 ->
    length mods1 = length mothers /\ Forall (line_ok par (first_state mothers)) ls0 /\
    forall k m, In m (nth k mods1 []) -> (exists l, In l ls0 /\ from_line cg (nth k mothers 0) m l) \/
      exists m0, In m0 (nth k mods0 []) /\ m_parts m = m_parts m0 /\ m_L m = m_L m0).
  { clear. induction ls0 as [|l t IH]; intros mods0 mods1 Len H; cbn [foldM] in H.
    - assert (mods1 = mods0) by congruence. subst. split; [exact Len|]. split; [constructor|]. intros k m I. right. exists m. auto.
    - destruct (read_line par cg mothers mods0 l) as [md| |] eqn:E; try discriminate. cbn [rbind] in H.
      destruct (read_line_ok _ _ _ _ _ _ Len E) as (Len1 & O & B). destruct (IH md mods1 Len1 H) as (Len2 & F & G).
      split; [exact Len2|]. split; [constructor; assumption|]. intros k m I.
      destruct (G k m I) as [(l' & Il & Fl)|(m0 & I0 & A1 & A2)]; [left; exists l'; split; [right; exact Il|exact Fl]|].
      destruct (B k m0 I0) as [Fl|(m1 & I1 & B1 & B2)].
      + left. exists l. split; [left; reflexivity|]. unfold from_line in *. rewrite A1, A2. exact Fl.
      + right. exists m1. split; [exact I1|]. split; congruence. }
  intros H. destruct (G ls (map (fun _ => []) mothers) mods) as (A & B & C); [apply map_length|exact H|].
  split; [exact A|]. split; [exact B|]. intros k m I. destruct (C k m I) as [X|(m0 & I0 & _)]; [exact X|exfalso].
  assert (Z0 : nth k (map (fun _ : Z => @nil mode) mothers) [] = []) by (destruct (nth_in_or_default k (map (fun _ : Z => @nil mode) mothers) []) as [J|J]; [apply in_map_iff in J; destruct J as (? & J & _); symmetry; exact J|exact J]).
  rewrite Z0 in I0. exact I0.
Qed.
Print Assumptions accepted_section.

(** Delta++ -> p pi+ given by multiplets, and again by states with another ratio *)
Example section_example : exists mods,
  read_lines (fun w => negb (w =? 0x211)) (fun _ _ => 1%R) [0x2224]
    [DL 1 1 (Multiplets [[0x2212]; [0x211]]); DL 2 1 (States [0x211; 0x2212])] = Ok mods /\
  mods = [[M [0x2212; 0x211] 1 (1 * 1 + 2)%R]].
Proof.
  eexists. split; [|reflexivity].
  unfold read_lines. cbn [foldM map]. unfold read_line at 1. cbn [d_L d_daughters d_ratio].
  cbn [flat_map combos map app seq length filter fst snd nth]. destruct (Rlt_dec 0 1) as [_|N]; [|exfalso; lra]. reflexivity.
Qed.

(** C61: the multiplet branch does not look at the charge: an excited nucleon decaying to Lambda
    and antikaon is accepted, because the isospin factors of K and Kbar are the same. Here the
    factor is 1 for the combinations with the right third component, which is its value for
    0 x 1/2 -> 1/2. *)
Definition iso_cg (c : list Z) (m : Z) : R := if fold_right (fun w a => isospin3 w + a) 0 c =? isospin3 m then 1%R else 0%R.
Theorem multiplet_charge_refuted :
  exists mods m, read_lines (fun w => negb (w =? 0x321 + 2 ^ 31)) iso_cg [0x12112; 0x12212] [DL 1 1 (Multiplets [[0x3122]; [0x321 + 2 ^ 31; 0x311 + 2 ^ 31]])] = Ok mods /\
    In m (nth 1 mods []) /\ m_parts m = [0x3122; 0x311 + 2 ^ 31] /\ charge_sum (m_parts m) <> charge 0x12212.
Proof.
  assert (A1 : iso_cg [0x3122; 0x321 + 2 ^ 31] 0x12112 = 1%R) by reflexivity.
  assert (A2 : iso_cg [0x3122; 0x311 + 2 ^ 31] 0x12112 = 0%R) by reflexivity.
  assert (A3 : iso_cg [0x3122; 0x321 + 2 ^ 31] 0x12212 = 0%R) by reflexivity.
  assert (A4 : iso_cg [0x3122; 0x311 + 2 ^ 31] 0x12212 = 1%R) by reflexivity.
  eexists _, (M [0x3122; 0x311 + 2 ^ 31] 1 (1 * 1)%R). split.
  - unfold read_lines. cbn [foldM map]. unfold read_line at 1. cbn [d_L d_daughters d_ratio].
    cbn [flat_map combos map app seq length filter fst snd nth]. rewrite A1, A2, A3, A4.
    destruct (Rlt_dec 0 1) as [_|N]; [|exfalso; lra]. destruct (Rlt_dec 0 0) as [N|_]; [exfalso; lra|].
    cbn [fold_left fst snd nth]. rewrite A1, A4. reflexivity.
  - split; [left; reflexivity|]. split; [reflexivity|]. vm_compute. discriminate.
Qed.
Print Assumptions multiplet_charge_refuted.

(** *** the antiparticles *)
Lemma has_anti_anti w : word w -> has_antiparticle (get_antiparticle w) = has_antiparticle w.
Proof.
  intros H. pose proof (baryon_number_anti w H) as Eb.
  destruct (anti_fields w H) as (_ & EJ & E3 & E2 & E1 & _ & _ & _ & _ & En & Ea & EM & NL & NZ & NA & NI).
  unfold has_antiparticle. rewrite Eb. unfold is_nucleus, is_hadron, is_nucleus. rewrite E3, E2, En.
  replace (- baryon_number w =? 0) with (baryon_number w =? 0); [reflexivity|].
  destruct (Z.eqb_spec (baryon_number w) 0), (Z.eqb_spec (- baryon_number w) 0); try reflexivity; lia.
Qed.
Lemma anti_word w : word w -> word (get_antiparticle w).
Proof. intros H. apply (proj1 (anti_fields w H)). Qed.
Lemma conj_conj w : word w -> conj (conj w) = w.
Proof.
  intros H. unfold conj. destruct (has_antiparticle w) eqn:E; [|rewrite E; reflexivity].
  rewrite has_anti_anti, E by exact H. apply antiparticle_involutive, H.
Qed.
Lemma self_conjugate_neutral w : has_antiparticle w = false -> w mod 2 ^ 16 <> 36 -> charge w = 0.
Proof.
  unfold has_antiparticle. intros H W. unfold charge. destruct (is_nucleus w) eqn:N; [discriminate|]. rewrite orb_false_r.
  destruct (is_hadron w) eqn:Hd.
  - apply orb_false_iff in H. destruct H as [B Q]. apply negb_false_iff, Z.eqb_eq in Q. apply negb_false_iff, Z.eqb_eq in B.
    assert (Q1 : n_q1 w = 0).
    { unfold baryon_number in B. rewrite N, Hd in B. cbn [negb orb] in B. destruct (Z.eqb_spec (n_q1 w) 0); [assumption|]. unfold asign in B. destruct (is_anti w); lia. }
    assert (G : forall q, 1 <= q <= 6 -> nq w q = 0).
    { intros q Hq. unfold nq, net_quark_number. rewrite N, Hd, B, Q1, Q. replace (q <? 1) with false by (symmetry; apply Z.ltb_ge; lia).
      replace (6 <? q) with false by (symmetry; apply Z.ltb_ge; lia). replace (0 =? q) with false by (symmetry; apply Z.eqb_neq; lia). cbn [orb negb]. destruct (n_q3 w =? q); reflexivity. }
    unfold charge3. rewrite !G by lia. reflexivity.
  - rewrite H. destruct (Z.eqb_spec (w mod 2 ^ 16) 36); [contradiction|reflexivity].
Qed.
Lemma conj_charge w : word w -> w mod 2 ^ 16 <> 36 -> charge (conj w) = - charge w.
Proof.
  intros H W. unfold conj. destruct (has_antiparticle w) eqn:E; [apply charge_anti, H|]. rewrite self_conjugate_neutral by assumption. reflexivity.
Qed.

Lemma map_conj_perm a b : Forall word a -> Forall word b -> Permutation (map conj a) (map conj b) -> Permutation a b.
Proof.
  intros Fa Fb P. apply (Permutation_map conj) in P. rewrite !map_map in P.
  assert (I : forall l, Forall word l -> map (fun x => conj (conj x)) l = l).
  { induction l as [|x t IH]; intros F; [reflexivity|]. inversion F; subst. cbn [map]. rewrite conj_conj, IH by assumption. reflexivity. }
  rewrite !I in P by assumption. exact P.
Qed.
Lemma add_new ms r L d : Forall (fun m => same_type d L m = false) ms -> add_mode ms r L d = ms ++ [M d L r].
Proof. induction 1 as [|m t E F IH]; cbn [add_mode app]; [reflexivity|]. rewrite E, IH. reflexivity. Qed.

(** C61: the antiparticle gets exactly the conjugate modes with the same weights and angular
    momenta, and the charge of each of them is the opposite. *)
Definition conj_mode (m : mode) : mode := M (map conj (m_parts m)) (m_L m) (m_weight m).
Theorem antiparticle_modes ms : distinct ms -> Forall (fun m => Forall (fun w => word w /\ w mod 2 ^ 16 <> 36) (m_parts m)) ms ->
  anti_modes ms = map conj_mode ms /\ distinct (anti_modes ms) /\
  forall m, In m ms -> charge_sum (m_parts (conj_mode m)) = - charge_sum (m_parts m).
Proof.
  intros D W.
  assert (Wd : forall m, In m ms -> Forall word (m_parts m)).
  { intros m I. rewrite Forall_forall in W. eapply Forall_impl; [|apply W, I]. cbn. intros w [H _]. exact H. }
  assert (Dc : distinct (map conj_mode ms)).
  { clear W. unfold distinct in *. induction D as [|x t H D IH]; cbn [map]; constructor.
    - apply Forall_forall. intros m I. apply in_map_iff in I. destruct I as (y & <- & Iy). intros [P Q]. rewrite Forall_forall in H. apply (H y Iy).
      split; [|exact Q]. apply map_conj_perm; [apply Wd; left; reflexivity|apply Wd; right; exact Iy|exact P].
    - apply IH. intros m I. apply Wd. right. exact I. }
  assert (E : anti_modes ms = map conj_mode ms).
  { unfold anti_modes. clear W Wd D.
    assert (G : forall ms acc, distinct (acc ++ map conj_mode ms) ->
      fold_left (fun acc m => add_mode acc (m_weight m) (m_L m) (map conj (m_parts m))) ms acc = acc ++ map conj_mode ms).
    { clear. induction ms as [|m t IH]; intros acc D; cbn [fold_left map]; [rewrite app_nil_r; reflexivity|].
      rewrite add_new.
      - rewrite IH; [rewrite <- app_assoc; reflexivity|]. rewrite <- app_assoc. exact D.
      - apply Forall_forall. intros x I. destruct (same_type _ _ x) eqn:T; [exfalso|reflexivity]. apply same_type_spec in T.
        cbn [map] in D. unfold distinct in D. clear - D I T. induction acc as [|a acc IH]; [destruct I|].
        cbn [app] in D. inversion D as [|? ? F D']; subst. destruct I as [-> |I]; [|apply IH; assumption].
        rewrite Forall_forall in F. apply (F (conj_mode m)); [apply in_or_app; right; left; reflexivity|]. exact T. }
    rewrite G; [reflexivity|exact Dc]. }
  split; [exact E|]. split; [rewrite E; exact Dc|].
  intros m I. cbn [conj_mode m_parts]. rewrite Forall_forall in W. specialize (W m I). clear - W.
  induction W as [|w t [Hw Hn] F IH]; [reflexivity|]. cbn [map charge_sum fold_right]. unfold charge_sum in IH. rewrite IH, conj_charge by assumption. lia.
Qed.
Print Assumptions antiparticle_modes.
Example antiparticle_modes_example : anti_modes [M [0x2112; 0x211 + 2 ^ 31] 1 (1 / 3)%R; M [0x2212; 0x111] 1 (2 / 3)%R] =
  [M [0x2112 + 2 ^ 31; 0x211] 1 (1 / 3)%R; M [0x2212 + 2 ^ 31; 0x111] 1 (2 / 3)%R].
Proof. reflexivity. Qed.
