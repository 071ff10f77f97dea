(** The calls made by iterate_cells, open and periodic. *)
From Coq Require Import ZArith Reals List Bool Lia.
From Verif Require Import Base GridModel.
Import ListNotations.
Open Scope Z_scope.

(** * Loops *)
Lemma zseq_length n : length (zseq n) = Z.to_nat n.
Proof. unfold zseq. now rewrite map_length, seq_length. Qed.
Lemma in_zseq n x : In x (zseq n) <-> 0 <= x < n.
Proof.
  unfold zseq. rewrite in_map_iff. split.
  - intros (k & <- & H). apply in_seq in H. lia.
  - intros. exists (Z.to_nat x). split. lia. apply in_seq. lia.
Qed.
Lemma NoDup_zseq n : NoDup (zseq n).
Proof.
  unfold zseq. generalize (seq_NoDup (Z.to_nat n) 0). induction 1; cbn; constructor; auto.
  rewrite in_map_iff. intros (y & E & I). apply Nat2Z.inj in E. congruence.
Qed.
Lemma zseq_S n : 0 <= n -> zseq (n + 1) = zseq n ++ [n].
Proof.
  intros. unfold zseq. replace (Z.to_nat (n + 1)) with (S (Z.to_nat n)) by lia.
  rewrite seq_S, map_app. cbn [map]. do 2 f_equal. lia.
Qed.

Lemma for_emit A n (body : Z -> Z * list A -> Z * list A) k (g : Z -> Z -> list A) i out :
  0 <= n ->
  (forall x i out, 0 <= x < n -> body x (i, out) = (i + k, out ++ g x i)) ->
  for_ n body (i, out) = (i + n * k, out ++ flat_map (fun x => g x (i + x * k)) (zseq n)).
Proof.
  intros Hn. pattern n. apply natlike_ind; auto; clear n Hn.
  - intros _. unfold for_. cbn. rewrite app_nil_r. f_equal. lia.
  - intros m Hm IH H. unfold for_ in *. rewrite <- Z.add_1_r, zseq_S by auto.
    rewrite fold_left_app. rewrite IH by (intros; apply H; lia). cbn [fold_left].
    rewrite H by lia. rewrite flat_map_app. cbn [flat_map]. rewrite app_nil_r, app_assoc.
    f_equal. ring.
Qed.

(** the triple loop with a running cell counter *)
Lemma triple_loop A (n : c3) (body : Z -> Z -> Z -> Z * list A -> Z * list A) (g : c3 -> Z -> list A) :
  0 <= cx n -> 0 <= cy n -> 0 <= cz n ->
  (forall x y z i out, 0 <= x < cx n -> 0 <= y < cy n -> 0 <= z < cz n ->
     body z y x (i, out) = (i + 1, out ++ g (x, y, z) i)) ->
  snd (for_ (cz n) (fun z => for_ (cy n) (fun y => for_ (cx n) (body z y))) (0, [])) =
  flat_map (fun z => flat_map (fun y => flat_map (fun x => g (x, y, z) (make_index n (x, y, z)))
     (zseq (cx n))) (zseq (cy n))) (zseq (cz n)).
Proof.
  intros X Y Z H.
  rewrite (for_emit A (cz n) _ (cy n * (cx n * 1)) (fun z i => flat_map (fun y => flat_map
       (fun x => g (x, y, z) (i + y * (cx n * 1) + x * 1)) (zseq (cx n))) (zseq (cy n)))); auto.
  - cbn [snd app]. apply flat_map_ext. intros z. apply flat_map_ext. intros y.
    apply flat_map_ext. intros x. f_equal. unfold make_index. cbn [cx cy cz fst snd]. ring.
  - intros z i out Hz.
    rewrite (for_emit A (cy n) _ (cx n * 1) (fun y i => flat_map
       (fun x => g (x, y, z) (i + x * 1)) (zseq (cx n)))); auto.
    intros y i' out' Hy. rewrite (for_emit A (cx n) _ 1 (fun x i => g (x, y, z) i)); auto.
Qed.

Lemma NoDup_flat_map A B (f : A -> list B) l :
  NoDup l -> (forall a, In a l -> NoDup (f a)) ->
  (forall a a' b, In a l -> In a' l -> In b (f a) -> In b (f a') -> a = a') ->
  NoDup (flat_map f l).
Proof.
  induction 1 as [|a l Na N IH]; intros F D; cbn; [constructor|].
  assert (ND : forall l1 l2 : list B, NoDup l1 -> NoDup l2 ->
     (forall b, In b l1 -> ~ In b l2) -> NoDup (l1 ++ l2)).
  { clear. induction 1 as [|b0 l1 Nb N1 IH1]; cbn; intros N2 D; auto. constructor.
    - rewrite in_app_iff. intros [I|I]; [contradiction|]. eapply D; [left; reflexivity|auto].
    - apply IH1; auto. }
  apply ND.
  - apply F. now left.
  - apply IH. intros; apply F; now right. intros. eapply D; eauto; now right.
  - intros b I1 I2. apply in_flat_map in I2. destruct I2 as (a' & Ia' & I2).
    assert (a = a') by (eapply D; eauto; [now left|now right]). subst. contradiction.
Qed.

Lemma flat_map_if A B (l : list A) (p : A -> bool) (f : A -> B) acc :
  fold_left (fun out a => if p a then out ++ [f a] else out) l acc =
  acc ++ flat_map (fun a => if p a then [f a] else []) l.
Proof.
  revert acc. induction l; intros; cbn; [now rewrite app_nil_r|].
  rewrite IHl. destruct (p a); cbn; rewrite <- ?app_assoc; auto.
Qed.
Lemma fold_flat A B (l : list A) (step : list B -> A -> list B) (g : A -> list B) acc :
  (forall a acc, In a l -> step acc a = acc ++ g a) ->
  fold_left step l acc = acc ++ flat_map g l.
Proof.
  revert acc. induction l; intros; cbn; [now rewrite app_nil_r|].
  rewrite H by now left. rewrite IHl by (intros; apply H; now right). now rewrite app_assoc.
Qed.

(** * Cells *)
Definition inside (n c : c3) : Prop := 0 <= cx c < cx n /\ 0 <= cy c < cy n /\ 0 <= cz c < cz n.

Lemma c3_eta (c : c3) : c = (cx c, cy c, cz c).
Proof. now destruct c as [[? ?] ?]. Qed.
Lemma c3_eq (a b : c3) : cx a = cx b -> cy a = cy b -> cz a = cz b -> a = b.
Proof. destruct a as [[? ?] ?], b as [[? ?] ?]; cbn. congruence. Qed.

Lemma euclid_unique k a b c d : 0 <= b < k -> 0 <= d < k -> a * k + b = c * k + d -> a = c /\ b = d.
Proof.
  intros. assert (a = c); [|subst; lia].
  destruct (Z.lt_trichotomy a c) as [L|[L|L]]; auto; exfalso.
  - assert ((a + 1) * k <= c * k) by (apply Z.mul_le_mono_nonneg_r; lia). lia.
  - assert ((c + 1) * k <= a * k) by (apply Z.mul_le_mono_nonneg_r; lia). lia.
Qed.
Lemma make_index_inj n a b : inside n a -> inside n b -> make_index n a = make_index n b -> a = b.
Proof.
  intros (A1 & A2 & A3) (B1 & B2 & B3) E. unfold make_index in E.
  apply euclid_unique in E; auto. destruct E as [E X]. apply euclid_unique in E; auto.
  apply c3_eq; lia.
Qed.
Lemma make_index_range n a : inside n a -> 0 <= make_index n a < cx n * cy n * cz n.
Proof.
  intros (A1 & A2 & A3). unfold make_index.
  assert (0 <= cz a * cy n + cy a <= cz n * cy n - 1) by nia.
  split; [nia|].
  assert ((cz a * cy n + cy a) * cx n <= (cz n * cy n - 1) * cx n) by (apply Z.mul_le_mono_nonneg_r; lia).
  lia.
Qed.
Lemma make_index_lt_z n a b : inside n a -> inside n b -> cz a < cz b -> make_index n a < make_index n b.
Proof.
  intros (A1 & A2 & A3) (B1 & B2 & B3) L. unfold make_index.
  assert ((cz a + 1) * cy n <= cz b * cy n) by (apply Z.mul_le_mono_nonneg_r; lia).
  assert (cz a * cy n + cy a + 1 <= cz b * cy n + cy b) by lia.
  assert ((cz a * cy n + cy a + 1) * cx n <= (cz b * cy n + cy b) * cx n) by (apply Z.mul_le_mono_nonneg_r; lia).
  lia.
Qed.
Lemma make_index_surj n i : 0 < cx n -> 0 < cy n -> 0 < cz n -> 0 <= i < cx n * cy n * cz n ->
  exists a, inside n a /\ make_index n a = i.
Proof.
  intros X Y Z H. exists (i mod cx n, (i / cx n) mod cy n, i / cx n / cy n).
  unfold inside, make_index. cbn [cx cy cz fst snd].
  pose proof (Z.mod_pos_bound i (cx n) X). pose proof (Z.mod_pos_bound (i / cx n) (cy n) Y).
  pose proof (Z.div_mod i (cx n) ltac:(lia)). pose proof (Z.div_mod (i / cx n) (cy n) ltac:(lia)).
  assert (0 <= i / cx n < cy n * cz n). { split. apply Z.div_pos; lia. apply Z.div_lt_upper_bound; lia. }
  assert (0 <= i / cx n / cy n < cz n). { split. apply Z.div_pos; lia. apply Z.div_lt_upper_bound; lia. }
  repeat split; try lia; try nia.
Qed.

(** * Open grid *)
Definition calls_open (n c : c3) (i : Z) : list call :=
  Search i :: flat_map (fun dz => flat_map (fun dy => flat_map (fun dx =>
     if make_index n (dx, dy, dz) >? 0 then [Pair i (0, 0, 0) (i + make_index n (dx, dy, dz))] else [])
     (dxy_open (cx n) (cx c))) (dxy_open (cy n) (cy c))) (dz_open (cz n) (cz c)).

Lemma iterate_open_eq n : 0 <= cx n -> 0 <= cy n -> 0 <= cz n ->
  iterate_open n = flat_map (fun z => flat_map (fun y => flat_map (fun x =>
    calls_open n (x, y, z) (make_index n (x, y, z))) (zseq (cx n))) (zseq (cy n))) (zseq (cz n)).
Proof.
  intros. unfold iterate_open. apply triple_loop; auto.
  intros x y z i out Hx Hy Hz. f_equal. cbn zeta.
  rewrite (fold_flat _ _ _ _ (fun dz => flat_map (fun dy => flat_map (fun dx =>
     if make_index n (dx, dy, dz) >? 0 then [Pair i (0, 0, 0) (i + make_index n (dx, dy, dz))] else [])
     (dxy_open (cx n) x)) (dxy_open (cy n) y))).
  - unfold calls_open. cbn [cx cy cz fst snd]. rewrite <- app_assoc. reflexivity.
  - intros dz acc _. rewrite (fold_flat _ _ _ _ (fun dy => flat_map (fun dx =>
     if make_index n (dx, dy, dz) >? 0 then [Pair i (0, 0, 0) (i + make_index n (dx, dy, dz))] else [])
     (dxy_open (cx n) x))); auto.
    intros dy acc' _. apply flat_map_if.
Qed.

Lemma in_dxy_open n x d : 0 <= x < n -> (In d (dxy_open n x) <-> -1 <= d <= 1 /\ 0 <= x + d < n).
Proof.
  intros. unfold dxy_open.
  destruct (Z.eqb_spec n 1), (Z.eqb_spec x 0), (Z.eqb_spec x (n - 1)); cbn; lia.
Qed.
Lemma in_dz_open n x d : 0 <= x < n -> (In d (dz_open n x) <-> 0 <= d <= 1 /\ 0 <= x + d < n).
Proof. intros. unfold dz_open. destruct (Z.eqb_spec x (n - 1)); cbn; lia. Qed.
Lemma NoDup_dxy_open n x : NoDup (dxy_open n x).
Proof.
  unfold dxy_open. destruct (n =? 1), (x =? 0), (x =? n - 1);
  repeat (constructor; [cbn; lia|]); constructor.
Qed.
Lemma NoDup_dz_open n x : NoDup (dz_open n x).
Proof. unfold dz_open. destruct (x =? n - 1); repeat (constructor; [cbn; lia|]); constructor. Qed.

Lemma make_index_add n a d : make_index n (add3 a d) = make_index n a + make_index n d.
Proof. unfold make_index, add3. cbn [cx cy cz fst snd]. ring. Qed.

Definition near (a b : c3) : Prop :=
  Z.abs (cx a - cx b) <= 1 /\ Z.abs (cy a - cy b) <= 1 /\ Z.abs (cz a - cz b) <= 1.

Lemma in_calls_open n c k : inside n c ->
  (In k (calls_open n c (make_index n c)) <->
   k = Search (make_index n c) \/
   exists c', inside n c' /\ near c c' /\ make_index n c < make_index n c' /\
              k = Pair (make_index n c) (0, 0, 0) (make_index n c')).
Proof.
  intros (Ix & Iy & Iz). unfold calls_open. cbn [In].
  split.
  - intros [E|H]; [left; congruence|right].
    apply in_flat_map in H. destruct H as (dz & Hz & H).
    apply in_flat_map in H. destruct H as (dy & Hy & H).
    apply in_flat_map in H. destruct H as (dx & Hx & H).
    rewrite in_dxy_open in Hx by auto. rewrite in_dxy_open in Hy by auto. rewrite in_dz_open in Hz by auto.
    destruct (make_index n (dx, dy, dz) >? 0) eqn:G; [|destruct H].
    destruct H as [H|[]]. exists (add3 c (dx, dy, dz)). rewrite make_index_add.
    unfold inside, near, add3 in *. cbn [cx cy cz fst snd] in *.
    split; [lia|]. split; [lia|]. split; [lia|]. congruence.
  - intros [E|(c' & (Jx & Jy & Jz) & (Nx & Ny & Nz) & L & ->)]; [left; congruence|right].
    assert (D : make_index n (sub3 c' c) = make_index n c' - make_index n c).
    { unfold make_index, sub3. cbn [cx cy cz fst snd]. ring. }
    assert (Z1 : 0 <= cz c' - cz c).
    { destruct (Z.lt_ge_cases (cz c') (cz c)) as [G|G]; [|lia].
      apply (make_index_lt_z n) in G; unfold inside; auto. lia. }
    apply in_flat_map. exists (cz c' - cz c). split. { apply in_dz_open; lia. }
    apply in_flat_map. exists (cy c' - cy c). split. { apply in_dxy_open; lia. }
    apply in_flat_map. exists (cx c' - cx c). split. { apply in_dxy_open; lia. }
    change (cx c' - cx c, cy c' - cy c, cz c' - cz c) with (sub3 c' c). rewrite D.
    destruct (make_index n c' - make_index n c >? 0) eqn:G; [|lia].
    left. f_equal. lia.
Qed.

Lemma NoDup_calls_open n c : inside n c -> NoDup (calls_open n c (make_index n c)).
Proof.
  intros I. pose proof I as (Ix & Iy & Iz). unfold calls_open.
  assert (X : forall dz dy dx k, In dz (dz_open (cz n) (cz c)) -> In dy (dxy_open (cy n) (cy c)) ->
     In dx (dxy_open (cx n) (cx c)) ->
     In k (if make_index n (dx, dy, dz) >? 0
           then [Pair (make_index n c) (0, 0, 0) (make_index n c + make_index n (dx, dy, dz))] else []) ->
     inside n (add3 c (dx, dy, dz)) /\ k = Pair (make_index n c) (0, 0, 0) (make_index n (add3 c (dx, dy, dz)))).
  { intros dz dy dx k Hz Hy Hx H. rewrite in_dxy_open in Hx by auto. rewrite in_dxy_open in Hy by auto.
    rewrite in_dz_open in Hz by auto. rewrite make_index_add.
    unfold inside, add3 in *. cbn [cx cy cz fst snd] in *.
    destruct (make_index n (dx, dy, dz) >? 0); [|destruct H]. destruct H as [<-|[]]. split; auto. lia. }
  assert (D : forall d d', inside n (add3 c d) -> inside n (add3 c d') ->
     make_index n (add3 c d) = make_index n (add3 c d') -> d = d').
  { intros d d' H H' E. apply make_index_inj in E; auto. unfold add3 in E.
    assert (E1 := f_equal cx E). assert (E2 := f_equal cy E). assert (E3 := f_equal cz E).
    cbn [cx cy cz fst snd] in *. apply c3_eq; lia. }
  constructor.
  { intros H. apply in_flat_map in H. destruct H as (dz & Hz & H).
    apply in_flat_map in H. destruct H as (dy & Hy & H).
    apply in_flat_map in H. destruct H as (dx & Hx & H).
    destruct (X _ _ _ _ Hz Hy Hx H) as [_ E]. discriminate. }
  apply NoDup_flat_map; [apply NoDup_dz_open| |].
  - intros dz Hz. apply NoDup_flat_map; [apply NoDup_dxy_open| |].
    + intros dy Hy. apply NoDup_flat_map; [apply NoDup_dxy_open| |].
      * intros dx Hx. destruct (_ >? 0); repeat constructor; cbn; tauto.
      * intros dx dx' k Hx Hx' K K'. destruct (X _ _ _ _ Hz Hy Hx K) as [I1 E1].
        destruct (X _ _ _ _ Hz Hy Hx' K') as [I2 E2]. subst k.
        assert (E : make_index n (add3 c (dx, dy, dz)) = make_index n (add3 c (dx', dy, dz))) by congruence.
        apply D in E; congruence.
    + intros dy dy' k Hy Hy' K K'. apply in_flat_map in K, K'.
      destruct K as (dx & Hx & K), K' as (dx' & Hx' & K').
      destruct (X _ _ _ _ Hz Hy Hx K) as [I1 E1].
      destruct (X _ _ _ _ Hz Hy' Hx' K') as [I2 E2]. subst k.
      assert (E : make_index n (add3 c (dx, dy, dz)) = make_index n (add3 c (dx', dy', dz))) by congruence.
      apply D in E; congruence.
  - intros dz dz' k Hz Hz' K K'. apply in_flat_map in K, K'.
    destruct K as (dy & Hy & K), K' as (dy' & Hy' & K').
    apply in_flat_map in K, K'.
    destruct K as (dx & Hx & K), K' as (dx' & Hx' & K').
    destruct (X _ _ _ _ Hz Hy Hx K) as [I1 E1].
    destruct (X _ _ _ _ Hz' Hy' Hx' K') as [I2 E2]. subst k.
    assert (E : make_index n (add3 c (dx, dy, dz)) = make_index n (add3 c (dx', dy', dz'))) by congruence.
    apply D in E; congruence.
Qed.

(** membership and no repetition for a triple loop whose body for cell c only makes
    calls that start at c *)
Definition caller (k : call) : Z := match k with Search i => i | Pair i _ _ => i end.

Lemma in_triple n (g : c3 -> list call) k :
  In k (flat_map (fun z => flat_map (fun y => flat_map (fun x => g (x, y, z)) (zseq (cx n)))
          (zseq (cy n))) (zseq (cz n))) <-> exists c, inside n c /\ In k (g c).
Proof.
  split.
  - intros H. apply in_flat_map in H. destruct H as (z & Hz & H).
    apply in_flat_map in H. destruct H as (y & Hy & H).
    apply in_flat_map in H. destruct H as (x & Hx & H).
    rewrite in_zseq in *. exists (x, y, z). unfold inside. cbn [cx cy cz fst snd]. auto.
  - intros (c & (Hx & Hy & Hz) & H).
    apply in_flat_map. exists (cz c). split. now apply in_zseq.
    apply in_flat_map. exists (cy c). split. now apply in_zseq.
    apply in_flat_map. exists (cx c). split. now apply in_zseq.
    now rewrite <- c3_eta.
Qed.

Lemma NoDup_triple n (g : c3 -> list call) :
  (forall c, inside n c -> NoDup (g c)) ->
  (forall c k, inside n c -> In k (g c) -> caller k = make_index n c) ->
  NoDup (flat_map (fun z => flat_map (fun y => flat_map (fun x => g (x, y, z)) (zseq (cx n)))
          (zseq (cy n))) (zseq (cz n))).
Proof.
  intros N C.
  assert (D : forall c c' k, inside n c -> inside n c' -> In k (g c) -> In k (g c') -> c = c').
  { intros. apply (make_index_inj n); auto. rewrite <- (C c k), <- (C c' k); auto. }
  assert (IN : forall x y z, In x (zseq (cx n)) -> In y (zseq (cy n)) -> In z (zseq (cz n)) -> inside n (x, y, z)).
  { intros x y z. rewrite !in_zseq. unfold inside. cbn [cx cy cz fst snd]. auto. }
  apply NoDup_flat_map; [apply NoDup_zseq| |].
  - intros z Hz. apply NoDup_flat_map; [apply NoDup_zseq| |].
    + intros y Hy. apply NoDup_flat_map; [apply NoDup_zseq| |].
      * intros x Hx. apply N. auto.
      * intros x x' k Hx Hx' K K'. assert ((x, y, z) = (x', y, z)) by (eapply D; eauto). congruence.
    + intros y y' k Hy Hy' K K'. apply in_flat_map in K, K'.
      destruct K as (x & Hx & K), K' as (x' & Hx' & K').
      assert ((x, y, z) = (x', y', z)) by (eapply D; eauto). congruence.
  - intros z z' k Hz Hz' K K'. apply in_flat_map in K, K'.
    destruct K as (y & Hy & K), K' as (y' & Hy' & K'). apply in_flat_map in K, K'.
    destruct K as (x & Hx & K), K' as (x' & Hx' & K').
    assert ((x, y, z) = (x', y', z')) by (eapply D; eauto). congruence.
Qed.

Definition pos_n (n : c3) : Prop := 1 <= cx n /\ 1 <= cy n /\ 1 <= cz n.

Lemma in_iterate_open n k : pos_n n ->
  (In k (iterate_open n) <-> exists c, inside n c /\
   (k = Search (make_index n c) \/
    exists c', inside n c' /\ near c c' /\ make_index n c < make_index n c' /\
              k = Pair (make_index n c) (0, 0, 0) (make_index n c'))).
Proof.
  intros (X & Y & Z). rewrite iterate_open_eq by lia.
  rewrite (in_triple n (fun c => calls_open n c (make_index n c))).
  split; intros (c & I & H); exists c; split; auto; now apply in_calls_open in H || apply in_calls_open.
Qed.
Lemma NoDup_iterate_open n : pos_n n -> NoDup (iterate_open n).
Proof.
  intros (X & Y & Z). rewrite iterate_open_eq by lia.
  apply (NoDup_triple n (fun c => calls_open n c (make_index n c))).
  - intros. now apply NoDup_calls_open.
  - intros c k I H. apply in_calls_open in H; auto. destruct H as [-> | (? & ? & ? & ? & ->)]; auto.
Qed.

(** * Periodic grid *)
Lemma eq3_spec a b : eq3 a b = true <-> a = b.
Proof.
  unfold eq3. rewrite !andb_true_iff, !Z.eqb_eq. split.
  - intros ((? & ?) & ?). apply c3_eq; auto.
  - intros ->; auto.
Qed.

Definition wv (e : lookup) : Z := match l_wrap e with MinusLength => -1 | PlusLength => 1 | NoWrap => 0 end.
Definition vc (n x : Z) (e : lookup) : Z :=
  match l_wrap e with MinusLength => -1 | PlusLength => n | NoWrap => x end.
Definition pe (n c : c3) (i : Z) (dz dy dx : lookup) : list call :=
  if make_index n (l_index dx, l_index dy, l_index dz)
     <=? make_index n (vc (cx n) (cx c) dx, vc (cy n) (cy c) dy, vc (cz n) (cz c) dz)
  then [] else [Pair i (wv dx, wv dy, wv dz) (make_index n (l_index dx, l_index dy, l_index dz))].

Lemma scan_x_spec n c i dz dy dx vx cur out :
  vx = (match l_wrap dx with NoWrap => (cx c, 0) | _ => vx end) ->
  exists cur', scan_x n i dz dy
     (Scan (fst vx, vc (cy n) (cy c) dy, vc (cz n) (cz c) dz) (snd vx, wv dy, wv dz) cur cur out) dx =
   Scan (vc (cx n) (cx c) dx, vc (cy n) (cy c) dy, vc (cz n) (cz c) dz) (wv dx, wv dy, wv dz) cur' cur'
     (out ++ pe n c i dz dy dx).
Proof.
  intros Hv. unfold scan_x, pe.
  set (vy := vc (cy n) (cy c) dy). set (vz := vc (cz n) (cz c) dz).
  set (wy := wv dy). set (wz := wv dz).
  assert (P : match l_wrap dx with
    | MinusLength => Scan (-1, vy, vz) (-1, wy, wz) cur cur out
    | PlusLength => Scan (cx n, vy, vz) (1, wy, wz) cur cur out
    | NoWrap => Scan (fst vx, vy, vz) (snd vx, wy, wz) cur cur out end =
    Scan (vc (cx n) (cx c) dx, vy, vz) (wv dx, wy, wz) cur cur out).
  { unfold vc, wv. destruct (l_wrap dx); try reflexivity. rewrite Hv. reflexivity. }
  unfold set_x. cbn [s_virt s_wrap s_cur s_trans s_out cx cy cz fst snd] in *. cbv zeta. rewrite P.
  cbn [s_virt s_wrap s_cur s_trans s_out].
  clear P Hv. destruct (_ <=? _).
  - exists cur. now rewrite app_nil_r.
  - destruct (eq3 _ cur) eqn:E; cbn [s_virt s_wrap s_cur s_trans s_out].
    + apply eq3_spec in E. exists cur. rewrite E. reflexivity.
    + exists (wv dx, wy, wz).
      replace (add3 cur (sub3 (wv dx, wy, wz) cur)) with (wv dx, wy, wz). reflexivity.
      unfold add3, sub3. cbn [cx cy cz fst snd]. apply c3_eq; cbn [cx cy cz fst snd]; ring.
Qed.

(** the three lists: only the last entry can wrap *)
Lemma dxy_per_shape n x : exists e0 e1 e2, dxy_per n x = [e0; e1; e2] /\ l_wrap e0 = NoWrap /\ l_wrap e1 = NoWrap.
Proof. unfold dxy_per. destruct (x =? 0), (x + 1 =? n); do 3 eexists; split; try reflexivity; split; reflexivity. Qed.

Lemma vc_no n x e : l_wrap e = NoWrap -> vc n x e = x.
Proof. unfold vc. now intros ->. Qed.
Lemma wv_no e : l_wrap e = NoWrap -> wv e = 0.
Proof. unfold wv. now intros ->. Qed.

Lemma scan_x_all n c i dz dy cur out :
  exists cur' v, fold_left (scan_x n i dz dy) (dxy_per (cx n) (cx c))
     (Scan (cx c, vc (cy n) (cy c) dy, vc (cz n) (cz c) dz) (0, wv dy, wv dz) cur cur out) =
   Scan (fst v, vc (cy n) (cy c) dy, vc (cz n) (cz c) dz) (snd v, wv dy, wv dz) cur' cur'
     (out ++ flat_map (pe n c i dz dy) (dxy_per (cx n) (cx c))).
Proof.
  destruct (dxy_per_shape (cx n) (cx c)) as (e0 & e1 & e2 & -> & W0 & W1).
  cbn [fold_left flat_map].
  destruct (scan_x_spec n c i dz dy e0 (cx c, 0) cur out) as (c0 & E0). { now rewrite W0. }
  cbn [fst snd] in E0. rewrite E0, (vc_no _ _ _ W0), (wv_no _ W0).
  destruct (scan_x_spec n c i dz dy e1 (cx c, 0) c0 (out ++ pe n c i dz dy e0)) as (c1 & E1). { now rewrite W1. }
  cbn [fst snd] in E1. rewrite E1, (vc_no _ _ _ W1), (wv_no _ W1).
  destruct (scan_x_spec n c i dz dy e2 (cx c, 0) c1 ((out ++ pe n c i dz dy e0) ++ pe n c i dz dy e1)) as (c2 & E2).
  { now destruct (l_wrap e2). }
  cbn [fst snd] in E2. rewrite E2.
  exists c2, (vc (cx n) (cx c) e2, wv e2). cbn [fst snd]. rewrite app_nil_r, <- !app_assoc. reflexivity.
Qed.

Lemma scan_y_spec n c i dz dy vy cur out :
  vy = (match l_wrap dy with NoWrap => (cy c, 0) | _ => vy end) ->
  exists cur', scan_y n c i dz
     (Scan (cx c, fst vy, vc (cz n) (cz c) dz) (0, snd vy, wv dz) cur cur out) dy =
   Scan (cx c, vc (cy n) (cy c) dy, vc (cz n) (cz c) dz) (0, wv dy, wv dz) cur' cur'
     (out ++ flat_map (pe n c i dz dy) (dxy_per (cx n) (cx c))).
Proof.
  intros Hv. unfold scan_y, set_y. cbn [s_virt s_wrap s_cur s_trans s_out cx cy cz fst snd].
  assert (P : match l_wrap dy with
    | MinusLength => Scan (cx c, -1, vc (cz n) (cz c) dz) (0, -1, wv dz) cur cur out
    | PlusLength => Scan (cx c, cy n, vc (cz n) (cz c) dz) (0, 1, wv dz) cur cur out
    | NoWrap => Scan (cx c, fst vy, vc (cz n) (cz c) dz) (0, snd vy, wv dz) cur cur out end =
    Scan (cx c, vc (cy n) (cy c) dy, vc (cz n) (cz c) dz) (0, wv dy, wv dz) cur cur out).
  { generalize (vc (cz n) (cz c) dz) (wv dz). intros. unfold vc, wv.
    destruct (l_wrap dy) eqn:W; try reflexivity; rewrite Hv; reflexivity. }
  cbv zeta.
  match goal with |- context [fold_left _ _ ?s] => replace s with
     (Scan (cx c, vc (cy n) (cy c) dy, vc (cz n) (cz c) dz) (0, wv dy, wv dz) cur cur out) by (symmetry; exact P) end.
  destruct (scan_x_all n c i dz dy cur out) as (cur' & v & ->).
  exists cur'. reflexivity.
Qed.

Lemma scan_y_all n c i dz cur out :
  exists cur' v, fold_left (scan_y n c i dz) (dxy_per (cy n) (cy c))
     (Scan (cx c, cy c, vc (cz n) (cz c) dz) (0, 0, wv dz) cur cur out) =
   Scan (cx c, fst v, vc (cz n) (cz c) dz) (0, snd v, wv dz) cur' cur'
     (out ++ flat_map (fun dy => flat_map (pe n c i dz dy) (dxy_per (cx n) (cx c))) (dxy_per (cy n) (cy c))).
Proof.
  destruct (dxy_per_shape (cy n) (cy c)) as (e0 & e1 & e2 & -> & W0 & W1).
  cbn [fold_left flat_map].
  destruct (scan_y_spec n c i dz e0 (cy c, 0) cur out) as (c0 & E0). { now rewrite W0. }
  cbn [fst snd] in E0. rewrite E0, (vc_no _ _ _ W0), (wv_no _ W0).
  destruct (scan_y_spec n c i dz e1 (cy c, 0) c0 (out ++ flat_map (pe n c i dz e0) (dxy_per (cx n) (cx c)))) as (c1 & E1). { now rewrite W1. }
  cbn [fst snd] in E1. rewrite E1, (vc_no _ _ _ W1), (wv_no _ W1).
  match goal with |- context [Scan _ _ c1 c1 ?o] =>
    destruct (scan_y_spec n c i dz e2 (cy c, 0) c1 o) as (c2 & E2) end.
  { now destruct (l_wrap e2). }
  cbn [fst snd] in E2. rewrite E2.
  exists c2, (vc (cy n) (cy c) e2, wv e2). cbn [fst snd]. rewrite app_nil_r, <- !app_assoc. reflexivity.
Qed.

Definition calls_per (n c : c3) (i : Z) : list call :=
  Search i :: flat_map (fun dz => flat_map (fun dy => flat_map (pe n c i dz dy)
     (dxy_per (cx n) (cx c))) (dxy_per (cy n) (cy c))) (dz_per (cz n) (cz c)).

Lemma scan_z_spec n c i dz cur out : l_wrap dz <> PlusLength ->
  exists cur', scan_z n c i (Scan (cx c, cy c, cz c) (0, 0, 0) cur cur out) dz =
   Scan (cx c, cy c, vc (cz n) (cz c) dz) (0, 0, wv dz) cur' cur'
     (out ++ flat_map (fun dy => flat_map (pe n c i dz dy) (dxy_per (cx n) (cx c))) (dxy_per (cy n) (cy c))).
Proof.
  intros NP. unfold scan_z, set_z. cbn [s_virt s_wrap s_cur s_trans s_out cx cy cz fst snd].
  match goal with |- context [fold_left _ _ ?s] => replace s with
     (Scan (cx c, cy c, vc (cz n) (cz c) dz) (0, 0, wv dz) cur cur out) end.
  - destruct (scan_y_all n c i dz cur out) as (cur' & v & ->). exists cur'. reflexivity.
  - unfold vc, wv. destruct (l_wrap dz); try reflexivity. congruence.
Qed.

Lemma iterate_periodic_eq n : 0 <= cx n -> 0 <= cy n -> 0 <= cz n ->
  iterate_periodic n = flat_map (fun z => flat_map (fun y => flat_map (fun x =>
    calls_per n (x, y, z) (make_index n (x, y, z))) (zseq (cx n))) (zseq (cy n))) (zseq (cz n)).
Proof.
  intros. unfold iterate_periodic. apply triple_loop; auto.
  intros x y z i out Hx Hy Hz. f_equal. cbn zeta. set (c := (x, y, z)).
  unfold calls_per. change (x, y, z) with (cx c, cy c, cz c).
  assert (D : exists e0 e1, dz_per (cz n) (cz c) = [e0; e1] /\ l_wrap e0 = NoWrap /\ l_wrap e1 <> PlusLength).
  { unfold dz_per. destruct (cz c + 1 =? cz n); do 2 eexists; repeat split; cbn; congruence. }
  change z with (cz c) at 1. destruct D as (e0 & e1 & -> & W0 & W1). cbn [fold_left flat_map].
  destruct (scan_z_spec n c i e0 (0, 0, 0) (out ++ [Search i])) as (c0 & E0); [congruence|].
  change (cx c, cy c, cz c) with c in *. rewrite E0. rewrite (vc_no _ _ _ W0), (wv_no _ W0).
  match goal with |- context [Scan _ _ c0 c0 ?o] =>
    destruct (scan_z_spec n c i e1 c0 o) as (c1 & E1); auto end.
  change (cx c, cy c, cz c) with c in *. rewrite E1. cbn [s_out]. rewrite app_nil_r, <- !app_assoc. reflexivity.
Qed.
