(** Membership and multiplicity of the calls of the periodic iterate_cells. *)
From Coq Require Import ZArith Reals List Bool Lia.
From Verif Require Import Base GridModel GridProofs.
Import ListNotations.
Open Scope Z_scope.

Definition wrap_of (w : Z) : wrapping := if w =? 0 then NoWrap else if w =? 1 then PlusLength else MinusLength.
Lemma lookup_eta e : e = Lookup (l_index e) (wrap_of (wv e)).
Proof. destruct e as [i []]; reflexivity. Qed.
Lemma lookup_ext e e' : l_index e = l_index e' -> wv e = wv e' -> e = e'.
Proof. intros H W. rewrite (lookup_eta e), (lookup_eta e'). congruence. Qed.

Lemma in_dxy_per n x e : 2 <= n -> 0 <= x < n ->
  (In e (dxy_per n x) <-> 0 <= l_index e < n /\ Z.abs (x + wv e * n - l_index e) <= 1).
Proof.
  intros N X. unfold dxy_per. destruct e as [i w]. unfold wv. cbn [l_index l_wrap].
  assert (EQ : forall i w i' w', Lookup i w = Lookup i' w' <-> i = i' /\ w = w').
  { intros; split; [intros E; injection E; auto|intros [-> ->]; auto]. }
  destruct (Z.eqb_spec x 0), (Z.eqb_spec (x + 1) n); cbn [In]; rewrite ?EQ; destruct w;
  split; intros H;
  repeat match goal with
  | H : _ \/ _ |- _ => destruct H
  | H : _ /\ _ |- _ => destruct H
  | H : False |- _ => destruct H
  | H : PlusLength = NoWrap |- _ => discriminate
  | H : NoWrap = PlusLength |- _ => discriminate
  | H : NoWrap = MinusLength |- _ => discriminate
  | H : MinusLength = NoWrap |- _ => discriminate
  | H : MinusLength = PlusLength |- _ => discriminate
  | H : PlusLength = MinusLength |- _ => discriminate
  end; try lia.
  all: assert (i = x \/ i = x + 1 \/ i = x - 1 \/ i = n - 1 \/ i = 0) as [?|[?|[?|[?|?]]]] by lia; subst;
    try (left; split; [lia|reflexivity]);
    try (right; left; split; [lia|reflexivity]);
    try (right; right; left; split; [lia|reflexivity]); lia.
Qed.
Lemma in_dz_per n x e : 2 <= n -> 0 <= x < n ->
  (In e (dz_per n x) <-> 0 <= l_index e < n /\ 0 <= l_index e - (x + wv e * n) <= 1).
Proof.
  intros N X. unfold dz_per. destruct e as [i w]. unfold wv. cbn [l_index l_wrap].
  assert (EQ : forall i w i' w', Lookup i w = Lookup i' w' <-> i = i' /\ w = w').
  { intros; split; [intros E; injection E; auto|intros [-> ->]; auto]. }
  destruct (Z.eqb_spec (x + 1) n); cbn [In]; rewrite ?EQ; destruct w;
  split; intros H;
  repeat match goal with
  | H : _ \/ _ |- _ => destruct H
  | H : _ /\ _ |- _ => destruct H
  | H : False |- _ => destruct H
  | H : PlusLength = NoWrap |- _ => discriminate
  | H : NoWrap = PlusLength |- _ => discriminate
  | H : NoWrap = MinusLength |- _ => discriminate
  | H : MinusLength = NoWrap |- _ => discriminate
  | H : MinusLength = PlusLength |- _ => discriminate
  | H : PlusLength = MinusLength |- _ => discriminate
  end; try lia.
  all: assert (i = x \/ i = x + 1 \/ i = 0) as [?|[?|?]] by lia; subst;
    try (left; split; [lia|reflexivity]);
    try (right; left; split; [lia|reflexivity]); lia.
Qed.
Lemma vc_dxy n x e : 2 <= n -> 0 <= x < n -> In e (dxy_per n x) -> vc n x e = x + wv e * n.
Proof.
  intros N X H. apply in_dxy_per in H; auto. unfold vc, wv in *. destruct (l_wrap e); lia.
Qed.
Lemma vc_dz n x e : 2 <= n -> 0 <= x < n -> In e (dz_per n x) -> vc n x e = x + wv e * n.
Proof.
  intros N X H. apply in_dz_per in H; auto. unfold vc, wv in *. destruct (l_wrap e); lia.
Qed.
Lemma NoDup_dxy_per n x : 2 <= n -> NoDup (dxy_per n x).
Proof.
  intros. unfold dxy_per. destruct (x =? 0), (x + 1 =? n);
  (constructor; [cbn; intros [E|[E|[]]]; injection E; intros; try discriminate; lia|]);
  (constructor; [cbn; intros [E|[]]; injection E; intros; try discriminate; lia|]);
  (constructor; [cbn; tauto|constructor]).
Qed.
Lemma NoDup_dz_per n x : NoDup (dz_per n x).
Proof.
  intros. unfold dz_per. destruct (x + 1 =? n);
  (constructor; [cbn; intros [E|[]]; injection E; intros; try discriminate; lia|]);
  (constructor; [cbn; tauto|constructor]).
Qed.

(** cell [a] displaced by [w] box lengths, in cell units *)
Definition image (n a w : c3) : c3 := (cx a + cx w * cx n, cy a + cy w * cy n, cz a + cz w * cz n).
Definition big_n (n : c3) : Prop := 2 <= cx n /\ 2 <= cy n /\ 2 <= cz n.

Lemma make_index_sub n a b : make_index n (sub3 a b) = make_index n a - make_index n b.
Proof. unfold make_index, sub3. cbn [cx cy cz fst snd]. ring. Qed.

Lemma small_index n d : big_n n -> Z.abs (cx d) <= 1 -> Z.abs (cy d) <= 1 -> Z.abs (cz d) <= 1 ->
  (0 < make_index n d -> 0 <= cz d) /\ (make_index n d = 0 -> d = (0, 0, 0)).
Proof.
  intros (X & Y & Z) Dx Dy Dz. unfold make_index.
  assert (E : forall v, Z.abs v <= 1 -> v = -1 \/ v = 0 \/ v = 1) by (intros; lia).
  split.
  - intros H. destruct (E _ Dz) as [V|[V|V]]; [exfalso|lia|lia]. rewrite V in H.
    assert (-1 * cy n + cy d <= -1) by lia.
    assert ((-1 * cy n + cy d) * cx n <= -1 * cx n) by (apply Z.mul_le_mono_nonneg_r; lia). lia.
  - intros H.
    assert (F : forall m p q, 2 <= m -> Z.abs q <= 1 -> p * m + q = 0 -> p = 0 /\ q = 0).
    { intros m p q M Q P. assert (p = 0); [|subst; lia].
      destruct (Z.lt_trichotomy p 0) as [L|[L|L]]; auto; exfalso.
      - assert (p * m <= -1 * m) by (apply Z.mul_le_mono_nonneg_r; lia). lia.
      - assert (1 * m <= p * m) by (apply Z.mul_le_mono_nonneg_r; lia). lia. }
    apply F in H; auto. destruct H as [H H1]. apply F in H; auto. destruct H.
    apply c3_eq; auto.
Qed.

Lemma in_calls_per n a k : big_n n -> inside n a ->
  (In k (calls_per n a (make_index n a)) <->
   k = Search (make_index n a) \/
   exists b w, inside n b /\ near (image n a w) b /\ make_index n (image n a w) < make_index n b /\
              k = Pair (make_index n a) w (make_index n b)).
Proof.
  intros B (Ix & Iy & Iz). pose proof B as (X & Y & Z). unfold calls_per. cbn [In]. split.
  - intros [E|H]; [left; congruence|right].
    apply in_flat_map in H. destruct H as (dz & Hz & H).
    apply in_flat_map in H. destruct H as (dy & Hy & H).
    apply in_flat_map in H. destruct H as (dx & Hx & H).
    unfold pe in H. rewrite (vc_dxy _ _ _ X Ix Hx), (vc_dxy _ _ _ Y Iy Hy), (vc_dz _ _ _ Z Iz Hz) in H.
    rewrite in_dxy_per in Hx by auto. rewrite in_dxy_per in Hy by auto. rewrite in_dz_per in Hz by auto.
    match type of H with In k (if ?b then _ else _) => destruct b eqn:G end; [destruct H|].
    destruct H as [H|[]]. exists (l_index dx, l_index dy, l_index dz), (wv dx, wv dy, wv dz).
    unfold inside, near, image. cbn [cx cy cz fst snd].
    split; [lia|]. split; [lia|]. split; [lia|]. congruence.
  - intros [E|(b & w & (Jx & Jy & Jz) & (Nx & Ny & Nz) & L & ->)]; [left; congruence|right].
    unfold image in Nx, Ny, Nz. cbn [cx cy cz fst snd] in Nx, Ny, Nz.
    assert (Wx : wv (Lookup (cx b) (wrap_of (cx w))) = cx w /\ wv (Lookup (cy b) (wrap_of (cy w))) = cy w
       /\ wv (Lookup (cz b) (wrap_of (cz w))) = cz w).
    { assert (T : forall x m c v, 2 <= m -> 0 <= x < m -> 0 <= c < m -> Z.abs (x + v * m - c) <= 1 ->
         wv (Lookup c (wrap_of v)) = v).
      { intros x m c v M Hx Hc Hv. assert (v = -1 \/ v = 0 \/ v = 1) as [-> |[-> | ->]]; [|reflexivity..].
        assert (-2 < v) by nia. assert (v < 2) by nia. lia. }
      split; [|split]; [apply (T (cx a) (cx n))|apply (T (cy a) (cy n))|apply (T (cz a) (cz n))]; auto. }
    destruct Wx as (Wx & Wy & Wz).
    pose proof (small_index n (sub3 b (image n a w)) B) as S.
    rewrite make_index_sub in S. unfold sub3, image in S. cbn [cx cy cz fst snd] in S.
    destruct S as [S _]; try lia.
    assert (S' : 0 <= cz b - (cz a + cz w * cz n)) by (apply S; unfold image in L; lia). clear S.
    apply in_flat_map. exists (Lookup (cz b) (wrap_of (cz w))).
    assert (Hz : In (Lookup (cz b) (wrap_of (cz w))) (dz_per (cz n) (cz a))).
    { apply in_dz_per; auto. rewrite Wz. cbn [l_index]. lia. }
    split; auto.
    apply in_flat_map. exists (Lookup (cy b) (wrap_of (cy w))).
    assert (Hy : In (Lookup (cy b) (wrap_of (cy w))) (dxy_per (cy n) (cy a))).
    { apply in_dxy_per; auto. rewrite Wy. cbn [l_index]. lia. }
    split; auto.
    apply in_flat_map. exists (Lookup (cx b) (wrap_of (cx w))).
    assert (Hx : In (Lookup (cx b) (wrap_of (cx w))) (dxy_per (cx n) (cx a))).
    { apply in_dxy_per; auto. rewrite Wx. cbn [l_index]. lia. }
    split; auto.
    unfold pe. rewrite (vc_dxy _ _ _ X Ix Hx), (vc_dxy _ _ _ Y Iy Hy), (vc_dz _ _ _ Z Iz Hz).
    rewrite Wx, Wy, Wz. cbn [l_index]. rewrite <- !c3_eta.
    unfold image in L. destruct (Z.leb_spec (make_index n b) (make_index n (cx a + cx w * cx n, cy a + cy w * cy n, cz a + cz w * cz n))); [lia|].
    now left.
Qed.

Lemma NoDup_calls_per n a : big_n n -> inside n a -> NoDup (calls_per n a (make_index n a)).
Proof.
  intros B I. pose proof I as (Ix & Iy & Iz). pose proof B as (X & Y & Z). unfold calls_per.
  assert (P : forall dz dy dx k, In dz (dz_per (cz n) (cz a)) -> In dy (dxy_per (cy n) (cy a)) ->
     In dx (dxy_per (cx n) (cx a)) -> In k (pe n a (make_index n a) dz dy dx) ->
     inside n (l_index dx, l_index dy, l_index dz) /\
     k = Pair (make_index n a) (wv dx, wv dy, wv dz) (make_index n (l_index dx, l_index dy, l_index dz))).
  { intros dz dy dx k Hz Hy Hx H. rewrite in_dxy_per in Hx by auto. rewrite in_dxy_per in Hy by auto.
    rewrite in_dz_per in Hz by auto. unfold pe in H.
    match type of H with In k (if ?b then _ else _) => destruct b eqn:G end; [destruct H|].
    destruct H as [<-|[]]. unfold inside. cbn [cx cy cz fst snd]. split; auto. lia. }
  assert (D : forall dz dy dx dz' dy' dx', inside n (l_index dx, l_index dy, l_index dz) ->
     inside n (l_index dx', l_index dy', l_index dz') ->
     Pair (make_index n a) (wv dx, wv dy, wv dz) (make_index n (l_index dx, l_index dy, l_index dz)) =
     Pair (make_index n a) (wv dx', wv dy', wv dz') (make_index n (l_index dx', l_index dy', l_index dz')) ->
     dx = dx' /\ dy = dy' /\ dz = dz').
  { intros until 2. intros E.
    assert (E1 : make_index n (l_index dx, l_index dy, l_index dz) = make_index n (l_index dx', l_index dy', l_index dz')) by congruence.
    assert (E2 : (wv dx, wv dy, wv dz) = (wv dx', wv dy', wv dz')) by congruence.
    apply make_index_inj in E1; auto.
    split; [|split]; apply lookup_ext; congruence. }
  constructor.
  { intros H. apply in_flat_map in H. destruct H as (dz & Hz & H).
    apply in_flat_map in H. destruct H as (dy & Hy & H).
    apply in_flat_map in H. destruct H as (dx & Hx & H).
    destruct (P _ _ _ _ Hz Hy Hx H) as [_ E]. discriminate. }
  apply NoDup_flat_map; [now apply NoDup_dz_per| |].
  - intros dz Hz. apply NoDup_flat_map; [now apply NoDup_dxy_per| |].
    + intros dy Hy. apply NoDup_flat_map; [now apply NoDup_dxy_per| |].
      * intros dx Hx. unfold pe. destruct (_ <=? _); repeat constructor; cbn; tauto.
      * intros dx dx' k Hx Hx' K K'. destruct (P _ _ _ _ Hz Hy Hx K) as [I1 E1].
        destruct (P _ _ _ _ Hz Hy Hx' K') as [I2 E2]. subst k.
        apply D in E2; auto. tauto.
    + intros dy dy' k Hy Hy' K K'. apply in_flat_map in K, K'.
      destruct K as (dx & Hx & K), K' as (dx' & Hx' & K').
      destruct (P _ _ _ _ Hz Hy Hx K) as [I1 E1].
      destruct (P _ _ _ _ Hz Hy' Hx' K') as [I2 E2]. subst k.
      apply D in E2; auto. tauto.
  - intros dz dz' k Hz Hz' K K'. apply in_flat_map in K, K'.
    destruct K as (dy & Hy & K), K' as (dy' & Hy' & K').
    apply in_flat_map in K, K'.
    destruct K as (dx & Hx & K), K' as (dx' & Hx' & K').
    destruct (P _ _ _ _ Hz Hy Hx K) as [I1 E1].
    destruct (P _ _ _ _ Hz' Hy' Hx' K') as [I2 E2]. subst k.
    apply D in E2; auto. tauto.
Qed.

Lemma in_iterate_periodic n k : big_n n ->
  (In k (iterate_periodic n) <-> exists a, inside n a /\
   (k = Search (make_index n a) \/
    exists b w, inside n b /\ near (image n a w) b /\ make_index n (image n a w) < make_index n b /\
              k = Pair (make_index n a) w (make_index n b))).
Proof.
  intros B. pose proof B as (X & Y & Z). rewrite iterate_periodic_eq by lia.
  rewrite (in_triple n (fun c => calls_per n c (make_index n c))).
  split; intros (c & I & H); exists c; split; auto; now apply in_calls_per in H || apply in_calls_per.
Qed.
Lemma NoDup_iterate_periodic n : big_n n -> NoDup (iterate_periodic n).
Proof.
  intros B. pose proof B as (X & Y & Z). rewrite iterate_periodic_eq by lia.
  apply (NoDup_triple n (fun c => calls_per n c (make_index n c))).
  - intros. now apply NoDup_calls_per.
  - intros c k I H. apply in_calls_per in H; auto. destruct H as [-> | (? & ? & ? & ? & ? & ->)]; auto.
Qed.
