(** C111: symmetries of the binary reaction channels. *)
From Coq Require Import ZArith List Bool Lia Permutation Reals Lra.
From Verif Require Import Base PdgModel PdgProofs MultiModel XsModel XsProps.
Import ListNotations.
Open Scope Z_scope.
Open Scope bool_scope.

(** * Specification *)

(** Charge conjugation: every particle is replaced by its antiparticle. *)
Definition conj (w : pdg) : pdg := if has_antiparticle w then get_antiparticle w else w.

(** The isospin mirror: up and down quarks are exchanged. *)
Definition mirror_pairs : list (pdg * pdg) :=
  [(w_p, w_n); (w_pip, w_pim); (w_Kp, w_Kz); (w_Km, w_Kbz); (w_Sp, w_Sm);
   (w_Dpp, w_Dm); (w_Dp, w_Dz);
   (anti w_p, anti w_n); (anti w_Sp, anti w_Sm); (anti w_Dpp, anti w_Dm); (anti w_Dp, anti w_Dz)].
Definition mirror (w : pdg) : pdg :=
  fold_right (fun r d => if fst r =? w then snd r else if snd r =? w then fst r else d) w mirror_pairs.

(** Everything the cross sections are computed from has the symmetry. *)
Record sym_env (c : pdg -> pdg) (env : xenv) : Prop := SymEnv {
  sy_mass : forall w, mass env (c w) = mass env w;
  sy_deg : forall w, sdegR env (c w) = sdegR env w;
  sy_int : forall w, intRK env (c w) = intRK env w;
  sy_above : forall v w, above env (c v) (c w) = above env v w;
  sy_cg : forall x y v w, cg2 env (c x) (c y) (c v) (c w) = cg2 env x y v w }.

(** Two lists of channels agree up to the symmetry: same weights, species replaced. *)
Definition cch (c : pdg -> pdg) (ch : xch) : xch := XCh (map c (x_out ch)) (x_w ch).
Definition same_channels (c : pdg -> pdg) (r r' : res (list xch)) : Prop :=
  exists l l', r = Ok l /\ r' = Ok l' /\ Permutation (map (cch c) l) l'.

Definition Ns : list pdg := [w_p; w_n; anti w_p; anti w_n].
Definition Pis : list pdg := [w_pip; w_piz; w_pim].
Definition Ks : list pdg := [w_Kp; w_Kz; w_Km; w_Kbz].
Definition Ds : list pdg :=
  [w_Dpp; w_Dp; w_Dz; w_Dm; anti w_Dpp; anti w_Dp; anti w_Dz; anti w_Dm].
Definition Ys : list pdg :=
  [w_La; w_Sp; w_Sz; w_Sm; anti w_La; anti w_Sp; anti w_Sz; anti w_Sm].

(** The mirror exchanges the values of up and down quark numbers. *)
Example mirror_quarks : forallb (fun w =>
   (nq (mirror w) 1 =? nq w 2) && (nq (mirror w) 2 =? nq w 1) && (nq (mirror w) 3 =? nq w 3) &&
   (baryon_number (mirror w) =? baryon_number w))
   (Ns ++ Pis ++ Ks ++ Ds ++ Ys) = true.
Proof. vm_compute. reflexivity. Qed.

(** * Proofs *)

Definition par_dec (x y : par) : {x = y} + {x <> y}.
Proof. decide equality. Defined.
Definition entry_dec (x y : entry) : {x = y} + {x <> y}.
Proof.
  decide equality; try apply Z.eq_dec.
  - apply list_eq_dec. decide equality; [apply par_dec|apply Z.eq_dec].
  - decide equality.
Defined.
Fixpoint rem1 (x : entry) (l : list entry) : option (list entry) :=
  match l with
  | [] => None
  | y :: l' => if entry_dec x y then Some l' else option_map (cons y) (rem1 x l')
  end.
Fixpoint is_perm (l l' : list entry) : bool :=
  match l with
  | [] => match l' with [] => true | _ => false end
  | x :: l0 => match rem1 x l' with Some r => is_perm l0 r | None => false end
  end.
Lemma rem1_perm x l r : rem1 x l = Some r -> Permutation (x :: r) l.
Proof.
  revert r. induction l as [|y l IH]; cbn [rem1]; intros r H; [discriminate|].
  destruct (entry_dec x y) as [->|]; [injection H as <-; reflexivity|].
  destruct (rem1 x l) as [r'|]; [|discriminate]. injection H as <-.
  rewrite perm_swap. apply perm_skip. now apply IH.
Qed.
Lemma is_perm_spec l l' : is_perm l l' = true -> Permutation l l'.
Proof.
  revert l'. induction l as [|x l IH]; cbn [is_perm]; intros l' H.
  - destruct l'; [constructor|discriminate].
  - destruct (rem1 x l') as [r|] eqn:E; [|discriminate].
    rewrite <- (rem1_perm x l' r E). apply perm_skip. now apply IH.
Qed.

Definition centry (c : pdg -> pdg) (e : entry) : entry :=
  Entry (e_grp e) (e_terms e) (c (e_out1 e)) (c (e_out2 e)).

Lemma collect_sym c f f' l l' : Permutation (map (centry c) l) l' ->
  (forall e, In e l -> exists x, f e = Ok x /\ f' (centry c e) = Ok (map (cch c) x)) ->
  same_channels c (collect f l) (collect f' l').
Proof.
  intros P H. exists (flat_map (fun e => okl (f e)) l), (flat_map (fun e => okl (f' e)) l').
  splits.
  - apply collect_ok. intros e I. destruct (H e I) as (x & E & _). now exists x.
  - apply collect_ok. intros e I. apply (Permutation_in e (Permutation_sym P)) in I.
    apply in_map_iff in I. destruct I as (e0 & <- & I). destruct (H e0 I) as (x & _ & E).
    eexists; exact E.
  - rewrite <- (Permutation_flat_map _ P). clear P.
    induction l as [|e l IH]; [reflexivity|]. cbn [map flat_map]. rewrite map_app.
    destruct (H e (or_introl eq_refl)) as (x & E1 & E2). rewrite E1, E2. cbn [okl].
    apply Permutation_app_head. apply IH. intros e' I. apply H. now right.
Qed.

Lemma add_channel_sym c env v o1 o2 : sym_env c env -> (exists x, v = Ok x) ->
  exists x, add_channel env v o1 o2 = Ok x /\ add_channel env v (c o1) (c o2) = Ok (map (cch c) x).
Proof.
  intros S [x ->]. unfold add_channel. rewrite (sy_above c env S).
  destruct (above env o1 o2); cbn [rbind].
  - eexists. split; [reflexivity|]. destruct (Rlt_dec really_small x); reflexivity.
  - exists []. now split.
Qed.

(** The isospin ratios as a table of species *)
Definition srows : list ((Z * Z) * (pdg * pdg * pdg * pdg * pdg * pdg)) :=
  flat_map (fun r => let '((a, b), ((c1, d1), (c2, d2))) := r in
     [((pack (code a) (code b), pack (code c1) (code d1)), (a, b, c1, d1, c2, d2));
      ((pack (code a) (code b), pack (code c2) (code d2)), (a, b, c2, d2, c1, d1))]) ratio_rows.
Definition sev (env : xenv) (t : pdg * pdg * pdg * pdg * pdg * pdg) : R :=
  let '(a, b, c, d, c', d') := t in (cg2 env a b c d / (cg2 env a b c d + cg2 env a b c' d'))%R.
Fixpoint sfind (l : list ((Z * Z) * (pdg * pdg * pdg * pdg * pdg * pdg))) (k : Z * Z) :=
  match l with
  | [] => None
  | ((x, y), v) :: l' => if ((x =? fst k) && (y =? snd k))%Z then Some v else sfind l' k
  end.
Definition ratio_idx (a b c d : pdg) :=
  let f := flip_of [a; b; c; d] in
  sfind srows (pack (code a * f) (code b * f), pack (code c * f) (code d * f)).
Lemma ratios_srows env : ratios env = map (fun r => (fst r, sev env (snd r))) srows.
Proof. reflexivity. Qed.
Lemma get_ratio_idx env a b c d :
  get_ratio env a b c d = match ratio_idx a b c d with Some t => Ok (sev env t) | None => Throw E_out_of_range end.
Proof.
  unfold get_ratio, ratio_idx. rewrite ratios_srows. set (k := (pack _ _, pack _ _)). clearbody k.
  generalize srows. induction l as [|[[x y] v] l IH]; [reflexivity|].
  cbn [map rfind sfind fst snd]. destruct ((x =? fst k) && (y =? snd k)); [reflexivity|apply IH].
Qed.
Definition map6 (c : pdg -> pdg) (t : pdg * pdg * pdg * pdg * pdg * pdg) :=
  let '(a, b, x, y, x', y') := t in (c a, c b, c x, c y, c x', c y').
Definition t6eqb (t u : pdg * pdg * pdg * pdg * pdg * pdg) : bool :=
  let '(a, b, x, y, x', y') := t in
  let '(a1, b1, x1, y1, x1', y1') := u in
  (a =? a1) && (b =? b1) && (x =? x1) && (y =? y1) && (x' =? x1') && (y' =? y1').
Lemma t6eqb_spec t u : t6eqb t u = true -> t = u.
Proof.
  destruct t as [[[[[a b] x] y] x'] y'], u as [[[[[a1 b1] x1] y1] x1'] y1'].
  cbn [t6eqb]. rewrite !andb_true_iff, !Z.eqb_eq. intros [[[[[-> ->] ->] ->] ->] ->]. reflexivity.
Qed.
(** the check for one ratio: the same row of the table, or the symmetric one *)
Definition ratio_chk (c : pdg -> pdg) (x y v w : pdg) : bool :=
  match ratio_idx x y v w, ratio_idx (c x) (c y) (c v) (c w) with
  | Some t, Some u => t6eqb u t || t6eqb u (map6 c t)
  | _, _ => false
  end.
Lemma ratio_chk_spec c env x y v w : sym_env c env -> ratio_chk c x y v w = true ->
  exists r, get_ratio env x y v w = Ok r /\ get_ratio env (c x) (c y) (c v) (c w) = Ok r.
Proof.
  intros S H. rewrite !get_ratio_idx. unfold ratio_chk in H.
  destruct (ratio_idx x y v w) as [t|]; [|discriminate].
  destruct (ratio_idx (c x) (c y) (c v) (c w)) as [u|]; [|discriminate].
  exists (sev env t). split; [reflexivity|]. f_equal.
  apply orb_true_iff in H. destruct H as [H|H]; apply t6eqb_spec in H; subst u; [reflexivity|].
  destruct t as [[[[[a b] e] f] e'] f']. cbn [map6 sev]. now rewrite !(sy_cg c env S).
Qed.

Definition inj_chk (c : pdg -> pdg) (x y : pdg) : bool := eqb (c x =? c y) (x =? y).
Lemma inj_chk_spec c x y : inj_chk c x y = true -> same (c x) (c y) = same x y.
Proof. unfold inj_chk, same. intros H. apply eqb_prop in H. now rewrite H. Qed.

Definition tab_chk (c : pdg -> pdg) (t : list ((pdg * pdg) * list entry)) (extra : pdg -> pdg -> entry -> bool)
    (xs ys : list pdg) : bool :=
  forallb (fun x => forallb (fun y =>
    is_perm (map (centry c) (lookup t x y)) (lookup t (c x) (c y)) && forallb (extra x y) (lookup t x y)) ys) xs.
Lemma tab_chk_spec c t extra xs ys : tab_chk c t extra xs ys = true ->
  forall x y, In x xs -> In y ys ->
  Permutation (map (centry c) (lookup t x y)) (lookup t (c x) (c y)) /\
  (forall e, In e (lookup t x y) -> extra x y e = true).
Proof.
  unfold tab_chk. rewrite forallb_forall. intros H x y X Y. specialize (H x X).
  rewrite forallb_forall in H. specialize (H y Y). apply andb_true_iff in H. destruct H as [H1 H2].
  split; [now apply is_perm_spec|]. rewrite forallb_forall in H2. exact H2.
Qed.

(** the tests which pick the baryon do not depend on the order or the symmetry *)
Definition pick_chk (c : pdg -> pdg) (test : pdg -> bool) (xs ys : list pdg) : bool :=
  forallb (fun x => test x && test (c x)) xs && forallb (fun y => negb (test y) && negb (test (c y))) ys.
Lemma pick_chk_spec c test xs ys : pick_chk c test xs ys = true -> forall x y, In x xs -> In y ys ->
  pick test x y = (x, y) /\ pick test (c x) (c y) = (c x, c y) /\ pick test y x = (x, y)
  /\ pick test (c y) (c x) = (c x, c y).
Proof.
  unfold pick_chk. rewrite andb_true_iff, !forallb_forall. intros [H1 H2] x y X Y.
  specialize (H1 x X). specialize (H2 y Y). rewrite andb_true_iff in H1.
  rewrite andb_true_iff, !negb_true_iff in H2. destruct H1 as [E1 E2], H2 as [E3 E4].
  unfold pick. rewrite E1, E2, E3, E4. now splits.
Qed.

Definition either (a b x y : pdg) : Prop := (a = x /\ b = y) \/ (a = y /\ b = x).

Definition rk_nk' (c : pdg -> pdg) (k n : pdg) (e : entry) : bool :=
  match e_grp e with KD => ratio_chk c n k (e_out1 e) (e_out2 e) | _ => true end.
Definition rk_dk' (c : pdg -> pdg) (d k : pdg) (e : entry) : bool :=
  ratio_chk c (e_out1 e) (e_out2 e) k d && inj_chk c d k && inj_chk c (e_out1 e) (e_out2 e).
Definition rk_yp (c : pdg -> pdg) (y p : pdg) (e : entry) : bool :=
  inj_chk c y p && inj_chk c (e_out1 e) (e_out2 e).

Lemma tables_symmetric c : c = conj \/ c = mirror ->
  tab_chk c npi_table (fun _ _ _ => true) Ns Pis = true /\
  tab_chk c nk_table (rk_nk' c) Ks Ns = true /\
  tab_chk c deltak_table (rk_dk' c) Ds Ks = true /\
  tab_chk c ypi_table (rk_yp c) Ys Pis = true /\
  pick_chk c is_nucleon Ns Pis = true /\ pick_chk c is_nucleon Ns Ks = true /\
  pick_chk c is_Delta Ds Ks = true /\ pick_chk c is_hyperon Ys Pis = true.
Proof. intros [-> | ->]; splits; vm_compute; reflexivity. Qed.

(** C111: charge conjugation and the isospin mirror relate the channels of meson-baryon
    collisions: same weights, species replaced; for both orders of the particles. *)
Theorem meson_baryon_symmetric : forall c env i koff a b,
  (c = conj \/ c = mirror) -> sym_env c env ->
  (forall n p, In n Ns -> In p Pis -> either a b n p ->
     same_channels c (npi_yk env a b) (npi_yk env (c a) (c b))) /\
  (forall n k, In n Ns -> In k Ks -> either a b n k ->
     same_channels c (nk_xx env i koff a b) (nk_xx env i koff (c a) (c b))) /\
  (forall d k, In d Ds -> In k Ks -> either a b d k ->
     same_channels c (deltak_xx env i a b) (deltak_xx env i (c a) (c b))) /\
  (forall y p, In y Ys -> In p Pis -> either a b y p ->
     same_channels c (ypi_xx env i a b) (ypi_xx env i (c a) (c b))).
Proof.
  intros c env i koff a b C S.
  destruct (tables_symmetric c C) as (T1 & T2 & T3 & T4 & Q1 & Q2 & Q3 & Q4).
  assert (NIL : same_channels c (Ok []) (Ok [])) by (exists [], []; now splits).
  splits.
  - intros n p N P E. destruct (pick_chk_spec _ _ _ _ Q1 n p N P) as (K1 & K2 & K3 & K4).
    assert (F : pick is_nucleon a b = (n, p) /\ pick is_nucleon (c a) (c b) = (c n, c p)).
    { destruct E as [[-> ->]|[-> ->]]; now split. }
    destruct F as [F1 F2]. unfold npi_yk. rewrite F1, F2.
    destruct (tab_chk_spec _ _ _ _ _ T1 n p N P) as [T _].
    apply collect_sym; [exact T|]. intros e I. cbn [centry e_terms e_out1 e_out2].
    apply add_channel_sym; [exact S|]. eexists; reflexivity.
  - intros n k N K E. destruct (pick_chk_spec _ _ _ _ Q2 n k N K) as (K1 & K2 & K3 & K4).
    assert (F : pick is_nucleon a b = (n, k) /\ pick is_nucleon (c a) (c b) = (c n, c k)).
    { destruct E as [[-> ->]|[-> ->]]; now split. }
    destruct F as [F1 F2]. unfold nk_xx. rewrite F1, F2.
    destruct (tab_chk_spec _ _ _ _ _ T2 k n K N) as [T X].
    apply collect_sym; [exact T|]. intros e I.
    assert (G : nk_on env i koff (c a) (c b) (e_grp e) = nk_on env i koff a b (e_grp e)).
    { unfold nk_on. now rewrite !(sy_mass c env S). }
    cbn [centry e_grp e_terms e_out1 e_out2]. rewrite G.
    destruct (nk_on env i koff a b (e_grp e)); [|exists []; now split].
    assert (V : exists x, nk_value env n k e = Ok x /\ nk_value env (c n) (c k) (centry c e) = Ok x).
    { specialize (X e I). unfold rk_nk' in X. unfold nk_value. cbn [centry e_grp e_terms e_out1 e_out2].
      destruct (e_grp e); try (eexists; split; reflexivity).
      destruct (ratio_chk_spec _ env _ _ _ _ S X) as (r & -> & ->). cbn [rbind]. eexists; split; reflexivity. }
    destruct V as (x & V1 & V2). fold (centry c e). rewrite V1, V2.
    apply add_channel_sym; [exact S|]. eexists; reflexivity.
  - intros d k D K E. destruct (pick_chk_spec _ _ _ _ Q3 d k D K) as (K1 & K2 & K3 & K4).
    assert (F : pick is_Delta a b = (d, k) /\ pick is_Delta (c a) (c b) = (c d, c k)).
    { destruct E as [[-> ->]|[-> ->]]; now split. }
    destruct F as [F1 F2]. unfold deltak_xx. rewrite F1, F2. destruct (i_KD i); [|exact NIL].
    destruct (tab_chk_spec _ _ _ _ _ T3 d k D K) as [T X].
    apply collect_sym; [exact T|]. intros e I. specialize (X e I). unfold rk_dk' in X.
    rewrite !andb_true_iff in X. destruct X as [[X1 X2] X3].
    destruct (ratio_chk_spec _ env _ _ _ _ S X1) as (r & R1 & R2).
    assert (V : exists x, deltak_value env d k e = Ok x /\ deltak_value env (c d) (c k) (centry c e) = Ok x).
    { unfold deltak_value. cbn [centry e_terms e_out1 e_out2]. rewrite R1, R2. cbn [rbind].
      unfold db_RK. rewrite !(sy_mass c env S), !(sy_deg c env S), !(sy_int c env S).
      rewrite (inj_chk_spec _ _ _ X2), (inj_chk_spec _ _ _ X3). eexists; split; reflexivity. }
    destruct V as (x & V1 & V2). rewrite V1, V2. cbn [centry e_out1 e_out2].
    apply add_channel_sym; [exact S|]. eexists; reflexivity.
  - intros y p Y P E. destruct (pick_chk_spec _ _ _ _ Q4 y p Y P) as (K1 & K2 & K3 & K4).
    assert (F : pick is_hyperon a b = (y, p) /\ pick is_hyperon (c a) (c b) = (c y, c p)).
    { destruct E as [[-> ->]|[-> ->]]; now split. }
    destruct F as [F1 F2]. unfold ypi_xx. rewrite F1, F2. destruct (i_SE i); [|exact NIL].
    destruct (tab_chk_spec _ _ _ _ _ T4 y p Y P) as [T X].
    apply collect_sym; [exact T|]. intros e I. specialize (X e I). unfold rk_yp in X.
    rewrite !andb_true_iff in X. destruct X as [X2 X3].
    assert (V : ypi_value env (c y) (c p) (centry c e) = ypi_value env y p e).
    { unfold ypi_value, db_stable. cbn [centry e_terms e_out1 e_out2].
      rewrite !(sy_mass c env S), !(sy_deg c env S).
      now rewrite (inj_chk_spec _ _ _ X2), (inj_chk_spec _ _ _ X3). }
    rewrite V. cbn [centry e_out1 e_out2].
    apply add_channel_sym; [exact S|]. eexists; reflexivity.
Qed.
Print Assumptions meson_baryon_symmetric.

(** The hypotheses can be met, with channels on both sides. *)
Definition flat_env (sq : R) : xenv :=
  XEnv sq 1 (fun _ => 3%R) (fun _ => 1%R) (fun _ => 2%R) (fun _ => 1%R) (fun _ _ => true) (fun _ _ _ _ => 1%R).
Lemma really_small_lt x : (1 <= x)%R -> (really_small < x)%R.
Proof. intros H. unfold really_small. lra. Qed.
Example meson_baryon_symmetric_applies :
  sym_env conj (flat_env 3) /\ sym_env mirror (flat_env 3) /\
  npi_yk (flat_env 3) w_pip w_p = Ok [XCh [w_Kp; w_Sp] 3%R] /\
  npi_yk (flat_env 3) (conj w_pip) (conj w_p) = Ok [XCh [w_Km; anti w_Sp] 3%R] /\
  npi_yk (flat_env 3) (mirror w_pip) (mirror w_p) = Ok [XCh [w_Kz; w_Sm] 3%R].
Proof.
  assert (V : forall o1 o2, add_channel (flat_env 3) (Ok (value (flat_env 3) [(2, PipP_SpKp)])) o1 o2
     = Ok [XCh [o1; o2] 3%R]).
  { intros o1 o2. unfold add_channel. cbn [above flat_env rbind value fold_right fst snd sigma].
    replace (IZR 2 / 2 * 3 + 0)%R with 3%R by lra.
    destruct (Rlt_dec really_small 3) as [|N]; [reflexivity|].
    exfalso. apply N, really_small_lt. lra. }
  splits; try (constructor; reflexivity).
  - unfold npi_yk. change (pick is_nucleon w_pip w_p) with (w_p, w_pip). cbv iota beta.
    change (lookup npi_table w_p w_pip) with [Entry AL [(2, PipP_SpKp)] w_Kp w_Sp].
    cbn [collect e_terms e_out1 e_out2]. rewrite V. reflexivity.
  - unfold npi_yk. change (pick is_nucleon (conj w_pip) (conj w_p)) with (anti w_p, w_pim). cbv iota beta.
    change (lookup npi_table (anti w_p) w_pim) with [Entry AL [(2, PipP_SpKp)] w_Km (anti w_Sp)].
    cbn [collect e_terms e_out1 e_out2]. rewrite V. reflexivity.
  - unfold npi_yk. change (pick is_nucleon (mirror w_pip) (mirror w_p)) with (w_n, w_pim). cbv iota beta.
    change (lookup npi_table w_n w_pim) with [Entry AL [(2, PipP_SpKp)] w_Kz w_Sm].
    cbn [collect e_terms e_out1 e_out2]. rewrite V. reflexivity.
Qed.

(** ** The order of the two particles *)

Lemma pick_comm test a b : test a <> test b -> pick test a b = pick test b a.
Proof. unfold pick. destruct (test a), (test b); congruence. Qed.
Lemma anti_eqb_comm a b : word a -> word b ->
  (b =? get_antiparticle a) = (a =? get_antiparticle b).
Proof.
  intros A B. destruct (Z.eqb_spec b (get_antiparticle a)) as [->|N].
  - rewrite antiparticle_involutive by assumption. now rewrite Z.eqb_refl.
  - destruct (Z.eqb_spec a (get_antiparticle b)) as [->|]; [|reflexivity].
    exfalso. apply N. now rewrite antiparticle_involutive.
Qed.
Lemma nucleon_antinucleon_pair a b : word a -> word b ->
  is_nucleon a && (b =? get_antiparticle a) = is_nucleon b && (a =? get_antiparticle b).
Proof.
  intros A B. rewrite (anti_eqb_comm a b A B). destruct (Z.eqb_spec a (get_antiparticle b)) as [->|];
    [|now rewrite !andb_false_r].
  rewrite !andb_true_r. unfold is_nucleon, code.
  rewrite asign_anti by assumption.
  assert (U : ucode (get_antiparticle b) = ucode b).
  { clear. unfold ucode, get_antiparticle. change (2 ^ 31) with (8 * 2 ^ 28).
    destruct (is_anti b).
    - replace (b - 8 * 2 ^ 28) with (b + (-8) * 2 ^ 28) by ring. now rewrite Z.mod_add.
    - now rewrite Z.mod_add. }
  rewrite U, Z.mul_opp_l, Z.abs_opp. reflexivity.
Qed.

Theorem order_irrelevant : forall env i koff cut aqm probh sp sq ms a b,
  (is_nucleon a <> is_nucleon b ->
     npi_yk env a b = npi_yk env b a /\ nk_xx env i koff a b = nk_xx env i koff b a) /\
  (is_Delta a <> is_Delta b -> deltak_xx env i a b = deltak_xx env i b a) /\
  (is_hyperon a <> is_hyperon b -> ypi_xx env i a b = ypi_xx env i b a) /\
  (word a -> word b ->
     parametrized_total env cut aqm a b = parametrized_total env cut aqm b a /\
     high_energy env probh aqm a b = high_energy env probh aqm b a /\
     string_probability sp sq ms a b = string_probability sp sq ms b a).
Proof.
  intros env i koff cut aqm probh sp sq ms a b.
  split; [|split; [|split]].
  - intros N. unfold npi_yk, nk_xx. rewrite (pick_comm _ a b N). split; [reflexivity|].
    destruct (pick is_nucleon b a) as [n k].
    replace (nk_on env i koff b a) with (nk_on env i koff a b); [reflexivity|].
    unfold nk_on. now replace (koff + mass env a + mass env b)%R with (koff + mass env b + mass env a)%R by ring.
  - intros N. unfold deltak_xx. now rewrite (pick_comm _ a b N).
  - intros N. unfold ypi_xx. now rewrite (pick_comm _ a b N).
  - intros A B. splits.
    + unfold parametrized_total.
      rewrite (andb_comm (is_baryon b) (is_baryon a)), (Z.eqb_sym b a), (Z.eqb_sym (asign b) (asign a)).
      rewrite (orb_comm (is_baryon b && is_meson a)).
      rewrite (andb_comm (is_meson b) (is_baryon a)), (andb_comm (is_baryon b) (is_meson a)).
      rewrite (andb_comm (is_meson b) (is_meson a)), (andb_comm (is_pion b) (is_pion a)).
      rewrite (Z.mul_comm (isospin3 b) (isospin3 a)), (Z.add_comm (isospin3 b) (isospin3 a)).
      rewrite (Rmult_comm (aqm b) (aqm a)).
      destruct ((is_baryon a && is_meson b) || (is_meson a && is_baryon b)) eqn:E; [|reflexivity].
      replace (pick_meson b a) with (pick_meson a b); [reflexivity|].
      assert (X : forall w, is_baryon w = true -> is_meson w = false).
      { intros w. unfold is_baryon, is_meson. rewrite andb_true_iff, negb_true_iff.
        intros [H1 H2]. now rewrite H1, H2. }
      unfold pick_meson. rewrite orb_true_iff, !andb_true_iff in E.
      destruct E as [[E1 E2]|[E1 E2]]; [rewrite (X a E1), E2|rewrite (X b E2), E1]; reflexivity.
    + unfold high_energy. rewrite (anti_eqb_comm b a B A), (Z.mul_comm (asign b) (asign a)), (Z.eqb_sym b a).
      rewrite (andb_comm (is_baryon b) (is_baryon a)), (andb_comm (is_meson b) (is_meson a)).
      rewrite (orb_comm (is_meson b && is_baryon a)), (Rmult_comm (aqm b) (aqm a)).
      rewrite (orb_comm ((b =? w_pip) && (a =? w_p))), (orb_comm ((b =? w_pim) && (a =? w_n))).
      rewrite (orb_comm ((b =? w_pim) && (a =? w_p))), (orb_comm ((b =? w_pip) && (a =? w_n))).
      reflexivity.
    + unfold string_probability. destruct (s_switch sp); cbn [negb]; [|reflexivity].
      rewrite (nucleon_antinucleon_pair b a B A).
      rewrite (andb_comm (is_baryon b) (is_baryon a)), (andb_comm (is_nucleon b) (is_nucleon a)).
      rewrite (Z.eqb_sym (asign b) (asign a)), (andb_comm (is_meson b) (is_meson a)).
      rewrite (andb_comm (is_pion b) (is_pion a)).
      rewrite (andb_comm (is_pion b) (is_nucleon a)), (andb_comm (is_nucleon b) (is_pion a)).
      rewrite (orb_comm (is_nucleon a && is_pion b)).
      replace (asign b =? - asign a) with (asign a =? - asign b)
        by (destruct (asign_cases a) as [-> | ->], (asign_cases b) as [-> | ->]; reflexivity).
      replace (is_KplusP b a) with (is_KplusP a b)
        by (unfold is_KplusP; destruct (_ && (b =? w_p)), (_ && (a =? w_p)), (_ && (b =? anti w_p)), (_ && (a =? anti w_p)); reflexivity).
      rewrite (Rplus_comm (ms b) (ms a)).
      replace (is_baryon a && is_baryon b && (asign a =? asign b) || is_baryon b && is_meson a || is_baryon a && is_meson b)
        with (is_baryon a && is_baryon b && (asign a =? asign b) || is_baryon a && is_meson b || is_baryon b && is_meson a)
        by (destruct (is_baryon a), (is_baryon b), (is_meson a), (is_meson b), (asign a =? asign b); reflexivity).
      reflexivity.
Qed.
Print Assumptions order_irrelevant.

(** ** Pion-nucleon to kaon-Sigma from the two isospin amplitudes *)

Local Open Scope R_scope.
Definition abs2 (z : R * R) : R := fst z ^ 2 + snd z ^ 2.
Definition cadd (z w : R * R) : R * R := (fst z + fst w, snd z + snd w).
Definition cscale (k : R) (z : R * R) : R * R := (k * fst z, k * snd z).
Definition tab_value (env : xenv) (t : list ((pdg * pdg) * list entry)) (x y o1 o2 : pdg) : R :=
  fold_right (fun e acc => if ((e_out1 e =? o1) && (e_out2 e =? o2))%Z then value env (e_terms e) + acc else acc)
             0 (lookup t x y).
(** If the three parametrisations follow from amplitudes A3 and A1 for total isospin 3/2 and
    1/2, so do the other channels: the table agrees with isospin symmetry. *)
Theorem sigma_channels_isospin : forall env (A3 A1 : R * R),
  sigma env PipP_SpKp = abs2 A3 ->
  sigma env PimP_SmKp = / 9 * abs2 (cadd A3 (cscale 2 A1)) ->
  sigma env PimP_SzKz = 2 / 9 * abs2 (cadd A3 (cscale (-1) A1)) ->
  tab_value env npi_table w_p w_piz w_Kp w_Sz = / 9 * abs2 (cadd (cscale 2 A3) A1) /\
  tab_value env npi_table w_p w_piz w_Kz w_Sp = 2 / 9 * abs2 (cadd A3 (cscale (-1) A1)) /\
  tab_value env npi_table w_n w_pip w_Kz w_Sp = / 9 * abs2 (cadd A3 (cscale 2 A1)) /\
  tab_value env npi_table w_n w_piz w_Kz w_Sz = / 9 * abs2 (cadd (cscale 2 A3) A1) /\
  0 <= tab_value env npi_table w_p w_piz w_Kp w_Sz /\
  tab_value env npi_table w_p w_piz w_Kp w_La = / 2 * tab_value env npi_table w_p w_pim w_Kz w_La.
Proof.
  intros env [a3 b3] [a1 b1] H1 H2 H3. unfold abs2, cadd, cscale in *. cbn [fst snd] in *.
  assert (V : tab_value env npi_table w_p w_piz w_Kp w_Sz
    = / 9 * ((2 * a3 + a1) ^ 2 + (2 * b3 + b1) ^ 2)).
  { unfold tab_value. change (lookup npi_table w_p w_piz) with
      [Entry AL [(1, PipP_SpKp); ((-1), PimP_SzKz); (1, PimP_SmKp)] w_Kp w_Sz;
      Entry AL [(2, PimP_SzKz)] w_Kz w_Sp; Entry AL [(1, PimP_LaKz)] w_Kp w_La]%Z.
    cbn -[sigma IZR]. rewrite H1, H2, H3. field. }
  splits.
  - exact V.
  - unfold tab_value. change (lookup npi_table w_p w_piz) with
      [Entry AL [(1, PipP_SpKp); ((-1), PimP_SzKz); (1, PimP_SmKp)] w_Kp w_Sz;
      Entry AL [(2, PimP_SzKz)] w_Kz w_Sp; Entry AL [(1, PimP_LaKz)] w_Kp w_La]%Z.
    cbn -[sigma IZR]. rewrite H3. field.
  - unfold tab_value. change (lookup npi_table w_n w_pip) with
     [Entry AL [(2, PimP_SmKp)] w_Kz w_Sp; Entry AL [(2, PimP_SzKz)] w_Kp w_Sz;
      Entry AL [(2, PimP_LaKz)] w_Kp w_La]%Z.
    cbn -[sigma IZR]. rewrite H2. field.
  - unfold tab_value. change (lookup npi_table w_n w_piz) with
     [Entry AL [(1, PipP_SpKp); ((-1), PimP_SzKz); (1, PimP_SmKp)] w_Kz w_Sz;
      Entry AL [(2, PimP_SzKz)] w_Kp w_Sm; Entry AL [(1, PimP_LaKz)] w_Kz w_La]%Z.
    cbn -[sigma IZR]. rewrite H1, H2, H3. field.
  - rewrite V. apply Rmult_le_pos; [lra|]. apply Rplus_le_le_0_compat; apply pow2_ge_0.
  - unfold tab_value. change (lookup npi_table w_p w_piz) with
      [Entry AL [(1, PipP_SpKp); ((-1), PimP_SzKz); (1, PimP_SmKp)] w_Kp w_Sz;
      Entry AL [(2, PimP_SzKz)] w_Kz w_Sp; Entry AL [(1, PimP_LaKz)] w_Kp w_La]%Z.
    change (lookup npi_table w_p w_pim) with
     [Entry AL [(2, PimP_SmKp)] w_Kp w_Sm; Entry AL [(2, PimP_SzKz)] w_Kz w_Sz;
      Entry AL [(2, PimP_LaKz)] w_Kz w_La]%Z.
    cbn -[sigma IZR]. field.
Qed.
Print Assumptions sigma_channels_isospin.
Example sigma_channels_applies : exists env A3 A1,
  sigma env PipP_SpKp = abs2 A3 /\ sigma env PimP_SmKp = / 9 * abs2 (cadd A3 (cscale 2 A1)) /\
  sigma env PimP_SzKz = 2 / 9 * abs2 (cadd A3 (cscale (-1) A1)).
Proof.
  exists (XEnv 3 1 (fun p => match p with PipP_SpKp => 9 | PimP_SmKp => 1 | PimP_SzKz => 2 | _ => 0 end)
    (fun _ => 1) (fun _ => 2) (fun _ => 1) (fun _ _ => true) (fun _ _ _ _ => 1)), (3, 0), (0, 0).
  unfold abs2, cadd, cscale. cbn [fst snd sigma]. splits; field.
Qed.

(** ** Elastic, total and string cross sections *)

Local Open Scope Z_scope.

Lemma elook_sym c : c = conj \/ c = mirror ->
  forallb (fun n => forallb (fun m => if list_eq_dec (fun x y : Z * par =>
      ltac:(decide equality; [apply par_dec|apply Z.eq_dec])) (elook npi_el_table (c n) (c m)) (elook npi_el_table n m)
      then true else false) Pis) Ns = true /\
  forallb (fun n => forallb (fun m => if list_eq_dec (fun x y : Z * par =>
      ltac:(decide equality; [apply par_dec|apply Z.eq_dec])) (elook nk_el_table (c n) (c m)) (elook nk_el_table n m)
      then true else false) Ks) Ns = true.
Proof. intros [-> | ->]; split; vm_compute; reflexivity. Qed.

Theorem elastic_symmetric : forall c env a b n m, c = conj \/ c = mirror -> In n Ns -> either a b n m ->
  (In m Pis -> el_value env npi_el_table (c a) (c b) = el_value env npi_el_table a b) /\
  (In m Ks -> el_value env nk_el_table (c a) (c b) = el_value env nk_el_table a b).
Proof.
  intros c env a b n m C N E. destruct (elook_sym c C) as [T1 T2].
  destruct (tables_symmetric c C) as (_ & _ & _ & _ & Q1 & Q2 & _).
  rewrite forallb_forall in T1, T2. specialize (T1 n N). specialize (T2 n N).
  rewrite forallb_forall in T1, T2. split; intros M.
  - specialize (T1 m M). destruct (pick_chk_spec _ _ _ _ Q1 n m N M) as (K1 & K2 & K3 & K4).
    assert (F : pick is_nucleon a b = (n, m) /\ pick is_nucleon (c a) (c b) = (c n, c m)).
    { destruct E as [[-> ->]|[-> ->]]; now split. }
    destruct F as [F1 F2]. unfold el_value. rewrite F1, F2.
    destruct (list_eq_dec _ _ _) as [->|] in T1; [reflexivity|discriminate].
  - specialize (T2 m M). destruct (pick_chk_spec _ _ _ _ Q2 n m N M) as (K1 & K2 & K3 & K4).
    assert (F : pick is_nucleon a b = (n, m) /\ pick is_nucleon (c a) (c b) = (c n, c m)).
    { destruct E as [[-> ->]|[-> ->]]; now split. }
    destruct F as [F1 F2]. unfold el_value. rewrite F1, F2.
    destruct (list_eq_dec _ _ _) as [->|] in T2; [reflexivity|discriminate].
Qed.
Print Assumptions elastic_symmetric.

(** The elastic channel never throws for positive parametrisations. *)
Theorem elastic_defined : forall env a b n m, (forall p, (0 < sigma env p)%R) -> In n Ns -> either a b n m ->
  (In m Pis -> exists v, el_value env npi_el_table a b = Ok v /\ (0 < v)%R) /\
  (In m Ks -> exists v, el_value env nk_el_table a b = Ok v /\ (0 < v)%R).
Proof.
  intros env a b n m SG N E. 
  destruct (tables_symmetric conj (or_introl eq_refl)) as (_ & _ & _ & _ & Q1 & Q2 & _).
  assert (V : forall l, l <> [] -> forallb (fun t => 0 <? fst t) l = true -> (0 < value env l)%R).
  { clear - SG. induction l as [|[k p] l IH]; [congruence|]. intros _ H. cbn [forallb fst] in H.
    apply andb_true_iff in H. destruct H as [H1 H2]. apply Z.ltb_lt in H1.
    cbn [value fold_right fst snd]. apply IZR_lt in H1. fold (value env l).
    assert (0 < IZR k / 2 * sigma env p)%R by (apply Rmult_lt_0_compat; [lra|apply SG]).
    destruct l as [|t l]; [cbn [value fold_right]; lra|].
    specialize (IH ltac:(discriminate) H2). lra. }
  assert (KP : forall t x y, pick is_nucleon a b = (x, y) ->
     (match elook t x y with [] => false | _ => true end && forallb (fun t => 0 <? fst t) (elook t x y)) = true ->
     exists v, el_value env t a b = Ok v /\ (0 < v)%R).
  { intros t x y P H. apply andb_true_iff in H. destruct H as [H1 H2].
    exists (value env (elook t x y)). unfold el_value. rewrite P.
    assert (0 < value env (elook t x y))%R by (apply V; [destruct (elook t x y); [discriminate|discriminate]|assumption]).
    destruct (Rlt_dec 0 (value env (elook t x y))); [now split|contradiction]. }
  split; intros M.
  - destruct (pick_chk_spec _ _ _ _ Q1 n m N M) as (K1 & _ & K3 & _).
    apply (KP _ n m); [destruct E as [[-> ->]|[-> ->]]; assumption|].
    clear - N M. unfold Ns, Pis in *. cbn [In] in N, M.
    repeat match goal with H : _ \/ _ |- _ => destruct H as [<-|H] | H : False |- _ => destruct H end; vm_compute; reflexivity.
  - destruct (pick_chk_spec _ _ _ _ Q2 n m N M) as (K1 & _ & K3 & _).
    apply (KP _ n m); [destruct E as [[-> ->]|[-> ->]]; assumption|].
    clear - N M. unfold Ns, Ks in *. cbn [In] in N, M.
    repeat match goal with H : _ \/ _ |- _ => destruct H as [<-|H] | H : False |- _ => destruct H end; vm_compute; reflexivity.
Qed.
Print Assumptions elastic_defined.

(** *** Facts about conjugation *)
Lemma ucode_anti w : ucode (get_antiparticle w) = ucode w.
Proof.
  unfold ucode, get_antiparticle. change (2 ^ 31) with (8 * 2 ^ 28).
  destruct (is_anti w).
  - replace (w - 8 * 2 ^ 28) with (w + (-8) * 2 ^ 28) by ring. now rewrite Z.mod_add.
  - now rewrite Z.mod_add.
Qed.
Lemma code_anti w : word w -> code (get_antiparticle w) = - code w.
Proof. intros W. unfold code. rewrite asign_anti, ucode_anti by assumption. lia. Qed.
Lemma digits_anti w : word w ->
  is_baryon (get_antiparticle w) = is_baryon w /\ is_meson (get_antiparticle w) = is_meson w /\
  is_hadron (get_antiparticle w) = is_hadron w /\ is_nucleus (get_antiparticle w) = is_nucleus w.
Proof.
  intros W. destruct (anti_fields w W) as (_ & _ & E3 & E2 & E1 & _ & _ & _ & _ & En & _).
  unfold is_baryon, is_meson, is_hadron, is_nucleus. now rewrite E3, E2, E1, En.
Qed.
Lemma has_anti_anti w : word w -> has_antiparticle (get_antiparticle w) = has_antiparticle w.
Proof.
  intros W. pose proof (baryon_number_anti w W) as B.
  destruct (digits_anti w W) as (_ & _ & H & N).
  destruct (anti_fields w W) as (_ & _ & E3 & E2 & _).
  unfold has_antiparticle. rewrite N, H, B, E3, E2.
  destruct (is_nucleus w); [reflexivity|]. destruct (is_hadron w); [|reflexivity].
  f_equal. f_equal. destruct (Z.eqb_spec (- baryon_number w) 0), (Z.eqb_spec (baryon_number w) 0); lia.
Qed.
Lemma conj_word w : word w -> word (conj w).
Proof. intros W. unfold conj. destruct (has_antiparticle w); [|assumption]. now apply (anti_fields w W). Qed.
Lemma conj_conj w : word w -> conj (conj w) = w.
Proof.
  intros W. unfold conj at 2. destruct (has_antiparticle w) eqn:E.
  - unfold conj. rewrite has_anti_anti, E by assumption. now apply antiparticle_involutive.
  - unfold conj. now rewrite E.
Qed.
Lemma conj_eqb w x : word w -> word x -> (conj w =? x) = (w =? conj x).
Proof.
  intros W X. destruct (Z.eqb_spec (conj w) x) as [<-|N].
  - now rewrite conj_conj, Z.eqb_refl.
  - destruct (Z.eqb_spec w (conj x)) as [->|]; [|reflexivity]. exfalso. apply N. now apply conj_conj.
Qed.
Lemma conj_eqb2 w x : word w -> word x -> (conj w =? conj x) = (w =? x).
Proof. intros W X. rewrite conj_eqb by (try apply conj_word; assumption). now rewrite conj_conj. Qed.
Lemma conj_classes w : word w ->
  is_baryon (conj w) = is_baryon w /\ is_meson (conj w) = is_meson w /\
  is_nucleon (conj w) = is_nucleon w /\ is_kaon (conj w) = is_kaon w.
Proof.
  intros W. unfold conj. destruct (has_antiparticle w); [|now splits].
  destruct (digits_anti w W) as (B & M & _). splits; auto.
  - unfold is_nucleon. now rewrite code_anti, Z.abs_opp.
  - unfold is_kaon. now rewrite code_anti, Z.abs_opp.
Qed.
Lemma conj_pion w : proper w -> is_pion (conj w) = is_pion w.
Proof.
  intros P. pose proof P as P0. destruct P0 as [W _]. unfold conj.
  destruct (has_antiparticle w) eqn:E; [|reflexivity].
  assert (K : forall v, proper v -> has_antiparticle v = true -> is_pion v = true -> is_pion (get_antiparticle v) = true).
  { intros v Pv Ev H. apply pion_words in H; [|assumption].
    destruct H as [<-|[<-|[<-|[]]]]; [reflexivity|discriminate Ev|reflexivity]. }
  destruct (is_pion w) eqn:F; [now apply K|].
  destruct (is_pion (get_antiparticle w)) eqn:G; [|reflexivity].
  exfalso. apply K in G; [|now apply proper_anti|now rewrite has_anti_anti].
  rewrite antiparticle_involutive in G by assumption. congruence.
Qed.
Lemma conj_baryon w : word w -> is_baryon w = true -> conj w = get_antiparticle w /\ asign (conj w) = - asign w.
Proof.
  intros W B. assert (E : conj w = get_antiparticle w).
  { unfold conj, has_antiparticle. destruct (is_baryon_B w B) as [Q N]. rewrite N, Q.
    pose proof B as B'. unfold is_baryon in B'. apply andb_true_iff in B'. destruct B' as [-> _].
    destruct (asign_cases w) as [-> | ->]; reflexivity. }
  split; [exact E|]. rewrite E. now apply asign_anti.
Qed.
Lemma kaon_words w : proper w -> is_kaon w = true -> In w Ks.
Proof.
  intros P H. unfold is_kaon in H. rewrite !orb_true_iff, !Z.eqb_eq in H.
  destruct H as [E|E]; (pose proof (fun C => code_word w _ P C E) as K; destruct (K ltac:(lia)) as [[-> S]|[-> S]];
    vm_compute; tauto).
Qed.
Lemma nucleon_words' w : proper w -> is_nucleon w = true -> In w Ns.
Proof. intros P H. destruct (nucleon_words w P H) as [[I _]|[I _]]; cbn in *; tauto. Qed.

(** C111: total cross sections and string probabilities are invariant under conjugation. *)
Theorem totals_conj : forall env cut aqm sp sq ms a b, proper a -> proper b ->
  (forall w, aqm (conj w) = aqm w) -> (forall w, ms (conj w) = ms w) ->
  parametrized_total env cut aqm (conj a) (conj b) = parametrized_total env cut aqm a b /\
  string_probability sp sq ms (conj a) (conj b) = string_probability sp sq ms a b.
Proof.
  intros env cut aqm sp sq ms a b PA PB HA HM.
  pose proof PA as WA. destruct WA as [WA _]. pose proof PB as WB. destruct WB as [WB _].
  destruct (conj_classes a WA) as (BA & MA & NA & KA). destruct (conj_classes b WB) as (BB & MB & NB & KB).
  pose proof (conj_pion a PA) as PIA. pose proof (conj_pion b PB) as PIB.
  assert (SG : is_baryon a && is_baryon b = true ->
     (asign (conj a) =? asign (conj b)) = (asign a =? asign b) /\
     (asign (conj a) =? - asign (conj b)) = (asign a =? - asign b)).
  { rewrite andb_true_iff. intros [E1 E2]. destruct (conj_baryon a WA E1) as [_ ->], (conj_baryon b WB E2) as [_ ->].
    destruct (asign_cases a) as [-> | ->], (asign_cases b) as [-> | ->]; now split. }
  split.
  - unfold parametrized_total. rewrite BA, BB, MA, MB, PIA, PIB, !HA, conj_eqb2 by assumption.
    destruct (is_baryon a && is_baryon b) eqn:E1.
    { destruct (SG eq_refl) as [-> _]. cbn [andb]. destruct (Rlt_dec cut (sqrts env)); [reflexivity|].
      apply andb_true_iff in E1. destruct E1 as [E1 E2].
      assert (X : forall w, is_baryon w = true -> is_meson w = false).
      { intros w. unfold is_baryon, is_meson. rewrite andb_true_iff, negb_true_iff.
        intros [H1 H2]. now rewrite H1, H2. }
      rewrite (X a E1), (X b E2). rewrite !andb_false_r. reflexivity. }
    cbn [andb].
    destruct ((is_baryon a && is_meson b) || (is_meson a && is_baryon b)).
    { assert (F : exists m n, proper m /\ proper n /\ pick_meson a b = (m, n) /\ pick_meson (conj a) (conj b) = (conj m, conj n)).
      { unfold pick_meson. rewrite MA. destruct (is_meson a); [exists a, b|exists b, a]; now splits. }
      destruct F as (m & n & Pm & Pn & -> & ->).
      pose proof Pm as Wm. destruct Wm as [Wm _]. pose proof Pn as Wn. destruct Wn as [Wn _].
      destruct (conj_classes m Wm) as (_ & _ & _ & ->). destruct (conj_classes n Wn) as (_ & _ & -> & _).
      rewrite (conj_pion m Pm).
      destruct (is_nucleon n) eqn:EN; [|now rewrite !andb_false_r].
      pose proof (nucleon_words' n Pn EN) as IN. rewrite !andb_true_r.
      destruct (is_kaon m) eqn:EK.
      - pose proof (kaon_words m Pm EK) as IK. clear - IN IK. unfold Ns, Ks in *. cbn [In] in IN, IK.
        repeat match goal with H : _ \/ _ |- _ => destruct H as [<-|H] | H : False |- _ => destruct H end; reflexivity.
      - destruct (is_pion m) eqn:EP; [|reflexivity].
        pose proof (pion_words m Pm EP) as IP. clear - IN IP. unfold Ns in *. cbn [In] in IN, IP.
        repeat match goal with H : _ \/ _ |- _ => destruct H as [<-|H] | H : False |- _ => destruct H end; reflexivity. }
    destruct (is_meson a && is_meson b); [|reflexivity].
    destruct (is_pion a && is_pion b) eqn:EP; [|reflexivity].
    apply andb_true_iff in EP. destruct EP as [EP1 EP2].
    pose proof (pion_words a PA EP1) as I1. pose proof (pion_words b PB EP2) as I2. clear - I1 I2. cbn [In] in I1, I2.
    repeat match goal with H : _ \/ _ |- _ => destruct H as [<-|H] | H : False |- _ => destruct H end; reflexivity.
  - unfold string_probability. destruct (s_switch sp); cbn [negb]; [|reflexivity].
    rewrite BA, BB, MA, MB, NA, NB, PIA, PIB, !HM.
    assert (NNB : forall w, proper w -> is_nucleon w = true -> is_baryon w = true).
    { intros w P H. apply nucleon_words' in H; [|assumption]. unfold Ns in H. cbn [In] in H.
      repeat match goal with H : _ \/ _ |- _ => destruct H as [<-|H] | H : False |- _ => destruct H end; reflexivity. }
    replace (is_nucleon a && (conj b =? get_antiparticle (conj a)))
      with (is_nucleon a && (b =? get_antiparticle a)).
    2:{ destruct (is_nucleon a) eqn:E; [cbn [andb]|reflexivity].
        destruct (conj_baryon a WA (NNB a PA E)) as [-> _]. rewrite antiparticle_involutive by assumption.
        rewrite conj_eqb by assumption. now destruct (conj_baryon a WA (NNB a PA E)) as [-> _]. }
    assert (NN : is_nucleon a && is_nucleon b = true -> is_baryon a && is_baryon b = true).
    { rewrite !andb_true_iff. intros [E1 E2]. split; now apply NNB. }
    replace (is_KplusP (conj a) (conj b)) with (is_KplusP a b).
    2:{ unfold is_KplusP. rewrite !conj_eqb by (try assumption; unfold word; vm_compute; split; congruence).
        change (conj w_Kp) with w_Km. change (conj w_Kz) with w_Kbz. change (conj w_Km) with w_Kp.
        change (conj w_Kbz) with w_Kz. change (conj w_p) with (anti w_p). change (conj (anti w_p)) with w_p.
        destruct (_ && (b =? w_p)), (_ && (a =? w_p)), (_ && (b =? anti w_p)), (_ && (a =? anti w_p)); reflexivity. }
    destruct (is_nucleon a && is_nucleon b) eqn:E2.
    + rewrite (NN eq_refl) in *. destruct (SG eq_refl) as [-> ->]. reflexivity.
    + destruct (is_baryon a && is_baryon b); [destruct (SG eq_refl) as [-> ->]; reflexivity|reflexivity].
Qed.
Print Assumptions totals_conj.
Example totals_conj_applies : proper w_pip /\ proper w_p /\ conj w_pip = w_pim /\ conj w_p = anti w_p /\ conj w_piz = w_piz.
Proof. splits; try reflexivity; now apply properb_spec. Qed.

(** The high-energy total is not invariant: pi+ p and pi- n use the pi+ p fit, their
    conjugates pi- pbar and pi+ nbar fall through to the pi- p fit. *)
Theorem high_energy_conj_refuted : exists env probh aqm a b, proper a /\ proper b /\
  (forall w, aqm (conj w) = aqm w) /\
  high_energy env probh aqm (conj a) (conj b) <> high_energy env probh aqm a b.
Proof.
  exists (XEnv 10 1 (fun p => match p with PipP_he => 25%R | _ => 26%R end) (fun _ => 1%R) (fun _ => 1%R)
    (fun _ => 1%R) (fun _ _ => true) (fun _ _ _ _ => 1%R)), 1%R, (fun _ => 1%R), w_pip, w_p.
  splits; try (now apply properb_spec); [reflexivity|].
  change (26 * (1 * 1) <> 25 * (1 * 1))%R. lra.
Qed.
Print Assumptions high_energy_conj_refuted.

(** The transition to strings is not mirror symmetric: the energy offset for kaons is used
    for K+ p and K0 p, the mirror images K0 n and K+ n have the ordinary one. *)
Theorem string_mirror_refuted : exists sp sq ms a b, In a Ks /\ In b Ns /\
  (forall w, ms (mirror w) = ms w) /\
  string_probability sp sq ms (mirror a) (mirror b) <> string_probability sp sq ms a b.
Proof.
  exists (StrPar true false true true 1%R 15%R 1%R 1%R (1%R, 2%R) (1%R, 2%R)), 10%R, (fun _ => 1%R), w_Kp, w_p.
  splits; [now left|now left|reflexivity|].
  change (Ok (if Rlt_dec (1 + 1 + 1) 10 then 1%R else 0%R) <> Ok (if Rlt_dec (1 + 1 + 15) 10 then 1%R else 0%R)).
  destruct (Rlt_dec (1 + 1 + 1) 10); [|lra]. destruct (Rlt_dec (1 + 1 + 15) 10); [lra|].
  intros H. assert (1 = 0)%R by congruence. lra.
Qed.
Print Assumptions string_mirror_refuted.
