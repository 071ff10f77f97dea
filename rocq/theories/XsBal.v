(** C112, C113: detailed balance and totals of the binary reaction channels. *)
From Coq Require Import ZArith List Bool Lia Permutation Reals Lra.
From Verif Require Import Base PdgModel PdgProofs MultiModel XsModel XsProps XsSym.
Import ListNotations.
Open Scope Z_scope.
Open Scope bool_scope.

(** * Detailed balance *)

(** for every entry of the group [g] of the first table the second has the reverse entry *)
Definition terms_dec (x y : list (Z * par)) : {x = y} + {x <> y}.
Proof. apply list_eq_dec. decide equality; [apply par_dec|apply Z.eq_dec]. Defined.
Definition grp_eqb (g h : grp) : bool :=
  match g, h with AL, AL | SE, SE | KN, KN | KD, KD => true | _, _ => false end.
Lemma grp_eqb_spec g h : grp_eqb g h = true -> g = h.
Proof. destruct g, h; cbn; congruence. Qed.
Definition has_entry (g : grp) (ts : list (Z * par)) (o1 o2 : pdg) (l : list entry) : bool :=
  existsb (fun e => grp_eqb (e_grp e) g && (if terms_dec (e_terms e) ts then true else false)
                    && (e_out1 e =? o1) && (e_out2 e =? o2)) l.
Lemma has_entry_spec g ts o1 o2 l : has_entry g ts o1 o2 l = true -> In (Entry g ts o1 o2) l.
Proof.
  intros H. apply existsb_exists in H. destruct H as ([g' ts' a b] & I & H). cbn [e_grp e_terms e_out1 e_out2] in H.
  rewrite !andb_true_iff, !Z.eqb_eq in H. destruct H as [[[H1 H2] ->] ->]. apply grp_eqb_spec in H1.
  destruct (terms_dec ts' ts) as [->|]; [|discriminate]. now subst.
Qed.
Lemma lookup_test (P : entry -> bool) t : forallb (fun r => forallb P (snd r)) t = true ->
  forall x y e, In e (lookup t x y) -> P e = true.
Proof. intros H x y e I. exact (lookup_all (fun _ _ => P) t H x y e I). Qed.
Definition rev_chk (t1 t2 : list ((pdg * pdg) * list entry)) (g h : grp) : bool :=
  forallb (fun r => let '((k, n), l) := r in
    forallb (fun e => negb (grp_eqb (e_grp e) g) ||
      has_entry h (e_terms e) n k (lookup t2 (e_out2 e) (e_out1 e))) l) t1.
Lemma lookup_in t x y e : In e (lookup t x y) -> exists l, In ((x, y), l) t /\ In e l.
Proof.
  induction t as [|[[a b] l] t IH]; cbn [lookup]; [intros []|].
  destruct ((a =? x) && (b =? y)) eqn:E.
  - apply andb_true_iff in E. rewrite !Z.eqb_eq in E. destruct E as [-> ->]. intros I. exists l. split; [now left|assumption].
  - intros I. destruct (IH I) as (l' & I1 & I2). exists l'. split; [now right|assumption].
Qed.
Lemma rev_chk_spec t1 t2 g h : rev_chk t1 t2 g h = true ->
  forall k n ts o1 o2, In (Entry g ts o1 o2) (lookup t1 k n) -> In (Entry h ts n k) (lookup t2 o2 o1).
Proof.
  intros H k n ts o1 o2 I. destruct (lookup_in _ _ _ _ I) as (l & I1 & I2).
  unfold rev_chk in H. rewrite forallb_forall in H. specialize (H _ I1). cbn beta iota in H.
  rewrite forallb_forall in H. specialize (H _ I2). cbn [e_grp e_terms e_out1 e_out2] in H.
  replace (grp_eqb g g) with true in H by (destruct g; reflexivity). now apply has_entry_spec.
Qed.
Lemma tables_reverse :
  rev_chk nk_table ypi_table SE AL = true /\ rev_chk ypi_table nk_table AL SE = true /\
  rev_chk nk_table deltak_table KD AL = true /\ rev_chk deltak_table nk_table AL KD = true.
Proof. splits; vm_compute; reflexivity. Qed.

Lemma collect_member f l r : collect f l = Ok r -> forall e x c, In e l -> f e = Ok x -> In c x -> In c r.
Proof.
  revert r. induction l as [|e0 l IH]; cbn [collect]; intros r H e x c I E C; [destruct I|].
  destruct (f e0) as [x0| |] eqn:E0; cbn [rbind] in H; try discriminate.
  destruct (collect f l) as [y| |]; cbn [rbind] in H; try discriminate.
  injection H as <-. apply in_or_app. destruct I as [->|I].
  - left. rewrite E in E0. now injection E0 as <-.
  - right. now apply (IH y eq_refl e x).
Qed.
Lemma add_channel_in env v w o1 o2 : v = Ok w -> above env o1 o2 = true -> (really_small < w)%R ->
  add_channel env v o1 o2 = Ok [XCh [o1; o2] w].
Proof.
  intros -> A L. unfold add_channel. rewrite A. cbn [rbind].
  destruct (Rlt_dec really_small w); [reflexivity|contradiction].
Qed.

Local Open Scope R_scope.

(** Degeneracy times squared momentum: the flux factor of a pair of stable species *)
Definition phase (env : xenv) (a b : pdg) : R :=
  sdegR env a * sdegR env b * pcm2 (sqrts env ^ 2) (mass env a) (mass env b).

Lemma same_neq a b : (a =? b)%Z = false -> same a b = 0.
Proof. unfold same. now intros ->. Qed.

Lemma distinct_chk :
  forallb (fun n => forallb (fun k => negb (n =? k)) Ks) Ns = true /\
  forallb (fun y => forallb (fun p => negb (y =? p)) Pis) Ys = true /\
  forallb (fun d => forallb (fun k => negb (d =? k)) Ks) Ds = true.
Proof. splits; vm_compute; reflexivity. Qed.
Lemma distinct_spec xs ys : forallb (fun x => forallb (fun y => negb (x =? y)%Z) ys) xs = true ->
  forall x y, In x xs -> In y ys -> same x y = 0.
Proof.
  rewrite forallb_forall. intros H x y X Y. specialize (H x X). rewrite forallb_forall in H.
  specialize (H y Y). apply same_neq. now apply negb_true_iff.
Qed.

(** C112: Kbar N <-> pi Y.  A channel offered in one direction with weight w has in the
    other direction the weight w' with w' * phase(out) = w * phase(in): it is offered
    there with exactly this weight, unless it is below threshold or tiny. *)
Theorem strangeness_exchange_balance : forall env i koff n k p y l l',
  In n Ns -> In k Ks -> In p Pis -> In y Ys -> i_SE i = true ->
  phase env n k <> 0 -> phase env y p <> 0 ->
  nk_xx env i koff n k = Ok l -> ypi_xx env i y p = Ok l' ->
  (forall w, In (XCh [p; y] w) l -> exists w', w' * phase env y p = w * phase env n k /\
     (above env n k = true -> really_small < w' -> In (XCh [n; k] w') l')) /\
  (forall w', In (XCh [n; k] w') l' -> exists w, w' * phase env y p = w * phase env n k /\
     (above env p y = true -> really_small < w -> In (XCh [p; y] w) l)).
Proof.
  intros env i koff n k p y l l' N K P Y SEon H1 H2 L L'.
  destruct tables_reverse as (T1 & T2 & _).
  destruct distinct_chk as (D1 & D2 & _).
  pose proof (distinct_spec _ _ D1 n k N K) as Dnk. pose proof (distinct_spec _ _ D2 y p Y P) as Dyp.
  destruct (tables_symmetric conj (or_introl eq_refl)) as (_ & _ & _ & _ & _ & Q2 & _ & Q4).
  destruct (pick_chk_spec _ _ _ _ Q2 n k N K) as (E1 & _). destruct (pick_chk_spec _ _ _ _ Q4 y p Y P) as (E2 & _).
  unfold nk_xx in L. rewrite E1 in L. unfold ypi_xx in L'. rewrite E2, SEon in L'.
  assert (PX : forall v, (db_stable env y p n k * v) * phase env y p = v * phase env n k).
  { intros v. unfold db_stable, phase in *. rewrite Dnk, Dyp.
    set (A := pcm2 _ (mass env n) (mass env k)) in *. set (B := pcm2 _ (mass env y) (mass env p)) in *.
    field. splits; intro Z; apply H2; rewrite Z; ring. }
  split.
  - intros w I. destruct (collect_in _ _ _ L _ I) as (e & x & Ie & F & C).
    destruct (nk_on env i koff n k (e_grp e)); [|injection F as <-; destruct C].
    destruct (add_channel_out _ _ _ _ _ _ F C) as (O & V & _ & _). cbn [x_out x_w] in O, V.
    destruct e as [g ts o1 o2]. cbn [e_grp e_terms e_out1 e_out2] in *.
    injection O as <- <-.
    assert (G : g = SE).
    { clear - P Ie.
      assert (X := lookup_test (fun e => negb (existsb (fun p => (p =? e_out1 e)%Z) Pis) || grp_eqb (e_grp e) SE)
                     nk_table ltac:(vm_compute; reflexivity) _ _ _ Ie).
      cbn [e_out1 e_grp] in X. apply orb_true_iff in X. destruct X as [X|X]; [|now apply grp_eqb_spec].
      apply negb_true_iff in X. exfalso. rewrite <- not_true_iff_false in X. apply X.
      apply existsb_exists. exists p. split; [exact P|apply Z.eqb_refl]. }
    subst g. unfold nk_value in V. cbn [e_grp] in V. injection V as V.
    exists (db_stable env y p n k * w). split; [apply PX|]. intros A S.
    pose proof (rev_chk_spec _ _ _ _ T1 _ _ _ _ _ Ie) as J.
    refine (collect_member _ _ _ L' _ [_] _ J _ (or_introl eq_refl)).
    cbn [e_out1 e_out2]. apply add_channel_in; auto.
    unfold ypi_value. cbn [e_out1 e_out2 e_terms]. cbn [e_terms] in V. now rewrite V.
  - intros w' I. destruct (collect_in _ _ _ L' _ I) as (e & x & Ie & F & C).
    destruct (add_channel_out _ _ _ _ _ _ F C) as (O & V & _ & _). cbn [x_out x_w] in O, V.
    destruct e as [g ts o1 o2]. cbn [e_grp e_terms e_out1 e_out2] in *. injection O as <- <-.
    assert (G : g = AL).
    { clear - Ie.
      assert (X := lookup_test (fun e => grp_eqb (e_grp e) AL) ypi_table ltac:(vm_compute; reflexivity) _ _ _ Ie).
      now apply grp_eqb_spec. }
    subst g. unfold ypi_value in V. cbn [e_terms e_out1 e_out2] in V. injection V as V.
    exists (value env ts). split; [rewrite <- V; apply PX|]. intros A S.
    pose proof (rev_chk_spec _ _ _ _ T2 _ _ _ _ _ Ie) as J.
    refine (collect_member _ _ _ L _ [_] _ J _ (or_introl eq_refl)).
    cbn [e_grp nk_on e_out1 e_out2]. rewrite SEon. now apply add_channel_in.
Qed.
Print Assumptions strangeness_exchange_balance.

(** K N <-> K Delta, below the cutoff energy of the forward reaction; the phase space of the
    resonance is its integral over the mass *)
Definition phase_R (env : xenv) (d k : pdg) : R := sdegR env d * sdegR env k * (pcm env * intRK env d).

Lemma nk_KD k n e : In e (lookup nk_table k n) -> existsb (fun d => (d =? e_out2 e)%Z) Ds = true -> e_grp e = KD.
Proof.
  intros I E.
  assert (X := lookup_test (fun e => negb (existsb (fun d => (d =? e_out2 e)%Z) Ds) || grp_eqb (e_grp e) KD)
                 nk_table ltac:(vm_compute; reflexivity) _ _ _ I).
  cbn beta in X. rewrite E in X. now apply grp_eqb_spec.
Qed.
Lemma deltak_AL k n e : In e (lookup deltak_table k n) -> e_grp e = AL.
Proof.
  intros I.
  assert (X := lookup_test (fun e => grp_eqb (e_grp e) AL) deltak_table ltac:(vm_compute; reflexivity) _ _ _ I).
  now apply grp_eqb_spec.
Qed.

Theorem kaon_delta_balance_partial : forall env i koff n k kk d l l',
  In n Ns -> In k Ks -> In kk Ks -> In d Ds -> i_KD i = true ->
  sqrts env < koff + mass env n + mass env k ->
  phase_R env d kk <> 0 -> phase env n k <> 0 ->
  nk_xx env i koff n k = Ok l -> deltak_xx env i d kk = Ok l' ->
  (forall w, In (XCh [kk; d] w) l -> exists w', w' * phase_R env d kk = w * phase env n k /\
     (above env n k = true -> really_small < w' -> In (XCh [n; k] w') l')) /\
  (forall w', In (XCh [n; k] w') l' -> exists w, w' * phase_R env d kk = w * phase env n k /\
     (above env kk d = true -> really_small < w -> In (XCh [kk; d] w) l)).
Proof.
  intros env i koff n k kk d l l' N K KK D KDon CUT H2 H1 L L'.
  destruct tables_reverse as (_ & _ & T1 & T2).
  destruct distinct_chk as (D1 & _ & D2).
  pose proof (distinct_spec _ _ D1 n k N K) as Dnk. pose proof (distinct_spec _ _ D2 d kk D KK) as Ddk.
  destruct (tables_symmetric conj (or_introl eq_refl)) as (_ & _ & _ & _ & _ & Q2 & Q3 & _).
  destruct (pick_chk_spec _ _ _ _ Q2 n k N K) as (E1 & _). destruct (pick_chk_spec _ _ _ _ Q3 d kk D KK) as (E2 & _).
  unfold nk_xx in L. rewrite E1 in L. unfold deltak_xx in L'. rewrite E2, KDon in L'.
  assert (ON : nk_on env i koff n k KD = true).
  { unfold nk_on. rewrite KDon. destruct (Rlt_dec _ _); [reflexivity|contradiction]. }
  assert (PX : forall v r, (db_RK env d kk n k * r * v) * phase_R env d kk = v * r * phase env n k).
  { intros v r. unfold db_RK, phase, phase_R in *. rewrite Dnk, Ddk.
    set (A := pcm2 _ (mass env n) (mass env k)) in *.
    field. splits; intro Z; apply H2; rewrite Z; ring. }
  split.
  - intros w I. destruct (collect_in _ _ _ L _ I) as (e & x & Ie & F & C).
    destruct (nk_on env i koff n k (e_grp e)); [|injection F as <-; destruct C].
    destruct (add_channel_out _ _ _ _ _ _ F C) as (O & V & _ & _). cbn [x_out x_w] in O, V.
    assert (G : e_grp e = KD).
    { apply (nk_KD k n e Ie). injection O as _ <-. apply existsb_exists. exists d. split; [exact D|apply Z.eqb_refl]. }
    destruct e as [g ts o1 o2]. cbn [e_grp e_terms e_out1 e_out2] in *. injection O as <- <-. subst g.
    unfold nk_value in V. cbn [e_grp e_terms e_out1 e_out2] in V.
    destruct (get_ratio env n k kk d) as [r| |] eqn:ER; cbn [rbind] in V; try discriminate. injection V as V.
    exists (db_RK env d kk n k * r * value env ts). split; [rewrite PX, V; reflexivity|]. intros A S.
    pose proof (rev_chk_spec _ _ _ _ T1 _ _ _ _ _ Ie) as J.
    refine (collect_member _ _ _ L' _ [_] _ J _ (or_introl eq_refl)).
    cbn [e_out1 e_out2]. apply add_channel_in; auto.
    unfold deltak_value. cbn [e_out1 e_out2 e_terms]. rewrite ER. reflexivity.
  - intros w' I. destruct (collect_in _ _ _ L' _ I) as (e & x & Ie & F & C).
    destruct (add_channel_out _ _ _ _ _ _ F C) as (O & V & _ & _). cbn [x_out x_w] in O, V.
    pose proof (deltak_AL _ _ _ Ie) as G.
    destruct e as [g ts o1 o2]. cbn [e_grp e_terms e_out1 e_out2] in *. injection O as <- <-. subst g.
    unfold deltak_value in V. cbn [e_terms e_out1 e_out2] in V.
    destruct (get_ratio env n k kk d) as [r| |] eqn:ER; cbn [rbind] in V; try discriminate. injection V as V.
    exists (value env ts * r). split; [rewrite <- V; apply PX|]. intros A S.
    pose proof (rev_chk_spec _ _ _ _ T2 _ _ _ _ _ Ie) as J.
    refine (collect_member _ _ _ L _ [_] _ J _ (or_introl eq_refl)).
    cbn [e_grp e_out1 e_out2]. rewrite ON. apply add_channel_in; auto.
    unfold nk_value. cbn [e_grp e_terms e_out1 e_out2]. rewrite ER. reflexivity.
Qed.
Print Assumptions kaon_delta_balance_partial.

(** Above the cutoff only the inverse reaction K Delta -> K N is left: detailed balance is
    broken whatever the value of the cutoff. *)
Theorem kaon_delta_cutoff_refuted : forall koff, 0 < koff ->
  exists env i n k kk d l l' w', In n Ns /\ In k Ks /\ In kk Ks /\ In d Ds /\
    phase_R env d kk <> 0 /\ phase env n k <> 0 /\ (forall a b, above env a b = true) /\
    nk_xx env i koff n k = Ok l /\ deltak_xx env i d kk = Ok l' /\
    In (XCh [n; k] w') l' /\ really_small < w' /\ (forall w, ~ In (XCh [kk; d] w) l).
Proof.
  intros koff HK.
  set (env := XEnv (koff + 3) 1 (fun _ => 4) (fun _ => 1) (fun _ => 1) (fun _ => 1) (fun _ _ => true) (fun _ _ _ _ => 1)).
  set (i := Incl true true true).
  assert (PC : pcm2 ((koff + 3) ^ 2) 1 1 = (koff + 3) ^ 2 / 4 - 1) by (unfold pcm2; field; lra).
  assert (PB : 1 < (koff + 3) ^ 2 / 4 - 1) by nra.
  destruct (meson_baryon_never_throws env i koff w_p w_Kp) as (_ & l & _ & _ & _ & L & _ & _).
  destruct (meson_baryon_never_throws env i koff w_Dp w_Kp) as (_ & _ & l' & _ & _ & _ & L' & _).
  exists env, i, w_p, w_Kp, w_Kp, w_Dp, l, l'.
  set (w' := db_RK env w_Dp w_Kp w_p w_Kp * (1 / (1 + 1)) * (IZR 2 / 2 * 4 + 0)).
  assert (W : 1 < w').
  { unfold w', db_RK. cbn [sdegR pcm intRK env sqrts mass]. rewrite PC.
    change (same w_Dp w_Kp) with 0. change (same w_p w_Kp) with 0.
    set (q := (koff + 3) ^ 2 / 4 - 1) in *. clearbody q. replace (_ * _ * _) with (2 * q) by field. lra. }
  exists w'.
  assert (RS : really_small < w') by (apply Rlt_trans with 1; [apply really_small_lt|]; lra).
  splits; auto.
  - now left.
  - now left.
  - now left.
  - right. now left.
  - unfold phase_R. cbn. lra.
  - unfold phase. cbn [sdegR env sqrts mass]. rewrite PC. lra.
  - unfold deltak_xx in L'. change (i_KD i) with true in L'. cbv iota in L'.
    change (pick is_Delta w_Dp w_Kp) with (w_Dp, w_Kp) in L'. cbv iota beta in L'.
    change (lookup deltak_table w_Dp w_Kp) with [Entry AL [(2, KpP_inel)]%Z w_p w_Kp] in L'.
    refine (collect_member _ _ _ L' _ [_] _ (or_introl eq_refl) _ (or_introl eq_refl)).
    cbn [e_out1 e_out2]. apply add_channel_in; auto.
  - intros w I. unfold nk_xx in L. change (pick is_nucleon w_p w_Kp) with (w_p, w_Kp) in L. cbv iota beta in L.
    destruct (collect_in _ _ _ L _ I) as (e & x & Ie & F & C).
    change (lookup nk_table w_Kp w_p) with
      [Entry KD [(2, KpP_inel)] w_Kz w_Dpp; Entry KD [(2, KpP_inel)] w_Kp w_Dp]%Z in Ie.
    assert (OFF : nk_on env i koff w_p w_Kp KD = false).
    { unfold nk_on. cbn [env mass sqrts]. destruct (Rlt_dec _ _); [lra|now rewrite andb_false_r]. }
    destruct Ie as [<-|[<-|[]]]; cbn [e_grp] in F; rewrite OFF in F; injection F as <-; destruct C.
Qed.
Print Assumptions kaon_delta_cutoff_refuted.

(** Charge exchange has the same cross section in both directions. *)
Lemma lookup_kn : forallb (fun r => let '((k, n), l) := r in
    forallb (fun e => negb (grp_eqb (e_grp e) KN) ||
      has_entry KN (e_terms e) k n (lookup nk_table (e_out1 e) (e_out2 e))) l) nk_table = true.
Proof. vm_compute. reflexivity. Qed.
Theorem charge_exchange_reversible : forall env i koff n k n' k' l l' w,
  In n Ns -> In k Ks -> In n' Ns -> In k' Ks ->
  nk_xx env i koff n k = Ok l -> nk_xx env i koff n' k' = Ok l' -> above env k n = true ->
  In (XCh [k'; n'] w) l -> In (XCh [k; n] w) l'.
Proof.
  intros env i koff n k n' k' l l' w N K N' K' L L' A I.
  destruct (tables_symmetric conj (or_introl eq_refl)) as (_ & _ & _ & _ & _ & Q2 & _ & _).
  destruct (pick_chk_spec _ _ _ _ Q2 n k N K) as (E1 & _). destruct (pick_chk_spec _ _ _ _ Q2 n' k' N' K') as (E2 & _).
  unfold nk_xx in L, L'. rewrite E1 in L. rewrite E2 in L'.
  destruct (collect_in _ _ _ L _ I) as (e & x & Ie & F & C).
  destruct (nk_on env i koff n k (e_grp e)) eqn:ON; [|injection F as <-; destruct C].
  destruct (add_channel_out _ _ _ _ _ _ F C) as (O & V & RS & _). cbn [x_out x_w] in O, V, RS.
  assert (G : e_grp e = KN).
  { assert (X := lookup_test (fun e => negb (existsb (fun d => (d =? e_out2 e)%Z) Ns) || grp_eqb (e_grp e) KN)
                   nk_table ltac:(vm_compute; reflexivity) _ _ _ Ie).
    cbn beta in X. injection O as _ O.
    replace (existsb (fun d => (d =? e_out2 e)%Z) Ns) with true in X; [now apply grp_eqb_spec|].
    symmetry. apply existsb_exists. exists n'. split; [exact N'|]. rewrite O. apply Z.eqb_refl. }
  destruct e as [g ts o1 o2]. cbn [e_grp e_terms e_out1 e_out2] in *. injection O as <- <-. subst g.
  destruct (lookup_in _ _ _ _ Ie) as (row & R1 & R2).
  pose proof lookup_kn as T. rewrite forallb_forall in T. specialize (T _ R1). cbn beta iota in T.
  rewrite forallb_forall in T. specialize (T _ R2). cbn [e_grp grp_eqb negb orb e_terms e_out1 e_out2] in T.
  apply has_entry_spec in T.
  refine (collect_member _ _ _ L' _ [_] _ T _ (or_introl eq_refl)).
  cbn [e_grp nk_on e_out1 e_out2] in *. rewrite ON. apply add_channel_in; auto.
Qed.
Print Assumptions charge_exchange_reversible.

(** N N <-> baryon baryon (or deuteron pion): same total isospin I.  [K] is the phase space
    of the produced pair, [pf] the momentum of the nucleons; [e] and [e'] describe the
    collision before and after, at the same energy. *)
Theorem nucleon_resonance_balance : forall e e' a b r1 r2 I pf,
  sqrts (base e') = sqrts (base e) -> (forall w, sdegR (base e') w = sdegR (base e) w) ->
  (forall w, mult e' w = mult e w) ->
  matrix_element e' r1 r2 I = matrix_element e r1 r2 I ->
  cg2I e' r1 r2 a b I = cg2I e a b r1 r2 I ->
  pcm (base e) = pf -> pf <> 0 -> pcm (base e') <> 0 -> sqrts (base e) <> 0 ->
  let sym x y := if (mult e x =? mult e y)%Z then 2 else 1 in
  absorb_xs e' r1 r2 a b I pf * (sdegR (base e) r1 * sdegR (base e) r2 * (pcm (base e') * integral e r1 r2)) * sym a b
  = nn_xs e a b r1 r2 I * (sdegR (base e) a * sdegR (base e) b * pf ^ 2) * sym r1 r2.
Proof.
  intros e e' a b r1 r2 I pf HS HD HM HX HC HP P0 P1 S0 sym. unfold absorb_xs, nn_xs, sym.
  rewrite HC, HS, !HD, !HM, HX, HP.
  destruct (mult e a =? mult e b)%Z, (mult e r1 =? mult e r2)%Z; field; auto.
Qed.
Print Assumptions nucleon_resonance_balance.

(** The hypotheses of the theorems on balance can be met by channels which exist. *)
Definition demo_env : xenv :=
  XEnv 4 1 (fun _ => 4) (fun _ => 1) (fun _ => 1) (fun _ => 1) (fun _ _ => true) (fun _ _ _ _ => 1).
Example balance_applies :
  phase demo_env w_p w_Km = 3 /\ phase demo_env w_Sp w_pim = 3 /\ phase_R demo_env w_Dp w_Kp = 1 /\
  (exists l, nk_xx demo_env (Incl true true true) 5 w_p w_Km = Ok l /\
     In (XCh [w_pim; w_Sp] 4) l /\ In (XCh [w_Kbz; w_n] 4) l) /\
  (exists l, nk_xx demo_env (Incl true true true) 5 w_p w_Kp = Ok l /\ In (XCh [w_Kp; w_Dp] 2) l).
Proof.
  assert (RS : forall x, 1 <= x -> really_small < x) by (intros; now apply really_small_lt).
  splits.
  - unfold phase, demo_env, pcm2. cbn [sdegR sqrts mass]. field.
  - unfold phase, demo_env, pcm2. cbn [sdegR sqrts mass]. field.
  - unfold phase_R, demo_env. cbn [sdegR pcm intRK]. ring.
  - destruct (meson_baryon_never_throws demo_env (Incl true true true) 5 w_p w_Km) as (_ & l & _ & _ & _ & L & _ & _).
    exists l. splits; [exact L| |]; unfold nk_xx in L; change (pick is_nucleon w_p w_Km) with (w_p, w_Km) in L;
      cbv iota beta in L.
    + refine (collect_member _ _ _ L (Entry SE [(2%Z, KmP_PimSp)] w_pim w_Sp) [_] _ _ _ (or_introl eq_refl)).
      * left. reflexivity.
      * cbn [e_grp nk_on i_SE e_out1 e_out2]. apply add_channel_in; [|reflexivity|apply RS; lra].
        unfold nk_value, value. cbn [e_grp e_terms fold_right fst snd demo_env sigma]. f_equal. field.
    + refine (collect_member _ _ _ L (Entry KN [(2%Z, KmP_KbzN)] w_Kbz w_n) [_] _ _ _ (or_introl eq_refl)).
      * do 4 right. left. reflexivity.
      * cbn [e_grp nk_on i_KN e_out1 e_out2]. apply add_channel_in; [|reflexivity|apply RS; lra].
        unfold nk_value, value. cbn [e_grp e_terms fold_right fst snd demo_env sigma]. f_equal. field.
  - destruct (meson_baryon_never_throws demo_env (Incl true true true) 5 w_p w_Kp) as (_ & l & _ & _ & _ & L & _ & _).
    exists l. split; [exact L|]. unfold nk_xx in L. change (pick is_nucleon w_p w_Kp) with (w_p, w_Kp) in L.
    cbv iota beta in L.
    refine (collect_member _ _ _ L (Entry KD [(2%Z, KpP_inel)] w_Kp w_Dp) [_] _ _ _ (or_introl eq_refl)).
    + right. left. reflexivity.
    + assert (ON : nk_on demo_env (Incl true true true) 5 w_p w_Kp KD = true).
      { unfold nk_on. cbn [i_KD demo_env sqrts mass]. destruct (Rlt_dec _ _); [reflexivity|lra]. }
      cbn [e_grp e_out1 e_out2]. rewrite ON. apply add_channel_in; [|reflexivity|apply RS; lra].
      unfold nk_value. cbn [e_grp e_out1 e_out2]. rewrite get_ratio_idx.
      change (ratio_idx w_p w_Kp w_Kp w_Dp) with (Some (w_p, w_Kp, w_Kp, w_Dp, w_Kz, w_Dpp)).
      cbn [rbind sev demo_env cg2]. unfold value. cbn [e_terms fold_right fst snd demo_env sigma]. f_equal. field.
Qed.

(** * C113: totals *)

(** The sub-processes of a string excitation have non-negative cross sections which add up
    to the cross section to be distributed. *)
Theorem string_excitation_total : forall tot can_ann ann_param ax xb dd hard,
  0 < tot -> 0 <= ann_param -> 0 <= ax -> 0 <= xb -> 0 < ax + xb -> 0 <= dd -> 0 <= hard ->
  exists l, string_excitation tot can_ann ann_param ax xb dd hard = Ok l /\
    rsum (map snd l) = tot /\ Forall (fun x => 0 <= snd x) l.
Proof.
  intros tot can_ann ann_param ax xb dd hard T A X1 X2 S D H. unfold string_excitation.
  destruct (Rle_dec tot 0); [lra|].
  destruct (Req_EM_T (ax + xb) 0); [lra|].
  set (ann := if can_ann then Rmin tot ann_param else 0).
  assert (AN : 0 <= ann <= tot).
  { unfold ann. destruct can_ann; [|lra]. split; [apply Rmin_glb; lra|apply Rmin_l]. }
  assert (AC : can_ann = false -> ann = 0) by (unfold ann; intros ->; reflexivity).
  clearbody ann. cbv zeta.
  set (nd := Rmax 0 (tot - ann - (ax + xb + dd))).
  assert (ND : 0 <= nd /\ nd <= tot - ann).
  { unfold nd. split; [apply Rmax_l|apply Rmax_lub; lra]. }
  clearbody nd. set (diff := tot - ann - nd). assert (DF : 0 <= diff) by (unfold diff; lra).
  set (dd' := Rmax 0 (diff - (ax + xb))).
  assert (DD : 0 <= dd' <= diff) by (unfold dd'; split; [apply Rmax_l|apply Rmax_lub; lra]).
  clearbody dd'. set (r := (diff - dd') / (ax + xb)).
  assert (RR : 0 <= r). { unfold r. apply Rmult_le_pos; [lra|]. left. now apply Rinv_0_lt_compat. }
  assert (RE : ax * r + xb * r = diff - dd') by (unfold r; field; lra).
  clearbody r.
  set (soft := if Rlt_dec 0 nd then nd * exp (- hard / nd) else 0).
  set (hd := if Rlt_dec 0 nd then nd - soft else 0).
  assert (SH : 0 <= soft /\ 0 <= hd /\ soft + hd = nd /\ hd < tot).
  { unfold hd. unfold soft. destruct (Rlt_dec 0 nd) as [P|P].
    - pose proof (exp_pos (- hard / nd)) as E0.
      assert (E1 : exp (- hard / nd) <= 1).
      { rewrite <- exp_0. destruct (Req_dec hard 0) as [->|]; [right; f_equal; field; lra|].
        left. apply exp_increasing. unfold Rdiv. assert (0 < / nd) by now apply Rinv_0_lt_compat. nra. }
      assert (0 < nd * exp (- hard / nd) <= nd) by nra. lra.
    - lra. }
  destruct SH as (S1 & S2 & S3 & S4). clearbody soft hd.
  destruct (Rlt_dec 0 (tot - hd)); [|lra].
  eexists. split; [reflexivity|].
  assert (AR : 0 <= ax * r) by (apply Rmult_le_pos; assumption).
  assert (XR : 0 <= xb * r) by (apply Rmult_le_pos; assumption).
  split.
  - destruct can_ann; [|rewrite (AC eq_refl) in *]; destruct (Rlt_dec 0 hd); cbn [app map snd rsum fold_right];
      unfold diff in *; lra.
  - destruct can_ann; destruct (Rlt_dec 0 hd); cbn [app];
      repeat (apply Forall_cons; [cbn [snd]; lra|]); apply Forall_nil.
Qed.
Print Assumptions string_excitation_total.
Example string_excitation_applies :
  (0 < 40) /\ (0 <= 5) /\ (0 <= 4) /\ (0 <= 4) /\ (0 < 4 + 4) /\ (0 <= 3) /\ (0 <= 10).
Proof. lra. Qed.

(** Without single diffraction the split divides by zero: the weights are not numbers. *)
Theorem string_excitation_refuted : exists tot can_ann ann_param ax xb dd hard,
  0 < tot /\ 0 <= ann_param /\ 0 <= ax /\ 0 <= xb /\ 0 <= dd /\ 0 <= hard /\
  string_excitation tot can_ann ann_param ax xb dd hard = UB UB_div_zero.
Proof.
  exists 40, false, 0, 0, 0, 0, 0. splits; try lra. unfold string_excitation.
  destruct (Rle_dec 40 0); [lra|]. destruct (Req_EM_T (0 + 0) 0); [reflexivity|lra].
Qed.
Print Assumptions string_excitation_refuted.

(** The transition probability: between 0 and 1, and it grows with the energy. *)
Lemma transit_range sq lo hi p : transit sq lo hi = Ok p -> 0 <= p <= 1.
Proof.
  unfold transit. destruct (Rlt_dec sq lo); [intros H; injection H as <-; lra|].
  destruct (Rlt_dec hi sq); [intros H; injection H as <-; lra|].
  destruct (Req_EM_T hi lo); [discriminate|]. intros H. injection H as <-.
  pose proof (SIN_bound (PI * ((sq - 1 / 2 * (lo + hi)) / (hi - lo)))). lra.
Qed.
Theorem transit_monotone : forall lo hi s1 s2, lo < hi -> s1 <= s2 ->
  exists p1 p2, transit s1 lo hi = Ok p1 /\ transit s2 lo hi = Ok p2 /\ 0 <= p1 <= p2 /\ p2 <= 1 /\
    (s1 < lo -> p1 = 0) /\ (hi < s2 -> p2 = 1).
Proof.
  intros lo hi s1 s2 LH LE.
  assert (D : forall s, exists p, transit s lo hi = Ok p).
  { intros s. unfold transit. destruct (Rlt_dec s lo); [eexists; reflexivity|].
    destruct (Rlt_dec hi s); [eexists; reflexivity|]. destruct (Req_EM_T hi lo); [lra|eexists; reflexivity]. }
  destruct (D s1) as [p1 E1], (D s2) as [p2 E2]. exists p1, p2.
  pose proof (transit_range _ _ _ _ E1) as R1. pose proof (transit_range _ _ _ _ E2) as R2.
  assert (M : p1 <= p2).
  { unfold transit in E1, E2.
    destruct (Rlt_dec s1 lo). { injection E1 as <-. lra. }
    destruct (Rlt_dec hi s2).
    { destruct (Rlt_dec s2 lo); [lra|]. injection E2 as <-. lra. }
    destruct (Rlt_dec hi s1); [lra|]. destruct (Rlt_dec s2 lo); [lra|].
    destruct (Req_EM_T hi lo); [lra|]. injection E1 as <-. injection E2 as <-.
    apply Rmult_le_compat_l; [lra|]. apply Rplus_le_compat_r.
    assert (B : forall s, lo <= s <= hi -> - (1/2) <= (s - 1 / 2 * (lo + hi)) / (hi - lo) <= 1/2).
    { intros s Hs. split; apply (Rmult_le_reg_r (hi - lo)); try lra; unfold Rdiv;
      rewrite (Rmult_assoc _ (/ (hi - lo))), Rinv_l by lra; lra. }
    pose proof PI_RGT_0 as P.
    apply sin_incr_1.
    - pose proof (proj1 (B s1 ltac:(lra))). nra.
    - pose proof (proj2 (B s1 ltac:(lra))). nra.
    - pose proof (proj1 (B s2 ltac:(lra))). nra.
    - pose proof (proj2 (B s2 ltac:(lra))). nra.
    - apply Rmult_le_compat_l; [lra|]. unfold Rdiv. apply Rmult_le_compat_r; [|lra].
      left. apply Rinv_0_lt_compat. lra. }
  splits; auto; try tauto; try lra.
  - intros L. unfold transit in E1. destruct (Rlt_dec s1 lo); [now injection E1|contradiction].
  - intros L. unfold transit in E2. destruct (Rlt_dec s2 lo); [lra|].
    destruct (Rlt_dec hi s2); [now injection E2|contradiction].
Qed.
Print Assumptions transit_monotone.

Theorem string_probability_range : forall sp sq ms a b,
  (forall p, string_probability sp sq ms a b = Ok p -> 0 <= p <= 1) /\
  (fst (s_NN sp) < snd (s_NN sp) -> fst (s_Npi sp) < snd (s_Npi sp) -> 0 < s_width sp ->
   exists p, string_probability sp sq ms a b = Ok p).
Proof.
  intros sp sq ms a b. unfold string_probability. split.
  - intros p H.
    repeat match type of H with
    | (if ?c then _ else _) = Ok _ => destruct c; try (injection H as <-; lra)
    | (let '(_, _) := ?x in _) = Ok _ => destruct x as [lo hi]
    end.
    + injection H as <-. destruct (Rlt_dec _ sq); lra.
    + now apply transit_range in H.
  - intros W1 W2 W3.
    repeat match goal with
    | |- exists _, (if ?c then _ else _) = Ok _ => destruct c; try (eexists; reflexivity)
    end.
    set (off := if is_KplusP a b then _ else _).
    assert (T : forall lo hi, lo < hi ->
      exists p, (if Rlt_dec hi sq then Ok 1 else if Rlt_dec sq lo then Ok 0 else transit sq lo hi) = Ok p).
    { intros lo hi L. destruct (Rlt_dec hi sq); [eexists; reflexivity|].
      destruct (Rlt_dec sq lo); [eexists; reflexivity|].
      destruct (transit_monotone lo hi sq sq L (Rle_refl _)) as (p1 & _ & E & _). now exists p1. }
    destruct ((is_pion a && is_nucleon b) || (is_nucleon a && is_pion b)).
    + destruct (s_Npi sp) as [lo hi]. now apply T.
    + destruct (is_nucleon a && is_nucleon b && (asign a =? asign b)%Z).
      * destruct (s_NN sp) as [lo hi]. now apply T.
      * apply T. lra.
Qed.
Print Assumptions string_probability_range.
(** Equal ends of the transition region are not excluded: exactly on them the probability
    is the quotient 0/0. *)
Theorem transition_width_refuted : exists sp sq ms a b, proper a /\ proper b /\
  string_probability sp sq ms a b = UB UB_div_zero.
Proof.
  exists (StrPar true true true true 1 1 1 0 (4, 4) (2, 2)), 4, (fun _ => 1), w_p, w_p.
  splits; try (now apply properb_spec).
  change ((if Rlt_dec 4 4 then Ok 1 else if Rlt_dec 4 4 then Ok 0 else transit 4 4 4) = UB UB_div_zero).
  destruct (Rlt_dec 4 4); [lra|]. unfold transit. destruct (Rlt_dec 4 4); [lra|].
  destruct (Req_EM_T 4 4); [reflexivity|lra].
Qed.
Print Assumptions transition_width_refuted.

(** The sum over the channels of a collision *)
Lemma rsum_app x y : rsum (x ++ y) = rsum x + rsum y.
Proof. unfold rsum. induction x as [|a x IH]; cbn [app fold_right]; [ring|]. rewrite IH. ring. Qed.
Lemma rsum_map_mul k l : rsum (map (fun x => x * k) l) = k * rsum l.
Proof. unfold rsum. induction l as [|a l IH]; cbn [map fold_right]; [ring|]. rewrite IH. ring. Qed.

Definition low (g : parts) : R := rsum (g_21 g) + rsum (g_22 g) + rsum (g_23 g) + rsum (g_24 g).
Definition el_of (g : parts) : R := match g_elastic g with Some x => x | None => 0 end.

Theorem collision_total : forall g, 0 <= g_p g <= 1 ->
  (forall t, 0 <= t -> rsum (g_strings g t) = t) ->
  let strings := Rmax 0 (g_scale g * g_HE g - el_of g) in
  let mixed := el_of g + g_p g * (strings + g_scale g * rsum (g_rare g)) + (1 - g_p g) * g_scale g * low g in
  let total := rsum (collision_list g) in
  (g_core_differs g = true -> total = el_of g) /\
  (g_core_differs g = false ->
     (g_treat g = NNbar_no \/ g_treat g = NNbar_strings -> total = mixed) /\
     (g_treat g = NNbar_five -> total = mixed +
        (if g_nnbar g then Rmax 0 (g_ppbar_tot g - g_ppbar_el g) * g_scale g else 0)) /\
     (g_treat g = NNbar_resonances -> total =
        if g_nnbar g then Rmax mixed (g_ppbar_tot g * g_scale g)
        else mixed + g_scale g * rsum (g_creation g))).
Proof.
  intros g P ST strings mixed total.
  assert (EL : rsum (match g_elastic g with Some x => [x] | None => [] end) = el_of g).
  { unfold el_of. destruct (g_elastic g); cbn [rsum fold_right]; lra. }
  unfold total, collision_list. cbv zeta. split.
  - intros ->. exact EL.
  - intros ->. cbv iota.
    set (str := if Rlt_dec 0 (g_p g) then _ else _). set (lw := if Rlt_dec (g_p g) 1 then _ else _).
    assert (ES : rsum str = g_p g * (strings + g_scale g * rsum (g_rare g))).
    { unfold str. destruct (Rlt_dec 0 (g_p g)).
      - rewrite rsum_app, !rsum_map_mul, EL, ST by apply Rmax_l. fold strings. ring.
      - replace (g_p g) with 0 by lra. change (rsum []) with 0. ring. }
    assert (ELW : rsum lw = (1 - g_p g) * g_scale g * low g).
    { unfold lw, low. destruct (Rlt_dec (g_p g) 1).
      - rewrite rsum_map_mul, !rsum_app. ring.
      - replace (g_p g) with 1 by lra. change (rsum []) with 0. ring. }
    clearbody str lw.
    assert (M : rsum (match g_elastic g with Some x => [x] | None => [] end ++ str ++ lw) = mixed).
    { rewrite !rsum_app, EL, ES, ELW. unfold mixed. lra. }
    splits.
    + intros [-> | ->]; exact M.
    + intros ->. destruct (g_nnbar g); [|lra]. rewrite rsum_app, M. cbn [rsum fold_right]. lra.
    + intros ->. destruct (g_nnbar g).
      * rewrite rsum_app, M. cbn [rsum fold_right]. unfold Rmax.
        destruct (Rle_dec 0 (g_ppbar_tot g * g_scale g - mixed)), (Rle_dec mixed (g_ppbar_tot g * g_scale g)); lra.
      * rewrite rsum_app, M, rsum_map_mul. lra.
Qed.
Print Assumptions collision_total.
Example collision_total_applies : exists g, 0 <= g_p g <= 1 /\ (forall t, 0 <= t -> rsum (g_strings g t) = t) /\
  g_core_differs g = false /\ 0 < g_p g < 1.
Proof.
  exists (Parts (1/2) 1 (Some 10) false 40 (fun t => [t]) [1] [3] [4] [] [] NNbar_resonances true 60 20 []).
  cbn. splits; try lra; try reflexivity. intros t T. unfold rsum. cbn. lra.
Qed.

(** Every weight is non-negative when the parts are. *)
Theorem collision_weights_nonneg : forall g, 0 <= g_p g <= 1 -> 0 <= g_scale g -> 0 <= el_of g ->
  (forall t, 0 <= t -> Forall (Rle 0) (g_strings g t)) ->
  Forall (Rle 0) (g_rare g ++ g_21 g ++ g_22 g ++ g_23 g ++ g_24 g ++ g_creation g) ->
  Forall (Rle 0) (collision_list g).
Proof.
  intros g P S E ST F. rewrite !Forall_app in F. destruct F as (F1 & F2 & F3 & F4 & F5 & F6).
  assert (MM : forall k l, 0 <= k -> Forall (Rle 0) l -> Forall (Rle 0) (map (fun x => x * k) l)).
  { intros k l K L. apply Forall_map. apply (Forall_impl _ (P := Rle 0)); [|exact L].
    intros x X. now apply Rmult_le_pos. }
  assert (EL : Forall (Rle 0) (match g_elastic g with Some x => [x] | None => [] end)).
  { unfold el_of in E. destruct (g_elastic g); [apply Forall_cons; [exact E|]|]; apply Forall_nil. }
  unfold collision_list. cbv zeta. destruct (g_core_differs g); [exact EL|].
  set (l := _ ++ _ ++ _).
  assert (L : Forall (Rle 0) l).
  { unfold l. rewrite !Forall_app. splits; [exact EL| |].
    - destruct (Rlt_dec 0 (g_p g)); [|apply Forall_nil]. apply Forall_app. split; apply MM.
      + lra.
      + apply ST. apply Rmax_l.
      + apply Rmult_le_pos; lra.
      + exact F1.
    - destruct (Rlt_dec (g_p g) 1); [|apply Forall_nil]. apply MM; [apply Rmult_le_pos; lra|].
      rewrite !Forall_app. now splits. }
  clearbody l. destruct (g_treat g); try exact L; (destruct (g_nnbar g); [|try exact L]).
  - apply Forall_app. split; [exact L|]. apply Forall_cons; [apply Rmax_l|apply Forall_nil].
  - apply Forall_app. split; [exact L|]. now apply MM.
  - apply Forall_app. split; [exact L|]. apply Forall_cons; [|apply Forall_nil].
    apply Rmult_le_pos; [apply Rmax_l|exact S].
Qed.
Print Assumptions collision_weights_nonneg.

(** Packing two codes into one number never confuses two pairs: the switch statements
    see every pair of species as they are. *)
Theorem pack_injective : forall x y x' y',
  (- 2 ^ 31 <= x < 2 ^ 31 -> - 2 ^ 31 <= y < 2 ^ 31 -> - 2 ^ 31 <= x' < 2 ^ 31 -> - 2 ^ 31 <= y' < 2 ^ 31 ->
  pack x y = pack x' y' -> x = x' /\ y = y')%Z.
Proof.
  intros x y x' y' H1 H2 H3 H4 E. unfold pack, u32, wrap in E.
  change (2 ^ 32)%Z with 4294967296%Z in *. change (2 ^ 31)%Z with 2147483648%Z in *.
  assert (A : forall z, (0 <= z mod 4294967296 < 4294967296)%Z) by (intros; apply Z.mod_pos_bound; lia).
  pose proof (A x) as Ax. pose proof (A y) as Ay. pose proof (A x') as Ax'. pose proof (A y') as Ay'.
  assert (EX : (x mod 4294967296 = x' mod 4294967296)%Z) by lia.
  assert (EY : (y mod 4294967296 = y' mod 4294967296)%Z) by lia.
  clear E A. split; Z.to_euclidean_division_equations; lia.
Qed.
Print Assumptions pack_injective.
