(** C110-C113: binary reaction channels. *)
From Coq Require Import ZArith List Bool Lia Permutation Reals Lra.
From Verif Require Import Base PdgModel PdgProofs MultiModel XsModel.
Import ListNotations.
Open Scope Z_scope.
Open Scope bool_scope.

(** * Specification: conservation laws *)

Definition total (f : pdg -> Z) (l : list pdg) : Z := fold_right (fun w a => f w + a) 0 l.
(** Charge, baryon number and strangeness are the same before and after. *)
Definition conserves (before after : list pdg) : Prop :=
  total charge after = total charge before /\
  total baryon_number after = total baryon_number before /\
  total strangeness after = total strangeness before.

Definition conservesb (before after : list pdg) : bool :=
  (total charge after =? total charge before) &&
  (total baryon_number after =? total baryon_number before) &&
  (total strangeness after =? total strangeness before).
Lemma conservesb_spec x y : conservesb x y = true -> conserves x y.
Proof.
  unfold conservesb, conserves. rewrite !andb_true_iff, !Z.eqb_eq. tauto.
Qed.
Lemma conserves_swap a b y : conserves [a; b] y -> conserves [b; a] y.
Proof. unfold conserves. cbn [total fold_right]. lia. Qed.

(** * The tables *)

Lemma lookup_all (P : pdg -> pdg -> entry -> bool) t :
  forallb (fun r => forallb (P (fst (fst r)) (snd (fst r))) (snd r)) t = true ->
  forall x y e, In e (lookup t x y) -> P x y e = true.
Proof.
  induction t as [|[[a b] l] t IH]; cbn [forallb lookup fst snd]; intros H x y e I; [destruct I|].
  apply andb_true_iff in H. destruct H as [H1 H2].
  destruct ((a =? x) && (b =? y)) eqn:E.
  - apply andb_true_iff in E. rewrite !Z.eqb_eq in E. destruct E as [-> ->].
    rewrite forallb_forall in H1. now apply H1.
  - now apply IH.
Qed.

Lemma collect_in f l r : collect f l = Ok r ->
  forall c, In c r -> exists e x, In e l /\ f e = Ok x /\ In c x.
Proof.
  revert r. induction l as [|e l IH]; cbn [collect]; intros r H c I.
  - injection H as <-. destruct I.
  - destruct (f e) as [x| |] eqn:E; cbn [rbind] in H; try discriminate.
    destruct (collect f l) as [y| |]; cbn [rbind] in H; try discriminate.
    injection H as <-. apply in_app_or in I. destruct I as [I|I].
    + exists e, x. split; [now left|]. now split.
    + destruct (IH y eq_refl c I) as (e' & x' & I' & E' & C').
      exists e', x'. split; [now right|]. now split.
Qed.

Lemma add_channel_out env v o1 o2 x c :
  add_channel env v o1 o2 = Ok x -> In c x ->
  x_out c = [o1; o2] /\ v = Ok (x_w c) /\ (really_small < x_w c)%R /\ above env o1 o2 = true.
Proof.
  unfold add_channel. destruct (above env o1 o2).
  - destruct v as [w| |]; cbn [rbind]; intros H; try discriminate.
    injection H as <-. destruct (Rlt_dec really_small w); intros I; [|destruct I].
    destruct I as [<-|[]]. now splits.
  - intros H. injection H as <-. intros [].
Qed.

Definition chk (x y : pdg) (e : entry) : bool := conservesb [x; y] [e_out1 e; e_out2 e].
Lemma npi_ok : forall x y e, In e (lookup npi_table x y) -> conserves [x; y] [e_out1 e; e_out2 e].
Proof.
  intros x y e I. apply conservesb_spec. apply (lookup_all chk npi_table); [|exact I].
  vm_compute. reflexivity.
Qed.
Lemma nk_ok : forall x y e, In e (lookup nk_table x y) -> conserves [x; y] [e_out1 e; e_out2 e].
Proof.
  intros x y e I. apply conservesb_spec. apply (lookup_all chk nk_table); [|exact I].
  vm_compute. reflexivity.
Qed.
Lemma deltak_ok : forall x y e, In e (lookup deltak_table x y) -> conserves [x; y] [e_out1 e; e_out2 e].
Proof.
  intros x y e I. apply conservesb_spec. apply (lookup_all chk deltak_table); [|exact I].
  vm_compute. reflexivity.
Qed.
Lemma ypi_ok : forall x y e, In e (lookup ypi_table x y) -> conserves [x; y] [e_out1 e; e_out2 e].
Proof.
  intros x y e I. apply conservesb_spec. apply (lookup_all chk ypi_table); [|exact I].
  vm_compute. reflexivity.
Qed.

(** C110: every channel of pion-nucleon, kaon-nucleon, kaon-Delta and pion-hyperon
    collisions conserves charge, baryon number and strangeness; the two particles may be
    given in either order and be anything. *)
Theorem meson_baryon_conserves : forall env i koff a b l ch,
  (npi_yk env a b = Ok l \/ nk_xx env i koff a b = Ok l \/
   deltak_xx env i a b = Ok l \/ ypi_xx env i a b = Ok l) ->
  In ch l -> conserves [a; b] (x_out ch).
Proof.
  intros env i koff a b l ch H I.
  assert (SW : forall t x y, (x, y) = pick t a b -> forall o, conserves [x; y] o -> conserves [a; b] o).
  { intros t x y E o C. unfold pick in E. destruct (t a); injection E as -> ->; auto using conserves_swap. }
  destruct H as [H|[H|[H|H]]].
  - unfold npi_yk in H. destruct (pick is_nucleon a b) as [n p] eqn:E.
    destruct (collect_in _ _ _ H ch I) as (e & x & Ie & F & C).
    destruct (add_channel_out _ _ _ _ _ _ F C) as (-> & _).
    apply (SW _ _ _ (eq_sym E)). now apply npi_ok.
  - unfold nk_xx in H. destruct (pick is_nucleon a b) as [n k] eqn:E.
    destruct (collect_in _ _ _ H ch I) as (e & x & Ie & F & C).
    destruct (nk_on env i koff a b (e_grp e)); [|injection F as <-; destruct C].
    destruct (add_channel_out _ _ _ _ _ _ F C) as (-> & _).
    apply (SW _ _ _ (eq_sym E)). apply conserves_swap. now apply nk_ok.
  - unfold deltak_xx in H. destruct (i_KD i); [|injection H as <-; destruct I].
    destruct (pick is_Delta a b) as [d k] eqn:E.
    destruct (collect_in _ _ _ H ch I) as (e & x & Ie & F & C).
    destruct (add_channel_out _ _ _ _ _ _ F C) as (-> & _).
    apply (SW _ _ _ (eq_sym E)). now apply deltak_ok.
  - unfold ypi_xx in H. destruct (i_SE i); [|injection H as <-; destruct I].
    destruct (pick is_hyperon a b) as [y p] eqn:E.
    destruct (collect_in _ _ _ H ch I) as (e & x & Ie & F & C).
    destruct (add_channel_out _ _ _ _ _ _ F C) as (-> & _).
    apply (SW _ _ _ (eq_sym E)). now apply ypi_ok.
Qed.
Print Assumptions meson_baryon_conserves.

(** The isospin ratios are found for every channel: no collision ends with an exception. *)
Definition ratio_known (a b c d : pdg) : bool :=
  let f := flip_of [a; b; c; d] in
  let k := (pack (code a * f) (code b * f), pack (code c * f) (code d * f)) in
  existsb (fun r => let '((a, b), ((c1, d1), (c2, d2))) := r in
     ((pack (code a) (code b) =? fst k) &&
      ((pack (code c1) (code d1) =? snd k) || (pack (code c2) (code d2) =? snd k)))%Z) ratio_rows.
Lemma rfind_some l k : (exists v, In (k, v) l) -> exists v, rfind l k = Some v.
Proof.
  induction l as [|[[x y] v] l IH]; intros [v' I]; [destruct I|].
  cbn [rfind]. destruct ((x =? fst k) && (y =? snd k)) eqn:E; [now exists v|].
  destruct I as [I|I]; [|apply IH; now exists v'].
  injection I as <- _. cbn [fst snd] in E. rewrite !Z.eqb_refl in E. discriminate.
Qed.
Lemma ratio_known_ok env a b c d : ratio_known a b c d = true -> exists v, get_ratio env a b c d = Ok v.
Proof.
  unfold ratio_known, get_ratio. set (k := (pack _ _, pack _ _)). intros H.
  apply existsb_exists in H. destruct H as [[[a' b'] [[c1 d1] [c2 d2]]] [I E]].
  apply andb_true_iff in E. destruct E as [E1 E2]. apply Z.eqb_eq in E1.
  apply orb_true_iff in E2. rewrite !Z.eqb_eq in E2.
  destruct (rfind_some (ratios env) k) as [v Hv]; [|exists v; now rewrite Hv].
  unfold ratios. destruct E2 as [E2|E2].
  - exists (cg2 env a' b' c1 d1 / (cg2 env a' b' c1 d1 + cg2 env a' b' c2 d2))%R.
    apply in_flat_map. eexists. split; [exact I|]. cbn iota beta. left.
    unfold add_to_ratios. rewrite E1, E2. now destruct k.
  - exists (cg2 env a' b' c2 d2 / (cg2 env a' b' c2 d2 + cg2 env a' b' c1 d1))%R.
    apply in_flat_map. eexists. split; [exact I|]. cbn iota beta. right. left.
    unfold add_to_ratios. rewrite E1, E2. now destruct k.
Qed.

Definition rk_nk (k n : pdg) (e : entry) : bool :=
  match e_grp e with KD => ratio_known n k (e_out1 e) (e_out2 e) | _ => true end.
Definition rk_dk (d k : pdg) (e : entry) : bool := ratio_known (e_out1 e) (e_out2 e) k d.
Lemma nk_value_ok env k n e : In e (lookup nk_table k n) -> exists v, nk_value env n k e = Ok v.
Proof.
  intros I. assert (A : rk_nk k n e = true).
  { apply (lookup_all rk_nk nk_table); [vm_compute; reflexivity|exact I]. }
  unfold rk_nk in A. unfold nk_value.
  destruct (e_grp e); try (eexists; reflexivity).
  destruct (ratio_known_ok env _ _ _ _ A) as [v ->]. cbn [rbind]. eexists; reflexivity.
Qed.
Lemma deltak_value_ok env d k e : In e (lookup deltak_table d k) -> exists v, deltak_value env d k e = Ok v.
Proof.
  intros I. assert (A : rk_dk d k e = true).
  { apply (lookup_all rk_dk deltak_table); [vm_compute; reflexivity|exact I]. }
  unfold rk_dk in A. unfold deltak_value.
  destruct (ratio_known_ok env _ _ _ _ A) as [v ->]. cbn [rbind]. eexists; reflexivity.
Qed.

(** the channels of one entry, when it does not throw *)
Definition okl (r : res (list xch)) : list xch := match r with Ok x => x | _ => [] end.
Lemma collect_ok f l : (forall e, In e l -> exists x, f e = Ok x) ->
  collect f l = Ok (flat_map (fun e => okl (f e)) l).
Proof.
  induction l as [|e l IH]; intros H; [reflexivity|]. cbn [collect flat_map].
  destruct (H e (or_introl eq_refl)) as [x E]. rewrite E. cbn [rbind].
  rewrite IH by (intros e' I; apply H; now right). cbn [rbind okl]. reflexivity.
Qed.
Lemma add_channel_ok env v o1 o2 : (exists x, v = Ok x) -> exists y, add_channel env v o1 o2 = Ok y.
Proof.
  intros [x ->]. unfold add_channel. destruct (above env o1 o2); cbn [rbind]; eexists; reflexivity.
Qed.

Theorem meson_baryon_never_throws : forall env i koff a b,
  exists l1 l2 l3 l4,
    npi_yk env a b = Ok l1 /\ nk_xx env i koff a b = Ok l2 /\
    deltak_xx env i a b = Ok l3 /\ ypi_xx env i a b = Ok l4.
Proof.
  intros env i koff a b. unfold npi_yk, nk_xx, deltak_xx, ypi_xx.
  destruct (pick is_nucleon a b) as [n k]. destruct (pick is_Delta a b) as [d k'].
  destruct (pick is_hyperon a b) as [y p].
  assert (forall (c : bool) (r : res (list xch)), (exists l, r = Ok l) ->
          exists l, (if c then r else Ok []) = Ok l) as HC.
  { intros c r [l E]. destruct c; eexists; [exact E|reflexivity]. }
  assert (A1 : exists l, collect (fun e => add_channel env (Ok (value env (e_terms e))) (e_out1 e) (e_out2 e))
          (lookup npi_table n k) = Ok l).
  { eexists. apply collect_ok. intros e I. apply add_channel_ok. eexists; reflexivity. }
  assert (A2 : exists l, collect (fun e => if nk_on env i koff a b (e_grp e)
                    then add_channel env (nk_value env n k e) (e_out1 e) (e_out2 e) else Ok [])
          (lookup nk_table k n) = Ok l).
  { eexists. apply collect_ok. intros e I. apply HC. apply add_channel_ok. now apply nk_value_ok. }
  assert (A3 : exists l, collect (fun e => add_channel env (deltak_value env d k' e) (e_out1 e) (e_out2 e))
            (lookup deltak_table d k') = Ok l).
  { eexists. apply collect_ok. intros e I. apply add_channel_ok. now apply deltak_value_ok. }
  assert (A4 : exists l, collect (fun e => add_channel env (ypi_value env y p e) (e_out1 e) (e_out2 e))
            (lookup ypi_table y p) = Ok l).
  { eexists. apply collect_ok. intros e I. apply add_channel_ok. eexists; reflexivity. }
  destruct A1 as [l1 E1], A2 as [l2 E2].
  destruct (HC (i_KD i) _ A3) as [l3 E3]. destruct (HC (i_SE i) _ A4) as [l4 E4].
  exists l1, l2, l3, l4. now splits.
Qed.
Print Assumptions meson_baryon_never_throws.

(** * Other channels *)

(** PDG words as the reader of particle lists produces them: 32 bits, the two padding bits
    of hadrons clear, nuclei with a mass number. *)
Definition proper (w : pdg) : Prop :=
  word w /\ (is_nucleus w = false -> pad w = 0) /\ (is_nucleus w = true -> nuc_A w <> 0).

Definition properb (w : pdg) : bool :=
  (0 <=? w) && (w <? 2 ^ 32) && (if is_nucleus w then negb (nuc_A w =? 0) else pad w =? 0).
Lemma properb_spec w : properb w = true -> proper w.
Proof.
  unfold properb, proper, word. rewrite !andb_true_iff, Z.leb_le, Z.ltb_lt.
  intros [[A B] C]. destruct (is_nucleus w).
  - rewrite negb_true_iff, Z.eqb_neq in C. splits; auto. discriminate.
  - rewrite Z.eqb_eq in C. splits; auto. discriminate.
Qed.
Lemma proper_small w : proper w -> ucode w < 2 ^ 16 -> is_nucleus w = false.
Proof.
  intros (W & _ & N) U. destruct (is_nucleus w) eqn:E; [|reflexivity].
  exfalso. apply N; [reflexivity|]. unfold ucode in U. unfold nuc_A, field, word, pdg in *.
  change (2 ^ 28) with 268435456 in *. change (2 ^ 16) with 65536 in *. change (2 ^ 10) with 1024.
  pose proof (Z.div_mod w 268435456 ltac:(lia)). 
  Z.to_euclidean_division_equations; lia.
Qed.
Lemma proper_word w c : proper w -> 0 <= c < 2 ^ 16 -> ucode w = c ->
  (w = c /\ asign w = 1) \/ (w = anti c /\ asign w = -1).
Proof.
  intros P C U. assert (N : is_nucleus w = false) by (apply proper_small; [assumption|lia]).
  destruct P as (W & P & _). specialize (P N).
  unfold is_nucleus in N. apply Z.eqb_neq in N. unfold asign, is_anti.
  unfold anti, ucode, nucleus_bit, anti_bit, pad, field, word, pdg in *.
  change (2 ^ 28) with 268435456 in *. change (2 ^ 16) with 65536 in *.
  change (2 ^ 30) with 1073741824 in *. change (2 ^ 31) with 2147483648 in *.
  change (2 ^ 2) with 4 in *. change (2 ^ 1) with 2 in *. change (2 ^ 32) with 4294967296 in *.
  destruct (Z.eqb_spec ((w / 2147483648) mod 2) 1); Z.to_euclidean_division_equations; lia.
Qed.
Lemma code_word w c : proper w -> 0 < c < 2 ^ 16 -> Z.abs (code w) = c ->
  (w = c /\ asign w = 1) \/ (w = anti c /\ asign w = -1).
Proof.
  intros P C E. apply proper_word; [assumption|lia|]. unfold code in E.
  assert (0 <= ucode w) by (unfold ucode; apply Z.mod_pos_bound; reflexivity).
  unfold asign in E. destruct (is_anti w); lia.
Qed.
Lemma pion_words w : proper w -> is_pion w = true -> In w [w_pip; w_piz; w_pim].
Proof.
  intros P H. unfold is_pion in H. rewrite !orb_true_iff, !Z.eqb_eq in H.
  assert (A : exists c, 0 < c < 2 ^ 16 /\ (c = 273 \/ c = 529) /\ Z.abs (code w) = c).
  { exists (Z.abs (code w)). lia. }
  destruct A as (c & C & D & E). 
  destruct (code_word w c P C E) as [[-> S]|[-> S]]; destruct D as [->| ->]; cbn; auto.
  exfalso. vm_compute in H. lia.
Qed.
Lemma nucleon_words w : proper w -> is_nucleon w = true ->
  In w [w_p; w_n] /\ asign w = 1 \/ In w [anti w_p; anti w_n] /\ asign w = -1.
Proof.
  intros P H. unfold is_nucleon in H. rewrite !orb_true_iff, !Z.eqb_eq in H.
  destruct H as [E|E]; (pose proof (fun C => code_word w _ P C E) as K; destruct (K ltac:(lia)) as [[-> S]|[-> S]]; cbn; auto).
Qed.
Lemma delta_words w : proper w -> is_Delta w = true ->
  In w deltas /\ asign w = 1 \/ In w (map get_antiparticle deltas) /\ asign w = -1.
Proof.
  intros P H. unfold is_Delta in H. rewrite !orb_true_iff, !Z.eqb_eq in H.
  destruct H as [[[E|E]|E]|E]; (pose proof (fun C => code_word w _ P C E) as K; destruct (K ltac:(lia)) as [[-> S]|[-> S]];
    [left; split; [vm_compute; tauto|exact S] | right; split; [vm_compute; tauto|exact S]]).
Qed.
Lemma asign_cases w : asign w = 1 \/ asign w = -1.
Proof. unfold asign. destruct (is_anti w); auto. Qed.
Lemma deuteron_qn w : is_deuteron w = true ->
  charge w = asign w /\ baryon_number w = 2 * asign w /\ strangeness w = 0 /\ is_pion w = false
  /\ is_nucleon w = false /\ is_nucleus w = true.
Proof.
  intros H. unfold is_deuteron in H. rewrite !andb_true_iff, !Z.eqb_eq in H.
  destruct H as ((((N & A) & Zz) & L) & I).
  assert (U : 2 ^ 16 <= ucode w).
  { clear - A. unfold nuc_A, ucode, field in *. change (2 ^ 28) with 268435456.
    change (2 ^ 16) with 65536 in *. change (2 ^ 10) with 1024 in *. unfold pdg in *.
    Z.to_euclidean_division_equations; lia. }
  assert (NP : forall c, 0 <= c < 2 ^ 16 -> code w <> c /\ code w <> - c).
  { intros c C. unfold code. destruct (asign_cases w) as [-> | ->]; lia. }
  splits.
  - unfold charge, charge3, nq, net_quark_number. rewrite N, A, Zz, L. rewrite orb_true_r. cbn.
    destruct (asign_cases w) as [-> | ->]; reflexivity.
  - unfold baryon_number. rewrite N, A. lia.
  - unfold strangeness, nq, net_quark_number. rewrite N, L. cbn. lia.
  - unfold is_pion. rewrite !orb_false_iff, !Z.eqb_neq.
    pose proof (NP 273 ltac:(lia)). pose proof (NP 529 ltac:(lia)). lia.
  - unfold is_nucleon. rewrite !orb_false_iff, !Z.eqb_neq.
    pose proof (NP 8722 ltac:(lia)). pose proof (NP 8466 ltac:(lia)). lia.
  - assumption.
Qed.

Ltac conserve_words :=
  unfold conserves; cbn [total fold_right];
  repeat match goal with
  | H : charge ?w = _ |- _ => rewrite !H; clear H
  | H : baryon_number ?w = _ |- _ => rewrite !H; clear H
  | H : strangeness ?w = _ |- _ => rewrite !H; clear H
  end.
Lemma nucleon_qn w : proper w -> is_nucleon w = true ->
  baryon_number w = asign w /\ strangeness w = 0 /\ is_nucleus w = false /\ is_pion w = false /\ is_deuteron w = false.
Proof.
  intros P H. destruct (nucleon_words w P H) as [[I S]|[I S]]; rewrite S; cbn in I;
    (destruct I as [<-|[<-|[]]]; vm_compute; auto 10).
Qed.
Lemma pion_qn w : proper w -> is_pion w = true ->
  baryon_number w = 0 /\ strangeness w = 0 /\ is_nucleus w = false /\ is_nucleon w = false /\ is_deuteron w = false
  /\ is_baryon w = false.
Proof.
  intros P H. pose proof (pion_words w P H) as I. cbn in I.
  destruct I as [<-|[<-|[<-|[]]]]; vm_compute; auto 10.
Qed.

(** Resonance formation and the break-up of deuterons into three particles *)
Theorem formation_conserves : forall all stable decays xs a b ch,
  In ch (two_to_one (possible_resonances all stable decays a b) xs) -> conserves [a; b] (x_out ch).
Proof.
  intros all stable decays xs a b ch I. unfold two_to_one in I. apply in_flat_map in I.
  destruct I as [r [I C]]. destruct (Rlt_dec really_small (xs r)); [|destruct C].
  destruct C as [<-|[]]. cbn [x_out]. unfold possible_resonances in I. apply filter_In in I.
  destruct I as [_ F]. rewrite !andb_true_iff, !Z.eqb_eq in F.
  unfold conserves. cbn [total fold_right]. lia.
Qed.
Print Assumptions formation_conserves.

Theorem deuteron_breakup_conserves : forall xs a b ch, proper a -> proper b ->
  In ch (two_to_three xs a b) -> conserves [a; b] (x_out ch).
Proof.
  intros xs a b ch PA PB I.
  assert (QP : charge w_p = 1 /\ charge w_n = 0 /\ charge (anti w_p) = -1 /\ charge (anti w_n) = 0) by (splits; reflexivity).
  assert (QB : baryon_number w_p = 1 /\ baryon_number w_n = 1 /\ baryon_number (anti w_p) = -1
               /\ baryon_number (anti w_n) = -1) by (splits; reflexivity).
  assert (QS : strangeness w_p = 0 /\ strangeness w_n = 0 /\ strangeness (anti w_p) = 0
               /\ strangeness (anti w_n) = 0) by (splits; reflexivity).
  assert (K : forall d o ch, is_deuteron d = true ->
     In ch (if 0 <? baryon_number d then [XCh [o; w_p; w_n] xs] else [XCh [o; anti w_p; anti w_n] xs]) ->
     conserves [d; o] (x_out ch)).
  { clear - QP QB QS. intros d o ch D I. destruct (deuteron_qn d D) as (C & B & S & _).
    rewrite B in I. destruct (asign_cases d) as [A|A]; rewrite A in I, B, C;
      [change (0 <? 2 * 1) with true in I|change (0 <? 2 * -1) with false in I]; cbv iota in I;
      (destruct I as [<-|[]]; cbn [x_out]; unfold conserves; cbn [total fold_right];
       rewrite B, C, S; lia). }
  unfold two_to_three in I. apply in_app_or in I. destruct I as [I|I].
  - destruct ((is_deuteron a && is_pion b) || (is_deuteron b && is_pion a)) eqn:E; [|destruct I].
    apply orb_true_iff in E. rewrite !andb_true_iff in E. destruct E as [[E1 E2]|[E1 E2]].
    + destruct (deuteron_qn a E1) as (_ & _ & _ & Np & _ & Nn). rewrite Np, Nn in I. now apply K.
    + destruct (pion_qn a PA E2) as (_ & _ & Nn & _). rewrite E2, Nn in I.
      apply conserves_swap. now apply K.
  - destruct ((is_nucleon a && is_deuteron b) || (is_nucleon b && is_deuteron a)) eqn:E; [|destruct I].
    apply orb_true_iff in E. rewrite !andb_true_iff in E. destruct E as [[E1 E2]|[E1 E2]].
    + destruct (nucleon_qn a PA E1) as (_ & _ & _ & _ & Nd). rewrite E1, Nd in I.
      apply conserves_swap. now apply K.
    + destruct (deuteron_qn a E2) as (_ & _ & _ & _ & Nn & _). rewrite Nn, E2 in I. now apply K.
Qed.
Print Assumptions deuteron_breakup_conserves.

(** Break-up of nuclei of mass number three, given a physical nucleus (Z + Lambdas at most A) *)
Lemma total_app f x y : total f (x ++ y) = total f x + total f y.
Proof. induction x as [|a x IH]; cbn [app total fold_right]; [reflexivity|]. fold (total f (x ++ y)). fold (total f x). lia. Qed.
Lemma total_repeat f w n : total f (repeat w n) = Z.of_nat n * f w.
Proof. induction n as [|n IH]; [reflexivity|]. cbn [repeat total fold_right]. fold (total f (repeat w n)). lia. Qed.
Lemma nucleus_qn w : word w -> is_nucleus w = true -> nuc_Z w + nuc_L w <= nuc_A w ->
  charge w = asign w * nuc_Z w /\ baryon_number w = asign w * nuc_A w
  /\ strangeness w = - asign w * nuc_L w.
Proof.
  intros W N P. splits.
  - unfold charge, charge3, nq, net_quark_number. rewrite N, orb_true_r. cbn -[Z.mul Z.add Z.sub Z.quot].
    replace (_ + _)%Z with (asign w * nuc_Z w * 3) by (destruct (asign_cases w) as [-> | ->]; lia).
    apply Z.quot_mul. lia.
  - unfold baryon_number. rewrite N. lia.
  - unfold strangeness, nq, net_quark_number. rewrite N. cbn -[Z.mul Z.add]. lia.
Qed.
Lemma field_nonneg p n w : 0 <= n -> 0 <= field p n w.
Proof. intros. unfold field. apply Z.mod_pos_bound. apply Z.pow_pos_nonneg; lia. Qed.

Theorem triton_breakup_conserves : forall known enough xs a b l ch, word a -> word b ->
  (forall w, In w [a; b] -> is_nucleus w = true -> nuc_Z w + nuc_L w <= nuc_A w) ->
  two_to_four known enough xs a b = Ok l -> In ch l -> conserves [a; b] (x_out ch).
Proof.
  intros known enough xs a b l ch WA WB P H I. unfold two_to_four, pick in H.
  assert (K : forall n c, word n -> (is_nucleus n = true -> nuc_Z n + nuc_L n <= nuc_A n) ->
    (if is_nucleus n && (Z.abs (baryon_number n) =? 3)%Z && (is_pion c || is_nucleon c) then
    match components n with
    | x :: y :: z :: _ =>
        if known x && known y && known z then
          Ok (if enough [c; x; y; z] then [XCh [c; x; y; z] xs] else [])
        else UB UB_oob
    | _ => UB UB_oob
    end
  else Ok []) = Ok l -> conserves [n; c] (x_out ch)).
  { clear - I. intros n c W P H.
    destruct (is_nucleus n) eqn:N; cbn [andb] in H; [|injection H as <-; destruct I].
    specialize (P eq_refl). destruct (nucleus_qn n W N P) as (C & B & S). rewrite B in H.
    assert (A3 : Z.abs (asign n * nuc_A n) = nuc_A n).
    { pose proof (field_nonneg 16 10 n ltac:(lia)). unfold nuc_A. 
      destruct (asign_cases n) as [-> | ->]; lia. }
    rewrite A3 in H. destruct (Z.eqb_spec (nuc_A n) 3) as [E|E]; cbn [andb] in H;
      [|injection H as <-; destruct I].
    destruct (is_pion c || is_nucleon c); [|injection H as <-; destruct I].
    pose proof (field_nonneg 0 6 n ltac:(lia)) as L0. pose proof (field_nonneg 6 10 n ltac:(lia)) as Z0.
    fold (nuc_L n) in L0. fold (nuc_Z n) in Z0.
    assert (T : (forall f, total f (components n) =
        if is_anti n then nuc_Z n * f (anti w_p) + (nuc_A n - nuc_Z n - nuc_L n) * f (anti w_n) + nuc_L n * f (anti w_La)
        else nuc_Z n * f w_p + (nuc_A n - nuc_Z n - nuc_L n) * f w_n + nuc_L n * f w_La)
        /\ length (components n) = 3%nat).
    { unfold components, nucleus_p, nucleus_n, nucleus_La, nucleus_ap, nucleus_an, nucleus_aLa.
      rewrite N. split.
      - intros f. rewrite !total_app, !total_repeat. destruct (is_anti n); cbn [andb negb];
        rewrite ?Z2Nat.id by lia; cbn [Z.to_nat Z.of_nat]; lia.
      - rewrite !app_length, !repeat_length. destruct (is_anti n); cbn [andb negb]; lia. }
    destruct T as [T LL].
    destruct (components n) as [|x [|y [|z [|]]]]; try discriminate LL.
    destruct (known x && known y && known z); [|discriminate].
    injection H as <-. destruct (enough [c; x; y; z]); [|destruct I].
    destruct I as [<-|[]]. cbn [x_out].
    pose proof (T charge) as T1. pose proof (T baryon_number) as T2. pose proof (T strangeness) as T3.
    unfold conserves. cbn [total fold_right] in *.
    change (charge (anti w_p)) with (-1) in *. change (charge (anti w_n)) with 0 in *.
    change (charge (anti w_La)) with 0 in *. change (charge w_p) with 1 in *.
    change (charge w_n) with 0 in *. change (charge w_La) with 0 in *.
    change (baryon_number (anti w_p)) with (-1) in *. change (baryon_number (anti w_n)) with (-1) in *.
    change (baryon_number (anti w_La)) with (-1) in *. change (baryon_number w_p) with 1 in *.
    change (baryon_number w_n) with 1 in *. change (baryon_number w_La) with 1 in *.
    change (strangeness (anti w_p)) with 0 in *. change (strangeness (anti w_n)) with 0 in *.
    change (strangeness (anti w_La)) with 1 in *. change (strangeness w_p) with 0 in *.
    change (strangeness w_n) with 0 in *. change (strangeness w_La) with (-1) in *.
    rewrite C, B, S. clear - T1 T2 T3 E. unfold asign. destruct (is_anti n); lia. }
  destruct (is_nucleus a) eqn:N.
  - apply (K a b); auto. intros _. apply P; cbn; auto.
  - apply conserves_swap. apply (K b a); auto. intros Nb. apply P; cbn; auto.
Qed.
Print Assumptions triton_breakup_conserves.

(** Nothing rejects a code of a nucleus with more protons and Lambdas than its mass number
    (here A = 3, Z = 2, L = 2): the number of neutrons is negative, only the first three of
    the four components are produced, and a Lambda is lost. *)
Theorem unphysical_breakup_refuted :
  exists a b l ch, proper a /\ proper b /\
    two_to_four (fun _ => true) (fun _ => true) 1%R a b = Ok l /\ In ch l /\
    ~ conserves [a; b] (x_out ch).
Proof.
  exists (2 ^ 30 + 3 * 2 ^ 16 + 2 * 2 ^ 6 + 2), w_p.
  exists [XCh [w_p; w_p; w_p; w_La] 1%R], (XCh [w_p; w_p; w_p; w_La] 1%R).
  splits.
  - now apply properb_spec.
  - now apply properb_spec.
  - reflexivity.
  - now left.
  - intros (_ & _ & S). discriminate S.
Qed.
Print Assumptions unphysical_breakup_refuted.

(** Nuclear excitation: nucleon or pion + nucleus -> nucleon or pion + another nucleus *)
Theorem nuclear_excitation_conserves_partial : forall on nuclei xs a b ch, proper a -> proper b ->
  (one_each is_nucleon is_nucleus a b = true /\ In ch (dn_xx on nuclei xs a b))
  \/ In ch (dpi_dprime on nuclei xs a b) ->
  total charge (x_out ch) = total charge [a; b] /\
  total baryon_number (x_out ch) = total baryon_number [a; b] /\
  (strangeness a = 0 -> strangeness b = 0 -> (forall q, In q nuclei -> strangeness q = 0) ->
   total strangeness (x_out ch) = 0).
Proof.
  intros on nuclei xs a b ch PA PB [[HD I]|I].
  - assert (NN : forall w, proper w -> is_nucleus w = true -> is_nucleon w = false).
    { intros w P N. destruct (is_nucleon w) eqn:E; [|reflexivity].
      destruct (nucleon_qn w P E) as (_ & _ & F & _). congruence. }
    assert (HD' : is_nucleon a = true /\ is_nucleus a = false /\ is_nucleus b = true
     \/ is_nucleon b = true /\ is_nucleus a = true /\ is_nucleon a = false).
    { unfold one_each in HD. rewrite orb_true_iff, !andb_true_iff in HD.
      destruct HD as [[E1 E2]|[E1 E2]]; [left|right]; splits; auto.
      now destruct (nucleon_qn a PA E1) as (_ & _ & F & _). }
    clear HD. rename HD' into HD. unfold dn_xx in I. destruct on; [|destruct I].
    apply in_map_iff in I. destruct I as [q [<- I]]. apply filter_In in I. destruct I as [I F].
    rewrite !andb_true_iff, !Z.eqb_eq in F. cbn [x_out total fold_right].
    destruct HD as [(E1 & E2 & E3)|(E1 & E2 & E3)]; rewrite ?E1, ?E2, ?E3 in *; cbv iota in *.
    + splits; try lia. intros A B Q. rewrite (Q q I). lia.
    + splits; try lia. intros A B Q. rewrite (Q q I). lia.
  - unfold dpi_dprime in I.
    pose proof (fun E => proj1 (proj2 (proj2 (pion_qn a PA E)))) as HP.
    assert (HN : is_nucleus a = true -> is_pion a = false) by (destruct (is_pion a); [intros F; rewrite HP in F by reflexivity; discriminate|reflexivity]).
    assert (DN : forall w, is_deuteron w || is_dprime w = true -> is_nucleus w = true).
    { intros w E. unfold is_deuteron, is_dprime in E.
      rewrite orb_true_iff, !andb_true_iff in E. tauto. }
    cbv beta zeta in I.
    match type of I with In _ (if ?c then _ else _) => destruct c eqn:E; [|destruct I] end.
    apply andb_true_iff in E. destruct E as [E _]. apply orb_true_iff in E. rewrite !andb_true_iff in E.
    apply in_map_iff in I. destruct I as [q [<- I]]. apply filter_In in I. destruct I as [I F].
    rewrite !andb_true_iff, !Z.eqb_eq in F. cbn [x_out total fold_right].
    destruct E as [[E1 E2]|[E1 E2]].
    + pose proof (DN a E1) as E3. pose proof (HN E3) as E4. rewrite E3, E4 in *; cbv iota in *.
      splits; try lia. intros A B Q. rewrite (Q q I). lia.
    + pose proof (HP E2) as E3. rewrite E2, E3 in *; cbv iota in *.
      splits; try lia. intros A B Q. rewrite (Q q I). lia.
Qed.
Print Assumptions nuclear_excitation_conserves_partial.

(** With nuclei of equal charge and mass number in the particle list the third conservation
    law fails: nucleon + triton -> nucleon + hypertriton is offered, although the code only
    means excitations of the same nucleus; the corresponding function for the cross section
    asserts the deuteron and d' in debug builds only. *)
Theorem nuclear_excitation_strangeness_refuted :
  exists nuclei a b ch, proper a /\ proper b /\ one_each is_nucleon is_nucleus a b = true /\
    strangeness a = 0 /\ strangeness b = 0 /\
    In ch (dn_xx true nuclei (fun _ => 1%R) a b) /\ ~ conserves [a; b] (x_out ch).
Proof.
  exists [w_d; w_t; w_ht], w_p, w_t, (XCh [w_p; w_ht] 1%R). splits.
  - now apply properb_spec.
  - now apply properb_spec.
  - reflexivity.
  - reflexivity.
  - reflexivity.
  - unfold dn_xx. change (is_nucleon w_p) with true. change (is_nucleus w_p) with false. cbv iota zeta.
    apply in_map_iff. exists w_ht. split; [reflexivity|].
    apply filter_In. split; [right; right; now left|vm_compute; reflexivity].
  - intros (_ & _ & S). cbn [x_out] in S. vm_compute in S. discriminate S.
Qed.
Print Assumptions nuclear_excitation_strangeness_refuted.

(** ** Nucleon-nucleon collisions, their inverse, and annihilation *)

Lemma is_baryon_B w : is_baryon w = true -> baryon_number w = asign w /\ is_nucleus w = false.
Proof.
  unfold is_baryon, baryon_number, is_hadron. rewrite !andb_true_iff, !negb_true_iff.
  intros [[[A B] C] D]. rewrite A, B, C, D. now cbn.
Qed.
(** Nucleons, Deltas and their excited states: baryon number one, no strangeness *)
Definition light_baryon (w : pdg) : Prop := baryon_number w = asign w /\ strangeness w = 0.
Lemma nucleon_light w : proper w -> is_nucleon w = true -> light_baryon w.
Proof. intros P H. destruct (nucleon_qn w P H) as (A & B & _). now split. Qed.
Lemma delta_light w : proper w -> is_Delta w = true -> light_baryon w.
Proof.
  intros P H. destruct (delta_words w P H) as [[I S]|[I S]]; unfold light_baryon; rewrite S; cbn in I;
    (destruct I as [<-|[<-|[<-|[<-|[]]]]]; vm_compute; auto).
Qed.
Lemma nstar_light e w : is_Nstar e w = true -> light_baryon w.
Proof.
  unfold is_Nstar. rewrite !andb_true_iff, !Z.eqb_eq. intros [[[[B _] _] S] _].
  split; [now apply is_baryon_B|assumption].
Qed.
Lemma deltastar_light e w : is_Deltastar e w = true -> light_baryon w.
Proof.
  unfold is_Deltastar. rewrite !andb_true_iff, !Z.eqb_eq. intros [[[[B _] _] S] _].
  split; [now apply is_baryon_B|assumption].
Qed.
Lemma one_each_light (f g : pdg -> bool) a b :
  (f a = true -> light_baryon a) -> (f b = true -> light_baryon b) ->
  (g a = true -> light_baryon a) -> (g b = true -> light_baryon b) ->
  one_each f g a b = true -> light_baryon a /\ light_baryon b.
Proof. unfold one_each. rewrite orb_true_iff, !andb_true_iff. tauto. Qed.

(** A nonzero matrix element means two light baryons of the same sign, or a deuteron and a pion. *)
Lemma matrix_element_classes e a b I : proper a -> proper b -> (matrix_element e a b I > 0)%R ->
  (light_baryon a /\ light_baryon b /\ asign a = asign b) \/ one_each is_deuteron is_pion a b = true.
Proof.
  intros PA PB H. unfold matrix_element in H. cbv zeta in H.
  destruct (Rlt_dec _ (sqrts (base e))); [lra|].
  pose proof (nucleon_light a PA). pose proof (nucleon_light b PB).
  pose proof (delta_light a PA). pose proof (delta_light b PB).
  pose proof (nstar_light e a). pose proof (nstar_light e b).
  pose proof (deltastar_light e a). pose proof (deltastar_light e b).
  repeat match type of H with
  | ((if ?c && (asign a =? asign b) then _ else _) > 0)%R =>
      let E := fresh "E" in destruct (c && (asign a =? asign b)) eqn:E;
      [ left; apply andb_true_iff in E; let E1 := fresh in let E2 := fresh in destruct E as [E1 E2];
        apply Z.eqb_eq in E2; rewrite <- and_assoc; split; [|exact E2];
        first [ apply (one_each_light _ _ a b) in E1; assumption
              | apply andb_true_iff in E1; tauto ] |]
  end.
  destruct (one_each is_deuteron is_pion a b); [now right|lra].
Qed.

Lemma proper_anti w : proper w -> proper (get_antiparticle w).
Proof.
  intros (W & P & N). destruct (anti_fields w W) as (W' & _ & _ & _ & _ & _ & _ & _ & EP & EN & _ & _ & _ & _ & EA & _).
  unfold proper, is_nucleus in *. rewrite EN, EP, EA. now splits.
Qed.
Lemma resonances_proper all stable : Forall proper all -> Forall proper (baryon_resonances all stable).
Proof.
  intros H. apply Forall_forall. intros w I. unfold baryon_resonances in I.
  apply in_flat_map in I. destruct I as [x [I J]]. rewrite Forall_forall in H. specialize (H x I).
  destruct (stable x || negb (baryon_number x =? 1)); [destruct J|].
  destruct J as [<-|[<-|[]]]; [assumption|now apply proper_anti].
Qed.

Lemma find_nn_in e l1 l2 a b ch : In ch (find_nn e l1 l2 a b) ->
  exists r1 r2 I, In r1 l1 /\ In r2 l2 /\ charge r1 + charge r2 = charge a + charge b /\
    In I (Irange e a b) /\ (matrix_element e r1 r2 I > 0)%R /\
    x_out ch = [r1; r2] /\ x_w ch = nn_xs e a b r1 r2 I.
Proof.
  unfold find_nn. intros H. apply in_flat_map in H. destruct H as [r1 [I1 H]].
  apply in_flat_map in H. destruct H as [r2 [I2 H]].
  destruct (Z.eqb_spec (charge r1 + charge r2) (charge a + charge b)); [|destruct H].
  apply in_flat_map in H. destruct H as [I [I3 H]].
  exists r1, r2, I. unfold nn_channel in H.
  destruct (Rlt_dec _ really_small); [destruct H|].
  destruct (Rlt_dec _ (1 / 1000)); [destruct H|].
  destruct (Rle_dec _ 0); [destruct H|].
  destruct (Rlt_dec really_small _); [|destruct H].
  destruct H as [<-|[]]. cbn [x_out x_w]. splits; auto; lra.
Qed.

Theorem nucleon_nucleon_conserves : forall e nr dr dpi all stable a b ch,
  Forall proper all -> proper a -> proper b ->
  is_nucleon a = true -> is_nucleon b = true -> asign a = asign b ->
  In ch (nn_xx e nr dr dpi (baryon_resonances all stable) a b) -> conserves [a; b] (x_out ch).
Proof.
  intros e nr dr dpi all stable a b ch PR PA PB NA NB SG I.
  pose proof (resonances_proper all stable PR) as PR'. rewrite Forall_forall in PR'.
  destruct (nucleon_light a PA NA) as [BA SA]. destruct (nucleon_light b PB NB) as [BB SB].
  unfold nn_xx in I. cbv zeta in I.
  set (anti2 := (asign a =? -1) && (asign b =? -1)) in *.
  assert (AA : asign a = if anti2 then -1 else 1).
  { unfold anti2. rewrite <- SG. destruct (asign_cases a) as [-> | ->]; reflexivity. }
  assert (K : forall l, (forall w, In w l -> proper w /\ is_pion w = false /\ is_deuteron w = false
                                              /\ asign w = asign a) ->
     In ch (find_nn e (baryon_resonances all stable) l a b) -> conserves [a; b] (x_out ch)).
  { intros l Hl J. apply find_nn_in in J. destruct J as (r1 & r2 & II & I1 & I2 & Q & _ & M & O & _).
    destruct (Hl r2 I2) as (P2 & Np & Nd & S2).
    destruct (matrix_element_classes e r1 r2 II (PR' r1 I1) P2 M) as [([B1 T1] & [B2 T2] & SS)|D].
    - rewrite O. unfold conserves. cbn [total fold_right]. rewrite BA, BB, SA, SB, B1, B2, T1, T2. lia.
    - unfold one_each in D. rewrite Np, Nd in D. rewrite andb_false_r in D. discriminate D. }
  clearbody anti2.
  apply in_app_or in I. destruct I as [I|I]; [|apply in_app_or in I; destruct I as [I|I]].
  - destruct nr; [|destruct I]. refine (K _ _ I). rewrite AA.
    destruct anti2; intros w J; cbn in J;
    (destruct J as [<-|[<-|[]]]; (split; [now apply properb_spec|vm_compute; auto])).
  - destruct dr; [|destruct I]. refine (K _ _ I). rewrite AA.
    destruct anti2; intros w J; cbn in J;
    (destruct J as [<-|[<-|[<-|[<-|[]]]]]; (split; [now apply properb_spec|vm_compute; auto])).
  - destruct dpi; [|destruct I]. apply find_nn_in in I.
    destruct I as (r1 & r2 & II & I1 & I2 & Q & _ & _ & O & _). rewrite O.
    assert (P2 : baryon_number r2 = 0 /\ strangeness r2 = 0).
    { destruct I2 as [<-|[<-|[<-|[]]]]; split; reflexivity. }
    assert (D : baryon_number r1 = 2 * asign a /\ strangeness r1 = 0).
    { rewrite AA. destruct anti2; destruct I1 as [<-|[]]; split; reflexivity. }
    unfold conserves. cbn [total fold_right]. lia.
Qed.
Print Assumptions nucleon_nucleon_conserves.

Lemma absorb_in e pf l a b ch : In ch (absorb e pf l a b) ->
  exists n1 n2 I, In n1 l /\ In n2 l /\ charge n1 + charge n2 = charge a + charge b /\
    In I (Irange e n1 n2) /\ (matrix_element e a b I > 0)%R /\
    x_out ch = [n1; n2] /\ x_w ch = absorb_xs e a b n1 n2 I (pf n1 n2).
Proof.
  unfold absorb. intros H. apply in_flat_map in H. destruct H as [r1 [I1 H]].
  apply in_flat_map in H. destruct H as [r2 [I2 H]].
  destruct (Z.eqb_spec (charge a + charge b) (charge r1 + charge r2)); [|destruct H].
  apply in_flat_map in H. destruct H as [I [I3 H]].
  exists r1, r2, I. unfold absorb_channel in H.
  destruct (Rlt_dec _ really_small); [destruct H|].
  destruct (Rle_dec _ 0); [destruct H|].
  destruct (Rlt_dec really_small _); [|destruct H].
  destruct H as [<-|[]]. cbn [x_out x_w]. splits; auto; lra.
Qed.
Lemma nucleon_list_qn (s : bool) w :
  In w (if s then map get_antiparticle nucleons else nucleons) ->
  baryon_number w = (if s then -1 else 1) /\ strangeness w = 0.
Proof. destruct s; cbn; intros [<-|[<-|[]]]; split; reflexivity. Qed.

(** Two baryons, or a deuteron and a pion, back to two nucleons *)
Theorem absorption_conserves : forall e mN nr dr on a b ch, proper a -> proper b ->
  (is_baryon a = true /\ is_baryon b = true /\ In ch (bb_xx_except_nn e mN nr dr a b))
  \/ In ch (dpi_nn e on a b) ->
  conserves [a; b] (x_out ch).
Proof.
  intros e mN nr dr on a b ch PA PB [(BA & BB & I)|I].
  - assert (J : In ch (bar_bar_to_nuc_nuc e mN (asign a =? -1) a b)).
    { unfold bb_xx_except_nn in I.
      repeat match type of I with In _ (if ?c then _ else _) => destruct c end; auto; destruct I. }
    clear I. unfold bar_bar_to_nuc_nuc in J. apply absorb_in in J.
    destruct J as (n1 & n2 & II & I1 & I2 & Q & _ & M & O & _).
    apply nucleon_list_qn in I1, I2.
    destruct (is_baryon_B a BA) as [EA NA]. destruct (is_baryon_B b BB) as [EB NB].
    destruct (matrix_element_classes e a b II PA PB M) as [([B1 T1] & [B2 T2] & SS)|D].
    + rewrite O. unfold conserves. cbn [total fold_right].
      destruct I1 as [-> ->], I2 as [-> ->]. rewrite T1, T2, EA, EB, <- SS.
      destruct (asign_cases a) as [E|E]; rewrite E; cbn [Z.eqb]; splits; try lia; reflexivity.
    + exfalso. unfold one_each in D. rewrite orb_true_iff, !andb_true_iff in D.
      destruct D as [[D _]|[D _]]; apply deuteron_qn in D; destruct D as (_ & _ & _ & _ & _ & D); congruence.
  - unfold dpi_nn in I. destruct (one_each is_deuteron is_pion a b) eqn:E; cbn [andb] in I; [|destruct I].
    destruct on; [|destruct I]. apply absorb_in in I.
    destruct I as (n1 & n2 & II & I1 & I2 & Q & _ & M & O & _).
    assert (F : exists s, (if 0 <? baryon_number a + baryon_number b then nucleons
        else map get_antiparticle nucleons) = (if s : bool then map get_antiparticle nucleons else nucleons)
        /\ baryon_number a + baryon_number b = (if s then -2 else 2) /\ strangeness a + strangeness b = 0).
    { unfold one_each in E. rewrite orb_true_iff, !andb_true_iff in E.
      assert (G : exists s, baryon_number a + baryon_number b = 2 * s /\ (s = 1 \/ s = -1)
                  /\ strangeness a + strangeness b = 0).
      { destruct E as [[D P]|[D P]]; [exists (asign a)|exists (asign b)];
        (apply deuteron_qn in D; apply pion_qn in P; [|assumption];
         destruct D as (_ & D1 & D2 & _); destruct P as (P1 & P2 & _); rewrite D1, D2, P1, P2;
         splits; try lia; apply asign_cases). }
      destruct G as (s & G1 & [->| ->] & G3); rewrite G1; [exists false|exists true]; splits; auto. }
    destruct F as (s & F1 & F2 & F3). rewrite F1 in I1, I2. apply nucleon_list_qn in I1, I2.
    rewrite O. unfold conserves. cbn [total fold_right].
    destruct I1 as [-> ->], I2 as [-> ->]. destruct s; lia.
Qed.
Print Assumptions absorption_conserves.

(** Annihilation of a nucleon and its antinucleon into five pions or rho0 h1, and the inverse *)
Theorem nucleon_antinucleon_conserves : forall env xs scale current enough w a b ch, word w ->
  (ch = nnbar_to_5pi env scale \/ ch = nnbar_annihilation env current scale ->
     conserves [w; get_antiparticle w] (x_out ch)) /\
  (In ch (nnbar_creation xs enough a b) -> conserves [a; b] (x_out ch)) /\
  (* together with what there is already, the annihilation channel gives the proton-antiproton
     total, unless that is exceeded *)
  (current + x_w (nnbar_annihilation env current scale) = Rmax current (sigma env PPbar_tot * scale))%R.
Proof.
  intros env xs scale current enough w a b ch W. splits.
  - pose proof (charge_anti w W). pose proof (baryon_number_anti w W). pose proof (nq_anti w 3 W).
    assert (T : total charge [w; get_antiparticle w] = 0 /\ total baryon_number [w; get_antiparticle w] = 0
                /\ total strangeness [w; get_antiparticle w] = 0).
    { unfold strangeness. cbn [total fold_right]. lia. }
    destruct T as (T1 & T2 & T3). unfold conserves. rewrite T1, T2, T3. clear.
    intros [-> | ->]; cbn [x_out nnbar_to_5pi nnbar_annihilation]; splits; reflexivity.
  - unfold nnbar_creation. destruct (_ || _) eqn:E; [|intros []].
    destruct enough; [|intros []].
    assert (T : (a = w_rhoz /\ b = w_h1) \/ (a = w_h1 /\ b = w_rhoz)).
    { rewrite orb_true_iff, !andb_true_iff, !Z.eqb_eq in E. exact E. }
    intros [<-|[<-|[]]]; cbn [x_out]; destruct T as [[-> ->]|[-> ->]]; unfold conserves; splits; reflexivity.
  - cbn [x_w nnbar_annihilation]. unfold Rmax. destruct (Rle_dec 0 _), (Rle_dec current _); lra.
Qed.
Print Assumptions nucleon_antinucleon_conserves.

(** Cases which meet the hypotheses, with channels: *)
Example conservation_applies :
  In (XCh [w_Dpp] 1%R) (two_to_one (possible_resonances [w_p; w_Dpp] (fun w => w =? w_p) (fun _ _ _ => true) w_p w_pip) (fun _ => 1%R)) /\
  In (XCh [w_pip; w_p; w_n] 1%R) (two_to_three 1%R w_pip w_d) /\
  (exists l, two_to_four (fun _ => true) (fun _ => true) 1%R w_n w_ht = Ok l /\ In (XCh [w_n; w_p; w_n; w_La] 1%R) l) /\
  proper w_pip /\ proper w_d /\ proper w_p /\ proper w_ht /\ proper (anti w_p) /\ asign (anti w_p) = asign (anti w_n) /\
  (nuc_Z w_ht + nuc_L w_ht <= nuc_A w_ht).
Proof.
  splits; try (now apply properb_spec); try reflexivity; try (vm_compute; congruence).
  - unfold two_to_one. apply in_flat_map. exists w_Dpp. split; [vm_compute; auto|].
    destruct (Rlt_dec really_small 1) as [|N]; [now left|]. exfalso. apply N. unfold really_small. lra.
  - unfold two_to_three. change (is_deuteron w_pip && is_pion w_d || is_deuteron w_d && is_pion w_pip) with true.
    cbv iota zeta. change (is_pion w_pip) with true. change (is_nucleus w_pip) with false. cbv iota.
    change (0 <? baryon_number w_d) with true. left. reflexivity.
  - exists [XCh [w_n; w_p; w_n; w_La] 1%R]. split; [reflexivity|now left].
Qed.
