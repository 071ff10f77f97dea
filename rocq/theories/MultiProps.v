(** Reactions of three, four and five particles (C107). *)
From Coq Require Import String.
From Coq Require Import ZArith List Bool Lia Permutation Reals Lra Factorial.
From Verif Require Import Base PdgModel VecModel VecProps KinProps MotionModel FinalProps MultiModel.
Import ListNotations.
Open Scope Z_scope.

(** ** Specification *)
(** What a light nucleus is made of. *)
Inductive made_of : pdg -> list pdg -> Prop :=
| of_d : made_of w_d [w_p; w_n]
| of_ad : made_of w_ad [anti w_p; anti w_n]
| of_t : made_of w_t [w_p; w_n; w_n]
| of_at : made_of w_at [anti w_p; anti w_n; anti w_n]
| of_he3 : made_of w_he3 [w_p; w_p; w_n]
| of_ahe3 : made_of w_ahe3 [anti w_p; anti w_p; anti w_n]
| of_ht : made_of w_ht [w_p; w_n; w_La]
| of_aht : made_of w_aht [anti w_p; anti w_n; anti w_La].
(** Nucleons, antinucleons and pions are catalysts. *)
Definition catalysts : list pdg := [w_p; w_n; anti w_p; anti w_n; w_pip; w_piz; w_pim].
(** The reactions of the documentation, up to the order of the incoming particles. *)
Inductive reaction (known : pdg -> bool) (i : included) : list pdg -> list pdg -> Prop :=
| to_vector w : meson31 i = true -> w = w_omega \/ w = w_phi -> known w = true ->
    reaction known i [w_pip; w_piz; w_pim] [w]
| to_etap_neutral : meson31 i = true -> known w_etap = true -> reaction known i [w_piz; w_piz; w_eta] [w_etap]
| to_etap_charged : meson31 i = true -> known w_etap = true -> reaction known i [w_pip; w_pim; w_eta] [w_etap]
| to_deuteron c d l : deut32 i = true -> In c catalysts -> d = w_d \/ d = w_ad -> made_of d l ->
    known w_d = true -> known w_ad = true -> reaction known i (c :: l) [c; d]
| to_a3 c a l : a3_42 i = true -> In c catalysts -> In a [w_t; w_at; w_he3; w_ahe3; w_ht; w_aht] -> made_of a l ->
    known a = true -> reaction known i (c :: l) [c; a]
| to_nnbar n : nnbar52 i = true -> n = w_p \/ n = w_n -> known w_p = true -> known w_n = true ->
    reaction known i [w_pip; w_pip; w_pim; w_pim; w_piz] [n; anti n].
(** A word as the particle list holds them: a hadron or lepton word has no bits outside digits and
    sign, and a nucleus has a mass number. *)
Definition plain (w : pdg) : Prop :=
  0 <= w < 2 ^ 28 \/ 2 ^ 31 <= w < 2 ^ 31 + 2 ^ 28 \/ 65536 <= ucode w.
Definition total (f : pdg -> Z) (l : list pdg) : Z := fold_right Z.add 0 (map f l).
(** spin degeneracy, and its product *)
Definition degeneracy (w : pdg) : Z := match sdeg w with Ok g => g | _ => 0 end.
Definition product (l : list Z) : Z := fold_right Z.mul 1 l.
(** product of the factorials of the multiplicities *)
Definition identical (l : list pdg) : Z :=
  product (map (fun k => Z.of_nat (fact (count_occ Z.eq_dec l k))) (nodup Z.eq_dec l)).

(** ** Lists *)
Lemma perm3 {A} (a b c x y z : A) : Permutation [a; b; c] [x; y; z] ->
  (a = x /\ b = y /\ c = z) \/ (a = x /\ b = z /\ c = y) \/ (a = y /\ b = x /\ c = z) \/
  (a = y /\ b = z /\ c = x) \/ (a = z /\ b = x /\ c = y) \/ (a = z /\ b = y /\ c = x).
Proof.
  intros H. pose proof (Permutation_in a H (or_introl eq_refl)) as I. cbn [In] in I.
  destruct I as [<-|[<-|[<-|[]]]].
  - apply Permutation_cons_inv in H. apply Permutation_length_2 in H. tauto.
  - apply (Permutation_cons_app_inv [x] [z]) in H. apply Permutation_length_2 in H. tauto.
  - apply (Permutation_cons_app_inv [x; y] []) in H. apply Permutation_length_2 in H. tauto.
Qed.
Ltac perm_solve :=
  apply (Permutation_count_occ Z.eq_dec); intros ?q; cbn [count_occ];
  repeat match goal with |- context [Z.eq_dec ?a ?b] => destruct (Z.eq_dec a b) end; reflexivity.
Lemma sub_multiset (A : list pdg) : forall l, (forall k, (count_occ Z.eq_dec A k <= count_occ Z.eq_dec l k)%nat) -> exists r, Permutation l (A ++ r).
Proof.
  induction A as [|a A IH]; intros l H; [exists l; reflexivity|].
  assert (I : In a l). { apply (count_occ_In Z.eq_dec). specialize (H a). rewrite count_occ_cons_eq in H by reflexivity. lia. }
  apply in_split in I. destruct I as (l1 & l2 & ->). destruct (IH (l1 ++ l2)) as [r R].
  - intros k. specialize (H k). rewrite count_occ_app in *. cbn [count_occ] in H. destruct (Z.eq_dec a k); lia.
  - exists r. rewrite <- Permutation_middle. cbn [app]. now constructor.
Qed.
Lemma find_unique (f : pdg -> bool) l k : In k l -> f k = true -> (forall x, In x l -> f x = true -> x = k) -> find f l = Some k.
Proof.
  induction l as [|y l IH]; cbn [In find]; intros I F U; [destruct I|]. destruct (f y) eqn:E.
  - f_equal. apply U; auto.
  - apply IH; auto. destruct I as [->|]; [congruence|auto].
Qed.
Lemma kinsert_in k x l : In x (kinsert k l) <-> x = k \/ In x l.
Proof.
  induction l as [|y l IH]; cbn [kinsert In]; [intuition|]. unfold pdg_lt. destruct (k <? y) eqn:A; [cbn [In]; intuition|].
  destruct (y <? k) eqn:B; cbn [In]; [rewrite IH; intuition|]. apply Z.ltb_ge in A, B. assert (k = y) by lia. subst. intuition.
Qed.
Lemma keys_in x l : In x (keys l) <-> In x l.
Proof. induction l as [|y l IH]; cbn [keys fold_right In]; [tauto|]. fold (keys l). rewrite kinsert_in, IH. intuition. Qed.
Definition lower (b : pdg) (l : list pdg) : Prop := forall x, In x l -> b < x.
Fixpoint ascending (l : list pdg) : Prop := match l with [] => True | x :: r => lower x r /\ ascending r end.
Lemma kinsert_asc k l : ascending l -> ascending (kinsert k l).
Proof.
  induction l as [|y l IH]; cbn [kinsert ascending]; [intros _; split; [intros x []|exact I]|]. intros [L A]. unfold pdg_lt.
  destruct (k <? y) eqn:E; [apply Z.ltb_lt in E; cbn [ascending]; splits; auto; intros x [<-|H]; [auto|specialize (L x H); lia]|].
  destruct (y <? k) eqn:F; cbn [ascending]; split; auto. apply Z.ltb_lt in F. intros x H. apply kinsert_in in H. destruct H as [->|H]; auto.
Qed.
Lemma keys_asc l : ascending (keys l).
Proof. induction l as [|y l IH]; cbn [keys fold_right]; [exact I|]. apply kinsert_asc. exact IH. Qed.
Lemma asc_nodup l : ascending l -> NoDup l.
Proof. induction l as [|x l IH]; intros H; constructor; destruct H as [L A]; auto. intros H. specialize (L x H). lia. Qed.
Lemma keys_perm l : Permutation (keys l) (nodup Z.eq_dec l).
Proof.
  apply NoDup_Permutation; [apply asc_nodup, keys_asc|apply NoDup_nodup|]. intros x. rewrite keys_in, nodup_In. tauto.
Qed.
Lemma product_perm a b : Permutation a b -> product a = product b.
Proof. unfold product. induction 1; cbn [fold_right]; lia. Qed.
Lemma identical_perm a b : Permutation a b -> identical a = identical b.
Proof.
  intros P. unfold identical. rewrite (map_ext (fun k => Z.of_nat (fact (count_occ Z.eq_dec a k))) (fun k => Z.of_nat (fact (count_occ Z.eq_dec b k)))).
  - apply product_perm, Permutation_map. apply NoDup_Permutation; try apply NoDup_nodup. intros x. rewrite !nodup_In. split; apply Permutation_in; [auto|now symmetry].
  - intros k. do 2 f_equal. now apply Permutation_count_occ.
Qed.
Lemma cnt_perm k a b : Permutation a b -> cnt k a = cnt k b.
Proof. intros P. unfold cnt. f_equal. now apply Permutation_count_occ. Qed.
Lemma total_perm f a b : Permutation a b -> total f a = total f b.
Proof. unfold total. induction 1; cbn [map fold_right]; lia. Qed.

(** ** Species *)
Lemma plain_code w : plain w -> code w = w \/ code w = - (w - 2 ^ 31) /\ 2 ^ 31 <= w \/ 65536 <= Z.abs (code w).
Proof.
  unfold code, asign. intros [H|[H|H]]; [| |right; right; destruct (is_anti w); lia]; unfold is_anti, anti_bit, field, ucode.
  - left. rewrite (Z.mod_small w (2 ^ 28)) by lia. rewrite Z.div_small by lia. change (0 mod 2 ^ 1 =? 1) with false. cbv iota. lia.
  - right. left. assert (E : w / 2 ^ 31 = 1) by (symmetry; apply (Z.div_unique _ _ _ (w - 2 ^ 31)); lia). rewrite E.
    change (1 mod 2 ^ 1 =? 1) with true. cbv iota. split; [|lia].
    replace (w mod 2 ^ 28) with (w - 2 ^ 31); [lia|]. apply (Z.mod_unique _ _ 8); lia.
Qed.
Lemma plain_range w : plain w -> forall c, code w = c -> - 65536 < c < 65536 -> c <> 0 -> w = if 0 <? c then c else 2 ^ 31 - c.
Proof.
  intros P c E R N. assert (Q := plain_code w P).
  assert (H : 0 <= w < 2 ^ 28 \/ 2 ^ 31 <= w < 2 ^ 31 + 2 ^ 28).
  { destruct P as [H|[H|H]]; auto. exfalso. unfold code, asign in E. destruct (is_anti w); lia. }
  destruct Q as [Q|[[Q L]|Q]]; [|destruct (0 <? c) eqn:F; [apply Z.ltb_lt in F|apply Z.ltb_ge in F]; lia|lia].
  destruct (0 <? c) eqn:F; [apply Z.ltb_lt in F; lia|]. apply Z.ltb_ge in F. destruct H; lia.
Qed.
Lemma is_pion_spec w : plain w -> is_pion w = true <-> In w [w_pip; w_piz; w_pim].
Proof.
  intros P. unfold is_pion. rewrite !orb_true_iff, !Z.eqb_eq. split.
  - intros [[H|H]|H]; apply (plain_range w P) in H; try lia; cbn [In]; subst w; vm_compute; tauto.
  - cbn [In]. intros [<-|[<-|[<-|[]]]]; vm_compute; tauto.
Qed.
Lemma is_nucleon_spec w : plain w -> is_nucleon w = true <-> In w [w_p; w_n; anti w_p; anti w_n].
Proof.
  intros P. unfold is_nucleon. rewrite !orb_true_iff, !Z.eqb_eq. split.
  - intros H. assert (K : code w = 8722 \/ code w = -8722 \/ code w = 8466 \/ code w = -8466) by lia.
    destruct K as [K|[K|[K|K]]]; apply (plain_range w P) in K; try lia; cbn [In]; subst w; vm_compute; tauto.
  - cbn [In]. intros [<-|[<-|[<-|[<-|[]]]]]; vm_compute; tauto.
Qed.

(** ** Conditions *)
Lemma six_orders_spec kind p n a b c : six_orders kind p n a b c = true <-> exists x, kind x = true /\ Permutation [a; b; c] [x; p; n].
Proof.
  unfold six_orders. rewrite !orb_true_iff, !andb_true_iff, !Z.eqb_eq. split.
  - intros [[[[[[[K ->] ->]|[[K ->] ->]]|[[-> K] ->]]|[[-> K] ->]]|[[-> ->] K]]|[[-> ->] K]]; eexists; (split; [exact K|perm_solve]).
  - intros (x & K & P). apply perm3 in P. intuition (subst; tauto).
Qed.
Lemma different_pions_spec a b c : plain a -> plain b -> plain c ->
  three_different_pions a b c = true <-> Permutation [a; b; c] [w_pip; w_piz; w_pim].
Proof.
  intros A B C. unfold three_different_pions. rewrite !andb_true_iff, !negb_true_iff, !Z.eqb_neq, !is_pion_spec by auto. split.
  - cbn [In]. intros ([[I J] K] & [[N1 N2] N3]).
    destruct I as [<-|[<-|[<-|[]]]]; destruct J as [<-|[<-|[<-|[]]]]; try congruence; destruct K as [<-|[<-|[<-|[]]]]; try congruence; perm_solve.
  - intros P. apply perm3 in P. cbn [In]. destruct P as [P|[P|[P|[P|[P|P]]]]]; destruct P as (-> & -> & ->); splits; try tauto; vm_compute; congruence.
Qed.
Lemma pions_eta_spec a b c : two_pions_eta a b c = true <->
  Permutation [a; b; c] [w_piz; w_piz; w_eta] \/ Permutation [a; b; c] [w_pip; w_pim; w_eta].
Proof.
  unfold two_pions_eta. rewrite !orb_true_iff, !andb_true_iff, !Z.eqb_eq. split.
  - intros H. repeat destruct H as [H|H]; destruct H as [[-> ->] ->]; try (left; perm_solve); right; perm_solve.
  - intros [P|P]; apply perm3 in P; intuition (subst; tauto).
Qed.

(** ** The channels *)
Definition good (inc : list pdg) (P : list pdg -> Prop) (l : list channel) : Prop :=
  NoDup (map out l) /\ (forall o, In o (map out l) <-> P o) /\
  (forall ch, In ch l -> num ch * product (map degeneracy inc) = den ch * (identical inc * product (map degeneracy (out ch)))).
Lemma good_nil inc (P : list pdg -> Prop) : (forall o, ~ P o) -> good inc P [].
Proof. intros N. unfold good. splits; [constructor|intros o; split; [intros []|intros H; destruct (N o H)]|intros ch []]. Qed.
Lemma good_app inc P Q l m : good inc P l -> good inc Q m -> (forall o, P o -> Q o -> False) -> good inc (fun o => P o \/ Q o) (l ++ m).
Proof.
  intros (N1 & I1 & F1) (N2 & I2 & F2) D. unfold good. rewrite map_app. splits.
  - clear F1 F2. assert (D' : forall o, In o (map out l) -> ~ In o (map out m)) by (intros o A B; apply (D o); [apply I1|apply I2]; auto).
    clear I1 I2 D. revert N1 D'. induction (map out l) as [|x r IH]; intros N1 D'; cbn [app]; auto. inversion N1; subst. constructor.
    + rewrite in_app_iff. intros [H|H]; [auto|]. apply (D' x); [now left|auto].
    + apply IH; auto. intros o H. apply D'. now right.
  - intros o. rewrite in_app_iff, I1, I2. tauto.
  - intros ch H. apply in_app_iff in H. destruct H; auto.
Qed.
Lemma good_one inc (P : list pdg -> Prop) ch : (forall o, P o <-> o = out ch) ->
  num ch * product (map degeneracy inc) = den ch * (identical inc * product (map degeneracy (out ch))) -> good inc P [ch].
Proof.
  intros H F. unfold good. splits; cbn [map In].
  - constructor; [intros []|constructor].
  - intros o. rewrite H. intuition.
  - intros c [<-|[]]. exact F.
Qed.
Lemma good_iff inc (P Q : list pdg -> Prop) l : (forall o, P o <-> Q o) -> good inc P l -> good inc Q l.
Proof. intros E (N & I & F). unfold good. splits; auto. intros o. now rewrite I. Qed.

Lemma degeneracy_perm a b : Permutation a b -> product (map degeneracy a) = product (map degeneracy b).
Proof. intros P. apply product_perm. now apply Permutation_map. Qed.

Lemma mesons_to_good known w sym l inc (Q : Prop) : In w [w_omega; w_phi; w_etap] -> mesons_to known w sym = Ok l ->
  (Q /\ sym = identical inc /\ product (map degeneracy inc) = 1) -> good inc (fun o => o = [w] /\ known w = true /\ Q) l.
Proof.
  intros W E (q & S & D). unfold mesons_to in E. destruct (known w).
  - assert (G : sdeg w = Ok (degeneracy w)) by (cbn [In] in W; destruct W as [<-|[<-|[<-|[]]]]; vm_compute; reflexivity).
    rewrite G in E. cbn [rbind] in E. injection E as <-. apply good_one; cbn [out num den map].
    + intros o. intuition.
    + rewrite D, S. cbn [product fold_right]. ring.
  - injection E as <-. apply good_nil. intros o (_ & H & _). discriminate.
Qed.
Lemma three_to_one_good known a b c l : plain a -> plain b -> plain c -> three_to_one known a b c = Ok l ->
  good [a; b; c] (fun o => ((o = [w_omega] /\ known w_omega = true \/ o = [w_phi] /\ known w_phi = true) /\ Permutation [a; b; c] [w_pip; w_piz; w_pim])
    \/ (o = [w_etap] /\ known w_etap = true /\ (Permutation [a; b; c] [w_piz; w_piz; w_eta] \/ Permutation [a; b; c] [w_pip; w_pim; w_eta]))) l.
Proof.
  intros A B C E. unfold three_to_one in E.
  pose proof (different_pions_spec a b c A B C) as D1. pose proof (pions_eta_spec a b c) as D2.
  assert (X : Permutation [a; b; c] [w_pip; w_piz; w_pim] -> ~ (Permutation [a; b; c] [w_piz; w_piz; w_eta] \/ Permutation [a; b; c] [w_pip; w_pim; w_eta])).
  { intros P [Q|Q]; rewrite P in Q; apply (Permutation_count_occ Z.eq_dec) with (x := w_eta) in Q; vm_compute in Q; discriminate. }
  destruct (three_different_pions a b c).
  - assert (P := proj1 D1 eq_refl). specialize (X P). assert (S : 1 = identical [a; b; c]) by (rewrite (identical_perm _ _ P); vm_compute; reflexivity).
    assert (G : product (map degeneracy [a; b; c]) = 1) by (rewrite (degeneracy_perm _ _ P); vm_compute; reflexivity).
    destruct (mesons_to known w_omega 1) as [l1| |] eqn:E1; cbn [rbind] in E; try discriminate.
    destruct (mesons_to known w_phi 1) as [l2| |] eqn:E2; cbn [rbind] in E; try discriminate. injection E as <-.
    eapply good_iff; [|apply good_app; [apply (mesons_to_good _ w_omega _ _ _ True ltac:(cbn [In]; tauto) E1); auto|apply (mesons_to_good _ w_phi _ _ _ True ltac:(cbn [In]; tauto) E2); auto|]].
    + intros o. cbv beta. clear - P X. tauto.
    + intros o (-> & _) (H & _). vm_compute in H. discriminate.
  - assert (N : ~ Permutation [a; b; c] [w_pip; w_piz; w_pim]) by (intros H; apply D1 in H; discriminate). destruct (two_pions_eta a b c).
    + assert (P := proj1 D2 eq_refl). eapply good_iff; [|eapply (mesons_to_good _ w_etap _ _ _ True ltac:(cbn [In]; tauto) E)].
      * intros o. cbv beta. clear - P N. tauto.
      * splits; auto; destruct P as [P|P].
        -- rewrite (identical_perm _ _ P). apply perm3 in P. destruct P as [P|[P|[P|[P|[P|P]]]]]; destruct P as (-> & -> & ->); vm_compute; reflexivity.
        -- rewrite (identical_perm _ _ P). apply perm3 in P. destruct P as [P|[P|[P|[P|[P|P]]]]]; destruct P as (-> & -> & ->); vm_compute; reflexivity.
        -- rewrite (degeneracy_perm _ _ P). vm_compute. reflexivity.
        -- rewrite (degeneracy_perm _ _ P). vm_compute. reflexivity.
    + injection E as <-. apply good_nil. intros o [[_ H]|(_ & _ & H)]; [auto|]. apply D2 in H. discriminate.
Qed.

Lemma cancel_pair (x y p n : pdg) l : Permutation l [x; p; n] -> Permutation l [y; p; n] -> x = y.
Proof. intros P Q. rewrite P in Q. apply (Permutation_app_inv_r [p; n] [x] [y]) in Q. now apply Permutation_length_1 in Q. Qed.
Lemma two_out_ok s g o1 o2 ch : two_out s g o1 o2 = Ok ch -> ch = Channel [o1; o2] (s * (degeneracy o1 * degeneracy o2)) g.
Proof.
  unfold two_out, degeneracy. destruct (sdeg o1); cbn [rbind]; try discriminate. destruct (sdeg o2); cbn [rbind]; try discriminate. now injection 1 as <-.
Qed.
Lemma pion_catalyst_good p n d gin a b c l : plain a -> plain b -> plain c -> (p = w_p /\ n = w_n \/ p = anti w_p /\ n = anti w_n) ->
  gin = product (map degeneracy [a; b; c]) -> pion_catalyst p n d gin a b c = Ok l ->
  good [a; b; c] (fun o => exists x, In x [w_pip; w_piz; w_pim] /\ Permutation [a; b; c] [x; p; n] /\ o = [x; d]) l.
Proof.
  intros A B C PN G E. unfold pion_catalyst in E. pose proof (six_orders_spec is_pion p n a b c) as S6.
  assert (NP : is_pion p = false /\ is_pion n = false) by (destruct PN as [[-> ->]|[-> ->]]; vm_compute; auto).
  assert (PL : forall y, In y [a; b; c] -> plain y) by (cbn [In]; intros y [<-|[<-|[<-|[]]]]; auto).
  destruct (six_orders is_pion p n a b c).
  - destruct (proj1 S6 eq_refl) as (x & K & P).
    assert (I : In x [a; b; c]) by (apply (Permutation_in _ (Permutation_sym P)); now left).
    rewrite (find_unique is_pion [a; b; c] x) in E; auto.
    + destruct (two_out 1 gin x d) as [ch| |] eqn:T; cbn [rbind] in E; try discriminate. injection E as <-. apply two_out_ok in T. subst ch.
      assert (K' := proj1 (is_pion_spec x (PL x I)) K). apply good_one; cbn [out num den].
      * intros o. split; [|intros ->; eauto]. intros (y & _ & Q & ->). now rewrite (cancel_pair _ _ _ _ _ P Q).
      * rewrite <- G, (identical_perm _ _ P). assert (Y : identical [x; p; n] = 1).
        { cbn [In] in K'. destruct PN as [[-> ->]|[-> ->]]; destruct K' as [<-|[<-|[<-|[]]]]; vm_compute; reflexivity. }
        rewrite Y. cbn [map product fold_right]. ring.
    + intros y Hy Ky. apply (Permutation_in _ P) in Hy. cbn [In] in Hy. destruct Hy as [<-|[<-|[<-|[]]]]; [auto| |]; destruct NP; congruence.
  - injection E as <-. apply good_nil. intros o (x & I & P & _). assert (false = true); [|discriminate]. apply S6. exists x. split; auto.
    apply is_pion_spec; auto. apply PL. apply (Permutation_in _ (Permutation_sym P)). now left.
Qed.
Lemma nucleon_catalyst_good p n d sign gin a b c l : plain a -> plain b -> plain c ->
  (p = w_p /\ n = w_n /\ sign = -1 \/ p = anti w_p /\ n = anti w_n /\ sign = 1) ->
  gin = product (map degeneracy [a; b; c]) -> nucleon_catalyst p n d sign gin a b c = Ok l ->
  good [a; b; c] (fun o => exists x, In x [w_p; w_n; anti w_p; anti w_n] /\ Permutation [a; b; c] [x; p; n] /\ o = [x; d]) l.
Proof.
  intros A B C PN G E. unfold nucleon_catalyst in E. pose proof (six_orders_spec is_nucleon p n a b c) as S6.
  assert (PL : forall y, In y [a; b; c] -> plain y) by (cbn [In]; intros y [<-|[<-|[<-|[]]]]; auto).
  destruct (six_orders is_nucleon p n a b c).
  - destruct (proj1 S6 eq_refl) as (x & K & P).
    assert (I : In x [a; b; c]) by (apply (Permutation_in _ (Permutation_sym P)); now left).
    assert (K' := proj1 (is_nucleon_spec x (PL x I)) K).
    assert (Y : match find (fun w => asign w =? sign) [a; b; c] with Some x => (x, 1) | None => ((if a =? b then a else c), 2) end = (x, identical [a; b; c])).
    { clear - P K' PN. apply perm3 in P. cbn [In] in K'. destruct K' as [<-|[<-|[<-|[<-|[]]]]]; destruct PN as [(-> & -> & ->)|(-> & -> & ->)];
        destruct P as [P|[P|[P|[P|[P|P]]]]]; destruct P as (-> & -> & ->); vm_compute; reflexivity. }
    rewrite Y in E. destruct (two_out (identical [a; b; c]) gin x d) as [ch| |] eqn:T; cbn [rbind] in E; try discriminate. injection E as <-. apply two_out_ok in T. subst ch.
    apply good_one; cbn [out num den].
    + intros o. split; [|intros ->; eauto]. intros (y & _ & Q & ->). now rewrite (cancel_pair _ _ _ _ _ P Q).
    + rewrite <- G. change (product (map degeneracy [x; d])) with (degeneracy x * (degeneracy d * 1)). ring.
  - injection E as <-. apply good_nil. intros o (x & I & P & _). assert (false = true); [|discriminate]. apply S6. exists x. split; auto.
    apply is_nucleon_spec; auto. apply PL. apply (Permutation_in _ (Permutation_sym P)). now left.
Qed.

Lemma three_to_two_good known a b c l : plain a -> plain b -> plain c -> three_to_two known a b c = Ok l ->
  good [a; b; c] (fun o => known w_d = true /\ known w_ad = true /\
    exists x d k, In x catalysts /\ (d = w_d \/ d = w_ad) /\ made_of d k /\ Permutation [a; b; c] (x :: k) /\ o = [x; d]) l.
Proof.
  intros A B C E. unfold three_to_two in E.
  destruct (sdeg a) as [ga| |] eqn:GA; cbn [rbind] in E; try discriminate. destruct (sdeg b) as [gb| |] eqn:GB; cbn [rbind] in E; try discriminate.
  destruct (sdeg c) as [gc| |] eqn:GC; cbn [rbind] in E; try discriminate. cbv zeta in E.
  assert (G : ga * gb * gc = product (map degeneracy [a; b; c])) by (unfold degeneracy; cbn [map product fold_right]; rewrite GA, GB, GC; ring).
  destruct (known w_d && known w_ad) eqn:K.
  - apply andb_true_iff in K.
    destruct (pion_catalyst w_p w_n w_d (ga * gb * gc) a b c) as [l1| |] eqn:E1; cbn [rbind] in E; try discriminate.
    destruct (pion_catalyst (anti w_p) (anti w_n) w_ad (ga * gb * gc) a b c) as [l2| |] eqn:E2; cbn [rbind] in E; try discriminate.
    destruct (nucleon_catalyst w_p w_n w_d (-1) (ga * gb * gc) a b c) as [l3| |] eqn:E3; cbn [rbind] in E; try discriminate.
    destruct (nucleon_catalyst (anti w_p) (anti w_n) w_ad 1 (ga * gb * gc) a b c) as [l4| |] eqn:E4; cbn [rbind] in E; try discriminate.
    injection E as <-.
    pose proof (pion_catalyst_good _ _ _ _ _ _ _ _ A B C (or_introl (conj eq_refl eq_refl)) G E1) as G1.
    pose proof (pion_catalyst_good _ _ _ _ _ _ _ _ A B C (or_intror (conj eq_refl eq_refl)) G E2) as G2.
    pose proof (nucleon_catalyst_good _ _ _ _ _ _ _ _ _ A B C (or_introl (conj eq_refl (conj eq_refl eq_refl))) G E3) as G3.
    pose proof (nucleon_catalyst_good _ _ _ _ _ _ _ _ _ A B C (or_intror (conj eq_refl (conj eq_refl eq_refl))) G E4) as G4.
    assert (ND : w_d <> w_ad) by (vm_compute; discriminate).
    assert (PN : forall x, In x [w_pip; w_piz; w_pim] -> In x [w_p; w_n; anti w_p; anti w_n] -> False).
    { intros x H I. cbn [In] in H. destruct H as [<-|[<-|[<-|[]]]]; vm_compute in I; intuition discriminate. }
    eapply good_iff; [|eapply good_app; [exact G1|eapply good_app; [exact G2|eapply good_app; [exact G3|exact G4|]|]|]].
    + intros o. cbv beta. split.
      * destruct K as [K1 K2]. intros [H|[H|[H|H]]]; destruct H as (x & I & P & ->); splits; auto.
        -- exists x, w_d, [w_p; w_n]. splits; auto; [unfold catalysts; cbn [In] in *; tauto|constructor].
        -- exists x, w_ad, [anti w_p; anti w_n]. splits; auto; [unfold catalysts; cbn [In] in *; tauto|constructor].
        -- exists x, w_d, [w_p; w_n]. splits; auto; [unfold catalysts; cbn [In] in *; tauto|constructor].
        -- exists x, w_ad, [anti w_p; anti w_n]. splits; auto; [unfold catalysts; cbn [In] in *; tauto|constructor].
      * intros (_ & _ & x & d & k & I & D & M & P & ->). unfold catalysts in I. 
        assert (Ix : In x [w_pip; w_piz; w_pim] \/ In x [w_p; w_n; anti w_p; anti w_n]) by (cbn [In] in *; tauto). clear I.
        destruct D as [-> | ->].
        -- assert (k = [w_p; w_n]) as -> by (inversion M; reflexivity). destruct Ix as [Ix|Ix]; [left|right; right; left]; exists x; auto.
        -- assert (k = [anti w_p; anti w_n]) as -> by (inversion M; reflexivity). destruct Ix as [Ix|Ix]; [right; left|right; right; right]; exists x; auto.
    + cbv beta. intros o (x & I & P & ->) (y & J & Q & H). apply ND. exact (f_equal (fun l => nth 1 l 0) H).
    + cbv beta. intros o (x & I & P & ->) [(y & J & Q & H)|(y & J & Q & H)].
      * apply ND. symmetry. exact (f_equal (fun l => nth 1 l 0) H).
      * assert (x = y) by exact (f_equal (fun l => nth 0 l 0) H). subst y. eauto.
    + cbv beta. intros o (x & I & P & ->) [(y & J & Q & H)|[(y & J & Q & H)|(y & J & Q & H)]].
      * apply ND. exact (f_equal (fun l => nth 1 l 0) H).
      * assert (x = y) by exact (f_equal (fun l => nth 0 l 0) H). subst y. eauto.
      * apply ND. exact (f_equal (fun l => nth 1 l 0) H).
  - injection E as <-. apply good_nil. intros o (K1 & K2 & _). rewrite K1, K2 in K. discriminate.
Qed.

Lemma comp_spec nuc L k : made_of nuc L -> cnt k L = comp nuc k.
Proof.
  intros M. unfold comp, cnt.
  destruct M; unfold w_d, w_ad, w_t, w_at, w_he3, w_ahe3, w_ht, w_aht;
  repeat match goal with |- context [nucleus_p ?w] => let v := eval vm_compute in (nucleus_p w) in change (nucleus_p w) with v end;
  repeat match goal with |- context [nucleus_n ?w] => let v := eval vm_compute in (nucleus_n w) in change (nucleus_n w) with v end;
  repeat match goal with |- context [nucleus_La ?w] => let v := eval vm_compute in (nucleus_La w) in change (nucleus_La w) with v end;
  repeat match goal with |- context [nucleus_ap ?w] => let v := eval vm_compute in (nucleus_ap w) in change (nucleus_ap w) with v end;
  repeat match goal with |- context [nucleus_an ?w] => let v := eval vm_compute in (nucleus_an w) in change (nucleus_an w) with v end;
  repeat match goal with |- context [nucleus_aLa ?w] => let v := eval vm_compute in (nucleus_aLa w) in change (nucleus_aLa w) with v end;
  (destruct (Z.eqb_spec k w_p) as [->|]; [vm_compute; reflexivity|]; destruct (Z.eqb_spec k (anti w_p)) as [->|]; [vm_compute; reflexivity|];
   destruct (Z.eqb_spec k w_n) as [->|]; [vm_compute; reflexivity|]; destruct (Z.eqb_spec k (anti w_n)) as [->|]; [vm_compute; reflexivity|];
   destruct (Z.eqb_spec k w_La) as [->|]; [vm_compute; reflexivity|]; destruct (Z.eqb_spec k (anti w_La)) as [->|]; [vm_compute; reflexivity|];
   rewrite !count_occ_cons_neq by congruence; reflexivity).
Qed.
Lemma cnt_app k a b : cnt k (a ++ b) = cnt k a + cnt k b.
Proof. unfold cnt. rewrite count_occ_app. apply Nat2Z.inj_add. Qed.
Lemma cnt_pos k l : 0 <= cnt k l.
Proof. apply Nat2Z.is_nonneg. Qed.
Lemma cnt_cons k x l : cnt k (x :: l) = cnt k [x] + cnt k l.
Proof. apply (cnt_app k [x] l). Qed.
Lemma cnt_one k x : cnt k [x] = if Z.eq_dec x k then 1 else 0.
Proof. unfold cnt. cbn [count_occ]. destruct (Z.eq_dec x k); reflexivity. Qed.
Lemma possible_perm a b : Permutation a b -> possible_catalysts a = possible_catalysts b.
Proof. intros P. unfold possible_catalysts. now rewrite !(fun k => cnt_perm k _ _ P). Qed.
Lemma possible_cons x l : possible_catalysts (x :: l) = possible_catalysts [x] + possible_catalysts l.
Proof. unfold possible_catalysts. rewrite !(cnt_cons _ x l). ring. Qed.
Lemma possible_one x : possible_catalysts [x] = 1 <-> In x catalysts.
Proof.
  unfold possible_catalysts. rewrite !cnt_one. unfold catalysts. cbn [In]. split.
  - intros H. repeat match goal with H : context [Z.eq_dec ?a ?b] |- _ => destruct (Z.eq_dec a b) as [->|]; [tauto|] end. lia.
  - intros [<-|[<-|[<-|[<-|[<-|[<-|[<-|[]]]]]]]]; vm_compute; reflexivity.
Qed.
Lemma made_of_catalysts nuc L : In nuc a3_nuclei -> made_of nuc L ->
  possible_catalysts L = nucleus_p nuc + nucleus_ap nuc + nucleus_n nuc + nucleus_an nuc /\ length L = 3%nat.
Proof. intros I M. destruct M; vm_compute; auto; exfalso; vm_compute in I; intuition discriminate. Qed.
Lemma can_form_spec known nuc L l : In nuc a3_nuclei -> made_of nuc L -> length l = 4%nat ->
  can_form known nuc l = true <-> known nuc = true /\ exists c, In c catalysts /\ Permutation l (c :: L).
Proof.
  intros I M Len. destruct (made_of_catalysts nuc L I M) as [PC L3]. unfold can_form. rewrite !andb_true_iff, !Z.leb_le, Z.eqb_eq. split.
  - intros ((K & (((((H1 & H2) & H3) & H4) & H5) & H6)) & H7). split; auto. destruct (sub_multiset L l) as [r R].
    + intros k. pose proof (comp_spec nuc L k M) as C. unfold comp in C. apply Nat2Z.inj_le. change (cnt k L <= cnt k l). rewrite C.
      clear C. destruct (Z.eqb_spec k w_p) as [->|]; [assumption|]. destruct (Z.eqb_spec k (anti w_p)) as [->|]; [assumption|]. destruct (Z.eqb_spec k w_n) as [->|]; [assumption|]. destruct (Z.eqb_spec k (anti w_n)) as [->|]; [assumption|]. destruct (Z.eqb_spec k w_La) as [->|]; [assumption|]. destruct (Z.eqb_spec k (anti w_La)) as [->|]; [assumption|]. apply cnt_pos.
    + assert (Lr : length r = 1%nat) by (apply Permutation_length in R; rewrite app_length in R; unfold pdg in *; lia).
      destruct r as [|c [|? ?]]; try discriminate. exists c. rewrite Permutation_app_comm in R. cbn [app] in R. split; [|auto].
      apply possible_one. rewrite (possible_perm _ _ R), possible_cons in H7. lia.
  - intros (K & c & C & P). assert (Q : forall k, comp nuc k <= cnt k l).
    { intros k. rewrite <- (comp_spec nuc L k M), (cnt_perm k _ _ P), (cnt_cons k c L). pose proof (cnt_pos k [c]). lia. }
    splits; auto; try exact (Q w_p); try exact (Q w_n); try exact (Q w_La); try exact (Q (anti w_p)); try exact (Q (anti w_n)); try exact (Q (anti w_La)).
    rewrite (possible_perm _ _ P), possible_cons, (proj2 (possible_one c) C), PC. ring.
Qed.
Lemma cancel_head (x y : pdg) k l : Permutation l (x :: k) -> Permutation l (y :: k) -> x = y.
Proof. intros P Q. rewrite P in Q. apply (Permutation_app_inv_r k [x] [y]) in Q. now apply Permutation_length_1 in Q. Qed.
Lemma spin_product_ok l g : spin_product l = Ok g -> g = product (map degeneracy l).
Proof.
  revert g. induction l as [|w l IH]; intros g; cbn [spin_product map product fold_right]; [now injection 1 as <-|].
  unfold degeneracy at 1. destruct (sdeg w) as [a| |]; cbn [rbind]; try discriminate. destruct (spin_product l) as [h| |]; cbn [rbind]; try discriminate.
  injection 1 as <-. fold (product (map degeneracy l)). now rewrite <- (IH h eq_refl).
Qed.
Lemma fold_mul (f : pdg -> Z) l : forall a, fold_left (fun x k => x * f k) l a = a * product (map f l).
Proof. induction l as [|y l IH]; intros a; cbn [fold_left map product fold_right]; [ring|]. rewrite IH. fold (product (map f l)). ring. Qed.
Lemma sym4_spec l : (forall k, cnt k l <= 3) -> sym4 l = identical l.
Proof.
  intros H. unfold sym4, identical. rewrite fold_mul, Z.mul_1_l. rewrite <- (product_perm _ _ (Permutation_map _ (keys_perm l))).
  f_equal. apply map_ext. intros k. specialize (H k). unfold cnt in *. destruct (count_occ Z.eq_dec l k) as [|[|[|[|n]]]]; try reflexivity. lia.
Qed.
Lemma made_of_counts nuc L k : made_of nuc L -> cnt k L <= 2.
Proof.
  intros M. rewrite (comp_spec nuc L k M). unfold comp. destruct M; repeat (destruct (k =? _); [vm_compute; discriminate|]); discriminate.
Qed.

Lemma a3_made nuc : In nuc a3_nuclei -> exists L, made_of nuc L.
Proof. unfold a3_nuclei. cbn [In]. intros [<-|[<-|[<-|[<-|[<-|[<-|[]]]]]]]; eexists; constructor. Qed.
Lemma made_of_unique nuc L K : made_of nuc L -> made_of nuc K -> L = K.
Proof. intros M N. destruct M; inversion N; reflexivity. Qed.
Lemma catalyst_found nuc L l c : made_of nuc L -> Permutation l (c :: L) -> find (fun k => cnt k l - comp nuc k =? 1) (keys l) = Some c.
Proof.
  intros M P. assert (F : forall k, (cnt k l - comp nuc k =? 1) = if Z.eq_dec c k then true else false).
  { intros k. rewrite <- (comp_spec nuc L k M), (cnt_perm k _ _ P), (cnt_cons k c L), cnt_one. destruct (Z.eq_dec c k); [apply Z.eqb_eq|apply Z.eqb_neq]; lia. }
  apply find_unique.
  - apply keys_in. apply (Permutation_in _ (Permutation_sym P)). now left.
  - rewrite F. destruct (Z.eq_dec c c); congruence.
  - intros x _ H. rewrite F in H. destruct (Z.eq_dec c x); congruence.
Qed.
Definition forms (known : pdg -> bool) (l : list pdg) (nuc : pdg) (o : list pdg) : Prop :=
  known nuc = true /\ exists c L, In c catalysts /\ made_of nuc L /\ Permutation l (c :: L) /\ o = [c; nuc].
Lemma four_one_good known l nuc gin bs : In nuc a3_nuclei -> length l = 4%nat -> gin = product (map degeneracy l) ->
  four_one known l gin nuc = Ok bs -> good l (forms known l nuc) bs.
Proof.
  intros I Len G E. destruct (a3_made nuc I) as [L M]. pose proof (can_form_spec known nuc L l I M Len) as CF. unfold four_one in E.
  destruct (can_form known nuc l).
  - destruct (proj1 CF eq_refl) as (K & c & C & P). rewrite (catalyst_found nuc L l c M P) in E. destruct (known c); [|discriminate].
    destruct (two_out (sym4 l) gin c nuc) as [ch| |] eqn:T; cbn [rbind] in E; try discriminate. injection E as <-. apply two_out_ok in T. subst ch.
    apply good_one; cbn [out num den].
    + intros o. unfold forms. split; [|intros ->; split; [auto|exists c, L; auto]]. intros (_ & c' & L' & _ & M' & P' & ->).
      rewrite (made_of_unique _ _ _ M' M) in P'. now rewrite (cancel_head _ _ _ _ P P').
    + rewrite <- G, sym4_spec.
      * change (product (map degeneracy [c; nuc])) with (degeneracy c * (degeneracy nuc * 1)). ring.
      * intros k. rewrite (cnt_perm k _ _ P), (cnt_cons k c L), cnt_one. pose proof (made_of_counts nuc L k M). destruct (Z.eq_dec c k); lia.
  - injection E as <-. apply good_nil. intros o (K & c & L' & C & M' & P & _). rewrite (made_of_unique _ _ _ M' M) in P.
    assert (false = true); [|discriminate]. apply CF. eauto.
Qed.
Lemma four_list_good known l gin : length l = 4%nat -> gin = product (map degeneracy l) -> forall ns ls,
  mapM (four_one known l gin) ns = Ok ls -> NoDup ns -> (forall n, In n ns -> In n a3_nuclei) ->
  good l (fun o => exists nuc, In nuc ns /\ forms known l nuc o) (concat ls).
Proof.
  intros Len G. induction ns as [|n ns IH]; intros ls Ms ND A; cbn [mapM] in Ms.
  - injection Ms as <-. apply good_nil. intros o (n & [] & _).
  - destruct (four_one known l gin n) as [x| |] eqn:E1; cbn [rbind] in Ms; try discriminate.
    destruct (mapM (four_one known l gin) ns) as [xs| |] eqn:E2; cbn [rbind] in Ms; try discriminate. injection Ms as <-. cbn [concat].
    inversion ND as [|? ? N1 N2]; subst. eapply good_iff; [|eapply good_app; [eapply (four_one_good known l n); eauto; apply A; now left|apply (IH xs eq_refl N2); intros k Hk; apply A; now right|]].
    + intros o. cbn [In]. split; [intros [H|(k & Hk & H)]; eauto|intros (k & [<-|Hk] & H); [auto|right; eauto]].
    + intros o (_ & c & L & _ & _ & _ & ->) (k & Hk & _ & c' & L' & _ & _ & _ & H). apply N1. injection H as _ ->. exact Hk.
Qed.
Lemma four_to_two_good known l bs : length l = 4%nat -> four_to_two known l = Ok bs ->
  good l (fun o => exists nuc, In nuc a3_nuclei /\ forms known l nuc o) bs.
Proof.
  intros Len E. unfold four_to_two in E. destruct (spin_product l) as [gin| |] eqn:G; cbn [rbind] in E; try discriminate.
  apply spin_product_ok in G. destruct (mapM (four_one known l gin) a3_nuclei) as [ls| |] eqn:Ms; cbn [rbind] in E; try discriminate. injection E as <-.
  apply (four_list_good known l gin Len G a3_nuclei ls Ms); auto.
  unfold a3_nuclei. repeat (constructor; [intros H; vm_compute in H; intuition discriminate|]). constructor.
Qed.

Lemma fold_charge l : forall a, fold_left (fun s w => s + charge w) l a = a + total charge l.
Proof. unfold total. induction l as [|w l IH]; intros a; cbn [fold_left map fold_right]; [ring|]. rewrite IH. ring. Qed.
Lemma pions_count l : Forall (fun w => In w [w_pip; w_piz; w_pim]) l ->
  Z.of_nat (length l) = cnt w_pip l + cnt w_piz l + cnt w_pim l /\ total charge l = cnt w_pip l - cnt w_pim l /\
  (forall k, ~ In k [w_pip; w_piz; w_pim] -> cnt k l = 0).
Proof.
  induction 1 as [|w l I F IH]; [splits; try reflexivity|]. destruct IH as (H1 & H2 & H3).
  rewrite !(cnt_cons _ w l). change (total charge (w :: l)) with (charge w + total charge l). cbn [length]. rewrite Nat2Z.inj_succ, H1, H2.
  splits.
  - cbn [In] in I. destruct I as [<-|[<-|[<-|[]]]]; rewrite !cnt_one; repeat match goal with |- context [Z.eq_dec ?a ?b] => let e := fresh in destruct (Z.eq_dec a b) as [e|e]; [try (vm_compute in e; discriminate e)|try (exfalso; apply e; reflexivity)] end; unfold pdg in *; lia.
  - cbn [In] in I. destruct I as [<-|[<-|[<-|[]]]]; [change (charge w_pip) with 1|change (charge w_piz) with 0|change (charge w_pim) with (-1)]; rewrite !cnt_one; repeat match goal with |- context [Z.eq_dec ?a ?b] => let e := fresh in destruct (Z.eq_dec a b) as [e|e]; [try (vm_compute in e; discriminate e)|try (exfalso; apply e; reflexivity)] end; unfold pdg in *; lia.
  - intros k N. rewrite (cnt_cons k w l), (H3 k N), cnt_one. destruct (Z.eq_dec w k); [subst; contradiction|reflexivity].
Qed.
Lemma five_pions_spec l : Forall plain l -> length l = 5%nat -> five_pions l = true <-> Permutation l [w_pip; w_pip; w_pim; w_pim; w_piz].
Proof.
  intros F Len. unfold five_pions. rewrite !andb_true_iff, !Z.eqb_eq, fold_charge, forallb_forall. split.
  - intros ((A & C) & Zc). assert (F' : Forall (fun w => In w [w_pip; w_piz; w_pim]) l).
    { apply Forall_forall. intros w W. rewrite Forall_forall in F. apply is_pion_spec; auto. }
    destruct (pions_count l F') as (H1 & H2 & H3). assert (P1 : cnt w_pip l = 2) by lia. assert (P2 : cnt w_pim l = 2) by lia.
    apply (Permutation_count_occ Z.eq_dec). intros k. apply Nat2Z.inj. change (cnt k l = cnt k [w_pip; w_pip; w_pim; w_pim; w_piz]).
    destruct (in_dec Z.eq_dec k [w_pip; w_piz; w_pim]) as [I|N].
    + cbn [In] in I. destruct I as [<-|[<-|[<-|[]]]]; [rewrite P1|rewrite Zc|rewrite P2]; reflexivity.
    + rewrite (H3 k N). unfold cnt. cbn [In] in N. rewrite !count_occ_cons_neq by tauto. reflexivity.
  - intros P. splits.
    + intros x I. apply (Permutation_in _ P) in I. cbn [In] in I. destruct I as [<-|[<-|[<-|[<-|[<-|[]]]]]]; reflexivity.
    + rewrite (total_perm charge _ _ P). reflexivity.
    + rewrite (cnt_perm _ _ _ P). reflexivity.
Qed.
Lemma five_to_two_good known l bs : Forall plain l -> length l = 5%nat -> five_to_two known l = Ok bs ->
  good l (fun o => Permutation l [w_pip; w_pip; w_pim; w_pim; w_piz] /\ known w_p = true /\ known w_n = true /\ (o = [w_p; anti w_p] \/ o = [w_n; anti w_n])) bs.
Proof.
  intros F Len E. pose proof (five_pions_spec l F Len) as S5. unfold five_to_two in E. destruct (five_pions l).
  - assert (P := proj1 S5 eq_refl). destruct (spin_product l) as [gin| |] eqn:G; cbn [rbind] in E; try discriminate. apply spin_product_ok in G.
    destruct (known w_p) eqn:K1; cbn [andb] in E; try discriminate. destruct (known (anti w_p)); try discriminate.
    change (sdeg w_p) with (@Ok Z 2) in E. change (sdeg (anti w_p)) with (@Ok Z 2) in E. cbn [rbind] in E.
    destruct (known w_n) eqn:K2.
    + destruct (known (anti w_n)); try discriminate. assert (Bs : bs = [Channel [w_p; anti w_p] 16 gin] ++ [Channel [w_n; anti w_n] 16 gin]) by (symmetry; exact (f_equal (fun r => match r with Ok v => v | _ => [] end) E)).
      clear E. subst bs.
      assert (ID : identical l = 4) by (rewrite (identical_perm _ _ P); vm_compute; reflexivity).
      eapply good_iff; [|eapply (good_app l (fun o => o = [w_p; anti w_p]) (fun o => o = [w_n; anti w_n])); [apply good_one|apply good_one|]]; cbn [out num den].
      * intros o. tauto.
      * tauto.
      * rewrite ID, <- G. change (product (map degeneracy [w_p; anti w_p])) with 4. ring.
      * tauto.
      * rewrite ID, <- G. change (product (map degeneracy [w_n; anti w_n])) with 4. ring.
      * intros o -> H. vm_compute in H. discriminate.
    + injection E as <-. apply good_nil. intros o (_ & _ & H & _). discriminate.
  - injection E as <-. apply good_nil. intros o (H & _). apply S5 in H. discriminate.
Qed.

(** ** The property *)
(** The channels offered are exactly the documented reactions of the incoming particles in any
    order, each once, with the weight factor of detailed balance: the product of the factorials
    of the multiplicities of identical incoming particles times the ratio of spin degeneracies. *)
Theorem multi_reactions known i inc bs : Forall plain inc -> add_possible_reactions known i inc = Ok bs ->
  NoDup (map out bs) /\
  (forall o, In o (map out bs) <-> exists l, Permutation inc l /\ reaction known i l o) /\
  (forall ch, In ch bs -> num ch * product (map degeneracy inc) = den ch * (identical inc * product (map degeneracy (out ch)))).
Proof.
  intros F E. change (good inc (fun o => exists l, Permutation inc l /\ reaction known i l o) bs).
  assert (LR : forall l o, reaction known i l o -> length l = 3%nat /\ (meson31 i = true \/ deut32 i = true) \/ length l = 4%nat /\ a3_42 i = true \/ length l = 5%nat /\ nnbar52 i = true).
  { intros l o H. destruct H as [w H _ _|H _|H _|c d l H _ D M _ _|c a l H _ I M _|n H _ _ _]; cbn [length]; auto.
    - left. split; auto. destruct D as [->| ->]; inversion M; reflexivity.
    - right. left. split; auto. now rewrite (proj2 (made_of_catalysts a l I M)). }
  assert (LP : forall l o, Permutation inc l -> reaction known i l o -> length inc = 3%nat /\ (meson31 i = true \/ deut32 i = true) \/ length inc = 4%nat /\ a3_42 i = true \/ length inc = 5%nat /\ nnbar52 i = true).
  { intros l o P H. rewrite (Permutation_length P). eapply LR; eauto. }
  destruct inc as [|a [|b [|c [|d [|e [|g r]]]]]];
    try (cbn [add_possible_reactions] in E; injection E as <-; apply good_nil; intros o (l & P & H); specialize (LP l o P H); cbn [length] in LP; intuition congruence).
  - inversion F as [|? ? A F1]; subst. inversion F1 as [|? ? B F2]; subst. inversion F2 as [|? ? C _]; subst. cbn [add_possible_reactions] in E.
    destruct (if meson31 i then three_to_one known a b c else Ok []) as [l1| |] eqn:E1; cbn [rbind] in E; try discriminate.
    destruct (if deut32 i then three_to_two known a b c else Ok []) as [l2| |] eqn:E2; cbn [rbind] in E; try discriminate. injection E as <-.
    assert (G1 : good [a; b; c] (fun o => meson31 i = true /\ (((o = [w_omega] /\ known w_omega = true \/ o = [w_phi] /\ known w_phi = true) /\ Permutation [a; b; c] [w_pip; w_piz; w_pim])
      \/ (o = [w_etap] /\ known w_etap = true /\ (Permutation [a; b; c] [w_piz; w_piz; w_eta] \/ Permutation [a; b; c] [w_pip; w_pim; w_eta])))) l1).
    { destruct (meson31 i); [eapply good_iff; [|apply (three_to_one_good known a b c); eauto]; intros o; cbv beta; tauto|].
      injection E1 as <-. apply good_nil. intros o [H _]. discriminate. }
    assert (G2 : good [a; b; c] (fun o => deut32 i = true /\ known w_d = true /\ known w_ad = true /\
      exists x d k, In x catalysts /\ (d = w_d \/ d = w_ad) /\ made_of d k /\ Permutation [a; b; c] (x :: k) /\ o = [x; d]) l2).
    { destruct (deut32 i); [eapply good_iff; [|apply (three_to_two_good known a b c); eauto]; intros o; cbv beta; tauto|].
      injection E2 as <-. apply good_nil. intros o [H _]. discriminate. }
    eapply good_iff; [|eapply good_app; [exact G1|exact G2|]].
    + intros o. cbv beta. split.
      * intros [(M & [([[-> K]|[-> K]] & P)|(-> & K & [P|P])])|(D & K1 & K2 & x & dd & k & I & Dd & Mk & P & ->)].
        -- exists [w_pip; w_piz; w_pim]. split; [auto|constructor; auto].
        -- exists [w_pip; w_piz; w_pim]. split; [auto|constructor; auto].
        -- exists [w_piz; w_piz; w_eta]. split; [auto|apply to_etap_neutral; auto].
        -- exists [w_pip; w_pim; w_eta]. split; [auto|apply to_etap_charged; auto].
        -- exists (x :: k). split; [auto|apply to_deuteron; auto].
      * intros (l & P & H). destruct H as [w M W K|M K|M K|x dd k D I Dd Mk K1 K2|x aa k D I Ia Mk K|n D _ _ _].
        -- left. split; auto. left. destruct W as [-> | ->]; auto.
        -- left. auto 6.
        -- left. auto 6.
        -- right. splits; auto. exists x, dd, k. auto.
        -- apply Permutation_length in P. cbn [length] in P. rewrite (proj2 (made_of_catalysts aa k Ia Mk)) in P. discriminate.
        -- apply Permutation_length in P. discriminate.
    + intros o [_ H] (_ & _ & _ & x & dd & k & _ & _ & _ & _ & ->). destruct H as [[[[H _]|[H _]] _]|[H _]]; discriminate.
  - cbn [add_possible_reactions] in E. destruct (a3_42 i) eqn:A3.
    + eapply good_iff; [|apply (four_to_two_good known [a; b; c; d]); eauto]. intros o. cbv beta. unfold forms. split.
      * intros (nuc & I & K & x & L & C & M & P & ->). exists (x :: L). split; [auto|apply to_a3; auto].
      * intros (l & P & H). destruct H as [w M W K|M K|M K|x dd k D I Dd Mk K1 K2|x aa k D I Ia Mk K|n D _ _ _]; try (apply Permutation_length in P; discriminate P).
        -- apply Permutation_length in P. destruct Dd as [-> | ->]; inversion Mk; subst; discriminate.
        -- exists aa. split; [exact Ia|]. split; [auto|]. exists x, k. auto.
    + injection E as <-. apply good_nil. intros o (l & P & H). specialize (LP l o P H). cbn [length] in LP. intuition congruence.
  - cbn [add_possible_reactions] in E. destruct (nnbar52 i) eqn:N5.
    + eapply good_iff; [|apply (five_to_two_good known [a; b; c; d; e]); eauto]. intros o. cbv beta. split.
      * intros (P & K1 & K2 & [-> | ->]); eexists; (split; [exact P|]); apply to_nnbar; auto.
      * intros (l & P & H). destruct H as [w M W K|M K|M K|x dd k D I Dd Mk K1 K2|x aa k D I Ia Mk K|n D W K1 K2]; try (apply Permutation_length in P; discriminate P).
        -- apply Permutation_length in P. destruct Dd as [-> | ->]; inversion Mk; subst; discriminate.
        -- apply Permutation_length in P. cbn [length] in P. rewrite (proj2 (made_of_catalysts aa k Ia Mk)) in P. discriminate.
        -- splits; auto. destruct W as [-> | ->]; auto.
    + injection E as <-. apply good_nil. intros o (l & P & H). specialize (LP l o P H). cbn [length] in LP. intuition congruence.
Qed.
Print Assumptions multi_reactions.
(** The words of the species are what the constructors make of the constants of the code. *)
Example constants : of_int32 8722 = Ok w_p /\ of_int32 (-8722) = Ok (anti w_p) /\ of_int32 (-529) = Ok w_pim /\
  set_from_string (str "1000010020"%string) = Ok w_d /\ set_from_string (str "-1000010020"%string) = Ok w_ad /\
  set_from_string (str "1010010030"%string) = Ok w_ht /\ set_from_string (str "-1000020030"%string) = Ok w_ahe3.
Proof. splits; vm_compute; reflexivity. Qed.
(** nnpp forms both a triton and a helium-3. *)
Example nnpp : Forall plain [w_n; w_p; w_n; w_p] /\
  exists bs, add_possible_reactions (fun _ => true) (Incl false false true false) [w_n; w_p; w_n; w_p] = Ok bs /\
  map out bs = [[w_p; w_t]; [w_n; w_he3]] /\ map num bs = [16; 16] /\ map den bs = [16; 16].
Proof.
  split; [repeat (apply Forall_cons; [left; split; vm_compute; congruence|]); apply Forall_nil|]. eexists. splits; [vm_compute; reflexivity|..]; reflexivity.
Qed.

(** The order of the incoming particles is irrelevant. *)
Theorem multi_order known i a b bs cs : Forall plain a -> Permutation a b ->
  add_possible_reactions known i a = Ok bs -> add_possible_reactions known i b = Ok cs -> Permutation (map out bs) (map out cs).
Proof.
  intros F P E1 E2. destruct (multi_reactions known i a bs F E1) as (N1 & I1 & _).
  destruct (multi_reactions known i b cs) as (N2 & I2 & _); auto. { rewrite <- P. auto. }
  apply NoDup_Permutation; auto. intros o. rewrite I1, I2. split; intros (l & Q & H); exists l; (split; [|auto]).
  - rewrite <- P. exact Q.
  - rewrite P. exact Q.
Qed.
Print Assumptions multi_order.

(** Charge, baryon number and strangeness are conserved by every channel. *)
Theorem multi_conserves known i inc bs ch : Forall plain inc -> add_possible_reactions known i inc = Ok bs -> In ch bs ->
  total charge (out ch) = total charge inc /\ total baryon_number (out ch) = total baryon_number inc /\
  total strangeness (out ch) = total strangeness inc.
Proof.
  intros F E I. destruct (multi_reactions known i inc bs F E) as (_ & J & _). destruct (proj1 (J (out ch)) (in_map out _ _ I)) as (l & P & H).
  rewrite !(fun f => total_perm f _ _ P). clear - H. remember (out ch) as o eqn:Eo. clear Eo. destruct H as [w M W K|M K|M K|x dd k D I Dd Mk K1 K2|x aa k D I Ia Mk K|n D W K1 K2].
  - destruct W as [-> | ->]; vm_compute; auto.
  - vm_compute; auto.
  - vm_compute; auto.
  - assert (H : forall f, f dd = total f k -> total f [x; dd] = total f (x :: k)) by (intros f Ef; unfold total in *; cbn [map fold_right]; rewrite Ef; ring).
    splits; apply H; destruct Mk; vm_compute; reflexivity.
  - assert (H : forall f, f aa = total f k -> total f [x; aa] = total f (x :: k)) by (intros f Ef; unfold total in *; cbn [map fold_right]; rewrite Ef; ring).
    splits; apply H; destruct Mk; vm_compute; reflexivity.
  - destruct W as [-> | ->]; vm_compute; auto.
Qed.
Print Assumptions multi_conserves.

(** Looking for reactions never fails if spin degeneracies exist (no nuclei beyond A = 4), the
    incoming species are known, antiparticles are known with their particles and, when five pions
    may annihilate, the proton is known. *)
Lemma sdeg_ok_out o : In o (catalysts ++ a3_nuclei ++ [w_d; w_ad]) -> exists g, sdeg o = Ok g.
Proof. unfold catalysts, a3_nuclei. cbn [app In]. intros H. repeat (destruct H as [<-|H]; [eexists; vm_compute; reflexivity|]). destruct H. Qed.
Lemma two_out_total s g a b : (exists x, sdeg a = Ok x) -> (exists x, sdeg b = Ok x) -> exists ch, two_out s g a b = Ok ch.
Proof. intros [x X] [y Y]. unfold two_out. rewrite X, Y. cbn [rbind]. eauto. Qed.
Lemma mapM_total {A B} (f : A -> res B) l : (forall x, In x l -> exists y, f x = Ok y) -> exists ys, mapM f l = Ok ys.
Proof.
  induction l as [|x l IH]; intros H; cbn [mapM]; eauto. destruct (H x (or_introl eq_refl)) as [y ->]. destruct IH as [ys ->]; [intros z Hz; apply H; now right|]. cbn [rbind]. eauto.
Qed.
Lemma spin_product_total l : Forall (fun w => exists g, sdeg w = Ok g) l -> exists g, spin_product l = Ok g.
Proof. induction 1 as [|w l [g G] F [h H]]; cbn [spin_product]; eauto. rewrite G, H. cbn [rbind]. eauto. Qed.
Theorem multi_total known i inc : Forall plain inc -> Forall (fun w => exists g, sdeg w = Ok g) inc -> Forall (fun w => known w = true) inc ->
  (known w_p = true -> known (anti w_p) = true) -> (known w_n = true -> known (anti w_n) = true) ->
  (nnbar52 i = true -> known w_p = true) ->
  exists bs, add_possible_reactions known i inc = Ok bs.
Proof.
  intros F D K KP KN K5. destruct inc as [|a [|b [|c [|d [|e [|g r]]]]]]; cbn [add_possible_reactions]; eauto.
  - inversion F as [|? ? A F1]; subst. inversion F1 as [|? ? B F2]; subst. inversion F2 as [|? ? C _]; subst.
    inversion D as [|? ? Da D1]; subst. inversion D1 as [|? ? Db D2]; subst. inversion D2 as [|? ? Dc _]; subst.
    assert (T1 : exists l, (if meson31 i then three_to_one known a b c else Ok []) = Ok l).
    { assert (MT : forall w s, In w [w_omega; w_phi; w_etap] -> exists l, mesons_to known w s = Ok l).
      { intros w s W. unfold mesons_to. destruct (known w); eauto. cbn [In] in W. destruct W as [<-|[<-|[<-|[]]]]; eexists; vm_compute; reflexivity. }
      destruct (meson31 i); eauto. unfold three_to_one. destruct (three_different_pions a b c).
      - destruct (MT w_omega 1) as [l ->]; [cbn; auto|]. destruct (MT w_phi 1) as [m ->]; [cbn; auto|]. cbn [rbind]. eauto.
      - destruct (two_pions_eta a b c); eauto. apply MT. cbn. auto. }
    assert (PL : forall y, In y [a; b; c] -> exists g, sdeg y = Ok g) by (cbn [In]; intros y [<-|[<-|[<-|[]]]]; auto).
    assert (TP : forall p n dd gin, In dd [w_d; w_ad] -> exists l, pion_catalyst p n dd gin a b c = Ok l).
    { intros p n dd gin Hd. unfold pion_catalyst. destruct (six_orders is_pion p n a b c) eqn:S6; eauto. apply six_orders_spec in S6. destruct S6 as (x & Kx & P).
      destruct (find is_pion [a; b; c]) as [y|] eqn:Fd.
      - apply find_some in Fd. destruct (two_out_total 1 gin y dd) as [ch ->]; [apply PL, Fd|apply sdeg_ok_out; rewrite !in_app_iff; auto|]. cbn [rbind]. eauto.
      - exfalso. assert (In x [a; b; c]) by (apply (Permutation_in _ (Permutation_sym P)); now left). pose proof (find_none _ _ Fd x H). congruence. }
    assert (TN : forall p n dd s gin, In dd [w_d; w_ad] -> exists l, nucleon_catalyst p n dd s gin a b c = Ok l).
    { intros p n dd s gin Hd. unfold nucleon_catalyst. destruct (six_orders is_nucleon p n a b c); eauto.
      destruct (find (fun w => asign w =? s) [a; b; c]) as [y|] eqn:Fd.
      - apply find_some in Fd. destruct (two_out_total 1 gin y dd) as [ch ->]; [apply PL, Fd|apply sdeg_ok_out; rewrite !in_app_iff; auto|]. cbn [rbind]. eauto.
      - destruct (two_out_total 2 gin (if a =? b then a else c) dd) as [ch ->]; [destruct (a =? b); auto|apply sdeg_ok_out; rewrite !in_app_iff; auto|]. cbn [rbind]. eauto. }
    assert (T2 : exists l, (if deut32 i then three_to_two known a b c else Ok []) = Ok l).
    { destruct (deut32 i); eauto. unfold three_to_two. destruct Da as [ga ->]. destruct Db as [gb ->]. destruct Dc as [gc ->]. cbn [rbind].
      destruct (known w_d && known w_ad); eauto.
      destruct (TP w_p w_n w_d (ga * gb * gc)) as [l1 ->]; [cbn; auto|]. destruct (TP (anti w_p) (anti w_n) w_ad (ga * gb * gc)) as [l2 ->]; [cbn; auto|].
      destruct (TN w_p w_n w_d (-1) (ga * gb * gc)) as [l3 ->]; [cbn; auto|]. destruct (TN (anti w_p) (anti w_n) w_ad 1 (ga * gb * gc)) as [l4 ->]; [cbn; auto|].
      cbn [rbind]. eauto. }
    destruct T1 as [l1 ->]. destruct T2 as [l2 ->]. cbn [rbind]. eauto.
  - destruct (a3_42 i); eauto. unfold four_to_two. destruct (spin_product_total _ D) as [gin ->]. cbn [rbind].
    destruct (mapM_total (four_one known [a; b; c; d] gin) a3_nuclei) as [ls ->]; [|cbn [rbind]; eauto].
    intros nuc I. destruct (a3_made nuc I) as [L M]. unfold four_one. destruct (can_form known nuc [a; b; c; d]) eqn:CF; eauto.
    apply (can_form_spec known nuc L [a; b; c; d] I M eq_refl) in CF. destruct CF as (Kn & x & Cx & P). rewrite (catalyst_found nuc L _ x M P).
    assert (Ix : In x [a; b; c; d]) by (apply (Permutation_in _ (Permutation_sym P)); now left).
    rewrite Forall_forall in K, D. rewrite (K x Ix).
    destruct (two_out_total (sym4 [a; b; c; d]) gin x nuc) as [ch ->]; [apply D; auto|apply sdeg_ok_out; rewrite !in_app_iff; auto|]. cbn [rbind]. eauto.
  - destruct (nnbar52 i); eauto. unfold five_to_two. destruct (five_pions _); eauto. destruct (spin_product_total _ D) as [gin ->]. cbn [rbind].
    rewrite (K5 eq_refl), (KP (K5 eq_refl)). cbn [andb]. change (sdeg w_p) with (@Ok Z 2). change (sdeg (anti w_p)) with (@Ok Z 2). cbn [rbind].
    destruct (known w_n) eqn:N; eauto. rewrite (KN eq_refl). eauto.
Qed.
Print Assumptions multi_total.
(** Five pions may annihilate with a particle list without protons: the code means to check
    that the proton type exists (`if (type_p && type_n)`), but dereferences it before. *)
Theorem five_pions_without_protons_refuted : exists known, (forall w, known (anti w) = known w) /\
  Forall (fun w => known w = true) [w_pip; w_pim; w_piz; w_pip; w_pim] /\
  add_possible_reactions known (Incl false false false true) [w_pip; w_pim; w_piz; w_pip; w_pim] = UB UB_oob.
Proof.
  exists (fun w => (w mod 2 ^ 31 =? w_pip) || (w mod 2 ^ 31 =? w_piz)). splits.
  - intros w. unfold anti. replace (w + 2 ^ 31) with (w + 1 * 2 ^ 31) by ring. now rewrite Z.mod_add by discriminate.
  - repeat constructor.
  - vm_compute. reflexivity.
Qed.
Print Assumptions five_pions_without_protons_refuted.

(** ** Kinematics *)
Open Scope R_scope.
(** One or two particles are produced with the total momentum; the two have their masses, the one
    has the invariant mass. *)
Theorem multi_final_state P ms u qs : 0 < y0 P -> 0 < minkowski P P -> unit u -> Forall (Rle 0) ms ->
  fold_right Rplus 0 ms <= sqrt (minkowski P P) -> generate_final_state P ms u = Ok qs ->
  sum4 qs = P /\ length qs = length ms /\
  (length ms = 1%nat -> Forall2 shell [sqrt (minkowski P P)] qs) /\ (length ms = 2%nat -> Forall2 shell ms qs).
Proof.
  intros E M U F T G. unfold generate_final_state in G. cbv zeta in G. assert (SQ : sqr4 P = minkowski P P) by (unfold sqr4, minkowski; ring). rewrite SQ in G. clear SQ.
  assert (S0 : 0 < sqrt (minkowski P P)) by now apply sqrt_lt_R0. set (s := sqrt (minkowski P P)) in *.
  destruct ms as [|ma [|mb [|? ?]]]; try discriminate.
  - injection G as <-. destruct (boosted_final_state P [V4 s 0 0 0] [s] E M) as [A B].
    + cbn [sum4 fold_right]. apply vec4_eq; unfold add4, zero4; cbn [y0 y1 y2 y3]; fold s; ring.
    + constructor; [|constructor]. split; [unfold minkowski; cbn [y0 y1 y2 y3]; ring|cbn [y0]; lra].
    + splits; auto; discriminate.
  - inversion F as [|? ? Fa F1]; subst. inversion F1 as [|? ? Fb _]; subst. cbn [fold_right] in T. rewrite Rplus_0_r in T.
    pose proof (two_body_final_state s ma mb u Fa Fb S0 T U) as H. destruct (sample_angles s ma mb u) as [pa pb]. destruct H as (H1 & H2 & H3).
    injection G as <-. destruct (boosted_final_state P [pa; pb] [ma; mb] E M) as [A B].
    + cbn [sum4 fold_right]. fold s. rewrite <- H1. apply vec4_eq; unfold add4, zero4; cbn [y0 y1 y2 y3]; ring.
    + apply Forall2_cons; [exact H2|apply Forall2_cons; [exact H3|apply Forall2_nil]].
    + splits; auto; discriminate.
Qed.
Print Assumptions multi_final_state.
Example multi_final_example : exists qs, generate_final_state (V4 5 0 0 3) [1; 2] (V3 0 0 1) = Ok qs.
Proof. unfold generate_final_state. destruct (sample_angles _ _ _ _). eauto. Qed.

(** ** Four-body phase space *)
Lemma bern3 a b c d x : 0 < x < 1 -> 0 < a -> 0 < b -> 0 < c -> 0 < d -> 0 < a * ((1 - x) * (1 - x) * (1 - x)) + b * (x * (1 - x) * (1 - x)) + c * (x * x * (1 - x)) + d * (x * x * x).
Proof.
  intros X A B C D. assert (Y : 0 < 1 - x) by lra. repeat apply Rplus_lt_0_compat; repeat apply Rmult_lt_0_compat; lra.
Qed.
Lemma phi4_g_pos nn np nl x : 0 < x < 1 -> (nn = 3 /\ np = 1 \/ nn = 4 \/ nn = 2 /\ nl = 1 /\ np = 1 \/ nn = 3 /\ nl = 1)%Z -> 0 < phi4_g nn np nl x.
Proof.
  intros X H. unfold phi4_g.
  assert (Q : forall n d, 0 < n -> 0 < d -> 0 < n / d) by (intros; now apply Rdiv_lt_0_compat).
  destruct ((nn =? 3)%Z && (np =? 1)%Z) eqn:E1.
  { apply Q.
    - pose proof (bern3 1 (3 + 862432/1000000) (3 + 2 * (862432/1000000) - 34853/10000) (1 + 862432/1000000 - 34853/10000 + 170259/100000) x X ltac:(lra) ltac:(lra) ltac:(lra) ltac:(lra)). lra.
    - pose proof (bern3 1 (3 + 387376/1000000) (3 + 2 * (387376/1000000) - 134128/100000) (1 + 387376/1000000 - 134128/100000 + 154489/1000000) x X ltac:(lra) ltac:(lra) ltac:(lra) ltac:(lra)). lra. }
  destruct (nn =? 4)%Z eqn:E2.
  { apply Q.
    - pose proof (bern3 1 (3 - 172285/100000) (3 - 2 * (172285/100000) + 728331/1000000) (1 - 172285/100000 + 728331/1000000) x X ltac:(lra) ltac:(lra) ltac:(lra) ltac:(lra)). lra.
    - pose proof (bern3 1 (3 - 967146/1000000) (3 - 2 * (967146/1000000) - 103633/10000000) (1 - 967146/1000000 - 103633/10000000) x X ltac:(lra) ltac:(lra) ltac:(lra) ltac:(lra)). lra. }
  destruct ((nn =? 2)%Z && (nl =? 1)%Z && (np =? 1)%Z) eqn:E3.
  { apply Q.
    - pose proof (bern3 1 (3 + 937064/1000000) (3 + 2 * (937064/1000000) - 356864/100000) (1 + 937064/1000000 - 356864/100000 + 1721/1000) x X ltac:(lra) ltac:(lra) ltac:(lra) ltac:(lra)). lra.
    - pose proof (bern3 1 (3 + 365202/1000000) (3 + 2 * (365202/1000000) - 12854/10000) (1 + 365202/1000000 - 12854/10000 + 138444/1000000) x X ltac:(lra) ltac:(lra) ltac:(lra) ltac:(lra)). lra. }
  destruct ((nn =? 3)%Z && (nl =? 1)%Z) eqn:E4.
  { apply Q.
    - pose proof (bern3 1 (3 + 882401/1000000) (3 + 2 * (882401/1000000) - 34074/10000) (1 + 882401/1000000 - 34074/10000 + 162454/100000) x X ltac:(lra) ltac:(lra) ltac:(lra) ltac:(lra)). lra.
    - pose proof (bern3 1 (3 + 161741/100000) (3 + 2 * (161741/100000) - 212543/100000) (1 + 161741/100000 - 212543/100000 - 902067/10000000) x X ltac:(lra) ltac:(lra) ltac:(lra) ltac:(lra)). lra. }
  exfalso. rewrite !andb_false_iff, !Z.eqb_neq in *. lia.
Qed.
Lemma zcount_perm f a b : Permutation a b -> zcount f a = zcount f b.
Proof.
  intros P. unfold zcount. f_equal. induction P; cbn [filter]; auto; repeat match goal with |- context [if ?c then _ else _] => destruct c end; cbn [length]; congruence.
Qed.
Lemma zcount_cons f x l : zcount f (x :: l) = ((if f x then 1 else 0) + zcount f l)%Z.
Proof. unfold zcount. cbn [filter]. destruct (f x); cbn [length]; lia. Qed.
(** The phase space of the four incoming particles by which the weight of every channel with an
    A = 3 nucleus is divided has a parametrisation and is positive above the threshold. *)
Theorem four_body_phase_space known i inc bs ch masses s : Forall plain inc -> length inc = 4%nat ->
  add_possible_reactions known i inc = Ok bs -> In ch bs ->
  Forall (Rlt 0) masses -> masses <> [] -> fold_left Rplus masses 0 < sqrt s -> 0 < phi4 inc masses s.
Proof.
  intros F Len E I Mp Mn Th. destruct (multi_reactions known i inc bs F E) as (_ & J & _). destruct (proj1 (J (out ch)) (in_map out _ _ I)) as (l & P & H).
  assert (SP : 0 < fold_left Rplus masses 0 /\ 0 < fold_left Rmult masses 1).
  { assert (A : forall m a, Forall (Rlt 0) m -> 0 < a -> 0 < fold_left Rplus m a /\ 0 < fold_left Rmult m a).
    { induction m as [|x m IH]; intros a Fm Ha; cbn [fold_left]; [auto|]. inversion Fm; subst. split; apply IH; auto; [lra|nra]. }
    destruct masses as [|x m]; [congruence|]. inversion Mp; subst. cbn [fold_left]. split; [apply A; auto; lra|apply A; auto; lra]. }
  destruct SP as [S1 S2]. unfold phi4. cbv zeta. set (sm := fold_left Rplus masses 0) in *. set (x := 1 - sm / sqrt s).
  assert (X : 0 < x < 1). { unfold x. split; [enough (sm / sqrt s < 1) by lra; apply (Rmult_lt_reg_r (sqrt s)); [lra|]; field_simplify; lra|]. enough (0 < sm / sqrt s) by lra. apply Rdiv_lt_0_compat; lra. }
  assert (G : 0 < phi4_g (zcount is_nucleon inc) (zcount is_pion inc) (zcount is_Lambda inc) x).
  { apply phi4_g_pos; auto. rewrite !(fun f => zcount_perm f _ _ P). apply Permutation_length in P. rewrite Len in P.
    destruct H as [w M W K|M K|M K|c dd k D C Dd Mk K1 K2|c aa k D C Ia Mk K|n D W K1 K2]; try discriminate P.
    - exfalso. destruct Dd as [-> | ->]; inversion Mk; subst; discriminate.
    - rewrite !zcount_cons. unfold catalysts in C. cbn [In] in C. destruct Mk; try discriminate P;
      destruct C as [<-|[<-|[<-|[<-|[<-|[<-|[<-|[]]]]]]]]; vm_compute; intuition congruence. }
  destruct (Rlt_dec 0 _) as [_|N]; [|contradiction]. destruct (Rlt_dec 0 x) as [_|N]; [|lra].
  apply Rdiv_lt_0_compat; [|repeat apply Rmult_lt_0_compat; lra]. apply Rmult_lt_0_compat; auto. apply Rmult_lt_0_compat; [|apply exp_pos].
  apply Rmult_lt_0_compat; [now apply sqrt_lt_R0|nra].
Qed.
Print Assumptions four_body_phase_space.
