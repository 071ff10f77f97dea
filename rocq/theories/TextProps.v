(** Claims about split, join, trim, line_parser, padding and removal of substrings. *)
From Coq Require Import ZArith Ascii String List Bool Lia Sorting.
From Verif Require Import Base TextModel TextSpec.
Import ListNotations.
Open Scope list_scope.
Open Scope Z_scope.

(** ** split and join *)

Lemma getline_spec d s a b : getline d s = (a, b) ->
  ~ In d a /\ (s = a ++ d :: b \/ (b = [] /\ s = a)).
Proof.
  revert a b; induction s as [|c t IH]; cbn; intros a b H.
  - assert (a = [] /\ b = []) as [-> ->] by (split; congruence). split; auto.
  - destruct (Z.eqb_spec c d) as [->|N].
    + assert (a = [] /\ b = t) as [-> ->] by (split; congruence). split; auto.
    + destruct (getline d t) as [a' b'] eqn:E. assert (a = c :: a' /\ b = b') as [-> ->] by (split; congruence).
      destruct (IH _ _ eq_refl) as [H1 [H2|[H2 H3]]].
      * split; [intros [F|F]; [congruence|auto]|]. left. rewrite H2. reflexivity.
      * split; [intros [F|F]; [congruence|auto]|]. right. subst. auto.
Qed.

Lemma last_app A (a : list A) x y : last (a ++ [x]) y = x.
Proof. induction a as [|c t IH]; [reflexivity|]. cbn. destruct t; [reflexivity|exact IH]. Qed.

Lemma last_app_ne A (a b : list A) y : b <> [] -> last (a ++ b) y = last b y.
Proof.
  intros N. induction a as [|c t IH]; [reflexivity|]. cbn [app last].
  destruct (t ++ b) eqn:E; [destruct t; [|discriminate]; cbn in E; congruence|]. exact IH.
Qed.

Lemma last_in A (l : list A) d : l <> [] -> In (last l d) l.
Proof.
  induction l as [|c t IH]; [congruence|]. intros _. cbn. destruct t; [left; reflexivity|].
  right. apply IH. discriminate.
Qed.

Lemma getlines_spec d fuel s : (length s <= fuel)%nat -> fields_of d s (getlines fuel d s).
Proof.
  revert s; induction fuel as [|f IH]; intros s L.
  - destruct s; [|cbn in L; lia]. split; [constructor|left; reflexivity].
  - destruct s as [|c t]; [split; [constructor|left; reflexivity]|].
    change (getlines (S f) d (c :: t)) with
      (let '(a, b) := getline d (c :: t) in a :: getlines f d b).
    destruct (getline d (c :: t)) as [a b] eqn:E. destruct (getline_spec _ _ _ _ E) as [Na C].
    assert (Lb : (length b <= f)%nat).
    { destruct C as [C|[-> _]]; [|cbn; lia].
      assert (length (c :: t) = length (a ++ d :: b)) by (rewrite C; reflexivity).
      rewrite app_length in H. cbn in H, L. lia. }
    destruct (IH _ Lb) as [F T]. split; [constructor; assumption|].
    cbn [terminated]. destruct C as [C|[-> C]].
    + destruct T as [T|(Nb & La & T)].
      * left. rewrite T. symmetry; exact C.
      * right. rewrite C. splits.
        -- destruct a; discriminate.
        -- rewrite last_app_ne by discriminate. destruct b; [congruence|exact La].
        -- rewrite T, <- app_assoc. reflexivity.
    + right. rewrite C. splits.
      * rewrite <- C. discriminate.
      * intros Q. apply Na. rewrite <- Q at 1. apply last_in. rewrite <- C; discriminate.
      * destruct f; reflexivity.
Qed.

(** C52: the fields that split returns are exactly the delimiter-free pieces of the text. *)
Theorem split_exact s d : fields_of d s (split s d).
Proof. apply getlines_spec. lia. Qed.
Print Assumptions split_exact.

Lemma terminated_inj d v w : Forall (fun x => ~ In d x) v -> Forall (fun x => ~ In d x) w ->
  terminated d v = terminated d w -> v = w.
Proof.
  intros Hv. revert w. induction Hv as [|x t Nx _ IH]; intros w Hw E.
  - destruct w as [|y u]; [reflexivity|]. cbn in E. destruct y; discriminate.
  - destruct w as [|y u]; [cbn in E; destruct x; discriminate|].
    inversion Hw as [|? ? Ny Hu]; subst. cbn in E.
    assert (x = y /\ terminated d t = terminated d u) as [-> Q].
    { clear - Nx Ny E. revert y Ny E; induction x as [|c x IHx]; intros [|e y] Ny E; cbn in E.
      - split; congruence.
      - injection E as E1 E2. exfalso; apply Ny; left; congruence.
      - injection E as E1 E2. exfalso; apply Nx; left; congruence.
      - injection E as E1 E2. destruct (IHx) with (y := y); [| |exact E2|].
        + intros F; apply Nx; right; exact F.
        + intros F; apply Ny; right; exact F.
        + split; congruence. }
    f_equal. apply IH; assumption.
Qed.

Lemma app_last_inj A (a b : list A) x y : a ++ [x] = b ++ [y] -> a = b /\ x = y.
Proof. apply app_inj_tail. Qed.

(** ... and there is only one such list. *)
Theorem fields_unique d s v w : fields_of d s v -> fields_of d s w -> v = w.
Proof.
  assert (X : forall u, terminated d u = [] \/ last (terminated d u) d = d /\ terminated d u <> []).
  { induction u as [|x t [E|[E N]]]; [left; reflexivity|right|right]; cbn.
    - rewrite E. split; [apply last_app|]. destruct x; discriminate.
    - split; [|destruct x; discriminate]. rewrite last_app_ne by discriminate.
      change (d :: terminated d t) with ([d] ++ terminated d t). rewrite last_app_ne; assumption. }
  intros [Fv Tv] [Fw Tw]. apply (terminated_inj d); try assumption.
  destruct Tv as [Tv|(N1 & L1 & Tv)], Tw as [Tw|(N2 & L2 & Tw)].
  - congruence.
  - destruct (X v) as [E|[E _]]; rewrite Tv in E; congruence.
  - destruct (X w) as [E|[E _]]; rewrite Tw in E; congruence.
  - congruence.
Qed.
Print Assumptions fields_unique.

Example split_example : split (codes "a,,bc,") 44 = [codes "a"; []; codes "bc"].
Proof. reflexivity. Qed.

Definition jstep (d ss s : text) : text := match ss with [] => s | _ => ss ++ d ++ s end.

Lemma join_from d v acc : acc <> [] ->
  fold_left (jstep d) v acc = acc ++ flat_map (fun s => d ++ s) v.
Proof.
  revert acc; induction v as [|x t IH]; intros acc N; [cbn; rewrite app_nil_r; reflexivity|].
  cbn [fold_left flat_map]. destruct acc as [|c a]; [congruence|].
  change (jstep d (c :: a) x) with ((c :: a) ++ d ++ x).
  rewrite IH by discriminate. rewrite <- !app_assoc. reflexivity.
Qed.

Lemma separated_flat d x v : separated d (x :: v) = x ++ flat_map (fun s => d ++ s) v.
Proof.
  revert x; induction v as [|y t IH]; intros x; [cbn; rewrite app_nil_r; reflexivity|].
  change (separated d (x :: y :: t)) with (x ++ d ++ separated d (y :: t)).
  rewrite IH. cbn [flat_map]. rewrite <- !app_assoc. reflexivity.
Qed.

(** join puts the delimiter between the pieces, from the first non-empty piece on. *)
Theorem join_exact v d : join v d = separated d (let fix skip v := match v with
    | [] :: t => skip t | _ => v end in skip v).
Proof.
  change (join v d) with (fold_left (jstep d) v []).
  induction v as [|x t IH]; [reflexivity|].
  destruct x as [|c x]; [exact IH|].
  change (fold_left (jstep d) ((c :: x) :: t) []) with (fold_left (jstep d) t (c :: x)).
  rewrite (join_from d t (c :: x)) by discriminate.
  change (c :: x ++ flat_map (fun s => d ++ s) t) with ((c :: x) ++ flat_map (fun s => d ++ s) t).
  rewrite <- separated_flat. reflexivity.
Qed.
Print Assumptions join_exact.

Example join_example : join [codes "a"; codes "b"; codes "c"] (codes ", ") = codes "a, b, c".
Proof. reflexivity. Qed.

Lemma terminated_app d v w : terminated d (v ++ w) = terminated d v ++ terminated d w.
Proof. induction v as [|x t IH]; [reflexivity|]. cbn. rewrite IH, <- app_assoc. reflexivity. Qed.

Lemma terminated_separated d v : v <> [] -> terminated d v = separated [d] v ++ [d].
Proof.
  induction v as [|x t IH]; [congruence|]. intros _. destruct t as [|y u]; [reflexivity|].
  change (terminated d (x :: y :: u)) with (x ++ d :: terminated d (y :: u)).
  change (separated [d] (x :: y :: u)) with (x ++ [d] ++ separated [d] (y :: u)).
  rewrite IH by discriminate. rewrite <- !app_assoc. reflexivity.
Qed.

Lemma join_head v d c x : join ((c :: x) :: v) d = separated d ((c :: x) :: v).
Proof. rewrite join_exact. reflexivity. Qed.

Lemma separated_last d v : v <> [] -> last v [] <> [] -> separated d v <> [] /\
  last (separated d v) 0 = last (last v []) 0.
Proof.
  induction v as [|x t IH]; [congruence|]. intros _ L. destruct t as [|y u].
  - cbn in *. auto.
  - assert (L' : last (y :: u) [] <> []) by exact L.
    destruct IH as [A B]; [discriminate|exact L'|].
    change (separated d (x :: y :: u)) with (x ++ d ++ separated d (y :: u)). split.
    + intros Q. apply app_eq_nil in Q as [_ Q]. apply app_eq_nil in Q as [_ Q]. auto.
    + rewrite app_assoc, last_app_ne by assumption. exact B.
Qed.

Lemma last_default A (l : list A) d e : l <> [] -> last l d = last l e.
Proof.
  induction l as [|x t IH]; [congruence|]. intros _. destruct t; [reflexivity|]. apply IH. discriminate.
Qed.

(** C52: splitting what was joined gives the pieces back, provided that no piece contains
    the delimiter and neither the first nor the last piece is empty. *)
Theorem split_join_partial v d :
  Forall (fun x => ~ In d x) v -> hd [1] v <> [] -> last v [1] <> [] ->
  split (join v [d]) d = v.
Proof.
  intros F H L. destruct v as [|x t]; [reflexivity|]. destruct x as [|c x]; [cbn in H; congruence|].
  rewrite join_head. eapply fields_unique; [apply split_exact|]. split; [assumption|]. right.
  assert (L' : last ((c :: x) :: t) [] <> []) by (rewrite (last_default _ _ _ [1]); [assumption|discriminate]).
  destruct (separated_last [d] ((c :: x) :: t)) as [A B]; [discriminate|exact L'|].
  splits; [exact A| |apply terminated_separated; discriminate].
  rewrite (last_default _ _ _ 0), B by exact A. intros Q.
  assert (I : In (last ((c :: x) :: t) []) ((c :: x) :: t)) by (apply last_in; discriminate).
  rewrite Forall_forall in F. apply (F _ I). rewrite <- Q at 1. apply last_in. exact L'.
Qed.
Print Assumptions split_join_partial.



Definition total (v : list text) : nat := fold_right (fun x n => (length x + n)%nat) 0%nat v.

Lemma terminated_length d v : length (terminated d v) = (total v + length v)%nat.
Proof. induction v as [|x t IH]; [reflexivity|]. unfold total in *. cbn [terminated length fold_right].
  rewrite app_length. cbn [length]. lia. Qed.

Lemma separated_length d v : v <> [] -> (length (separated [d] v) + 1 = total v + length v)%nat.
Proof.
  intros N. rewrite <- (terminated_length d), (terminated_separated d v N), app_length. cbn. lia.
Qed.

Lemma join_short d v : v <> [] -> (length (join v [d]) + 1 <= total v + length v)%nat.
Proof.
  induction v as [|x t IH]; [congruence|]. intros _. destruct x as [|c x].
  - change (join ([] :: t) [d]) with (join t [d]). destruct t as [|y u]; [cbn; lia|].
    assert (H : y :: u <> []) by discriminate. specialize (IH H). unfold total in *. cbn [fold_right length] in *. lia.
  - rewrite join_head. apply Nat.eq_le_incl, separated_length. discriminate.
Qed.

Lemma join_short_head d (t : list text) : t <> [] -> (length (join ([] :: t) [d]) + 2 <= total ([] :: t) + length ([] :: t))%nat.
Proof.
  intros N. change (join ([] :: t) [d]) with (join t [d]). pose proof (join_short d t N) as J.
  assert (A : total ([] :: t) = total t) by reflexivity.
  assert (B : @length text ([] :: t) = S (@length text t)) by reflexivity.
  rewrite A, B. lia.
Qed.

(** ... and only then. *)
Theorem split_join_only v d : split (join v [d]) d = v ->
  v = [] \/ (hd [1] v <> [] /\ last v [1] <> []).
Proof.
  intros E. destruct v as [|x t]; [left; reflexivity|right].
  destruct (split_exact (join (x :: t) [d]) d) as [F T]. rewrite E in F, T.
  pose proof (terminated_length d (x :: t)) as TL.
  destruct x as [|c x].
  - exfalso. destruct t as [|y u].
    + cbn in T. destruct T as [T|(T & _)]; [discriminate|congruence].
    + assert (N : y :: u <> []) by discriminate. pose proof (join_short_head d _ N) as S.
      destruct T as [T|(_ & _ & T)]; apply (f_equal (@length Z)) in T;
        [|rewrite app_length in T; cbn [length] in T]; lia.
  - split; [discriminate|]. rewrite join_head in T.
    assert (N : (c :: x) :: t <> []) by discriminate.
    pose proof (separated_length d _ N) as S.
    destruct T as [T|(_ & L & _)]; [apply (f_equal (@length Z)) in T; lia|].
    intros Q. apply L. destruct (exists_last N) as (w & y & W).
    rewrite W in *. rewrite last_app in Q. subst y. destruct w as [|z w]; [destruct t; discriminate|].
    assert (Z1 : separated [d] ((z :: w) ++ [[]]) ++ [d] = terminated d (z :: w) ++ [d]).
    { rewrite <- terminated_separated by discriminate. rewrite terminated_app. reflexivity. }
    apply app_last_inj in Z1 as [Z1 _]. rewrite Z1, terminated_separated by discriminate. apply last_app.
Qed.
Print Assumptions split_join_only.

(** C52: joining what was split gives the text back exactly if it is empty or neither
    starts nor ends with the delimiter. *)
Theorem join_split_partial s d :
  join (split s d) [d] = s <-> s = [] \/ (hd (d + 1) s <> d /\ last s (d + 1) <> d).
Proof.
  destruct s as [|c s]; [split; [left; reflexivity|reflexivity]|].
  assert (Ns : c :: s <> []) by discriminate.
  destruct (split_exact (c :: s) d) as [F T]. set (v := split (c :: s) d) in *.
  assert (Nv : v <> []).
  { intros Q. rewrite Q in T. destruct T as [T|(_ & _ & T)]; destruct s; discriminate. }
  pose proof (terminated_length d v) as TL. pose proof (separated_length d v Nv) as SL.
  pose proof (join_short d v Nv) as JL.
  destruct T as [T|(_ & L & T)].
  - split.
    + intros E. exfalso. rewrite E, <- T in JL. lia.
    + intros [Q|(_ & Q)]; [congruence|]. exfalso. apply Q. rewrite <- T.
      rewrite terminated_separated by assumption. apply last_app.
  - rewrite terminated_separated in T by assumption. apply app_last_inj in T as [T _].
    assert (L' : last (c :: s) (d + 1) <> d) by (rewrite (last_default _ _ _ d); assumption).
    destruct v as [|x t]; [congruence|]. destruct x as [|e x].
    + split.
      * intros E. exfalso. destruct t as [|y u]; [cbn in E; discriminate|].
        assert (N : y :: u <> []) by discriminate. pose proof (join_short_head d _ N) as S.
        rewrite E in S. rewrite T in SL. lia.
      * intros [Q|(Q & _)]; [congruence|]. exfalso. destruct t as [|y u]; [cbn in T; discriminate|].
        change (separated [d] ([] :: y :: u)) with (d :: separated [d] (y :: u)) in T.
        apply Q. cbn. congruence.
    + rewrite join_head. split; [|intros _; exact T]. intros _. right. split; [|exact L'].
      intros Q. apply Forall_inv in F. apply F. left.
      rewrite separated_flat in T. cbn in T, Q. congruence.
Qed.
Print Assumptions join_split_partial.

(** C52 as stated is false at the ends of the list. *)
Theorem split_join_refuted :
  split (join [codes "a"; []] (codes ",")) 44 = [codes "a"] /\
  split (join [[]; codes "a"] (codes ",")) 44 = [codes "a"] /\
  join (split (codes "a,") 44) (codes ",") = codes "a" /\
  join (split (codes ",a") 44) (codes ",") = codes "a".
Proof. splits; reflexivity. Qed.
Print Assumptions split_join_refuted.

Example split_join_hyps :
  let v := [codes "a"; []; codes "b c"] in
  Forall (fun x => ~ In 44 x) v /\ hd [1] v <> [] /\ last v [1] <> [].
Proof.
  cbn. splits; try discriminate. repeat constructor; cbn; intros H;
    repeat (destruct H as [H|H]; [lia|]); destruct H.
Qed.

(** ** trim and line_parser *)

Lemma is_white_spec c : is_white c = true <-> white c.
Proof. unfold is_white, white, SPACE, TAB, NEWLINE, RETURN. rewrite !orb_true_iff, !Z.eqb_eq. lia. Qed.
Lemma is_blank_spec c : is_blank c = true <-> blank c.
Proof. unfold is_blank, blank, SPACE, TAB. rewrite !orb_true_iff, !Z.eqb_eq. lia. Qed.

Lemma drop_while_spec f s : exists a, s = a ++ drop_while f s /\
  Forall (fun c => f c = true) a /\ (forall c u, drop_while f s = c :: u -> f c = false).
Proof.
  induction s as [|c t (a & E & F & H)]; [exists []; splits; auto; discriminate|].
  cbn. destruct (f c) eqn:Fc.
  - exists (c :: a). splits; [cbn; congruence|constructor; auto|exact H].
  - exists []. splits; auto. intros ? ? Q. congruence.
Qed.

(** trim removes exactly the white space around the text. *)
Theorem trim_exact s : stripped s (trim s).
Proof.
  unfold trim. set (m := drop_while is_white s).
  destruct (drop_while_spec is_white s) as (a & Ea & Fa & Ha).
  destruct (drop_while_spec is_white (rev m)) as (b & Eb & Fb & Hb). fold m in Ea, Ha.
  set (q := drop_while is_white (rev m)) in *.
  assert (Em : m = rev q ++ rev b) by (rewrite <- rev_app_distr, <- Eb, rev_involutive; reflexivity).
  exists a, (rev b). splits.
  - rewrite Ea at 1. rewrite Em. reflexivity.
  - eapply Forall_impl; [|exact Fa]. intros c Hc. apply is_white_spec; exact Hc.
  - apply Forall_rev. eapply Forall_impl; [|exact Fb]. intros c Hc. apply is_white_spec; exact Hc.
  - intros c u Q W. apply is_white_spec in W. rewrite (Ha c (u ++ rev b)) in W; [discriminate|].
    rewrite Em, Q. reflexivity.
  - intros c u Q W. apply is_white_spec in W. rewrite (Hb c (rev u)) in W; [discriminate|].
    rewrite <- (rev_involutive q), Q, rev_app_distr. reflexivity.
Qed.
Print Assumptions trim_exact.

Lemma split_at_boundary a a' t t' b b' (P : Z -> Prop) :
  a ++ t ++ b = a' ++ t' ++ b' -> Forall P a -> Forall P a' -> Forall P b ->
  (forall c u, t = c :: u -> ~ P c) -> (forall c u, t' = c :: u -> ~ P c) -> t <> [] -> t' <> [] -> a = a'.
Proof.
  revert a'; induction a as [|x a IH]; intros [|y a'] E Fa Fa' Fb H H' N N'.
  - reflexivity.
  - destruct t as [|c t]; [congruence|]. cbn in E. exfalso. apply (H c t); [reflexivity|].
    apply Forall_inv in Fa'. congruence.
  - destruct t' as [|c t']; [congruence|]. cbn in E. exfalso. apply (H' c t'); [reflexivity|].
    apply Forall_inv in Fa. congruence.
  - cbn in E. f_equal; [congruence|]. apply (IH a'); try assumption; try congruence.
    + apply Forall_inv_tail in Fa; exact Fa.
    + apply Forall_inv_tail in Fa'; exact Fa'.
Qed.

Lemma stripped_nil s t : stripped s t -> Forall white s -> t = [].
Proof.
  intros (a & b & E & Fa & Fb & H1 & H2) F. destruct t as [|c t]; [reflexivity|].
  exfalso. apply (H1 c t); [reflexivity|]. rewrite Forall_forall in F. apply F. rewrite E.
  apply in_or_app; right. left; reflexivity.
Qed.

(** ... and there is only one way of doing that. *)
Theorem stripped_unique s t u : stripped s t -> stripped s u -> t = u.
Proof.
  intros Ht Hu. destruct t as [|c t].
  - symmetry. apply (stripped_nil s); [exact Hu|]. destruct Ht as (a & b & E & Fa & Fb & _).
    rewrite E. apply Forall_app; split; [exact Fa|exact Fb].
  - destruct u as [|e u].
    { apply (stripped_nil s); [exact Ht|]. destruct Hu as (a & b & E & Fa & Fb & _).
      rewrite E. apply Forall_app; split; [exact Fa|exact Fb]. }
    destruct Ht as (a & b & E & Fa & Fb & H1 & H2). destruct Hu as (a' & b' & E' & Fa' & Fb' & H1' & H2').
    assert (A : a = a') by (eapply (split_at_boundary a a' (c :: t) (e :: u) b b' white); eauto; try congruence; discriminate).
    subst a'. rewrite E in E'. apply app_inv_head in E'.
    assert (R : rev b ++ rev (c :: t) ++ [] = rev b' ++ rev (e :: u) ++ []).
    { rewrite !app_nil_r, <- !rev_app_distr. congruence. }
    assert (B : rev b = rev b').
    { eapply (split_at_boundary (rev b) (rev b') (rev (c :: t)) (rev (e :: u)) [] [] white); try exact R.
      - apply Forall_rev; exact Fb.
      - apply Forall_rev; exact Fb'.
      - constructor.
      - intros z w Q. apply (H2 z (rev w)). rewrite <- (rev_involutive (c :: t)), Q. reflexivity.
      - intros z w Q. apply (H2' z (rev w)). rewrite <- (rev_involutive (e :: u)), Q. reflexivity.
      - intros Q. apply (f_equal (@length Z)) in Q. rewrite rev_length in Q. discriminate.
      - intros Q. apply (f_equal (@length Z)) in Q. rewrite rev_length in Q. discriminate. }
    assert (b = b') by (rewrite <- (rev_involutive b), B, rev_involutive; reflexivity). subst b'.
    apply app_inv_tail in E'. exact E'.
Qed.
Print Assumptions stripped_unique.

Example trim_example : trim (codes "  a b  ") = codes "a b".
Proof. reflexivity. Qed.

Lemma take_until_spec s : uncommented s (take_until HASH s).
Proof.
  induction s as [|c t [N E]]; [split; [intros []|left; reflexivity]|]. cbn.
  destruct (Z.eqb_spec c HASH) as [->|H]; [split; [intros []|right; exists t; reflexivity]|].
  split; [intros [Q|Q]; [unfold HASH in H; congruence|auto]|].
  destruct E as [E|[r E]]; [left; congruence|right; exists r; cbn; congruence].
Qed.

Lemma uncommented_unique s t u : uncommented s t -> uncommented s u -> t = u.
Proof.
  revert t u; induction s as [|c s IH]; intros t u [Nt Et] [Nu Eu].
  - destruct Et as [<-|[r Et]]; [|destruct t; discriminate].
    destruct Eu as [<-|[r Eu]]; [|destruct u; discriminate]. reflexivity.
  - destruct t as [|x t].
    + destruct Et as [Et|[r Et]]; [discriminate|]. cbn in Et.
      destruct u as [|y u]; [reflexivity|]. exfalso. apply Nu. left.
      destruct Eu as [Eu|[q Eu]]; cbn in Eu; congruence.
    + assert (x = c) by (destruct Et as [Et|[r Et]]; cbn in Et; congruence). subst x.
      destruct u as [|y u].
      * exfalso. destruct Eu as [Eu|[q Eu]]; [discriminate|]. cbn in Eu. apply Nt. left. congruence.
      * assert (y = c) by (destruct Eu as [Eu|[q Eu]]; cbn in Eu; congruence). subst y.
        f_equal. apply IH.
        -- split; [intros Q; apply Nt; right; exact Q|].
           destruct Et as [Et|[r Et]]; [left; congruence|right; exists r; cbn in Et; congruence].
        -- split; [intros Q; apply Nu; right; exact Q|].
           destruct Eu as [Eu|[r Eu]]; [left; congruence|right; exists r; cbn in Eu; congruence].
Qed.

(** what line_parser must return for the k-th line (counted from 1) *)
Definition line_wanted (k : Z) (raw : text) (l : line) : Prop :=
  exists code, uncommented raw code /\ ~ Forall blank code /\
    number l = k /\ stripped code (content l).

Lemma drop_blank_nil s : drop_while is_blank s = [] <-> Forall blank s.
Proof.
  induction s as [|c t IH]; [split; [constructor|reflexivity]|]. cbn. destruct (is_blank c) eqn:B.
  - apply is_blank_spec in B. rewrite IH. split; [constructor; assumption|intros H; inversion H; assumption].
  - split; [discriminate|]. intros H. apply Forall_inv in H. apply is_blank_spec in H. congruence.
Qed.

Definition numbered (n : Z) (raws : list text) : list (Z * text) :=
  combine (map (fun k => n + Z.of_nat k) (seq 1 (length raws))) raws.

Lemma numbered_cons n r t : numbered n (r :: t) = (n + 1, r) :: numbered (n + 1) t.
Proof.
  unfold numbered. cbn [length seq map combine]. f_equal. f_equal.
  rewrite <- seq_shift, map_map. apply map_ext. intros k. lia.
Qed.

Lemma parse_fold raws n acc : 0 <= n -> n + Z.of_nat (length raws) <= INT_MAX ->
  exists out, foldM parse_step (n, acc) raws = Ok (n + Z.of_nat (length raws), acc ++ out) /\
    (forall l, In l out <-> exists k raw, In (k, raw) (numbered n raws) /\ line_wanted k raw l) /\
    (forall l, In l out -> n < number l) /\
    StronglySorted (fun a b => number a < number b) out.
Proof.
  revert n acc; induction raws as [|r t IH]; intros n acc Hn L.
  - exists []. cbn. rewrite Z.add_0_r, app_nil_r. splits; auto.
    + intros l. split; [intros []|intros (k & raw & [] & _)].
    + intros l [].
    + constructor.
  - cbn [length] in L. cbn [foldM].
    assert (E1 : sint (n + 1) = Ok (n + 1)).
    { unfold sint, in_i32, INT_MIN in *. rewrite (proj2 (Z.leb_le _ _)), (proj2 (Z.leb_le _ _)); [reflexivity|lia|lia]. }
    unfold parse_step at 1. rewrite E1. cbn [rbind]. pose proof (take_until_spec r) as U.
    set (code := take_until HASH r) in *.
    destruct (drop_while is_blank code) as [|c0 u0] eqn:D.
    + apply drop_blank_nil in D. cbn [rbind].
      destruct (IH (n + 1) acc) as (out & E & H1 & H2 & H3); [lia|lia|].
      exists out. splits.
      * rewrite E. f_equal. f_equal. cbn [length]. lia.
      * intros l. rewrite H1. rewrite numbered_cons. split.
        -- intros (k & raw & I & W). exists k, raw. split; [right; exact I|exact W].
        -- intros (k & raw & [I|I] & W); [|exists k, raw; auto].
           exfalso. destruct W as (cd & Uc & Nb & _). assert (raw = r) by congruence. subst raw.
           assert (cd = code) by (eapply uncommented_unique; eauto). subst cd. auto.
      * intros l I. specialize (H2 l I). lia.
      * exact H3.
    + cbn [rbind]. set (l0 := mkLine (n + 1) (trim code)).
      assert (W0 : line_wanted (n + 1) r l0).
      { exists code. splits; auto; [|apply trim_exact]. intros F. apply drop_blank_nil in F. congruence. }
      destruct (IH (n + 1) (acc ++ [l0])) as (out & E & H1 & H2 & H3); [lia|lia|].
      exists (l0 :: out). splits.
      * rewrite E. rewrite <- app_assoc. f_equal. f_equal. cbn [length]. lia.
      * intros l. rewrite numbered_cons. split.
        -- intros [<-|I]; [exists (n + 1), r; split; [left; reflexivity|exact W0]|].
           apply H1 in I as (k & raw & I & W). exists k, raw. split; [right; exact I|exact W].
        -- intros (k & raw & [I|I] & W); [|right; apply H1; exists k, raw; auto].
           left. assert (k = n + 1 /\ raw = r) as [-> ->] by (split; congruence).
           destruct W as (cd & Uc & Nb & Nl & St). assert (cd = code) by (eapply uncommented_unique; eauto).
           subst cd. destruct l as [ln lc]. cbn in *. subst ln. unfold l0. f_equal.
           eapply stripped_unique; [apply trim_exact|exact St].
      * intros l [<-|I]; [cbn; lia|]. specialize (H2 l I). lia.
      * constructor; [exact H3|]. apply Forall_forall. intros l I. apply H2 in I. cbn. lia.
Qed.

(** C51: for every input with fewer than 2^31 lines, line_parser returns, in order, exactly
    the lines that have something other than blanks and tabs before a '#', with their
    1-based numbers and with comment and surrounding white space removed. *)
Theorem line_parser_exact_partial input raws :
  fields_of NEWLINE input raws -> Z.of_nat (length raws) <= INT_MAX ->
  exists ls, line_parser input = Ok ls /\
    (forall l, In l ls <-> exists i raw,
        nth_error raws i = Some raw /\ line_wanted (Z.of_nat i + 1) raw l) /\
    StronglySorted (fun a b => number a < number b) ls.
Proof.
  intros F L. assert (E : getlines (length input) NEWLINE input = raws)
    by (eapply fields_unique; [apply getlines_spec; lia|exact F]).
  unfold line_parser. rewrite E.
  destruct (parse_fold raws 0 []) as (out & P & H1 & _ & H3); [lia|lia|].
  rewrite P. cbn [rbind app]. exists out. splits; auto. intros l. rewrite H1.
  assert (X : forall n rs k raw, In (k, raw) (numbered n rs) <->
             exists i, nth_error rs i = Some raw /\ k = n + Z.of_nat i + 1).
  { clear. intros n rs; revert n; induction rs as [|r t IH]; intros n k raw.
    - split; [intros []|intros ([|i] & Q & _); discriminate].
    - rewrite numbered_cons. cbn [In]. rewrite IH. split.
      + intros [Q|(i & Q & ->)]; [exists 0%nat; split; [cbn; congruence|]|exists (S i); split; [exact Q|lia]].
        assert (k = n + 1) by congruence. lia.
      + intros ([|i] & Q & ->); [left; cbn in Q; f_equal; [lia|congruence]|].
        right. exists i. split; [exact Q|lia]. }
  split.
  - intros (k & raw & I & W). apply X in I as (i & N & ->). exists i, raw. split; [exact N|].
    replace (Z.of_nat i + 1) with (0 + Z.of_nat i + 1) by lia. exact W.
  - intros (i & raw & N & W). exists (Z.of_nat i + 1), raw. split; [apply X; exists i; split; [exact N|lia]|exact W].
Qed.
Print Assumptions line_parser_exact_partial.

(** C51, last part, is false: a line that consists of a carriage return only (an empty
    line of a file with Windows line ends) is returned with an empty text.  The loader of
    decay modes asserts the contrary (decaymodes.cc:228). *)
Theorem line_parser_empty_refuted :
  line_parser (codes "a b" ++ [RETURN; NEWLINE; RETURN; NEWLINE] ++ codes "c") =
  Ok [mkLine 1 (codes "a b"); mkLine 2 []; mkLine 3 (codes "c")].
Proof. reflexivity. Qed.
Print Assumptions line_parser_empty_refuted.

(** An empty text is returned only for such a line. *)
Theorem line_parser_empty_only input raws ls l :
  fields_of NEWLINE input raws -> Z.of_nat (length raws) <= INT_MAX ->
  line_parser input = Ok ls -> In l ls -> content l = [] ->
  exists raw, In raw raws /\ In RETURN raw.
Proof.
  intros F L E I C. destruct (line_parser_exact_partial input raws F L) as (ls' & E' & H & _).
  assert (ls' = ls) by congruence. subst ls'. apply H in I as (i & raw & N & cd & U & Nb & _ & St).
  exists raw. split; [eapply nth_error_In; exact N|].
  destruct F as [Fd _]. rewrite Forall_forall in Fd. specialize (Fd raw (nth_error_In _ _ N)).
  assert (Sub : forall x, In x cd -> In x raw).
  { intros x Ix. destruct U as [_ [U|[r U]]]; rewrite U; [exact Ix|apply in_or_app; left; exact Ix]. }
  destruct St as (a & b & Ec & Fa & Fb & _). rewrite C in Ec. cbn in Ec.
  assert (W : Forall white cd) by (rewrite Ec; apply Forall_app; auto).
  destruct (in_dec Z.eq_dec RETURN cd) as [Q|Q]; [apply Sub; exact Q|]. exfalso. apply Nb.
  rewrite Forall_forall in *. intros x Ix. destruct (W x Ix) as [X|[X|[X|X]]].
  - left; exact X.
  - right; exact X.
  - exfalso. apply Fd. subst x. apply Sub; exact Ix.
  - exfalso. apply Q. subst x. exact Ix.
Qed.
Print Assumptions line_parser_empty_only.

Example line_parser_hyps :
  let input := codes "x # y" ++ [NEWLINE; NEWLINE] ++ codes " z" in
  let raws := [codes "x # y"; []; codes " z"] in
  fields_of NEWLINE input raws /\ Z.of_nat (length raws) <= INT_MAX /\
  line_parser input = Ok [mkLine 1 (codes "x"); mkLine 3 (codes "z")].
Proof.
  cbv zeta. splits.
  - exact (split_exact (codes "x # y" ++ [NEWLINE; NEWLINE] ++ codes " z") NEWLINE).
  - cbn. unfold INT_MAX. lia.
  - reflexivity.
Qed.
