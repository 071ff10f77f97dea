(** Properties C25-C30, C66, C67: the configuration object. *)
From Coq Require Import ZArith List Bool String Lia.
Import ListNotations.
From Verif Require Import Base ConfigModel ConfigSpec ConfigProofs ConfigTake ConfigMerge ConfigValid ConfigKeys.
Local Open Scope string_scope.
Local Open Scope list_scope.
Local Open Scope nat_scope.

(** * Sample objects for the examples *)
Definition text_key (labels : label_path) (d : option string) (m : bool) : key string :=
  Key string labels d true (fun _ => true) m
    (fun n => match n with Scalar s => Ok s | _ => Throw E_invalid_argument end) Scalar.
Definition sample : node :=
  Map [("General", Map [("Modus", Scalar "Box"); ("Nevents", Scalar "7")]);
       ("Output", Map [("Particles", Map [("Format", Seq [Scalar "Oscar2013"; Scalar "VTK"])])]);
       ("Version", Null)].
Definition sample_conf : conf := Conf (Some sample) [] 0.
Ltac distinct := repeat constructor; cbn; intuition discriminate.
Ltac tidy_tac := repeat first [apply tidy_leaf; intros ? ?; discriminate
  | apply tidy_map; split; [distinct | split; [cbn; intuition discriminate | ]]
  | intros ? ? ?; match goal with H : In _ _ |- _ => cbn [In] in H; repeat (destruct H as [H | H]); try contradiction; inversion H; subst; clear H end].
Lemma sample_tidy : tidy sample. Proof. unfold sample. tidy_tac. Qed.

(** ** C25 *)
(** The key has a value: it is returned (converted and validated), its labels and
    everything below disappear together with sections left empty, nothing else changes. *)
Theorem take_returns_value_and_removes_only_it {T} (c : conf) (k : key T) n :
  tidy (tree c) -> k_labels k <> [] -> at_path (tree c) (k_labels k) n -> n <> Null ->
  (leaf n \/ k_is_map k = true) ->
  let '(r, c') := take c k in
  r = (v <- k_decode k n ;; if k_valid k v then Ok v else Throw E_invalid_argument) /\
  (forall p v, key_value (tree c') p v <-> key_value (tree c) p v /\ ~ prefix (k_labels k) p) /\
  tidy (tree c') /\ compact (tree c') /\ In (k_labels k) (taken c').
Proof.
  intros Ti NE A NN H. assert (X : exists c', take c k = (v <- k_decode k n ;; validated k v, c') /\ after_take c c' (k_labels k)).
  { destruct (leaf_cases n) as [L | (l & ->)]; [apply take_value; auto; split; auto|].
    pose proof (take_section c k l Ti NE A) as S. destruct (k_is_map k); auto.
    destruct H as [L | E]; [destruct (L _ eq_refl) | discriminate]. }
  destruct X as (c' & -> & (T' & C' & _ & K) & _ & Q). split; auto. split; auto. split; auto. split; auto. apply Q. auto.
Qed.
Print Assumptions take_returns_value_and_removes_only_it.

(** The remaining cases: nothing changes, and the outcome says why. *)
Theorem take_without_value {T} (c : conf) (k : key T) : tidy (tree c) -> k_labels k <> [] ->
  ((forall n, at_path (tree c) (k_labels k) n -> n = Null) -> ~ blocked (tree c) (k_labels k) ->
    (In (k_labels k) (taken c) -> take c k = (Throw E_domain, c)) /\
    (~ In (k_labels k) (taken c) -> take c k =
       (match k_default k with Some d => Ok d | None => Throw E_invalid_argument end, c))) /\
  ((exists l, at_path (tree c) (k_labels k) (Map l)) -> k_is_map k = false -> take c k = (Throw E_logic, c)) /\
  (blocked (tree c) (k_labels k) -> take c k = (Throw E_other, c)).
Proof.
  intros Ti NE. split; [|split].
  - intros H NB. assert (E : take c k = (if already_taken c (k_labels k) then Throw E_domain else default_of k, c)).
    { apply take_absent; auto. destruct (present_or_not _ (k_labels k) Ti) as [(n & A) | [X | B]]; auto.
      left. rewrite (H n A) in A. auto. }
    rewrite E. split; intros I.
    + rewrite (proj2 (already_taken_in c _) I). reflexivity.
    + destruct (already_taken c (k_labels k)) eqn:X; [apply already_taken_in in X; contradiction | reflexivity].
  - intros (l & A) M. pose proof (take_section c k l Ti NE A) as S. rewrite M in S. auto.
  - apply take_blocked; auto.
Qed.
Print Assumptions take_without_value.
Example take_case : let '(r, c') := take sample_conf (text_key ["General"; "Modus"] None false) in
  r = Ok "Box" /\ tree c' = Map [("General", Map [("Nevents", Scalar "7")]);
       ("Output", Map [("Particles", Map [("Format", Seq [Scalar "Oscar2013"; Scalar "VTK"])])]); ("Version", Null)].
Proof. vm_compute. auto. Qed.

(** Histories: any number of take calls with any keys, of any type, with or without a
    default given by the caller. *)
Inductive use (c : conf) : conf -> Prop :=
| use_take T (k : key T) : k_labels k <> [] -> use c (snd (take c k))
| use_take_or T (k : key T) d : k_labels k <> [] -> use c (snd (take_or c k d)).
Inductive uses (c0 : conf) : conf -> Prop :=
| uses_none : uses c0 c0
| uses_more c c' : uses c0 c -> use c c' -> uses c0 c'.

(** a configuration as read from a file: sections have distinct non-empty names and are
    not empty, nothing was taken yet *)
Definition fresh (c : conf) : Prop :=
  tidy (tree c) /\ compact (tree c) /\ is_map (tree c) = true /\ taken c = [].

Lemma uses_inv c0 c : fresh c0 -> uses c0 c ->
  tidy (tree c) /\ compact (tree c) /\ is_map (tree c) = true /\ born c = born c0 /\
  (forall p v, key_value (tree c) p v <-> key_value (tree c0) p v /\ forall q, In q (taken c) -> ~ prefix q p) /\
  (forall q, In q (taken c) -> exists p v, key_value (tree c0) p v /\ prefix q p).
Proof.
  intros (T0 & C0 & M0 & E0). induction 1 as [|c c' U IH V].
  - split; auto. split; auto. split; auto. split; auto. rewrite E0. split; [|intros q []]. intros p v. split; [intros K; split; auto; intros q [] | tauto].
  - destruct IH as (T & C & M & B & K & Q).
    assert (G : forall T1 (k : key T1), k_labels k <> [] -> snd (take c k) = c' -> 
      tidy (tree c') /\ compact (tree c') /\ is_map (tree c') = true /\ born c' = born c0 /\
      (forall p v, key_value (tree c') p v <-> key_value (tree c0) p v /\ forall q, In q (taken c') -> ~ prefix q p) /\
      (forall q, In q (taken c') -> exists p v, key_value (tree c0) p v /\ prefix q p)).
    { intros T1 k NE E. destruct (take_effect c k T NE) as [S | (((T' & C' & M' & K') & B' & Q') & n & A & NN & H)].
      - subst c'. rewrite S. auto 7.
      - rewrite E in *. split; auto. split; auto. split; auto. split; [congruence|]. split.
        + intros p v. rewrite K', K. setoid_rewrite Q'. split.
          * intros ((K1 & K2) & K3). split; auto. intros q [I | ->]; auto.
          * intros (K1 & K2). split; [split; auto | auto].
        + intros q I. apply Q' in I. destruct I as [I | ->]; auto.
          assert (Ex : exists r w, key_value n r w).
          { apply compact_has_key.
            - intros r l A' _ ->. destruct (k_labels k) as [|a b] eqn:Lk; [congruence|].
              apply (C ((a :: b) ++ r) []); [apply at_app; eauto | discriminate | reflexivity].
            - intros ->. apply (C (k_labels k) []); auto. }
          destruct Ex as (r & w & A' & L). assert (K1 : key_value (tree c) (k_labels k ++ r) w) by (split; auto; apply at_app; eauto).
          apply K in K1. exists (k_labels k ++ r), w. split; [tauto | exists r; auto]. }
    destruct V as [T1 k NE | T1 k d NE].
    + apply (G T1 k NE eq_refl).
    + destruct (take_or_effect c k d) as [E | E].
      * rewrite E. split; auto.
      * rewrite E in *. apply (G T1 k NE eq_refl).
Qed.

(** A value the user wrote is never replaced by the default: whatever was taken before,
    taking the key gives the user's value, or an error if it was taken already. *)
Theorem user_value_never_replaced_by_default {T} c0 c (k : key T) n :
  fresh c0 -> uses c0 c -> k_labels k <> [] -> key_value (tree c0) (k_labels k) n -> n <> Null ->
  (forall q, In q (taken c) -> prefix q (k_labels k) -> q = k_labels k) ->
  fst (take c k) = (if in_dec (list_eq_dec string_dec) (k_labels k) (taken c) then Throw E_domain
                    else v <- k_decode k n ;; if k_valid k v then Ok v else Throw E_invalid_argument).
Proof.
  intros F U NE (A0 & L0) NN H. destruct (uses_inv c0 c F U) as (Ti & C & M & B & K & Q). destruct F as (T0 & _ & _ & E0).
  destruct (in_dec _ _ _) as [I | NI].
  - assert (X : take c k = (Throw E_domain, c)); [|rewrite X; reflexivity].
    assert (NB : ~ blocked (tree c) (k_labels k)).
    { intros (q & a & r & x & l & E & A). assert (Kq : key_value (tree c) q (Seq (x :: l))) by (split; auto; intros ? ?; discriminate).
      apply K in Kq. destruct Kq as ((Aq & _) & _). rewrite E in A0. apply at_app in A0. destruct A0 as (m & P & A0).
      rewrite <- (at_fun _ _ _ _ T0 Aq P) in A0. apply at_cons in A0. destruct A0 as (? & ? & Y & _). discriminate. }
    refine (proj1 (proj1 (take_without_value c k Ti NE) _ NB) I).
    intros m A. exfalso. destruct (leaf_cases m) as [L | (l & ->)].
    + assert (Km : key_value (tree c) (k_labels k) m) by (split; auto). apply K in Km. destruct Km as (_ & Y). apply (Y _ I). apply prefix_refl.
    + assert (Ex : exists r w, key_value (Map l) r w).
      { apply compact_has_key.
        - intros r l' A' _ ->. destruct (k_labels k) as [|a b] eqn:Lk; [congruence|].
          apply (C ((a :: b) ++ r) []); [apply at_app; eauto | discriminate | reflexivity].
        - intros Y. inversion Y; subst. apply (C (k_labels k) []); auto. }
      destruct Ex as (r & w & A' & L). assert (K1 : key_value (tree c) (k_labels k ++ r) w) by (split; auto; apply at_app; eauto).
      apply K in K1. destruct K1 as (_ & Y). apply (Y _ I). exists r. auto.
  - assert (Kn : key_value (tree c) (k_labels k) n).
    { apply K. split; [split; auto|]. intros q I P. apply NI. rewrite <- (H q I P). auto. }
    destruct (take_value c k n Ti NE Kn NN) as (c' & -> & _). reflexivity.
Qed.
Print Assumptions user_value_never_replaced_by_default.
Example history_case : exists c0 c, fresh c0 /\ uses c0 c /\ In ["A"; "B"] (taken c) /\ key_value (tree c) ["A"; "C"] (Scalar "2").
Proof.
  exists (Conf (Some (Map [("A", Map [("B", Scalar "1"); ("C", Scalar "2")])])) [] 0).
  eexists. split.
  { split; [cbn; tidy_tac|]. split; [|split; reflexivity].
    intros p l A NP. destruct p as [|k p]; [congruence|]. apply at_map in A. destruct A as (c & [E | []] & A). inversion E; subst.
    destruct p as [|k' p]; [apply at_nil in A; inversion A; discriminate|]. apply at_map in A.
    destruct A as (c & [E' | [E' | []]] & A); inversion E'; subst; (destruct p; [apply at_nil in A; discriminate | apply at_cons in A; destruct A as (? & ? & X & _); discriminate]). }
  split; [eapply uses_more; [apply uses_none | apply (use_take _ string (text_key ["A"; "B"] None false)); discriminate]|].
  split; [left; reflexivity|]. split; [|intros ? ?; discriminate].
  vm_compute. econstructor; [left; reflexivity|]. econstructor; [left; reflexivity|]. constructor.
Qed.

(** Finding: a take with a caller-given default silently returns the default when the key
    was taken before (no TakeSameKeyTwice). *)
Theorem second_take_with_default_refuted : exists (c : conf) (k : key string),
  fresh c /\ key_value (tree c) (k_labels k) (Scalar "user") /\
  fst (take_or c k "default") = Ok "user" /\ fst (take_or (snd (take_or c k "default")) k "default") = Ok "default".
Proof.
  exists (Conf (Some (Map [("K", Scalar "user")])) [] 0), (text_key ["K"] None false).
  split; [|split; [|split; reflexivity]].
  - split; [cbn; tidy_tac|]. split; [|split; reflexivity]. intros p l A NP. destruct p as [|k p]; [congruence|].
    apply at_map in A. destruct A as (c & [E | []] & A). inversion E; subst.
    destruct p; [apply at_nil in A; discriminate | apply at_cons in A; destruct A as (? & ? & X & _); discriminate].
  - split; [econstructor; [left; reflexivity | constructor] | intros ? ?; discriminate].
Qed.
Print Assumptions second_take_with_default_refuted.

(** Finding: any take also deletes an entry whose name is the empty text, anywhere. *)
Theorem empty_name_lost_by_take_refuted : exists (c : conf) (k : key string) v,
  key_value (tree c) ["A"; ""] v /\ ~ prefix (k_labels k) ["A"; ""] /\
  forall w, ~ key_value (tree (snd (take c k))) ["A"; ""] w.
Proof.
  exists (Conf (Some (Map [("A", Map [(""%string, Scalar "1"); ("C", Scalar "2")]); ("B", Scalar "3")])) [] 0), (text_key ["B"] None false), (Scalar "1").
  split; [|split].
  - split; [|intros ? ?; discriminate]. econstructor; [left; reflexivity|]. econstructor; [left; reflexivity|]. constructor.
  - intros (r & E). discriminate.
  - intros w (A & _). vm_compute in A. apply at_map in A. destruct A as (c & [E | []] & A). inversion E; subst.
    apply at_map in A. destruct A as (c & [E' | []] & A). inversion E'.
Qed.
Print Assumptions empty_name_lost_by_take_refuted.

(** Finding: with a duplicated key the first value is taken, the second stays. *)
Theorem duplicate_key_taken_twice_refuted : exists (c : conf) (k : key string),
  fst (take c k) = Ok "1" /\ fst (take (snd (take c k)) k) = Ok "2".
Proof. exists (Conf (Some (Map [("A", Scalar "1"); ("A", Scalar "2")])) [] 0), (text_key ["A"] None false). split; reflexivity. Qed.
Print Assumptions duplicate_key_taken_twice_refuted.

(** ** C26 *)
(** Reading tells what taking would give (and cannot change anything: it has no result
    other than the value). *)
Theorem read_previews_take {T} (c : conf) (k : key T) : tidy (tree c) -> k_labels k <> [] ->
  ~ In (k_labels k) (taken c) -> read c k = fst (take c k).
Proof.
  intros Ti NE NT. unfold read. destruct (present_or_not _ (k_labels k) Ti) as [(n & A) | [(X & Y) | B]].
  - unfold has_value, has_section, read_node. rewrite (find_at _ _ _ Ti A). cbn [rbind].
    destruct (leaf_cases n) as [L | (l & ->)].
    + assert (D : n = Null \/ n <> Null) by (destruct n; auto; right; discriminate). destruct D as [-> | D].
      * rewrite take_absent by auto. cbn. destruct (already_taken c (k_labels k)) eqn:E; [apply already_taken_in in E; contradiction | reflexivity].
      * destruct (take_value c k n Ti NE (conj A L) D) as (c' & -> & _). destruct n; cbn; auto; [congruence | destruct (L _ eq_refl)].
    + pose proof (take_section c k l Ti NE A) as S. cbn. destruct (k_is_map k); [destruct S as (c' & -> & _)|rewrite S]; reflexivity.
  - rewrite take_absent by auto. unfold has_value, has_section. pose proof (find_spec (tree c) (k_labels k) Ti) as S.
    destruct (find_existing_node (tree c) (k_labels k)) as [[n|]|e|u]; cbn.
    + destruct (X _ S).
    + destruct (already_taken c (k_labels k)) eqn:E; [apply already_taken_in in E; contradiction | reflexivity].
    + destruct S; contradiction.
    + destruct S.
  - rewrite take_blocked by auto. unfold has_value. pose proof (find_spec (tree c) (k_labels k) Ti) as S.
    destruct (find_existing_node (tree c) (k_labels k)) as [[n|]|e|u] eqn:F; cbn.
    + exfalso. destruct B as (q & k0 & r & x & l & E & Q). rewrite E in S. apply at_app in S. destruct S as (m & M & S).
      rewrite <- (at_fun _ _ _ _ Ti Q M) in S. apply at_cons in S. destruct S as (? & ? & Z & _). discriminate.
    + tauto.
    + destruct S as (-> & _). reflexivity.
    + destruct S.
Qed.
Print Assumptions read_previews_take.

(** The forms with a default given by the caller: allowed only for keys declared so, with an
    acceptable default; the default is used exactly when the key has no value. *)
Theorem given_default_only_without_value {T} (c : conf) (k : key T) d : tidy (tree c) -> k_labels k <> [] ->
  (k_dependent k = false \/ k_valid k d = false -> take_or c k d = (Throw E_logic, c) /\ read_or c k d = Throw E_logic) /\
  (k_dependent k = true -> k_valid k d = true ->
     (forall n, key_value (tree c) (k_labels k) n -> n <> Null ->
        take_or c k d = take c k /\
        read_or c k d = (v <- k_decode k n ;; if k_valid k v then Ok v else Throw E_invalid_argument)) /\
     ((forall n, key_value (tree c) (k_labels k) n -> n = Null) -> ~ blocked (tree c) (k_labels k) ->
        take_or c k d = (Ok d, c) /\ read_or c k d = Ok d)).
Proof.
  intros Ti NE. unfold take_or, read_or. split; [|intros -> ->; cbn [negb]; split].
  - intros [-> | E]; cbn [negb]; [auto|]. rewrite E. destruct (k_dependent k); auto.
  - intros n (A & L) NN. assert (HV : has_value c (k_labels k) = Ok true).
    { unfold has_value. rewrite (find_at _ _ _ Ti A). destruct n; cbn; auto; [congruence | destruct (L _ eq_refl)]. }
    rewrite HV. cbn [rbind]. split; [reflexivity|]. unfold read. rewrite HV. cbn [rbind]. unfold read_node. rewrite (find_at _ _ _ Ti A).
    destruct n; cbn; auto. congruence.
  - intros H NB. assert (HV : has_value c (k_labels k) = Ok false).
    { unfold has_value. pose proof (find_spec (tree c) (k_labels k) Ti) as FS.
      destruct (find_existing_node (tree c) (k_labels k)) as [[n|]|e|u]; cbn [rbind]; auto.
      - destruct (leaf_cases n) as [L | (l & ->)]; [|reflexivity]. rewrite (H n (conj FS L)). reflexivity.
      - destruct FS; contradiction.
      - destruct FS. }
    rewrite HV. cbn [rbind]. auto.
Qed.
Print Assumptions given_default_only_without_value.
(** Finding: for a key whose value is a map, the forms with a given default never look at
    the map in the file. *)
Theorem given_default_hides_map_refuted : exists (c : conf) (k : key string) l,
  k_is_map k = true /\ at_path (tree c) (k_labels k) (Map l) /\ l <> [] /\ take_or c k "default" = (Ok "default", c).
Proof.
  exists (Conf (Some (Map [("K", Map [("a", Scalar "1")])])) [] 0), (Key string ["K"] None true (fun _ => true) true (fun _ => Ok "map") Scalar), [("a", Scalar "1")].
  split; [reflexivity|]. split; [econstructor; [left; reflexivity | constructor]|]. split; [discriminate | reflexivity].
Qed.
Print Assumptions given_default_hides_map_refuted.

(** Setting: afterwards the key reads back; keys that are neither above nor below keep
    their values, no others appear; it is refused exactly when a plain value stands where
    a section is needed, and then nothing is lost. *)
Theorem set_then_read {T} (c : conf) (k : key T) v root0 :
  root c = Some root0 -> tidy root0 -> k_labels k <> [] -> ~ In ""%string (k_labels k) ->
  ~ blocked root0 (k_labels k) -> tidy (k_encode k v) ->
  let in_the_way := exists q a r s, k_labels k = q ++ a :: r /\ at_path root0 q (Scalar s) in
  match set_value c k v with
  | (Ok _, c') => ~ in_the_way /\ at_path (tree c') (k_labels k) (k_encode k v) /\ tidy (tree c') /\
      (forall q w, ~ prefix (k_labels k) q -> ~ prefix q (k_labels k) ->
         (key_value (tree c') q w <-> key_value (tree c) q w)) /\
      (leaf (k_encode k v) -> k_encode k v <> Null -> k_decode k (k_encode k v) = Ok v -> k_valid k v = true ->
         read c' k = Ok v)
  | (Throw _, _) => in_the_way
  | (UB _, _) => False
  end.
Proof.
  intros R T0 NE NEm NB Tv in_the_way. unfold set_value. rewrite R.
  assert (Nz : forall x y : res unit * conf, match k_labels k with [] => x | _ :: _ => y end = y) by (intros; destruct (k_labels k); congruence).
  rewrite Nz.
  assert (NL : forall q a r x l, k_labels k = q ++ a :: r -> ~ oat (Some root0) q (Seq (x :: l))).
  { intros q a r x l E (m & Y & A). inversion Y; subst. apply NB. exists q, a, r, x, l. auto. }
  assert (T1 : otidy (Some root0)) by (intros m E; inversion E; subst; auto).
  pose proof (set_spec (k_encode k v) Tv (k_labels k) (Some root0) T1 NEm NL) as S.
  destruct (set_path (Some root0) (k_labels k) (k_encode k v)) as [a' [|]] eqn:Q.
  - destruct S as ((n & -> & Tn & An) & K1 & K2). cbn [tree root view]. split; [|split; [auto|split; [auto|split]]].
    + intros (q & a & r & s & E & A).
      (* a scalar in the way would make set_path fail *)
      assert (F : forall p b, otidy b -> oat b p (Scalar s) -> forall a r, snd (set_path b (p ++ a :: r) (k_encode k v)) = false).
      { clear. induction p as [|x p IH]; intros b Tb (m & -> & A) a r.
        - apply at_nil in A. subst. reflexivity.
        - apply at_cons in A. destruct A as (l & c & -> & I & A). cbn [List.app set_path entries].
          assert (Tl : tidy (Map l)) by (apply Tb; auto). pose proof Tl as Tl0. apply tidy_map in Tl0. destruct Tl0 as (N & _ & _).
          specialize (IH (assoc x l) (otidy_assoc _ x Tl)). rewrite (proj2 (assoc_in x c l N) I) in IH |- *.
          specialize (IH ltac:(exists c; auto) a r). destruct (set_path (Some c) (p ++ a :: r) (k_encode k v)) as [c' ok]. exact IH. }
      specialize (F q (Some root0) T1 ltac:(exists root0; auto) a r). rewrite <- E in F.
      rewrite Q in F. discriminate.
    + intros q w X Y. unfold tree. rewrite R. cbn [view]. unfold key_value. split; intros (A & L); split; auto.
      * destruct (proj1 (K1 q w L X Y)) as (m & E & A'); [exists n; auto | inversion E; subst; auto].
      * destruct (proj2 (K1 q w L X Y)) as (m & E & A'); [exists root0; auto | inversion E; subst; auto].
    + intros L NN D V. assert (NNv : k_encode k v <> Null) by auto.
      unfold read, has_value, read_node. cbn [tree root view]. rewrite (find_at _ _ _ Tn An). cbn [rbind].
      replace (negb (is_null (k_encode k v)) && negb (is_map (k_encode k v))) with true by (destruct (k_encode k v); auto; [congruence | destruct (L _ eq_refl)]).
      unfold convert, mk_value. replace (is_null (k_encode k v)) with false by (destruct (k_encode k v); auto; congruence).
      cbn [rbind]. rewrite D. cbn [rbind]. unfold validated. rewrite V. reflexivity.
  - destruct S as (q & a & r & s & E & m & Y & A). inversion Y; subst. exists q, a, r, s. auto.
Qed.
Print Assumptions set_then_read.
Example set_case : let '(r, c') := set_value sample_conf (text_key ["Output"; "Coulomb"; "Format"] None false) "ASCII" in
  r = Ok tt /\ read c' (text_key ["Output"; "Coulomb"; "Format"] None false) = Ok "ASCII".
Proof. vm_compute. auto. Qed.
Example set_case_refused : fst (set_value sample_conf (text_key ["General"; "Modus"; "X"] None false) "y") = Throw E_other.
Proof. reflexivity. Qed.

(** Finding: after clear(), and on the configuration returned for a missing section, setting
    a value has no effect. *)
Theorem set_after_clear_lost_refuted : forall (c : conf) (k : key string) v, k_labels k <> [] ->
  set_value (clear c) k v = (Ok tt, clear c) /\ is_empty (clear c) = true.
Proof. intros c k v NE. unfold set_value. destruct (k_labels k); [congruence|]. split; reflexivity. Qed.
Print Assumptions set_after_clear_lost_refuted.

(** ** C27 *)
(** Merging a document (a map) succeeds exactly when no plain value stands where the
    document has a non-empty section; then every key of the document has the document's
    value, old keys that the document does not override keep theirs, and no other key
    appears. *)
Theorem merge_precedence (c : conf) root0 l :
  root c = Some root0 -> tidy root0 -> tidy (Map l) ->
  (forall p x m, ~ value_under_section root0 (Map l) (Seq (x :: m)) p) ->
  match merge_yaml c (Some (Map l)) with
  | (Ok _, c') =>
      (forall p v, key_value (tree c') p v <->
         key_value (Map l) p v \/ (key_value (tree c) p v /\ ~ overridden (Map l) p)) /\
      tidy (tree c') /\ taken c' = taken c /\ (forall p s, ~ value_under_section root0 (Map l) (Scalar s) p)
  | (Throw _, _) => exists p s, value_under_section root0 (Map l) (Scalar s) p
  | (UB _, _) => False
  end.
Proof.
  intros R T0 Tl NS. unfold merge_yaml. rewrite R. cbn [view].
  assert (T1 : otidy (Some root0)) by (intros m E; inversion E; subst; auto).
  assert (NL : no_list_clash (Some root0) (Map l)).
  { intros p x m e m' (n & E & A) B. inversion E; subst. apply (NS p x m). exists e, m'. auto. }
  pose proof (merge_spec (Map l) Tl (Some root0) T1 NL) as S.
  destruct (merge (Some root0) (Map l)) as [a' [|]] eqn:M.
  - destruct S as ((Ta & K) & NC). destruct a' as [n|]; [|destruct (merge_some _ _ _ _ M eq_refl)].
    cbn [tree root view taken]. split; [|split; [apply Ta; auto|split; [auto|]]].
    + intros p v. unfold tree. rewrite R. cbn [view]. split.
      * intros (A & L). destruct (proj1 (K p v L)) as [X | ((m & E & X) & O)]; [exists n; auto | auto|]. inversion E; subst. right. split; auto. split; auto.
      * intros H. assert (L : leaf v) by (destruct H as [(_ & L) | ((_ & L) & _)]; auto). split; auto.
        destruct (proj2 (K p v L)) as (m & E & X).
        -- destruct H as [H | ((A & _) & O)]; [auto | right; split; auto; exists root0; auto].
        -- inversion E; subst. auto.
    + intros p s (e & m & A & B). apply NC. exists p, s, e, m. split; auto. exists root0. auto.
  - destruct S as (p & s & e & m & (n & E & A) & B). inversion E; subst. exists p, s, e, m. auto.
Qed.
Print Assumptions merge_precedence.
Corollary merged_key_wins (c : conf) root0 l c' p v :
  root c = Some root0 -> tidy root0 -> tidy (Map l) ->
  (forall p x m, ~ value_under_section root0 (Map l) (Seq (x :: m)) p) ->
  merge_yaml c (Some (Map l)) = (Ok tt, c') -> key_value (Map l) p v -> key_value (tree c') p v.
Proof.
  intros R T0 Tl NS E K. pose proof (merge_precedence c root0 l R T0 Tl NS) as M. rewrite E in M. apply M. auto.
Qed.
Example merge_case : tree (snd (merge_yaml sample_conf (Some (Map [("General", Map [("Nevents", Scalar "9"); ("Seed", Scalar "1")]); ("Version", Scalar "3")]))))
  = Map [("General", Map [("Modus", Scalar "Box"); ("Nevents", Scalar "9"); ("Seed", Scalar "1")]);
       ("Output", Map [("Particles", Map [("Format", Seq [Scalar "Oscar2013"; Scalar "VTK"])])]);
       ("Version", Scalar "3")].
Proof. reflexivity. Qed.
Example merge_case_hyps : tidy sample /\ forall p x m, ~ value_under_section sample (Map [("General", Map [("Seed", Scalar "1")])]) (Seq (x :: m)) p.
Proof.
  split; [apply sample_tidy|]. intros p x m (e & l & A & B). destruct p as [|k p]; [apply at_nil in A; discriminate|].
  apply at_map in B. destruct B as (c & [E | []] & B). inversion E; subst. apply at_map in A.
  destruct A as (c & [E' | [E' | [E' | []]]] & A); inversion E'; subst.
  destruct p as [|k p]; [apply at_nil in A; discriminate|]. apply at_map in B. destruct B as (c & [E2 | []] & B). inversion E2; subst.
  destruct p; [apply at_nil in B; discriminate | apply at_cons in B; destruct B as (? & ? & X & _); discriminate].
Qed.

(** Finding: merging a document without content (empty text, or only comments) erases
    the whole configuration, silently. *)
Theorem merge_empty_document_erases_refuted : forall (c : conf) n, root c = Some n ->
  fst (merge_yaml c None) = Ok tt /\ forall p v, ~ (key_value (tree (snd (merge_yaml c None))) p v /\ p <> []).
Proof.
  intros c n R. unfold merge_yaml. rewrite R. cbn. split; auto. intros p v ((A & _) & NE).
  destruct p; [congruence|]. apply at_cons in A. destruct A as (? & ? & E & _). discriminate.
Qed.
Print Assumptions merge_empty_document_erases_refuted.
(** Finding: merging into a configuration read from an empty file (or cleared) is lost. *)
Theorem merge_into_empty_file_lost_refuted : forall l tk b,
  merge_yaml (Conf None tk b) (Some (Map l)) = (Ok tt, Conf None tk b).
Proof. reflexivity. Qed.
Print Assumptions merge_into_empty_file_lost_refuted.
(** Finding: a refused merge leaves the part merged before the refusal. *)
Theorem merge_refused_not_atomic_refuted : exists (c : conf) l p v,
  fst (merge_yaml c (Some (Map l))) = Throw E_other /\ ~ key_value (tree c) p v /\
  key_value (tree (snd (merge_yaml c (Some (Map l))))) p v.
Proof.
  exists (Conf (Some (Map [("A", Scalar "1"); ("B", Scalar "2")])) [] 0),
    [("A", Scalar "9"); ("B", Map [("C", Scalar "3")])], ["A"], (Scalar "9").
  split; [reflexivity|]. split.
  - intros (A & _). apply at_map in A. destruct A as (c & [E | [E | []]] & A); inversion E; subst. apply at_nil in A. discriminate.
  - split; [|intros ? ?; discriminate]. cbn. econstructor; [left; reflexivity | constructor].
Qed.
Print Assumptions merge_refused_not_atomic_refuted.
(** Finding: merging a section over a list keeps the list entries as keys 0, 1, ... *)
Theorem merge_over_list_numbers_refuted : exists (c : conf) l p v,
  key_value (tree (snd (merge_yaml c (Some (Map l))))) p v /\ ~ key_value (tree c) p v /\ ~ key_value (Map l) p v.
Proof.
  exists (Conf (Some (Map [("A", Seq [Scalar "x"; Scalar "y"])])) [] 0), [("A", Map [("C", Scalar "3")])], ["A"; "1"], (Scalar "y").
  split; [|split].
  - split; [|intros ? ?; discriminate]. cbn. econstructor; [left; reflexivity|]. econstructor; [right; left; reflexivity|]. constructor.
  - intros (A & _). apply at_map in A. destruct A as (c & [E | []] & A). inversion E; subst. apply at_cons in A. destruct A as (? & ? & X & _). discriminate.
  - intros (A & _). apply at_map in A. destruct A as (c & [E | []] & A). inversion E; subst. apply at_map in A. destruct A as (c & [E' | []] & A). inversion E'.
Qed.
Print Assumptions merge_over_list_numbers_refuted.

(** ** C28 *)
(** After any takes: if a key of the file is not covered by what was taken, destroying the
    object reports an error (unless an exception is propagating that was not when the
    object was made); if all are covered, or when unwinding, it does not. *)
Theorem unused_keys_reported c0 c unc : fresh c0 -> uses c0 c ->
  (unc = born c0 ->
     (exists p v, key_value (tree c0) p v /\ forall q, In q (taken c) -> ~ prefix q p) -> destroy unc c = Throw E_logic) /\
  ((forall p v, key_value (tree c0) p v -> exists q, In q (taken c) /\ prefix q p) ->
     destroy unc c = Ok tt /\ is_empty c = true) /\
  (unc <> born c0 -> destroy unc c = Ok tt).
Proof.
  intros F U. destruct (uses_inv c0 c F U) as (Ti & C & M & B & K & Q). unfold destroy, is_empty. rewrite B.
  assert (Z : (size (tree c) =? 0) = true <-> tree c = Map []).
  { destruct (tree c) as [| | |[|]]; try discriminate; cbn; split; auto; discriminate. }
  split; [|split].
  - intros -> (p & v & H). apply K in H. apply key_nonempty in H. rewrite Nat.eqb_refl.
    destruct (size (tree c) =? 0) eqn:S; [destruct (H (proj1 Z eq_refl)) | reflexivity].
  - intros H. assert (E : tree c = Map []).
    { destruct (tree c) as [| | |[|e l]] eqn:E; try discriminate; auto. exfalso.
      destruct (compact_has_key (Map (e :: l)) C ltac:(discriminate)) as (p & v & Kp). apply K in Kp. destruct Kp as (K1 & K2).
      destruct (H p v K1) as (q & I & P). apply (K2 q I P). }
    rewrite (proj2 Z E). rewrite andb_false_r. auto.
  - intros NE. apply Nat.eqb_neq in NE. rewrite NE. reflexivity.
Qed.
Print Assumptions unused_keys_reported.
(** What was taken are keys of the file: the list of taken labels never covers anything else. *)
Theorem taken_labels_existed c0 c q : fresh c0 -> uses c0 c -> In q (taken c) ->
  exists p v, key_value (tree c0) p v /\ prefix q p.
Proof. intros F U. apply (uses_inv c0 c F U). Qed.
Print Assumptions taken_labels_existed.

(** Finding: a key without value ("Key:") cannot be taken; the default is returned and
    destruction reports the key as unused. *)
Theorem valueless_key_always_unused_refuted : exists (c : conf) (k : key string),
  fresh c /\ key_value (tree c) (k_labels k) Null /\ take c k = (Ok "d", c) /\ destroy (born c) c = Throw E_logic.
Proof.
  exists (Conf (Some (Map [("K", Null)])) [] 0), (text_key ["K"] (Some "d") false). split; [|split; [|split; reflexivity]].
  - split; [cbn; tidy_tac|]. split; [|split; reflexivity]. intros p l A NP. destruct p as [|k p]; [congruence|].
    apply at_map in A. destruct A as (c & [E | []] & A). inversion E; subst.
    destruct p; [apply at_nil in A; discriminate | apply at_cons in A; destruct A as (? & ? & X & _); discriminate].
  - split; [econstructor; [left; reflexivity | constructor] | intros ? ?; discriminate].
Qed.
Print Assumptions valueless_key_always_unused_refuted.
(** Finding: move assignment drops the keys the target still had, silently. *)
Theorem move_assignment_drops_keys_refuted : forall self other,
  let '(self', other') := move_assign self other in
  tree self' = tree other /\ taken self' = taken other /\ destroy 0 other' = Ok tt.
Proof. intros self other. cbn. auto. Qed.
Print Assumptions move_assignment_drops_keys_refuted.
Theorem moved_from_is_silent other unc : let '(c, other') := move_construct other in
  c = other /\ is_empty other' = true /\ destroy unc other' = Ok tt.
Proof. cbn. destruct other. split; auto. split; auto. unfold destroy. cbn. rewrite andb_false_r. reflexivity. Qed.
Print Assumptions moved_from_is_silent.

(** ** C29 *)
(** Extracting a non-empty section: the result holds exactly the keys below it, with their
    labels relative to it; the rest stays. *)
Theorem extract_moves_section unc (c : conf) section e l b : tidy (tree c) -> section <> [] ->
  at_path (tree c) section (Map (e :: l)) ->
  match extract unc c section b with
  | (Ok s, c') => (forall p v, key_value (tree s) p v <-> key_value (tree c) (section ++ p) v) /\
                  (forall p v, key_value (tree c') p v <-> key_value (tree c) p v /\ ~ prefix section p) /\
                  tidy (tree s) /\ tidy (tree c') /\ compact (tree c') /\ taken s = [] /\ taken c' = taken c
  | _ => False
  end.
Proof.
  intros Ti NE A. unfold extract. destruct (rev section) as [|last rprev] eqn:E.
  { destruct NE. rewrite <- (rev_involutive section), E. reflexivity. }
  apply rev_last in E. rewrite E in A. destruct (lookup_last _ _ _ _ Ti A) as (m & F). rewrite F.
  cbn [tree root view taken]. destruct (removal_spec _ _ _ _ Ti A) as (T' & C' & _ & K'). rewrite <- E in *.
  split; [|split; [|split; [exact (tidy_below _ _ _ Ti A) | auto]]].
  - intros p v. unfold key_value. rewrite at_app. split.
    + intros (X & L). split; eauto.
    + intros ((n & X & Y) & L). rewrite <- (at_fun _ _ _ _ Ti A X) in Y. auto.
  - exact K'.
Qed.
Print Assumptions extract_moves_section.

(** Otherwise nothing changes: a missing section gives an empty configuration if allowed,
    and an error in all other cases. *)
Theorem extract_otherwise unc (c : conf) section b : tidy (tree c) -> section <> [] ->
  (forall e l, ~ at_path (tree c) section (Map (e :: l))) ->
  snd (extract unc c section b) = c /\
  (fst (extract unc c section b) = Ok (Conf None [] unc) <-> b = true /\ (forall n, ~ at_path (tree c) section n) /\ ~ blocked (tree c) section) /\
  (fst (extract unc c section b) <> Ok (Conf None [] unc) -> exists x, fst (extract unc c section b) = Throw x).
Proof.
  intros Ti NE NA. unfold extract. destruct (rev section) as [|last rprev] eqn:E.
  { destruct NE. rewrite <- (rev_involutive section), E. reflexivity. }
  apply rev_last in E.
  assert (FS := find_spec (tree c) section Ti).
  assert (EF : find_existing_node (tree c) section = find_existing_node (tree c) (rev rprev ++ [last])) by (rewrite <- E; reflexivity).
  rewrite EF, find_app in FS. clear EF.
  destruct (find_existing_node (tree c) (rev rprev)) as [[m|]|x|u] eqn:F; cbn [rbind descend_opt] in *.
  - rewrite find_cons in FS. destruct (descend m last) as [[n|]|x|u] eqn:D; cbn [rbind] in *; unfold find_existing_node in FS; cbn [fold_left] in FS.
    + destruct n as [| | |[|e l]]; cbn [fst snd].
      1-4: split; [reflexivity | split; [split; [discriminate | intros (_ & X & _); destruct (X _ FS)] | eauto]].
      destruct (NA e l FS).
    + split; [reflexivity|]. cbn [fst]. destruct b.
      * split; [split; auto | congruence].
      * split; [split; [discriminate | intros (X & _); discriminate] | eauto].
    + destruct FS as (-> & B). split; [reflexivity|]. split; [split; [discriminate | tauto] | cbn [fst]; eauto].
    + destruct FS.
  - split; [reflexivity|]. cbn [fst]. destruct b.
    + split; [split; auto | congruence].
    + split; [split; [discriminate | intros (X & _); discriminate] | eauto].
  - destruct FS as (-> & B). split; [reflexivity|]. split; [split; [discriminate | tauto] | cbn [fst]; eauto].
  - destruct FS.
Qed.
Print Assumptions extract_otherwise.

(** Enclosing puts the section labels in front of every key; an empty configuration
    becomes an empty section. *)
Lemma nest_keys n v : forall s p, key_value (nest s n) p v <-> exists r, p = s ++ r /\ key_value n r v.
Proof.
  induction s as [|k s IH]; intros p; cbn [nest List.app].
  - split; [intros K; eauto | intros (r & -> & K); auto].
  - split.
    + intros (A & L). destruct p as [|k' p]; [apply at_nil in A; destruct (L _ (eq_sym A))|]. apply at_map in A. destruct A as (x & [E | []] & A).
      inversion E; subst. destruct (proj1 (IH p) (conj A L)) as (r & -> & K). eauto.
    + intros (r & -> & K). destruct (proj2 (IH (s ++ r)) (ex_intro _ r (conj eq_refl K))) as (A & L). split; auto. econstructor; [left; reflexivity | auto].
Qed.
Theorem enclose_prefixes (c : conf) section :
  (is_map (tree c) = true ->
     forall p v, key_value (tree (enclose c section)) p v <-> exists r, p = section ++ r /\ key_value (tree c) r v) /\
  (is_empty c = true -> (forall p v, ~ key_value (tree (enclose c section)) p v) /\ at_path (tree (enclose c section)) section (Map [])).
Proof.
  unfold enclose, is_empty. cbn [tree root view]. split.
  - intros M p v. rewrite nest_keys. destruct (tree c) as [| | |[|]]; try discriminate; cbn [size List.length Nat.eqb]; tauto.
  - intros E. change (view (root c)) with (tree c). rewrite E. split.
    + intros p v K. apply nest_keys in K. destruct K as (r & _ & A & L).
      destruct r; [apply at_nil in A; destruct (L _ (eq_sym A)) | apply at_map in A; destruct A as (? & [] & _)].
    + induction section as [|k s IH]; [constructor|]. cbn [nest]. econstructor; [left; reflexivity | auto].
Qed.
Print Assumptions enclose_prefixes.

(** Extracting with the labels kept loses nothing: every key is afterwards in exactly one
    of the two configurations, under its old labels and with its old value. *)
Theorem extract_complete_lossless unc (c : conf) section e l b : tidy (tree c) -> section <> [] ->
  at_path (tree c) section (Map (e :: l)) ->
  match extract_complete unc c section b with
  | (Ok s, c') => forall p v,
      (key_value (tree c) p v <-> key_value (tree s) p v \/ key_value (tree c') p v) /\
      ~ (key_value (tree s) p v /\ key_value (tree c') p v)
  | _ => False
  end.
Proof.
  intros Ti NE A. unfold extract_complete. pose proof (extract_moves_section unc c section e l b Ti NE A) as X.
  destruct (extract unc c section b) as [[s| |] c'] eqn:Ex; try contradiction. cbn [rbind].
  destruct X as (Ks & Kc & Ts & _).
  assert (Ms : is_map (tree s) = true).
  { pose proof (Ks []) as K0. destruct (tree s) as [| | |l'] eqn:E; auto; exfalso;
    (assert (K1 : key_value (tree c) (section ++ []) (tree s)) by (rewrite E; apply K0; split; [constructor | intros ? ?; discriminate]);
     rewrite app_nil_r in K1; destruct K1 as (K1 & L); destruct (L _ (at_fun _ _ _ _ Ti K1 A))). }
  intros p v. rewrite (proj1 (enclose_prefixes s section) Ms), Kc.
  assert (D : (exists r, p = section ++ r) \/ ~ prefix section p).
  { destruct (list_eq_dec string_dec (firstn (List.length section) p) section) as [Y | N].
    - left. exists (skipn (List.length section) p). rewrite <- Y at 1. symmetry. apply firstn_skipn.
    - right. intros (r & ->). apply N. rewrite firstn_app, Nat.sub_diag, firstn_all, firstn_O, app_nil_r. reflexivity. }
  split.
  - split.
    + intros K. destruct D as [(r & ->) | D]; [left; exists r; split; auto; apply Ks; auto | right; auto].
    + intros [(r & -> & K) | (K & _)]; [apply Ks; auto | auto].
  - intros ((r & -> & _) & _ & N). apply N. exists r. reflexivity.
Qed.
Print Assumptions extract_complete_lossless.
Example extract_case : let '(r, c') := extract_complete 0 sample_conf ["Output"; "Particles"] false in
  match r with Ok s => tree s = Map [("Output", Map [("Particles", Map [("Format", Seq [Scalar "Oscar2013"; Scalar "VTK"])])])] | _ => False end /\
  tree c' = Map [("General", Map [("Modus", Scalar "Box"); ("Nevents", Scalar "7")]); ("Version", Null)].
Proof. vm_compute. auto. Qed.

(** Finding: a key of an extracted section, asked from the remaining object, gives the
    default instead of an error: what left through extract is not remembered as taken. *)
Theorem default_after_extract_refuted : exists (c : conf) (k : key string),
  key_value (tree c) (k_labels k) (Scalar "user") /\
  fst (take (snd (extract 0 c ["S"] false)) k) = Ok "default".
Proof.
  exists (Conf (Some (Map [("S", Map [("K", Scalar "user")])])) [] 0), (text_key ["S"; "K"] (Some "default") false).
  split; [|reflexivity]. split; [|intros ? ?; discriminate]. econstructor; [left; reflexivity|]. econstructor; [left; reflexivity | constructor].
Qed.
Print Assumptions default_after_extract_refuted.

(** ** C66 *)
(** remove_all_entries_in_section_but_one keeps, of the section, exactly the named entry. *)
Lemma strip_in ks : forall l, NoDup (map fst l) ->
  fold_left (fun m k' => remove k' m) ks (Map l) = Map (filter (fun e => negb (existsb (String.eqb (fst e)) ks)) l).
Proof.
  intros l N. rewrite <- fold_remove_filter by auto. revert l N. induction ks as [|k ks IH]; intros l N; cbn [fold_left]; auto.
  cbn [remove]. rewrite IH; auto. apply remove_first_nodup. auto.
Qed.
Theorem remove_all_but_keeps_one (c : conf) k section : tidy (tree c) ->
  match remove_all_but c k section with
  | (Ok _, c') => (exists n, at_path (tree c) (section ++ [k]) n) /\
      forall p v, key_value (tree c') p v <-> key_value (tree c) p v /\ (prefix section p -> prefix (section ++ [k]) p)
  | (Throw _, c') => c' = c /\ forall n, ~ at_path (tree c) (section ++ [k]) n
  | (UB _, _) => False
  end.
Proof.
  intros Ti. unfold remove_all_but. pose proof (find_spec (tree c) section Ti) as FS.
  assert (Abs : forall m, at_path (tree c) section m -> leaf m -> forall n, ~ at_path (tree c) (section ++ [k]) n).
  { intros m A L n B. apply at_app in B. destruct B as (m' & A' & B). rewrite <- (at_fun _ _ _ _ Ti A A') in B.
    apply at_cons in B. destruct B as (? & ? & -> & _). destruct (L _ eq_refl). }
  destruct (find_existing_node (tree c) section) as [[m|]|x|u].
  - destruct m as [|s|[|x l]|l]; try (split; auto; apply (Abs _ FS); intros ? ?; discriminate).
    pose proof (tidy_below _ _ _ Ti FS) as Tl. pose proof Tl as Tl0. apply tidy_map in Tl0. destruct Tl0 as (N & _ & _).
    destruct (existsb (fun e => String.eqb (fst e) k) l) eqn:X.
    + apply existsb_exists in X. destruct X as ([k0 n] & I & X). apply String.eqb_eq in X. cbn in X. subst k0. split.
      * exists n. apply at_app. exists (Map l). split; auto. econstructor; [eauto | constructor].
      * set (ks := filter (fun k' => negb (String.eqb k' k)) (map fst l)).
        assert (Sx : fold_left (fun m k' => remove k' m) ks (Map l) = Map (filter (fun e => negb (existsb (String.eqb (fst e)) ks)) l)) by (apply strip_in; auto).
        intros p v. cbn [tree root view]. unfold key_value.
        assert (G : leaf v -> (at_path (update_at (tree c) section (fun n => fold_left (fun m k' => remove k' m) ks n)) p v <->
                     at_path (tree c) p v /\ (prefix section p -> prefix (section ++ [k]) p))).
        { intros L. rewrite (update_keys _ _ _ _ _ _ Ti FS L). cbv beta. rewrite Sx. split.
          - intros [(r & -> & A) | (NP & A)]; [|split; tauto].
            destruct r as [|k1 r]; [apply at_nil in A; destruct (L _ (eq_sym A))|].
            apply at_map in A. destruct A as (c1 & I1 & A). apply filter_In in I1. destruct I1 as (I1 & Q). cbn [fst] in Q.
            assert (k1 = k).
            { destruct (string_dec k1 k); auto. exfalso. apply negb_true_iff in Q. 
              assert (Y : existsb (String.eqb k1) ks = true); [|congruence]. apply existsb_exists. exists k1. split; [|apply String.eqb_refl].
              unfold ks. apply filter_In. split; [eapply in_fst; eauto|]. apply negb_true_iff. apply String.eqb_neq. auto. }
            subst. split.
            + apply at_app. exists (Map l). split; auto. econstructor; eauto.
            + intros _. apply prefix_app_l. apply prefix_cons. split; auto. apply prefix_nil.
          - intros (A & H). destruct (list_eq_dec string_dec (firstn (List.length section) p) section) as [Y | Y].
            + assert (P : prefix section p) by (exists (skipn (List.length section) p); rewrite <- Y at 1; symmetry; apply firstn_skipn).
              destruct (H P) as (r & ->). rewrite <- app_assoc in *. left. exists ([k] ++ r). split; auto. cbn [List.app] in *.
              apply at_app in A. destruct A as (m & A1 & A). rewrite <- (at_fun _ _ _ _ Ti FS A1) in A. apply at_map in A. destruct A as (c1 & I1 & A).
              apply at_map. exists c1. split; auto. apply filter_In. split; auto. cbn [fst].
              apply negb_true_iff. destruct (existsb (String.eqb k) ks) eqn:Z; auto. apply existsb_exists in Z. destruct Z as (k2 & I2 & Z).
              apply String.eqb_eq in Z. subst k2. unfold ks in I2. apply filter_In in I2. destruct I2 as (_ & Z). rewrite String.eqb_refl in Z. discriminate.
            + right. split; auto. intros (r & ->). apply Y. rewrite firstn_app, Nat.sub_diag, firstn_all, firstn_O, app_nil_r. reflexivity. }
        unfold ks in G. split; [intros (A & L); apply G in A; tauto | intros ((A & L) & H); split; auto; apply G; auto].
    + split; auto. intros n A. apply at_app in A. destruct A as (m & A1 & A). rewrite <- (at_fun _ _ _ _ Ti FS A1) in A. apply at_map in A.
      destruct A as (c1 & I & _). assert (Y : existsb (fun e => String.eqb (fst e) k) l = true); [|congruence].
      apply existsb_exists. exists (k, c1). split; auto. apply String.eqb_refl.
  - split; auto. intros n A. apply at_app in A. destruct A as (m & A & _). destruct (proj1 FS m A).
  - destruct FS as (-> & B). split; auto. intros n A. apply at_app in A. destruct A as (m & A & _).
    destruct B as (q & k0 & r & x & l & E & Q). rewrite E in A. apply at_app in A. destruct A as (m' & A1 & A). rewrite <- (at_fun _ _ _ _ Ti Q A1) in A.
    apply at_cons in A. destruct A as (? & ? & Z & _). discriminate.
  - destruct FS.
Qed.
Print Assumptions remove_all_but_keeps_one.
Example remove_all_but_case : tree (snd (remove_all_but sample_conf "Modus" ["General"])) =
  Map [("General", Map [("Modus", Scalar "Box")]);
       ("Output", Map [("Particles", Map [("Format", Seq [Scalar "Oscar2013"; Scalar "VTK"])])]); ("Version", Null)].
Proof. reflexivity. Qed.

(** ** C30, C67 *)
(** Full validation gives the worst verdict over all values in the file. *)
Theorem full_validation_is_worst db (c : conf) : sensible db ->
  (forall x l, tree c <> Seq (x :: l)) -> ~ too_short db (tree c) ->
  exists v, validate db true c = Ok v /\ worst (verdicts db (tree c)) v.
Proof.
  intros S NS TS. unfold validate.
  assert (LL : list_labels (tree c) = Ok (labels_in [] (tree c))).
  { unfold list_labels. destruct (tree c) as [| |[|]|]; auto. destruct (NS n l). auto. }
  rewrite LL. cbn [rbind]. pose proof (adjust_spec db (labels_in [] (tree c)) S) as A.
  destruct (adjust db (labels_in [] (tree c))) as [l|e|u]; cbn [rbind].
  - destruct A as (A & _). eexists. split; [reflexivity|].
    pose proof (accumulate_worst db l) as W.
    assert (E : forall v, In v (map (validate_key db) l) <-> verdicts db (tree c) v).
    { intros v. rewrite in_map_iff. split.
      - intros (q & V & I). apply A in I. destruct I as (p & I & B). apply labels_in_spec in I. destruct I as (p' & n & NE & -> & K).
        exists p', n, q. split; auto. split; auto. split; auto. apply validate_key_status; auto.
      - intros (p & n & q & K & NE & B & St). exists q. split; [apply validate_key_status; auto|]. apply A. exists p. split; auto.
        apply labels_in_spec. exists p, n. auto. }
    destruct (fold_left _ l Valid); cbn [worst] in *; rewrite <- !E; tauto.
  - destruct A.
  - exfalso. apply TS. destruct A as (_ & p & k & I & Ik & M & P & D). apply labels_in_spec in I. destruct I as (p' & n & NE & -> & K).
    exists p', n, k. auto 8.
Qed.
Print Assumptions full_validation_is_worst.

(** Quick validation says Valid exactly when full validation does; and it reports a
    problem exactly when there is one. *)
Theorem quick_validation_valid_iff db (c : conf) : 
  (validate db false c = Ok Valid <-> validate db true c = Ok Valid) /\
  (forall v, validate db false c = Ok v -> v <> Valid -> sensible db -> verdicts db (tree c) v).
Proof.
  unfold validate. split.
  - destruct (list_labels (tree c)) as [l0| |]; cbn [rbind]; try tauto. destruct (adjust db l0) as [l| |]; cbn [rbind]; try tauto.
    assert (H : (exists k, In k l /\ validate_key db k <> Valid) \/ (forall k, In k l -> validate_key db k = Valid)).
    { clear. induction l as [|a l IH]; [right; intros ? []|]. destruct (validate_key db a) eqn:E.
      1,2: left; exists a; split; [left; auto | congruence].
      destruct IH as [(k & I & N) | H]; [left; exists k; split; [right|]; auto | right; intros k [<- | I]; auto]. }
    pose proof (accumulate_worst db l) as W. destruct H as [(k & I & N) | H].
    + split; intros E; exfalso.
      * destruct (find _ l) as [k'|] eqn:F.
        -- apply find_some in F. destruct F as (_ & F). assert (V : validate_key db k' = Valid) by congruence. rewrite V in F. discriminate.
        -- pose proof (find_none _ _ F k I) as X. cbn in X. destruct (validate_key db k); congruence.
      * assert (V : fold_left (fun r k => accumulate r (validate_key db k)) l Valid = Valid) by congruence. rewrite V in W. cbn [worst] in W.
        assert (J : In (validate_key db k) (map (validate_key db) l)) by (apply in_map; auto). destruct (validate_key db k); tauto.
    + assert (F : find (fun k => match validate_key db k with Valid => false | _ => true end) l = None).
      { destruct (find _ l) as [k'|] eqn:F; auto. apply find_some in F. destruct F as (I & F). rewrite (H k' I) in F. discriminate. }
      rewrite F. split; auto. intros _. f_equal.
      assert (Z : forall v, v <> Valid -> ~ In v (map (validate_key db) l)) by (intros v Nv J; apply in_map_iff in J; destruct J as (k & <- & I); auto).
      destruct (fold_left _ l Valid); cbn [worst] in W; auto; exfalso; [apply (Z Invalid) | apply (Z Deprecated)]; tauto || discriminate.
  - intros v E NV S. destruct (list_labels (tree c)) as [l0| |] eqn:LL; cbn [rbind] in E; try discriminate.
    pose proof (adjust_spec db l0 S) as A. destruct (adjust db l0) as [l| |]; cbn [rbind] in E; try discriminate. destruct A as (A & _).
    destruct (find _ l) as [k|] eqn:F; [|congruence]. apply find_some in F. destruct F as (I & _). apply A in I. destruct I as (p & I & B).
    assert (l0 = labels_in [] (tree c)) by (unfold list_labels in LL; destruct (tree c) as [| |[|]|]; congruence). subst l0.
    apply labels_in_spec in I. destruct I as (p' & n & NE & -> & K). exists p', n, k. split; auto. split; auto. split; auto.
    apply validate_key_status; auto. congruence.
Qed.
Print Assumptions quick_validation_valid_iff.

(** Validation reads past the end of a label list exactly when a value stands at a section
    that leads to a map-valued key. *)
Theorem validation_out_of_bounds_iff db b (c : conf) : sensible db -> (forall x l, tree c <> Seq (x :: l)) ->
  (validate db b c = UB UB_oob <-> too_short db (tree c)).
Proof.
  intros S NS. unfold validate.
  assert (LL : list_labels (tree c) = Ok (labels_in [] (tree c))).
  { unfold list_labels. destruct (tree c) as [| |[|]|]; auto. destruct (NS n l). auto. }
  rewrite LL. cbn [rbind]. pose proof (adjust_spec db (labels_in [] (tree c)) S) as A.
  destruct (adjust db (labels_in [] (tree c))) as [l|e|u]; cbn [rbind].
  - split; [discriminate|]. intros (p & n & k & K & NE & I & M & P & D). destruct (proj2 A). exists p, k. split; auto. apply labels_in_spec. exists p, n. auto.
  - destruct A.
  - destruct A as (-> & p & k & I & Ik & M & P & D). split; auto. intros _. apply labels_in_spec in I. destruct I as (p' & n & NE & -> & K).
    exists p', n, k. auto 8.
Qed.
Print Assumptions validation_out_of_bounds_iff.

(** The actual list of input keys is sensible, so the theorems above apply to it. *)
Fixpoint prefixb (p q : label_path) : bool :=
  match p, q with [], _ => true | _, [] => false | a :: p, b :: q => String.eqb a b && prefixb p q end.
Lemma prefixb_spec p : forall q, prefix p q -> prefixb p q = true.
Proof.
  induction p as [|a p IH]; intros q P; [reflexivity|]. destruct q as [|b q]; [destruct (prefix_cons_nil _ _ P)|].
  apply prefix_cons in P. destruct P as (-> & P). cbn [prefixb]. rewrite String.eqb_refl, andb_true_l. auto.
Qed.
Fixpoint apart (l : list label_path) : bool :=
  match l with [] => true | a :: r => forallb (fun b => negb (prefixb a b) && negb (prefixb b a)) r && apart r end.
Lemma apart_spec l : apart l = true -> NoDup l /\ forall a b, In a l -> In b l -> prefix a b -> a = b.
Proof.
  induction l as [|x r IH]; cbn [apart]; [intros _; split; [constructor | intros ? ? []]|].
  intros H. apply andb_prop in H. destruct H as (F & H). rewrite forallb_forall in F. destruct (IH H) as (N & U). split.
  - constructor; auto. intros I. specialize (F x I). rewrite (prefixb_spec x x (prefix_refl x)) in F. discriminate.
  - intros a b [<- | I] [<- | J] P; auto.
    + specialize (F b J). rewrite (prefixb_spec _ _ P) in F. discriminate.
    + specialize (F a I). rewrite (prefixb_spec _ _ P) in F. rewrite andb_false_r in F. discriminate.
Qed.
Theorem input_keys_sensible : sensible input_keys.
Proof.
  assert (A : apart (map ki_labels input_keys) = true) by (vm_compute; reflexivity).
  destruct (apart_spec _ A) as (N & U). split; auto. split.
  - intros a b I J P. apply U; auto; apply in_map; auto.
  - assert (V : forallb (fun k => negb (path_eqb (ki_labels k) []) && ((ki_versions k =? 1) || (ki_versions k =? 2) || (ki_versions k =? 3))) input_keys = true) by (vm_compute; reflexivity).
    rewrite forallb_forall in V. intros k I. specialize (V k I). apply andb_prop in V. destruct V as (V1 & V2). split.
    + intros E. rewrite E in V1. discriminate.
    + rewrite !orb_true_iff, !Nat.eqb_eq in V2. tauto.
Qed.
Print Assumptions input_keys_sensible.

(** Finding: a file with a plain value for the section Modi makes validation read out of
    bounds. *)
Theorem validation_of_plain_modi_refuted : forall b,
  validate input_keys b (Conf (Some (Map [("Modi", Scalar "Box")])) [] 0) = UB UB_oob.
Proof.
  intros b. apply validation_out_of_bounds_iff; [apply input_keys_sensible | intros; discriminate|].
  exists ["Modi"], (Scalar "Box"), (KeyInfo ["Modi"; "Box"; "Init_Multiplicities"] 1 true).
  split; [split; [econstructor; [left; reflexivity | constructor] | intros ? ?; discriminate]|].
  split; [discriminate|]. split; [|split; [reflexivity | split; [exists ["Box"; "Init_Multiplicities"]; reflexivity | discriminate]]].
  assert (E : existsb (fun k => path_eqb (ki_labels k) ["Modi"; "Box"; "Init_Multiplicities"] && (ki_versions k =? 1) && ki_map k) input_keys = true) by (vm_compute; reflexivity).
  apply existsb_exists in E. destruct E as ([a b' d] & I & E). cbn [ki_labels ki_versions ki_map] in E.
  rewrite !andb_true_iff in E. destruct E as ((E1 & E2) & E3). apply path_eqb_eq in E1. apply Nat.eqb_eq in E2. subst. exact I.
Qed.
Print Assumptions validation_of_plain_modi_refuted.
(** Finding: quick validation stops at the first problem and may say Deprecated although
    another key is invalid. *)
Theorem quick_validation_hides_invalid_refuted : exists db (c : conf), sensible db /\
  validate db false c = Ok Deprecated /\ validate db true c = Ok Invalid.
Proof.
  exists [KeyInfo ["Old"] 2 false], (Conf (Some (Map [("Old", Scalar "1"); ("Bad", Scalar "2")])) [] 0).
  split; [|split; reflexivity]. split; [cbn; constructor; [tauto | constructor]|]. split.
  - intros a b [<- | []] [<- | []] _. reflexivity.
  - intros a [<- | []]. cbn. split; [discriminate | auto].
Qed.
Print Assumptions quick_validation_hides_invalid_refuted.
Example validation_case : validate input_keys true (Conf (Some (Map
   [("General", Map [("Modus", Scalar "Box"); ("Nevents", Scalar "7")]);
    ("Modi", Map [("Box", Map [("Init_Multiplicities", Map [("211", Scalar "5"); ("2212", Scalar "1")])])])])) [] 0) = Ok Valid.
Proof. vm_compute. reflexivity. Qed.
Example validation_case_invalid : validate input_keys true (Conf (Some (Map
   [("General", Map [("Modus", Scalar "Box"); ("Nevens", Scalar "7")])])) [] 0) = Ok Invalid.
Proof. vm_compute. reflexivity. Qed.
