(** Reading nuclei from a file (C106). *)
From Coq Require Import ZArith List Bool Lia.
From Verif Require Import Base NucleusModel.
Import ListNotations.
Open Scope nat_scope.

(** ** Specification *)
(** n lines in turn beginning with line k, starting again after the last *)
Definition in_turn {A} (l : list A) (k n : nat) : list A :=
  flat_map (fun i => match nth_error l ((k + i) mod length l) with Some x => [x] | None => [] end) (seq 0 n).
Definition all_parsed {A B} (parse : A -> option B) (l : list A) (v : list B) : Prop := map parse l = map Some v.
Definition count {A} (p : A -> bool) (l : list A) : nat := length (filter p l).
(** the events of a run: nuclei read one after the other *)
Fixpoint read_events {A B} (parse : A -> option (Z * B)) (f : cfile A) (protons neutrons : nat) (events : nat) (pos : nat) (eof : bool) : res (list (list (Z * B))) :=
  match events with
  | O => Ok []
  | S e => '(l, p, e') <- readfile parse f protons neutrons pos eof ;; rest <- read_events parse f protons neutrons e p e' ;; Ok (l :: rest)
  end.

(** ** One line after the other *)
Lemma next_line_newline {A} (l : list A) pos : l <> [] -> pos <= length l ->
  exists x p, next_line (CFile l true) pos false = (Some x, p, false) /\ nth_error l (pos mod length l) = Some x /\ 1 <= p <= length l /\ p mod length l = S pos mod length l.
Proof.
  intros Hl Hp. assert (L : 0 < length l) by (destruct l; [congruence|cbn; lia]).
  unfold next_line, getline; cbn [clines newline negb]. rewrite !andb_false_r.
  destruct (Nat.eq_dec pos (length l)) as [->|Hn].
  - assert (nth_error l (length l) = None) as -> by (apply nth_error_None; lia).
    destruct l as [|x l]; [congruence|]. cbn [nth_error]. exists x, 1. rewrite Nat.mod_same by lia. splits; auto; try (cbn; lia).
    replace (S (length (x :: l))) with (1 + 1 * length (x :: l)) by lia. rewrite Nat.mod_add by lia. auto.
  - destruct (nth_error l pos) as [x|] eqn:E; [|apply nth_error_None in E; lia].
    exists x, (S pos). rewrite Nat.mod_small by lia. splits; auto; lia.
Qed.
Lemma in_turn_S {A} (l : list A) k n x : nth_error l (k mod length l) = Some x -> in_turn l k (S n) = x :: in_turn l (S k) n.
Proof.
  intros E. unfold in_turn. cbn [seq flat_map]. rewrite Nat.add_0_r, E. cbn [app]. f_equal.
  rewrite <- seq_shift, !flat_map_concat_map, map_map. f_equal. apply map_ext. intros i. rewrite Nat.add_succ_r. auto.
Qed.
Lemma in_turn_mod {A} (l : list A) k k' n : l <> [] -> k mod length l = k' mod length l -> in_turn l k n = in_turn l k' n.
Proof.
  intros H E. assert (L : length l <> 0) by (destruct l; [congruence|cbn; lia]). unfold in_turn. rewrite !flat_map_concat_map. f_equal. apply map_ext. intros i.
  rewrite (Nat.add_mod k), (Nat.add_mod k'), E by auto. auto.
Qed.

(** ** C106: what is read *)
(** From a file whose lines all end with a newline, the lines are read in turn, from the beginning after the last one. *)
Theorem lines_in_turn {A B} (parse : A -> option (Z * B)) l v n pos : l <> [] -> pos <= length l -> all_parsed parse l v ->
  exists p, read_lines parse (CFile l true) n pos false = Ok (in_turn v pos n, p, false) /\
    p <= length l /\ p mod length l = (pos + n) mod length l.
Proof.
  intros Hl Hp Hv. assert (LV : length v = length l) by (rewrite <- (map_length Some v), <- Hv, map_length; auto).
  assert (V0 : v <> []) by (intros ->; destruct l; [congruence|discriminate]).
  revert pos Hp. induction n as [|n IH]; intros pos Hp.
  - exists pos. rewrite Nat.add_0_r. splits; auto.
  - cbn [read_lines]. destruct (next_line_newline l pos Hl Hp) as (x & p & E & Ex & Hp' & Em). rewrite E.
    pose proof (map_nth_error parse _ _ Ex) as Px. rewrite Hv in Px. rewrite nth_error_map in Px.
    destruct (nth_error v (pos mod length l)) as [w|] eqn:Ew; [|discriminate]. cbn in Px. injection Px as Px. rewrite <- Px.
    destruct (IH p) as (p' & E' & Hp2 & Em2); [lia|]. rewrite E'. cbn [rbind]. exists p'. splits; auto.
    + do 3 f_equal. rewrite (in_turn_S v pos n w) by (rewrite LV; auto). f_equal. apply in_turn_mod; auto. rewrite LV; auto.
    + assert (L : length l <> 0) by (destruct l; [congruence|cbn; lia]).
      rewrite Em2, (Nat.add_mod p), Em, <- Nat.add_mod by auto. f_equal. lia.
Qed.
Print Assumptions lines_in_turn.

(** A nucleus that is accepted has the required numbers of protons and of neutrons and nothing else. *)
Theorem accepted_nucleus {A B} (parse : A -> option (Z * B)) f protons neutrons pos eof l p e :
  readfile parse f protons neutrons pos eof = Ok (l, p, e) ->
  length l = protons + neutrons /\ count (fun v => (fst v =? 1)%Z) l = protons /\ count (fun v => (fst v =? 0)%Z) l = neutrons /\
  forall v, In v l -> (fst v = 0 \/ fst v = 1)%Z.
Proof.
  unfold readfile. destruct (read_lines parse f (protons + neutrons) pos eof) as [((l', p'), e')| |] eqn:E; cbn; try discriminate.
  destruct (_ && _) eqn:C; [|discriminate]. intros X; injection X as -> -> ->.
  apply andb_prop in C. destruct C as [C1 C2]. apply Nat.eqb_eq in C1, C2.
  assert (L : length l = protons + neutrons).
  { clear C1 C2. revert pos eof l p e E. generalize (protons + neutrons). intros n; induction n as [|n IH]; intros pos eof l p e E; cbn [read_lines] in E.
    - injection E as <- _ _. auto.
    - destruct (next_line f pos eof) as ((o, q), e0). destruct o as [x|]; [|discriminate]. destruct (parse x) as [w|]; [|discriminate].
      destruct (read_lines parse f n q e0) as [((l0, p0), e1)| |] eqn:E1; cbn in E; try discriminate. injection E as <- <- <-. cbn. f_equal. eauto. }
  splits; auto. intros v Hv.
  destruct (Z.eq_dec (fst v) 0); [auto|]. destruct (Z.eq_dec (fst v) 1); [auto|]. exfalso.
  rewrite <- C1, <- C2 in L. clear - L Hv n n0.
  assert (X : forall m : list (Z * B), length (filter (fun v => (fst v =? 1)%Z) m) + length (filter (fun v => (fst v =? 0)%Z) m) <= length m).
  { intros m; induction m as [|x m IH]; auto. cbn. destruct (Z.eqb_spec (fst x) 1), (Z.eqb_spec (fst x) 0); cbn; lia. }
  induction l as [|x l IH]; [auto|]. cbn in L. destruct Hv as [<-|Hv].
  - destruct (Z.eqb_spec (fst x) 1), (Z.eqb_spec (fst x) 0); try contradiction. specialize (X l). lia.
  - apply IH; auto. specialize (X l). destruct (Z.eqb_spec (fst x) 1), (Z.eqb_spec (fst x) 0); cbn in L; lia.
Qed.
Print Assumptions accepted_nucleus.

Lemma skipn_exact {A} (u w : list A) : skipn (length u) (u ++ w) = w.
Proof. induction u; cbn; auto. Qed.
Lemma firstn_skipn_turn {A} (l : list A) a n : l <> [] -> a + n <= length l -> in_turn l a n = firstn n (skipn a l).
Proof.
  intros Hl H. assert (L : length l <> 0) by (destruct l; [congruence|cbn; lia]).
  revert a H. induction n as [|n IH]; intros a H; [reflexivity|].
  destruct (nth_error l a) as [x|] eqn:E; [|apply nth_error_None in E; lia].
  rewrite (in_turn_S l a n x) by (rewrite Nat.mod_small by lia; auto). rewrite IH by lia.
  apply nth_error_split in E. destruct E as (u & w & -> & <-).
  rewrite skipn_exact. cbn [firstn]. f_equal. f_equal.
  replace (S (length u)) with (length (u ++ [x])) by (rewrite app_length; cbn; lia).
  change (u ++ x :: w) with (u ++ [x] ++ w). rewrite app_assoc. apply skipn_exact.
Qed.
(** If the number of lines is a multiple of the mass number and all nuclei in the file have the right numbers, the events get the
    nuclei of the file in turn. *)
Theorem nuclei_in_turn {A B} (parse : A -> option (Z * B)) l v protons neutrons k events :
  0 < protons + neutrons -> 0 < k -> length l = (protons + neutrons) * k -> all_parsed parse l v ->
  (forall j, j < k -> let b := firstn (protons + neutrons) (skipn (j * (protons + neutrons)) v) in
     count (fun v => (fst v =? 1)%Z) b = protons /\ count (fun v => (fst v =? 0)%Z) b = neutrons) ->
  read_events parse (CFile l true) protons neutrons events 0 false =
    Ok (map (fun e => firstn (protons + neutrons) (skipn (e mod k * (protons + neutrons)) v)) (seq 0 events)).
Proof.
  intros HA Hk HL Hv Hb. set (n := protons + neutrons) in *.
  assert (LV : length v = length l) by (rewrite <- (map_length Some v), <- Hv, map_length; auto).
  assert (L0 : length l <> 0) by (rewrite HL; nia).
  assert (l0 : l <> []) by (intros ->; auto). assert (V0 : v <> []) by (intros ->; auto).
  assert (G : forall events e pos, pos <= length l -> pos mod length l = (e * n) mod length l ->
     read_events parse (CFile l true) protons neutrons events pos false = Ok (map (fun e => firstn n (skipn (e mod k * n) v)) (seq e events))).
  { clear events. intros events; induction events as [|m IH]; intros e pos Hp Hm; [reflexivity|].
    cbn [read_events seq map]. unfold readfile. fold n.
    destruct (lines_in_turn parse l v n pos l0 Hp Hv) as (p & E & Hp' & Em). rewrite E. cbn [rbind].
    assert (T : in_turn v pos n = firstn n (skipn (e mod k * n) v)).
    { rewrite <- firstn_skipn_turn; auto.
      - apply in_turn_mod; auto. rewrite LV, Hm, HL, (Nat.mul_comm n k).
        rewrite !Nat.mul_mod_distr_r by lia. rewrite Nat.mod_mod by lia. auto.
      - rewrite LV, HL. pose proof (Nat.mod_upper_bound e k). nia. }
    destruct (Hb (e mod k)) as (C1 & C2); [apply Nat.mod_upper_bound; lia|]. cbv zeta in C1, C2. unfold count in C1, C2.
    rewrite T, C1, C2, !Nat.eqb_refl. cbn [andb rbind]. rewrite (IH (S e) p); auto.
    rewrite Em, Nat.add_mod, Hm, <- Nat.add_mod by auto. f_equal. lia. }
  apply G; [lia|reflexivity].
Qed.
Print Assumptions nuclei_in_turn.
Example nuclei_in_turn_hypotheses : exists l (v : list (Z * Z)), length l = (1 + 1) * 2 /\ all_parsed (fun x => Some x) l v /\
  forall j, j < 2 -> let b := firstn (1 + 1) (skipn (j * (1 + 1)) v) in count (fun v => (fst v =? 1)%Z) b = 1 /\ count (fun v => (fst v =? 0)%Z) b = 1.
Proof.
  exists [(1, 10); (0, 11); (0, 12); (1, 13)]%Z, [(1, 10); (0, 11); (0, 12); (1, 13)]%Z. splits; try reflexivity.
  intros [|[|j]] H; cbn; auto; lia.
Qed.

(** Without a newline after the last line the file is read as if its last line were missing (unless it is the only one): the line
    is read, but the end of the file met while doing so makes the first line take its place. *)
Theorem last_line_without_newline_refuted {A B} (parse : A -> option (Z * B)) l last n pos : l <> [] -> pos <= length l ->
  read_lines parse (CFile (l ++ [last]) false) n pos false = read_lines parse (CFile l true) n pos false.
Proof.
  intros Hl Hp.
  assert (E : forall last pos, pos <= length l -> next_line (CFile (l ++ [last]) false) pos false = next_line (CFile l true) pos false).
  { clear - Hl. intros last pos Hp. assert (L : 0 < length l) by (destruct l; [congruence|cbn; lia]).
    unfold next_line, getline; cbn [clines newline negb]. rewrite !andb_false_r, !andb_true_r, app_length. cbn [length].
    destruct (Nat.eq_dec pos (length l)) as [->|Hn].
    - assert (nth_error (l ++ [last]) (length l) = Some last) as -> by (rewrite nth_error_app2, Nat.sub_diag by lia; reflexivity).
      assert (nth_error l (length l) = None) as -> by (apply nth_error_None; lia).
      destruct (Nat.eqb_spec (S (length l)) (length l + 1)); [|lia].
      assert (nth_error (l ++ [last]) 0 = nth_error l 0) as -> by (apply nth_error_app1; lia).
      destruct (nth_error l 0); auto. destruct (Nat.eqb_spec 1 (length l + 1)); [lia|auto].
    - rewrite nth_error_app1 by lia. destruct (nth_error l pos) eqn:E; [|apply nth_error_None in E; lia].
      destruct (Nat.eqb_spec (S pos) (length l + 1)); [lia|auto]. }
  revert pos Hp. induction n as [|n IH]; intros pos Hp; [reflexivity|]. cbn [read_lines]. rewrite E by auto.
  destruct (next_line_newline l pos Hl Hp) as (x & p & En & _ & Hp' & _). rewrite En. destruct (parse x); auto. rewrite IH by lia. auto.
Qed.
Print Assumptions last_line_without_newline_refuted.

(** If the number of lines is not a multiple of the mass number, the file is accepted all the same, and nucleons of two nuclei of the
    file are put together. *)
Theorem incomplete_last_nucleus_refuted : exists l : list (Z * Z), length l mod 2 <> 0 /\
  read_events (fun x => Some x) (CFile l true) 1 1 2 0 false = Ok [[(1, 10); (0, 11)]; [(0, 12); (1, 10)]]%Z.
Proof. exists [(1, 10); (0, 11); (0, 12)]%Z. split; [cbn; lia|reflexivity]. Qed.
Print Assumptions incomplete_last_nucleus_refuted.
