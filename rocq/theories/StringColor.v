(** Identifying colour-singlet strings among the partons of a hard process:
    src/stringprocess.cc, compose_string_parton and the loop that calls it.

    An entry of PYTHIA's event record is its position in the original record together with
    its colour and anticolour index (0: none); the zeroth entry is left out.  Momenta are left
    out: the momentum of a string is the sum over its entries.  Records with junctions are not
    modelled (compose_string_junction). *)
From Coq Require Import ZArith List Bool Lia Permutation.
From Verif Require Import Base.
Import ListNotations.
Open Scope Z_scope.

Definition entry := (Z * Z * Z)%type.
Definition name (e : entry) : Z := fst (fst e).
Definition col (e : entry) : Z := snd (fst e).
Definition acol (e : entry) : Z := snd e.

(** the for loop, stringprocess.cc:1300-1331: the entries before the first one that matches,
    that entry, the entries after it, and the new indices to find *)
Fixpoint find_partner (ctf atf : Z) (ev : list entry) : option (list entry * entry * list entry * Z * Z) :=
  match ev with
  | [] => None
  | e :: t =>
    let found_col := negb (ctf =? 0) && (ctf =? col e) in
    let found_acol := negb (atf =? 0) && (atf =? acol e) in
    if found_col && negb found_acol then Some ([], e, t, acol e, atf)
    else if negb found_col && found_acol then Some ([], e, t, ctf, col e)
    else if found_col && found_acol then Some ([], e, t, 0, 0)
    else match find_partner ctf atf t with
         | Some (a, x, b, c, d) => Some (e :: a, x, b, c, d)
         | None => None
         end
  end.
(** the while loop, stringprocess.cc:1295-1352 *)
Fixpoint trace (fuel : nat) (ctf atf : Z) (ev had : list entry) : res (list entry * list entry) :=
  if (ctf =? 0) && (atf =? 0) then Ok (had, ev)
  else match fuel with
  | O => UB UB_no_progress
  | S f =>
    match find_partner ctf atf ev with
    | None => Throw E_runtime
    | Some (a, e, b, c, d) => trace f c d (a ++ b) (had ++ [e])
    end
  end.
(** compose_string_parton, stringprocess.cc:1274-1358; [pick] stands for the most forward or
    backward parton: the string and what is left *)
Definition compose (pick : nat) (ev : list entry) : res (list entry * list entry) :=
  let i := (pick mod length ev)%nat in
  match nth_error ev i with
  | None => UB UB_oob
  | Some e =>
    let rest := firstn i ev ++ skipn (S i) ev in
    trace (S (length ev)) (acol e) (col e) rest [e]
  end.
(** the loop in next_NDiffHard, stringprocess.cc:689-763, for a record without junctions;
    [picks] gives the starting parton of the n-th string *)
Fixpoint strings (fuel : nat) (picks : nat -> nat) (ev : list entry) : res (list (list entry)) :=
  match ev with
  | [] => Ok []
  | _ => match fuel with
         | O => UB UB_no_progress
         | S f => '(s, rest) <- compose (picks f) ev ;; l <- strings f picks rest ;; Ok (s :: l)
         end
  end.

(** ** Specification: a set of partons is a colour singlet if every colour index occurs as
    often as a colour as it does as an anticolour *)
Definition n_col (c : Z) (l : list entry) : nat := count_occ Z.eq_dec (map col l) c.
Definition n_acol (c : Z) (l : list entry) : nat := count_occ Z.eq_dec (map acol l) c.
Definition singlet (l : list entry) : Prop := forall c, c <> 0 -> n_col c l = n_acol c l.

Definition one (a c : Z) : nat := if Z.eq_dec a c then 1%nat else 0%nat.
Lemma n_col_cons c e l : n_col c (e :: l) = (one (col e) c + n_col c l)%nat.
Proof. unfold n_col, one. cbn [map count_occ]. destruct (Z.eq_dec (col e) c); reflexivity. Qed.
Lemma n_acol_cons c e l : n_acol c (e :: l) = (one (acol e) c + n_acol c l)%nat.
Proof. unfold n_acol, one. cbn [map count_occ]. destruct (Z.eq_dec (acol e) c); reflexivity. Qed.
Lemma n_col_nil c : n_col c [] = 0%nat. Proof. reflexivity. Qed.
Lemma n_acol_nil c : n_acol c [] = 0%nat. Proof. reflexivity. Qed.
Lemma n_col_app c a b : n_col c (a ++ b) = (n_col c a + n_col c b)%nat.
Proof. unfold n_col. rewrite map_app. apply count_occ_app. Qed.
Lemma n_acol_app c a b : n_acol c (a ++ b) = (n_acol c a + n_acol c b)%nat.
Proof. unfold n_acol. rewrite map_app. apply count_occ_app. Qed.

Lemma find_partner_some ev : forall ctf atf a e b c d, find_partner ctf atf ev = Some (a, e, b, c, d) ->
  ev = a ++ e :: b /\
  ((ctf <> 0 /\ ctf = col e /\ ~ (atf <> 0 /\ atf = acol e) /\ c = acol e /\ d = atf) \/
   (atf <> 0 /\ atf = acol e /\ ~ (ctf <> 0 /\ ctf = col e) /\ c = ctf /\ d = col e) \/
   (ctf <> 0 /\ ctf = col e /\ atf <> 0 /\ atf = acol e /\ c = 0 /\ d = 0)).
Proof.
  induction ev as [|x t IH]; intros ctf atf a e b c d H; [discriminate|]. cbn [find_partner] in H.
  destruct (Z.eqb_spec ctf 0) as [C0|C0], (Z.eqb_spec ctf (col x)) as [C1|C1],
    (Z.eqb_spec atf 0) as [A0|A0], (Z.eqb_spec atf (acol x)) as [A1|A1]; cbn [negb andb] in H;
  try (injection H as <- <- <- <- <-; split; [reflexivity|]; tauto);
  (destruct (find_partner ctf atf t) as [[[[[a' e'] b'] c'] d']|] eqn:E; [|discriminate];
   injection H as <- <- <- <- <-; destruct (IH _ _ _ _ _ _ _ E) as [-> K]; split; [reflexivity|exact K]).
Qed.
Lemma find_partner_none ev : forall ctf atf, find_partner ctf atf ev = None ->
  (ctf <> 0 -> n_col ctf ev = 0%nat) /\ (atf <> 0 -> n_acol atf ev = 0%nat).
Proof.
  induction ev as [|x t IH]; intros ctf atf H; [split; reflexivity|]. cbn [find_partner] in H.
  destruct (Z.eqb_spec ctf 0) as [C0|C0], (Z.eqb_spec ctf (col x)) as [C1|C1],
    (Z.eqb_spec atf 0) as [A0|A0], (Z.eqb_spec atf (acol x)) as [A1|A1]; cbn [negb andb] in H; try discriminate;
  (destruct (find_partner ctf atf t) as [[[[[a' e'] b'] c'] d']|] eqn:E; [discriminate|];
   destruct (IH _ _ E) as [I1 I2]; rewrite n_col_cons, n_acol_cons; unfold one;
   destruct (Z.eq_dec (col x) ctf), (Z.eq_dec (acol x) atf); split; intros Q; try (exfalso; congruence); cbn [Nat.add]; auto).
Qed.

(** what the partial string still misses *)
Definition chain (had : list entry) (ctf atf : Z) : Prop :=
  forall c, c <> 0 -> (n_col c had + one ctf c = n_acol c had + one atf c)%nat.

Lemma one_refl c : one c c = 1%nat. Proof. unfold one. destruct (Z.eq_dec c c); congruence. Qed.

Lemma trace_spec fuel : forall ctf atf ev had s rest, chain had ctf atf -> trace fuel ctf atf ev had = Ok (s, rest) ->
  Permutation (had ++ ev) (s ++ rest) /\ singlet s /\ exists s', s = had ++ s'.
Proof.
  induction fuel as [|f IH]; intros ctf atf ev had s rest Ch H; cbn [trace] in H.
  - destruct (Z.eqb_spec ctf 0), (Z.eqb_spec atf 0); cbn [andb] in H; try discriminate.
    assert (s = had /\ rest = ev) as [-> ->] by (split; congruence). split; [reflexivity|]. split; [|exists []; rewrite app_nil_r; reflexivity].
    intros c Hc. specialize (Ch c Hc). unfold one in Ch. subst. destruct (Z.eq_dec 0 c); [congruence|]. lia.
  - destruct (Z.eqb_spec ctf 0) as [C0|C0], (Z.eqb_spec atf 0) as [A0|A0]; cbn [andb] in H.
    { assert (s = had /\ rest = ev) as [-> ->] by (split; congruence). split; [reflexivity|]. split; [|exists []; rewrite app_nil_r; reflexivity].
      intros c Hc. specialize (Ch c Hc). unfold one in Ch. subst. destruct (Z.eq_dec 0 c); [congruence|]. lia. }
    all: destruct (find_partner ctf atf ev) as [[[[[a e] b] c] d]|] eqn:E; [|discriminate];
      destruct (find_partner_some _ _ _ _ _ _ _ _ E) as [-> K];
      (assert (Ch' : chain (had ++ [e]) c d);
       [intros x Hx; specialize (Ch x Hx); rewrite n_col_app, n_acol_app, n_col_cons, n_acol_cons; rewrite ?n_col_nil, ?n_acol_nil;
        destruct K as [(K1 & K2 & K3 & -> & ->)|[(K1 & K2 & K3 & -> & ->)|(K1 & K2 & K3 & K4 & -> & ->)]]; subst;
        unfold one in *; destruct (Z.eq_dec 0 x); try congruence; lia|]);
      destruct (IH _ _ _ _ _ _ Ch' H) as (P & Sg & (s' & Es));
      (split; [|split; [exact Sg|exists (e :: s'); rewrite Es, <- app_assoc; reflexivity]]);
      eapply perm_trans; [|exact P]; rewrite <- app_assoc; apply Permutation_app_head; cbn [app]; symmetry; apply Permutation_middle.
Qed.

Lemma trace_total fuel : forall ctf atf ev had, chain had ctf atf -> singlet (had ++ ev) ->
  (ctf <> atf \/ ctf = 0 /\ atf = 0) -> (length ev < fuel)%nat -> exists s rest, trace fuel ctf atf ev had = Ok (s, rest).
Proof.
  induction fuel as [|f IH]; intros ctf atf ev had Ch Sg Df L; [lia|]. cbn [trace].
  destruct (Z.eqb_spec ctf 0) as [C0|C0], (Z.eqb_spec atf 0) as [A0|A0]; cbn [andb].
  { do 2 eexists; reflexivity. }
  all: destruct (find_partner ctf atf ev) as [[[[[a e] b] c] d]|] eqn:E.
  all: try (destruct (find_partner_some _ _ _ _ _ _ _ _ E) as [-> K]; apply IH;
    [intros x Hx; specialize (Ch x Hx); rewrite n_col_app, n_acol_app, n_col_cons, n_acol_cons; rewrite ?n_col_nil, ?n_acol_nil;
        destruct K as [(K1 & K2 & K3 & -> & ->)|[(K1 & K2 & K3 & -> & ->)|(K1 & K2 & K3 & K4 & -> & ->)]]; subst;
        unfold one in *; destruct (Z.eq_dec 0 x); try congruence; lia
    |intros x Hx; specialize (Sg x Hx); rewrite !n_col_app, !n_acol_app in *; rewrite n_col_cons, n_acol_cons in *;
       rewrite ?n_col_nil, ?n_acol_nil; lia
    |destruct K as [(K1 & K2 & K3 & -> & ->)|[(K1 & K2 & K3 & -> & ->)|(K1 & K2 & K3 & K4 & -> & ->)]]; [| |right; split; reflexivity]
    |rewrite app_length in *; cbn [length] in L; lia]).
  all: try (exfalso; destruct (find_partner_none _ _ _ E) as [N1 N2];
    assert (N : forall x, x <> 0 -> (n_col x ev + one atf x = n_acol x ev + one ctf x)%nat)
      by (intros x Hx; specialize (Ch x Hx); specialize (Sg x Hx); rewrite n_col_app, n_acol_app in Sg; lia)).
  (* found through the colour: the new index differs from the other one *)
  all: try (destruct (Z.eq_dec (acol e) atf) as [Q|Q]; [|left; exact Q]; right; destruct (Z.eq_dec atf 0); [split; congruence|exfalso; apply K3; split; congruence]).
  all: try (destruct (Z.eq_dec ctf (col e)) as [Q|Q]; [|left; exact Q]; right; destruct (Z.eq_dec ctf 0); [split; congruence|exfalso; apply K3; split; congruence]).
  (* nothing found *)
  - subst. pose proof (N atf A0) as M. rewrite N2 in M by exact A0. rewrite one_refl in M. unfold one in M. destruct (Z.eq_dec 0 atf); [congruence|]. lia.
  - subst. pose proof (N ctf C0) as M. rewrite N1 in M by exact C0. rewrite one_refl in M. unfold one in M. destruct (Z.eq_dec 0 ctf); [congruence|]. lia.
  - pose proof (N ctf C0) as M. rewrite N1 in M by exact C0. rewrite one_refl in M. unfold one in M. destruct (Z.eq_dec atf ctf); [|lia].
    destruct Df as [Df|[Df _]]; congruence.
Qed.

Lemma take_entry (l : list entry) i e : nth_error l i = Some e ->
  Permutation l (e :: firstn i l ++ skipn (S i) l) /\ length l = S (length (firstn i l ++ skipn (S i) l)).
Proof.
  revert i. induction l as [|x t IH]; intros [|i] H; try discriminate.
  - injection H as ->. split; reflexivity.
  - destruct (IH i H) as [P L]. change (skipn (S (S i)) (x :: t)) with (skipn (S i) t). cbn [firstn app length]. split; [|lia].
    rewrite perm_swap. constructor. exact P.
Qed.

(** C85: whatever string compose returns, it is a colour singlet, and together with what is
    left it is exactly the record. *)
Theorem composed_string_is_singlet pick ev s rest : compose pick ev = Ok (s, rest) ->
  singlet s /\ Permutation ev (s ++ rest) /\ s <> [].
Proof.
  unfold compose. destruct (nth_error ev (pick mod length ev)) as [e|] eqn:E; [|discriminate].
  destruct (take_entry ev _ e E) as [P L]. intros H.
  apply trace_spec in H as (P' & Sg & (s' & Es)).
  - split; [exact Sg|]. split; [|rewrite Es; discriminate]. eapply perm_trans; [exact P|]. exact P'.
  - intros c Hc. rewrite n_col_cons, n_acol_cons. rewrite n_col_nil, n_acol_nil. lia.
Qed.
Print Assumptions composed_string_is_singlet.

(** C85: in a record that is a colour singlet, and in which no parton has the same colour and
    anticolour, every parton can be the start of a string: the search never fails. *)
Theorem singlet_record_has_strings pick ev : singlet ev -> ev <> [] ->
  Forall (fun e => col e <> acol e \/ col e = 0 /\ acol e = 0) ev ->
  exists s rest, compose pick ev = Ok (s, rest).
Proof.
  intros Sg Ne F. unfold compose.
  assert (Hi : (pick mod length ev < length ev)%nat).
  { apply Nat.mod_upper_bound. destruct ev; [congruence|discriminate]. }
  destruct (nth_error ev (pick mod length ev)) as [e|] eqn:E; [|apply nth_error_None in E; lia].
  destruct (take_entry ev _ e E) as [P L].
  apply trace_total.
  - intros c Hc. rewrite n_col_cons, n_acol_cons. rewrite n_col_nil, n_acol_nil. lia.
  - intros c Hc. specialize (Sg c Hc). cbn [app]. unfold n_col, n_acol in *.
    assert (C1 : forall f : entry -> Z, count_occ Z.eq_dec (map f ev) c = count_occ Z.eq_dec (map f (e :: firstn (pick mod length ev) ev ++ skipn (S (pick mod length ev)) ev)) c).
    { intros f. apply (proj1 (Permutation_count_occ Z.eq_dec _ _)). apply Permutation_map. exact P. }
    rewrite <- !C1. exact Sg.
  - rewrite Forall_forall in F. specialize (F e (nth_error_In _ _ E)). destruct F as [F|[F1 F2]]; [left; congruence|right; split; assumption].
  - lia.
Qed.
Print Assumptions singlet_record_has_strings.

Lemma singlet_rest ev s rest : singlet ev -> singlet s -> Permutation ev (s ++ rest) -> singlet rest.
Proof.
  intros A B P c Hc. specialize (A c Hc). specialize (B c Hc). unfold n_col, n_acol in *.
  assert (C1 : forall f : entry -> Z, count_occ Z.eq_dec (map f ev) c = (count_occ Z.eq_dec (map f s) c + count_occ Z.eq_dec (map f rest) c)%nat).
  { intros f. rewrite <- count_occ_app, <- map_app. apply (proj1 (Permutation_count_occ Z.eq_dec _ _)). apply Permutation_map. exact P. }
  rewrite !C1 in A. lia.
Qed.

(** C85: the partons of a colour-singlet record are partitioned into colour-singlet strings,
    whatever the rapidities: none is lost, none is used twice. *)
Theorem record_is_partitioned_into_singlets fuel picks ev : singlet ev ->
  Forall (fun e => col e <> acol e \/ col e = 0 /\ acol e = 0) ev -> (length ev <= fuel)%nat ->
  exists l, strings fuel picks ev = Ok l /\ Permutation ev (concat l) /\
    Forall (fun s => s <> [] /\ singlet s) l.
Proof.
  revert ev. induction fuel as [|f IH]; intros ev Sg F L.
  - destruct ev; [|cbn in L; lia]. exists []. splits; [reflexivity|constructor|constructor].
  - assert (C : ev = [] \/ ev <> []) by (destruct ev; [left; reflexivity|right; discriminate]).
    destruct C as [->|Ne]; [exists []; splits; [reflexivity|constructor|constructor]|].
    destruct (singlet_record_has_strings (picks f) ev Sg Ne F) as (s & rest & E).
    destruct (composed_string_is_singlet _ _ _ _ E) as (Ss & P & Ns).
    destruct (IH rest) as (l & El & Pl & Fl).
    + apply (singlet_rest ev s rest); assumption.
    + rewrite Forall_forall in *. intros x I. apply F. apply (Permutation_in x (Permutation_sym P)). apply in_app_iff. right; exact I.
    + pose proof (Permutation_length P) as Lp. rewrite app_length in Lp. destruct s; [congruence|]. cbn [length] in Lp. lia.
    + exists (s :: l). splits.
      * destruct ev as [|e0 t]; [congruence|]. cbn [strings]. rewrite E. cbn [rbind]. rewrite El. reflexivity.
      * cbn [concat]. eapply perm_trans; [exact P|]. apply Permutation_app_head. exact Pl.
      * constructor; [split; assumption|exact Fl].
Qed.
Print Assumptions record_is_partitioned_into_singlets.

(** quark - gluon - antiquark and a ring of two gluons *)
Example ex_record : list entry := [(1, 101, 0); (2, 103, 104); (3, 102, 101); (4, 104, 103); (5, 0, 102)].
Example strings_example : singlet ex_record /\ Forall (fun e => col e <> acol e \/ col e = 0 /\ acol e = 0) ex_record /\
  strings 5 (fun _ => 0%nat) ex_record = Ok [[(1, 101, 0); (3, 102, 101); (5, 0, 102)]; [(2, 103, 104); (4, 104, 103)]].
Proof.
  split; [|split; [|reflexivity]].
  2: { unfold ex_record. repeat apply Forall_cons; try apply Forall_nil; unfold col, acol; cbn [fst snd]; left; discriminate. }
  intros c Hc. unfold n_col, n_acol, ex_record. cbn [map col acol fst snd count_occ].
  destruct (Z.eq_dec 101 c), (Z.eq_dec 102 c), (Z.eq_dec 103 c), (Z.eq_dec 104 c), (Z.eq_dec 0 c); congruence || reflexivity.
Qed.
(** a gluon whose colour is its own anticolour cannot be placed *)
Theorem self_singlet_gluon_refuted : exists ev pick, singlet ev /\ ev <> [] /\ compose pick ev = Throw E_runtime.
Proof.
  exists [(1, 7, 7)], 0%nat. split; [|split; [discriminate|reflexivity]]. intros c _. reflexivity.
Qed.
Print Assumptions self_singlet_gluon_refuted.
