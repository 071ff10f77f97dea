(** Lemmas about the event record: changing and appending particles, selecting by status and vertex. *)
From Coq Require Import ZArith Reals List Bool Permutation Lia.
From Verif Require Import Base VecModel HepmcModel.
Import ListNotations.
Open Scope Z_scope.

(** the record as a reader sees it: the content of a particle, those of a status, those entering and leaving a vertex *)
Definition content (g : gen) : Z * vec4 := (g_pdg g, g_mom g).
Definition seen (p : pdata) : Z * vec4 := (p_pdg p, p_mom p).
Definition at_vertex (o : option nat) (v : nat) : bool := match o with Some w => Nat.eqb w v | None => false end.
Definition with_status (s : Z) (h : hep) : list gen := filter (fun g => g_status g =? s) (h_gens h).
Definition entering (v : nat) (h : hep) : list gen := filter (fun g => at_vertex (g_end g) v) (h_gens h).
Definition leaving (v : nat) (h : hep) : list gen := filter (fun g => at_vertex (g_prod g) v) (h_gens h).

Lemma change_length i f l : length (change i f l) = length l.
Proof. revert i; induction l as [|g r IH]; intros [|i]; cbn; auto. Qed.
Lemma change_at i f l g : nth_error l i = Some g -> nth_error (change i f l) i = Some (f g).
Proof. revert i; induction l as [|x r IH]; intros [|i] E; cbn in *; try discriminate; [now injection E as ->|auto]. Qed.
Lemma change_other i j f l : i <> j -> nth_error (change i f l) j = nth_error l j.
Proof. revert i j; induction l as [|x r IH]; intros [|i] [|j] N; cbn; try congruence; auto. Qed.
Lemma change_change i f g l : change i f (change i g l) = change i (fun x => f (g x)) l.
Proof. revert i; induction l as [|x r IH]; intros [|i]; cbn; try reflexivity; now rewrite IH. Qed.
Lemma change_app i f l r : (i < length l)%nat -> change i f (l ++ r) = change i f l ++ r.
Proof. revert i; induction l as [|x l IH]; intros [|i] H; cbn in *; try lia; [reflexivity|]. rewrite IH by lia. reflexivity. Qed.
Lemma change_last f l x : change (length l) f (l ++ [x]) = l ++ [f x].
Proof. induction l as [|y l IH]; cbn; [reflexivity|]. now rewrite IH. Qed.

Lemma filter_change_same (P : gen -> bool) i f l g : nth_error l i = Some g -> P g = false -> P (f g) = false -> filter P (change i f l) = filter P l.
Proof.
  revert i; induction l as [|x r IH]; intros [|i] E A B; cbn in *; try discriminate.
  - injection E as ->. now rewrite A, B.
  - rewrite (IH i) by auto. reflexivity.
Qed.
Lemma filter_change_new (P : gen -> bool) i f l g : nth_error l i = Some g -> P g = false -> P (f g) = true ->
  Permutation (filter P (change i f l)) (f g :: filter P l).
Proof.
  revert i; induction l as [|x r IH]; intros [|i] E A B; cbn in *; try discriminate.
  - injection E as ->. now rewrite A, B.
  - destruct (P x); [|now apply IH]. etransitivity; [apply perm_skip, IH; eauto|apply perm_swap].
Qed.
(** a change that keeps whether a particle is selected, and its content *)
Lemma filter_change_content (P : gen -> bool) i f l : (forall g, P (f g) = P g) -> (forall g, content (f g) = content g) ->
  map content (filter P (change i f l)) = map content (filter P l).
Proof.
  intros A B. revert i; induction l as [|x r IH]; intros [|i]; cbn; try reflexivity.
  - rewrite A. destruct (P x); cbn; now rewrite ?B.
  - destruct (P x); cbn; now rewrite IH.
Qed.

Lemma map_filter_seq (P : gen -> bool) (l : list gen) d :
  filter P l = map (fun i => nth i l d) (filter (fun i => P (nth i l d)) (seq 0 (length l))).
Proof.
  induction l as [|x r IH]; cbn [length seq filter]; [reflexivity|].
  assert (Q : filter P r = map (fun i => nth i (x :: r) d) (filter (fun i => P (nth i (x :: r) d)) (seq 1 (length r)))).
  { rewrite IH. rewrite <- seq_shift. clear IH. induction (seq 0 (length r)) as [|k s IHs]; cbn; [reflexivity|].
    destruct (P (nth k r d)); cbn; now rewrite IHs. }
  change (nth 0 (x :: r) d) with x. destruct (P x); cbn; now rewrite Q.
Qed.

(** ** The invariant of a full record: [live] are the particles that exist *)
Definition fresh_end (g : gen) : Prop := g_end g = None \/ g_end g = Some 0%nat.
Definition Inv (live : list pdata) (h : hep) : Prop :=
  h_full h = true /\ NoDup (map p_id live) /\
  (forall p, In p live -> exists i g, find_id (p_id p) (h_map h) = Some i /\ nth_error (h_gens h) i = Some g /\
     g_status g = st_final /\ content g = seen p /\ fresh_end g) /\
  (forall p q, In p live -> In q live -> find_id (p_id p) (h_map h) = find_id (p_id q) (h_map h) -> p_id p = p_id q) /\
  (forall i g, nth_error (h_gens h) i = Some g -> g_status g = st_final -> exists p, In p live /\ find_id (p_id p) (h_map h) = Some i) /\
  (forall k i, find_id k (h_map h) = Some i -> (i < length (h_gens h))%nat) /\
  (forall g v, In g (h_gens h) -> g_end g = Some v \/ g_prod g = Some v -> (v < length (h_verts h))%nat).

Lemma in_live_unique live (p q : pdata) : NoDup (map p_id live) -> In p live -> In q live -> p_id p = p_id q -> p = q.
Proof.
  induction live as [|x r IH]; cbn; intros N A B E; [tauto|]. inversion N as [|? ? N1 N2]; subst.
  destruct A as [A|A], B as [B|B]; subst; auto; exfalso; apply N1; [rewrite E|rewrite <- E]; now apply in_map.
Qed.
Lemma nodup_map_inj {A B} (f : A -> B) l : (forall x y, In x l -> In y l -> f x = f y -> x = y) -> NoDup l -> NoDup (map f l).
Proof.
  induction l as [|x r IH]; cbn; intros I N; [constructor|]. inversion N as [|? ? N1 N2]; subst. constructor.
  - intros H. apply in_map_iff in H as (y & E & Y). apply N1. rewrite (I x y) by auto. exact Y.
  - apply IH; auto.
Qed.
(** the particles of final status are the living ones *)
Lemma inv_final live h : Inv live h -> Permutation (map content (with_status st_final h)) (map seen live).
Proof.
  intros (_ & N & B & C & D & M & _). unfold with_status.
  set (d := Gen 0 0 zero4 None None None).
  rewrite (map_filter_seq _ _ d), map_map.
  set (J := filter _ _). set (ix := fun p => match find_id (p_id p) (h_map h) with Some i => i | None => 0%nat end).
  assert (PJ : Permutation J (map ix live)).
  { apply NoDup_Permutation.
    - apply NoDup_filter, seq_NoDup.
    - apply nodup_map_inj; [|now apply NoDup_map_inv with (f := p_id)].
      intros x y X Y E. destruct (B x X) as (i & g & A1 & _), (B y Y) as (j & g' & A2 & _). unfold ix in E. rewrite A1, A2 in E. subst j.
      apply (in_live_unique live); auto. apply C; auto. congruence.
    - intros i. unfold J. rewrite filter_In, in_seq, in_map_iff. split.
      + intros (L & S). apply Z.eqb_eq in S. destruct (nth_error (h_gens h) i) as [g|] eqn:E; [|apply nth_error_None in E; lia].
        rewrite (nth_error_nth _ _ d E) in S. destruct (D i g E S) as (p & P1 & P2). exists p. split; [|exact P1]. unfold ix. now rewrite P2.
      + intros (p & <- & P). destruct (B p P) as (i & g & A1 & A2 & A3 & _). unfold ix. rewrite A1. split; [split; [lia|]|].
        * apply nth_error_Some. now rewrite A2.
        * rewrite (nth_error_nth _ _ d A2). now apply Z.eqb_eq. }
  etransitivity; [apply Permutation_map, PJ|]. rewrite map_map. apply Permutation_refl', map_ext_in.
  intros p P. destruct (B p P) as (i & g & A1 & A2 & A3 & A4 & _). unfold ix. rewrite A1. rewrite (nth_error_nth _ _ d A2). exact A4.
Qed.

(** ** Making a particle *)
(** a new particle of final status with these vertices *)
Definition record (po eo : option nat) (p : pdata) : gen :=
  Gen (p_pdg p) st_final (p_mom p) (if Rlt_dec 0 (p_mass p) then Some (p_mass p) else None) po eo.
Definition place (po eo : option nat) (h : hep) (p : pdata) : hep :=
  Hep (h_full h) (h_gens h ++ [record po eo p]) (h_verts h) ((p_id p, length (h_gens h)) :: h_map h).
Lemma produce_eq v h p : produce v h p = place (Some v) None h p.
Proof. unfold place, record, produce, make_register, make_gen, add_out, change_gen. cbn. now rewrite change_last. Qed.
Lemma place_inv po eo live h p : (forall v, eo = Some v \/ po = Some v -> (v < length (h_verts h))%nat) -> eo = None \/ eo = Some 0%nat -> Inv live h -> ~ In (p_id p) (map p_id live) -> Inv (live ++ [p]) (place po eo h p).
Proof.
  intros V EO (F & N & B & C & D & M & W) X. unfold Inv, place; cbn [h_full h_gens h_verts h_map find_id].
  assert (O : forall q, In q live -> (p_id q =? p_id p) = false).
  { intros q Q. apply Z.eqb_neq. intros E. apply X. rewrite <- E. now apply in_map. }
  splits.
  - exact F.
  - rewrite map_app. cbn. apply Permutation_NoDup with (l := p_id p :: map p_id live); [|now constructor].
    change (p_id p :: map p_id live) with ([p_id p] ++ map p_id live). apply Permutation_app_comm.
  - intros q Q. apply in_app_or in Q as [Q|[<-|[]]].
    + rewrite (O q Q). destruct (B q Q) as (i & g & A1 & A2 & A3). exists i, g. split; [exact A1|]. split; [|exact A3].
      rewrite nth_error_app1; [exact A2|]. apply nth_error_Some. now rewrite A2.
    + rewrite Z.eqb_refl. eexists _, _. split; [reflexivity|]. split; [rewrite nth_error_app2, Nat.sub_diag by lia; reflexivity|].
      cbn. split; [reflexivity|]. split; [reflexivity|]. exact EO.
  - intros q r Q R0. apply in_app_or in Q as [Q|[<-|[]]]; apply in_app_or in R0 as [R1|[<-|[]]]; auto.
    + rewrite (O q Q), (O r R1). now apply C.
    + rewrite (O q Q), Z.eqb_refl. intros E. apply M in E. lia.
    + rewrite (O r R1), Z.eqb_refl. intros E. symmetry in E. apply M in E. lia.
  - intros i g G S. destruct (Nat.lt_ge_cases i (length (h_gens h))) as [L|L].
    + rewrite nth_error_app1 in G by exact L. destruct (D i g G S) as (q & Q1 & Q2). exists q. split; [apply in_or_app; now left|].
      now rewrite (O q Q1).
    + exists p. split; [apply in_or_app; right; now left|]. rewrite Z.eqb_refl.
      assert (L2 : (i < length (h_gens h ++ [record po eo p]))%nat)
        by (apply nth_error_Some; now rewrite G).
      rewrite app_length in L2. cbn in L2. f_equal. lia.
  - intros k i. rewrite app_length. cbn [length]. destruct (k =? p_id p); [intros [= <-]; lia|]. intros E. apply M in E. lia.
  - intros g w G E. apply in_app_or in G as [G|[<-|[]]]; [exact (W g w G E)|]. cbn in E. now apply V.
Qed.
Lemma produce_inv v live h p : (v < length (h_verts h))%nat -> Inv live h -> ~ In (p_id p) (map p_id live) -> Inv (live ++ [p]) (produce v h p).
Proof. intros V I X. rewrite produce_eq. apply place_inv; auto. intros w [E|E]; [discriminate|]. injection E as <-. exact V. Qed.
Lemma produce_full v h p : h_full (produce v h p) = h_full h.
Proof. now rewrite produce_eq. Qed.
Lemma produce_verts v h p : h_verts (produce v h p) = h_verts h.
Proof. now rewrite produce_eq. Qed.

(** ** Using up a particle *)
Definition used (v : nat) (s : Z) (g : gen) : gen := Gen (g_pdg g) s (g_mom g) (g_mass g) (g_prod g) (Some v).
Lemma consume_eq v s h p i : find_id (p_id p) (h_map h) = Some i ->
  consume v s h p = Hep (h_full h) (change i (used v s) (h_gens h)) (h_verts h) (h_map h).
Proof. intros E. unfold consume, find_or_make. rewrite E. unfold add_in, set_status, change_gen. cbn. now rewrite change_change. Qed.
Definition without (id : Z) (live : list pdata) : list pdata := filter (fun p => negb (p_id p =? id)) live.
Lemma in_without id live p : In p (without id live) <-> In p live /\ p_id p <> id.
Proof. unfold without. rewrite filter_In. split; intros (A & B); split; auto; [apply Z.eqb_neq; now destruct (p_id p =? id)|]. apply Z.eqb_neq in B. now rewrite B. Qed.
Lemma nodup_map_filter {A B} (f : A -> B) (P : A -> bool) l : NoDup (map f l) -> NoDup (map f (filter P l)).
Proof.
  induction l as [|x r IH]; cbn; intros N; [constructor|]. inversion N as [|? ? N1 N2]; subst. destruct (P x); cbn; [|auto].
  constructor; [|auto]. intros H. apply N1. apply in_map_iff in H as (y & E & Y). apply filter_In in Y as (Y & _). rewrite <- E. now apply in_map.
Qed.
Lemma in_change i f l x : In x (change i f l) -> In x l \/ exists g, In g l /\ x = f g.
Proof.
  revert i; induction l as [|y r IH]; intros [|i]; cbn; try tauto.
  - intros [<-|H]; [right; exists y; auto|auto].
  - intros [<-|H]; [auto|]. destruct (IH i H) as [H1|(g & H1 & H2)]; [auto|]. right. exists g. auto.
Qed.
Lemma consume_inv v s live h p : (v < length (h_verts h))%nat -> s <> st_final -> Inv live h -> In (p_id p) (map p_id live) ->
  Inv (without (p_id p) live) (consume v s h p).
Proof.
  intros V S (F & N & B & C & D & M & W) X. apply in_map_iff in X as (p0 & E0 & P0).
  destruct (B p0 P0) as (i & g & A1 & A2 & A3 & A4 & A5). rewrite E0 in A1. rewrite (consume_eq v s h p i A1).
  unfold Inv; cbn [h_full h_gens h_verts h_map]. splits.
  - exact F.
  - now apply nodup_map_filter.
  - intros q Q. apply in_without in Q as (Q & Q2). destruct (B q Q) as (j & g' & B1 & B2 & B3). exists j, g'. split; [exact B1|]. split; [|exact B3].
    rewrite change_other; [exact B2|]. intros ->. apply Q2. rewrite <- E0. apply C; auto. congruence.
  - intros q r Q R0. apply in_without in Q as (Q & _). apply in_without in R0 as (R0 & _). now apply C.
  - intros j g' G S'. destruct (Nat.eq_dec i j) as [<-|J].
    + rewrite (change_at i _ _ g A2) in G. injection G as <-. cbn in S'. contradiction.
    + rewrite change_other in G by exact J. destruct (D j g' G S') as (q & Q1 & Q2). exists q. split; [|exact Q2]. apply in_without. split; [exact Q1|].
      intros E. rewrite E, A1 in Q2. congruence.
  - intros k j. rewrite change_length. apply M.
  - intros g' w G E. apply in_change in G as [G|(g0 & G & ->)]; [exact (W g' w G E)|]. cbn in E. destruct E as [E|E]; [injection E as <-; exact V|].
    apply (W g0 w G). now right.
Qed.
Lemma consume_full v s h p : h_full (consume v s h p) = h_full h.
Proof. unfold consume, find_or_make, make_register, make_gen. now destruct (find_id _ _). Qed.
Lemma consume_verts v s h p : h_verts (consume v s h p) = h_verts h.
Proof. unfold consume, find_or_make, make_register, make_gen. now destruct (find_id _ _). Qed.
