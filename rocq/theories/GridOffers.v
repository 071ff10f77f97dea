(** From cells to the pairs offered to the collision finder. *)
From Coq Require Import ZArith Reals List Bool Lia Lra Psatz Sorting.Permutation.
From Flocq Require Import Core.
From Verif Require Import Base Flt GridModel GridProofs GridPeriodic GridBuild.
Import ListNotations.
Open Scope Z_scope.

Lemma mapM_ok A B (f : A -> res B) (g : A -> B) l :
  (forall a, In a l -> f a = Ok (g a)) -> mapM f l = Ok (map g l).
Proof.
  induction l; intros H; cbn [mapM map]; auto. rewrite H by now left. cbn [rbind].
  rewrite IHl by (intros; apply H; now right). reflexivity.
Qed.

Lemma id_inj es p q : NoDup (map g_id es) -> In p es -> In q es -> g_id p = g_id q -> p = q.
Proof.
  induction es as [|a es IH]; cbn; intros N P Q E; [destruct P|].
  inversion N as [|? ? N1 N2]; subst.
  destruct P as [->|P], Q as [->|Q]; auto.
  - exfalso. apply N1. rewrite E. now apply in_map.
  - exfalso. apply N1. rewrite <- E. now apply in_map.
Qed.
Lemma NoDup_of_ids es : NoDup (map g_id es) -> NoDup es.
Proof.
  induction es; cbn; intros N; constructor; inversion N; subst; auto.
  intros H. apply H1. now apply in_map.
Qed.
Lemma NoDup_filter A (f : A -> bool) l : NoDup l -> NoDup (filter f l).
Proof.
  induction 1; cbn; [constructor|]. destruct (f x); auto. constructor; auto.
  rewrite filter_In. tauto.
Qed.

Lemma in_in_cell c x w y : In (x, w, y) (in_cell c) <->
  exists p q, In p c /\ In q c /\ g_id p = x /\ g_id q = y /\ w = (0, 0, 0) /\ x < y.
Proof.
  unfold in_cell. rewrite in_flat_map. split.
  - intros (p & P & H). apply in_flat_map in H. destruct H as (q & Q & H).
    destruct (Z.ltb_spec (g_id p) (g_id q)); [|destruct H]. destruct H as [H|[]].
    exists p, q. assert (x = g_id p) by congruence. assert (y = g_id q) by congruence. subst x y.
    repeat split; auto; congruence.
  - intros (p & q & P & Q & <- & <- & -> & L). exists p. split; auto. apply in_flat_map.
    exists q. split; auto. destruct (Z.ltb_spec (g_id p) (g_id q)); [now left|lia].
Qed.
Lemma in_with_neighbors c s c' x w y : In (x, w, y) (with_neighbors c s c') <->
  exists p q, In p c /\ In q c' /\ g_id p = x /\ g_id q = y /\ w = s.
Proof.
  unfold with_neighbors. rewrite in_flat_map. split.
  - intros (p & P & H). apply in_map_iff in H. destruct H as (q & E & Q).
    exists p, q. repeat split; auto; congruence.
  - intros (p & q & P & Q & <- & <- & ->). exists p. split; auto. apply in_map_iff. exists q; auto.
Qed.

Section Offers.
Context (cells : list (list gpart)) (N : Z) (ix : gpart -> Z) (es : list gpart) (K : list call).
Context (F : filed cells N ix es) (ND : NoDup (map g_id es)) (NK : NoDup K).
Context (KS : forall i, In (Search i) K <-> 0 <= i < N).
Context (KP : forall i w j, In (Pair i w j) K -> 0 <= i < N /\ 0 <= j < N /\ ~ (i = j /\ w = (0, 0, 0))).

Let cl i := filter (fun p => ix p =? i) es.
Let g k := match k with Search i => in_cell (cl i) | Pair i w j => with_neighbors (cl i) w (cl j) end.

Lemma cell_ok i : 0 <= i < N -> cell cells i = Ok (cl i).
Proof.
  intros H. destruct F as (_ & _ & C). unfold cell. destruct (Z.ltb_spec i 0); [lia|]. now rewrite C.
Qed.
Lemma in_cl p i : In p (cl i) <-> In p es /\ ix p = i.
Proof. unfold cl. rewrite filter_In, Z.eqb_eq. reflexivity. Qed.
Lemma NoDup_cl i : NoDup (cl i).
Proof. apply NoDup_filter. now apply NoDup_of_ids. Qed.

Lemma calls_ok : mapM (do_call cells) K = Ok (map g K).
Proof.
  apply mapM_ok. intros [i|i w j] H; unfold do_call, g.
  - rewrite cell_ok by now apply KS. reflexivity.
  - destruct (KP _ _ _ H) as (Hi & Hj & _). rewrite !cell_ok by auto. reflexivity.
Qed.

Lemma in_g k x w y : In (x, w, y) (g k) ->
  exists p q, In p es /\ In q es /\ g_id p = x /\ g_id q = y /\
   ((k = Search (ix p) /\ ix p = ix q /\ w = (0, 0, 0) /\ x < y) \/ k = Pair (ix p) w (ix q)).
Proof.
  unfold g. destruct k as [i|i s j]; intros H.
  - apply in_in_cell in H. destruct H as (p & q & P & Q & <- & <- & -> & L).
    apply in_cl in P, Q. destruct P as [P <-], Q as [Q E]. exists p, q. repeat split; auto.
  - apply in_with_neighbors in H. destruct H as (p & q & P & Q & <- & <- & ->).
    apply in_cl in P, Q. destruct P as [P <-], Q as [Q <-]. exists p, q. repeat split; auto.
Qed.

Lemma in_offers x w y : In (x, w, y) (flat_map g K) <->
  exists p q, In p es /\ In q es /\ g_id p = x /\ g_id q = y /\
    ((ix p = ix q /\ w = (0, 0, 0) /\ x < y) \/ In (Pair (ix p) w (ix q)) K).
Proof.
  rewrite in_flat_map. split.
  - intros (k & Hk & H). apply in_g in H. destruct H as (p & q & P & Q & X & Y & [(E & S)|E]);
    exists p, q; subst k; repeat split; auto.
  - intros (p & q & P & Q & X & Y & [(E & W & L)|H]).
    + exists (Search (ix p)). split. { apply KS. now apply F. }
      apply in_in_cell. exists p, q. rewrite !in_cl. subst. repeat split; auto.
    + exists (Pair (ix p) w (ix q)). split; auto. apply in_with_neighbors. exists p, q. rewrite !in_cl. auto.
Qed.

Lemma NoDup_offers : NoDup (flat_map g K).
Proof.
  apply NoDup_flat_map; auto.
  - intros [i|i w j] H; unfold g.
    + unfold in_cell. apply NoDup_flat_map; [apply NoDup_cl| |].
      * intros p P. apply NoDup_flat_map; [apply NoDup_cl| |].
        -- intros q _. destruct (_ <? _); repeat constructor; cbn; tauto.
        -- intros q q' o Q Q' O O'. destruct (_ <? _); [|destruct O]. destruct (_ <? _); [|destruct O'].
           destruct O as [<-|[]], O' as [O'|[]]. apply in_cl in Q, Q'.
           apply (id_inj es); try tauto. congruence.
      * intros p p' o P P' O O'. apply in_flat_map in O, O'. destruct O as (q & _ & O), O' as (q' & _ & O').
        destruct (_ <? _); [|destruct O]. destruct (_ <? _); [|destruct O'].
        destruct O as [<-|[]], O' as [O'|[]]. apply in_cl in P, P'.
        apply (id_inj es); try tauto. congruence.
    + unfold with_neighbors. apply NoDup_flat_map; [apply NoDup_cl| |].
      * intros p P. assert (X : forall l, NoDup l -> (forall q, In q l -> In q es) -> NoDup (map (fun q => (g_id p, w, g_id q)) l)).
        { induction 1; cbn; intros; constructor; auto. rewrite in_map_iff. intros (q & E & Q).
          assert (q = x); [|congruence]. apply (id_inj es); auto. congruence. }
        apply X; [apply NoDup_cl|]. intros q Q. apply in_cl in Q. tauto.
      * intros p p' o P P' O O'. apply in_map_iff in O, O'. destruct O as (q & <- & _), O' as (q' & O' & _).
        apply in_cl in P, P'. apply (id_inj es); try tauto. congruence.
  - intros k k' [[x w] y] Hk Hk' O O'. apply in_g in O, O'.
    destruct O as (p & q & P & Q & X & Y & C), O' as (p' & q' & P' & Q' & X' & Y' & C').
    assert (p' = p) by (apply (id_inj es); auto; congruence).
    assert (q' = q) by (apply (id_inj es); auto; congruence). subst p' q'.
    destruct C as [(E & I & W & L)|E], C' as [(E' & I' & W' & L')|E']; subst; auto.
    + apply KP in Hk'. exfalso. apply Hk'. auto.
    + apply KP in Hk. exfalso. apply Hk. auto.
Qed.
End Offers.

Definition offer_dec : forall a b : offer, {a = b} + {a <> b}.
Proof. unfold offer, c3. repeat decide equality. Defined.

Lemma count_in (l : list offer) o : NoDup l -> In o l -> count_occ offer_dec l o = 1%nat.
Proof.
  intros N I. now apply (proj1 (NoDup_count_occ' offer_dec l)).
Qed.
Lemma count_notin (l : list offer) o : ~ In o l -> count_occ offer_dec l o = 0%nat.
Proof. intros. now apply count_occ_not_In. Qed.

Definition neg3 (w : c3) : c3 := (- cx w, - cy w, - cz w).
Lemma neg3_0 : neg3 (0, 0, 0) = (0, 0, 0). Proof. reflexivity. Qed.
Lemma neg3_neg w : neg3 (neg3 w) = w.
Proof. unfold neg3. cbn [cx cy cz fst snd]. apply c3_eq; cbn [cx cy cz fst snd]; lia. Qed.

(** everything needed about a grid and its calls, for both kinds *)
Lemma offers_all cells N ix es K :
  filed cells N ix es -> NoDup (map g_id es) -> NoDup K ->
  (forall i, In (Search i) K <-> 0 <= i < N) ->
  (forall i w j, In (Pair i w j) K -> 0 <= i < N /\ 0 <= j < N /\ ~ (i = j /\ w = (0, 0, 0))) ->
  exists os, mapM (do_call cells) K = Ok os /\ NoDup (concat os) /\
    forall x w y, In (x, w, y) (concat os) <->
      exists p q, In p es /\ In q es /\ g_id p = x /\ g_id q = y /\
        ((ix p = ix q /\ w = (0, 0, 0) /\ x < y) \/ In (Pair (ix p) w (ix q)) K).
Proof.
  intros F ND NK KS KP. eexists. split; [exact (calls_ok cells N ix es K F KS KP)|].
  rewrite <- flat_map_concat_map. split.
  - apply (NoDup_offers N ix es K ND NK KP).
  - intros. apply (in_offers cells N ix es K F KS).
Qed.
