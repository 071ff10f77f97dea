(** C116: the end of an event with a fluid. *)
From Coq Require Import ZArith List Bool Reals Lia Lra Permutation.
Import ListNotations.
From Verif Require Import Base VecModel ActionsModel FluidModel FluidProps.
Open Scope Z_scope.

(** * Specification *)

(** [q] is the same particle as [p] seen earlier (or later) on its straight line:
    same species, same momentum, and p = q + (1, v) * (time between). *)
Definition same_line (p q : part) : Prop :=
  f_type q = f_type p /\ f_mom q = f_mom p
  /\ let dt := (y0 (f_pos p) - y0 (f_pos q))%R in
     f_pos p = V4 (y0 (f_pos q) + dt)
                  (y1 (f_pos q) + dt * x1 (velocity (f_mom p)))
                  (y2 (f_pos q) + dt * x2 (velocity (f_mom p)))
                  (y3 (f_pos q) + dt * x3 (velocity (f_mom p)))%R.

(** A corona particle that has interacted, but not just now. *)
Definition goes_back (p : part) : Prop :=
  f_core p = false /\ f_ncoll p <> 0 /\ y0 (f_pos p) <> f_tlast p.
(** A particle that stays as it is: not core, and a spectator or just created. *)
Definition stays (p : part) : Prop :=
  f_core p = false /\ (f_ncoll p = 0 \/ y0 (f_pos p) = f_tlast p).

(** * Auxiliary facts *)

Lemma moved_back_true p : moved_back p = true <-> f_ncoll p <> 0 /\ y0 (f_pos p) <> f_tlast p.
Proof.
  unfold moved_back. rewrite andb_true_iff, !negb_true_iff, Z.eqb_neq.
  destruct (Req_EM_T _ _); split; intros (A & B); split; auto; try discriminate; try contradiction.
Qed.
Lemma moved_back_false p : moved_back p = false <-> f_ncoll p = 0 \/ y0 (f_pos p) = f_tlast p.
Proof.
  pose proof (moved_back_true p). destruct (moved_back p).
  - destruct (proj1 H eq_refl). split; [discriminate|tauto].
  - split; [intros _|reflexivity].
    destruct (Z.eq_dec (f_ncoll p) 0) as [|N]; [left; assumption|right].
    destruct (Req_EM_T (y0 (f_pos p)) (f_tlast p)) as [|M]; [assumption|].
    exfalso. assert (false = true) by (apply H; split; assumption). discriminate.
Qed.

Definition removed (l : list fact) : list part :=
  flat_map (fun a => match a with Remove p => [p] | _ => [] end) l.
Definition added (l : list fact) : list part :=
  flat_map (fun a => match a with Add p => [p] | _ => [] end) l.
Definition no_decay (l : list fact) : Prop :=
  forall a, In a l -> match a with Decay _ _ => False | _ => True end.

(** what becomes of an added particle, up to its id and process id *)
Definition entered (p q : part) : Prop :=
  f_type q = f_type p /\ f_pos q = f_pos p /\ f_mom q = f_mom p /\ f_core q = f_core p
  /\ f_ncoll q = f_ncoll p + 1 /\ f_tlast q = y0 (f_pos p) /\ f_weight q = f_weight p.

Definition ids_ok (s : final_state) : Prop :=
  NoDup (map f_id (parts s)) /\ Forall (fun p => f_id p < next_id s) (parts s).

Definition keep (ids : list Z) (p : part) : bool := negb (existsb (Z.eqb (f_id p)) ids).

Lemma keep_spec ids p : keep ids p = true <-> ~ In (f_id p) ids.
Proof.
  unfold keep. rewrite negb_true_iff. split.
  - intros E I. assert (existsb (Z.eqb (f_id p)) ids = true); [|congruence].
    apply existsb_exists. exists (f_id p). split; [assumption|apply Z.eqb_refl].
  - intro N. destruct (existsb _ ids) eqn:E; [|reflexivity]. exfalso. apply N.
    apply existsb_exists in E. destruct E as (i & I & E). apply Z.eqb_eq in E. subst. assumption.
Qed.

Lemma present_in st p : In p st -> present st p = true.
Proof. intro I. apply existsb_exists. exists p. rewrite !Z.eqb_refl. split; [assumption|reflexivity]. Qed.

Lemma filter_filter' {A} (f g : A -> bool) l : filter f (filter g l) = filter (fun x => g x && f x) l.
Proof. induction l; cbn; [reflexivity|]. destruct (g a); cbn; [destruct (f a)|]; rewrite IHl; reflexivity. Qed.
Lemma filter_all {A} (f : A -> bool) l : (forall x, In x l -> f x = true) -> filter f l = l.
Proof. induction l; cbn; intro H; [reflexivity|]. rewrite (H a) by (left; reflexivity). f_equal. apply IHl. intros; apply H; right; assumption. Qed.

Lemma nodup_ids_filter (f : part -> bool) l : NoDup (map f_id l) -> NoDup (map f_id (filter f l)).
Proof.
  induction l as [|p l IH]; cbn; intro N; [constructor|]. inversion N; subst.
  destruct (f p); cbn; [|auto]. constructor; [|auto]. intro I. apply H1.
  apply in_map_iff in I. destruct I as (q & E & I). apply filter_In in I. rewrite <- E. apply in_map. tauto.
Qed.

(** performing removals of present, different particles and additions, in any
    order *)
Lemma perform_all l : forall s, ids_ok s -> no_decay l ->
  NoDup (map f_id (removed l)) -> incl (removed l) (parts s) ->
  exists A, parts (fold_left perform l s) = filter (keep (map f_id (removed l))) (parts s) ++ A
    /\ Forall2 entered (added l) A
    /\ inter (fold_left perform l s) = inter s + Z.of_nat (length l)
    /\ ids_ok (fold_left perform l s).
Proof.
  induction l as [|a l IH]; intros s (ND & LT) NDC NR IN.
  - exists []. cbn [fold_left removed added flat_map map length]. splits.
    + rewrite app_nil_r, filter_all; [reflexivity|]. intros. apply keep_spec. intros [].
    + constructor.
    + lia.
    + split; assumption.
  - assert (NDC' : no_decay l) by (intros b B; apply NDC; right; assumption).
    pose proof (NDC a (or_introl eq_refl)) as DA.
    destruct a as [p|p|p ds]; [| |contradiction]; cbn [fold_left removed added flat_map app map] in *; fold (removed l) (added l) in *.
    + (* removal *)
      assert (IP : In p (parts s)) by (apply IN; left; reflexivity).
      assert (PF : perform s (Remove p) = FS (without p (parts s)) (next_id s) (inter s + 1)).
      { unfold perform. cbn [incoming forallb outgoing map fold_right put_in length].
        rewrite (present_in _ _ IP). cbn [andb]. rewrite app_nil_r, Z.add_0_r. reflexivity. }
      rewrite PF. inversion NR as [|? ? NI NR']; subst.
      destruct (IH (FS (without p (parts s)) (next_id s) (inter s + 1))) as (A & E & F & G & K).
      * split; cbn [parts next_id].
        -- apply nodup_ids_filter. assumption.
        -- apply Forall_forall. intros q Q. apply filter_In in Q. rewrite Forall_forall in LT. apply LT. tauto.
      * assumption.
      * assumption.
      * intros q Q. cbn [parts]. apply filter_In. split; [apply IN; right; assumption|].
        apply negb_true_iff, Z.eqb_neq. intro E. apply NI. rewrite <- E. apply in_map. assumption.
      * exists A. cbn [parts inter] in *. splits.
        -- rewrite E. f_equal. unfold without. rewrite filter_filter'. apply filter_ext. intro q.
           unfold keep. cbn [existsb map]. rewrite negb_orb. reflexivity.
        -- assumption.
        -- rewrite G. cbn [length]. lia.
        -- assumption.
    + (* addition *)
      set (q := with_id (next_id s) (stamp (inter s + 1) PFreeforall (y0 (f_pos p))
                 (set_pos (add4 (f_pos p) (V4 (1 * (y0 (f_pos p) - y0 (f_pos p)))
                     (x1 (velocity (f_mom p)) * (y0 (f_pos p) - y0 (f_pos p)))
                     (x2 (velocity (f_mom p)) * (y0 (f_pos p) - y0 (f_pos p)))
                     (x3 (velocity (f_mom p)) * (y0 (f_pos p) - y0 (f_pos p))))%R) (set_form (y0 (f_pos p)) p)))).
      assert (PF : perform s (Add p) = FS (parts s ++ [q]) (next_id s + 1) (inter s + 1)) by reflexivity.
      rewrite PF.
      assert (EQ : entered p q).
      { unfold entered, q. cbn. splits; try reflexivity. destruct (f_pos p) as [a b c d]. cbn. unfold add4. cbn. f_equal; ring. }
      destruct (IH (FS (parts s ++ [q]) (next_id s + 1) (inter s + 1))) as (A & E & F & G & K).
      * split; cbn [parts next_id].
        -- rewrite map_app. cbn [map]. apply NoDup_app_remove_l || idtac.
           apply Permutation_NoDup with (l := f_id q :: map f_id (parts s)).
           ++ apply Permutation_cons_append.
           ++ constructor; [|assumption]. intro I. apply in_map_iff in I. destruct I as (r & E & I).
              rewrite Forall_forall in LT. apply LT in I. unfold q in E. cbn in E. lia.
        -- apply Forall_app. split.
           ++ eapply Forall_impl; [|exact LT]. cbn. intros; lia.
           ++ constructor; [unfold q; cbn; lia|constructor].
      * assumption.
      * assumption.
      * intros r I. cbn [parts]. apply in_or_app. left. apply IN. assumption.
      * exists (q :: A). cbn [parts inter] in *. splits.
        -- rewrite E, filter_app. cbn [filter].
           assert (keep (map f_id (removed l)) q = true) as ->.
           { apply keep_spec. intro I. apply in_map_iff in I. destruct I as (r & E1 & I). apply IN in I.
             rewrite Forall_forall in LT. apply LT in I. unfold q in E1. cbn in E1. lia. }
           rewrite <- app_assoc. reflexivity.
        -- constructor; assumption.
        -- rewrite G. cbn [length]. lia.
        -- assumption.
Qed.

Lemma perm_removed l l' : Permutation l l' -> Permutation (removed l) (removed l').
Proof. apply Permutation_flat_map. Qed.
Lemma perm_added l l' : Permutation l l' -> Permutation (added l) (added l').
Proof. apply Permutation_flat_map. Qed.

Lemma nodup_map_filter_ids {A} (f : A -> bool) (g : A -> Z) l : NoDup (map g l) -> NoDup (map g (filter f l)).
Proof.
  induction l as [|p l IH]; cbn; intro N; [constructor|]. inversion N; subst.
  destruct (f p); cbn; [|auto]. constructor; [|auto]. intro I. apply H1.
  apply in_map_iff in I. destruct I as (q & E & I). apply filter_In in I. rewrite <- E. apply in_map. tauto.
Qed.

Lemma keep_others (f : part -> bool) l : NoDup (map f_id l) ->
  filter (keep (map f_id (filter f l))) l = filter (fun p => negb (f p)) l.
Proof.
  intro N. apply filter_ext_in. intros p I.
  destruct (f p) eqn:F; cbn [negb].
  - destruct (keep _ p) eqn:K; [|reflexivity]. exfalso. apply keep_spec in K. apply K.
    apply in_map, filter_In. split; assumption.
  - apply keep_spec. intro J. apply in_map_iff in J. destruct J as (q & E & J). apply filter_In in J.
    destruct J as (J & FQ).
    assert (p = q); [|congruence].
    clear -N I J E. revert I J. induction l as [|r l IH]; intros I J; [contradiction|].
    cbn in N. inversion N; subst.
    destruct I as [<-|I], J as [<-|J]; [reflexivity| | |auto].
    + exfalso. apply H1. rewrite <- E. apply in_map. assumption.
    + exfalso. apply H1. rewrite E. apply in_map. assumption.
Qed.

(** one pass: what is found, and what is left *)
Lemma pass_core order s : ids_ok s -> (forall l, Permutation (order l) l) -> existsb f_core (parts s) = true ->
  exists found s', final_pass (fun _ => []) order s = (found, s')
    /\ parts s' = filter (fun p => negb (f_core p)) (parts s)
    /\ inter s < inter s' /\ ids_ok s'.
Proof.
  intros IDS ORD CORE. unfold final_pass, fluid_final_actions. rewrite CORE. cbn [app].
  set (found := flat_map _ (parts s)). exists found, (fold_left perform (order found) s). split; [reflexivity|].
  assert (RM : removed found = filter f_core (parts s)).
  { unfold found, removed. clear. induction (parts s) as [|p l IH]; [reflexivity|]. cbn [flat_map filter].
    destruct (f_core p); cbn [app flat_map]; [f_equal|]; exact IH. }
  assert (AD : added found = []).
  { unfold found, added. clear. induction (parts s) as [|p l IH]; [reflexivity|]. cbn [flat_map].
    destruct (f_core p); cbn [app flat_map]; exact IH. }
  assert (NDC : no_decay found).
  { intros a I. unfold found in I. apply in_flat_map in I. destruct I as (p & _ & I).
    destruct (f_core p); [destruct I as [<-|[]]; exact Logic.I|contradiction]. }
  pose proof (ORD found) as PO. pose proof (perm_removed _ _ PO) as PR. pose proof (perm_added _ _ PO) as PA.
  destruct (perform_all (order found) s IDS) as (A & E & F & G & K).
  - intros a I. apply NDC. eapply Permutation_in; [exact PO|exact I].
  - eapply Permutation_NoDup; [apply Permutation_sym, Permutation_map; exact PR|].
    rewrite RM. apply nodup_ids_filter. apply IDS.
  - intros p I. eapply Permutation_in in I; [|exact PR]. rewrite RM in I. apply filter_In in I. tauto.
  - splits.
    + rewrite E. rewrite AD in PA. apply Permutation_sym, Permutation_nil in PA. rewrite PA in F.
      inversion F; subst. rewrite app_nil_r. rewrite <- keep_others by apply IDS. rewrite <- RM.
      apply filter_ext. intro p. unfold keep. f_equal.
      pose proof (Permutation_map f_id PR) as PI. clear -PI.
      destruct (existsb _ (map f_id (removed (order found)))) eqn:X;
        destruct (existsb _ (map f_id (removed found))) eqn:Y; try reflexivity; exfalso.
      * apply existsb_exists in X. destruct X as (i & I & EI). eapply Permutation_in in I; [|exact PI].
        assert (existsb (Z.eqb (f_id p)) (map f_id (removed found)) = true) by (apply existsb_exists; eauto). congruence.
      * apply existsb_exists in Y. destruct Y as (i & I & EI). eapply Permutation_in in I; [|apply Permutation_sym; exact PI].
        assert (existsb (Z.eqb (f_id p)) (map f_id (removed (order found))) = true) by (apply existsb_exists; eauto). congruence.
    + rewrite G. rewrite (Permutation_length PO).
      assert (found <> []).
      { intro N. apply existsb_exists in CORE. destruct CORE as (p & I & C).
        assert (In p (removed found)) by (rewrite RM; apply filter_In; split; assumption).
        rewrite N in H. contradiction. }
      destruct found; [congruence|]. cbn [length]. lia.
    + assumption.
Qed.

Lemma pass_corona order s : ids_ok s -> (forall l, Permutation (order l) l) -> existsb f_core (parts s) = false ->
  exists found s' A back, final_pass (fun _ => []) order s = (found, s')
    /\ parts s' = filter (fun p => negb (moved_back p)) (parts s) ++ A
    /\ Permutation back (map corona_copy (filter moved_back (parts s)))
    /\ Forall2 entered back A
    /\ ids_ok s' /\ (found = [] -> s' = s /\ existsb moved_back (parts s) = false)
    /\ (found <> [] -> inter s < inter s').
Proof.
  intros IDS ORD CORE. unfold final_pass, fluid_final_actions. rewrite CORE. cbn [app].
  set (found := flat_map _ (parts s)).
  assert (RM : removed found = filter moved_back (parts s)).
  { unfold found, removed. clear. induction (parts s) as [|p l IH]; [reflexivity|]. cbn [flat_map filter].
    destruct (moved_back p); cbn [app flat_map]; [f_equal|]; exact IH. }
  assert (AD : added found = map corona_copy (filter moved_back (parts s))).
  { unfold found, added. clear. induction (parts s) as [|p l IH]; [reflexivity|]. cbn [flat_map filter].
    destruct (moved_back p); cbn [app flat_map map]; [f_equal|]; exact IH. }
  assert (NDC : no_decay found).
  { intros a I. unfold found in I. apply in_flat_map in I. destruct I as (p & _ & I).
    destruct (moved_back p); [destruct I as [<-|[<-|[]]]; exact Logic.I|contradiction]. }
  pose proof (ORD found) as PO. pose proof (perm_removed _ _ PO) as PR. pose proof (perm_added _ _ PO) as PA.
  destruct (perform_all (order found) s IDS) as (A & E & F & G & K).
  - intros a I. apply NDC. eapply Permutation_in; [exact PO|exact I].
  - eapply Permutation_NoDup; [apply Permutation_sym, Permutation_map; exact PR|].
    rewrite RM. apply nodup_ids_filter. apply IDS.
  - intros p I. eapply Permutation_in in I; [|exact PR]. rewrite RM in I. apply filter_In in I. tauto.
  - exists found, (fold_left perform (order found) s), A, (added (order found)). splits.
    + reflexivity.
    + rewrite E. f_equal. rewrite <- keep_others by apply IDS. rewrite <- RM.
      apply filter_ext. intro p. unfold keep. f_equal.
      pose proof (Permutation_map f_id PR) as PI. clear -PI.
      destruct (existsb _ (map f_id (removed (order found)))) eqn:X;
        destruct (existsb _ (map f_id (removed found))) eqn:Y; try reflexivity; exfalso.
      * apply existsb_exists in X. destruct X as (i & I & EI). eapply Permutation_in in I; [|exact PI].
        assert (existsb (Z.eqb (f_id p)) (map f_id (removed found)) = true) by (apply existsb_exists; eauto). congruence.
      * apply existsb_exists in Y. destruct Y as (i & I & EI). eapply Permutation_in in I; [|apply Permutation_sym; exact PI].
        assert (existsb (Z.eqb (f_id p)) (map f_id (removed (order found))) = true) by (apply existsb_exists; eauto). congruence.
    + rewrite <- AD. exact PA.
    + exact F.
    + exact K.
    + intro N. rewrite N in PO. apply Permutation_sym, Permutation_nil in PO. rewrite N, PO. cbn [fold_left].
      split; [reflexivity|]. rewrite N in RM. cbn in RM. clear -RM.
      induction (parts s) as [|p l IH]; [reflexivity|]. cbn [existsb filter] in *.
      destruct (moved_back p); [discriminate|]. apply IH. assumption.
    + intro N. rewrite G, (Permutation_length PO). destruct found; [congruence|]. cbn [length]. lia.
Qed.

Lemma corona_entered_same p q : entered (corona_copy p) q ->
  same_line p q /\ y0 (f_pos q) = (f_tlast p + 1 / 100)%R /\ f_core q = false /\ moved_back q = false
  /\ f_tlast q = y0 (f_pos q).
Proof.
  unfold entered, corona_copy. cbn. intros (T & PS & M & C & N & L & _).
  splits.
  - unfold same_line. splits; [assumption|assumption|]. cbn zeta. rewrite PS. cbn.
    destruct (f_pos p) as [a b c d]. cbn. f_equal; ring.
  - rewrite PS. reflexivity.
  - assumption.
  - apply moved_back_false. right. rewrite PS, L. reflexivity.
  - rewrite PS, L. reflexivity.
Qed.

(** Without forced decays the end of an event removes exactly the core, leaves
    spectators and particles that have just interacted as they are, and puts each
    other corona particle back on its own line, at 0.01 fm after its last
    interaction: nothing is lost, nothing counted twice, whatever the order in
    which the queue hands out simultaneous actions.  Three passes suffice. *)
Theorem end_of_event order s fuel : ids_ok s -> (3 <= fuel)%nat ->
  (forall k l, Permutation (order k l) l) ->
  exists s' unchanged back news,
    final_loop fuel (fun _ => []) order s = Some (Ok s')
    /\ parts s' = unchanged ++ news
    /\ (forall p, In p unchanged <-> In p (parts s) /\ stays p) /\ NoDup unchanged
    /\ (forall p, In p back <-> In p (parts s) /\ goes_back p) /\ NoDup back
    /\ Forall2 (fun p q => same_line p q /\ y0 (f_pos q) = (f_tlast p + 1 / 100)%R /\ f_core q = false) back news.
Proof.
  intros IDS FU ORD.
  assert (NDP : forall (f : part -> bool) l, NoDup (map f_id l) -> NoDup (filter f l)).
  { intros f l N. apply NoDup_filter. eapply NoDup_map_inv. exact N. }
  (* the corona pass and the pass after it, from any state without core *)
  assert (CORONA : forall fuel s, ids_ok s -> (2 <= fuel)%nat -> existsb f_core (parts s) = false ->
    exists s' unchanged back news,
    final_loop fuel (fun _ => []) order s = Some (Ok s')
    /\ parts s' = unchanged ++ news
    /\ (forall p, In p unchanged <-> In p (parts s) /\ stays p) /\ NoDup unchanged
    /\ (forall p, In p back <-> In p (parts s) /\ goes_back p) /\ NoDup back
    /\ Forall2 (fun p q => same_line p q /\ y0 (f_pos q) = (f_tlast p + 1 / 100)%R /\ f_core q = false) back news).
  { clear s fuel IDS FU. intros fuel s IDS FU NC.
    assert (NC' : forall p, In p (parts s) -> f_core p = false).
    { intros p I. destruct (f_core p) eqn:C; [|reflexivity]. exfalso.
      assert (existsb f_core (parts s) = true) by (apply existsb_exists; eauto). congruence. }
    destruct fuel as [|fuel]; [lia|]. destruct fuel as [|fuel]; [lia|]. clear FU.
    destruct (pass_corona (order (S fuel)) s IDS (ORD _) NC) as (found & s1 & A & back' & E1 & PT & PB & FA & IDS1 & N0 & N1).
    (* the particles that go back, in the order in which they were added *)
    assert (exists back, Permutation back (filter moved_back (parts s)) /\ map corona_copy back = back') as (back & PBK & MB).
    { apply Permutation_sym in PB. destruct (Permutation_map_inv _ _ (Permutation_sym PB)) as (bk & EB & PP).
      exists bk. split; [apply Permutation_sym; exact PP|symmetry; exact EB]. }
    assert (F2 : Forall2 (fun p q => same_line p q /\ y0 (f_pos q) = (f_tlast p + 1 / 100)%R /\ f_core q = false) back A
                 /\ Forall (fun q => f_core q = false /\ moved_back q = false) A).
    { rewrite <- MB in FA. clear -FA. revert A FA. induction back as [|p back IH]; intros A FA; cbn in FA; inversion FA; subst.
      - split; constructor.
      - destruct (IH _ H3) as (X & Y). destruct (corona_entered_same _ _ H1) as (S1 & S2 & S3 & S4 & _).
        split; constructor; auto. }
    destruct F2 as (F2 & FC).
    assert (UN : forall p, In p (filter (fun p => negb (moved_back p)) (parts s)) <-> In p (parts s) /\ stays p).
    { intro p. rewrite filter_In, negb_true_iff, moved_back_false. unfold stays. split.
      - intros (I & H). splits; auto.
      - intros (I & _ & H). split; assumption. }
    assert (BK : forall p, In p back <-> In p (parts s) /\ goes_back p).
    { intro p. unfold goes_back. split.
      - intro I. eapply Permutation_in in I; [|exact PBK]. apply filter_In in I. destruct I as (I & M).
        apply moved_back_true in M. splits; auto; tauto.
      - intros (I & _ & M). eapply Permutation_in; [apply Permutation_sym; exact PBK|]. apply filter_In.
        split; [assumption|]. apply moved_back_true. assumption. }
    assert (NB : NoDup back).
    { eapply Permutation_NoDup; [apply Permutation_sym; exact PBK|]. apply NDP. apply IDS. }
    cbn [final_loop]. rewrite E1.
    destruct found as [|a found].
    - destruct (N0 eq_refl) as (-> & NM). rewrite Z.ltb_irrefl. cbn [negb andb].
      exists s, (filter (fun p => negb (moved_back p)) (parts s)), back, A. splits; auto.
      apply NDP. apply IDS.
    - assert (LT : inter s <? inter s1 = true) by (apply Z.ltb_lt; apply N1; discriminate).
      rewrite LT. cbn [negb andb].
      assert (NC1 : existsb f_core (parts s1) = false).
      { destruct (existsb f_core (parts s1)) eqn:X; [|reflexivity]. exfalso. apply existsb_exists in X.
        destruct X as (q & I & C). rewrite PT in I. apply in_app_or in I. destruct I as [I|I].
        - apply filter_In in I. rewrite NC' in C by tauto. discriminate.
        - rewrite Forall_forall in FC. destruct (FC q I). congruence. }
      destruct (pass_corona (order fuel) s1 IDS1 (ORD _) NC1) as (found2 & s2 & A2 & back2 & E2 & PT2 & PB2 & FA2 & IDS2 & N02 & N12).
      assert (found2 = []) as ->.
      { unfold final_pass in E2. injection E2 as E2 _. cbn [app] in E2. rewrite <- E2. unfold fluid_final_actions. rewrite NC1.
        assert (Z0 : forall q, In q (parts s1) -> moved_back q = false).
        { intros q I. rewrite PT in I. apply in_app_or in I. destruct I as [I|I].
          - apply filter_In in I. apply negb_true_iff. tauto.
          - rewrite Forall_forall in FC. apply FC. assumption. }
        clear -Z0. induction (parts s1) as [|q l IH]; [reflexivity|]. cbn [flat_map].
        rewrite Z0 by (left; reflexivity). apply IH. intros; apply Z0; right; assumption. }
      destruct (N02 eq_refl) as (-> & _). rewrite E2, Z.ltb_irrefl. cbn [negb andb].
      exists s1, (filter (fun p => negb (moved_back p)) (parts s)), back, A. splits; auto.
      apply NDP. apply IDS. }
  destruct (existsb f_core (parts s)) eqn:CORE.
  - destruct fuel as [|fuel]; [lia|].
    destruct (pass_core (order fuel) s IDS (ORD _) CORE) as (found & s1 & E1 & PT & LT & IDS1).
    cbn [final_loop]. rewrite E1. apply Z.ltb_lt in LT. rewrite LT. cbn [negb andb].
    assert (NC1 : existsb f_core (parts s1) = false).
    { destruct (existsb f_core (parts s1)) eqn:X; [|reflexivity]. exfalso. apply existsb_exists in X.
      destruct X as (q & I & C). rewrite PT in I. apply filter_In in I. destruct I as (_ & I). rewrite C in I. discriminate. }
    destruct (CORONA fuel s1 IDS1 ltac:(lia) NC1) as (s' & un & bk & nw & E & P1 & P2 & P3 & P4 & P5 & P6).
    exists s', un, bk, nw. splits; auto.
    + intro p. rewrite P2, PT, filter_In, negb_true_iff. unfold stays. tauto.
    + intro p. rewrite P4, PT, filter_In, negb_true_iff. unfold goes_back. tauto.
  - apply CORONA; auto. lia.
Qed.
Print Assumptions end_of_event.

Definition total (g : Z -> vec4 -> R) (l : list part) : R :=
  fold_right (fun p r => (g (f_type p) (f_mom p) + r)%R) 0%R l.

(** Consequently charge, energy, momentum or anything else that is a sum over
    species and momenta is, after the end of the event, that of the particles
    outside the core. *)
Theorem end_of_event_conserves g order s fuel : ids_ok s -> (3 <= fuel)%nat ->
  (forall k l, Permutation (order k l) l) ->
  exists s', final_loop fuel (fun _ => []) order s = Some (Ok s')
    /\ total g (parts s') = total g (filter (fun p => negb (f_core p)) (parts s)).
Proof.
  intros IDS FU ORD. destruct (end_of_event order s fuel IDS FU ORD) as (s' & un & bk & nw & E & P1 & P2 & P3 & P4 & P5 & P6).
  exists s'. split; [assumption|].
  assert (APP : forall a b, total g (a ++ b) = (total g a + total g b)%R).
  { clear. intros a b. unfold total. induction a; cbn; [ring|]. rewrite IHa. ring. }
  assert (PER : forall a b, Permutation a b -> total g a = total g b).
  { clear. intros a b H. unfold total. induction H; cbn; try lra. }
  rewrite P1, APP.
  assert (total g nw = total g bk) as ->.
  { clear -P6. induction P6; [reflexivity|]. unfold total in *. cbn. rewrite IHP6.
    destruct H as ((T & M & _) & _). rewrite T, M. reflexivity. }
  rewrite <- APP. apply PER. apply NoDup_Permutation.
  - assert (forall p, In p un -> ~ In p bk).
    { intros p I J. apply P2 in I. apply P4 in J. unfold stays, goes_back in *. tauto. }
    clear -P3 P5 H. induction un as [|p un IH]; [assumption|]. inversion P3; subst. cbn. constructor.
    + rewrite in_app_iff. intros [I|I]; [contradiction|]. exact (H p (or_introl eq_refl) I).
    + apply IH; [assumption|]. intros q I. apply H. right. assumption.
  - apply NoDup_filter. eapply NoDup_map_inv. apply IDS.
  - intro p. rewrite in_app_iff, P2, P4, filter_In, negb_true_iff. unfold stays, goes_back.
    destruct (Z.eq_dec (f_ncoll p) 0), (Req_EM_T (y0 (f_pos p)) (f_tlast p)); tauto.
Qed.
Print Assumptions end_of_event_conserves.

Definition e_part (i : Z) (ty : Z) (E t last : R) (core : bool) : part :=
  P i 7 ty (V4 t 0 0 0) (V4 E 0 0 0) 0 0 1 core 1 last PTwoToTwo 1.

Example end_applies : ids_ok (FS [e_part 0 211 1 100 10 false; e_part 1 113 2 100 11 true] 2 7).
Proof. split; cbn; [repeat constructor; cbn; intuition lia|repeat constructor; cbn; lia]. Qed.

(** With decays forced at the end (the default) and no core, a resonance of the
    corona is found twice: to decay, and to be moved back.  The added copy comes
    first in time; the decay and the removal are simultaneous, and the queue may
    hand out the decay first - it does for this event of one stable particle and
    one resonance: then both the daughters and the copy of their mother are in
    the final state. *)
Theorem resonance_counted_twice_refuted :
  let pi := e_part 0 211 1 100 10 false in
  let rho := e_part 1 113 2 100 11 false in
  let d1 := e_part (-1) 211 1 100 0 false in
  let d2 := e_part (-1) (-211) 1 100 0 false in
  let decays st := flat_map (fun p => if f_type p =? 113 then [Decay p [d1; d2]] else []) st in
  let s := FS [pi; rho] 2 7 in
  (* what is found, with the times in units of 0.01 fm: *)
  let found := [Decay rho [d1; d2]; Remove pi; Add (corona_copy pi); Remove rho; Add (corona_copy rho)] in
  let queue := insert_all [] [Action 0 10000; Action 1 10000; Action 2 1001; Action 3 10000; Action 4 1101] in
  decays (parts s) ++ fluid_final_actions (parts s) = found
  /\ map time_of found = [100; 100; 10 + 1/100; 100; 11 + 1/100]%R
  (* the order in which the queue hands them out: *)
  /\ fst (run queue [Pop; Pop; Pop; Pop; Pop])
     = map Popped [Action 2 1001; Action 4 1101; Action 0 10000; Action 3 10000; Action 1 10000]
  /\ (forall order, order found = [Add (corona_copy pi); Add (corona_copy rho); Decay rho [d1; d2]; Remove rho; Remove pi] ->
        exists s', final_pass decays order s = (found, s')
          /\ total (fun _ m => y0 m) (parts s) = 3%R
          /\ total (fun _ m => y0 m) (parts s') = 5%R
          /\ map f_type (parts s') = [211; 113; 211; -211]).
Proof.
  intros pi rho d1 d2 decays s found queue.
  assert (MB : moved_back pi = true /\ moved_back rho = true).
  { split; apply moved_back_true; cbn; (split; [lia|lra]). }
  destruct MB as (M1 & M2).
  assert (F : decays (parts s) ++ fluid_final_actions (parts s) = found).
  { unfold fluid_final_actions. cbn [s parts existsb]. change (f_core pi) with false. change (f_core rho) with false.
    cbn [orb flat_map]. rewrite M1, M2. reflexivity. }
  splits.
  - exact F.
  - reflexivity.
  - vm_compute. reflexivity.
  - intros order O. unfold final_pass. rewrite F, O.
    eexists. split; [reflexivity|]. splits.
    + unfold total. cbn. lra.
    + unfold total. cbn. lra.
    + reflexivity.
Qed.
Print Assumptions resonance_counted_twice_refuted.

(** A particle whose last interaction is less than 0.01 fm ago is moved to a time
    AFTER the end of the event. *)
Theorem moved_forward_refuted :
  exists p, goes_back p /\ (f_tlast p < y0 (f_pos p) < y0 (f_pos (corona_copy p)))%R.
Proof.
  exists (e_part 0 211 1 100 (100 - 1/200) false). unfold goes_back. cbn. splits; try reflexivity; try lia; try lra.
Qed.
Print Assumptions moved_forward_refuted.

(** The copy does not carry the perturbative weight of heavy-flavour particles
    over. *)
Theorem weight_lost_refuted :
  exists p, goes_back p /\ f_weight (corona_copy p) <> f_weight p.
Proof.
  exists (P 0 7 411 (V4 100 0 0 0) (V4 3 0 0 0) 0 0 1 false 1 10 PTwoToTwo (1/10)).
  unfold goes_back. cbn. splits; try reflexivity; try lia; try lra.
Qed.
Print Assumptions weight_lost_refuted.

(** An action on a particle that has been removed or has interacted in the meantime is not performed. *)
Theorem stale_skipped s a p : In p (incoming a) ->
  (forall q, In q (parts s) -> f_id q = f_id p -> f_idproc q <> f_idproc p) -> perform s a = s.
Proof.
  intros I N. unfold perform. destruct (forallb _ _) eqn:E; auto. exfalso. rewrite forallb_forall in E. apply E in I. unfold present in I. apply existsb_exists in I as (q & Q & X).
  apply andb_true_iff in X as (X1 & X2). apply Z.eqb_eq in X1, X2. exact (N q Q X1 X2).
Qed.
Print Assumptions stale_skipped.
Example stale_skipped_ex : perform (FS [e_part 0 211 1 100 10 false; e_part 1 211 1 100 10 false] 2 7) (Remove (e_part 5 211 1 100 10 false)) = FS [e_part 0 211 1 100 10 false; e_part 1 211 1 100 10 false] 2 7.
Proof. reflexivity. Qed.
