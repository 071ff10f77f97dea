(** C34: at most one process holds a file lock.  C33: an output file with its final name
    is complete. *)
From Coq Require Import ZArith List Bool Lia.
From Verif Require Import Base FilesModel.
Import ListNotations.

(** * Specification, in terms of what was observed: object i holds the lock if acquire
    returned true for it and it has neither been destroyed nor died *)
Definition holding (log : list lobs) (i : nat) : Prop :=
  In (OAcquired i) log /\ forall r, ~ In (OEnd i r) log.
Definition is_copy (e : lev) : bool := match e with LCopy _ _ => true | _ => false end.
Definition no_copies (es : list lev) : Prop := Forall (fun e => is_copy e = false) es.
(** before the first SMASH process starts there is no object; there may or may not be a file *)
Definition lstart (file : bool) : lsys := LSys file (fun _ => None) [].

(** * Proofs *)
Definition held (s : lsys) (i : nat) : Prop := lobjs s i = Some (LockObj true).
Record linv (s : lsys) (log : list lobs) : Prop := LInv {
  inv_file : forall i, held s i -> lfile s = true;
  inv_one : forall i j, held s i -> held s j -> i = j;
  inv_used : forall i o, lobjs s i = Some o -> In i (lused s);
  inv_hold : forall i, holding log i -> held s i;
  inv_seen : forall i, In (OAcquired i) log \/ (exists r, In (OEnd i r) log) -> In i (lused s);
  inv_acq : forall i, held s i -> In (OAcquired i) log \/ In (OThrew i) log;
  inv_alive : forall i o r, lobjs s i = Some o -> ~ In (OEnd i r) log
}.

Lemma existsb_In i l : existsb (Nat.eqb i) l = true <-> In i l.
Proof.
  rewrite existsb_exists. split.
  - intros (x & A & B). apply Nat.eqb_eq in B. subst. auto.
  - intros. exists i. split; auto. apply Nat.eqb_refl.
Qed.

Lemma existsb_not i l : existsb (Nat.eqb i) l = false -> ~ In i l.
Proof. intros H C. apply existsb_In in C. congruence. Qed.

Ltac cases i j := destruct (Nat.eqb_spec i j); [subst|].

Lemma holding_app log i x : holding (log ++ [x]) i -> (x <> OAcquired i) -> holding log i.
Proof.
  intros [A B] N. split.
  - apply in_app_iff in A. destruct A as [A|[A|[]]]; auto. congruence.
  - intros r C. apply (B r). apply in_app_iff. auto.
Qed.

Lemma in_one {A} (l : list A) x y : In y (l ++ [x]) <-> In y l \/ y = x.
Proof. rewrite in_app_iff. cbn. intuition congruence. Qed.

Lemma lstep_inv s log e s' o :
  linv s log -> is_copy e = false -> lstep s e = Some (s', o) -> linv s' (log ++ [o]).
Proof.
  intros [I1 I2 I3 I4 I5 I6 I7] NC E. destruct e as [i|i oe ce|i|i|i j]; cbn [lstep is_copy] in *; [| | | |discriminate].
  - (* new *)
    destruct (existsb _ _) eqn:X; [discriminate|]. apply existsb_not in X.
    injection E as <- <-.
    assert (H : forall j, held (LSys (lfile s) (lobjs (lset s (lfile s) i (Some lock_new))) (i :: lused s)) j -> held s j).
    { intros j. unfold held, lset. cbn [lobjs]. cases j i; [discriminate|auto]. }
    constructor; cbn [lfile lused].
    + intros j Hj. eauto.
    + intros j k Hj Hk. eauto.
    + intros j o. unfold lset. cbn [lobjs]. cases j i; [now left|]. right. eauto.
    + intros j Hj. apply holding_app in Hj; [|discriminate]. apply I4 in Hj.
      unfold held, lset in *. cbn [lobjs]. cases j i; auto. apply I3 in Hj. contradiction.
    + intros j [Hj|[r Hj]]; apply in_one in Hj; destruct Hj as [Hj|Hj]; try discriminate; right; eauto.
    + intros j Hj. destruct (I6 j (H j Hj)); [left|right]; apply in_one; auto.
    + intros j o r. unfold lset. cbn [lobjs]. intros Hj C. apply in_one in C. destruct C as [C|C]; [|discriminate].
      cases j i; [|eapply I7; eauto]. apply X. eauto.
  - (* acquire *)
    destruct (lobjs s i) as [[a]|] eqn:Oi; [|discriminate]. unfold acquire in E. cbn [acquired] in E.
    destruct a.
    + (* already acquired: throws *)
      injection E as <- <-.
      assert (H : forall j, lobjs (lset s (lfile s) i (Some (LockObj true))) j = lobjs s j).
      { intros j. unfold lset. cbn [lobjs]. cases j i; auto. }
      assert (Hu : lused (lset s (lfile s) i (Some (LockObj true))) = lused s) by reflexivity.
      assert (Hf : lfile (lset s (lfile s) i (Some (LockObj true))) = lfile s) by reflexivity.
      set (s1 := lset s (lfile s) i (Some (LockObj true))) in *. clearbody s1.
      constructor; unfold held; rewrite ?Hu, ?Hf; try setoid_rewrite H.
      * eauto.
      * eauto.
      * eauto.
      * intros j Hj. apply holding_app in Hj; [|discriminate]. now apply I4.
      * intros j [Hj|[r Hj]]; apply in_one in Hj; destruct Hj as [Hj|Hj]; try discriminate; eauto.
      * intros j Hj. destruct (I6 j Hj); [left|right]; apply in_one; auto.
      * intros j o r Hj C. apply in_one in C. destruct C as [C|C]; [|discriminate]. eapply I7; eauto.
    + destruct (lfile s || oe) eqn:F.
      * injection E as <- <-.
        assert (H : forall j, lobjs (lset s (lfile s) i (Some (LockObj false))) j = lobjs s j).
        { intros j. unfold lset. cbn [lobjs]. cases j i; auto. }
        assert (Hu : lused (lset s (lfile s) i (Some (LockObj false))) = lused s) by reflexivity.
        assert (Hf : lfile (lset s (lfile s) i (Some (LockObj false))) = lfile s) by reflexivity.
        set (s1 := lset s (lfile s) i (Some (LockObj false))) in *. clearbody s1.
        constructor; unfold held; rewrite ?Hu, ?Hf; try setoid_rewrite H.
        -- eauto.
        -- eauto.
        -- eauto.
        -- intros j Hj. apply holding_app in Hj; [|discriminate]. now apply I4.
        -- intros j [Hj|[r Hj]]; apply in_one in Hj; destruct Hj as [Hj|Hj]; try discriminate; eauto.
        -- intros j Hj. destruct (I6 j Hj); [left|right]; apply in_one; auto.
        -- intros j o r Hj C. apply in_one in C. destruct C as [C|C]; [|discriminate]. eapply I7; eauto.
      * apply orb_false_iff in F. destruct F as [F _].
        assert (NH : forall j, ~ held s j) by (intros j Hj; apply I1 in Hj; congruence).
        assert (K : s' = lset s true i (Some (LockObj true)) /\ (o = OAcquired i \/ o = OThrew i)).
        { destruct ce; injection E as <- <-; auto. }
        clear E. destruct K as [-> Ko].
        assert (H : forall j, held (lset s true i (Some (LockObj true))) j <-> j = i).
        { intros j. unfold held, lset. cbn [lobjs]. cases j i; [intuition|].
          split; [|congruence]. intros Hj. now apply NH in Hj. }
        constructor.
        -- reflexivity.
        -- intros j k Hj Hk. apply H in Hj, Hk. congruence.
        -- intros j o'. unfold lset. cbn [lobjs lused]. cases j i; eauto.
        -- intros j Hj. apply H. destruct (Nat.eq_dec j i); auto. exfalso.
           apply holding_app in Hj; [|destruct Ko; congruence]. apply I4, NH in Hj. auto.
        -- intros j [Hj|[r Hj]]; apply in_one in Hj; destruct Hj as [Hj|Hj]; cbn [lset lused]; eauto.
           ++ destruct Ko as [Ko|Ko]; rewrite Ko in Hj; [|discriminate]. injection Hj as ->. eauto.
           ++ destruct Ko as [Ko|Ko]; rewrite Ko in Hj; discriminate.
        -- intros j Hj. apply H in Hj. subst j. destruct Ko as [-> | ->]; [left|right]; apply in_one; auto.
        -- intros j o' r. unfold lset. cbn [lobjs]. intros Hj C. apply in_one in C.
           destruct C as [C|C]; [|destruct Ko; congruence].
           cases j i; [|eapply I7; eauto]. eapply I7; eauto.
  - (* destroy *)
    destruct (lobjs s i) as [[a]|] eqn:Oi; [|discriminate]. unfold lock_delete in E. cbn [acquired] in E.
    injection E as <- <-.
    set (f := if a then false else lfile s).
    assert (H : forall j, held (lset s f i None) j <-> j <> i /\ held s j).
    { intros j. unfold held, lset. cbn [lobjs]. cases j i; [intuition discriminate|intuition]. }
    constructor.
    + intros j Hj. apply H in Hj. destruct Hj as [N Hj]. cbn [lset lfile]. unfold f.
      destruct a; [exfalso|eauto]. apply N. eapply I2; eauto.
    + intros j k Hj Hk. apply H in Hj, Hk. apply I2; tauto.
    + intros j o. unfold lset. cbn [lobjs lused]. cases j i; [discriminate|eauto].
    + intros j Hj. apply H. assert (N : j <> i).
      { intros ->. destruct Hj as [_ Hj]. eapply Hj. apply in_one. right. reflexivity. }
      split; auto. apply holding_app in Hj; [now apply I4|congruence].
    + cbn [lset lused]. intros j [Hj|[r Hj]]; apply in_one in Hj; destruct Hj as [Hj|Hj]; try discriminate; eauto.
      injection Hj as -> _. eauto.
    + intros j Hj. apply H in Hj. destruct (I6 j (proj2 Hj)); [left|right]; apply in_one; auto.
    + intros j o r. unfold lset. cbn [lobjs]. cases j i; [discriminate|]. intros Hj C.
      apply in_one in C. destruct C as [C|C]; [eapply I7; eauto|congruence].
  - (* crash *)
    destruct (lobjs s i) as [[a]|] eqn:Oi; [|discriminate]. injection E as <- <-.
    assert (H : forall j, held (lset s (lfile s) i None) j <-> j <> i /\ held s j).
    { intros j. unfold held, lset. cbn [lobjs]. cases j i; [intuition discriminate|intuition]. }
    constructor.
    + intros j Hj. apply H in Hj. cbn [lset lfile]. eapply I1. apply Hj.
    + intros j k Hj Hk. apply H in Hj, Hk. apply I2; tauto.
    + intros j o. unfold lset. cbn [lobjs lused]. cases j i; [discriminate|eauto].
    + intros j Hj. apply H. assert (N : j <> i).
      { intros ->. destruct Hj as [_ Hj]. eapply Hj. apply in_one. right. reflexivity. }
      split; auto. apply holding_app in Hj; [now apply I4|congruence].
    + cbn [lset lused]. intros j [Hj|[r Hj]]; apply in_one in Hj; destruct Hj as [Hj|Hj]; try discriminate; eauto.
      injection Hj as -> _. eauto.
    + intros j Hj. apply H in Hj. destruct (I6 j (proj2 Hj)); [left|right]; apply in_one; auto.
    + intros j o r. unfold lset. cbn [lobjs]. cases j i; [discriminate|]. intros Hj C.
      apply in_one in C. destruct C as [C|C]; [eapply I7; eauto|congruence].
Qed.

Lemma lrun_inv es : forall s log0 s' log, linv s log0 -> no_copies es ->
  lrun s es = Some (s', log) -> linv s' (log0 ++ log).
Proof.
  induction es as [|e es IH]; intros s log0 s' log I N E; cbn [lrun] in E.
  - injection E as <- <-. rewrite app_nil_r. exact I.
  - destruct (lstep s e) as [[s1 o]|] eqn:E1; [|discriminate].
    destruct (lrun s1 es) as [[s2 os]|] eqn:E2; [|discriminate]. injection E as <- <-.
    inversion N; subst. rewrite (app_assoc log0 [o] os : log0 ++ o :: os = _).
    eapply IH; eauto. eapply lstep_inv; eauto.
Qed.

Lemma linv_start f : linv (lstart f) [].
Proof.
  constructor; unfold held; cbn [lstart lobjs]; try discriminate.
  - intros i [[] _].
  - intros i [[]|[r []]].
Qed.

(** the log of a run can be cut: its first part is the log of a run *)
Lemma lrun_split es : forall s s' log log1 o log2, lrun s es = Some (s', log) -> log = log1 ++ o :: log2 ->
  exists es1 e es2 s1 s2, es = es1 ++ e :: es2 /\ lrun s es1 = Some (s1, log1) /\
                          lstep s1 e = Some (s2, o) /\ lrun s2 es2 = Some (s', log2).
Proof.
  induction es as [|e es IH]; intros s s' log log1 o log2 E L; cbn [lrun] in E.
  - injection E as <- <-. destruct log1; discriminate.
  - destruct (lstep s e) as [[s1 o1]|] eqn:E1; [|discriminate].
    destruct (lrun s1 es) as [[s2 os]|] eqn:E2; [|discriminate]. injection E as <- <-.
    destruct log1 as [|x log1]; cbn [app] in L; injection L as -> L.
    + subst. exists [], e, es, s, s1. auto.
    + destruct (IH _ _ _ _ _ _ E2 L) as (es1 & e' & es2 & s3 & s4 & -> & A & B & C).
      exists (e :: es1), e', es2, s3, s4. split; [reflexivity|]. cbn [lrun]. rewrite E1, A. auto.
Qed.

(** * Property theorems: locks *)

(** Whatever processes do and wherever they die, two objects never hold the lock at the
    same time, and the lock file exists while one does. *)
Theorem lock_exclusive : forall file es s log,
  lrun (lstart file) es = Some (s, log) -> no_copies es ->
  forall i, holding log i -> lfile s = true /\ forall j, holding log j -> i = j.
Proof.
  intros file es s log E N i Hi. pose proof (lrun_inv es _ [] _ _ (linv_start file) N E) as I.
  cbn [app] in I. split; [eapply inv_file; eauto; eapply inv_hold; eauto|].
  intros j Hj. eapply inv_one; eauto; eapply inv_hold; eauto.
Qed.
Print Assumptions lock_exclusive.

(** Only an object that created the lock file removes it, and never while another object
    holds the lock. *)
Theorem lock_removed_only_by_holder : forall file es s log1 i log2,
  lrun (lstart file) es = Some (s, log1 ++ OEnd i true :: log2) -> no_copies es ->
  (In (OAcquired i) log1 \/ In (OThrew i) log1) /\ forall j, holding log1 j -> j = i.
Proof.
  intros file es s log1 i log2 E N.
  destruct (lrun_split _ _ _ _ _ _ _ E eq_refl) as (es1 & e & es2 & s1 & s2 & -> & A & B & _).
  apply Forall_app in N. destruct N as [N1 N2]. inversion N2 as [|? ? NE N3]; subst.
  pose proof (lrun_inv es1 _ [] _ _ (linv_start file) N1 A) as I. cbn [app] in I.
  assert (H : held s1 i).
  { destruct e; cbn [lstep] in B.
    - destruct (existsb _ _); [discriminate|]. injection B as _ B. discriminate.
    - destruct (lobjs s1 i0) as [[a]|]; [|discriminate]. destruct (acquire _ _ _ _) as [[r f] o'].
      injection B as _ B. destruct r as [[]| |]; discriminate.
    - destruct (lobjs s1 i0) as [[a]|] eqn:O; [|discriminate]. injection B as _ <- B.
      unfold held. rewrite O. unfold lock_delete in B. cbn [acquired] in B. destruct a; auto.
      destruct (lfile s1); discriminate.
    - destruct (lobjs s1 i0) as [[a]|]; [|discriminate]. injection B as _ B. discriminate.
    - discriminate. }
  split.
  - eapply inv_acq; eauto.
  - intros j Hj. eapply inv_one; eauto. eapply inv_hold; eauto.
Qed.
Print Assumptions lock_removed_only_by_holder.

(** acquire says yes exactly if there was no lock file and the system let it create one,
    and after the holder is destroyed normally the lock can be had again. *)
Theorem lock_granted_iff_free : forall oe ce file o,
  acquired o = false ->
  (fst (fst (acquire oe ce file o)) = Ok true <-> file = false /\ oe = false /\ ce = false) /\
  (fst (fst (acquire oe ce file o)) = Ok true ->
   snd (fst (acquire oe ce file o)) = true /\
   lock_delete true (snd (acquire oe ce file o)) = false).
Proof.
  intros oe ce file [a] H. cbn in H. subst a. unfold acquire, lock_delete. cbn [acquired].
  destruct file, oe, ce; cbn; intuition discriminate.
Qed.
Print Assumptions lock_granted_iff_free.

(** Finding (as designed, but worth knowing): if the holder dies, nobody ever gets the
    lock again - until somebody deletes the file by hand. *)
Theorem lock_of_dead_process_is_never_granted : forall file es s log1 i log2,
  lrun (lstart file) es = Some (s, log1 ++ OEnd i false :: log2) -> no_copies es ->
  holding log1 i -> forall j, ~ In (OAcquired j) log2.
Proof.
  intros file es s log1 i log2 E N Hi.
  destruct (lrun_split _ _ _ _ _ _ _ E eq_refl) as (es1 & e & es2 & s1 & s2 & -> & A & B & C).
  apply Forall_app in N. destruct N as [N1 N2]. inversion N2 as [|? ? NE N3]; subst.
  pose proof (lrun_inv es1 _ [] _ _ (linv_start file) N1 A) as I. cbn [app] in I.
  pose proof (inv_hold _ _ I i Hi) as Hh. pose proof (inv_file _ _ I i Hh) as Hf.
  assert (K : lfile s2 = true /\ forall j, ~ held s2 j).
  { destruct e; cbn [lstep] in B.
    - destruct (existsb _ _); [discriminate|]. injection B as _ B. discriminate.
    - destruct (lobjs s1 i0) as [[a]|]; [|discriminate]. destruct (acquire _ _ _ _) as [[r f] o'].
      injection B as _ B. destruct r as [[]| |]; discriminate.
    - destruct (lobjs s1 i0) as [[a]|] eqn:O; [|discriminate]. injection B as _ <- B.
      unfold held in Hh. rewrite O in Hh. injection Hh as ->. unfold lock_delete in B. cbn [acquired] in B.
      rewrite Hf in B. discriminate.
    - destruct (lobjs s1 i0) as [[a]|] eqn:O; [|discriminate]. injection B as <- <-.
      split; [exact Hf|]. intros j. unfold held, lset. cbn [lobjs]. cases j i0; [discriminate|].
      intros Hj. apply n. eapply inv_one; eauto.
    - discriminate. }
  clear - K C N3. revert s2 s log2 K C. induction es2 as [|e es IH]; intros s2 s log2 [Kf Kh] C j; cbn [lrun] in C.
  - injection C as <- <-. intros [].
  - destruct (lstep s2 e) as [[s3 o]|] eqn:E1; [|discriminate].
    destruct (lrun s3 es) as [[s4 os]|] eqn:E2; [|discriminate]. injection C as <- <-.
    inversion N3 as [|? ? NE N4]; subst.
    assert (K : (lfile s3 = true /\ forall j, ~ held s3 j) /\ o <> OAcquired j).
    { destruct e as [i|i oe ce|i|i|i k]; cbn [lstep] in E1; [| | | |discriminate].
      - destruct (existsb _ _); [discriminate|]. injection E1 as <- <-. split; [|discriminate].
        split; [exact Kf|]. intros k. unfold held, lset. cbn [lobjs]. cases k i; [discriminate|apply Kh].
      - destruct (lobjs s2 i) as [[[]]|] eqn:O; [exfalso; eapply Kh; eauto| |discriminate].
        unfold acquire in E1. rewrite Kf in E1. cbn [acquired orb] in E1. injection E1 as <- <-.
        split; [|discriminate]. split; [reflexivity|]. intros k. unfold held, lset. cbn [lobjs].
        cases k i; [discriminate|apply Kh].
      - destruct (lobjs s2 i) as [[[]]|] eqn:O; [exfalso; eapply Kh; eauto| |discriminate].
        injection E1 as <- <-. split; [|discriminate]. split; [exact Kf|]. intros k. unfold held, lset. cbn [lobjs].
        cases k i; [discriminate|apply Kh].
      - destruct (lobjs s2 i) as [o0|] eqn:O; [|discriminate].
        injection E1 as <- <-. split; [|discriminate]. split; [exact Kf|]. intros k. unfold held, lset. cbn [lobjs].
        cases k i; [discriminate|apply Kh]. }
    destruct K as [K Ko]. intros [Hj|Hj]; [auto|]. eapply (IH N4 s3); eauto.
Qed.
Print Assumptions lock_of_dead_process_is_never_granted.

Example lock_run :
  exists s, lrun (lstart false)
    [LNew 0; LNew 1; LAcquire 0 false false; LAcquire 1 false false; LDelete 0;
     LAcquire 1 false false; LCrash 1; LNew 2; LAcquire 2 false false; LDelete 2] =
  Some (s, [ONone; ONone; OAcquired 0; ORefused 1; OEnd 0 true; OAcquired 1; OEnd 1 false;
            ONone; ORefused 2; OEnd 2 false]).
Proof. eexists. vm_compute. reflexivity. Qed.

(** Finding: FileLock has an implicit copy constructor, and a copy of an object that holds
    the lock removes the file when it is destroyed: two objects hold the lock. *)
Theorem copied_lock_refuted :
  exists es s log, lrun (lstart false) es = Some (s, log) /\
    holding log 0 /\ holding log 2.
Proof.
  exists [LNew 0; LAcquire 0 false false; LCopy 0 1; LDelete 1; LNew 2; LAcquire 2 false false].
  eexists. eexists. split; [vm_compute; reflexivity|].
  unfold holding. split; (split; [cbn; tauto|]; intros r; cbn; intuition discriminate).
Qed.
Print Assumptions copied_lock_refuted.

(** * Renamed files *)

(** what is passed to fwrite, in order *)
Definition written (es : list rev) : list Z := flat_map (fun e => match e with RWrite d => d | _ => [] end) es.
(** no write is refused by the system *)
Definition disk_ok (es : list rev) : Prop :=
  Forall (fun e => match e with RLose n => n = 0%nat | RClose n => n = 0%nat | _ => True end) es.
Definition rstart (old_final old_unfinished : option (list Z)) : rsys := RSys old_final old_unfinished [] [] NotYet.

Definition rinv (old : option (list Z)) (w : list Z) (s : rsys) : Prop :=
  match ph s with
  | NotYet => w = [] /\ fin s = old
  | Opened => fin s = old /\ sent s = w /\ exists u, unf s = Some u /\ u ++ pending s = w
  | Closed => fin s = old /\ sent s = w /\ unf s = Some w
  | Renamed => fin s = Some w /\ unf s = None
  | Kept => fin s = old /\ unf s = Some w
  end.

Lemma rstep_inv old w s e s' :
  rinv old w s -> match e with RLose n => n = 0%nat | RClose n => n = 0%nat | _ => True end ->
  rstep s e = Some s' -> rinv old (w ++ match e with RWrite d => d | _ => [] end) s'.
Proof.
  intros I D E. destruct s as [f u p t h]. unfold rinv in I. cbn [ph fin unf pending sent] in I.
  destruct e, h; cbn [rstep ph fin unf pending sent] in E; try discriminate; rewrite ?app_nil_r.
  - injection E as <-. destruct I as [-> ->]. cbn. eauto.
  - injection E as <-. destruct I as (-> & -> & v & -> & <-). cbn. split; auto. split; auto.
    exists v. split; auto. now rewrite <- app_assoc.
  - injection E as <-. destruct I as (-> & -> & v & -> & <-). cbn. split; auto. split; auto.
    eexists. split; [reflexivity|]. rewrite <- app_assoc, firstn_skipn. reflexivity.
  - injection E as <-. subst n. cbn. exact I.
  - injection E as <-. subst lost. destruct I as (-> & -> & v & -> & <-). cbn. split; auto. split; auto.
    rewrite Nat.sub_0_r, firstn_all. reflexivity.
  - destruct I as (-> & -> & ->). destruct (Nat.eqb uncaught 0); injection E as <-; cbn; auto.
Qed.

Lemma rrun_inv es : forall old w s s', rinv old w s -> disk_ok es -> rrun s es = Some s' -> rinv old (w ++ written es) s'.
Proof.
  induction es as [|e es IH]; intros old w s s' I D E; cbn [rrun] in E.
  - injection E as <-. cbn. rewrite app_nil_r. exact I.
  - destruct (rstep s e) as [s1|] eqn:E1; [|discriminate]. inversion D; subst.
    cbn [written flat_map]. rewrite app_assoc. eapply IH; eauto. eapply rstep_inv; eauto.
Qed.

(** At every point of every run - so also where it is killed - the final name shows the
    file that was there before, or the destructor has run normally and it shows everything
    that was written.  If the destructor runs because of an exception, everything written
    is in the .unfinished file and the final name is unchanged. *)
Theorem output_file_complete : forall old unfinished es s,
  rrun (rstart old unfinished) es = Some s -> disk_ok es ->
  (fin s = old \/ (In (RRename 0) es /\ fin s = Some (written es) /\ unf s = None)) /\
  (In (RRename 0) es -> fin s = Some (written es) /\ unf s = None) /\
  (forall n, In (RRename (S n)) es -> fin s = old /\ unf s = Some (written es)).
Proof.
  intros old un es s E D.
  assert (I0 : rinv old [] (rstart old un)) by (cbn; auto).
  pose proof (rrun_inv es old [] _ _ I0 D E) as I. cbn [app] in I.
  assert (P : forall es s0, rrun s0 es = Some s ->
     (ph s0 <> Renamed -> ph s0 <> Kept ->
      (In (RRename 0) es <-> ph s = Renamed) /\ ((exists n, In (RRename (S n)) es) <-> ph s = Kept)) /\
     (ph s0 = Renamed \/ ph s0 = Kept -> es = [])).
  { clear. induction es as [|e es IH]; intros s0 E; cbn [rrun] in E.
    - injection E as ->. split; [|auto]. intros A B. split; (split; [|contradiction]).
      + intros [].
      + intros [n []].
    - destruct (rstep s0 e) as [s1|] eqn:E1; [|discriminate]. specialize (IH s1 E). split.
      + intros A B. destruct IH as [IH1 IH2].
        assert (C : (ph s1 <> Renamed /\ ph s1 <> Kept /\ (forall n, e <> RRename n)) \/
                    (ph s1 = Renamed /\ e = RRename 0) \/ (ph s1 = Kept /\ exists n, e = RRename (S n))).
        { destruct s0 as [f u p t h]. destruct e, h; cbn [rstep ph] in *; try discriminate;
            try (injection E1 as <-; cbn [ph]; left; repeat split; congruence).
          destruct uncaught; cbn [Nat.eqb] in E1; injection E1 as <-; cbn [ph]; right; [left|right]; eauto. }
        destruct C as [(C1 & C2 & C3)|[(C1 & ->)|(C1 & n & ->)]].
        * destruct (IH1 C1 C2) as [H1 H2]. split.
          -- rewrite <- H1. cbn [In]. split; [intros [H|H]; auto; exfalso; eapply C3; eauto|auto].
          -- rewrite <- H2. split; intros [m H]; exists m; cbn [In] in *; [destruct H as [H|H]; auto; exfalso; eapply C3; eauto|auto].
        * rewrite (IH2 (or_introl C1)) in *. cbn [rrun] in E. injection E as ->. split; split.
          -- auto.
          -- intros _. left. auto.
          -- intros [m [H|[]]]. discriminate.
          -- intros H. congruence.
        * rewrite (IH2 (or_intror C1)) in *. cbn [rrun] in E. injection E as ->. split; split.
          -- intros [H|[]]. discriminate.
          -- congruence.
          -- auto.
          -- intros _. exists n. left. auto.
      + intros [A|A]; destruct s0 as [f u p t h]; cbn [ph] in A; subst h; destruct e; discriminate. }
  destruct (P es _ E) as [P1 _]. destruct P1 as [Q1 Q2]; [discriminate|discriminate|].
  unfold rinv in I. split; [|split].
  - destruct (ph s) eqn:H; try (left; apply I; fail).
    right. split; [apply Q1; auto|exact I].
  - intros H. apply Q1 in H. rewrite H in I. exact I.
  - intros n H. rewrite (proj1 Q2 (ex_intro _ n H)) in I. exact I.
Qed.
Print Assumptions output_file_complete.

Example output_file_run :
  exists s, rrun (rstart (Some [9]) None)
    [ROpen; RWrite [1; 2]; RFlush 1; RWrite [3]; RClose 0; RRename 0] = Some s /\
    fin s = Some [1; 2; 3].
Proof. eexists. split; vm_compute; reflexivity. Qed.

(** Finding: results of fwrite and fclose are ignored, so on a full disk an incomplete
    file gets the final name. *)
Theorem full_disk_output_complete_refuted :
  exists es s, rrun (rstart None None) es = Some s /\ In (RRename 0) es /\
               fin s <> Some (written es) /\ fin s <> None.
Proof.
  exists [ROpen; RWrite [1; 2; 3]; RFlush 1; RClose 2; RRename 0]. eexists.
  split; [vm_compute; reflexivity|]. split; [cbn; tauto|]. split; vm_compute; discriminate.
Qed.
Print Assumptions full_disk_output_complete_refuted.

(** Finding: a RenamingFilePtr whose file cannot be opened (missing directory, no
    permission) cannot even be destroyed without undefined behaviour. *)
Theorem unopened_output_file_refuted : exists u, renaming_file_lifetime false = UB u.
Proof. eexists. reflexivity. Qed.
Print Assumptions unopened_output_file_refuted.
