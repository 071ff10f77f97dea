(** C35: cached integrals are never taken from a half-written or foreign file.
    C68: the integral used for a pair of resonances is that pair's. *)
From Coq Require Import ZArith String Ascii List Bool Lia.
From Verif Require Import Base Bytes TabModel ShaModel ShaSpec ShaProofs ShaProps FilesModel TabProps.
Import ListNotations.

(** * File names *)
(** the multiplets for which integrals with resonances are tabulated
    (isoparticletype.cc:278-307) *)
Definition partners : list string := ["N"; "π"; "K"; "Δ"; "ρ"]%string.
(** names that stay different when ' is replaced *)
Definition names_distinct (K : string * string -> Prop) : Prop :=
  (forall k, K k -> In (fst k) partners) /\
  forall k k', K k -> K k' -> filtered_prime (snd k) = filtered_prime (snd k') -> snd k = snd k'.

Lemma append_cancel_l a : forall b c, append a b = append a c -> b = c.
Proof. induction a; cbn; intros b c E; auto. injection E. auto. Qed.
Lemma append_length a b : String.length (append a b) = (String.length a + String.length b)%nat.
Proof. induction a; cbn; auto. Qed.
Lemma append_cancel_r a : forall b c, append b a = append c a -> b = c.
Proof.
  intros b. induction b as [|x b IH]; intros [|y c] E; cbn in E; auto.
  - exfalso. assert (L := f_equal String.length E). cbn in L. rewrite append_length in L. lia.
  - exfalso. assert (L := f_equal String.length E). cbn in L. rewrite append_length in L. lia.
  - injection E as -> E. f_equal. auto.
Qed.
Lemma append_assoc a b c : append (append a b) c = append a (append b c).
Proof. induction a; cbn; congruence. Qed.

Lemma tab_path_inj K k k' : names_distinct K -> K k -> K k' -> tab_path k = tab_path k' -> k = k'.
Proof.
  intros [P D] Kk Kk' E. unfold tab_path in E. apply append_cancel_r in E.
  assert (F : fst k = fst k').
  { pose proof (P k Kk) as A. pose proof (P k' Kk') as B. clear - A B E.
    unfold partners in *. cbn [In] in A, B.
    destruct A as [A|[A|[A|[A|[A|[]]]]]], B as [B|[B|[B|[B|[B|[]]]]]]; rewrite <- A, <- B in *;
      auto; cbn in E; discriminate. }
  rewrite F in E. apply append_cancel_l in E.
  pose proof (D k k' Kk Kk' E). destruct k, k'; cbn in *; congruence.
Qed.

(** * The cache machine *)
Section Cache.
Variable config : Type.
Variable hash : config -> list Z.
Variable table : config -> (string * string) -> tab Z.
Variable keys : config -> list (string * string).
Variable cfg : nat -> config.
Variable max : Z.
Variable K : string * string -> Prop.

(** a directory holding only files written completely by runs of whatever configuration *)
Definition complete_except (f : fs) (q : string) : Prop :=
  forall p b, f p = Some b -> p <> q ->
  exists c k, K k /\ p = tab_path k /\ b = write (table c k) (hash c).
Definition complete (f : fs) : Prop :=
  forall p b, f p = Some b -> exists c k, K k /\ p = tab_path k /\ b = write (table c k) (hash c).

Record cache_assumptions : Prop := {
  hash_len : forall c, List.length (hash c) = 32%nat;
  table_ok : forall c k, tab_ok max (table c k) /\ is_empty (table c k) = false;
  (* equal hashes mean equal integrals: no hash collision between different set-ups *)
  hash_good : forall c c' k, hash c = hash c' -> table c k = table c' k;
  keys_in : forall c k, In k (keys c) -> K k;
  names_ok : names_distinct K
}.
Hypothesis A : cache_assumptions.

Definition pinv (s : csys) (i : nat) : Prop :=
  (forall k t, In (k, t) (results (procs s i)) -> t = table (cfg i) k) /\
  match procs s i with
  | PRun true todo _ => lock s = Some i /\ complete (files s) /\ (forall k, In k todo -> K k)
  | PRun false todo _ => forall k, In k todo -> K k
  | PWrite k bytes todo _ =>
      lock s = Some i /\ complete_except (files s) (tab_path k) /\ K k /\ (forall k, In k todo -> K k) /\
      exists pre, files s (tab_path k) = Some pre /\ pre ++ bytes = write (table (cfg i) k) (hash (cfg i))
  | PFailed => False
  | _ => True
  end.
Definition cinv (s : csys) : Prop := (forall i, pinv s i) /\ (lock s = None -> complete (files s)).

Lemma cached_complete g i s k :
  garbage_ok g -> K k -> complete (files s) ->
  exists t, cached config hash cfg max g i s k = Ok t /\ (is_empty t = false -> t = table (cfg i) k).
Proof.
  intros G Kk C. unfold cached. destruct (files s (tab_path k)) as [b|] eqn:F.
  - destruct (C _ _ F) as (c & k' & Kk' & P & ->).
    assert (k' = k) by (symmetry; eapply tab_path_inj; eauto; apply names_ok; auto). subst k'.
    destruct (list_eq_dec Z.eq_dec (hash (cfg i)) (hash c)) as [E|N].
    + pose proof (tabulation_file_round_trip max g (table c k) (hash c) [] G
                    (proj1 (table_ok A c k)) (hash_len A c)) as R.
      rewrite app_nil_r in R. rewrite E, R. eexists. split; [reflexivity|]. intros _.
      apply (hash_good A). auto.
    + pose proof (tabulation_file_other_hash max g (table c k) (hash c) (hash (cfg i)) [] G (hash_len A c) N) as R.
      rewrite app_nil_r in R. rewrite R. eexists. split; [reflexivity|]. discriminate.
  - eexists. split; [reflexivity|]. discriminate.
Qed.

Lemma pset_procs s f l i p j : procs (pset s f l i p) j = if Nat.eqb j i then p else procs s j.
Proof. reflexivity. Qed.

(** other processes are not disturbed by a step of process i which only changes files if
    i holds the lock *)
Lemma other_ok s f l i p j :
  pinv s j -> j <> i ->
  (lock s = Some j -> l = Some j /\ f = files s) ->
  pinv (pset s f l i p) j.
Proof.
  intros [R P] N H. unfold pinv. rewrite pset_procs. apply Nat.eqb_neq in N. rewrite N.
  split; [exact R|]. cbn [pset lock files].
  destruct (procs s j) as [|[] todo done|k b todo done|done| |]; auto.
  - destruct P as (L & C & T). destruct (H L) as [-> ->]. auto.
  - destruct P as (L & C & T). destruct (H L) as [-> ->]. auto.
Qed.

Lemma in_snoc {X} (l : list X) x y : In y (l ++ [x]) <-> In y l \/ y = x.
Proof. rewrite in_app_iff. cbn. intuition congruence. Qed.

Lemma cstep_inv s s' :
  cstep config hash table keys cfg max false false s s' -> cinv s -> cinv s'.
Proof.
  intros St [P L]. inversion St; subst; try discriminate.
  - (* lock *)
    split; [|discriminate]. intros j. destruct (Nat.eq_dec j i) as [->|N].
    + split; rewrite pset_procs, Nat.eqb_refl; cbn [results].
      * intros k t [].
      * cbn [pset lock files]. split; [reflexivity|]. split; [apply L; auto|]. apply (keys_in A).
    + apply other_ok; auto. congruence.
  - (* no lock *)
    split; [|exact L]. intros j. destruct (Nat.eq_dec j i) as [->|N].
    + split; rewrite pset_procs, Nat.eqb_refl; cbn [results].
      * intros k t [].
      * apply (keys_in A).
    + apply other_ok; auto.
  - (* hit *)
    pose proof (P i) as [R Q]. rewrite H in R, Q. cbn [results] in R. destruct Q as (Li & C & T).
    destruct (cached_complete g i s k H0 (T k (or_introl eq_refl)) C) as (t' & E & V).
    rewrite E in H1. injection H1 as ->. specialize (V H2).
    split; [|cbn [pset lock]; congruence]. intros j. destruct (Nat.eq_dec j i) as [->|N].
    + split; rewrite pset_procs, Nat.eqb_refl; cbn [results].
      * intros k0 t0 I. apply in_snoc in I. destruct I as [I|I]; [auto|]. injection I as -> ->. exact V.
      * cbn [pset lock files]. split; [auto|]. split; [auto|]. intros k0 I. apply T. now right.
    + apply other_ok; auto.
  - (* throw *)
    pose proof (P i) as [R Q]. rewrite H in R, Q. destruct Q as (Li & C & T).
    destruct (cached_complete g i s k H0 (T k (or_introl eq_refl)) C) as (t' & E & V). congruence.
  - (* miss *)
    pose proof (P i) as [R Q]. rewrite H in R, Q. cbn [results] in R. destruct Q as (Li & C & T).
    split; [|cbn [pset lock]; congruence]. intros j. destruct (Nat.eq_dec j i) as [->|N].
    + split; rewrite pset_procs, Nat.eqb_refl; cbn [results]; [exact R|].
      cbn [pset lock files]. split; [auto|]. split; [|split; [|split]].
      * intros p b F NP. unfold fset in F. destruct (String.eqb_spec p (tab_path k)); [contradiction|].
        apply (C p b F).
      * apply T. now left.
      * intros k0 I. apply T. now right.
      * exists []. split; [|reflexivity]. unfold fset. rewrite String.eqb_refl. reflexivity.
    + apply other_ok; auto. congruence.
  - (* write *)
    pose proof (P i) as [R Q]. rewrite H in R, Q. cbn [results] in R.
    destruct Q as (Li & C & Kk & T & pre & F & W). rewrite F in H0. injection H0 as ->.
    split; [|cbn [pset lock]; congruence]. intros j. destruct (Nat.eq_dec j i) as [->|N].
    + split; rewrite pset_procs, Nat.eqb_refl; cbn [results]; [exact R|].
      cbn [pset lock files]. split; [auto|]. split; [|split; [auto|split; [auto|]]].
      * intros p b F' NP. unfold fset in F'. destruct (String.eqb_spec p (tab_path k)); [contradiction|].
        apply (C p b F' NP).
      * eexists. split; [unfold fset; rewrite String.eqb_refl; reflexivity|].
        rewrite <- app_assoc, firstn_skipn. exact W.
    + apply other_ok; auto. congruence.
  - (* close *)
    pose proof (P i) as [R Q]. rewrite H in R, Q. cbn [results] in R.
    destruct Q as (Li & C & Kk & T & pre & F & W). rewrite app_nil_r in W. subst pre.
    split; [|cbn [pset lock]; congruence]. intros j. destruct (Nat.eq_dec j i) as [->|N].
    + split; rewrite pset_procs, Nat.eqb_refl; cbn [results].
      * intros k0 t0 I. apply in_snoc in I. destruct I as [I|I]; [auto|]. injection I as -> ->. auto.
      * cbn [pset lock files]. split; [auto|]. split; [|auto].
        intros p b F'. destruct (String.string_dec p (tab_path k)) as [->|NP].
        -- rewrite F in F'. injection F' as <-. exists (cfg i), k. auto.
        -- apply (C p b F' NP).
    + apply other_ok; auto.
  - (* compute *)
    pose proof (P i) as [R Q]. rewrite H in R, Q. cbn [results] in R.
    split; [|exact L]. intros j. destruct (Nat.eq_dec j i) as [->|N].
    + split; rewrite pset_procs, Nat.eqb_refl; cbn [results].
      * intros k0 t0 I. apply in_snoc in I. destruct I as [I|I]; [auto|]. injection I as -> ->. auto.
      * intros k0 I. apply Q. now right.
    + apply other_ok; auto.
  - (* release *)
    pose proof (P i) as [R Q]. rewrite H in R, Q. cbn [results] in R.
    split.
    + intros j. destruct (Nat.eq_dec j i) as [->|N].
      * split; rewrite pset_procs, Nat.eqb_refl; cbn [results]; auto.
      * apply other_ok; auto. intros Lj. destruct b; auto. destruct Q as (Li & _). congruence.
    + cbn [pset lock files]. destruct b; auto. intros _. apply Q.
  - (* crash *)
    split; [|exact L]. intros j. destruct (Nat.eq_dec j i) as [->|N].
    + split; rewrite pset_procs, Nat.eqb_refl; cbn [results]; [intros k t []|exact I].
    + apply other_ok; auto.
Qed.

(** start: no run has begun, no lock file, the directory holds complete files only *)
Definition cstart (f : fs) : csys := CSys f None (fun _ => PStart).

Lemma creach_inv f s :
  complete f -> creach config hash table keys cfg max false false (cstart f) s -> cinv s.
Proof.
  intros C R. remember (cstart f) as s0. induction R as [|s0 s1 s2 _ IH St]; subst.
  - split; [|auto]. intros i. split; cbn; auto. intros k t [].
  - eapply cstep_inv; eauto.
Qed.
End Cache.

(** * Property theorem C35 *)

(** Any number of runs of any configurations sharing the directory, interleaved in any way
    and killed anywhere: every integral any run ends up with is the one its own
    configuration determines, and reading the cache never makes a run fail.  (Assumed: the
    directory holds only files completely written by such runs, writes to the disk do not
    fail, nobody deletes a lock file by hand, no hash collisions.) *)
Theorem cache_is_sound : forall config hash table keys (cfg : nat -> config) max K f s,
  cache_assumptions config hash table keys max K ->
  complete config hash table K f ->
  creach config hash table keys cfg max false false (cstart f) s ->
  forall i, procs s i <> PFailed /\
            forall k t, In (k, t) (results (procs s i)) -> t = table (cfg i) k.
Proof.
  intros config hash table keys cfg max K f s A C R i.
  destruct (creach_inv config hash table keys cfg max K A f s C R) as [P _].
  destruct (P i) as [R1 R2]. split; [|exact R1]. intros E. rewrite E in R2. exact R2.
Qed.
Print Assumptions cache_is_sound.

(** A run that finishes has exactly the integrals it was asked for, in order. *)
Theorem cache_run_is_complete : forall config hash table keys (cfg : nat -> config) max f s,
  creach config hash table keys cfg max false false (cstart f) s ->
  forall i d, procs s i = PDone d -> map fst d = keys (cfg i).
Proof.
  intros config hash table keys cfg max f s R.
  assert (I : forall i, match procs s i with
    | PRun _ todo d => map fst d ++ todo = keys (cfg i)
    | PWrite k _ todo d => map fst d ++ k :: todo = keys (cfg i)
    | PDone d => map fst d = keys (cfg i)
    | _ => True end).
  { remember (cstart f) as s0. induction R as [|s0 s1 s2 _ IH St]; subst; [cbn; auto|].
    specialize (IH eq_refl). intros j. inversion St; subst; try discriminate; rewrite ?pset_procs; try apply IH;
      (destruct (Nat.eqb_spec j i) as [->|]; [|apply IH]); auto;
      specialize (IH i); rewrite H in IH; rewrite ?map_app, <- ?app_assoc; auto.
    rewrite app_nil_r in IH. exact IH. }
  intros i d E. specialize (I i). rewrite E in I. exact I.
Qed.
Print Assumptions cache_run_is_complete.

(** ** A concrete instance *)
Definition k0 : string * string := ("N", "Δ")%string.
Definition t0 : tab Z := Tab [1; 2] 10 11 12.
Definition hash0 (_ : unit) : list Z := repeat 7 32.
Definition table0 (_ : unit) (_ : string * string) : tab Z := t0.
Definition keys0 (_ : unit) : list (string * string) := [k0].
Definition K0 (k : string * string) : Prop := k = k0.

Lemma t0_ok : tab_ok 1000 t0.
Proof.
  assert (P8 : 256 ^ Z.of_nat 8 = 2 ^ 64) by reflexivity.
  unfold tab_ok, word64, t0. cbn [values x_min x_max inv_dx List.length].
  repeat split; try lia. repeat (apply Forall_cons; [lia|]). apply Forall_nil.
Qed.
Example cache_assumptions_satisfiable : cache_assumptions unit hash0 table0 keys0 1000 K0.
Proof.
  constructor; auto.
  - intros. split; [apply t0_ok|reflexivity].
  - intros c k [<-|[]]. reflexivity.
  - split.
    + intros k ->. cbn. tauto.
    + intros k k' -> -> _. reflexivity.
Qed.

(** * Findings *)

(** Somebody removing the lock file of a killed run makes the next run use a table padded
    with zeros. *)
Definition half : list Z := firstn (64 + 8 * 1) (write t0 (hash0 tt)).
Definition spoiled : tab Z := Tab [1; 0] 10 11 12.

Lemma read_half g : garbage_ok g -> from_file 1000 g half (hash0 tt) = Ok spoiled.
Proof.
  intros G. unfold half. rewrite truncated_file_detected_refuted; auto; [apply t0_ok| cbn; lia].
Qed.

Lemma pset_same (s : csys) f l i p : procs (pset s f l i p) i = p.
Proof. rewrite pset_procs, Nat.eqb_refl. reflexivity. Qed.

Theorem cache_after_lock_removal_refuted :
  exists s k t, creach unit hash0 table0 keys0 (fun _ => tt) 1000 true false (cstart (fun _ => None)) s /\
    In (k, t) (results (procs s 1)) /\ t <> table0 tt k.
Proof.
  set (f1 := fset (fun _ => None) (tab_path k0) (Some [])).
  set (f2 := fset f1 (tab_path k0) (Some ([] ++ half))).
  set (s0 := cstart (fun _ => None)).
  set (s1 := pset s0 (files s0) (Some 0%nat) 0 (PRun true [k0] [])).
  set (s2 := pset s1 f1 (Some 0%nat) 0 (PWrite k0 (write t0 (hash0 tt)) [] [])).
  set (s3 := pset s2 f2 (Some 0%nat) 0 (PWrite k0 (skipn (64 + 8 * 1) (write t0 (hash0 tt))) [] [])).
  set (s4 := pset s3 f2 (Some 0%nat) 0 PDead).
  set (s5 := CSys (files s4) None (procs s4)).
  set (s6 := pset s5 f2 (Some 1%nat) 1 (PRun true [k0] [])).
  set (s7 := pset s6 f2 (Some 1%nat) 1 (PRun true [] [(k0, spoiled)])).
  assert (F1 : f1 (tab_path k0) = Some []) by (unfold f1, fset; rewrite String.eqb_refl; reflexivity).
  assert (F2 : f2 (tab_path k0) = Some half) by (unfold f2, fset; rewrite String.eqb_refl; reflexivity).
  assert (G0 : garbage_ok g0) by (repeat split).
  exists s7, k0, spoiled. split; [|split].
  - apply creach_step with s6; [apply creach_step with s5; [apply creach_step with s4; [apply creach_step with s3;
      [apply creach_step with s2; [apply creach_step with s1; [apply creach_step with s0; [apply creach_refl|]|]|]|]|]|]|].
    + apply s_lock; reflexivity.
    + apply (s_miss unit hash0 table0 keys0 (fun _ => tt) 1000 true false s1 0 g0 k0 [] [] (Tab [] 0 0 0)); auto.
    + apply (s_write unit hash0 table0 keys0 (fun _ => tt) 1000 true false s2 0 (64 + 8 * 1) k0 (write t0 (hash0 tt)) [] [] []); auto.
    + apply s_crash.
    + apply s_unlock. reflexivity.
    + apply (s_lock unit hash0 table0 keys0 (fun _ => tt) 1000 true false s5 1); reflexivity.
    + apply (s_hit unit hash0 table0 keys0 (fun _ => tt) 1000 true false s6 1 g0 k0 [] [] spoiled); auto.
  - unfold s7. rewrite pset_same. left. reflexivity.
  - unfold spoiled, table0, t0. congruence.
Qed.
Print Assumptions cache_after_lock_removal_refuted.

(** A full disk while a run stores an integral has the same effect on all later runs,
    without any crash or deleted lock. *)
Theorem cache_after_full_disk_refuted :
  exists s k t, creach unit hash0 table0 keys0 (fun _ => tt) 1000 false true (cstart (fun _ => None)) s /\
    In (k, t) (results (procs s 1)) /\ t <> table0 tt k.
Proof.
  set (f1 := fset (fun _ => None) (tab_path k0) (Some [])).
  set (f2 := fset f1 (tab_path k0) (Some ([] ++ half))).
  set (s0 := cstart (fun _ => None)).
  set (s1 := pset s0 (files s0) (Some 0%nat) 0 (PRun true [k0] [])).
  set (s2 := pset s1 f1 (Some 0%nat) 0 (PWrite k0 (write t0 (hash0 tt)) [] [])).
  set (s3 := pset s2 f2 (Some 0%nat) 0 (PWrite k0 (skipn (64 + 8 * 1) (write t0 (hash0 tt))) [] [])).
  set (s4 := pset s3 f2 (Some 0%nat) 0 (PWrite k0 [] [] [])).
  set (s4' := pset s4 f2 (Some 0%nat) 0 (PRun true [] [(k0, t0)])).
  set (s5 := pset s4' f2 None 0 (PDone [(k0, t0)])).
  set (s6 := pset s5 f2 (Some 1%nat) 1 (PRun true [k0] [])).
  set (s7 := pset s6 f2 (Some 1%nat) 1 (PRun true [] [(k0, spoiled)])).
  assert (F1 : f1 (tab_path k0) = Some []) by (unfold f1, fset; rewrite String.eqb_refl; reflexivity).
  assert (F2 : f2 (tab_path k0) = Some half) by (unfold f2, fset; rewrite String.eqb_refl; reflexivity).
  assert (G0 : garbage_ok g0) by (repeat split).
  exists s7, k0, spoiled. split; [|split].
  - apply creach_step with s6; [apply creach_step with s5; [apply creach_step with s4'; [apply creach_step with s4; [apply creach_step with s3;
      [apply creach_step with s2; [apply creach_step with s1; [apply creach_step with s0; [apply creach_refl|]|]|]|]|]|]|]|].
    + apply s_lock; reflexivity.
    + apply (s_miss unit hash0 table0 keys0 (fun _ => tt) 1000 false true s1 0 g0 k0 [] [] (Tab [] 0 0 0)); auto.
    + apply (s_write unit hash0 table0 keys0 (fun _ => tt) 1000 false true s2 0 (64 + 8 * 1) k0 (write t0 (hash0 tt)) [] [] []); auto.
    + apply (s_lose unit hash0 table0 keys0 (fun _ => tt) 1000 false true s3 0 8 k0 (skipn (64 + 8 * 1) (write t0 (hash0 tt))) [] []); auto.
    + apply (s_close unit hash0 table0 keys0 (fun _ => tt) 1000 false true s4 0 k0 [] []); auto.
    + apply (s_release unit hash0 table0 keys0 (fun _ => tt) 1000 false true s4' 0 true [(k0, t0)]); auto.
    + apply (s_lock unit hash0 table0 keys0 (fun _ => tt) 1000 false true s5 1); reflexivity.
    + apply (s_hit unit hash0 table0 keys0 (fun _ => tt) 1000 false true s6 1 g0 k0 [] [] spoiled); auto.
  - unfold s7. rewrite pset_same. left. reflexivity.
  - unfold spoiled, table0, t0. congruence.
Qed.
Print Assumptions cache_after_full_disk_refuted.

(** The replacement of ' in file names is not injective. *)
Theorem tabulation_paths_distinct_refuted :
  exists k k', k <> k' /\ tab_path k = tab_path k'.
Proof. exists ("N", "X'")%string, ("N", "X_prime")%string. split; [discriminate|reflexivity]. Qed.
Print Assumptions tabulation_paths_distinct_refuted.

(** What the hash stands for: version, particles and decay modes put together without
    separator, so different set-ups share a hash (without any collision of SHA-256). *)
Theorem config_hash_of_concatenation : forall garbage v p d,
  List.length garbage = 64%nat -> Forall byte v -> Forall byte p -> Forall byte d ->
  Z.of_nat (List.length (v ++ p ++ d)) < 2 ^ 61 ->
  config_hash garbage v p d = Ok (sha256 K initial_state (v ++ p ++ d)).
Proof.
  intros garbage v p d G V P D L.
  pose proof (chunking_does_not_matter (Ctx 0 [] 0 garbage) [v; p; d] G) as H.
  cbn [concat] in H. rewrite app_nil_r in H. rewrite <- H; auto.
  unfold config_hash. cbn [foldM]. destruct (update _ v); cbn [rbind]; auto.
  destruct (update _ p); cbn [rbind]; auto. destruct (update _ d); cbn [rbind]; auto.
Qed.
Print Assumptions config_hash_of_concatenation.

Theorem config_hash_distinguishes_refuted : forall garbage, List.length garbage = 64%nat ->
  exists v p d p' d', (p, d) <> (p', d') /\ config_hash garbage v p d = config_hash garbage v p' d'.
Proof.
  intros g G. exists [118], [97; 98], [99], [97], [98; 99]. split; [congruence|].
  assert (B : forall l, forallb (fun x => (0 <=? x) && (x <? 256)) l = true -> Forall byte l).
  { intros l H. apply Forall_forall. intros x I. rewrite forallb_forall in H. specialize (H x I).
    unfold byte. lia. }
  rewrite !config_hash_of_concatenation; try (apply B; reflexivity); auto; cbn; lia.
Qed.
Print Assumptions config_hash_distinguishes_refuted.

(** * C68: which table is used for a pair of resonances *)
(** The pairs for which some table exists: with Δ (any baryon resonance), ρρ, ρh₁. *)
Definition same_pair (p q : string * string) : Prop := p = q \/ p = (snd q, fst q).

(** With Δ or ρ as the second partner it is the pair's own table (or an exception). *)
Theorem pair_table_is_right_partial : forall rs a b p,
  b = "Δ"%string \/ b = "ρ"%string -> pair_used rs a b = Ok p -> same_pair p (a, b).
Proof.
  intros rs a b p [-> | ->] E; unfold pair_used in E.
  - change (String.eqb "Δ" "Δ") with true in E. cbv iota in E. unfold at_, deltaR_key in E. destruct (existsb _ rs); [|discriminate].
    injection E as <-. right. reflexivity.
  - change (String.eqb "ρ" "Δ") with false in E. change (String.eqb "ρ" "ρ") with true in E.
    cbv iota in E. unfold at_ in E.
    destruct (find_key rhoR_keys a) as [x|] eqn:F; [|discriminate]. injection E as <-.
    unfold rhoR_keys in F. cbn [find_key] in F.
    destruct (String.eqb_spec "ρ" a) as [<-|]; [injection F as <-; left; reflexivity|].
    destruct (String.eqb_spec "h₁(1170)" a) as [<-|]; [injection F as <-; right; reflexivity|discriminate].
Qed.
Print Assumptions pair_table_is_right_partial.
Example pair_table_cases :
  pair_used ["Δ"; "N(1440)"]%string "N(1440)" "Δ" = Ok ("Δ", "N(1440)")%string /\
  pair_used [] "h₁(1170)" "ρ" = Ok ("ρ", "h₁(1170)")%string.
Proof. split; vm_compute; reflexivity. Qed.

(** Finding: for (ρ, h₁) in this order - the order in which the particles come in decides,
    crosssections.cc:2773 - the table of ρρ is used. *)
Theorem pair_table_order_refuted :
  pair_used [] "ρ" "h₁(1170)" = Ok ("ρ", "ρ")%string /\
  pair_used [] "h₁(1170)" "ρ" = Ok ("ρ", "h₁(1170)")%string.
Proof. split; vm_compute; reflexivity. Qed.
Print Assumptions pair_table_order_refuted.
