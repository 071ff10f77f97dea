(** Property theorems about the particle container (C01-C05). *)
From Coq Require Import ZArith List Bool Lia Permutation.
From Verif Require Import Base ParticlesModel ParticlesSpec ParticlesProofs ParticlesHistory.
Import ListNotations.
Open Scope Z_scope.

(** A concrete history with holes: three insertions, one removal in the middle,
    one replacement of one particle by two. *)
Ltac good_copy := split; [vm_compute; tauto|exists pl0; vm_compute; tauto].
Ltac ok_call :=
  first [ exact I | good_copy
        | split; [repeat (apply Forall_cons; [good_copy|]); apply Forall_nil
                 | unfold distinct; simpl; repeat constructor; simpl; tauto] ].
Ltac build_history :=
  first [ apply H_start
        | eapply H_step; [build_history | ok_call | vm_compute; reflexivity
                         | vm_compute; reflexivity] ].

Example history_example :
  exists st b seen, history
    [OReplace [copy_of 2 2] [part0; part0]; ORemove (copy_of 1 1);
     OInsert part0; OInsert part0; OInsert part0] st b seen /\
    map fst (b_parts b) = [0; 3; 4] /\ good b seen (copy_of 4 1) /\
    ~ alive b (copy_of 2 2) /\ handed_out seen (copy_of 2 2).
Proof.
  eexists _, _, _. split.
  - build_history.
  - splits.
    + reflexivity.
    + split; [vm_compute; tauto|]. exists pl0. vm_compute. tauto.
    + intros (p & H & _). vm_compute in H.
      repeat destruct H as [H|H]; try discriminate; auto.
    + vm_compute. tauto.
Qed.

(** C01: iterating shows exactly the abstract bag, and size() counts it. *)
Theorem container_refines_bag : forall ops st b seen,
  history ops st b seen -> within_limits ops ->
  exists l, iterate st = Ok l /\ copy_to_vector st = Ok l /\
    Permutation (map key l) (b_parts b) /\ size st = Z.of_nat (length l).
Proof. exact history_refines. Qed.
Print Assumptions container_refines_bag.

(** C01/C04: an allowed call never fails and never leaves the array. *)
Theorem container_never_stuck : forall ops st b seen o,
  history ops st b seen -> allowed b seen o -> within_limits (o :: ops) ->
  exists st' out, step st o = Ok (st', out).
Proof. exact history_progress. Qed.
Print Assumptions container_never_stuck.

(** C02: new particles get consecutive ids above everything handed out before;
    present ids are pairwise distinct. *)
Theorem container_ids_unique_and_fresh : forall ops st b seen o st' out,
  history ops st b seen -> allowed b seen o -> within_limits (o :: ops) ->
  step st o = Ok (st', out) ->
  match o with
  | OInsert _ | OCreate _ | OReplace _ _ | OUpdate _ _ true =>
     map p_id out = map (fun k => b_next b + Z.of_nat k) (seq 0 (Z.to_nat (added o)))
  | _ => True
  end /\
  (forall id ix, In (id, ix) seen -> 0 <= id < b_next b) /\
  (forall id p, In (id, p) (b_parts b) -> 0 <= id < b_next b) /\
  NoDup (map fst (b_parts b)).
Proof. exact history_new_ids. Qed.
Print Assumptions container_ids_unique_and_fresh.

(** C03: a copy handed out since the last reset is valid exactly if its particle
    is still there with the same process id. *)
Theorem container_is_valid_iff_alive : forall ops st b seen c,
  history ops st b seen -> within_limits ops -> handed_out seen c ->
  exists v, is_valid_r st c = Ok v /\ (v = true <-> alive b c).
Proof. exact history_valid. Qed.
Print Assumptions container_is_valid_iff_alive.

(** C03, limit: across a reset, a stale copy can be taken for a new particle. *)
Theorem container_stale_copy_across_reset_refuted :
  exists c st st' st'',
    run init_particles [OInsert part0] = Ok st /\ iterate st = Ok [c] /\
    run st [OReset] = Ok st' /\ is_valid_r st' c = Ok false /\
    run st' [OInsert part0] = Ok st'' /\ is_valid_r st'' c = Ok true.
Proof.
  exists (copy_of 0 0), (after init_particles [OInsert part0]),
    (after init_particles [OInsert part0; OReset]),
    (after init_particles [OInsert part0; OReset; OInsert part0]).
  splits; vm_compute; reflexivity.
Qed.
Print Assumptions container_stale_copy_across_reset_refuted.

(** C04: iteration only shows live slots inside the array, each once. *)
Theorem container_iteration_safe : forall ops st b seen l,
  history ops st b seen -> within_limits ops -> iterate st = Ok l ->
  (forall d, In d l -> p_hole d = false /\ nth_error (data st) (p_index d) = Some d /\
                       (p_index d < data_size st)%nat) /\
  (data_size st < length (data st))%nat.
Proof. exact history_live_slots. Qed.
Print Assumptions container_iteration_safe.

Theorem container_front_back : forall ops st b seen l,
  history ops st b seen -> within_limits ops -> iterate st = Ok l -> l <> [] ->
  (exists e, front st = Ok e /\ hd_error l = Some e) /\
  (exists e l', back st = Ok e /\ l = l' ++ [e]).
Proof. exact history_front_back. Qed.
Print Assumptions container_front_back.

(** C05: one direction holds ... *)
Theorem container_is_empty_partial : forall ops st b seen,
  history ops st b seen -> within_limits ops -> is_empty st = true -> size st = 0.
Proof. exact history_is_empty. Qed.
Print Assumptions container_is_empty_partial.

(** ... the other one does not: after removing three particles in the order
    middle, last, first, the container holds nothing, but is_empty() is false and
    front()/back()/time() dereference a non-existing particle. *)
Theorem container_is_empty_refuted :
  exists ops st b seen, history ops st b seen /\ within_limits ops /\
    b_parts b = [] /\ size st = 0 /\ is_empty st = false /\
    front st = UB UB_oob /\ back st = UB UB_oob.
Proof.
  eexists [ORemove (copy_of 0 0); ORemove (copy_of 2 2); ORemove (copy_of 1 1);
     OInsert part0; OInsert part0; OInsert part0], _, _, _. split.
  - build_history.
  - splits; try (vm_compute; reflexivity). cbn; repeat split; vm_compute; discriminate.
Qed.
Print Assumptions container_is_empty_refuted.

(** C01, limit: the size_t argument of create() is truncated to 32 bits when the
    array is enlarged, so 2^32 particles are written past the end. *)
Theorem container_create_truncation_refuted :
  exists n, 0 <= n <= SIZE_MAX /\ create_n init_particles n 211 = UB UB_oob.
Proof. exists (2 ^ 32). split; [vm_compute; split; discriminate|vm_compute; reflexivity]. Qed.
Print Assumptions container_create_truncation_refuted.
