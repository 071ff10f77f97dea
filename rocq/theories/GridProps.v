(** C18-C20: the cell grid offers every close pair to the collision finder exactly once. *)
From Coq Require Import ZArith Reals List Bool Lia Lra Psatz Sorting.Permutation.
From Flocq Require Import Core.
From Verif Require Import Base Flt GridModel GridSpec GridProofs GridPeriodic GridBuild GridOffers GridPlace GridFinal GridMore.
Import ListNotations.
Open Scope Z_scope.

(** ** C18 open boundaries *)

(** Cells: index_in n enumerates the cells of the grid without collision. *)
Theorem cell_indices_bijective n : 1 <= cx n -> 1 <= cy n -> 1 <= cz n ->
  (forall a, is_cell n a -> 0 <= make_index n a < cx n * cy n * cz n) /\
  (forall a b, is_cell n a -> is_cell n b -> make_index n a = make_index n b -> a = b) /\
  (forall i, 0 <= i < cx n * cy n * cz n -> exists a, is_cell n a /\ make_index n a = i).
Proof.
  intros X Y Z. split; [|split].
  - intros. now apply make_index_range.
  - intros a b. apply make_index_inj.
  - intros. apply make_index_surj; lia.
Qed.
Print Assumptions cell_indices_bijective.

Theorem open_iteration_visits_once n : 1 <= cx n -> 1 <= cy n -> 1 <= cz n ->
  (forall c, is_cell n c -> count_occ call_eq_dec (iterate_open n) (Search (make_index n c)) = 1%nat) /\
  (forall a b, is_cell n a -> is_cell n b -> adjacent a b ->
     (count_occ call_eq_dec (iterate_open n) (Pair (make_index n a) no_shift (make_index n b)) +
      count_occ call_eq_dec (iterate_open n) (Pair (make_index n b) no_shift (make_index n a)) = 1)%nat) /\
  (forall k, In k (iterate_open n) ->
     (exists c, is_cell n c /\ k = Search (make_index n c)) \/
     (exists a b, is_cell n a /\ is_cell n b /\ adjacent a b /\
        k = Pair (make_index n a) no_shift (make_index n b))).
Proof.
  intros X Y Z. assert (P : pos_n n) by (unfold pos_n; auto). split; [|split].
  - intros. now apply open_cell_once.
  - intros a b A B [NE N]. now apply open_pair_once.
  - intros k K. apply in_iterate_open in K; auto. destruct K as (a & A & [->|(b & B & N & L & ->)]).
    + left. exists a. auto.
    + right. exists a, b. repeat split; try apply A; try apply B; try apply N. intros ->. lia.
Qed.
Print Assumptions open_iteration_visits_once.
Example open_iteration_case : is_cell (3, 2, 4) (2, 0, 1) /\ is_cell (3, 2, 4) (1, 1, 0) /\ adjacent (2, 0, 1) (1, 1, 0).
Proof. unfold is_cell, adjacent. cbn. repeat split; try lia. congruence. Qed.

(** Particles: from the construction to the pairs offered. *)
Theorem open_grid_offers_close_pairs_once ps maxlen limited incl g :
  (0 < maxlen)%R -> NoDup (map g_id ps) ->
  mk_grid_auto exact false ps maxlen limited incl false = Ok g ->
  exists os, offers false g = Ok os /\
   (forall p q, In p ps -> In q ps -> eligible incl p = true -> eligible incl q = true ->
     p <> q -> close maxlen p q -> times_offered os no_shift p q = 1%nat) /\
   (forall p q, (times_offered os no_shift p q <= 1)%nat) /\
   (forall x w y, In (x, w, y) os -> w = no_shift /\ exists p q, In p ps /\ In q ps /\
      eligible incl p = true /\ eligible incl q = true /\ p <> q /\ x = g_id p /\ y = g_id q).
Proof. exact (open_offers ps maxlen limited incl g). Qed.
Print Assumptions open_grid_offers_close_pairs_once.
(** a 4 x 1 x 1 grid with two close particles and an unformed one *)
Example open_grid_case : (0 < 1)%R /\ NoDup (map g_id row) /\
  (exists g, mk_grid_auto exact false row 1 false false false = Ok g /\ gr_n g = (4, 1, 1)) /\
  close 1 (GPart 7 1 0 0 true) (GPart 8 (3/2) 0 0 true).
Proof.
  split; [lra|]. split. { cbn. repeat (constructor; [cbn; lia|]). constructor. }
  split; [exact row_grid|]. unfold close. cbn [g_x g_y g_z].
  split; [|split]; apply Rabs_def1; lra.
Qed.

(** the largest-cell strategy without periodicity: one cell, every pair once *)
Theorem open_largest_offers_all_pairs_once minlen ps maxlen limited incl A :
  NoDup (map g_id ps) ->
  exists g os, mk_grid A false minlen ps maxlen limited incl true = Ok g /\ offers false g = Ok os /\
   (forall p q, In p ps -> In q ps -> p <> q -> times_offered os no_shift p q = 1%nat).
Proof.
  intros ND. destruct minlen as [mn len]. unfold mk_grid. cbn [negb andb].
  exists (Grid (1, 1, 1) [ps] len), (in_cell ps). split; [reflexivity|].
  split. { change (Ok (in_cell ps ++ []) = Ok (in_cell ps)). now rewrite app_nil_r. }
  intros p q Hp Hq NE.
  assert (D : g_id p <> g_id q) by (intros E; apply NE; now apply (id_inj ps)).
  assert (N1 : NoDup ps) by now apply NoDup_of_ids.
  assert (Nd : NoDup (in_cell ps)).
  { unfold in_cell. apply NoDup_flat_map; [auto| |].
    - intros a _. apply NoDup_flat_map; [auto| |].
      + intros b _. destruct (_ <? _); repeat constructor; cbn; tauto.
      + intros b b' o B B' O O'. destruct (_ <? _); [|destruct O]. destruct (_ <? _); [|destruct O'].
        destruct O as [<-|[]], O' as [O'|[]]. apply (id_inj ps); try tauto. congruence.
    - intros a a' o P P' O O'. apply in_flat_map in O, O'. destruct O as (b & _ & O), O' as (b' & _ & O').
      destruct (_ <? _); [|destruct O]. destruct (_ <? _); [|destruct O'].
      destruct O as [<-|[]], O' as [O'|[]]. apply (id_inj ps); try tauto. congruence. }
  apply once_of; auto.
  - destruct (Z.lt_ge_cases (g_id p) (g_id q)).
    + left. apply in_in_cell. exists p, q. repeat split; auto.
    + right. apply in_in_cell. exists q, p. repeat split; auto. lia.
  - intros [H1 H2]. apply in_in_cell in H1, H2.
    destruct H1 as (? & ? & _ & _ & _ & _ & _ & L), H2 as (? & ? & _ & _ & _ & _ & _ & L'). lia.
Qed.
Print Assumptions open_largest_offers_all_pairs_once.

(** ** C19 periodic box *)

Theorem periodic_iteration_visits_once n : 2 <= cx n -> 2 <= cy n -> 2 <= cz n ->
  (forall c, is_cell n c -> count_occ call_eq_dec (iterate_periodic n) (Search (make_index n c)) = 1%nat) /\
  (forall a b w, is_cell n a -> is_cell n b -> adjacent (periodic_image n a w) b ->
     (count_occ call_eq_dec (iterate_periodic n) (Pair (make_index n a) w (make_index n b)) +
      count_occ call_eq_dec (iterate_periodic n) (Pair (make_index n b) (opposite w) (make_index n a)) = 1)%nat) /\
  (forall k, In k (iterate_periodic n) ->
     (exists c, is_cell n c /\ k = Search (make_index n c)) \/
     (exists a b w, is_cell n a /\ is_cell n b /\ adjacent (periodic_image n a w) b /\
        k = Pair (make_index n a) w (make_index n b))).
Proof.
  intros X Y Z. assert (P : big_n n) by (unfold big_n; auto). split; [|split].
  - intros. now apply per_cell_once.
  - intros a b w A B [NE N]. now apply per_pair_once.
  - intros k K. apply in_iterate_periodic in K; auto. destruct K as (a & A & [->|(b & w & B & N & L & ->)]).
    + left. exists a. auto.
    + right. exists a, b, w. repeat split; try apply A; try apply B; try apply N.
      intros E. change (periodic_image n a w) with (image n a w) in E. rewrite E in L. lia.
Qed.
Print Assumptions periodic_iteration_visits_once.
(** across two faces at once *)
Example periodic_iteration_case :
  is_cell (3, 2, 4) (2, 0, 3) /\ is_cell (3, 2, 4) (0, 1, 0) /\
  adjacent (periodic_image (3, 2, 4) (2, 0, 3) (-1, 1, -1)) (0, 1, 0).
Proof. unfold is_cell, adjacent, periodic_image. cbn. repeat split; try lia. congruence. Qed.

(** [margin maxlen len] is maxlen - 2^-53 * len in each direction: the nextafter loop
    makes the last cell shorter by that relative amount. *)
Theorem periodic_grid_offers_close_images_once mn len ps maxlen limited incl g :
  (0 < maxlen)%R -> (0 <= rx len)%R -> (0 <= ry len)%R -> (0 <= rz len)%R -> NoDup (map g_id ps) ->
  (forall p, In p ps -> within mn len p) ->
  mk_grid exact true (mn, len) ps maxlen limited incl false = Ok g ->
  exists os, offers true g = Ok os /\
   (forall p q w, In p ps -> In q ps -> eligible incl p = true -> eligible incl q = true ->
     p <> q -> close_image (margin maxlen len) len w p q -> times_offered os w p q = 1%nat) /\
   (forall p q w, (times_offered os w p q <= 1)%nat) /\
   (forall x w y, In (x, w, y) os -> exists p q, In p ps /\ In q ps /\
      eligible incl p = true /\ eligible incl q = true /\ p <> q /\ x = g_id p /\ y = g_id q).
Proof. exact (per_offers mn len ps maxlen limited incl g). Qed.
Print Assumptions periodic_grid_offers_close_images_once.
(** a pair at opposite faces of a box of length 10 *)
Definition wrapped_pair : list gpart := [GPart 0 (1/4) 5 5 true; GPart 1 (39/4) 5 5 true].
Example periodic_grid_case :
  NoDup (map g_id wrapped_pair) /\
  (forall p, In p wrapped_pair -> within (0, 0, 0)%R (10, 10, 10)%R p) /\
  (exists g, mk_grid exact true ((0, 0, 0)%R, (10, 10, 10)%R) wrapped_pair 1 false true false = Ok g) /\
  close_image (margin 1 (10, 10, 10)%R) (10, 10, 10)%R (1, 0, 0) (GPart 0 (1/4) 5 5 true) (GPart 1 (39/4) 5 5 true).
Proof.
  assert (W : forall p, In p wrapped_pair -> within (0, 0, 0)%R (10, 10, 10)%R p).
  { intros p [<-|[<-|[]]]; unfold within; cbn [g_x g_y g_z rx ry rz fst snd]; lra. }
  split. { cbn. repeat (constructor; [cbn; lia|]). constructor. }
  split; [exact W|]. split.
  - destruct (grid_exact_succeeds true (0, 0, 0)%R (10, 10, 10)%R wrapped_pair 1 false true) as (g & E & _);
    cbn [rx ry rz fst snd]; try lra; auto; intros; lra || eauto.
  - unfold close_image, margin. cbn [g_x g_y g_z rx ry rz cx cy cz fst snd].
    assert (u < / 100)%R. { unfold u. replace (2 ^ 53)%R with 9007199254740992%R by (symmetry; exact (pow_IZR 2 53)). lra. }
    split; [|split]; apply Rabs_def1; lra.
Qed.

(** ** C20 construction *)

(** Exact arithmetic: construction succeeds for up to 1000 cells per direction, and the
    cells hold exactly the eligible particles, each once. *)
Theorem grid_files_every_particle_once periodic mn len ps maxlen limited incl :
  (0 < maxlen)%R -> (0 <= rx len <= 1000 * maxlen)%R -> (0 <= ry len <= 1000 * maxlen)%R -> (0 <= rz len <= 1000 * maxlen)%R ->
  (periodic = true -> (2 * maxlen <= rx len /\ 2 * maxlen <= ry len /\ 2 * maxlen <= rz len)%R) ->
  periodic = true \/ ps <> [] -> (forall p, In p ps -> within mn len p) -> NoDup (map g_id ps) ->
  exists g, mk_grid exact periodic (mn, len) ps maxlen limited incl false = Ok g /\
    Permutation (concat (gr_cells g)) (filter (eligible incl) ps).
Proof.
  intros M Lx Ly Lz P NE W ND.
  destruct (grid_exact_succeeds periodic mn len ps maxlen limited incl M Lx Ly Lz P NE W) as (g & E & Pl).
  exists g. split; auto. eapply placed_perm; eauto. apply NoDup_filter. now apply NoDup_of_ids.
Qed.
Print Assumptions grid_files_every_particle_once.

(** A periodic box shorter than two interaction lengths is rejected. *)
Theorem periodic_box_too_small_rejected mn len ps maxlen limited incl :
  (0 < maxlen)%R -> (0 <= rx len <= 1000 * maxlen)%R -> (0 <= ry len <= 1000 * maxlen)%R -> (0 <= rz len <= 1000 * maxlen)%R ->
  ((rx len < 2 * maxlen)%R \/ (ry len < 2 * maxlen)%R \/ (rz len < 2 * maxlen)%R) ->
  mk_grid exact true (mn, len) ps maxlen limited incl false = Throw E_runtime.
Proof. exact (small_box_throws mn len ps maxlen limited incl). Qed.
Print Assumptions periodic_box_too_small_rejected.

(** IEEE doubles: when the system extends over at least one cell length in every
    direction, construction never addresses a missing cell, and files every particle
    once; the rescaling loop terminates; the only undefined behaviour left is the int
    overflow of the number of cells (see below). *)
Theorem double_grid_files_every_particle_once ps maxlen limited incl largest mn len :
  ps <> [] -> NoDup (map g_id ps) -> find_min_and_length dbl ps = Ok (mn, len) ->
  (/ 2 ^ 900 <= maxlen)%R ->
  (maxlen <= rx len <= 2 ^ 900)%R -> (maxlen <= ry len <= 2 ^ 900)%R -> (maxlen <= rz len <= 2 ^ 900)%R ->
  match mk_grid_auto dbl false ps maxlen limited incl largest with
  | Ok g => Permutation (concat (gr_cells g)) (if largest then ps else filter (eligible incl) ps)
  | Throw _ => True
  | UB u => u = UB_signed_overflow
  end.
Proof. exact (dbl_files ps maxlen limited incl largest mn len). Qed.
Print Assumptions double_grid_files_every_particle_once.
Definition cube_corners : list gpart := [GPart 0 0 0 0 true; GPart 1 4 4 4 true].
Example double_grid_case : cube_corners <> [] /\ NoDup (map g_id cube_corners) /\
  find_min_and_length dbl cube_corners = Ok ((0, 0, 0)%R, (4, 4, 4)%R) /\ (1 <= 4 <= 2 ^ 900)%R /\ (/ 2 ^ 900 <= 1)%R.
Proof.
  split; [discriminate|]. split. { cbn. repeat (constructor; [cbn; lia|]). constructor. }
  split.
  - unfold find_min_and_length, cube_corners. cbn [fold_left g_x g_y g_z]. cbn [rx ry rz fst snd].
    rewrite !(Rmin_left 0 0), !(Rmax_left 0 0), !(Rmin_left 0 4), !(Rmax_right 0 4) by lra.
    cbn [rnd dbl]. rewrite !Rminus_0_r. rewrite fl_id; [reflexivity|]. apply (int_double 4). lia.
  - assert (2 ^ 2 <= 2 ^ 900)%R by (apply pow2_le; lia). simpl (2 ^ 2)%R in H.
    split; [lra|]. apply Rle_trans with (/ 2 ^ 0)%R; [apply pow2_inv_le; lia|]. simpl. lra.
Qed.

(** Finding: if the extent in one direction is just below the cell length, rounding can
    give one cell in that direction but cell coordinate 1 for the outermost particle,
    which is then filed outside the array. *)
Theorem short_extent_out_of_bounds_refuted :
  exists ps maxlen, NoDup (map g_id ps) /\ (0 < maxlen)%R /\
    mk_grid_auto dbl false ps maxlen false true false = UB UB_oob.
Proof.
  exists two_particles, m0. split. { cbn. repeat (constructor; [cbn; lia|]). constructor. }
  split; [unfold m0; lra|]. exact two_particles_oob.
Qed.
Print Assumptions short_extent_out_of_bounds_refuted.

(** Finding: without the cell-number limit (stochastic criterion) a few distant
    particles make the number of cells overflow int. *)
Theorem cell_count_overflows_refuted :
  exists ps maxlen, length ps = 2%nat /\ maxlen = 1%R /\
    (forall p, In p ps -> (0 <= g_x p <= 2000 /\ 0 <= g_y p <= 2000 /\ 0 <= g_z p <= 2000)%R) /\
    mk_grid_auto exact false ps maxlen false true false = UB UB_signed_overflow.
Proof.
  exists far_pair, 1%R. repeat split; try (exact far_pair_overflow);
  destruct H as [<-|[<-|[]]]; cbn; lra.
Qed.
Print Assumptions cell_count_overflows_refuted.

(** Finding: the largest-cell strategy ignores include_unformed_particles = false. *)
Theorem largest_strategy_keeps_unformed_refuted :
  exists ps g p, mk_grid_auto exact false ps 1 false false true = Ok g /\ In p ps /\
    eligible false p = false /\ In p (concat (gr_cells g)).
Proof.
  exists [GPart 0 0 0 0 false], (Grid (1, 1, 1) [[GPart 0 0 0 0 false]] (0, 0, 0)%R), (GPart 0 0 0 0 false).
  split.
  - unfold mk_grid_auto, find_min_and_length. cbn [fold_left g_x g_y g_z rx ry rz fst snd rbind mk_grid negb andb rnd exact].
    rewrite Rmin_left, Rmax_left by lra. rewrite Rminus_0_r. reflexivity.
  - cbn. auto.
Qed.
Print Assumptions largest_strategy_keeps_unformed_refuted.
