(** C101: the energy-momentum tensor and the Landau frame. Exact real arithmetic. *)
From Coq Require Import ZArith Reals List Bool Lia Lra Psatz.
From Verif Require Import Base VecModel VecProps KinProps MotionModel FinalProps TensorModel.
Import ListNotations.
Open Scope R_scope.

(** ** Specification *)
(** The component with two upper indices, as a user reads it. *)
Definition upper (T : tensor) (mu nu : nat) : R :=
  match tmn_index (Z.of_nat mu) (Z.of_nat nu) with Ok i => at_ T i | _ => 0 end.
Definition index (mu : nat) : Prop := (mu < 4)%nat.
(** The kinetic tensor of a set of particles: sum of p^mu p^nu / p^0. *)
Definition kinetic (ps : list vec4) (mu nu : nat) : R := fold_right Rplus 0 (map (fun p => comp4 p mu * comp4 p nu / y0 p) ps).
(** Contraction of the tensor with two vectors with lower indices. *)
Definition contract (T : tensor) (a b : vec4) : R := sum4r (fun i => sum4r (fun j => upper T i j * comp4 a i * comp4 b j)).
(** A vector with its indices lowered (or raised). *)
Definition lower (u : vec4) : vec4 := V4 (y0 u) (- y1 u) (- y2 u) (- y3 u).
(** T_mu^nu h_nu = lambda h_mu *)
Definition eigenpair (T : tensor) (l : R) (h : vec4) : Prop :=
  forall mu, index mu -> sum4r (fun nu => upper T mu nu * comp4 h nu) = l * comp4 (lower h) mu.
Definition ten (T : tensor) : Prop := length T = 10%nat.

Ltac four i H := unfold index in H; destruct i as [|[|[|[|i]]]]; [| | | |exfalso; lia].
Ltac idx := repeat match goal with |- context [tmn_index ?a ?b] => let v := eval vm_compute in (tmn_index a b) in change (tmn_index a b) with v end.
Lemma ten_eq T : ten T -> exists a b c d e f g h i j, T = [a; b; c; d; e; f; g; h; i; j].
Proof. unfold ten. intros L. do 10 (destruct T as [|? T]; [discriminate|]). destruct T; [|discriminate]. repeat eexists. Qed.
Lemma tadd_ten a b : ten a -> ten b -> ten (tadd a b).
Proof. unfold ten, tadd, map2. intros A B. rewrite map_length, combine_length, A, B. reflexivity. Qed.
Lemma add_ten T p : ten T -> ten (add_particle T p).
Proof. intros L. apply tadd_ten; auto. reflexivity. Qed.
Theorem index_symmetric mu nu : index mu -> index nu -> forall T, upper T mu nu = upper T nu mu.
Proof. intros M N T. four mu M; four nu N; reflexivity. Qed.
Print Assumptions index_symmetric.
Theorem index_rejects mu nu : (mu < 0 \/ 4 <= mu \/ nu < 0 \/ 4 <= nu)%Z -> tmn_index mu nu = Throw E_invalid_argument.
Proof.
  intros H. unfold tmn_index. destruct (Z.ltb_spec mu 4), (Z.ltb_spec nu 4), (Z.leb_spec 0 mu), (Z.leb_spec 0 nu); cbn [andb]; auto; lia.
Qed.
Print Assumptions index_rejects.
Lemma upper_add T p mu nu : ten T -> index mu -> index nu -> y0 p <> 0 ->
  upper (add_particle T p) mu nu = upper T mu nu + comp4 p mu * comp4 p nu / y0 p.
Proof.
  intros L M N E. destruct (ten_eq T L) as (a & b & c & d & e & f & g & h & i & j & ->).
  four mu M; four nu N; unfold upper, add_particle, tadd, map2, at_; idx;
    cbn [nth map combine fst snd comp4]; unfold div3, scale3, threevec; cbn [x1 x2 x3]; field; auto.
Qed.
(** Accumulating particles gives their kinetic tensor, whatever the order and with any weights. *)
Theorem tensor_of_particles ps mu nu : index mu -> index nu -> Forall (fun p => y0 p <> 0) ps ->
  upper (fold_left add_particle ps zero_tensor) mu nu = kinetic ps mu nu.
Proof.
  intros M N F. assert (G : forall T, ten T -> upper (fold_left add_particle ps T) mu nu = upper T mu nu + kinetic ps mu nu /\ ten (fold_left add_particle ps T)).
  { induction F as [|p ps P F IH]; intros T L; cbn [fold_left].
    - unfold kinetic. cbn. split; [ring|auto].
    - destruct (IH (add_particle T p) (add_ten T p L)) as [A B]. split; auto. rewrite A, upper_add by auto. unfold kinetic. cbn [map fold_right]. ring. }
  destruct (G zero_tensor eq_refl) as [A _]. rewrite A. four mu M; four nu N; unfold upper, zero_tensor, at_; idx; cbn [repeat nth]; ring.
Qed.
Print Assumptions tensor_of_particles.
Theorem weighted_particle T p k mu nu : ten T -> index mu -> index nu -> y0 p <> 0 ->
  upper (add_particle_factor T p k) mu nu = upper T mu nu + k * (comp4 p mu * comp4 p nu / y0 p).
Proof.
  intros L M N E. unfold add_particle_factor. destruct (Req_EM_T k 0) as [->|K]; [ring|].
  rewrite upper_add by (auto; cbn; nra). four mu M; four nu N; unfold scale4; cbn [comp4 y0 y1 y2 y3]; field; auto.
Qed.
Print Assumptions weighted_particle.

(** ** Boosts *)
(** A velocity four-vector. *)
Definition unit4 (u : vec4) : Prop := 0 < y0 u /\ minkowski u u = 1.
Lemma unit_velocity u : unit4 u -> let v := velocity u in speed2 v < 1 /\ gamma v = y0 u.
Proof.
  intros [U E]. cbv zeta. unfold minkowski in E. assert (SP : speed2 (velocity u) = 1 - 1 / (y0 u * y0 u)).
  { unfold speed2, velocity, div3, scale3, threevec. cbn [x1 x2 x3].
    replace (1 - 1 / (y0 u * y0 u)) with ((y0 u * y0 u - 1) / (y0 u * y0 u)) by (field; lra).
    replace (y0 u * y0 u - 1) with (y1 u * y1 u + y2 u * y2 u + y3 u * y3 u) by lra. field. lra. }
  assert (I : 0 < 1 / (y0 u * y0 u)) by (apply Rdiv_lt_0_compat; nra). assert (S1 : speed2 (velocity u) < 1) by lra.
  split; auto. destruct (gamma_eq (velocity u) S1) as [G Q]. rewrite SP in Q.
  apply sq_inj; try lra. replace (1 - (1 - 1 / (y0 u * y0 u))) with (/ (y0 u * y0 u)) in Q by (field; lra).
  apply Rmult_eq_reg_r with (/ (y0 u * y0 u)); [|apply Rgt_not_eq, Rinv_0_lt_compat; nra]. rewrite Q. field. lra.
Qed.
Lemma unit_lower u : unit4 u -> unit4 (lower u).
Proof. unfold unit4, minkowski, lower. cbn. intros. lra. Qed.
(** The matrix with a lower-index velocity is the Lorentz boost into the frame moving with that velocity. *)
Lemma lmat_boost u p i : unit4 u -> index i -> sum4r (fun a => lmat (lower u) i a * comp4 p a) = comp4 (boost (velocity u) p) i.
Proof.
  intros U I. destruct (unit_velocity u U) as [SP G]. destruct U as [UP UE]. unfold boost. rewrite G.
  four i I; unfold sum4r, lmat, comp4, lower, mk4, sub3, velocity, div3, threevec, dot3, scale3; cbn [Nat.eqb y0 y1 y2 y3 x1 x2 x3]; field; lra.
Qed.
Lemma lmat_sym u i j : index i -> index j -> lmat u i j = lmat u j i.
Proof. intros I J. four i I; four j J; unfold lmat, comp4; cbn; try reflexivity; unfold Rdiv; ring. Qed.
Lemma amat_upper T i j : index i -> index j -> amat T i j = upper T i j.
Proof. intros I J. four i I; four j J; reflexivity. Qed.
Lemma upper_boosted T u i j : index i -> index j -> upper (boosted T u) i j = rmat T u i j.
Proof.
  assert (SY : forall a b, index a -> index b -> rmat T u a b = rmat T u b a).
  { intros a b A B. unfold rmat, sum4r. repeat rewrite (lmat_sym u _ b) by (unfold index in *; auto; lia). repeat rewrite (lmat_sym u a) by (unfold index in *; auto; lia).
    repeat rewrite (fun i j H1 H2 => amat_upper T i j H1 H2) by (unfold index; lia).
    rewrite (index_symmetric 1 0), (index_symmetric 2 0), (index_symmetric 3 0), (index_symmetric 2 1), (index_symmetric 3 1), (index_symmetric 3 2) by (unfold index; lia). ring. }
  intros I J. assert (D : (i <= j)%nat \/ (j <= i)%nat) by lia.
  destruct D as [D|D]; [|rewrite SY by auto]; four i I; four j J; try (exfalso; lia); reflexivity.
Qed.
(** Boosting the tensor of a set of particles gives the sum of p'^mu p'^nu / p^0 with the boosted momenta
    (the density 1/p^0 is not transformed: the tensor is one at a point). [u] is the velocity with upper
    index, what is passed is the one with lower index. *)
Theorem boosted_tensor u ps mu nu : unit4 u -> index mu -> index nu -> Forall (fun p => y0 p <> 0) ps ->
  upper (boosted (fold_left add_particle ps zero_tensor) (lower u)) mu nu =
  fold_right Rplus 0 (map (fun p => comp4 (boost (velocity u) p) mu * comp4 (boost (velocity u) p) nu / y0 p) ps).
Proof.
  intros U M N F. rewrite upper_boosted by auto. unfold rmat.
  assert (A : forall i j, index i -> index j -> amat (fold_left add_particle ps zero_tensor) i j = kinetic ps i j).
  { intros i j I J. rewrite amat_upper by auto. now apply tensor_of_particles. }
  unfold sum4r. repeat rewrite A by (unfold index; lia). clear A. unfold kinetic. induction F as [|p ps P F IH]; cbn [map fold_right]; [ring|].
  rewrite <- IH. rewrite <- (lmat_boost u p mu U M), <- (lmat_boost u p nu U N). unfold sum4r.
  rewrite (lmat_sym _ 0 nu), (lmat_sym _ 1 nu), (lmat_sym _ 2 nu), (lmat_sym _ 3 nu) by (unfold index in *; auto; lia). field. auto.
Qed.
Print Assumptions boosted_tensor.
(** In the rest frame of an eigenvector there is no energy flow and the energy density is the eigenvalue. *)
Lemma lrow u : y0 u <> 0 -> forall i, index i -> lmat u 0 i = comp4 u i.
Proof. intros _ i I. four i I; reflexivity. Qed.
Theorem landau_frame_is_rest_frame T l u : unit4 u -> eigenpair T l u ->
  upper (boosted T u) 0 0 = l /\ upper (boosted T u) 0 1 = 0 /\ upper (boosted T u) 0 2 = 0 /\ upper (boosted T u) 0 3 = 0.
Proof.
  intros [U E] H. assert (R : forall b, index b -> sum4r (fun a => lmat u 0 a * amat T a b) = l * comp4 (lower u) b).
  { intros b B. rewrite <- (H b B). unfold sum4r. rewrite !amat_upper by (unfold index in *; lia).
    rewrite (index_symmetric 0 b), (index_symmetric 1 b), (index_symmetric 2 b), (index_symmetric 3 b) by (unfold index in *; auto; lia). cbn [lmat comp4]. ring. }
  rewrite !upper_boosted by (unfold index; lia). unfold rmat. unfold sum4r at 1 3 5 7. rewrite !R by (unfold index; lia).
  unfold minkowski in E. assert (D : 1 + y0 u <> 0) by lra. unfold lmat, lower, comp4. cbn [y0 y1 y2 y3 Nat.eqb].
  splits.
  - transitivity (l * (y0 u * y0 u - (y1 u * y1 u + y2 u * y2 u + y3 u * y3 u))); [ring|rewrite E; ring].
  - transitivity (l * y1 u * (y0 u * (1 + y0 u) - (1 + y0 u) - (y1 u * y1 u + y2 u * y2 u + y3 u * y3 u)) / (1 + y0 u)); [field; auto|].
    replace (y1 u * y1 u + y2 u * y2 u + y3 u * y3 u) with (y0 u * y0 u - 1) by lra. field. auto.
  - transitivity (l * y2 u * (y0 u * (1 + y0 u) - (1 + y0 u) - (y1 u * y1 u + y2 u * y2 u + y3 u * y3 u)) / (1 + y0 u)); [field; auto|].
    replace (y1 u * y1 u + y2 u * y2 u + y3 u * y3 u) with (y0 u * y0 u - 1) by lra. field. auto.
  - transitivity (l * y3 u * (y0 u * (1 + y0 u) - (1 + y0 u) - (y1 u * y1 u + y2 u * y2 u + y3 u * y3 u)) / (1 + y0 u)); [field; auto|].
    replace (y1 u * y1 u + y2 u * y2 u + y3 u * y3 u) with (y0 u * y0 u - 1) by lra. field. auto.
Qed.
Print Assumptions landau_frame_is_rest_frame.

(** ** The Landau frame *)
(** Positive-energy particles of non-negative mass squared. *)
Definition physical (p : vec4) : Prop := 0 < y0 p /\ 0 <= minkowski p p.
Definition massive (p : vec4) : Prop := 0 < y0 p /\ 0 < minkowski p p.
Definition tensor_of (ps : list vec4) : tensor := fold_left add_particle ps zero_tensor.
Definition nonzero (h : vec4) : Prop := h <> V4 0 0 0 0.
(** Four vectors forming a basis: the matrix of their components has an inverse. *)
Definition delta (i j : nat) : R := if (i =? j)%nat then 1 else 0.
Definition basis (h : nat -> vec4) : Prop := exists K : nat -> nat -> R,
  (forall i j, index i -> index j -> sum4r (fun k => comp4 (h k) i * K k j) = delta i j) /\
  (forall i j, index i -> index j -> sum4r (fun k => K i k * comp4 (h j) k) = delta i j).
(** Contraction of a momentum with a vector with lower index *)
Definition pairing (p h : vec4) : R := sum4r (fun m => comp4 p m * comp4 h m).

Lemma contract_eigen T l a h : eigenpair T l h -> contract T a h = l * minkowski a h.
Proof.
  intros E. assert (Q := fun m (M : (m < 4)%nat) => E m M). assert (Q0 := Q 0%nat ltac:(lia)). assert (Q1 := Q 1%nat ltac:(lia)). assert (Q2 := Q 2%nat ltac:(lia)). assert (Q3 := Q 3%nat ltac:(lia)).
  transitivity (sum4r (fun i => comp4 a i * sum4r (fun j => upper T i j * comp4 h j))); [unfold contract, sum4r; ring|].
  unfold sum4r at 1. rewrite Q0, Q1, Q2, Q3. unfold minkowski, lower, comp4. cbn [y0 y1 y2 y3]. ring.
Qed.
Lemma contract_sym T a b : contract T a b = contract T b a.
Proof.
  unfold contract, sum4r.
  rewrite (index_symmetric 1 0), (index_symmetric 2 0), (index_symmetric 3 0), (index_symmetric 2 1), (index_symmetric 3 1), (index_symmetric 3 2) by (unfold index; lia). ring.
Qed.
Lemma contract_particles ps a b : Forall (fun p => y0 p <> 0) ps ->
  contract (tensor_of ps) a b = fold_right Rplus 0 (map (fun p => pairing p a * pairing p b / y0 p) ps).
Proof.
  intros F. unfold contract, sum4r, tensor_of. rewrite !tensor_of_particles by (auto; unfold index; lia). unfold kinetic.
  induction F as [|p ps P F IH]; cbn [map fold_right]; [ring|]. rewrite <- IH. unfold pairing, sum4r. field. auto.
Qed.
Lemma sum_nonneg {A} (f : A -> R) l : Forall (fun x => 0 <= f x) l -> 0 <= fold_right Rplus 0 (map f l).
Proof. induction 1; cbn [map fold_right]; lra. Qed.
Lemma sum_pos {A} (f : A -> R) l x : Forall (fun x => 0 <= f x) l -> In x l -> 0 < f x -> 0 < fold_right Rplus 0 (map f l).
Proof. intros F I P. induction F as [|y l Y F IH]; [easy|]. cbn [map fold_right]. pose proof (sum_nonneg f l F). destruct I as [->|I]; [lra|]. specialize (IH I). lra. Qed.
Lemma physical_nz ps : Forall physical ps -> Forall (fun p => y0 p <> 0) ps.
Proof. apply Forall_impl. intros p [P _]. lra. Qed.
Lemma contract_nonneg ps h : Forall physical ps -> 0 <= contract (tensor_of ps) h h.
Proof.
  intros F. rewrite contract_particles by now apply physical_nz. apply sum_nonneg. eapply Forall_impl; [|exact F]. intros p [P _].
  apply Rmult_le_pos; [apply Rle_0_sqr|left; now apply Rinv_0_lt_compat].
Qed.
Lemma pairing_nonzero p h : massive p -> nonzero h -> 0 <= minkowski h h -> pairing p h <> 0.
Proof.
  intros [P M] N H E. unfold pairing, sum4r, comp4 in E. unfold minkowski in M, H.
  destruct p as [p0 p1 p2 p3], h as [h0 h1 h2 h3]. cbn [y0 y1 y2 y3] in *.
  assert (C : (p1 * h1 + p2 * h2 + p3 * h3) * (p1 * h1 + p2 * h2 + p3 * h3) <= (p1 * p1 + p2 * p2 + p3 * p3) * (h1 * h1 + h2 * h2 + h3 * h3)).
  { pose proof (Rle_0_sqr (p1 * h2 - p2 * h1)). pose proof (Rle_0_sqr (p1 * h3 - p3 * h1)). pose proof (Rle_0_sqr (p2 * h3 - p3 * h2)). unfold Rsqr in *. nra. }
  replace (p1 * h1 + p2 * h2 + p3 * h3) with (- (p0 * h0)) in C by lra.
  destruct (Req_dec h0 0) as [Z|Z].
  - subst h0. apply N. assert (Q : h1 * h1 + h2 * h2 + h3 * h3 <= 0) by lra.
    pose proof (Rle_0_sqr h1). pose proof (Rle_0_sqr h2). pose proof (Rle_0_sqr h3). unfold Rsqr in *.
    f_equal; apply Rsqr_0_uniq; unfold Rsqr; lra.
  - assert (H2 : 0 < h0 * h0) by nra. set (P2 := p1 * p1 + p2 * p2 + p3 * p3) in *. set (H3 := h1 * h1 + h2 * h2 + h3 * h3) in *.
    assert (0 <= P2) by (unfold P2; nra). assert (P2 * H3 <= P2 * (h0 * h0)) by (apply Rmult_le_compat_l; lra).
    assert (P2 * (h0 * h0) < p0 * p0 * (h0 * h0)) by (apply Rmult_lt_compat_r; lra). nra.
Qed.
Lemma contract_pos ps p h : Forall physical ps -> In p ps -> massive p -> nonzero h -> 0 <= minkowski h h -> 0 < contract (tensor_of ps) h h.
Proof.
  intros F I M N H. rewrite contract_particles by now apply physical_nz. eapply sum_pos; [|exact I|].
  - eapply Forall_impl; [|exact F]. intros q [Q _]. apply Rmult_le_pos; [apply Rle_0_sqr|left; now apply Rinv_0_lt_compat].
  - pose proof (pairing_nonzero p h M N H). destruct M as [P _]. apply Rdiv_lt_0_compat; auto. nra.
Qed.
(** The sign of an eigenvalue tells whether its eigenvector is a velocity: for positive-energy particles of which
    at least one is massive, no eigenvector is light-like, those with a positive eigenvalue (the energy density) are
    exactly the time-like ones, the others have the eigenvalue minus a non-negative pressure. *)
Theorem eigenvalue_sign ps p l h : Forall physical ps -> In p ps -> massive p -> nonzero h -> eigenpair (tensor_of ps) l h ->
  (0 < minkowski h h <-> 0 < l) /\ (minkowski h h < 0 <-> l <= 0).
Proof.
  intros F I M N E. pose proof (contract_nonneg ps h F) as C0. rewrite (contract_eigen _ _ _ _ E) in C0.
  assert (Z : 0 <= minkowski h h -> 0 < l * minkowski h h).
  { intros H. rewrite <- (contract_eigen _ _ h h E). eapply contract_pos; eauto. }
  destruct (Rtotal_order (minkowski h h) 0) as [G|[G|G]].
  - split; split; intros; nra.
  - rewrite G in Z. specialize (Z (Rle_refl 0)). nra.
  - specialize (Z (Rlt_le _ _ G)). split; split; intros; nra.
Qed.
Print Assumptions eigenvalue_sign.

(** There is at most one Landau frame. *)
Lemma timelike_not_orthogonal a b : 0 < y0 a -> 0 < y0 b -> 0 < minkowski a a -> 0 < minkowski b b -> minkowski a b <> 0.
Proof.
  intros A B AA BB E. apply (pairing_nonzero a (lower b)); [split; auto| | |].
  - intros Z. injection Z as Z _ _ _. lra.
  - unfold minkowski, lower in *. cbn. lra.
  - unfold pairing, sum4r, comp4, lower. cbn [y0 y1 y2 y3]. unfold minkowski in E. lra.
Qed.
Lemma spacelike_rest u g : unit4 u -> minkowski u g = 0 -> minkowski g g = 0 \/ 0 < minkowski g g -> g = V4 0 0 0 0.
Proof.
  intros [U E] O H. destruct (Req_dec (y0 g) 0) as [Z|Z].
  - destruct g as [g0 g1 g2 g3]. unfold minkowski in *. cbn [y0 y1 y2 y3] in *. subst.
    pose proof (Rle_0_sqr g1). pose proof (Rle_0_sqr g2). pose proof (Rle_0_sqr g3). unfold Rsqr in *. f_equal; apply Rsqr_0_uniq; unfold Rsqr; lra.
  - exfalso. apply (pairing_nonzero u (lower g)); [split; auto; lra| | |].
    + intros Q. injection Q as Q _ _ _. lra.
    + unfold minkowski, lower in *. cbn. lra.
    + unfold pairing, sum4r, comp4, lower. cbn [y0 y1 y2 y3]. unfold minkowski in O. lra.
Qed.
Lemma eigen_combo T l u h k : eigenpair T l u -> eigenpair T l h -> eigenpair T l (V4 (y0 h - k * y0 u) (y1 h - k * y1 u) (y2 h - k * y2 u) (y3 h - k * y3 u)).
Proof.
  intros A B m M. specialize (A m M). specialize (B m M). unfold sum4r in *.
  transitivity (l * comp4 (lower h) m - k * (l * comp4 (lower u) m)).
  - rewrite <- A, <- B. cbn [comp4 y0 y1 y2 y3]. ring.
  - clear A B. four m M; unfold lower, comp4; cbn [y0 y1 y2 y3]; ring.
Qed.
Theorem landau_frame_unique ps p l l' u u' : Forall physical ps -> In p ps -> massive p ->
  unit4 u -> unit4 u' -> eigenpair (tensor_of ps) l u -> eigenpair (tensor_of ps) l' u' -> u = u' /\ l = l'.
Proof.
  intros F I M U U' E E'.
  assert (NZ : forall w, unit4 w -> nonzero w). { intros w [W _] Z. rewrite Z in W. cbn in W. lra. }
  assert (L : 0 < l). { apply (eigenvalue_sign ps p l u F I M (NZ u U) E). destruct U. lra. }
  assert (Q : l = l').
  { pose proof (contract_eigen _ _ u' u E) as X. pose proof (contract_eigen _ _ u u' E') as Y. rewrite contract_sym in X. rewrite X in Y.
    assert (S1 : minkowski u' u = minkowski u u') by (unfold minkowski; ring). rewrite S1 in Y.
    pose proof (timelike_not_orthogonal u u') as TN. destruct U as [U1 U2], U' as [U3 U4].
    specialize (TN U1 U3 ltac:(lra) ltac:(lra)). apply Rmult_eq_reg_r with (minkowski u u'); auto. }
  split; auto. subst l'. set (k := minkowski u u'). pose proof (eigen_combo _ _ _ _ k E E') as G.
  set (g := V4 (y0 u' - k * y0 u) (y1 u' - k * y1 u) (y2 u' - k * y2 u) (y3 u' - k * y3 u)) in *.
  assert (O : minkowski u g = 0). { transitivity (k - k * minkowski u u); [unfold g, k, minkowski; cbn [y0 y1 y2 y3]; ring|]. destruct U as [_ ->]. ring. }
  assert (Z : g = V4 0 0 0 0).
  { apply (spacelike_rest u g U O). pose proof (contract_nonneg ps g F) as C. rewrite (contract_eigen _ _ _ _ G) in C.
    destruct (Rtotal_order (minkowski g g) 0) as [X|[X|X]]; auto. exfalso. nra. }
  unfold g in Z. injection Z as Z0 Z1 Z2 Z3.
  assert (KK : k * k = 1). { destruct U as [_ UU], U' as [_ UU']. rewrite <- UU'. clear O. clearbody k. unfold minkowski in *.
    replace (y1 u') with (k * y1 u) by lra. replace (y2 u') with (k * y2 u) by lra. replace (y3 u') with (k * y3 u) by lra. replace (y0 u') with (k * y0 u) by lra.
    transitivity (k * k * (y0 u * y0 u - (y1 u * y1 u + y2 u * y2 u + y3 u * y3 u))); [rewrite UU; ring|ring]. }
  assert (k = 1). { destruct U as [U _], U' as [U' _]. assert (0 < k) by nra. nra. }
  destruct u as [a0 a1 a2 a3], u' as [b0 b1 b2 b3]. cbn [y0 y1 y2 y3] in *. f_equal; nra.
Qed.
Print Assumptions landau_frame_unique.

(** The trace of the tensor is the sum of the eigenvalues and is positive as soon as one particle is massive. *)
Definition trace (T : tensor) : R := upper T 0 0 - upper T 1 1 - upper T 2 2 - upper T 3 3.
Lemma trace_particles ps : Forall (fun p => y0 p <> 0) ps -> trace (tensor_of ps) = fold_right Rplus 0 (map (fun p => minkowski p p / y0 p) ps).
Proof.
  intros F. unfold trace, tensor_of. rewrite !tensor_of_particles by (auto; unfold index; lia). unfold kinetic.
  induction F as [|p ps P F IH]; cbn [map fold_right]; [ring|]. rewrite <- IH. unfold minkowski, comp4. field. auto.
Qed.
Lemma trace_eigen T (l : nat -> R) h : basis h -> (forall k, index k -> eigenpair T (l k) (h k)) -> trace T = sum4r l.
Proof.
  intros (K & HK & KH) E.
  set (g := fun i : nat => match i with O => 1 | _ => - 1 end).
  assert (M : forall i k, index i -> index k -> sum4r (fun j => g i * upper T i j * comp4 (h k) j) = l k * comp4 (h k) i).
  { intros i k I J. specialize (E k J i I). unfold sum4r in *. transitivity (g i * (l k * comp4 (lower (h k)) i)).
    - rewrite <- E. ring.
    - clear E. four i I; unfold g, lower, comp4; cbn [y0 y1 y2 y3]; ring. }
  assert (D : forall i, index i -> g i * upper T i i = sum4r (fun k => l k * (comp4 (h k) i * K k i))).
  { intros i I. transitivity (sum4r (fun j => g i * upper T i j * delta j i)).
    - four i I; unfold sum4r, delta; cbn [Nat.eqb]; ring.
    - unfold sum4r at 1. rewrite <- !HK by (auto; unfold index; lia).
      transitivity (sum4r (fun k => sum4r (fun j => g i * upper T i j * comp4 (h k) j) * K k i)); [unfold sum4r; ring|].
      unfold sum4r at 1. rewrite !M by (auto; unfold index; lia). unfold sum4r. ring. }
  transitivity (sum4r (fun i => g i * upper T i i)); [unfold trace, sum4r, g; ring|].
  unfold sum4r at 1. rewrite !D by (unfold index; lia).
  transitivity (sum4r (fun k => l k * sum4r (fun i => K k i * comp4 (h k) i))); [unfold sum4r; ring|].
  unfold sum4r at 1. rewrite !KH by (unfold index; lia). unfold delta, sum4r. cbn [Nat.eqb]. ring.
Qed.
Lemma basis_nonzero h k : basis h -> index k -> nonzero (h k).
Proof.
  intros (K & _ & KH) I Z. specialize (KH k k I I). rewrite Z in KH. unfold delta in KH. rewrite Nat.eqb_refl in KH. unfold sum4r in KH.
  cbn [comp4 y0 y1 y2 y3] in KH. lra.
Qed.
Lemma max_eigen_spec es : forall best, In (max_eigen best es) (best :: es) /\ (forall e, In e (best :: es) -> fst e <= fst (max_eigen best es)).
Proof.
  induction es as [|e es IH]; intros best; cbn [max_eigen].
  - split; [now left|]. intros e [->|[]]. lra.
  - destruct (IH (if Rlt_dec (fst best) (fst e) then e else best)) as [A B]. split.
    + destruct (Rlt_dec _ _), A as [A|A]; [right; now left|right; now right|now left|right; now right].
    + intros x [->|[->|X]].
      * specialize (B _ (or_introl eq_refl)). destruct (Rlt_dec _ _); lra.
      * specialize (B _ (or_introl eq_refl)). destruct (Rlt_dec _ _); lra.
      * apply B. now right.
Qed.
Lemma eigen_scale T l h k : eigenpair T l h -> eigenpair T l (scale4 k h).
Proof.
  intros E m M. specialize (E m M). unfold sum4r in *. transitivity (k * (l * comp4 (lower h) m)).
  - rewrite <- E. unfold scale4. cbn [comp4 y0 y1 y2 y3]. ring.
  - clear E. four m M; unfold lower, scale4, comp4; cbn [y0 y1 y2 y3]; ring.
Qed.
(** Whatever order Eigen returns the four eigenpairs in, the vector selected is time-like. If its Minkowski square
    exceeds 1e-6 the result is the Landau velocity: future-directed, normalised, the only such eigenvector, and in
    its rest frame the energy density is the largest eigenvalue and there is no energy flow. The missing case is
    [landau_frame_refuted]. *)
Theorem landau_frame_partial ps p e0 e1 e2 e3 : Forall physical ps -> In p ps -> massive p ->
  let e := fun k => match k with 0 => e0 | 1 => e1 | 2 => e2 | _ => e3 end%nat in
  (forall k, index k -> eigenpair (tensor_of ps) (fst (e k)) (snd (e k))) -> basis (fun k => snd (e k)) ->
  let best := max_eigen e0 [e1; e2; e3] in
  let u := landau_velocity e0 [e1; e2; e3] in
  0 < fst best /\ 0 < minkowski (snd best) (snd best) /\
  (really_small < minkowski (snd best) (snd best) ->
     unit4 u /\ eigenpair (tensor_of ps) (fst best) u /\
     (forall l' u', unit4 u' -> eigenpair (tensor_of ps) l' u' -> u' = u /\ l' = fst best) /\
     upper (boosted (tensor_of ps) u) 0 0 = fst best /\
     forall i, (1 <= i < 4)%nat -> upper (boosted (tensor_of ps) u) 0 i = 0).
Proof.
  intros F I M e E B best u. destruct (max_eigen_spec [e1; e2; e3] e0) as [IN MAX]. fold best in IN, MAX.
  assert (TR : 0 < trace (tensor_of ps)).
  { rewrite trace_particles by now apply physical_nz. eapply sum_pos; [|exact I|].
    - eapply Forall_impl; [|exact F]. intros q [Q1 Q2]. apply Rmult_le_pos; auto. left. now apply Rinv_0_lt_compat.
    - destruct M. now apply Rdiv_lt_0_compat. }
  rewrite (trace_eigen _ (fun k => fst (e k)) (fun k => snd (e k)) B E) in TR. unfold sum4r, e in TR.
  assert (P : 0 < fst best).
  { pose proof (MAX e0 ltac:(cbn; auto)). pose proof (MAX e1 ltac:(cbn; auto)). pose proof (MAX e2 ltac:(cbn; auto)). pose proof (MAX e3 ltac:(cbn; auto)). lra. }
  assert (K : exists k, index k /\ best = e k).
  { unfold index. destruct IN as [X|[X|[X|[X|[]]]]]; [exists 0%nat|exists 1%nat|exists 2%nat|exists 3%nat]; split; try lia; unfold e; congruence. }
  destruct K as (k & KI & KE). assert (BE : eigenpair (tensor_of ps) (fst best) (snd best)) by (rewrite KE; apply E; auto).
  assert (BN : nonzero (snd best)) by (rewrite KE; apply (basis_nonzero (fun k => snd (e k))); auto).
  assert (TL : 0 < minkowski (snd best) (snd best)) by (apply (eigenvalue_sign ps p (fst best) (snd best) F I M BN BE); auto).
  split; [exact P|split; [exact TL|]]. intros RS.
  set (w := if Rlt_dec (y0 (snd best)) 0 then scale4 (-1) (snd best) else snd best).
  assert (W : eigenpair (tensor_of ps) (fst best) w) by (unfold w; destruct (Rlt_dec _ _); auto using eigen_scale).
  assert (WW : minkowski w w = minkowski (snd best) (snd best)) by (unfold w; destruct (Rlt_dec _ _); auto; unfold minkowski, scale4; cbn [y0 y1 y2 y3]; ring).
  assert (W0 : 0 < y0 w).
  { assert (Z : y0 (snd best) <> 0). { intros Z. unfold minkowski in TL. rewrite Z in TL. nra. }
    unfold w. destruct (Rlt_dec _ _); [unfold scale4; cbn [y0]|]; lra. }
  assert (UE : u = scale4 (1 / sqrt (minkowski w w)) w).
  { unfold u, landau_velocity. fold best. cbv zeta. fold w. clearbody w. replace (sqr4 w) with (minkowski w w) by (unfold sqr4, minkowski; ring). 
    destruct (Rlt_dec really_small (minkowski w w)) as [_|Q]; auto. exfalso. lra. }
  assert (SQ : 0 < sqrt (minkowski w w)) by (apply sqrt_lt_R0; lra).
  assert (UN : unit4 u).
  { rewrite UE. split.
    - unfold scale4. cbn [y0]. apply Rmult_lt_0_compat; auto. apply Rdiv_lt_0_compat; lra.
    - pose proof (sqrt_sqrt (minkowski w w) ltac:(lra)) as QQ. set (q := sqrt (minkowski w w)) in *. clearbody q.
      transitivity (minkowski w w / (q * q)).
      + unfold minkowski, scale4. cbn [y0 y1 y2 y3]. field. lra.
      + rewrite QQ. field. lra. }
  assert (UEI : eigenpair (tensor_of ps) (fst best) u) by (rewrite UE; now apply eigen_scale).
  destruct (landau_frame_is_rest_frame _ _ _ UN UEI) as (R0 & R1 & R2 & R3).
  splits; auto.
  - intros l' u' U' E'. destruct (landau_frame_unique ps p l' (fst best) u' u F I M U' UN E' UEI). auto.
  - intros i [J1 J2]. destruct i as [|[|[|[|i]]]]; auto; lia.
Qed.
Print Assumptions landau_frame_partial.

(** A particle with a Lorentz factor above about 707 has a Landau frame, yet (1,0,0,0) is returned: Eigen's
    eigenvectors have Euclidean length one, so the Minkowski square of the velocity direction is about
    1/(2 gamma^2) and the threshold 1e-6 takes it for light-like. The energy flow in the "Landau frame" is then
    not zero. *)
Definition euclid (h : vec4) : R := y0 h * y0 h + y1 h * y1 h + y2 h * y2 h + y3 h * y3 h.
Theorem landau_frame_refuted : exists p e0 e1 e2 e3,
  massive p /\
  let e := fun k => match k with 0 => e0 | 1 => e1 | 2 => e2 | _ => e3 end%nat in
  (forall k, index k -> eigenpair (tensor_of [p]) (fst (e k)) (snd (e k)) /\ euclid (snd (e k)) = 1) /\ basis (fun k => snd (e k)) /\
  landau_velocity e0 [e1; e2; e3] = V4 1 0 0 0 /\ upper (boosted (tensor_of [p]) (landau_velocity e0 [e1; e2; e3])) 0 1 <> 0.
Proof.
  set (E := 1000). set (k := 9999999 / 10000). set (N := sqrt (E * E + k * k)).
  assert (NN : N * N = E * E + k * k) by (apply sqrt_sqrt; unfold E, k; lra). assert (NP : 0 < N) by (apply sqrt_lt_R0; unfold E, k; lra).
  assert (UP : forall p m n, index m -> index n -> y0 p <> 0 -> upper (tensor_of [p]) m n = comp4 p m * comp4 p n / y0 p).
  { intros. unfold tensor_of. rewrite tensor_of_particles by (auto; constructor; auto). unfold kinetic. cbn [map fold_right]. ring. }
  exists (V4 E k 0 0), ((E * E - k * k) / E, V4 (E / N) (- k / N) 0 0), (0, V4 (k / N) (- E / N) 0 0), (0, V4 0 0 1 0), (0, V4 0 0 0 1).
  assert (EP : E <> 0) by (unfold E; lra). assert (D : E * E - k * k <> 0) by (unfold E, k; lra).
  assert (LV : landau_velocity ((E * E - k * k) / E, V4 (E / N) (- k / N) 0 0) [(0, V4 (k / N) (- E / N) 0 0); (0, V4 0 0 1 0); (0, V4 0 0 0 1)] = V4 1 0 0 0).
  { assert (0 < (E * E - k * k) / E) by (apply Rdiv_lt_0_compat; unfold E, k; lra).
    set (h := V4 (E / N) (- k / N) 0 0).
    assert (ME : max_eigen ((E * E - k * k) / E, h) [(0, V4 (k / N) (- E / N) 0 0); (0, V4 0 0 1 0); (0, V4 0 0 0 1)] = ((E * E - k * k) / E, h)).
    { cbn [max_eigen fst]. do 3 (destruct (Rlt_dec ((E * E - k * k) / E) 0) as [Q|_]; [exfalso; lra|]; cbn [fst]). reflexivity. }
    unfold landau_velocity. rewrite ME. cbv zeta. cbn [snd].
    destruct (Rlt_dec (y0 h) 0) as [Q|_]; [exfalso; assert (0 < E / N) by (apply Rdiv_lt_0_compat; unfold E; lra); unfold h in Q; cbn in Q; lra|].
    destruct (Rlt_dec _ _) as [Q|_]; auto. exfalso.
    assert (SE : sqr4 (V4 (E / N) (- k / N) 0 0) = (E * E - k * k) / (E * E + k * k)).
    { rewrite <- NN. unfold sqr4. cbn [y0 y1 y2 y3]. field. lra. }
    fold h in SE. rewrite SE in Q. unfold E, k, really_small in Q. lra. }
  split; [|cbv zeta; splits].
  - unfold massive, minkowski. cbn. unfold E, k. lra.
  - intros i I. assert (Z : y0 (V4 E k 0 0) <> 0) by exact EP. four i I; cbn [fst snd]; split;
      try (unfold euclid; cbn [y0 y1 y2 y3]; lra);
      try (transitivity ((E * E + k * k) / (N * N)); [unfold euclid; cbn [y0 y1 y2 y3]; field; lra|rewrite <- NN; field; lra]).
    all: intros m M; unfold sum4r; rewrite !UP by (auto; unfold index; lia); clear UP; four m M; unfold lower, comp4; cbn [y0 y1 y2 y3]; field; lra.
  - exists (fun a b => match a, b with
      | 0%nat, 0%nat => E * N / (E * E - k * k) | 0%nat, 1%nat => k * N / (E * E - k * k)
      | 1%nat, 0%nat => - k * N / (E * E - k * k) | 1%nat, 1%nat => - E * N / (E * E - k * k)
      | 2%nat, 2%nat => 1 | 3%nat, 3%nat => 1 | _, _ => 0 end).
    split; intros i j I J; unfold sum4r, delta; four i I; four j J; cbn [Nat.eqb fst snd comp4 y0 y1 y2 y3]; try ring; field; split; auto; lra.
  - exact LV.
  - cbv zeta. rewrite LV. assert (Z : y0 (V4 E k 0 0) <> 0) by exact EP.
    rewrite upper_boosted by (unfold index; lia). unfold rmat, sum4r. rewrite !amat_upper by (unfold index; lia). rewrite !UP by (auto; unfold index; lia).
    unfold lmat, comp4. cbn [y0 y1 y2 y3 Nat.eqb]. unfold E, k. intros Q. lra.
Qed.
Print Assumptions landau_frame_refuted.
(** The hypotheses are met by a particle at rest together with two moving ones. *)
Example landau_hypotheses : let ps := [V4 1 0 0 0; V4 2 1 0 0; V4 2 (-1) 0 0] in
  Forall physical ps /\ massive (V4 1 0 0 0) /\ unit4 (V4 1 0 0 0) /\ eigenpair (tensor_of ps) 5 (V4 1 0 0 0) /\
  basis (fun k => match k with 0 => V4 1 0 0 0 | 1 => V4 0 1 0 0 | 2 => V4 0 0 1 0 | _ => V4 0 0 0 1 end%nat).
Proof.
  cbv zeta. splits.
  - repeat constructor; unfold minkowski; cbn; lra.
  - unfold massive, minkowski; cbn; lra.
  - unfold unit4, minkowski; cbn; lra.
  - intros m M. unfold sum4r, tensor_of. rewrite !tensor_of_particles by (try (repeat constructor; cbn; lra); auto; unfold index; lia). unfold kinetic.
    four m M; unfold lower, comp4; cbn; lra.
  - exists delta. split; intros i j I J; unfold sum4r, delta; four i I; four j J; cbn [Nat.eqb comp4 y0 y1 y2 y3]; ring.
Qed.
