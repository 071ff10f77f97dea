(** Properties of the shapes and orientations of nuclei (C124). *)
From Coq Require Import ZArith Reals List Bool Lra Lia Psatz.
From Verif Require Import Base VecModel NucleusModel WoodsSaxon DistModel DistProps DistMore InterpModel GeomModel PotProps.
Import ListNotations.
Open Scope R_scope.

(** ** Spherical harmonics *)
(** a polynomial with coefficients [l] (constant term first), and its antiderivative *)
Fixpoint poly (l : list R) (x : R) : R := match l with [] => 0 | a :: r => a + x * poly r x end.
Fixpoint anti (n : R) (l : list R) : list R := match l with [] => [] | a :: r => a / n :: anti (n + 1) r end.
Lemma poly_cont l x : continuity_pt (poly l) x.
Proof. induction l as [|a l IH]; cbn; [apply cont_c|]. apply cont_plus; [apply cont_c|apply cont_mult; [apply cont_id|exact IH]]. Qed.
(** x^n times the polynomial of the antiderivative coefficients *)
Lemma anti_spec l : forall k x, derivable_pt_lim (fun t => t ^ S k * poly (anti (INR (S k)) l) t) x (x ^ k * poly l x).
Proof.
  induction l as [|a l IH]; intros k x.
  - eapply d_eq; [|apply (d_times (fun t => t ^ S k) (fun _ => 0)); [apply derivable_pt_lim_pow|apply d_const]]. cbn [poly]. ring.
  - assert (N : INR (S k) <> 0) by (apply not_0_INR; lia).
    pose proof (IH (S k) x) as D. replace (INR (S (S k))) with (INR (S k) + 1) in D by (rewrite (S_INR (S k)); ring).
    pose proof (d_sum _ _ x _ _ (d_times (fun _ => a / INR (S k)) (fun t => t ^ S k) x _ _ (d_const _ x) (derivable_pt_lim_pow x (S k))) D) as G.
    cbn [anti]. eapply DensProps.deriv_ext; [|eapply d_eq; [|exact G]].
    + intros t. cbn [poly pow]. unfold Rdiv. ring.
    + cbn [poly pow pred]. field. exact N.
Qed.
Lemma poly_integral l a b : a <= b -> integral (poly l) a b (b * poly (anti 1 l) b - a * poly (anti 1 l) a).
Proof.
  intros H. apply (integral_antiderivative (poly l) (fun t => t * poly (anti 1 l) t)); auto; [|intros; apply poly_cont].
  intros x _. pose proof (anti_spec l 0 x) as D. change (INR 1) with 1 in D. eapply d_eq; [|eapply DensProps.deriv_ext; [|exact D]].
  - cbn. ring.
  - intros t. cbn. ring.
Qed.
Lemma poly_eq f l a b m : a <= b -> (forall x, f x = poly l x) -> m = b * poly (anti 1 l) b - a * poly (anti 1 l) a -> integral f a b m.
Proof. intros H E ->. apply integral_inside with (poly l); auto. apply poly_integral; auto. Qed.
Lemma d_trig f f' k x : (forall y, derivable_pt_lim f y (f' y)) -> derivable_pt_lim (fun t => f (k * t)) x (f' (k * x) * k).
Proof.
  intros D. apply (derivable_pt_lim_comp (fun t => k * t) f); [|apply D].
  eapply d_eq; [|apply d_times; [apply d_const|apply d_id]]. cbv beta. ring.
Qed.
Lemma around_0 k : integral (fun _ => k) 0 (2 * PI) (k * (2 * PI)).
Proof. eapply integral_eq; [|apply integral_const]. ring. Qed.
Lemma around_1 k : integral (fun t => k * cos (2 * t)) 0 (2 * PI) 0.
Proof.
  pose proof PI_RGT_0. eapply integral_eq; [|apply (integral_antiderivative _ (fun t => k / 2 * sin (2 * t)))]; [|lra|..].
  - replace (2 * (2 * PI)) with (2 * PI + 2 * PI) by ring. rewrite Rmult_0_r, sin_plus, sin_2PI, sin_0. ring.
  - intros x _. eapply d_eq; [|apply (d_times (fun _ => k / 2) (fun t => sin (2 * t))); [apply d_const|apply (d_trig sin cos); apply derivable_pt_lim_sin]]. cbv beta. field.
  - intros x _. apply cont_mult; [apply cont_c|]. apply (comp_cont (fun t => 2 * t) cos); [apply cont_mult; [apply cont_c|apply cont_id]|apply continuity_cos].
Qed.
Lemma around_2 k : integral (fun t => k * (cos (2 * t) * cos (2 * t))) 0 (2 * PI) (k * PI).
Proof.
  pose proof PI_RGT_0. eapply integral_eq; [|apply (integral_antiderivative _ (fun t => k * (t / 2) + k / 8 * sin (4 * t)))]; [|lra|..].
  - replace (4 * (2 * PI)) with (2 * PI + 2 * PI + (2 * PI + 2 * PI)) by ring. rewrite Rmult_0_r, !sin_plus, !cos_plus, sin_2PI, cos_2PI, sin_0. field.
  - intros x _. eapply d_eq; [|apply (d_sum (fun t => k * (t / 2)) (fun t => k / 8 * sin (4 * t)));
      [apply (d_times (fun _ => k) (fun t => t * / 2)); [apply d_const|apply d_times; [apply d_id|apply d_const]]
      |apply (d_times (fun _ => k / 8) (fun t => sin (4 * t))); [apply d_const|apply (d_trig sin cos); apply derivable_pt_lim_sin]]].
    cbv beta. replace (4 * x) with (2 * (2 * x)) by ring. rewrite (cos_2a_cos (2 * x)). field.
  - intros x _. assert (C : continuity_pt (fun t => cos (2 * t)) x) by (apply (comp_cont (fun t => 2 * t) cos); [apply cont_mult; [apply cont_c|apply cont_id]|apply continuity_cos]).
    apply cont_mult; [apply cont_c|apply cont_mult; exact C].
Qed.
Lemma sq_over a b : 0 < b -> 0 <= a -> sqrt (a / b) * sqrt (a / b) = a / b.
Proof. intros. apply sqrt_sqrt, Rmult_le_pos; auto. apply Rlt_le, Rinv_0_lt_compat; auto. Qed.

(** the functions that deform the nucleus *)
Definition known : list (Z * Z) := [(2, 0); (2, 2); (3, 0); (4, 0)]%Z.
(** The integral of a function on the sphere, first over the azimuth and then over the cosine. *)
Definition sphere_integral (g : R -> R -> R) (m : R) : Prop :=
  exists f, (forall c, -1 <= c <= 1 -> integral (fun phi => g c phi) 0 (2 * PI) (f c)) /\ integral f (-1) 1 m.
Lemma sphere_00 g l k : (forall c phi, g c phi = poly l c) -> k = 2 * PI * (poly (anti 1 l) 1 + poly (anti 1 l) (-1)) -> sphere_integral g k.
Proof.
  intros E ->. exists (fun c => 2 * PI * poly l c). split.
  - intros c _. pose proof PI_RGT_0. apply integral_inside with (fun _ => poly l c); [lra|auto|]. eapply integral_eq; [|apply around_0]. ring.
  - eapply integral_eq; [|apply integral_scale, poly_integral; lra]. ring.
Qed.
Lemma sphere_02 g h : (forall c phi, g c phi = h c * cos (2 * phi)) -> sphere_integral g 0.
Proof.
  intros E. exists (fun _ => 0). split.
  - intros c _. pose proof PI_RGT_0. apply integral_inside with (fun t => h c * cos (2 * t)); [lra|auto|apply around_1].
  - eapply integral_eq; [|apply integral_const]. ring.
Qed.
Lemma sphere_22 g l k : (forall c phi, g c phi = poly l c * (cos (2 * phi) * cos (2 * phi))) -> k = PI * (poly (anti 1 l) 1 + poly (anti 1 l) (-1)) -> sphere_integral g k.
Proof.
  intros E ->. exists (fun c => PI * poly l c). split.
  - intros c _. pose proof PI_RGT_0. apply integral_inside with (fun t => poly l c * (cos (2 * t) * cos (2 * t))); [lra|auto|]. eapply integral_eq; [|apply around_2]. ring.
  - eapply integral_eq; [|apply integral_scale, poly_integral; lra]. ring.
Qed.
(** The four functions are orthogonal to each other and to the constants, and normalised: the square of each integrates
    to one, that of (2, 2), the real part of a complex function that is multiplied by the square root of two, to one half.
    They are positive at the pole, respectively on the x axis. *)
Theorem harmonics_orthonormal l m l' m' : In (l, m) known -> In (l', m') known -> exists y y',
  (forall c phi, y_l_m l m c phi = Ok (y c phi) /\ y_l_m l' m' c phi = Ok (y' c phi)) /\
  sphere_integral y 0 /\ sphere_integral (fun c phi => y c phi * y' c phi) (if (l =? l')%Z && (m =? m')%Z then if (m =? 2)%Z then 1 / 2 else 1 else 0) /\
  0 < y (if (m =? 0)%Z then 1 else 0) 0.
Proof.
  assert (P : 0 < PI) by apply PI_RGT_0.
  pose (A := 1 / 4 * sqrt (5 / PI)). pose (B := 1 / 4 * sqrt (15 / (2 * PI))). pose (C := 1 / 4 * sqrt (7 / PI)). pose (D := 3 / 16 * sqrt (1 / PI)).
  assert (AA : A * A = 5 / (16 * PI)) by (unfold A; replace (1 / 4 * sqrt (5 / PI) * (1 / 4 * sqrt (5 / PI))) with (1 / 16 * (sqrt (5 / PI) * sqrt (5 / PI))) by field; rewrite sq_over by lra; field; lra).
  assert (BB : B * B = 15 / (32 * PI)) by (unfold B; replace (1 / 4 * sqrt (15 / (2 * PI)) * (1 / 4 * sqrt (15 / (2 * PI)))) with (1 / 16 * (sqrt (15 / (2 * PI)) * sqrt (15 / (2 * PI)))) by field; rewrite sq_over by lra; field; lra).
  assert (CC : C * C = 7 / (16 * PI)) by (unfold C; replace (1 / 4 * sqrt (7 / PI) * (1 / 4 * sqrt (7 / PI))) with (1 / 16 * (sqrt (7 / PI) * sqrt (7 / PI))) by field; rewrite sq_over by lra; field; lra).
  assert (DD : D * D = 9 / (256 * PI)) by (unfold D; replace (3 / 16 * sqrt (1 / PI) * (3 / 16 * sqrt (1 / PI))) with (9 / 256 * (sqrt (1 / PI) * sqrt (1 / PI))) by field; rewrite sq_over by lra; field; lra).
  assert (QP : forall a, 0 < a -> 0 < sqrt (a / PI)) by (intros a Ha; apply sqrt_lt_R0, Rmult_lt_0_compat; auto; apply Rinv_0_lt_compat; auto).
  assert (A0 : 0 < A) by (unfold A; pose proof (QP 5 ltac:(lra)); lra).
  assert (B0 : 0 < B) by (unfold B; pose proof (sqrt_lt_R0 (15 / (2 * PI)) ltac:(apply Rmult_lt_0_compat; [lra|apply Rinv_0_lt_compat; lra])); lra).
  assert (C0 : 0 < C) by (unfold C; pose proof (QP 7 ltac:(lra)); lra).
  assert (D0 : 0 < D) by (unfold D; pose proof (QP 1 ltac:(lra)); lra).
  pose (val := fun (lm : Z * Z) (c phi : R) => match y_l_m (fst lm) (snd lm) c phi with Ok v => v | _ => 0 end).
  assert (V : forall lm, In lm known -> forall c phi, y_l_m (fst lm) (snd lm) c phi = Ok (val lm c phi)).
  { intros lm [<-|[<-|[<-|[<-|[]]]]]; reflexivity. }
  intros I I'. exists (val (l, m)), (val (l', m')). split; [intros c phi; split; [apply (V (l, m) I)|apply (V (l', m') I')]|].
  assert (V20 : forall c phi, val (2, 0)%Z c phi = poly [- A; 0; 3 * A] c) by (intros; cbn; fold A; ring).
  assert (V22 : forall c phi, val (2, 2)%Z c phi = poly [B; 0; - B] c * cos (2 * phi)) by (intros; cbn; fold B; ring).
  assert (V30 : forall c phi, val (3, 0)%Z c phi = poly [0; - 3 * C; 0; 5 * C] c) by (intros; cbn; fold C; ring).
  assert (V40 : forall c phi, val (4, 0)%Z c phi = poly [3 * D; 0; - 30 * D; 0; 35 * D] c) by (intros; cbn; fold D; ring).
  clearbody val A B C D. clear V QP. cbn in I, I'.
  split; [|split].
  - destruct I as [I|[I|[I|[I|[]]]]]; injection I as <- <-.
    + apply (sphere_00 _ _ _ V20). cbn. field.
    + apply (sphere_02 _ _ V22).
    + apply (sphere_00 _ _ _ V30). cbn. field.
    + apply (sphere_00 _ _ _ V40). cbn. field.
  - destruct I as [I|[I|[I|[I|[]]]]], I' as [I'|[I'|[I'|[I'|[]]]]]; injection I as <- <-; injection I' as <- <-; cbn [Z.eqb Pos.eqb andb].
    + apply (sphere_00 _ [A * A; 0; - 6 * (A * A); 0; 9 * (A * A)]); [intros; rewrite !V20; cbn; ring|]. rewrite AA. cbn. field. lra.
    + apply (sphere_02 _ (fun c => poly [- A; 0; 3 * A] c * poly [B; 0; - B] c)). intros. rewrite V20, V22. ring.
    + apply (sphere_00 _ [0; 3 * (A * C); 0; - 14 * (A * C); 0; 15 * (A * C)]); [intros; rewrite V20, V30; cbn; ring|]. cbn. field.
    + apply (sphere_00 _ [- 3 * (A * D); 0; 39 * (A * D); 0; - 125 * (A * D); 0; 105 * (A * D)]); [intros; rewrite V20, V40; cbn; ring|]. cbn. field.
    + apply (sphere_02 _ (fun c => poly [- A; 0; 3 * A] c * poly [B; 0; - B] c)). intros. rewrite V20, V22. ring.
    + apply (sphere_22 _ [B * B; 0; - 2 * (B * B); 0; B * B]); [intros; rewrite !V22; cbn; ring|]. rewrite BB. cbn. field. lra.
    + apply (sphere_02 _ (fun c => poly [0; - 3 * C; 0; 5 * C] c * poly [B; 0; - B] c)). intros. rewrite V30, V22. ring.
    + apply (sphere_02 _ (fun c => poly [3 * D; 0; - 30 * D; 0; 35 * D] c * poly [B; 0; - B] c)). intros. rewrite V40, V22. ring.
    + apply (sphere_00 _ [0; 3 * (A * C); 0; - 14 * (A * C); 0; 15 * (A * C)]); [intros; rewrite V20, V30; cbn; ring|]. cbn. field.
    + apply (sphere_02 _ (fun c => poly [0; - 3 * C; 0; 5 * C] c * poly [B; 0; - B] c)). intros. rewrite V30, V22. ring.
    + apply (sphere_00 _ [0; 0; 9 * (C * C); 0; - 30 * (C * C); 0; 25 * (C * C)]); [intros; rewrite !V30; cbn; ring|]. rewrite CC. cbn. field. lra.
    + apply (sphere_00 _ [0; - 9 * (C * D); 0; 105 * (C * D); 0; - 255 * (C * D); 0; 175 * (C * D)]); [intros; rewrite V30, V40; cbn; ring|]. cbn. field.
    + apply (sphere_00 _ [- 3 * (A * D); 0; 39 * (A * D); 0; - 125 * (A * D); 0; 105 * (A * D)]); [intros; rewrite V20, V40; cbn; ring|]. cbn. field.
    + apply (sphere_02 _ (fun c => poly [3 * D; 0; - 30 * D; 0; 35 * D] c * poly [B; 0; - B] c)). intros. rewrite V40, V22. ring.
    + apply (sphere_00 _ [0; - 9 * (C * D); 0; 105 * (C * D); 0; - 255 * (C * D); 0; 175 * (C * D)]); [intros; rewrite V30, V40; cbn; ring|]. cbn. field.
    + apply (sphere_00 _ [9 * (D * D); 0; - 180 * (D * D); 0; 1110 * (D * D); 0; - 2100 * (D * D); 0; 1225 * (D * D)]); [intros; rewrite !V40; cbn; ring|]. rewrite DD. cbn. field. lra.
  - destruct I as [I|[I|[I|[I|[]]]]]; injection I as <- <-; cbn [Z.eqb].
    + rewrite V20. cbn. lra.
    + rewrite V22. rewrite Rmult_0_r, cos_0. cbn. lra.
    + rewrite V30. cbn. lra.
    + rewrite V40. cbn. lra.
Qed.
Print Assumptions harmonics_orthonormal.
(** any other function is refused *)
Theorem other_harmonics l m c phi : ~ In (l, m) known -> y_l_m l m c phi = Throw E_domain.
Proof.
  intros N. unfold y_l_m. cbn in N.
  destruct (Z.eqb_spec l 2), (Z.eqb_spec m 0), (Z.eqb_spec m 2), (Z.eqb_spec l 3), (Z.eqb_spec l 4); subst; cbn; try reflexivity; exfalso; try lia; apply N; auto.
Qed.
Print Assumptions other_harmonics.
