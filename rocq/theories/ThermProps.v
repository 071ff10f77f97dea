(** Forced thermalization (C108, C109). *)
From Coq Require Import ZArith Reals List Bool Lra Lia Permutation.
From Flocq Require Import Core.
From Verif Require Import Base Flt PdgModel PdgProofs VecModel VecProps KinProps MotionModel FinalProps BesselProps ThermModel.
Import ListNotations.
Open Scope R_scope.

(** ** Choice of cell and species *)
Definition rsum (l : list R) : R := fold_right Rplus 0 l.
Lemma rsum_nonneg l : Forall (Rle 0) l -> 0 <= rsum l.
Proof. unfold rsum. induction 1; cbn [fold_right]; lra. Qed.
Lemma choose_cell_loop_ok cells : forall partial r idx, (-1 <= idx)%Z -> partial < r <= partial + rsum cells ->
  exists i, choose_cell_loop cells partial r idx = Ok (idx + 1 + Z.of_nat i)%Z /\ (i < length cells)%nat /\
    partial + rsum (firstn i cells) < r <= partial + rsum (firstn (S i) cells).
Proof.
  induction cells as [|n cells IH]; intros partial r idx I H; cbn [rsum fold_right choose_cell_loop] in *; [lra|]. fold (rsum cells) in *.
  destruct (Rlt_dec partial r) as [_|N]; [|lra]. destruct (Rlt_dec (partial + n) r) as [L|L].
  - destruct (IH (partial + n) r (idx + 1)%Z) as (i & E & Li & B); [lia|lra|]. exists (S i). split; [rewrite E; f_equal; lia|]. split; [cbn; lia|].
    cbn [firstn rsum fold_right] in *. fold (rsum (firstn i cells)) in *. lra.
  - exists 0%nat. destruct cells; cbn [choose_cell_loop firstn rsum fold_right length]; (destruct (Rlt_dec (partial + n) r); [lra|]); (split; [f_equal; lia|]; split; [lia|lra]).
Qed.
(** A cell is chosen exactly for the draws between the partial sums of the cells before it and up to
    it: with a probability proportional to its number of particles. *)
Theorem cell_choice cells r i : Forall (Rle 0) cells -> 0 < r <= rsum cells ->
  choose_cell cells r = Ok i <-> (i < length cells)%nat /\ rsum (firstn i cells) < r <= rsum (firstn (S i) cells).
Proof.
  intros F R. destruct (choose_cell_loop_ok cells 0 r (-1)) as (j & E & L & B); [lia|lra|]. rewrite !Rplus_0_l in B.
  unfold choose_cell. rewrite E. cbn [rbind]. destruct (Z.ltb_spec (-1 + 1 + Z.of_nat j) 0); [lia|].
  replace (Z.to_nat (-1 + 1 + Z.of_nat j)) with j by lia.
  assert (M : forall a b, (a <= b)%nat -> rsum (firstn a cells) <= rsum (firstn b cells)).
  { clear - F. induction F as [|n cells N F IH]; intros a b H; [rewrite !firstn_nil; lra|].
    destruct a, b; cbn [firstn rsum fold_right]; try lra; try lia.
    - fold (rsum (firstn b cells)). assert (0 <= rsum (firstn b cells)); [|lra]. apply rsum_nonneg. apply Forall_forall. intros x X. rewrite Forall_forall in F. apply F.
      rewrite <- (firstn_skipn b cells). apply in_or_app. now left.
    - fold (rsum (firstn a cells)). fold (rsum (firstn b cells)). specialize (IH a b ltac:(lia)). lra. }
  split.
  - injection 1 as <-. auto.
  - intros (Li & Bi). f_equal. destruct (Nat.lt_trichotomy i j) as [H0|[H0|H0]]; [exfalso|auto|exfalso].
    + specialize (M (S i) j ltac:(lia)). lra.
    + specialize (M (S j) i ltac:(lia)). lra.
Qed.
Print Assumptions cell_choice.
Example cell_example : choose_cell [1; 2; 3] 2 = Ok 1%nat.
Proof. apply cell_choice; [repeat constructor; lra|unfold rsum; cbn; lra|]. unfold rsum. cbn. split; [lia|lra]. Qed.
(** A uniform draw between 0 and the sum may be 0; then index -1 is used.  The same happens for
    every draw when no species of the wanted kind is present: the sum is then 0. *)
Theorem cell_choice_zero_refuted cells : Forall (Rle 0) cells -> choose_cell cells 0 = UB UB_oob.
Proof. intros F. unfold choose_cell. destruct cells; cbn [choose_cell_loop]; (destruct (Rlt_dec 0 0) as [N|_]; [lra|reflexivity]). Qed.
Print Assumptions cell_choice_zero_refuted.
(** The species chosen satisfies the condition, for every draw up to the number of particles in the cell. *)
Definition cell_content (sorts : list (bool * R)) : R := rsum (map snd (filter fst sorts)).
Lemma choose_sort_ok sorts : forall sum r idx, sum < r <= sum + cell_content sorts \/ (sum = r /\ existsb fst sorts = true /\ Forall (fun s => 0 <= snd s) sorts) ->
  exists i, choose_sort sorts sum r idx = Ok (idx + i)%nat /\ nth_error (map fst sorts) i = Some true.
Proof.
  induction sorts as [|[c n] sorts IH]; intros sum r idx H; cbn [choose_sort map fst existsb] in *.
  - destruct H as [H|(_ & H & _)]; [unfold cell_content in H; cbn in H; lra|discriminate].
  - destruct c.
    + destruct (Rle_dec r (sum + n)) as [L|L]; [exists 0%nat; split; [f_equal; lia|reflexivity]|].
      destruct (IH (sum + n) r (S idx)) as (i & E & N).
      * left. destruct H as [H|(-> & _ & F)]; [unfold cell_content in *; cbn [filter fst map snd rsum fold_right] in H; unfold rsum; lra|]. inversion F; subst. cbn [snd] in *. lra.
      * exists (S i). split; [rewrite E; f_equal; lia|exact N].
    + destruct (IH sum r (S idx)) as (i & E & N).
      * destruct H as [H|(-> & X & F)]; [left; exact H|right; split; [auto|split; [auto|now inversion F]]].
      * exists (S i). split; [rewrite E; f_equal; lia|exact N].
Qed.
Theorem sort_choice sorts r : Forall (fun s => 0 <= snd s) sorts -> existsb fst sorts = true -> 0 <= r <= cell_content sorts ->
  exists i, choose_sort sorts 0 r 0 = Ok i /\ nth_error (map fst sorts) i = Some true.
Proof.
  intros F X H. destruct (Req_dec r 0) as [->|N]; apply (choose_sort_ok sorts 0); [right; auto|left; lra].
Qed.
Print Assumptions sort_choice.

(** ** Mode sampling *)
Lemma zsum_app f a b : zsum f (a ++ b) = (zsum f a + zsum f b)%Z.
Proof. unfold zsum. induction a as [|p a IH]; cbn [app fold_right]; [reflexivity|]. rewrite IH. ring. Qed.
Lemma esum_app a b : esum (a ++ b) = esum a + esum b.
Proof. unfold esum. induction a as [|p a IH]; cbn [app fold_right]; [ring|]. rewrite IH. ring. Qed.
Lemma up_loop_spec q need e0 draws : forall energy plus kept l out, up_loop q need e0 energy plus kept draws = Some (l, out) ->
  exists new, l = kept ++ new /\ out = (plus + zsum q new)%Z /\ (need <= out)%Z /\ (forall p, In p new -> In p draws).
Proof.
  induction draws as [|p ds IH]; intros energy plus kept l out; cbn [up_loop].
  - destruct (Rlt_dec energy e0); [discriminate|]. destruct (Z.ltb_spec plus need); [discriminate|]. injection 1 as <- <-.
    exists []. rewrite app_nil_r. splits; auto; cbn; try lia; intros p [].
  - assert (K : Some (kept, plus) = Some (l, out) -> (need <= plus)%Z -> exists new, l = kept ++ new /\ out = (plus + zsum q new)%Z /\ (need <= out)%Z /\ (forall x, In x new -> In x (p :: ds))).
    { injection 1 as <- <-. intros. exists []. rewrite app_nil_r. splits; auto; cbn; try lia; intros x []. }
    destruct (if Rlt_dec energy e0 then true else (plus <? need)%Z) eqn:C.
    + destruct (0 <? q p)%Z; intros E; apply IH in E; destruct E as (new & -> & -> & N & I).
      * exists (p :: new). rewrite <- app_assoc. splits; auto; cbn [zsum fold_right]; fold (zsum q new) in *; try lia. intros x [<-|H]; [now left|right; auto].
      * exists new. splits; auto. intros x H. right. auto.
    + intros E. apply K; auto. destruct (Rlt_dec energy e0); [discriminate|]. now apply Z.ltb_ge in C.
Qed.
Lemma down_loop_spec q need plus draws : forall minus kept l, (need <= plus + minus)%Z -> down_loop q need plus minus kept draws = Some l ->
  exists new, l = kept ++ new /\ (plus + minus + zsum q new = need)%Z /\ (forall p, In p new -> In p draws).
Proof.
  induction draws as [|p ds IH]; intros minus kept l I; cbn [down_loop]; destruct (Z.ltb_spec need (plus + minus)); try discriminate.
  - injection 1 as <-. exists []. rewrite app_nil_r. splits; auto; cbn; try lia; intros x [].
  - destruct (Z.leb_spec need (plus + minus + q p)); intros E.
    + apply IH in E; [|lia]. destruct E as (new & -> & N & D). exists (p :: new). rewrite <- app_assoc. splits; auto; [cbn [zsum fold_right]; fold (zsum q new); lia|]. intros x [<-|X]; [now left|right; auto].
    + apply IH in E; [|lia]. destruct E as (new & -> & N & D). exists new. splits; auto. intros x X. right. auto.
  - injection 1 as <-. exists []. rewrite app_nil_r. splits; auto; cbn; try lia; intros x [].
Qed.
Lemma energy_loop_spec e0 draws : forall energy kept l, energy_loop e0 energy kept draws = Some l ->
  exists new, l = kept ++ new /\ e0 <= energy + esum new /\ (forall p, In p new -> In p draws).
Proof.
  induction draws as [|p ds IH]; intros energy kept l; cbn [energy_loop]; destruct (Rlt_dec energy e0); try discriminate.
  - injection 1 as <-. exists []. rewrite app_nil_r. splits; auto; cbn; try lra; intros x [].
  - intros E. apply IH in E. destruct E as (new & -> & N & D). exists (p :: new). rewrite <- app_assoc. splits; auto; [cbn [esum fold_right]; fold (esum new); lra|]. intros x [<-|X]; [now left|right; auto].
  - injection 1 as <-. exists []. rewrite app_nil_r. splits; auto; cbn; try lra; intros x [].
Qed.
Lemma zsum_zero f l : (forall p, In p l -> f p = 0%Z) -> zsum f l = 0%Z.
Proof. induction l as [|p l IH]; intros H; cbn [zsum fold_right]; [reflexivity|]. fold (zsum f l). rewrite (H p), IH; auto; [intros x X; apply H; now right|now left]. Qed.

(** Whatever is sampled in the cells: if mode sampling ends, strangeness, baryon number and charge
    are exactly the required ones, and at least the required energy has been sampled.  The draws of the
    modes satisfy the conditions of the modes. *)
Theorem mode_sampling_conserves E0 S0 B0 Q0 d1 d2 d3 d4 d5 d6 d7 l :
  Forall (fun p => (sS p < 0)%Z) d2 -> Forall (fun p => sS p = 0%Z) d3 -> Forall (fun p => sS p = 0%Z /\ (sB p < 0)%Z) d4 ->
  Forall (fun p => sS p = 0%Z /\ sB p = 0%Z) d5 -> Forall (fun p => sS p = 0%Z /\ sB p = 0%Z /\ (sQ p < 0)%Z) d6 ->
  Forall (fun p => sS p = 0%Z /\ sB p = 0%Z /\ sQ p = 0%Z) d7 ->
  mode_algo E0 S0 B0 Q0 d1 d2 d3 d4 d5 d6 d7 = Some l ->
  zsum sS l = S0 /\ zsum sB l = B0 /\ zsum sQ l = Q0 /\ E0 <= esum l.
Proof.
  intros F2 F3 F4 F5 F6 F7 E. unfold mode_algo in E.
  destruct (up_loop sS S0 E0 0 0 [] d1) as [[l1 splus]|] eqn:E1; [|discriminate].
  destruct (down_loop sS S0 splus 0 l1 d2) as [l2|] eqn:E2; [|discriminate].
  destruct (up_loop sB (B0 - zsum sB l2) (E0 - esum l2) 0 0 l2 d3) as [[l3 bplus]|] eqn:E3; [|discriminate].
  destruct (down_loop sB (B0 - zsum sB l2) bplus 0 l3 d4) as [l4|] eqn:E4; [|discriminate].
  destruct (up_loop sQ (Q0 - zsum sQ l4) (E0 - esum l4) 0 0 l4 d5) as [[l5 eplus]|] eqn:E5; [|discriminate].
  destruct (down_loop sQ (Q0 - zsum sQ l4) eplus 0 l5 d6) as [l6|] eqn:E6; [|discriminate].
  apply up_loop_spec in E1. destruct E1 as (n1 & -> & -> & N1 & _). cbn [app] in *.
  apply down_loop_spec in E2; [|lia]. destruct E2 as (n2 & -> & N2 & _).
  apply up_loop_spec in E3. destruct E3 as (n3 & -> & -> & N3 & I3).
  apply down_loop_spec in E4; [|lia]. destruct E4 as (n4 & -> & N4 & I4).
  apply up_loop_spec in E5. destruct E5 as (n5 & -> & -> & N5 & I5).
  apply down_loop_spec in E6; [|lia]. destruct E6 as (n6 & -> & N6 & I6).
  apply energy_loop_spec in E. destruct E as (n7 & -> & N7 & I7).
  rewrite Forall_forall in *. 
  assert (S3 : zsum sS n3 = 0%Z) by (apply zsum_zero; intros p P; apply F3; auto).
  assert (S4 : zsum sS n4 = 0%Z) by (apply zsum_zero; intros p P; apply F4; auto).
  assert (S5 : zsum sS n5 = 0%Z) by (apply zsum_zero; intros p P; apply F5; auto).
  assert (S6 : zsum sS n6 = 0%Z) by (apply zsum_zero; intros p P; apply F6; auto).
  assert (S7 : zsum sS n7 = 0%Z) by (apply zsum_zero; intros p P; apply F7; auto).
  assert (B5 : zsum sB n5 = 0%Z) by (apply zsum_zero; intros p P; apply F5; auto).
  assert (B6 : zsum sB n6 = 0%Z) by (apply zsum_zero; intros p P; apply F6; auto).
  assert (B7 : zsum sB n7 = 0%Z) by (apply zsum_zero; intros p P; apply F7; auto).
  assert (Q7 : zsum sQ n7 = 0%Z) by (apply zsum_zero; intros p P; apply F7; auto).
  rewrite !zsum_app, !esum_app in *. splits; try lia. lra.
Qed.
Print Assumptions mode_sampling_conserves.
Ltac rdec := repeat match goal with |- context [Rlt_dec ?a ?b] => first [destruct (Rlt_dec a b) as [_|?]; [|exfalso; lra] | destruct (Rlt_dec a b) as [?|_]; [exfalso; lra|]] end.
Example mode_example : exists l, mode_algo 3 1 1 1 [Samp 1 0 1 1; Samp 0 1 1 1; Samp 2 (-1) 0 2] [Samp (-2) 1 (-1) 1] [Samp 0 1 0 3] [] [Samp 0 0 1 1; Samp 0 0 1 1] [Samp 0 0 (-1) 1] [] = Some l /\ (3 <= length l)%nat.
Proof.
  assert (A : up_loop sS 1 3 0 0 [] [Samp 1 0 1 1; Samp 0 1 1 1; Samp 2 (-1) 0 2] = Some ([Samp 1 0 1 1; Samp 2 (-1) 0 2], 3%Z)) by (cbn -[Rlt_dec]; rdec; reflexivity).
  eexists. unfold mode_algo. rewrite A. cbn -[Rlt_dec esum]. unfold esum. do 8 (cbn -[Rlt_dec]; rdec). split; [reflexivity|cbn; lia].
Qed.

(** ** BF sampling *)
(** A binomial draw lies between 0 and N, and is N or 0 when the probability is 1 or 0. *)
Definition legal_binomial (bin : nat -> Z -> R -> Z) : Prop :=
  forall i N p, (0 < N)%Z -> 0 <= p <= 1 -> (0 <= bin i N p <= N)%Z /\ (p = 1 -> bin i N p = N) /\ (p = 0 -> bin i N p = 0%Z).
(** The total of a quantum number f in a class. *)
Definition class_total (c : hclass) (f : sort -> Z) (ts : list sort) (ints : list Z) : Z :=
  fold_right (fun '(t, n) s => if hclass_eqb (get_class t) c then f t * n + s else s)%Z 0%Z (combine ts ints).
Definition class_mult (c : hclass) (ts : list sort) : R :=
  fold_right (fun t s => if hclass_eqb (get_class t) c then mult t + s else s) 0 ts.
Lemma mult_class_eq c ts : mult_class c ts = class_mult c ts.
Proof.
  unfold mult_class. assert (K : forall a, fold_left (fun s t => if hclass_eqb (get_class t) c then s + mult t else s) ts a = a + class_mult c ts).
  { induction ts as [|t ts IH]; intros a; cbn [fold_left class_mult fold_right]; [ring|]. fold (class_mult c ts). destruct (hclass_eqb (get_class t) c); rewrite IH; ring. }
  rewrite K. ring.
Qed.
Lemma class_mult_pos c ts : Forall (fun t => 0 <= mult t) ts -> 0 <= class_mult c ts.
Proof. induction 1; cbn [class_mult fold_right]; [lra|]. fold (class_mult c l). destruct (hclass_eqb _ _); lra. Qed.
Lemma hclass_eqb_eq a b : hclass_eqb a b = true <-> a = b.
Proof. destruct a, b; cbn; split; congruence. Qed.
Lemma multinomial_spec bin c ts : legal_binomial bin -> Forall (fun t => 0 <= mult t) ts -> forall i N ints, length ints = length ts -> (0 <= N)%Z ->
  ((0 < N)%Z -> 0 < class_mult c ts) ->
  let r := multinomial bin c i (class_mult c ts) N ts ints in
  length r = length ts /\ (forall c' f, c' <> c -> class_total c' f ts r = class_total c' f ts ints) /\
  (class_total c (fun _ => 1%Z) ts ints = 0%Z -> Forall (Z.le 0) ints -> class_total c (fun _ => 1%Z) ts r = N) /\
  (Forall (Z.le 0) ints -> Forall (Z.le 0) r).
Proof.
  intros Leg F. induction F as [|t ts Ft F IH]; intros i N ints L N0 P r.
  - cbn [multinomial] in r. subst r. cbn [class_mult fold_right] in P. destruct ints; [|discriminate]. splits; auto. intros _ _. cbn.
    destruct (Z.eq_dec N 0); [auto|]. specialize (P ltac:(lia)). lra.
  - destruct ints as [|m ints]; [discriminate|]. cbn [length] in L. injection L as L. subst r. cbn [multinomial].
    destruct (Z.ltb_spec 0 N) as [NP|NP].
    2:{ splits; auto; [cbn; lia|]. intros Z _. rewrite Z. lia. }
    specialize (P NP). cbn [class_mult fold_right] in P |- *. fold (class_mult c ts) in *. pose proof (class_mult_pos c ts F) as CM.
    destruct (hclass_eqb (get_class t) c) eqn:C.
    + set (n := bin i N (mult t / (mult t + class_mult c ts))).
      destruct (Leg i N (mult t / (mult t + class_mult c ts)) NP) as (Bn & Bo & Bz).
      { split; [apply Rmult_le_pos; [lra|left; apply Rinv_0_lt_compat; lra]|]. apply Rmult_le_reg_r with (mult t + class_mult c ts); [lra|]. unfold Rdiv. rewrite Rmult_assoc, Rinv_l by lra. lra. }
      fold n in Bn, Bo, Bz. replace (mult t + class_mult c ts - mult t) with (class_mult c ts) by ring.
      destruct (IH (S i) (N - n)%Z ints L ltac:(lia)) as (A & B & D & G).
      { intros X. destruct (Req_dec (class_mult c ts) 0) as [E|E]; [|lra]. exfalso. rewrite E, Rplus_0_r in Bo. assert (n = N); [|lia]. apply Bo. apply Rinv_r. lra. }
      apply hclass_eqb_eq in C. splits.
      * cbn [length]. now rewrite A.
      * intros c' f Hc. unfold class_total. cbn [combine fold_right]. replace (hclass_eqb (get_class t) c') with false by (symmetry; apply Bool.not_true_iff_false; rewrite hclass_eqb_eq; congruence). apply (B c' f Hc).
      * unfold class_total. cbn [combine fold_right]. rewrite (proj2 (hclass_eqb_eq _ _) C). fold (class_total c (fun _ => 1%Z) ts ints). intros Z0 Fi. inversion Fi; subst.
        match goal with |- (_ + ?x)%Z = _ => change x with (class_total (get_class t) (fun _ => 1%Z) ts (multinomial bin (get_class t) (S i) (class_mult (get_class t) ts) (N - n) ts ints)) end.
        rewrite D; auto; [ring|]. 
        assert (0 <= class_total (get_class t) (fun _ => 1%Z) ts ints)%Z; [|lia].
        clear - H2. revert ints H2. generalize (get_class t). intros c. unfold class_total. induction ts as [|u ts IH]; intros ints F; [cbn; lia|]. destruct ints as [|m ints]; [cbn; lia|]. inversion F; subst. cbn [combine fold_right]. specialize (IH ints H2). destruct (hclass_eqb (get_class u) c); lia.
      * intros Fi. inversion Fi; subst. constructor; [lia|auto].
    + destruct (IH (S i) N ints L N0 (fun _ => P)) as (A & B & D & G). splits.
      * cbn [length]. now rewrite A.
      * intros c' f Hc. unfold class_total. cbn [combine fold_right]. specialize (B c' f Hc). unfold class_total in B. rewrite B. reflexivity.
      * unfold class_total. cbn [combine fold_right]. rewrite C. intros Z0 Fi. inversion Fi; subst. apply D; auto.
      * intros Fi. inversion Fi; subst. constructor; auto.
Qed.
Lemma class_total_const c f k ts ints : (forall t, In t ts -> get_class t = c -> f t = k) -> class_total c f ts ints = (k * class_total c (fun _ => 1%Z) ts ints)%Z.
Proof.
  unfold class_total. revert ints. induction ts as [|t ts IH]; intros ints H; [cbn; ring|]. destruct ints as [|m ints]; [cbn; ring|]. cbn [combine fold_right].
  destruct (hclass_eqb (get_class t) c) eqn:C; rewrite IH by (intros u U; apply H; now right); [|reflexivity]. apply hclass_eqb_eq in C. rewrite (H t (or_introl eq_refl) C). ring.
Qed.
Lemma fold_add (l : list Z) : forall a, fold_left Z.add l a = (a + fold_right Z.add 0 l)%Z.
Proof. induction l as [|x l IH]; intros a; cbn [fold_left fold_right]; [ring|]. rewrite IH. ring. Qed.
Lemma sampled_classes f ts ints : sampled f ts ints = (class_total Baryon f ts ints + class_total Antibaryon f ts ints + class_total PosS f ts ints + class_total NegS f ts ints
  + class_total PosQ f ts ints + class_total NegQ f ts ints + class_total Neutral f ts ints)%Z.
Proof.
  unfold sampled. rewrite fold_add, Z.add_0_l. unfold class_total. induction (combine ts ints) as [|[t n] l IH]; cbn [map fold_right]; [reflexivity|]. rewrite IH. destruct (get_class t); cbn [hclass_eqb]; ring.
Qed.
(** *** specification: what the BF sampling relies on *)
(** The hadron gas has baryons with one unit of baryon number, mesons with at most one unit of
    strangeness and non-strange mesons with at most one unit of charge. *)
Definition hadron_gas (ts : list sort) : Prop :=
  Forall (fun t => 0 <= mult t /\ (Z.abs (oB t) <= 1)%Z /\ (oB t = 0%Z -> (Z.abs (oS t) <= 1)%Z) /\ (oB t = 0%Z -> oS t = 0%Z -> (Z.abs (oQ t) <= 1)%Z)) ts.
(** the classes are populated: a positive number of particles is asked for only in a class with species *)
Definition populated (c : hclass) (ts : list sort) (N : Z) : Prop := (0 <= N)%Z /\ ((0 < N)%Z -> 0 < class_mult c ts).
Theorem bf_conserves biased B0 S0 Q0 ts bins NB NS NQ N0 r : hadron_gas ts -> (forall c, legal_binomial (bins c)) ->
  (fst NB - snd NB = B0)%Z -> populated Baryon ts (fst NB) -> populated Antibaryon ts (snd NB) ->
  (biased = true -> forall d, fst (NS d) - snd (NS d) = d /\ fst (NQ d) - snd (NQ d) = d)%Z ->
  (forall d, populated PosS ts (fst (NS d)) /\ populated NegS ts (snd (NS d)) /\ populated PosQ ts (fst (NQ d)) /\ populated NegQ ts (snd (NQ d))) ->
  populated Neutral ts N0 ->
  bf_round biased S0 Q0 ts bins NB NS NQ N0 = Some r ->
  length r = length ts /\ Forall (Z.le 0) r /\ sampled oB ts r = B0 /\ sampled oS ts r = S0 /\ sampled oQ ts r = Q0.
Proof.
  intros H Leg EB P1 P2 Dif Pop P7 E. unfold bf_round in E. 
  assert (Fm : Forall (fun t => 0 <= mult t) ts) by (eapply Forall_impl; [|exact H]; now intros t (A & _)).
  set (m0 := map (fun _ => 0%Z) ts) in *. 
  assert (Z0 : forall c f, class_total c f ts m0 = 0%Z).
  { intros c f. subst m0. unfold class_total. clear. induction ts as [|t ts IH]; [reflexivity|]. cbn [map combine fold_right]. rewrite IH. destruct (hclass_eqb _ _); ring. }
  assert (F0 : Forall (Z.le 0) m0) by (subst m0; apply Forall_forall; intros x X; apply in_map_iff in X; destruct X as (_ & <- & _); lia).
  assert (L0 : length m0 = length ts) by (subst m0; apply map_length).
  unfold sample_multinomial in E. rewrite !mult_class_eq in E.
  assert (Step : forall c N m, length m = length ts -> Forall (Z.le 0) m -> class_total c (fun _ => 1%Z) ts m = 0%Z -> populated c ts N ->
     let r := multinomial (bins c) c 0 (class_mult c ts) N ts m in
     length r = length ts /\ Forall (Z.le 0) r /\ (forall c' f, c' <> c -> class_total c' f ts r = class_total c' f ts m) /\ class_total c (fun _ => 1%Z) ts r = N).
  { intros c N m L F Zc (N1 & N2). destruct (multinomial_spec (bins c) c ts (Leg c) Fm 0 N m L N1 N2) as (A & B & C & D). splits; auto. }
  destruct (Step Baryon (fst NB) m0 L0 F0 (Z0 _ _) P1) as (L1 & F1 & O1 & T1).
  set (m1 := multinomial (bins Baryon) Baryon _ _ _ _ _) in *.
  destruct (Step Antibaryon (snd NB) m1 L1 F1 ltac:(rewrite O1 by discriminate; apply Z0) P2) as (L2 & F2 & O2 & T2).
  set (m2 := multinomial (bins Antibaryon) Antibaryon _ _ _ _ _) in *.
  set (ds := (S0 - sampled oS ts m2)%Z) in *. destruct (Pop ds) as (P3 & P4 & _ & _).
  assert (ED : (fst (NS ds) - snd (NS ds) = ds)%Z).
  { destruct biased; [now apply Dif|]. cbn [negb andb] in E. destruct (Z.eqb_spec (fst (NS ds) - snd (NS ds)) ds); [auto|discriminate]. }
  rewrite ED, Z.eqb_refl, andb_false_r in E.
  destruct (Step PosS (fst (NS ds)) m2 L2 F2 ltac:(rewrite O2, O1 by discriminate; apply Z0) P3) as (L3 & F3 & O3 & T3).
  set (m3 := multinomial (bins PosS) PosS _ _ _ _ _) in *.
  destruct (Step NegS (snd (NS ds)) m3 L3 F3 ltac:(rewrite O3, O2, O1 by discriminate; apply Z0) P4) as (L4 & F4 & O4 & T4).
  set (m4 := multinomial (bins NegS) NegS _ _ _ _ _) in *.
  set (dq := (Q0 - sampled oQ ts m4)%Z) in *. destruct (Pop dq) as (_ & _ & P5 & P6).
  assert (EQ : (fst (NQ dq) - snd (NQ dq) = dq)%Z).
  { destruct biased; [now apply Dif|]. cbn [negb andb] in E. destruct (Z.eqb_spec (fst (NQ dq) - snd (NQ dq)) dq); [auto|discriminate]. }
  rewrite EQ, Z.eqb_refl, andb_false_r in E.
  destruct (Step PosQ (fst (NQ dq)) m4 L4 F4 ltac:(rewrite O4, O3, O2, O1 by discriminate; apply Z0) P5) as (L5 & F5 & O5 & T5).
  set (m5 := multinomial (bins PosQ) PosQ _ _ _ _ _) in *.
  destruct (Step NegQ (snd (NQ dq)) m5 L5 F5 ltac:(rewrite O5, O4, O3, O2, O1 by discriminate; apply Z0) P6) as (L6 & F6 & O6 & T6).
  set (m6 := multinomial (bins NegQ) NegQ _ _ _ _ _) in *.
  destruct (Step Neutral N0 m6 L6 F6 ltac:(rewrite O6, O5, O4, O3, O2, O1 by discriminate; apply Z0) P7) as (L7 & F7 & O7 & T7).
  assert (Er : r = multinomial (bins Neutral) Neutral 0 (class_mult Neutral ts) N0 ts m6) by congruence. rewrite <- Er in *. clear E Er Step.
  unfold hadron_gas in H. rewrite Forall_forall in H.
  assert (CB : forall t, In t ts -> (match get_class t with Baryon => oB t = 1 | Antibaryon => oB t = -1 | PosS => oB t = 0 /\ oS t = 1 | NegS => oB t = 0 /\ oS t = -1
     | PosQ => oB t = 0 /\ oS t = 0 /\ oQ t = 1 | NegQ => oB t = 0 /\ oS t = 0 /\ oQ t = -1 | Neutral => oB t = 0 /\ oS t = 0 /\ oQ t = 0 end)%Z).
  { intros t T. destruct (H t T) as (_ & A & B & C). clear - A B C. unfold get_class.
    destruct (Z.ltb_spec 0 (oB t)); [lia|]. destruct (Z.ltb_spec (oB t) 0); [lia|]. assert (E : oB t = 0%Z) by lia. specialize (B E). specialize (C E).
    destruct (Z.ltb_spec 0 (oS t)); [lia|]. destruct (Z.ltb_spec (oS t) 0); [lia|]. assert (E' : oS t = 0%Z) by lia. specialize (C E').
    destruct (Z.ltb_spec 0 (oQ t)); [lia|]. destruct (Z.ltb_spec (oQ t) 0); [lia|]. lia. }
  assert (K : forall c f k m, (forall t, In t ts -> get_class t = c -> f t = k) -> class_total c f ts m = (k * class_total c (fun _ => 1%Z) ts m)%Z) by (intros; now apply class_total_const).
  splits; auto.
  - rewrite sampled_classes.
    rewrite (K Baryon oB 1%Z), (K Antibaryon oB (-1)%Z), (K PosS oB 0%Z), (K NegS oB 0%Z), (K PosQ oB 0%Z), (K NegQ oB 0%Z), (K Neutral oB 0%Z);
      try (intros t T Et; specialize (CB t T); rewrite Et in CB; lia).
    rewrite (O7 Baryon), (O6 Baryon), (O5 Baryon), (O4 Baryon), (O3 Baryon), (O2 Baryon), T1 by discriminate. rewrite (O7 Antibaryon), (O6 Antibaryon), (O5 Antibaryon), (O4 Antibaryon), (O3 Antibaryon), T2 by discriminate. lia.
  - rewrite sampled_classes. rewrite (K PosS oS 1%Z), (K NegS oS (-1)%Z), (K PosQ oS 0%Z), (K NegQ oS 0%Z), (K Neutral oS 0%Z);
      try (intros t T Et; specialize (CB t T); rewrite Et in CB; lia).
    rewrite (O7 PosS), (O6 PosS), (O5 PosS), (O4 PosS), T3 by discriminate. rewrite (O7 NegS), (O6 NegS), (O5 NegS), T4 by discriminate.
    rewrite (O7 Baryon), (O6 Baryon), (O5 Baryon), (O4 Baryon), (O3 Baryon) by discriminate. rewrite (O7 Antibaryon), (O6 Antibaryon), (O5 Antibaryon), (O4 Antibaryon), (O3 Antibaryon) by discriminate.
    assert (Eds : ds = (S0 - sampled oS ts m2)%Z) by reflexivity. clearbody ds. rewrite sampled_classes in Eds. rewrite (K PosS oS 1%Z m2), (K NegS oS (-1)%Z m2), (K PosQ oS 0%Z m2), (K NegQ oS 0%Z m2), (K Neutral oS 0%Z m2) in Eds;
      try (intros t T Et; specialize (CB t T); rewrite Et in CB; lia).
    rewrite (O2 PosS), (O1 PosS), (O2 NegS), (O1 NegS), !Z0 in Eds by discriminate. lia.
  - rewrite sampled_classes. rewrite (K PosQ oQ 1%Z), (K NegQ oQ (-1)%Z), (K Neutral oQ 0%Z);
      try (intros t T Et; specialize (CB t T); rewrite Et in CB; lia).
    rewrite (O7 PosQ), (O6 PosQ), T5 by discriminate. rewrite (O7 NegQ), T6 by discriminate.
    rewrite (O7 Baryon), (O6 Baryon), (O5 Baryon) by discriminate. rewrite (O7 Antibaryon), (O6 Antibaryon), (O5 Antibaryon) by discriminate.
    rewrite (O7 PosS), (O6 PosS), (O5 PosS) by discriminate. rewrite (O7 NegS), (O6 NegS), (O5 NegS) by discriminate.
    assert (Edq : dq = (Q0 - sampled oQ ts m4)%Z) by reflexivity. clearbody dq. rewrite sampled_classes in Edq. rewrite (K PosQ oQ 1%Z m4), (K NegQ oQ (-1)%Z m4), (K Neutral oQ 0%Z m4) in Edq;
      try (intros t T Et; specialize (CB t T); rewrite Et in CB; lia).
    rewrite (O4 PosQ), (O3 PosQ), (O2 PosQ), (O1 PosQ), (O4 NegQ), (O3 NegQ), (O2 NegQ), (O1 NegQ), !Z0 in Edq by discriminate. lia.
Qed.
Print Assumptions bf_conserves.
Definition ex_bin (i : nat) (N : Z) (p : R) : Z := if Req_EM_T p 1 then N else 0%Z.
Definition ex_gas : list sort := [Sort 1 0 1 1; Sort (-1) 0 (-1) 1; Sort 0 1 1 1; Sort 0 (-1) (-1) 1; Sort 0 0 1 1; Sort 0 0 (-1) 1; Sort 0 0 0 1; Sort 1 (-1) 0 1].
Definition ex_pair (d : Z) : Z * Z := (1 + Z.max d 0, 1 + Z.max (- d) 0)%Z.
Example bf_example : exists r, bf_round true 2 3 ex_gas (fun _ => ex_bin) (ex_pair 1) ex_pair ex_pair 4 = Some r /\ sampled oB ex_gas r = 1%Z /\ sampled oS ex_gas r = 2%Z /\ sampled oQ ex_gas r = 3%Z.
Proof.
  assert (P : forall c d, (c <> Neutral -> populated c ex_gas (fst (ex_pair d)) /\ populated c ex_gas (snd (ex_pair d))) /\ populated Neutral ex_gas 4).
  { assert (K : forall c, 0 < class_mult c ex_gas) by (intros c; unfold class_mult, ex_gas; destruct c; cbn; lra).
    intros c d. unfold populated, ex_pair. cbn [fst snd]. splits; auto; try lia. intros _. splits; auto; lia. }
  edestruct (fun r => bf_conserves true 1 2 3 ex_gas (fun _ => ex_bin) (ex_pair 1) ex_pair ex_pair 4 r) as (_ & _ & A & B & C); [| | | | | | | |reflexivity|eexists; split; [reflexivity|]; split; [exact A|split; [exact B|exact C]]].
  - unfold hadron_gas, ex_gas. repeat (apply Forall_cons; [cbn; split; [lra|lia]|]). apply Forall_nil.
  - intros _ i N p HN Hp. unfold ex_bin. destruct (Req_EM_T p 1) as [->|]; splits; try lia; intros; try contradiction; try lra; reflexivity.
  - reflexivity.
  - now apply (P Baryon 1%Z).
  - now apply (P Antibaryon 1%Z).
  - intros _ d. unfold ex_pair. cbn [fst snd]. lia.
  - intros d. splits; [apply (P PosS d)|apply (P NegS d)|apply (P PosQ d)|apply (P NegQ d)]; discriminate.
  - apply (P Neutral 1%Z).
Qed.
(** The species of the gas are hadrons of u, d and s quarks (is_eos_particle, hadgas_eos.h:355-357,
    excludes heavy flavours); their quantum numbers, computed from the code, are in the ranges needed. *)
Theorem light_hadrons w m : 0 <= m -> PdgModel.is_hadron w = true ->
  (PdgModel.n_q1 w <= 3 /\ PdgModel.n_q2 w <= 3 /\ PdgModel.n_q3 w <= 3)%Z ->
  hadron_gas [Sort (PdgModel.baryon_number w) (PdgModel.strangeness w) (PdgModel.charge w) m].
Proof.
  intros M H (A & B & C). apply Forall_cons; [|apply Forall_nil]. cbn [mult oB oS oQ]. split; [exact M|].
  unfold PdgModel.charge. rewrite H. cbn [orb]. unfold PdgModel.charge3, PdgModel.strangeness, PdgModel.nq, PdgModel.net_quark_number, PdgModel.baryon_number, PdgModel.asign in *.
  rewrite H. unfold PdgModel.is_hadron in H. apply andb_prop in H. destruct H as (H & H3). apply andb_prop in H. destruct H as (H1 & H2).
  apply Bool.negb_true_iff in H1, H2, H3. apply Z.eqb_neq in H1, H2. rewrite H3. cbn [orb negb].
  assert (R1 : (0 <= PdgModel.n_q1 w < 16)%Z) by (apply (PdgProofs.field_range 12 4); lia).
  assert (R2 : (0 <= PdgModel.n_q2 w < 16)%Z) by (apply (PdgProofs.field_range 8 4); lia).
  assert (R3 : (0 <= PdgModel.n_q3 w < 16)%Z) by (apply (PdgProofs.field_range 4 4); lia).
  assert (E1 : (PdgModel.n_q1 w = 0 \/ PdgModel.n_q1 w = 1 \/ PdgModel.n_q1 w = 2 \/ PdgModel.n_q1 w = 3)%Z) by lia.
  assert (E2 : (PdgModel.n_q2 w = 1 \/ PdgModel.n_q2 w = 2 \/ PdgModel.n_q2 w = 3)%Z) by lia.
  assert (E3 : (PdgModel.n_q3 w = 1 \/ PdgModel.n_q3 w = 2 \/ PdgModel.n_q3 w = 3)%Z) by lia.
  clear - E1 E2 E3. destruct (PdgModel.is_anti w);
  destruct E1 as [->|[->|[->| ->]]]; destruct E2 as [->|[->| ->]]; destruct E3 as [->|[->| ->]]; vm_compute; repeat split; intros; congruence.
Qed.
Print Assumptions light_hadrons.
Example kaon_species : hadron_gas [Sort 0 1 1 2].
Proof. change (Sort 0 1 1 2) with (Sort (PdgModel.baryon_number 0x321%Z) (PdgModel.strangeness 0x321%Z) (PdgModel.charge 0x321%Z) 2). apply light_hadrons; [lra|reflexivity|vm_compute; repeat split; discriminate]. Qed.
(** Without the requirement on the number drawn: a Bessel pair with a negative entry
    (negative_multiplicity_refuted) leaves fewer particles than asked for, and the totals are wrong. *)
Theorem bf_negative_pair_refuted : exists ts bins r, hadron_gas ts /\ (forall c, legal_binomial (bins c)) /\
  (forall d, fst (d - 1, -1)%Z - snd (d - 1, -1)%Z = d)%Z /\
  bf_round true 0 2 ts bins (0, 0)%Z (fun d => (d, 0)%Z) (fun d => (d - 1, -1)%Z) 0 = Some r /\ sampled oQ ts r = 1%Z.
Proof.
  exists [Sort 0 0 1 1; Sort 0 0 (-1) 1], (fun _ => ex_bin), [1; 0]%Z. splits.
  - unfold hadron_gas. repeat (apply Forall_cons; [cbn; split; [lra|lia]|]). apply Forall_nil.
  - intros _ i N p HN Hp. unfold ex_bin. destruct (Req_EM_T p 1) as [->|]; splits; try lia; intros; try contradiction; try lra; reflexivity.
  - intros d. cbn [fst snd]. lia.
  - cbn -[Req_EM_T ex_bin]. unfold sample_multinomial, mult_class. cbn -[Req_EM_T ex_bin].
    assert (E : ex_bin 0 1 (1 / (0 + 1)) = 1%Z) by (unfold ex_bin; destruct (Req_EM_T (1 / (0 + 1)) 1) as [_|N]; [reflexivity|exfalso; apply N; field]).
    rewrite E. reflexivity.
  - reflexivity.
Qed.
Print Assumptions bf_negative_pair_refuted.

(** ** Renormalisation of the momenta *)
Definition future (p : vec4) : Prop := 0 < y0 p /\ 0 < minkowski p p.
Definition total_momentum (l : list tpart) : vec4 := sum4 (map tmom l).
Definition total_energy (l : list tpart) : R := y0 (total_momentum l).
Definition total_mass (l : list tpart) : R := fold_right (fun p s => tm p + s) 0 l.
Definition onshell (l : list tpart) : Prop := Forall (fun p => shell (tm p) (tmom p)) l.
Lemma future_add a b : future a -> future b -> future (add4 a b).
Proof.
  intros (A & B) (C & D). split; [cbn; lra|]. unfold minkowski, add4 in *. cbn [y0 y1 y2 y3] in *.
  pose proof (cauchy (threevec a) (threevec b)) as CS. unfold inner, threevec in CS. cbn [x1 x2 x3] in CS.
  set (ia := y1 a * y1 a + y2 a * y2 a + y3 a * y3 a) in *. set (ib := y1 b * y1 b + y2 b * y2 b + y3 b * y3 b) in *. set (ab := y1 a * y1 b + y2 a * y2 b + y3 a * y3 b) in *.
  assert (Pa : 0 <= ia) by (unfold ia; nra). assert (Pb : 0 <= ib) by (unfold ib; nra).
  assert (H : ab < y0 a * y0 b).
  { apply Rnot_le_lt. intros L. assert (0 < y0 a * y0 b) by now apply Rmult_lt_0_compat.
    assert ((y0 a * y0 b) * (y0 a * y0 b) <= ab * ab) by (apply Rmult_le_compat; lra).
    assert (ia * ib < (y0 a * y0 a) * (y0 b * y0 b)); [|nra]. apply Rle_lt_trans with (ia * (y0 b * y0 b)); [apply Rmult_le_compat_l; lra|]. apply Rmult_lt_compat_r; [nra|lra]. }
  unfold ia, ib, ab in *. nra.
Qed.
Lemma tsum_total l : tsum l = total_momentum l.
Proof.
  unfold tsum, total_momentum. assert (K : forall ps a, fold_left add4 ps a = add4 a (sum4 ps)).
  { induction ps as [|p ps IH]; intros a; cbn [fold_left]; [|rewrite IH]; unfold sum4; cbn [fold_right]; apply vec4_eq; cbn; ring. }
  rewrite K. apply vec4_eq; cbn; ring.
Qed.
Lemma total_future l : l <> [] -> Forall (fun p => future (tmom p)) l -> future (total_momentum l).
Proof.
  intros N F. destruct F as [|p l P F]; [contradiction|]. clear N. revert p P. induction F as [|q l Q F IH]; intros p P; unfold total_momentum; cbn [map].
  - replace (sum4 [tmom p]) with (tmom p); auto. unfold sum4. cbn [fold_right]. apply vec4_eq; cbn; ring.
  - specialize (IH q Q). unfold total_momentum in IH. cbn [map] in IH. change (sum4 (tmom p :: tmom q :: map tmom l)) with (add4 (tmom p) (sum4 (tmom q :: map tmom l))). now apply future_add.
Qed.
Lemma on_shell_shell m v : shell m (on_shell m v).
Proof.
  unfold on_shell. split; cbn [mk4 y0]; [|apply sqrt_pos]. unfold minkowski. cbn [mk4 y0 y1 y2 y3]. rewrite sqrt_sqrt; unfold sqr3, dot3; nra.
Qed.
Lemma on_shell_future m v : 0 < m -> future (on_shell m v).
Proof.
  intros M. unfold on_shell. split; unfold minkowski; cbn [mk4 y0 y1 y2 y3].
  - apply sqrt_lt_R0. unfold sqr3, dot3. nra.
  - rewrite sqrt_sqrt; unfold sqr3, dot3; nra.
Qed.
Lemma fold_energy {A} (g : A -> R) l : forall a, fold_left (fun e p => e + g p) l a = a + fold_right (fun p s => g p + s) 0 l.
Proof. induction l as [|p l IH]; intros a; cbn [fold_left fold_right]; [ring|]. rewrite IH. ring. Qed.

(** The scaled particles: each momentum multiplied by 1 + a. *)
Definition rescaled (a : R) (l : list tpart) : list tpart := map (fun p => TPart (tm p) (on_shell (tm p) (scale3 (1 + a) (threevec (tmom p))))) l.
Lemma scaled_total a l : onshell l -> (y1 (total_momentum l) = 0 /\ y2 (total_momentum l) = 0 /\ y3 (total_momentum l) = 0) ->
  total_momentum (rescaled a l) = V4 (scaled_energy a l) 0 0 0.
Proof.
  intros O (A & B & C). unfold scaled_energy. rewrite fold_energy, Rplus_0_l.
  assert (K : total_momentum (rescaled a l) = V4 (fold_right (fun p s => sqrt (y0 (tmom p) * y0 (tmom p) + a * (a + 2) * sqr3 (threevec (tmom p))) + s) 0 l)
     ((1 + a) * y1 (total_momentum l)) ((1 + a) * y2 (total_momentum l)) ((1 + a) * y3 (total_momentum l))).
  { clear A B C. induction O as [|p l P O IH]; unfold total_momentum, rescaled in *; cbn [map fold_right]; [unfold sum4; cbn; apply vec4_eq; cbn; ring|].
    change (sum4 (?x :: ?r)) with (add4 x (sum4 r)) in *. rewrite IH. destruct P as (P & _). apply vec4_eq; cbn [add4 y0 y1 y2 y3 tmom on_shell mk4]; try (cbn; ring).
    f_equal. f_equal. unfold minkowski in P. unfold sqr3, dot3, scale3, threevec. cbn [x1 x2 x3].
    assert (y0 (tmom p) * y0 (tmom p) = tm p * tm p + (y1 (tmom p) * y1 (tmom p) + y2 (tmom p) * y2 (tmom p) + y3 (tmom p) * y3 (tmom p))) by lra. rewrite H. ring. }
  rewrite K, A, B, C. apply vec4_eq; cbn; ring.
Qed.
Lemma sqrt_lip m p2 q a b : 0 <= q -> p2 = q * q -> 0 <= 1 + a -> 0 <= 1 + b -> a <= b ->
  sqrt (m * m + (1 + b) * (1 + b) * p2) - sqrt (m * m + (1 + a) * (1 + a) * p2) <= (b - a) * q.
Proof.
  intros Q -> A B L. set (u := sqrt (m * m + (1 + a) * (1 + a) * (q * q))).
  assert (U0 : 0 <= u) by apply sqrt_pos. assert (Hp : 0 <= (1 + a) * (1 + a) * (q * q)) by (apply Rmult_le_pos; nra).
  assert (U2 : u * u = m * m + (1 + a) * (1 + a) * (q * q)) by (apply sqrt_sqrt; nra).
  assert (U1 : (1 + a) * q <= u).
  { apply Rsqr_incr_0_var; auto. unfold Rsqr. rewrite U2. nra. }
  assert (P0 : 0 <= (b - a) * q) by (apply Rmult_le_pos; lra).
  cut (sqrt (m * m + (1 + b) * (1 + b) * (q * q)) <= u + (b - a) * q); [lra|].
  assert (Hq : 0 <= (1 + b) * (1 + b) * (q * q)) by (apply Rmult_le_pos; nra). apply Rsqr_incr_0_var; [|lra]. unfold Rsqr. rewrite sqrt_sqrt by nra.
  assert ((1 + a) * q * ((b - a) * q) <= u * ((b - a) * q)) by (apply Rmult_le_compat_r; auto). nra.
Qed.
(** The energy depends on the scale factor with a Lipschitz constant of at most the energy at 0. *)
Lemma shell_energy p : shell (tm p) (tmom p) -> forall a, y0 (tmom p) * y0 (tmom p) + a * (a + 2) * sqr3 (threevec (tmom p)) = tm p * tm p + (1 + a) * (1 + a) * sqr3 (threevec (tmom p)).
Proof.
  intros (P & _) a. unfold minkowski in P. unfold sqr3, dot3, threevec. cbn [x1 x2 x3].
  assert (y0 (tmom p) * y0 (tmom p) = tm p * tm p + (y1 (tmom p) * y1 (tmom p) + y2 (tmom p) * y2 (tmom p) + y3 (tmom p) * y3 (tmom p))) as -> by lra. ring.
Qed.
Lemma scaled_lip l a b : onshell l -> -1 <= a -> a <= b -> scaled_energy b l - scaled_energy a l <= (b - a) * total_energy l.
Proof.
  intros O A L. unfold scaled_energy. rewrite !fold_energy, !Rplus_0_l. induction O as [|p l P O IH]; unfold total_energy, total_momentum in *; cbn [fold_right map]; [unfold sum4; cbn; lra|].
  change (sum4 (?x :: ?r)) with (add4 x (sum4 r)) in *. cbn [add4 y0]. rewrite !(shell_energy p P).
  assert (S0 : 0 <= sqr3 (threevec (tmom p))) by (unfold sqr3, dot3; nra).
  pose proof (sqrt_lip (tm p) (sqr3 (threevec (tmom p))) (sqrt (sqr3 (threevec (tmom p)))) a b (sqrt_pos _) ltac:(now rewrite sqrt_sqrt) ltac:(lra) ltac:(lra) L) as K.
  assert (sqrt (sqr3 (threevec (tmom p))) <= y0 (tmom p)).
  { destruct P as (P & Y). apply Rsqr_incr_0_var; auto. unfold Rsqr. rewrite sqrt_sqrt by auto. unfold minkowski in P. unfold sqr3, dot3, threevec. cbn [x1 x2 x3]. nra. }
  assert ((b - a) * sqrt (sqr3 (threevec (tmom p))) <= (b - a) * y0 (tmom p)) by (apply Rmult_le_compat_l; lra). lra.
Qed.
Lemma bisect_spec l M L : (forall a b, -1 <= a -> a <= b -> scaled_energy b l - scaled_energy a l <= (b - a) * L) -> 0 <= L -> forall n lo hi, -1 <= lo -> lo <= hi ->
  scaled_energy lo l <= M <= scaled_energy hi l ->
  let a := bisect n l M lo hi in lo <= a <= hi /\ (Rabs (scaled_energy a l - M) <= / 1000000 \/ Rabs (scaled_energy a l - M) <= (hi - lo) / 2 ^ (n - 1) * L).
Proof.
  intros Lip L0. induction n as [|n IH]; intros lo hi A B (C & D) a.
  - subst a. assert (F : bisect 0 l M lo hi = / 2 * (lo + hi)) by (cbn [bisect]; destruct (Rle_dec _ _); reflexivity).
    rewrite F. cbn [Nat.sub pow]. pose proof (Lip lo (/ 2 * (lo + hi)) ltac:(lra) ltac:(lra)). pose proof (Lip (/ 2 * (lo + hi)) hi ltac:(lra) ltac:(lra)).
    split; [lra|]. right. assert (0 <= (hi - lo) * L) by (apply Rmult_le_pos; lra). apply Rabs_le. lra.
  - set (m := / 2 * (lo + hi)) in *. assert (Mm : lo <= m <= hi) by (unfold m; lra).
    pose proof (Lip lo m ltac:(lra) ltac:(lra)) as L1. pose proof (Lip m hi ltac:(lra) ltac:(lra)) as L2.
    assert (Base : Rabs (scaled_energy m l - M) <= (hi - lo) * L).
    { assert (0 <= (hi - lo) * L) by (apply Rmult_le_pos; lra). unfold m in *. apply Rabs_le. lra. }
    assert (E : a = match n with O => m | S _ => if Rlt_dec (/ 1000000) (Rabs (scaled_energy m l - M)) then (if Rle_dec 0 (scaled_energy m l - M) then bisect n l M lo m else bisect n l M m hi) else m end).
    { subst a. cbn [bisect]. fold m. destruct n; destruct (Rle_dec 0 (scaled_energy m l - M)); try reflexivity. }
    rewrite E. clear E a. destruct n as [|n]; [split; [auto|right; cbn; lra]|].
    destruct (Rlt_dec (/ 1000000) (Rabs (scaled_energy m l - M))) as [F|F]; [|split; [auto|left; lra]].
    replace (S (S n) - 1)%nat with (S n) by lia. replace (S n - 1)%nat with n in IH by lia.
    assert (W : forall x y, y - x = (hi - lo) / 2 -> (y - x) / 2 ^ n * L = (hi - lo) / 2 ^ S n * L).
    { intros x y ->. cbn [pow]. field. apply pow_nonzero. lra. }
    destruct (Rle_dec 0 (scaled_energy m l - M)) as [G|G].
    + destruct (IH lo m ltac:(lra) ltac:(lra) ltac:(lra)) as (I1 & I2). split; [lra|]. rewrite (W lo m) in I2 by (unfold m; lra). exact I2.
    + destruct (IH m hi ltac:(lra) ltac:(lra) ltac:(lra)) as (I1 & I2). split; [lra|]. rewrite (W m hi) in I2 by (unfold m; lra). exact I2.
Qed.

(** The particles in their common rest frame, all three-momenta shifted by the same vector first:
    the state that is scaled. *)
Definition rest_frame_of (req : vec4) (l : list tpart) : list tpart := tboost (velocity (tsum (centralize req l))) (centralize req l).
Definition scale4 (k : R) (p : vec4) : vec4 := V4 (k * y0 p) (k * y1 p) (k * y2 p) (k * y3 p).
Lemma map_tm_map g l : (forall p : tpart, tm (g p) = tm p) -> map tm (map g l) = map tm l.
Proof. intros H. rewrite map_map. now apply map_ext. Qed.
Lemma total_mass_eq l : total_mass l = fold_right Rplus 0 (map tm l).
Proof. unfold total_mass. induction l as [|p l IH]; cbn [fold_right map]; [reflexivity|]. now rewrite IH. Qed.
Lemma rest_frame_ok req l : l <> [] -> Forall (fun p => 0 < tm p) l ->
  onshell (rest_frame_of req l) /\ map tm (rest_frame_of req l) = map tm l /\
  (y1 (total_momentum (rest_frame_of req l)) = 0 /\ y2 (total_momentum (rest_frame_of req l)) = 0 /\ y3 (total_momentum (rest_frame_of req l)) = 0) /\ 0 < total_energy (rest_frame_of req l).
Proof.
  intros N F. unfold rest_frame_of. set (l1 := centralize req l).
  assert (F1 : Forall (fun p => future (tmom p)) l1 /\ onshell l1).
  { unfold l1, centralize, onshell. split; apply Forall_forall; intros q Q; apply in_map_iff in Q; destruct Q as (p & <- & P); cbn [tmom tm].
    - apply on_shell_future. rewrite Forall_forall in F. now apply F.
    - apply on_shell_shell. }
  destruct F1 as (F1 & O1). assert (N1 : l1 <> []) by (unfold l1, centralize; destruct l; [contradiction|discriminate]).
  rewrite tsum_total. destruct (total_future l1 N1 F1) as (A & B). destruct (boost_to_rest_frame _ A B) as (V & E).
  assert (T : total_momentum (tboost (velocity (total_momentum l1)) l1) = V4 (sqrt (minkowski (total_momentum l1) (total_momentum l1))) 0 0 0).
  { rewrite <- E. unfold total_momentum at 1. unfold tboost. rewrite map_map. cbn [tmom]. rewrite <- map_map. apply boost_sum. }
  splits.
  - unfold onshell, tboost in *. apply Forall_forall. intros q Q. apply in_map_iff in Q. destruct Q as (p & <- & P). cbn [tmom tm]. apply boost_shell; auto. rewrite Forall_forall in O1. now apply O1.
  - unfold tboost, l1, centralize. rewrite !map_tm_map; auto.
  - now rewrite T.
  - now rewrite T.
  - now rewrite T.
  - unfold total_energy. rewrite T. cbn [y0]. now apply sqrt_lt_R0.
Qed.
Lemma scaled_at_0 l : onshell l -> scaled_energy 0 l = total_energy l.
Proof.
  intros O. unfold scaled_energy. rewrite fold_energy, Rplus_0_l. induction O as [|p l P O IH]; unfold total_energy, total_momentum in *; cbn [fold_right map]; [reflexivity|].
  change (sum4 (?x :: ?r)) with (add4 x (sum4 r)). cbn [add4 y0]. rewrite IH. f_equal. rewrite Rmult_0_l, Rmult_0_l, Rplus_0_r. apply sqrt_square. apply P.
Qed.
Lemma scaled_at_m1 l : onshell l -> Forall (fun p => 0 < tm p) l -> scaled_energy (-1) l = total_mass l.
Proof.
  intros O F. unfold scaled_energy. rewrite fold_energy, Rplus_0_l. induction O as [|p l P O IH]; cbn [fold_right total_mass]; [reflexivity|]. inversion F; subst. rewrite IH by auto. f_equal.
  rewrite (shell_energy p P). replace (tm p * tm p + (1 + -1) * (1 + -1) * sqr3 (threevec (tmom p))) with (tm p * tm p) by ring. apply sqrt_square. lra.
Qed.
Lemma scaled_ge_mass l a : onshell l -> Forall (fun p => 0 < tm p) l -> total_mass l <= scaled_energy a l.
Proof.
  intros O F. unfold scaled_energy. rewrite fold_energy, Rplus_0_l. induction O as [|p l P O IH]; unfold total_mass in *; cbn [fold_right]; [lra|]. inversion F; subst. specialize (IH H2).
  rewrite (shell_energy p P). assert (tm p <= sqrt (tm p * tm p + (1 + a) * (1 + a) * sqr3 (threevec (tmom p)))); [|lra].
  rewrite <- (sqrt_square (tm p)) at 1 by lra. apply sqrt_le_1_alt. assert (0 <= sqr3 (threevec (tmom p))) by (unfold sqr3, dot3; nra). assert (0 <= (1 + a) * (1 + a)) by apply Rle_0_sqr. pose proof (Rmult_le_pos _ _ H0 H). lra.
Qed.

(** The momenta returned belong to particles of the same masses, and their sum is a multiple of the
    required four-momentum.  When the required mass can be reached by scaling the momenta by a factor
    between 0 and 11, the energy is right to 1e-6 GeV in the rest frame of the required momentum. *)
Theorem renormalized_total req l : l <> [] -> Forall (fun p => 0 < tm p) l -> future req ->
  let M := sqrt (minkowski req req) in let l2 := rest_frame_of req l in
  let r := renormalize req l in
  map tm r = map tm l /\ onshell r /\
  exists E, total_momentum r = scale4 (E / M) req /\ total_mass l <= E /\
    (total_mass l <= M <= scaled_energy 10 l2 -> total_energy l2 <= 2 ^ 70 -> Rabs (E - M) <= / 1000000).
Proof.
  intros N F (Y & MK) M l2 r. destruct (rest_frame_ok req l N F) as (O & TM & Z & E0). fold l2 in O, TM, Z, E0.
  assert (F2 : Forall (fun p => 0 < tm p) l2).
  { clear - F TM. clearbody l2. revert l TM F. induction l2 as [|p l2 IH]; intros l TM F; [constructor|]. destruct l as [|q l]; [discriminate|]. cbn [map] in TM.
    assert (T1 : tm p = tm q) by congruence. assert (T2 : map tm l2 = map tm l) by congruence. inversion F; subst. constructor; [lra|]. now apply (IH l). }
  assert (M0 : 0 < M) by now apply sqrt_lt_R0. assert (ME : sqrt (sqr4 req) = M) by (unfold M, sqr4, minkowski; f_equal; ring).
  assert (EE : fold_left (fun e p => e + y0 (tmom p)) l2 0 = total_energy l2).
  { rewrite fold_energy, Rplus_0_l. unfold total_energy, total_momentum. clear. clearbody l2. induction l2 as [|p l2 IH]; [reflexivity|]. cbn [fold_right map]. change (sum4 (?x :: ?r)) with (add4 x (sum4 r)). cbn [add4 y0]. now rewrite IH. }
  set (a := if Rle_dec (total_energy l2) M then bisect 100 l2 M 0 10 else bisect 100 l2 M (-1) 0).
  assert (Er : r = map (fun p => TPart (tm p) (boost (neg3 (velocity req)) (tmom p))) (rescaled a l2)).
  { unfold r, renormalize. fold (rest_frame_of req l). fold l2. rewrite EE, ME. fold a. unfold rescaled. rewrite map_map. reflexivity. }
  destruct (boost_to_rest_frame req Y MK) as (V & B). fold M in B.
  assert (V' : speed2 (neg3 (velocity req)) < 1) by (unfold speed2, neg3 in *; cbn [x1 x2 x3]; nra).
  assert (Acc : total_mass l <= M <= scaled_energy 10 l2 -> total_energy l2 <= 2 ^ 70 -> Rabs (scaled_energy a l2 - M) <= / 1000000).
  { intros (H1 & H2) H3. assert (Lip : forall a b, -1 <= a -> a <= b -> scaled_energy b l2 - scaled_energy a l2 <= (b - a) * total_energy l2) by (intros; now apply scaled_lip).
    assert (TMM : total_mass l2 = total_mass l) by (rewrite !total_mass_eq; now rewrite TM).
    assert (W : forall w, 0 <= w <= 10 -> w / 2 ^ (100 - 1) * total_energy l2 <= / 1000000).
    { intros w W. replace (100 - 1)%nat with (29 + 70)%nat by reflexivity. rewrite pow_add. assert (P2 : 0 < 2 ^ 70) by (apply pow_lt; lra). assert (P1 : 0 < 2 ^ 29) by (apply pow_lt; lra).
      replace (w / (2 ^ 29 * 2 ^ 70) * total_energy l2) with (w * / 2 ^ 29 * (total_energy l2 * / 2 ^ 70)) by (field; lra).
      assert (Q1 : total_energy l2 * / 2 ^ 70 <= 1) by (apply Rmult_le_reg_r with (2 ^ 70); [lra|]; rewrite Rmult_assoc, Rinv_l by lra; lra).
      assert (Q0 : 0 <= w * / 2 ^ 29) by (apply Rmult_le_pos; [lra|left; now apply Rinv_0_lt_compat]).
      apply Rle_trans with (w * / 2 ^ 29); [apply Rle_trans with (w * / 2 ^ 29 * 1); [apply Rmult_le_compat_l; auto|lra]|]. cbn [pow]. lra. }
    unfold a. destruct (Rle_dec (total_energy l2) M) as [G|G].
    - destruct (bisect_spec l2 M (total_energy l2) Lip ltac:(lra) 100 0 10 ltac:(lra) ltac:(lra)) as (_ & [K|K]); [rewrite scaled_at_0 by auto; lra|exact K|]. eapply Rle_trans; [exact K|]. apply W. lra.
    - destruct (bisect_spec l2 M (total_energy l2) Lip ltac:(lra) 100 (-1) 0 ltac:(lra) ltac:(lra)) as (_ & [K|K]); [rewrite scaled_at_0, scaled_at_m1 by auto; lra|exact K|]. eapply Rle_trans; [exact K|]. apply W. lra. }
  clearbody a. splits.
  - rewrite Er. unfold rescaled. rewrite !map_tm_map; auto.
  - rewrite Er. unfold onshell. apply Forall_forall. intros q Q. apply in_map_iff in Q. destruct Q as (p & <- & P). cbn [tm tmom]. apply boost_shell; auto.
    unfold rescaled in P. apply in_map_iff in P. destruct P as (u & <- & _). cbn [tm tmom]. apply on_shell_shell.
  - exists (scaled_energy a l2). split; [|split; [|exact Acc]].
    + rewrite Er. unfold total_momentum. rewrite map_map. cbn [tmom]. rewrite <- (map_map tmom (boost (neg3 (velocity req)))), boost_sum. fold (total_momentum (rescaled a l2)). rewrite scaled_total by auto.
      replace req with (boost (neg3 (velocity req)) (V4 M 0 0 0)) at 2 by (rewrite <- B; now apply boost_inverse).
      pose proof (proj1 (gamma_eq _ V')) as G1. apply vec4_eq; unfold boost, scale4, mk4, sub3, scale3, threevec, dot3; cbn [x1 x2 x3 y0 y1 y2 y3]; field; repeat split; lra.
    + replace (total_mass l) with (total_mass l2) by (rewrite !total_mass_eq; now rewrite TM). now apply scaled_ge_mass.
Qed.
Print Assumptions renormalized_total.
Example renormalize_example : let l := [TPart 1 (V4 2 1 0 0); TPart 2 (V4 3 0 1 0)] in let req := V4 4 0 0 1 in
  map tm (renormalize req l) = [1; 2] /\ onshell (renormalize req l) /\ exists E, total_momentum (renormalize req l) = scale4 (E / sqrt (minkowski req req)) req /\ 3 <= E.
Proof.
  intros l req. destruct (renormalized_total req l) as (A & B & E & C & D & _).
  - discriminate.
  - unfold l. repeat constructor; cbn; lra.
  - split; unfold minkowski; cbn; lra.
  - split; [exact A|split; [exact B|]]. exists E. split; [exact C|]. unfold total_mass, l in D. cbn in D. lra.
Qed.
(** When the sampled particles are heavier than the required invariant mass - nothing in the
    sampling prevents it - the energy returned exceeds the required one, whatever the momenta; the loop
    ends without a message. *)
Theorem renormalize_heavy_refuted req l : l <> [] -> Forall (fun p => 0 < tm p) l -> future req -> sqrt (minkowski req req) < total_mass l ->
  y0 req < total_energy (renormalize req l).
Proof.
  intros N F Q H. destruct (renormalized_total req l N F Q) as (_ & _ & E & T & G & _). cbn zeta in *. destruct Q as (Y & M).
  unfold total_energy. rewrite T. cbn [scale4 y0]. assert (0 < sqrt (minkowski req req)) by now apply sqrt_lt_R0.
  assert (1 < E / sqrt (minkowski req req)) by (apply Rmult_lt_reg_r with (sqrt (minkowski req req)); [lra|]; unfold Rdiv; rewrite Rmult_assoc, Rinv_l by lra; lra).
  apply Rle_lt_trans with (1 * y0 req); [lra|]. now apply Rmult_lt_compat_r.
Qed.
Print Assumptions renormalize_heavy_refuted.
Example heavy_example : y0 (V4 2 0 0 0) < total_energy (renormalize (V4 2 0 0 0) [TPart 1 (V4 2 1 0 0); TPart 2 (V4 3 0 1 0)]).
Proof.
  apply renormalize_heavy_refuted; [discriminate|repeat constructor; cbn; lra|split; unfold minkowski; cbn; lra|].
  unfold total_mass, minkowski. cbn. replace (2 * 2 - (0 * 0 + 0 * 0 + 0 * 0)) with (2 * 2) by ring. rewrite sqrt_square; lra.
Qed.

(** ** When and what is thermalized *)
(** The thermalization times are start + n period; a step starts one exactly when it begins after
    the start time and less than a step after the last of these times. *)
Theorem thermalization_time t0 period t dt : 0 < period ->
  is_time t0 period t dt = true <-> t0 < t /\ exists n : Z, t0 + IZR n * period <= t < t0 + IZR n * period + dt /\ t < t0 + IZR (n + 1) * period.
Proof.
  intros P. unfold is_time. set (q := (t - t0) / period). assert (Q : t - t0 = q * period) by (unfold q; field; lra).
  destruct (base_Int_part q) as (B1 & B2).
  assert (N : forall n : Z, (t0 + IZR n * period <= t /\ t < t0 + IZR (n + 1) * period) <-> n = Int_part q).
  { intros n. rewrite plus_IZR. split.
    - intros (H1 & H2). assert (IZR n <= q) by (apply Rmult_le_reg_r with period; lra). assert (q < IZR n + 1) by (apply Rmult_lt_reg_r with period; lra).
      assert (IZR n - 1 < IZR (Int_part q)) by lra. assert (IZR (Int_part q) < IZR n + 1) by lra.
      rewrite <- minus_IZR in *. rewrite <- plus_IZR in *. apply lt_IZR in H3, H4. lia.
    - intros ->. assert (IZR (Int_part q) * period <= q * period) by (apply Rmult_le_compat_r; lra). assert (q * period < (IZR (Int_part q) + 1) * period) by (apply Rmult_lt_compat_r; lra). lra. }
  destruct (Rlt_dec t0 t) as [T|T]; [|split; [discriminate|intros (H & _); contradiction]].
  destruct (Rlt_dec t (t0 + IZR (Int_part q) * period + dt)) as [D|D]; split; try discriminate; auto.
  - intros _. split; auto. exists (Int_part q). destruct (proj2 (N (Int_part q)) eq_refl). lra.
  - intros (_ & n & (H1 & H2) & H3). assert (n = Int_part q) by (apply N; auto). subst n. lra.
Qed.
Print Assumptions thermalization_time.
(** With equal time steps not longer than the period, every period after the first has exactly one
    step that starts a thermalization. *)
Theorem once_per_period t0 period dt s n : 0 < period -> 0 < dt <= period -> (1 <= n)%Z ->
  exists! k : Z, t0 + IZR n * period <= s + IZR k * dt < t0 + IZR (n + 1) * period /\ is_time t0 period (s + IZR k * dt) dt = true.
Proof.
  intros P D N. set (k := up ((t0 + IZR n * period - s) / dt - 1)).
  assert (Q : (t0 + IZR n * period - s) / dt * dt = t0 + IZR n * period - s) by (field; lra).
  set (q := (t0 + IZR n * period - s) / dt) in *. destruct (archimed (q - 1)) as (A1 & A2). fold k in A1, A2.
  assert (Nr : 1 <= IZR n) by now apply IZR_le.
  assert (Ex : exists j : Z, q <= IZR j < q + 1).
  { destruct (Req_EM_T (IZR k) q) as [E|E]; [exists k; lra|]. destruct (Rlt_dec (IZR k) q) as [L|L]; [exists (k + 1)%Z; rewrite plus_IZR; lra|exists k; lra]. }
  destruct Ex as (j & J1 & J2). exists j. rewrite plus_IZR.
  assert (B1 : q * dt <= IZR j * dt) by (apply Rmult_le_compat_r; lra). assert (B2 : IZR j * dt < (q + 1) * dt) by (apply Rmult_lt_compat_r; lra).
  assert (Np : period <= IZR n * period) by (rewrite <- (Rmult_1_l period) at 1; apply Rmult_le_compat_r; lra).
  split.
  - split; [lra|]. apply thermalization_time; auto. split; [lra|]. exists n. rewrite plus_IZR. lra.
  - intros i (I1 & I2). apply thermalization_time in I2; auto. destruct I2 as (_ & m & (M1 & M2) & M3). rewrite plus_IZR in M3.
    assert (m = n).
    { assert (IZR m < IZR n + 1) by (apply Rmult_lt_reg_r with period; lra). assert (IZR n < IZR m + 1) by (apply Rmult_lt_reg_r with period; lra).
      rewrite <- plus_IZR in *. apply lt_IZR in H, H0. lia. }
    subst m. assert (q <= IZR i) by (apply Rmult_le_reg_r with dt; lra). assert (IZR i < q + 1) by (apply Rmult_lt_reg_r with dt; lra).
    assert (IZR i < IZR j + 1) by lra. assert (IZR j < IZR i + 1) by lra. rewrite <- plus_IZR in *. apply lt_IZR in H1, H2. lia.
Qed.
Print Assumptions once_per_period.
Example period_example : exists! k : Z, 5 + 2 * 1 <= 0 + IZR k * (/ 2) < 5 + IZR (2 + 1) * 1 /\ is_time 5 1 (0 + IZR k * / 2) (/ 2) = true.
Proof. apply (once_per_period 5 1 (/ 2) 0 2); try lra. lia. Qed.
(** A step beginning exactly at the start time is skipped; the thermalization of the first period does
    then not take place, when the next step begins a whole step later. *)
Theorem first_time_skipped_refuted t0 period dt : 0 < period -> 0 < dt <= period -> forall k : Z, t0 <= t0 + IZR k * dt < t0 + period -> is_time t0 period (t0 + IZR k * dt) dt = false.
Proof.
  intros P D k H. destruct (is_time _ _ _ _) eqn:E; auto. exfalso. apply thermalization_time in E; auto. destruct E as (A & n & (B1 & B2) & B3). rewrite plus_IZR in B3.
  assert (0 < IZR k) by (apply Rmult_lt_reg_r with dt; lra). apply lt_IZR in H0. assert (IZR 1 <= IZR k) by (apply IZR_le; lia).
  assert (dt <= IZR k * dt) by (rewrite <- (Rmult_1_l dt) at 1; apply Rmult_le_compat_r; lra).
  assert (0 < IZR n) by (apply Rmult_lt_reg_r with period; lra). apply lt_IZR in H3. assert (IZR 1 <= IZR n) by (apply IZR_le; lia).
  assert (period <= IZR n * period) by (rewrite <- (Rmult_1_l period) at 1; apply Rmult_le_compat_r; lra). lra.
Qed.
Print Assumptions first_time_skipped_refuted.
(** Exactly the particles in cells above the critical energy density are removed, and only when there
    are more than 30 of them. *)
Theorem removed_particles {P} energy_at e_crit (ps : list P) :
  let l := to_remove energy_at e_crit ps in
  (l = [] \/ (30 < length l)%nat /\ forall p, In p l <-> In p ps /\ exists e, energy_at p = Some e /\ e_crit < e) /\
  ((30 < length (filter (fun p => match energy_at p with Some e => if Rlt_dec e_crit e then true else false | None => false end) ps))%nat -> l <> []).
Proof.
  intros l. unfold l, to_remove. set (f := filter _ ps). destruct (Nat.ltb_spec 30 (length f)) as [L|L].
  - split; [|intros _ E; rewrite E in L; cbn in L; lia]. right. split; auto. intros p. unfold f. rewrite filter_In. destruct (energy_at p) as [e|]; [destruct (Rlt_dec e_crit e)|].
    + split; [intros (A & _); split; auto; now exists e|intros (A & _); auto].
    + split; [intros (_ & A); discriminate|intros (_ & e' & E & H)]. injection E as <-. contradiction.
    + split; [intros (_ & A); discriminate|intros (_ & e' & E & H)]. discriminate.
  - split; [now left|]. lia.
Qed.
Print Assumptions removed_particles.
Example removed_example n : (30 < n)%nat -> to_remove (fun hot : bool => Some (if hot then 1 else 0)) (/ 2) (false :: repeat true n) = repeat true n.
Proof.
  intros H. unfold to_remove. cbn [filter]. destruct (Rlt_dec (/ 2) 0) as [L|_]; [lra|].
  assert (K : forall n, filter (fun hot : bool => if Rlt_dec (/ 2) (if hot then 1 else 0) then true else false) (repeat true n) = repeat true n).
  { clear. induction n as [|n IH]; cbn [repeat filter]; [reflexivity|]. destruct (Rlt_dec (/ 2) 1) as [_|N]; [now rewrite IH|lra]. }
  rewrite (K n), repeat_length. apply Nat.ltb_lt in H. now rewrite H.
Qed.
