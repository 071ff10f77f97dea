(** Claims about the output of particles (C49, C50). *)
From Coq Require Import ZArith Ascii String List Bool Lia.
From Verif Require Import Base Bytes NumModel NumProps TextModel TextSpec TextProps OutModel OutSpec.
Import ListNotations.
Open Scope list_scope.
Open Scope Z_scope.

(** ** the table and the chain of comparisons *)
Definition reads (i : bool) (m : meaning) (g : getter) : Prop :=
  match m, i with
  | Value f, true => g = as_integer f
  | Value f, false => g = as_double f \/ g = as_precise_double f
  | AlwaysZero, true => g = as_zero
  | AlwaysZero, false => False
  end.

Lemma getter_table q i m : lookup q table = Some (i, m) -> exists g, getter_of q = Some g /\ reads i m g.
Proof.
  unfold table. intros H.
  repeat (cbn [lookup] in H; match type of H with
    | (if string_dec ?n q then _ else _) = _ =>
        destruct (string_dec n q) as [<-|];
        [assert (E : i = fst (i, m) /\ m = snd (i, m)) by (split; reflexivity);
         (eexists; split; [reflexivity|]); inversion H; subst; cbn; auto|]
    end).
  discriminate.
Qed.

Lemma table_names : map fst units = map fst table.
Proof. reflexivity. Qed.

Lemma lookup_in q t : (exists x, lookup q t = Some x) <-> In q (map fst t).
Proof.
  induction t as [|[n x] t IH]; cbn; [split; [intros [x H]; discriminate|intros []]|].
  destruct (string_dec n q) as [->|N]; [split; [left; reflexivity|exists x; reflexivity]|].
  rewrite IH. split; [right; assumption|intros [Q|Q]; [congruence|assumption]].
Qed.

Lemma known_units q : known q <-> existsb (fun u => String.eqb (fst u) q) units = true.
Proof.
  unfold known. rewrite lookup_in, <- table_names, existsb_exists, in_map_iff. split.
  - intros (u & E & I). exists u. split; [exact I|]. apply String.eqb_eq; exact E.
  - intros (u & I & E). exists u. split; [apply String.eqb_eq; exact E|exact I].
Qed.

Lemma given_spec qs q : given qs q = true <-> In q qs.
Proof.
  unfold given. rewrite existsb_exists. split.
  - intros (x & I & E). apply String.eqb_eq in E. subst. exact I.
  - intros I. exists q. split; [exact I|apply String.eqb_refl].
Qed.

(** all pairs of synonyms in the table are pairs of the alias list: decided by running
    through the table *)
Definition meaning_eqb (a b : bool * meaning) : bool :=
  Bool.eqb (fst a) (fst b) &&
  match snd a, snd b with
  | AlwaysZero, AlwaysZero => true
  | Value f, Value g => let e : {f = g} + {f <> g} := ltac:(decide equality) in if e then true else false
  | _, _ => false
  end.
Lemma meaning_eqb_refl x : meaning_eqb x x = true.
Proof.
  unfold meaning_eqb. rewrite Bool.eqb_reflx. destruct (snd x) as [f|]; [|reflexivity].
  cbn [andb]. destruct f; reflexivity.
Qed.
Definition pair_ok (a b : string) (x y : bool * meaning) : bool :=
  negb (meaning_eqb x y) || String.eqb a b ||
  existsb (fun al => (String.eqb (fst al) a && String.eqb (snd al) b) ||
                     (String.eqb (fst al) b && String.eqb (snd al) a)) aliases.
Lemma table_pairs : forallb (fun e => forallb (fun e' => pair_ok (fst e) (fst e') (snd e) (snd e')) table) table = true.
Proof. vm_compute. reflexivity. Qed.

Lemma lookup_entry q t x : lookup q t = Some x -> In (q, x) t.
Proof.
  induction t as [|[n y] t IH]; cbn; [discriminate|].
  destruct (string_dec n q) as [->|N]; [intros E; left; congruence|intros E; right; auto].
Qed.

Lemma synonyms_aliases a b : synonyms a b <-> In (a, b) aliases \/ In (b, a) aliases.
Proof.
  split.
  - intros (N & i & m & La & Lb). apply lookup_entry in La, Lb. pose proof table_pairs as T.
    rewrite forallb_forall in T. specialize (T _ La). rewrite forallb_forall in T. specialize (T _ Lb).
    cbn [fst snd] in T. unfold pair_ok in T. rewrite meaning_eqb_refl in T. cbn [negb orb] in T.
    apply orb_true_iff in T as [T|T]; [apply String.eqb_eq in T; congruence|].
    apply existsb_exists in T as ([u v] & I & T). cbn [fst snd] in T.
    apply orb_true_iff in T as [T|T]; apply andb_true_iff in T as [T1 T2];
      apply String.eqb_eq in T1, T2; subst; [left|right]; exact I.
  - assert (X : forall a b, In (a, b) aliases -> a <> b /\ exists i m, lookup a table = Some (i, m) /\ lookup b table = Some (i, m)).
    { intros u v I. cbn in I. destruct I as [E|[E|[E|[]]]]; inversion E; subst; (split; [discriminate|]);
        do 2 eexists; split; reflexivity. }
    intros [I|I]; destruct (X _ _ I) as (N & i & m & A & B); (split; [congruence|]); exists i, m; auto.
Qed.

(** C50: a list of quantities is accepted exactly if it is not empty, has no repetition, only
    documented names and no two names of the same quantity. *)
Theorem quantities_accepted qs :
  validate qs = Ok tt <->
  qs <> [] /\ NoDup qs /\ Forall known qs /\ (forall a b, In a qs -> In b qs -> ~ synonyms a b).
Proof.
  destruct qs as [|q0 t]; [split; [discriminate|intros (N & _); congruence]|]. set (qs := q0 :: t).
  change (validate qs) with
    (if existsb (fun q => Nat.ltb 1 (count_occ string_dec qs q)) qs then Throw E_invalid_argument
     else if existsb (fun q => negb (existsb (fun u => String.eqb (fst u) q) units)) qs then Throw E_invalid_argument
     else if existsb (fun a => given qs (fst a) && given qs (snd a)) aliases then Throw E_invalid_argument
     else Ok tt).
  assert (D : existsb (fun q => Nat.ltb 1 (count_occ string_dec qs q)) qs = false <-> NoDup qs).
  { rewrite (NoDup_count_occ string_dec). split.
    - intros E q. destruct (in_dec string_dec q qs) as [I|I].
      + destruct (Nat.ltb_spec 1 (count_occ string_dec qs q)) as [L|L]; [|exact L].
        exfalso. assert (existsb (fun q => Nat.ltb 1 (count_occ string_dec qs q)) qs = true); [|congruence].
        apply existsb_exists. exists q. split; [exact I|]. apply Nat.ltb_lt; exact L.
      + apply (count_occ_not_In string_dec) in I. lia.
    - intros E. destruct (existsb _ qs) eqn:X; [|reflexivity]. apply existsb_exists in X as (q & _ & L).
      apply Nat.ltb_lt in L. specialize (E q). lia. }
  assert (K : existsb (fun q => negb (existsb (fun u => String.eqb (fst u) q) units)) qs = false <-> Forall known qs).
  { rewrite Forall_forall. split.
    - intros E q I. apply known_units. destruct (existsb (fun u => String.eqb (fst u) q) units) eqn:X; [reflexivity|].
      exfalso. assert (existsb (fun q => negb (existsb (fun u => String.eqb (fst u) q) units)) qs = true); [|congruence].
      apply existsb_exists. exists q. rewrite X. auto.
    - intros H. destruct (existsb (fun q => negb _) qs) eqn:X; [|reflexivity]. apply existsb_exists in X as (q & I & E).
      apply H, known_units in I. rewrite I in E. discriminate. }
  assert (A : existsb (fun a => given qs (fst a) && given qs (snd a)) aliases = false <->
              forall a b, In a qs -> In b qs -> ~ synonyms a b).
  { split.
    - intros E a b Ia Ib S. apply synonyms_aliases in S.
      assert (existsb (fun a => given qs (fst a) && given qs (snd a)) aliases = true); [|congruence].
      apply existsb_exists. destruct S as [S|S]; [exists (a, b)|exists (b, a)]; (split; [exact S|]); cbn [fst snd];
        apply andb_true_iff; split; apply given_spec; assumption.
    - intros H. destruct (existsb _ aliases) eqn:X; [|reflexivity]. apply existsb_exists in X as ([a b] & I & E).
      cbn [fst snd] in E. apply andb_true_iff in E as [Ea Eb]. apply given_spec in Ea, Eb.
      exfalso. apply (H a b Ea Eb). apply synonyms_aliases. left; exact I. }
  destruct (existsb _ qs) eqn:E1.
  { split; [discriminate|]. intros (_ & N & _). apply D in N. congruence. }
  destruct (existsb (fun q => negb _) qs) eqn:E2.
  { split; [discriminate|]. intros (_ & _ & N & _). apply K in N. congruence. }
  destruct (existsb _ aliases) eqn:E3.
  { split; [discriminate|]. intros (_ & _ & _ & N). apply A in N. congruence. }
  split; [|reflexivity]. intros _. splits; [discriminate|apply D; reflexivity|apply K; reflexivity|apply A; reflexivity].
Qed.
Print Assumptions quantities_accepted.

(** everything else is an invalid_argument *)
Theorem quantities_rejected qs : validate qs = Ok tt \/ validate qs = Throw E_invalid_argument.
Proof.
  destruct qs as [|q t]; [right; reflexivity|]. unfold validate.
  destruct (existsb _ _); [right; reflexivity|]. destruct (existsb _ _); [right; reflexivity|].
  destruct (existsb _ _); [right; reflexivity|left; reflexivity].
Qed.
Print Assumptions quantities_rejected.

Example quantities_examples :
  validate ["t"; "id"; "eta"; "mt"]%string = Ok tt /\
  validate ["t"; "id"; "ID"]%string = Throw E_invalid_argument /\
  validate ["t"; "x"; "t"]%string = Throw E_invalid_argument /\
  validate ["t"; "energy"]%string = Throw E_invalid_argument /\ validate [] = Throw E_invalid_argument.
Proof. splits; reflexivity. Qed.

Lemma getters_known qs : Forall known qs ->
  Forall2 (fun q g => getter_of q = Some g /\ forall i m, lookup q table = Some (i, m) -> reads i m g) qs (getters qs).
Proof.
  induction 1 as [|q t [[i m] H] _ IH]; [constructor|]. cbn [getters].
  destruct (getter_table q i m H) as (g & G & Rd). rewrite G. constructor; [|exact IH].
  split; [exact G|]. intros i' m' H'. assert (i' = i /\ m' = m) as [-> ->] by (split; congruence). exact Rd.
Qed.

Lemma accepted_known qs gs : make_formatter qs = Ok gs -> qs <> [] /\ Forall known qs /\ gs = getters qs.
Proof.
  unfold make_formatter. destruct (quantities_rejected qs) as [V|V]; rewrite V; cbn; [|discriminate].
  intros E. apply quantities_accepted in V as (N & _ & K & _). splits; auto. congruence.
Qed.

(** C50: the record of a particle has exactly one column per requested quantity, in order.
    Text form: the line ends with a newline and splitting it at the blanks gives the columns
    (no conversion of a number contains a blank or is empty). *)
Definition shows (show : getter -> particle -> text) : Prop :=
  forall g p, show g p <> [] /\ ~ In SPACE (show g p).

Lemma ascii_fields_sep show gs p :
  ascii_fields show true gs p = separated [SPACE] (map (fun g => show g p) gs).
Proof.
  destruct gs as [|g t]; [reflexivity|]. cbn [map]. rewrite separated_flat. cbn [ascii_fields app]. f_equal.
  induction t as [|h t IH]; [reflexivity|]. cbn [map flat_map ascii_fields].
  rewrite <- IH. cbn [app]. reflexivity.
Qed.

Theorem ascii_columns show qs gs p : shows show -> make_formatter qs = Ok gs ->
  exists body, ascii_line show gs p = body ++ [NEWLINE] /\
    length (split body SPACE) = length qs /\
    Forall2 (fun q col => exists i m g, lookup q table = Some (i, m) /\ reads i m g /\ col = show g p)
      qs (split body SPACE).
Proof.
  intros Sh M. destruct (accepted_known qs gs M) as (Nq & K & ->).
  pose proof (getters_known qs K) as F. exists (ascii_fields show true (getters qs) p). split; [reflexivity|].
  assert (Ng : getters qs <> []) by (intros E; rewrite E in F; inversion F; subst; congruence).
  assert (E : split (ascii_fields show true (getters qs) p) SPACE = map (fun g => show g p) (getters qs)).
  { rewrite ascii_fields_sep. destruct (getters qs) as [|g t] eqn:Eg; [congruence|].
    assert (J : separated [SPACE] (map (fun g => show g p) (g :: t)) = join (map (fun g => show g p) (g :: t)) [SPACE]).
    { cbn [map]. destruct (show g p) as [|c x] eqn:Ec; [exfalso; apply (proj1 (Sh g p)); exact Ec|]. rewrite join_head. reflexivity. }
    rewrite J. apply split_join_partial.
    - apply Forall_forall. intros x I. apply in_map_iff in I as (h & <- & _). apply Sh.
    - cbn. apply Sh.
    - destruct (exists_last (l := g :: t)) as (w & h & W); [discriminate|]. rewrite W, map_app. cbn [map].
      rewrite last_app. apply Sh. }
  rewrite E. split.
  - rewrite map_length. symmetry. clear - F. induction F; [reflexivity|]; cbn; f_equal; assumption.
  - clear - F K. induction F as [|q g qs gs [G Rd] F IH]; [constructor|].
    inversion K as [|? ? [[i m] H] K']; subst. cbn. constructor; [|apply IH; exact K'].
    exists i, m, g. splits; auto.
Qed.
Print Assumptions ascii_columns.

Example ascii_example :
  let show g (p : particle) := match g with as_integer f => [48 + p f] | as_zero => [48] | as_double f => [48 + p f; 46]
                  | as_precise_double f => [48 + p f; 46; 46] end in
  let p := fun f => match f with Pos0 => 3 | Id => 7 | _ => 1 end in
  exists gs, make_formatter ["t"; "ID"; "px"]%string = Ok gs /\ ascii_line show gs p = codes "3. 7 1.." ++ [10].
Proof. cbv zeta. eexists. split; reflexivity. Qed.

(** ** chunked writing *)
Lemma chunks_concat line max ps buffer current :
  concat (chunks line max ps buffer current) = buffer ++ flat_map line ps.
Proof.
  revert buffer current; induction ps as [|p t IH]; intros buffer current; cbn [chunks flat_map].
  - destruct buffer; cbn; rewrite ?app_nil_r; reflexivity.
  - destruct (max <? _).
    + cbn [concat]. rewrite IH. reflexivity.
    + rewrite IH, <- app_assoc. reflexivity.
Qed.

Lemma chunks_bounded line max ps buffer current :
  current = Z.of_nat (length buffer) -> current <= max ->
  (forall p, In p ps -> Z.of_nat (length (line p)) <= max) ->
  Forall (fun c => Z.of_nat (length c) <= max) (chunks line max ps buffer current).
Proof.
  revert buffer current; induction ps as [|p t IH]; intros buffer current -> L H; cbn [chunks].
  - destruct buffer; constructor; [exact L|constructor].
  - destruct (Z.ltb_spec max (Z.of_nat (length buffer) + Z.of_nat (length (line p)))).
    + constructor; [exact L|]. apply IH; [reflexivity|apply H; left; reflexivity|].
      intros q Q. apply H. right; exact Q.
    + apply IH.
      * rewrite app_length. lia.
      * exact H0.
      * intros q Q. apply H. right; exact Q.
Qed.

(** C49: writing in chunks puts the same bytes into the file as writing at once, for every
    limit; the only failure is a limit smaller than two lines. *)
Theorem chunked_writing line size max ps :
  (forall p, In p ps -> size p = Z.of_nat (length (line p))) ->
  (exists cs, write_in_chunk line size max ps = Ok cs /\ concat cs = flat_map line ps) \/
  (write_in_chunk line size max ps = Throw E_runtime /\
   exists p, hd_error ps = Some p /\ max < 2 * Z.of_nat (length (line p))).
Proof.
  intros Sz. destruct ps as [|p t]; [left; exists []; split; reflexivity|].
  unfold write_in_chunk. rewrite (Sz p) by (left; reflexivity).
  destruct (Z.ltb_spec max (2 * Z.of_nat (length (line p)))) as [L|L].
  - right. split; [reflexivity|]. exists p. split; [reflexivity|exact L].
  - left. destruct (u64 _ <=? max).
    + exists [flat_map line (p :: t)]. split; [reflexivity|]. cbn [concat]. apply app_nil_r.
    + exists (chunks line max (p :: t) [] 0). split; [reflexivity|]. rewrite chunks_concat. reflexivity.
Qed.
Print Assumptions chunked_writing.

(** No buffer handed to the file is larger than the limit, provided that all lines have the
    size of the first one (true for binary lines) and the total size does not overflow. *)
Theorem chunks_respect_limit line size max ps cs n :
  (forall p, In p ps -> size p = n /\ Z.of_nat (length (line p)) = n) ->
  Z.of_nat (length ps) * n < 2 ^ 64 -> 0 <= max ->
  write_in_chunk line size max ps = Ok cs -> Forall (fun c => Z.of_nat (length c) <= max) cs.
Proof.
  intros Sz B M. destruct ps as [|p t]; [intros E; assert (cs = []) by (cbn in E; congruence); subst; constructor|].
  unfold write_in_chunk. destruct (Sz p (or_introl eq_refl)) as [S1 S2]. rewrite S1.
  assert (n >= 0) by lia.
  destruct (Z.ltb_spec max (2 * n)) as [L|L]; [discriminate|].
  unfold u64. rewrite Z.mod_small by lia.
  destruct (Z.leb_spec (Z.of_nat (length (p :: t)) * n) max) as [T|T]; intros E.
  - assert (cs = [flat_map line (p :: t)]) by congruence. subst cs. constructor; [|constructor].
    assert (X : Z.of_nat (length (flat_map line (p :: t))) = Z.of_nat (length (p :: t)) * n); [|lia].
    clear - Sz. induction (p :: t) as [|q u IH]; [reflexivity|]. cbn [flat_map]. rewrite app_length.
    rewrite Nat2Z.inj_add, IH by (intros r Hr; apply Sz; right; exact Hr).
    destruct (Sz q (or_introl eq_refl)) as [_ ->]. cbn [length]. lia.
  - assert (cs = chunks line max (p :: t) [] 0) by congruence. subst cs.
    apply chunks_bounded; [reflexivity|exact M|]. intros q Q. destruct (Sz q Q) as [_ ->]. lia.
Qed.
Print Assumptions chunks_respect_limit.

Example chunk_example :
  let line (p : particle) := le 4 (p Id) in
  write_in_chunk line (fun _ => 4) 9 [fun _ => 1; fun _ => 2; fun _ => 3] =
  Ok [[1; 0; 0; 0; 2; 0; 0; 0]; [3; 0; 0; 0]].
Proof. reflexivity. Qed.

(** ** decoding *)
Lemma bytes_app n a b : length a = n -> bytes n (a ++ b) = Some (a, b).
Proof.
  intros <-. unfold bytes. rewrite app_length.
  rewrite (proj2 (Nat.leb_le _ _)) by lia.
  rewrite firstn_app, Nat.sub_diag, firstn_all, skipn_app, Nat.sub_diag, skipn_all. cbn.
  rewrite app_nil_r. reflexivity.
Qed.

Lemma r_unsigned_le n x b : 0 <= x < 256 ^ Z.of_nat n -> r_unsigned n (le n x ++ b) = Some (x, b).
Proof.
  intros H. unfold r_unsigned. rewrite bytes_app by apply le_length. cbn [bind].
  rewrite of_le_le by exact H. reflexivity.
Qed.

Lemma r_int32_le x b : - 2 ^ 31 <= x < 2 ^ 31 -> r_int32 (le 4 (u32 x) ++ b) = Some (x, b).
Proof.
  intros H. unfold r_int32.
  assert (U : u32 x = if 0 <=? x then x else x + 2 ^ 32).
  { unfold u32. destruct (Z.leb_spec 0 x).
    - apply Z.mod_small. lia.
    - symmetry. apply (Z.mod_unique_pos _ _ (-1)); lia. }
  rewrite r_unsigned_le; cbn [bind].
  - rewrite U. destruct (Z.leb_spec 0 x).
    + rewrite (proj2 (Z.ltb_lt _ _)) by lia. reflexivity.
    + rewrite (proj2 (Z.ltb_ge _ _)) by lia. f_equal. f_equal. lia.
  - change (256 ^ Z.of_nat 4) with (2 ^ 32). rewrite U. destruct (Z.leb_spec 0 x); lia.
Qed.

Lemma r_row_line qs p b : Forall known qs -> fits_table p ->
  r_row qs (binary_line (getters qs) p ++ b) = Some (row qs p, b).
Proof.
  intros K F. induction K as [|q t [[i m] H] K IH]; [reflexivity|].
  cbn [getters r_row row map]. destruct (getter_table q i m H) as (g & G & Rd). rewrite G, H.
  unfold column. rewrite H. unfold binary_line. cbn [flat_map]. fold (binary_line (getters t) p).
  rewrite <- app_assoc. unfold row in IH.
  destruct m as [f|]; destruct i; cbn [reads] in Rd.
  - subst g. cbn [to_binary]. rewrite r_int32_le by (apply (F q true f H)). cbn [bind]. rewrite IH. reflexivity.
  - pose proof (F q false f H) as X. cbv beta iota in X.
    assert (Y : r_double (le 8 (p f) ++ binary_line (getters t) p ++ b) = Some (p f, binary_line (getters t) p ++ b)).
    { apply r_unsigned_le. exact X. }
    destruct Rd as [-> | ->]; cbn [to_binary]; rewrite Y; cbn [bind]; rewrite IH; reflexivity.
  - subst g. cbn [to_binary]. change (le 4 0) with (le 4 (u32 0)). rewrite r_int32_le by lia.
    cbn [bind]. rewrite IH. reflexivity.
  - destruct Rd.
Qed.

Lemma r_rows_lines qs ps b : Forall known qs -> Forall fits_table ps ->
  r_rows qs (length ps) (flat_map (binary_line (getters qs)) ps ++ b) = Some (map (row qs) ps, b).
Proof.
  intros K F. induction F as [|p t Hp F IH]; [reflexivity|].
  cbn [length r_rows flat_map map]. rewrite <- app_assoc, r_row_line by assumption. cbn [bind].
  rewrite IH. reflexivity.
Qed.

Lemma binary_size_line gs p : binary_size gs p = Z.of_nat (length (binary_line gs p)).
Proof.
  assert (X : forall gs a, fold_left (fun s g => s + Z.of_nat (length (to_binary g p))) gs a =
              a + Z.of_nat (length (binary_line gs p))).
  { clear. induction gs as [|g t IH]; intros a; [cbn; lia|]. cbn [fold_left]. rewrite IH.
    unfold binary_line. cbn [flat_map]. rewrite app_length. lia. }
  unfold binary_size. destruct gs; [reflexivity|]. rewrite X. lia.
Qed.

Lemma line_short qs p : NoDup qs -> Forall known qs -> Z.of_nat (length (binary_line (getters qs) p)) <= 280.
Proof.
  intros D K.
  assert (L1 : (length qs <= length table)%nat).
  { rewrite <- (map_length fst table). apply NoDup_incl_length; [exact D|]. intros q I.
    rewrite Forall_forall in K. apply K in I. apply lookup_in in I. exact I. }
  assert (L2 : (length (binary_line (getters qs) p) <= 8 * length qs)%nat).
  { clear. induction qs as [|q t IH]; [cbn; lia|]. cbn [getters]. destruct (getter_of q) as [g|].
    - unfold binary_line in *. cbn [flat_map]. rewrite app_length.
      assert (length (to_binary g p) <= 8)%nat by (destruct g; cbn [to_binary]; rewrite le_length; lia).
      cbn [length]. lia.
    - cbn [length]. lia. }
  change (length table) with 35%nat in L1. lia.
Qed.

Lemma write_particles_ok qs ps : NoDup qs -> Forall known qs ->
  write_particles (getters qs) ps = Ok (flat_map (binary_line (getters qs)) ps).
Proof.
  intros D K. unfold write_particles.
  destruct (chunked_writing (binary_line (getters qs)) (binary_size (getters qs)) MAX_BUFFER ps) as [(cs & E & C)|(E & p & _ & L)].
  - intros p _. apply binary_size_line.
  - rewrite E. cbn [rbind]. rewrite C. reflexivity.
  - pose proof (line_short qs p D K). unfold MAX_BUFFER in L. lia.
Qed.

Lemma write_size_ok n : Z.of_nat n < 2 ^ 32 -> write_size n = Ok (le 4 (Z.of_nat n)).
Proof.
  intros H. unfold write_size. unfold cast_int. unfold NumModel.wrap. cbn [sgn bits uint64 uint32].
  rewrite (Z.mod_small _ (2 ^ 32)) by lia. rewrite Z.mod_small by lia. rewrite Z.eqb_refl. reflexivity.
Qed.

Lemma r_rows_z qs ps b : Forall known qs -> Forall fits_table ps ->
  r_rows qs (Z.to_nat (Z.of_nat (length ps))) (flat_map (binary_line (getters qs)) ps ++ b) = Some (map (row qs) ps, b).
Proof. intros. rewrite Nat2Z.id. apply r_rows_lines; assumption. Qed.

Ltac dec := repeat (rewrite <- ?app_assoc; cbn [bind];
  first [ rewrite r_int32_le by lia
        | rewrite r_unsigned_le by (change (256 ^ Z.of_nat 4) with (2 ^ 32); change (256 ^ Z.of_nat 8) with (2 ^ 64); lia)
        | rewrite r_rows_z by assumption ]).

Lemma p_block_decodes qs l ps b : NoDup qs -> Forall known qs -> small ps -> fits_label l ->
  exists d, p_block (getters qs) l ps = Ok d /\ d <> [] /\
    r_block qs (d ++ b) = Some (particle_block qs l ps, b).
Proof.
  intros D K [Ls Fs] [L1 L2]. unfold p_block. rewrite write_size_ok by exact Ls. cbn [rbind].
  rewrite write_particles_ok by assumption. cbn [rbind].
  eexists. splits; [reflexivity|discriminate|].
  unfold r_block. cbn [app]. unfold write_int32, particle_block. dec. reflexivity.
Qed.

Lemma f_block_decodes qs l i b : fits_label l -> 0 <= impact_parameter i < 2 ^ 64 ->
  r_block qs (f_block l i ++ b) = Some (end_block l i, b).
Proof.
  intros [L1 L2] I. unfold f_block, r_block. cbn [app]. unfold write_int32, end_block, r_double. dec.
  cbn [app]. destruct (empty_event i); reflexivity.
Qed.

Lemma i_block_decodes qs a d b : NoDup qs -> Forall known qs -> fits_call (at_interaction a d) ->
  exists x, i_block (getters qs) a d = Ok x /\ x <> [] /\
    r_block qs (x ++ b) = Some (interaction_block qs a d, b).
Proof.
  intros D K ([Li Fi] & [Lo Fo] & Hd & Hw & Hp & Ht). unfold i_block.
  rewrite !write_size_ok by assumption. cbn [rbind]. rewrite !write_particles_ok by assumption. cbn [rbind].
  eexists. splits; [reflexivity|discriminate|].
  unfold r_block. cbn [app]. unfold interaction_block, r_double.
  assert (U : u32 (process_type a) = process_type a) by (unfold u32; apply Z.mod_small; lia). rewrite U.
  dec. reflexivity.
Qed.

(** decoding a stream of blocks *)
Definition encodes (rb : list Z -> option (block * list Z)) (d : list Z) (xs : list block) : Prop :=
  forall b ys, (exists f, r_blocks f rb b = Some ys) -> exists f, r_blocks f rb (d ++ b) = Some (xs ++ ys).

Definition shrinks (rb : list Z -> option (block * list Z)) : Prop :=
  forall b x r, rb b = Some (x, r) -> (length r < length b)%nat.

Lemma r_blocks_more f rb b ys : shrinks rb ->
  r_blocks f rb b = Some ys -> forall g, (length b <= g)%nat -> r_blocks g rb b = Some ys.
Proof.
  intros Rb. revert b ys; induction f as [|f IH]; intros b ys E g L.
  - destruct b; [|discriminate]. destruct g; exact E.
  - destruct b as [|k b]; [destruct g; exact E|]. destruct g as [|g]; [cbn in L; lia|].
    change (r_blocks (S f) rb (k :: b)) with
      (bind (rb (k :: b)) (fun x r => match r_blocks f rb r with Some xs => Some (x :: xs) | None => None end)) in E.
    change (r_blocks (S g) rb (k :: b)) with
      (bind (rb (k :: b)) (fun x r => match r_blocks g rb r with Some xs => Some (x :: xs) | None => None end)).
    destruct (rb (k :: b)) as [[x r]|] eqn:Eb; cbn [bind] in *; [|discriminate].
    destruct (r_blocks f rb r) as [xs|] eqn:Er; [|discriminate].
    apply Rb in Eb. rewrite (IH r xs Er g) by lia. exact E.
Qed.

Lemma bytes_shrink n c w r : bytes n c = Some (w, r) -> (length r + n = length c)%nat.
Proof.
  unfold bytes. destruct (Nat.leb_spec n (length c)); [|discriminate].
  intros E. assert (r = skipn n c) by congruence. subst r. rewrite skipn_length. lia.
Qed.
Lemma unsigned_shrink n c w r : r_unsigned n c = Some (w, r) -> (length r + n = length c)%nat.
Proof.
  unfold r_unsigned. destruct (bytes n c) as [[w' r']|] eqn:E; cbn [bind]; [|discriminate].
  intros Q. assert (r = r') by congruence. subst. eapply bytes_shrink; eauto.
Qed.
Lemma int32_shrink c w r : r_int32 c = Some (w, r) -> (length r + 4 = length c)%nat.
Proof.
  unfold r_int32. destruct (r_unsigned 4 c) as [[w' r']|] eqn:E; cbn [bind]; [|discriminate].
  intros Q. assert (r = r') by congruence. subst. eapply unsigned_shrink; eauto.
Qed.
Lemma row_shrink qs c w r : r_row qs c = Some (w, r) -> (length r <= length c)%nat.
Proof.
  revert c w r; induction qs as [|q t IH]; cbn [r_row]; intros c w r E; [assert (r = c) by congruence; subst; lia|].
  destruct (lookup q table) as [[i m]|]; [|discriminate].
  destruct (if i : bool then r_int32 c else r_double c) as [[v r1]|] eqn:E1; cbn [bind] in E; [|discriminate].
  destruct (r_row t r1) as [[vs r2]|] eqn:E2; cbn [bind] in E; [|discriminate].
  assert (r = r2) by congruence. subst. apply IH in E2.
  assert (length r1 <= length c)%nat by (destruct i; [apply int32_shrink in E1|apply unsigned_shrink in E1]; lia). lia.
Qed.
Lemma rows_shrink qs n c w r : r_rows qs n c = Some (w, r) -> (length r <= length c)%nat.
Proof.
  revert c w r; induction n as [|n IH]; cbn [r_rows]; intros c w r E; [assert (r = c) by congruence; subst; lia|].
  destruct (r_row qs c) as [[v r1]|] eqn:E1; cbn [bind] in E; [|discriminate].
  destruct (r_rows qs n r1) as [[vs r2]|] eqn:E2; cbn [bind] in E; [|discriminate].
  assert (r = r2) by congruence. subst. apply IH in E2. apply row_shrink in E1. lia.
Qed.

Ltac other_kind E :=
  exfalso; repeat match type of E with (match ?k with _ => _ end) = _ => destruct k; try discriminate; try lia end.

Lemma block_shrinks qs : shrinks (r_block qs).
Proof.
  intros c x r E. destruct c as [|k c]; [discriminate|].
  assert (C : k = 112 \/ k = 105 \/ k = 102 \/ (k <> 112 /\ k <> 105 /\ k <> 102)) by lia.
  destruct C as [-> |[-> |[-> |C]]]; cbn [r_block] in E.
  - destruct (r_int32 c) as [[v1 r1]|] eqn:E1; cbn [bind] in E; [|discriminate].
    destruct (r_int32 r1) as [[v2 r2]|] eqn:E2; cbn [bind] in E; [|discriminate].
    destruct (r_unsigned 4 r2) as [[v3 r3]|] eqn:E3; cbn [bind] in E; [|discriminate].
    destruct (r_rows _ _ r3) as [[v4 r4]|] eqn:E4; cbn [bind] in E; [|discriminate].
    assert (r = r4) by congruence. subst. apply int32_shrink in E1, E2. apply unsigned_shrink in E3.
    apply rows_shrink in E4. cbn [length]. lia.
  - destruct (r_unsigned 4 c) as [[v1 r1]|] eqn:E1; cbn [bind] in E; [|discriminate].
    destruct (r_unsigned 4 r1) as [[v2 r2]|] eqn:E2; cbn [bind] in E; [|discriminate].
    destruct (r_double r2) as [[v3 r3]|] eqn:E3; cbn [bind] in E; [|discriminate].
    destruct (r_double r3) as [[v4 r4]|] eqn:E4; cbn [bind] in E; [|discriminate].
    destruct (r_double r4) as [[v5 r5]|] eqn:E5; cbn [bind] in E; [|discriminate].
    destruct (r_unsigned 4 r5) as [[v6 r6]|] eqn:E6; cbn [bind] in E; [|discriminate].
    destruct (r_rows _ _ r6) as [[v7 r7]|] eqn:E7; cbn [bind] in E; [|discriminate].
    destruct (r_rows _ _ r7) as [[v8 r8]|] eqn:E8; cbn [bind] in E; [|discriminate].
    assert (r = r8) by congruence. subst. apply unsigned_shrink in E1, E2, E3, E4, E5, E6.
    apply rows_shrink in E7, E8. cbn [length]. lia.
  - destruct (r_int32 c) as [[v1 r1]|] eqn:E1; cbn [bind] in E; [|discriminate].
    destruct (r_int32 r1) as [[v2 r2]|] eqn:E2; cbn [bind] in E; [|discriminate].
    destruct (r_double r2) as [[v3 r3]|] eqn:E3; cbn [bind] in E; [|discriminate].
    destruct (r_unsigned 1 r3) as [[v4 r4]|] eqn:E4; cbn [bind] in E; [|discriminate].
    assert (r = r4) by congruence. subst. apply int32_shrink in E1, E2. apply unsigned_shrink in E3, E4.
    cbn [length]. lia.
  - unfold r_block in E. other_kind E.
Qed.

Lemma ic_block_shrinks qs : shrinks (r_ic_block qs).
Proof.
  intros c x r E. destruct c as [|k c]; [discriminate|].
  assert (C : k = 112 \/ k = 102 \/ (k <> 112 /\ k <> 102)) by lia.
  destruct C as [-> |[-> |C]].
  - cbn [r_ic_block] in E.
    destruct (r_unsigned 4 c) as [[v1 r1]|] eqn:E1; cbn [bind] in E; [|discriminate].
    destruct (r_rows _ _ r1) as [[v2 r2]|] eqn:E2; cbn [bind] in E; [|discriminate].
    assert (r = r2) by congruence. subst. apply unsigned_shrink in E1. apply rows_shrink in E2. cbn [length]. lia.
  - apply (block_shrinks qs) with (x := x). exact E.
  - unfold r_ic_block in E. other_kind E.
Qed.

Lemma encodes_nil rb : encodes rb [] [].
Proof. intros b ys H. exact H. Qed.

Lemma encodes_one rb d x : d <> [] -> (forall b, rb (d ++ b) = Some (x, b)) -> encodes rb d [x].
Proof.
  intros N H b ys [f E]. exists (S f). specialize (H b). destruct d as [|k d]; [congruence|].
  change (r_blocks (S f) rb ((k :: d) ++ b)) with
    (bind (rb ((k :: d) ++ b)) (fun x r => match r_blocks f rb r with Some xs => Some (x :: xs) | None => None end)).
  rewrite H. cbn [bind]. rewrite E. reflexivity.
Qed.

Lemma encodes_app rb d e xs ys : encodes rb d xs -> encodes rb e ys -> encodes rb (d ++ e) (xs ++ ys).
Proof.
  intros H1 H2 b zs H. rewrite <- !app_assoc. apply H1. apply H2. exact H.
Qed.

Lemma p_encodes qs l ps : NoDup qs -> Forall known qs -> small ps -> fits_label l ->
  exists d, p_block (getters qs) l ps = Ok d /\ encodes (r_block qs) d [particle_block qs l ps].
Proof.
  intros D K S F. destruct (p_block_decodes qs l ps [] D K S F) as (d & E & N & _).
  exists d. split; [exact E|]. apply encodes_one; [exact N|]. intros b.
  destruct (p_block_decodes qs l ps b D K S F) as (d' & E' & _ & R'). assert (d' = d) by congruence. subst. exact R'.
Qed.
Lemma f_encodes qs l i : fits_label l -> 0 <= impact_parameter i < 2 ^ 64 -> encodes (r_block qs) (f_block l i) [end_block l i].
Proof. intros F I. apply encodes_one; [discriminate|]. intros b. apply f_block_decodes; assumption. Qed.

Lemma collisions_encodes pse qs c : NoDup qs -> Forall known qs -> fits_call c ->
  exists d, collisions_output pse (getters qs) c = Ok d /\ encodes (r_block qs) d (collisions_blocks pse qs c).
Proof.
  intros D K F. destruct c as [ps l|ps l i|a d|ps l]; cbn [fits_call] in F; cbn [collisions_output collisions_blocks].
  - destruct pse; [apply p_encodes; tauto|exists []; split; [reflexivity|apply encodes_nil]].
  - destruct F as (Fs & Fl & Fi). destruct pse; cbn [rbind].
    + destruct (p_encodes qs l ps D K Fs Fl) as (d & E & En). rewrite E. cbn [rbind]. eexists. split; [reflexivity|].
      apply encodes_app; [exact En|apply f_encodes; assumption].
    + eexists. split; [reflexivity|]. cbn [app]. apply f_encodes; assumption.
  - destruct (i_block_decodes qs a d [] D K F) as (x & E & N & _). exists x. split; [exact E|].
    apply encodes_one; [exact N|]. intros b. destruct (i_block_decodes qs a d b D K F) as (x' & E' & _ & R').
    assert (x' = x) by congruence. subst. exact R'.
  - exists []. split; [reflexivity|apply encodes_nil].
Qed.

Lemma particles_encodes only qs c : NoDup qs -> Forall known qs -> fits_call c ->
  exists d, particles_output only (getters qs) c = Ok d /\ encodes (r_block qs) d (particles_blocks only qs c).
Proof.
  intros D K F. destruct c as [ps l|ps l i|a d|ps l]; cbn [fits_call] in F; cbn [particles_output particles_blocks].
  - destruct only; try (exists []; split; [reflexivity|apply encodes_nil]). apply p_encodes; tauto.
  - destruct F as (Fs & Fl & Fi). destruct (p_encodes qs l ps D K Fs Fl) as (d & E & En).
    pose proof (f_encodes qs l i Fl Fi) as Ef.
    destruct only; cbn [andb]; rewrite ?andb_false_r, ?andb_true_r; rewrite ?E; cbn [rbind].
    + eexists. split; [reflexivity|]. apply (encodes_app (r_block qs) d _ [_] [_]); assumption.
    + eexists. split; [reflexivity|]. apply (encodes_app (r_block qs) d _ [_] [_]); assumption.
    + destruct (empty_event i); cbn [rbind].
      * eexists. split; [reflexivity|]. exact Ef.
      * rewrite ?E. cbn [rbind]. eexists. split; [reflexivity|]. apply encodes_app; assumption.
  - exists []. split; [reflexivity|apply encodes_nil].
  - destruct only; try (exists []; split; [reflexivity|apply encodes_nil]). apply p_encodes; tauto.
Qed.

Lemma file_decodes rb qs vs out (blk : call -> list block) calls :
  shrinks rb -> validate qs = Ok tt -> Z.of_nat (length vs) < 2 ^ 32 ->
  (forall c, In c calls -> exists d, out (getters qs) c = Ok d /\ encodes rb d (blk c)) ->
  exists f, write_file qs vs out calls = Ok f /\
    read_with rb f = Some (mkFile 10 (format_variant qs) vs (flat_map blk calls)).
Proof.
  intros Sr V L H. pose proof V as V'. apply quantities_accepted in V as (N & D & K & _).
  unfold write_file, open_output, make_formatter. rewrite V'. cbn [rbind].
  destruct qs as [|q0 qt]; [congruence|]. set (qs := q0 :: qt) in *.
  unfold write_string. unfold cast_int, NumModel.wrap. cbn [sgn bits uint64 uint32].
  rewrite (Z.mod_small _ (2 ^ 32)) by lia. rewrite Z.mod_small by lia. rewrite Z.eqb_refl. cbn [negb orb xorb andb rbind].
  assert (M : exists bs, mapM (out (getters qs)) calls = Ok bs /\ encodes rb (concat bs) (flat_map blk calls)).
  { clear - H. induction calls as [|c t IH]; [exists []; split; [reflexivity|apply encodes_nil]|].
    destruct (H c (or_introl eq_refl)) as (d & E & En).
    destruct IH as (bs & Eb & Ebs); [intros c' I; apply H; right; exact I|].
    exists (d :: bs). split; [cbn [mapM]; rewrite E; cbn [rbind]; rewrite Eb; reflexivity|].
    cbn [concat flat_map]. apply encodes_app; assumption. }
  destruct M as (bs & Eb & En). rewrite Eb. cbn [rbind].
  eexists. split; [reflexivity|]. unfold read_with. rewrite <- !app_assoc.
  rewrite (bytes_app 4 [83; 77; 83; 72]) by reflexivity. cbn [bind].
  destruct (list_eq_dec Z.eq_dec [83; 77; 83; 72] [83; 77; 83; 72]) as [_|C]; [|congruence].
  rewrite r_unsigned_le by (cbn; lia). cbn [bind].
  rewrite r_unsigned_le.
  2: { unfold format_variant. destruct (list_eq_dec _ _ _); [cbn; lia|]. destruct (list_eq_dec _ _ _); cbn; lia. }
  cbn [bind]. rewrite r_unsigned_le by (change (256 ^ Z.of_nat 4) with (2 ^ 32); lia). cbn [bind].
  rewrite bytes_app by (rewrite Nat2Z.id; reflexivity). cbn [bind].
  destruct (En [] []) as [f Ef]; [exists 0%nat; reflexivity|]. rewrite !app_nil_r in Ef.
  rewrite (r_blocks_more f _ _ _ Sr Ef) by lia. reflexivity.
Qed.

(** C49: the format variant in the header is 0 for exactly the OSCAR2013 quantities, 1 for
    exactly the extended ones and 2 for any other list. *)
Theorem variant_names_the_quantities qs :
  (format_variant qs = 0 <->
   qs = ["t"; "x"; "y"; "z"; "mass"; "p0"; "px"; "py"; "pz"; "pdg"; "ID"; "charge"]%string) /\
  (format_variant qs = 1 <->
   qs = ["t"; "x"; "y"; "z"; "mass"; "p0"; "px"; "py"; "pz"; "pdg"; "ID"; "charge"; "ncoll"; "form_time";
         "xsecfac"; "proc_id_origin"; "proc_type_origin"; "time_last_coll"; "pdg_mother1"; "pdg_mother2";
         "baryon_number"; "strangeness"]%string) /\
  0 <= format_variant qs <= 2.
Proof.
  unfold format_variant, oscar2013, oscar2013extended.
  destruct (list_eq_dec _ _ _) as [->|N]; [split; [tauto|split; [split; [lia|discriminate]|lia]]|].
  destruct (list_eq_dec _ _ _) as [->|N']; [split; [split; [lia|discriminate]|split; [tauto|lia]]|].
  split; [split; [lia|contradiction]|split; [split; [lia|contradiction]|lia]].
Qed.
Print Assumptions variant_names_the_quantities.

(** C49: for every accepted list of quantities and every sequence of calls, the collisions
    file reads back, by the documented format, as exactly the blocks it must contain. *)
Theorem collisions_file_decodes pse qs vs calls :
  validate qs = Ok tt -> Z.of_nat (length vs) < 2 ^ 32 -> Forall fits_call calls ->
  exists f, write_file qs vs (collisions_output pse) calls = Ok f /\
    read_file qs f = Some (mkFile 10 (format_variant qs) vs (flat_map (collisions_blocks pse qs) calls)).
Proof.
  intros V L F. apply file_decodes; [apply block_shrinks|exact V|exact L|]. intros c I. rewrite Forall_forall in F.
  apply quantities_accepted in V as (_ & D & K & _). apply collisions_encodes; auto.
Qed.
Print Assumptions collisions_file_decodes.

(** ... and so does the particles file. *)
Theorem particles_file_decodes only qs vs calls :
  validate qs = Ok tt -> Z.of_nat (length vs) < 2 ^ 32 -> Forall fits_call calls ->
  exists f, write_file qs vs (particles_output only) calls = Ok f /\
    read_file qs f = Some (mkFile 10 (format_variant qs) vs (flat_map (particles_blocks only qs) calls)).
Proof.
  intros V L F. apply file_decodes; [apply block_shrinks|exact V|exact L|]. intros c I. rewrite Forall_forall in F.
  apply quantities_accepted in V as (_ & D & K & _). apply particles_encodes; auto.
Qed.
Print Assumptions particles_file_decodes.

Definition ex_particle (n : Z) : particle := fun f => match f with Id => n | Charge => -1 | PdgDecimal => -211 | _ => n + 7 end.
Lemma ex_fits n : 0 <= n < 1000 -> fits_table (ex_particle n).
Proof.
  intros H q i f Lk. apply lookup_entry in Lk. cbn in Lk.
  repeat (destruct Lk as [E|Lk]; [inversion E; subst; cbn; lia|]). destruct Lk.
Qed.
Definition ex_calls : list call :=
  [at_eventstart [ex_particle 1; ex_particle 2] (mkLabel 0 0);
   at_interaction (mkAction [ex_particle 1; ex_particle 2] [ex_particle 3] 5 6 2) 77;
   at_eventend [ex_particle 3] (mkLabel 0 0) (mkInfo 12 false)].
Example out_hyps : validate oscar2013extended = Ok tt /\ Forall fits_call ex_calls.
Proof.
  split; [reflexivity|]. unfold ex_calls. repeat constructor; cbn; try lia; try (apply ex_fits; lia).
Qed.

(** The initial-conditions file can be read back, too, but not by the documented format. *)
Theorem ic_file_decodes_partial qs vs calls :
  validate qs = Ok tt -> Z.of_nat (length vs) < 2 ^ 32 -> Forall fits_call calls ->
  exists f, write_file qs vs ic_output calls = Ok f /\
    read_ic_file qs f = Some (mkFile 10 (format_variant qs) vs (flat_map (ic_blocks qs) calls)).
Proof.
  intros V L F. apply file_decodes; [apply ic_block_shrinks|exact V|exact L|]. intros c I.
  rewrite Forall_forall in F. apply F in I.
  apply quantities_accepted in V as (_ & D & K & _).
  destruct c as [ps l|ps l i|a d|ps l]; cbn [fits_call] in I; cbn [ic_output ic_blocks];
    try (exists []; split; [reflexivity|apply encodes_nil]).
  - eexists. split; [reflexivity|]. apply encodes_one; [discriminate|]. intros b.
    exact (f_block_decodes qs l i b (proj1 (proj2 I)) (proj2 (proj2 I))).
  - destruct I as ([Li Fi] & _). change (fluid (process_type a)) with ((process_type a =? 8) || (process_type a =? 21)).
    destruct (_ || _); [|exists []; split; [reflexivity|apply encodes_nil]].
    rewrite write_size_ok by exact Li. cbn [rbind]. rewrite write_particles_ok by assumption. cbn [rbind].
    eexists. split; [reflexivity|]. apply encodes_one; [discriminate|]. intros b.
    unfold r_ic_block. cbn [app]. dec. reflexivity.
Qed.
Print Assumptions ic_file_decodes_partial.

(** The initial-conditions output writes 'p' blocks without event and ensemble number: read
    by the documented format, a file with one removed particle is not readable. *)
Theorem ic_file_refuted :
  exists f, write_file oscar2013 (codes "v") ic_output
    [at_interaction (mkAction [ex_particle 1] [] 5 6 8) 77; at_eventend [] (mkLabel 0 0) (mkInfo 12 false)] = Ok f /\
  read_file oscar2013 f = None.
Proof. eexists. split; [vm_compute; reflexivity|vm_compute; reflexivity]. Qed.
Print Assumptions ic_file_refuted.
