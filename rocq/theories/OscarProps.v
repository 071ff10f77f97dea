(** OSCAR files (C121): the reader of [OscarSpec] recovers what the simulation reported. *)
From Coq Require Import ZArith Reals Ascii String List Bool Lia Lra.
From Verif Require Import Base TextModel TextSpec TextProps PdgModel PrintfModel PrintfProps OutModel OutSpec OutProps OscarModel OscarSpec OscarText.
Import ListNotations.
Open Scope list_scope.
Open Scope Z_scope.

(** ** particle lines *)
Definition row_line (gs : list getter) (p : particle) : text := ascii_fields show true gs p.
Lemma show_word g p : word (show g p).
Proof. destruct g; cbn [show]; try apply to_string_word; apply printf_g_word; lia. Qed.
Lemma fields_false gs p : gs <> [] -> ascii_fields show false gs p = SPACE :: ascii_fields show true gs p.
Proof. destruct gs; [congruence|]. reflexivity. Qed.
Lemma row_cons g gs p : gs <> [] -> row_line (g :: gs) p = show g p ++ SPACE :: row_line gs p.
Proof. intros N. unfold row_line. cbn [ascii_fields app]. rewrite fields_false by auto. reflexivity. Qed.
Lemma row_single g p : row_line [g] p = show g p.
Proof. unfold row_line. cbn. apply app_nil_r. Qed.
Lemma row_words gs p : words (row_line gs p) = map (fun g => show g p) gs.
Proof.
  induction gs as [|g gs IH]; [reflexivity|]. destruct gs as [|g' gs].
  - rewrite row_single. cbn [map]. apply words_word, show_word.
  - rewrite row_cons by discriminate. rewrite words_app, IH, words_word by apply show_word. reflexivity.
Qed.
Lemma word_no_nl w : word w -> ~ In 10 w.
Proof. intros (_ & F). apply clean_no in F. tauto. Qed.
Lemma row_no_nl gs p : ~ In 10 (row_line gs p).
Proof.
  induction gs as [|g gs IH]; [intros []|]. destruct gs as [|g' gs].
  - rewrite row_single. apply word_no_nl, show_word.
  - rewrite row_cons by discriminate. intros I. apply in_app_iff in I as [I|[I|I]]; [revert I; apply word_no_nl, show_word|discriminate I|auto].
Qed.
Lemma getter_precise q f : lookup q table = Some (false, Value f) ->
  getter_of q = Some (if momentum_column q then as_precise_double f else as_double f).
Proof. intros L. apply lookup_entry in L. cbn [In table] in L. repeat (destruct L as [L|L]; [injection L; intros; subst; try discriminate; reflexivity|]). destruct L. Qed.
Lemma getter_plain q m : lookup q table = Some (true, m) ->
  getter_of q = Some (match m with Value f => as_integer f | AlwaysZero => as_zero end).
Proof. intros L. apply lookup_entry in L. cbn [In table] in L. repeat (destruct L as [L|L]; [injection L; intros; subst; try discriminate; reflexivity|]). destruct L. Qed.
Lemma no_zero_double q : lookup q table <> Some (false, AlwaysZero).
Proof. intros L. apply lookup_entry in L. cbn [In table] in L. repeat (destruct L as [L|L]; [discriminate L|]). destruct L. Qed.
Lemma number_told P bits v eps : 1 <= P -> 0 <= bits < 2 ^ 64 -> double_value bits = Some v -> eps = (5 / IZR (10 ^ P))%R ->
  within (eps * Rabs v) v (printf_g P bits).
Proof.
  intros HP B V ->. destruct (number_printed P bits v HP B V) as (m & R & E). exists m. split; auto.
  replace (5 / IZR (10 ^ P))%R with (1 / 2 * powerRZ 10 (1 - P))%R; [exact E|]. replace (1 - P) with (- (P - 1)) by lia. rewrite half_ten by lia. do 3 f_equal. lia.
Qed.
Lemma row_told qs p : Forall known qs -> fits_table p -> row_of qs p (map (fun g => show g p) (getters qs)).
Proof.
  intros K F. induction K as [|q qs ((i & m) & L) _ IH]; [constructor|]. cbn [getters]. unfold row_of. destruct i.
  - rewrite (getter_plain q m L). cbn [map]. constructor; [|exact IH]. unfold tells, column. rewrite L. destruct m as [f|]; cbn [show].
    + pose proof (F q true f L) as B. cbn in B. apply read_int_to_string. lia.
    + reflexivity.
  - destruct m as [f|]; [|exfalso; exact (no_zero_double q L)]. rewrite (getter_precise q f L). cbn [map]. constructor; [|exact IH]. unfold tells, column. rewrite L.
    intros v V. pose proof (F q false f L) as B. cbn in B. destruct (momentum_column q); cbn [show]; apply number_told; auto; lia.
Qed.

(** ** the lines of an item *)
Definition event_head (l : label) (rest : text) : text :=
  codes "# event " ++ pct_i (event_number l) ++ codes " ensemble " ++ pct_i (ensemble_number l) ++ [SPACE] ++ rest.
Definition counts_head (nin nout : nat) (l : label) (rest : text) : text :=
  pct_zu nin ++ [SPACE] ++ pct_zu nout ++ [SPACE] ++ pct_i (event_number l) ++ [SPACE] ++ pct_i (ensemble_number l) ++ rest.
Definition inter_modern (a : action) (density : Z) : text :=
  codes "# interaction in " ++ pct_zu (length (incoming a)) ++ codes " out " ++ pct_zu (length (outgoing a)) ++
  codes " rho " ++ pad 12 (printf_f 7 density) ++ codes " weight " ++ pad 12 (printf_g 7 (total_weight a)) ++
  codes " partial " ++ pad 12 (printf_f 7 (partial_weight a)) ++ codes " type " ++ pad 5 (pct_i (process_type a)).
Definition inter_1999 (a : action) (density : Z) : text :=
  pct_zu (length (incoming a)) ++ [SPACE] ++ pct_zu (length (outgoing a)) ++ [SPACE] ++
  pad 12 (printf_f 7 density) ++ [SPACE] ++ pad 12 (printf_f 7 (total_weight a)) ++ [SPACE] ++
  pad 12 (printf_f 7 (partial_weight a)) ++ [SPACE] ++ pad 5 (pct_i (process_type a)).
Definition end_modern (l : label) (i : info) : text :=
  event_head l (codes "end 0 impact " ++ pad 7 (printf_f 3 (impact_parameter i)) ++
                codes " scattering_projectile_target " ++ codes (if empty_event i then "no" else "yes")).
Definition end_1999 (l : label) (i : info) : text := counts_head 0 0 l ([SPACE] ++ pad 7 (printf_f 3 (impact_parameter i))).
Definition item_head (f : format) (gs : list getter) (it : item) : text :=
  match it with
  | InList l ps => if modern f then event_head l (codes "in " ++ pct_zu (length ps)) else counts_head 0 (length ps) l []
  | OutList l ps => if modern f then event_head l (codes "out " ++ pct_zu (length ps)) else counts_head (length ps) 0 l []
  | Ended l i => if modern f then end_modern l i else end_1999 l i
  | Inter a d => if modern f then inter_modern a d else inter_1999 a d
  | ICStart l => if modern f then event_head l (codes "start") else counts_head 0 0 l []
  | ICEnd l i => if modern f then event_head l (codes "end") else end_1999 l i
  | ICRow p => row_line gs p
  end.
Definition item_rows (it : item) : list particle :=
  match it with InList _ ps | OutList _ ps => ps | Inter a _ => incoming a ++ outgoing a | _ => [] end.
Definition item_lines (f : format) (gs : list getter) (it : item) : list text := item_head f gs it :: map (row_line gs) (item_rows it).
Definition fits_item (it : item) : Prop :=
  match it with
  | InList l ps | OutList l ps => small ps /\ fits_label l
  | Ended l i | ICEnd l i => fits_label l /\ 0 <= impact_parameter i < 2 ^ 64
  | Inter a d => fits_call (at_interaction a d)
  | ICStart l => fits_label l
  | ICRow p => fits_table p
  end.

Lemma event_words l rest : words (event_head l rest) =
  [codes "#"; codes "event"; pct_i (event_number l); codes "ensemble"; pct_i (ensemble_number l)] ++ words rest.
Proof.
  unfold event_head. change (codes "# event " ++ ?x) with (codes "#" ++ SPACE :: codes "event" ++ SPACE :: x).
  rewrite !words_app. change (codes " ensemble " ++ ?x) with (SPACE :: codes "ensemble" ++ SPACE :: x). rewrite !words_app.
  change ([SPACE] ++ rest) with (SPACE :: rest). rewrite words_app. unfold pct_i. rewrite !(words_word (to_string _)) by apply to_string_word. reflexivity.
Qed.
Lemma counts_words nin nout l rest : words rest = words (SPACE :: rest) -> (rest = [] \/ exists r, rest = SPACE :: r) -> words (counts_head nin nout l rest) =
  [pct_zu nin; pct_zu nout; pct_i (event_number l); pct_i (ensemble_number l)] ++ words rest.
Proof.
  intros _ C. unfold counts_head. cbn [app]. rewrite !words_app. unfold pct_zu, pct_i. rewrite !(words_word (to_string _)) by apply to_string_word. cbn [app]. do 3 f_equal.
  destruct C as [->|(r & ->)]; [rewrite app_nil_r, words_word by apply to_string_word; reflexivity|].
  rewrite words_app, words_word by apply to_string_word. change (SPACE :: r) with ([] ++ SPACE :: r). rewrite words_app. reflexivity.
Qed.
Lemma inter_words_modern a d : words (inter_modern a d) =
  [codes "#"; codes "interaction"; codes "in"; pct_zu (length (incoming a)); codes "out"; pct_zu (length (outgoing a)); codes "rho"; printf_f 7 d;
   codes "weight"; printf_g 7 (total_weight a); codes "partial"; printf_f 7 (partial_weight a); codes "type"; pct_i (process_type a)].
Proof.
  unfold inter_modern. change (codes "# interaction in " ++ ?x) with (codes "#" ++ SPACE :: codes "interaction" ++ SPACE :: codes "in" ++ SPACE :: x).
  change (codes " out " ++ ?x) with (SPACE :: codes "out" ++ SPACE :: x). change (codes " rho " ++ ?x) with (SPACE :: codes "rho" ++ SPACE :: x).
  change (codes " weight " ++ ?x) with (SPACE :: codes "weight" ++ SPACE :: x). change (codes " partial " ++ ?x) with (SPACE :: codes "partial" ++ SPACE :: x).
  change (codes " type " ++ ?x) with (SPACE :: codes "type" ++ SPACE :: x). rewrite !words_app.
  rewrite !words_pad by (try apply printf_f_word; try apply printf_g_word; try apply to_string_word; lia). unfold pct_zu. rewrite !(words_word (to_string _)) by apply to_string_word. reflexivity.
Qed.
Lemma inter_words_1999 a d : words (inter_1999 a d) =
  [pct_zu (length (incoming a)); pct_zu (length (outgoing a)); printf_f 7 d; printf_f 7 (total_weight a); printf_f 7 (partial_weight a); pct_i (process_type a)].
Proof.
  unfold inter_1999. cbn [app]. rewrite !words_app. rewrite !words_pad by (try apply printf_f_word; try apply to_string_word; lia).
  unfold pct_zu. rewrite !(words_word (to_string _)) by apply to_string_word. reflexivity.
Qed.
Lemma end_words_modern l i : words (end_modern l i) =
  [codes "#"; codes "event"; pct_i (event_number l); codes "ensemble"; pct_i (ensemble_number l); codes "end"; codes "0"; codes "impact";
   printf_f 3 (impact_parameter i); codes "scattering_projectile_target"; codes (if empty_event i then "no" else "yes")].
Proof.
  unfold end_modern. rewrite event_words. change (codes "end 0 impact " ++ ?x) with (codes "end" ++ SPACE :: codes "0" ++ SPACE :: codes "impact" ++ SPACE :: x).
  change (codes " scattering_projectile_target " ++ ?x) with (SPACE :: codes "scattering_projectile_target" ++ SPACE :: x). rewrite !words_app.
  rewrite words_pad by (apply printf_f_word; lia). destruct (empty_event i); reflexivity.
Qed.
Lemma end_words_1999 l i : words (end_1999 l i) =
  [pct_zu 0; pct_zu 0; pct_i (event_number l); pct_i (ensemble_number l); printf_f 3 (impact_parameter i)].
Proof.
  unfold end_1999. rewrite counts_words; [|reflexivity|right; eexists; reflexivity].
  change ([SPACE] ++ ?x) with ([] ++ SPACE :: x). rewrite words_app, words_pad by (apply printf_f_word; lia). reflexivity.
Qed.
Lemma read_zu n : Z.of_nat n < 2 ^ 32 -> read_nat (pct_zu n) = Some (Z.of_nat n).
Proof. intros H. apply read_nat_to_string. lia. Qed.
Lemma read_i x : - 2 ^ 31 <= x < 2 ^ 32 -> read_int (pct_i x) = Some x.
Proof. intros H. apply read_int_to_string. lia. Qed.
Ltac tags := repeat match goal with |- context [is ?s (codes ?t)] => let b := eval vm_compute in (is s (codes t)) in change (is s (codes t)) with b end.

Lemma no_hash w : word w -> is "#" w = false.
Proof. intros (_ & F). unfold is. destruct (list_eq_dec _ _ _) as [<-|]; auto. inversion F as [|? ? C]. unfold clean in C. cbn in C. lia. Qed.
Lemma no_header w ws : is "#" w = false -> header_modern (w :: ws) = None.
Proof. intros H. unfold header_modern. do 14 (destruct ws as [|? ws]; [rewrite ?H; reflexivity|]). reflexivity. Qed.

Definition ic_item (it : item) : bool := match it with ICRow _ => true | _ => false end.
Lemma head_read f qs it ic : Forall known qs -> qs <> [] -> (modern f = false -> length qs = 12%nat) -> fits_item it -> (ic_item it = true -> ic = true) ->
  exists hd, header_of f ic (words (item_head f (getters qs) it)) = Some (hd, Z.of_nat (length (item_rows it))) /\
    says f qs it (hd, map words (map (row_line (getters qs)) (item_rows it))).
Proof.
  intros K NE N12 F IC.
  assert (ROWS : forall ps, Forall fits_table ps -> Forall2 (row_of qs) ps (map words (map (row_line (getters qs)) ps))).
  { intros ps G. induction G as [|p ps G _ IH]; constructor; [|exact IH]. rewrite row_words. apply row_told; auto. }
  destruct it as [l ps|l ps|l i|a d|l|l i|p]; cbn [item_head item_rows says]; unfold header_of.
  - destruct F as ((F1 & F2) & (F3 & F4)). destruct (modern f).
    + rewrite event_words. change (codes "in " ++ ?x) with (codes "in" ++ SPACE :: x). rewrite words_app, (words_word (pct_zu _)) by apply to_string_word.
      change (words (codes "in")) with [codes "in"]. cbn [app header_modern]. tags. cbn [andb]. rewrite !read_i, read_zu by lia. eexists. split; [reflexivity|]. split; [apply ROWS; auto|reflexivity].
    + rewrite counts_words by (try reflexivity; left; reflexivity). change (words []) with (@nil text). cbn [app header_1999]. rewrite !read_i, !read_zu by lia. eexists. split; [reflexivity|]. split; [apply ROWS; auto|reflexivity].
  - destruct F as ((F1 & F2) & (F3 & F4)). destruct (modern f).
    + rewrite event_words. change (codes "out " ++ ?x) with (codes "out" ++ SPACE :: x). rewrite words_app, (words_word (pct_zu _)) by apply to_string_word.
      change (words (codes "out")) with [codes "out"]. cbn [app header_modern]. tags. cbn [andb]. rewrite !read_i, read_zu by lia. eexists. split; [reflexivity|]. split; [apply ROWS; auto|reflexivity].
    + rewrite counts_words by (try reflexivity; left; reflexivity). change (words []) with (@nil text). cbn [app header_1999]. rewrite !read_i, !read_zu by lia. rewrite Z.add_0_r. eexists. split; [reflexivity|]. split; [apply ROWS; auto|reflexivity].
  - destruct F as ((F1 & F2) & F3). destruct (modern f).
    + rewrite end_words_modern. destruct (empty_event i); cbn [header_modern]; tags; cbn [andb]; rewrite !read_i by lia; (eexists; split; [reflexivity|]; split; [reflexivity|]; eexists; split; [apply printed_decimals; [lia|exact F3]|reflexivity]).
    + rewrite end_words_1999. cbn [header_1999]. rewrite !read_i, !read_zu by lia. cbn [Z.of_nat]. eexists. split; [reflexivity|]. split; [reflexivity|]. eexists. split; [apply printed_decimals; [lia|exact F3]|reflexivity].
  - destruct F as ((F1 & F2) & (F3 & F4) & F5 & F6 & F7 & F8). rewrite !map_app, app_length, Nat2Z.inj_add. destruct (modern f).
    + rewrite inter_words_modern. cbn [header_modern]. tags. cbn [andb]. rewrite !read_zu, read_i by lia. eexists. split; [reflexivity|].
      do 5 eexists. split; [apply ROWS; auto|]. split; [apply ROWS; auto|]. split; [reflexivity|]. split; [apply printed_decimals; [lia|auto]|]. split; [apply printed_decimals; [lia|auto]|].
      intros v V. apply (number_told 7); auto; lia.
    + rewrite inter_words_1999. cbn [header_1999]. rewrite !read_zu, read_i by lia. eexists. split; [reflexivity|].
      do 5 eexists. split; [apply ROWS; auto|]. split; [apply ROWS; auto|]. split; [reflexivity|]. split; [apply printed_decimals; [lia|auto]|]. split; [apply printed_decimals; [lia|auto]|]. apply printed_decimals; [lia|auto].
  - destruct F as (F1 & F2). destruct (modern f).
    + rewrite event_words. change (words (codes "start")) with [codes "start"]. cbn [app header_modern]. tags. cbn [andb]. rewrite !read_i by lia. eexists. split; reflexivity.
    + rewrite counts_words by (try reflexivity; left; reflexivity). change (words []) with (@nil text). cbn [app header_1999]. rewrite !read_i, !read_zu by lia. eexists. split; reflexivity.
  - destruct F as ((F1 & F2) & F3). destruct (modern f).
    + rewrite event_words. change (words (codes "end")) with [codes "end"]. cbn [app header_modern]. tags. cbn [andb]. rewrite !read_i by lia. eexists. split; [reflexivity|]. split; reflexivity.
    + rewrite end_words_1999. cbn [header_1999]. rewrite !read_i, !read_zu by lia. cbn [Z.of_nat]. eexists. split; [reflexivity|]. split; [reflexivity|]. eexists. split; [apply printed_decimals; [lia|exact F3]|reflexivity].
  - rewrite (IC eq_refl). pose proof (getters_known qs K) as GK. rewrite row_words. cbn in F.
    assert (LEN : length (getters qs) = length qs) by (clear - GK; induction GK; cbn; congruence).
    assert (NONE : (if modern f then header_modern (map (fun g => show g p) (getters qs)) else header_1999 (map (fun g => show g p) (getters qs))) = None).
    { destruct (modern f).
      - destruct (getters qs) as [|g gs]; [reflexivity|]. cbn [map]. apply no_header, no_hash, show_word.
      - specialize (N12 eq_refl). rewrite N12 in LEN. destruct (getters qs) as [|a0 [|a1 [|a2 [|a3 [|a4 [|a5 [|a6 gs]]]]]]]; try discriminate LEN. reflexivity. }
    rewrite NONE. eexists. split; [reflexivity|]. eexists. split; [apply row_told; auto|reflexivity].
Qed.

Lemma read_items f ic qs its : Forall known qs -> qs <> [] -> (modern f = false -> length qs = 12%nat) -> Forall fits_item its -> (forall it, In it its -> ic_item it = true -> ic = true) ->
  forall fuel, (length (flat_map (item_lines f (getters qs)) its) <= fuel)%nat ->
  exists bs, read_blocks f ic fuel (map words (flat_map (item_lines f (getters qs)) its)) = Some bs /\ Forall2 (says f qs) its bs.
Proof.
  intros K NE N12 FI. induction FI as [|it its F _ IH]; intros IC fuel L.
  - exists []. split; [destruct fuel; reflexivity|constructor].
  - cbn [flat_map item_lines app] in *. cbn [length] in L. rewrite app_length, map_length in L. destruct fuel as [|k]; [lia|].
    destruct (head_read f qs it ic K NE N12 F (IC it (or_introl eq_refl))) as (hd & H & S).
    destruct (IH (fun x I => IC x (or_intror I)) k) as (bs & R & A); [lia|].
    cbn [map]. rewrite map_app. cbn [read_blocks]. rewrite H. set (rows := map words (map (row_line (getters qs)) (item_rows it))) in *.
    assert (LR : length rows = length (item_rows it)) by (unfold rows; rewrite !map_length; reflexivity).
    rewrite app_length. destruct (Z.ltb_spec (Z.of_nat (length rows + length (map words (flat_map (item_lines f (getters qs)) its)))) (Z.of_nat (length (item_rows it)))); [lia|].
    rewrite Nat2Z.id, <- LR, skipn_app, skipn_all, Nat.sub_diag, firstn_app, firstn_all, Nat.sub_diag, firstn_O, app_nil_r. cbn [app skipn]. rewrite R. eexists. split; [reflexivity|]. constructor; auto.
Qed.

(** ** what is written, as lines *)
Definition nn (t : text) : Prop := ~ In 10 t.
Lemma nn_app a b : nn a -> nn b -> nn (a ++ b).
Proof. unfold nn. intros A B I. apply in_app_iff in I as [I|I]; auto. Qed.
Lemma nn_lit s : existsb (Z.eqb 10) (codes s) = false -> nn (codes s).
Proof. intros H I. assert (existsb (Z.eqb 10) (codes s) = true); [|congruence]. apply existsb_exists. exists 10. split; auto. Qed.
Lemma nn_space : nn [SPACE].
Proof. intros [I|[]]. discriminate I. Qed.
Lemma nn_string x : nn (to_string x).
Proof. apply word_no_nl, to_string_word. Qed.
Lemma nn_f P b : 1 <= P -> nn (printf_f P b).
Proof. intros. apply word_no_nl, printf_f_word; auto. Qed.
Lemma nn_g P b : 1 <= P -> nn (printf_g P b).
Proof. intros. apply word_no_nl, printf_g_word; auto. Qed.
Ltac nnt := repeat first [ apply nn_space | apply nn_lit; reflexivity | apply nn_string | apply no_nl_pad | apply nn_f; lia | apply nn_g; lia | apply nn_app | (intros []) ].
Lemma head_no_nl f gs it : nn (item_head f gs it).
Proof.
  destruct it; cbn [item_head]; try apply row_no_nl; destruct (modern f);
    unfold end_modern, end_1999, event_head, counts_head, inter_modern, inter_1999, pct_i, pct_zu; try (destruct (empty_event _)); nnt.
Qed.
Lemma items_no_nl f gs its : Forall nn (flat_map (item_lines f gs) its).
Proof.
  induction its as [|it its IH]; [constructor|]. cbn [flat_map]. apply Forall_app. split; auto. constructor; [apply head_no_nl|].
  apply Forall_forall. intros x I. apply in_map_iff in I as (p & <- & _). apply row_no_nl.
Qed.
Lemma ascii_line_row gs p : ascii_line show gs p = row_line gs p ++ nl.
Proof. reflexivity. Qed.
Lemma row_length gs p : gs <> [] -> ascii_size show gs p = Z.of_nat (length (ascii_line show gs p)).
Proof.
  intros N. unfold ascii_size. destruct gs as [|g0 gs0] eqn:E; [congruence|]. rewrite <- E in *. clear E g0 gs0.
  assert (A : forall l s, fold_left (fun s g => s + Z.of_nat (length (show g p))) l s = s + fold_left (fun s g => s + Z.of_nat (length (show g p))) l 0).
  { induction l as [|g l IH]; intros s; cbn [fold_left]; [lia|]. rewrite IH, (IH (0 + _)). lia. }
  rewrite ascii_line_row, app_length. cbn [length nl]. induction gs as [|g gs IH]; [congruence|]. cbn [fold_left]. rewrite A. destruct gs as [|g' gs].
  - rewrite row_single. cbn [fold_left length]. lia.
  - rewrite row_cons by discriminate. specialize (IH ltac:(discriminate)). rewrite app_length. cbn [length] in *. lia.
Qed.
Lemma flat_rows gs ps : flat_map (ascii_line show gs) ps = text_of (map (row_line gs) ps).
Proof. induction ps as [|p ps IH]; [reflexivity|]. cbn [flat_map map]. change (text_of (?a :: ?b)) with ((a ++ nl) ++ text_of b). rewrite IH. reflexivity. Qed.
Lemma write_lines gs ps d : gs <> [] -> write gs ps = Ok d -> d = text_of (map (row_line gs) ps).
Proof.
  intros N. unfold write. destruct (mapM _ ps) as [?| |]; cbn [rbind]; try discriminate.
  destruct (chunked_writing (ascii_line show gs) (ascii_size show gs) MAX_BUFFER ps) as [(cs & E & C)|(E & _)]; [intros p _; apply row_length; auto|rewrite E|rewrite E; discriminate].
  cbn [rbind]. intros H. injection H as <-. rewrite C. apply flat_rows.
Qed.
Lemma data_lines gs ps ds : mapM (write_particledata gs) ps = Ok ds -> concat ds = text_of (map (row_line gs) ps).
Proof.
  revert ds. induction ps as [|p ps IH]; intros ds; cbn [mapM]; [intros H; injection H as <-; reflexivity|].
  unfold write_particledata at 1. destruct (mapM _ gs); cbn [rbind]; try discriminate. destruct (mapM (write_particledata gs) ps) as [r| |]; cbn [rbind]; try discriminate.
  intros H. injection H as <-. cbn [concat map]. change (text_of (?a :: ?b)) with ((a ++ nl) ++ text_of b). rewrite <- (IH r eq_refl). reflexivity.
Qed.
Lemma event_line_head l r : event_line l r = event_head l r ++ nl.
Proof. unfold event_line, event_head. rewrite !app_assoc. reflexivity. Qed.
Lemma counts_line_head a b l r : counts_line a b l r = counts_head a b l r ++ nl.
Proof. unfold counts_line, counts_head. rewrite !app_assoc. reflexivity. Qed.
Lemma item_text f gs it : text_of (item_lines f gs it) = item_head f gs it ++ nl ++ text_of (map (row_line gs) (item_rows it)).
Proof. unfold item_lines. change (text_of (?a :: ?b)) with ((a ++ nl) ++ text_of b). rewrite app_assoc. reflexivity. Qed.

Lemma word_lit s : negb (match codes s with [] => true | _ => false end) && forallb (fun c => negb (c =? 32) && negb (c =? 10) && negb (c =? 35)) (codes s) = true -> word (codes s).
Proof.
  intros H. apply andb_true_iff in H as (H1 & H2). split; [intros E; rewrite E in H1; discriminate|]. rewrite forallb_forall in H2. apply Forall_forall. intros c I. apply H2 in I.
  apply andb_true_iff in I as (I & I3). apply andb_true_iff in I as (I1 & I2). apply negb_true_iff in I1, I2, I3. apply Z.eqb_neq in I1, I2, I3. unfold clean. auto.
Qed.
(** the contents of the templates that are instantiated *)
Definition contents_of (content : string) (par : parameters) : Z :=
  if String.eqb content "Particles" then match part_only_final par with OnlyFinalYes => 8 | IfNotEmpty => 16 | OnlyFinalNo => 14 end
  else if is_ic content then 36 else if String.eqb content "Collisions" && coll_printstartend par then 13 else 1.
Definition extended (content : string) (par : parameters) : bool :=
  if String.eqb content "Particles" then part_extended par else if String.eqb content "Collisions" then coll_extended par
  else if String.eqb content "Dileptons" then dil_extended par else if String.eqb content "Photons" then photons_extended par else ic_extended par.
(** the documented choice of the format and of the columns *)
Definition chosen (fmt content : string) (par : parameters) (f : format) (qs : list string) : Prop :=
  (fmt = "ASCII"%string /\ f = ASCII /\ In (content, qs) (custom par)) \/
  (fmt = "Oscar1999"%string /\ f = OscarFormat1999 /\ qs = oscar1999) \/
  (fmt = "Oscar2013"%string /\ extended content par = false /\ f = OscarFormat2013 /\ qs = oscar2013) \/
  (fmt = "Oscar2013"%string /\ extended content par = true /\ f = OscarFormat2013Extended /\ qs = oscar2013extended).
Lemma created fmt content par f contents name q : create_oscar fmt content par = Ok (f, contents, name, q) ->
  contents = contents_of content par /\ chosen fmt content par f (used_quantities f q) /\ word (codes name) /\ nn (codes name).
Proof.
  unfold create_oscar. destruct (negb (String.eqb fmt "Oscar2013") && _ && _) eqn:B; [discriminate|].
  set (qres := if String.eqb fmt "ASCII" then _ else Ok []). destruct qres as [qs| |] eqn:Q; cbn [rbind]; try discriminate.
  assert (CH : forall e, e = extended content par -> chosen fmt content par (select (String.eqb fmt "Oscar2013") e (String.eqb fmt "ASCII")) (used_quantities (select (String.eqb fmt "Oscar2013") e (String.eqb fmt "ASCII")) qs)).
  { intros e Ee. unfold qres in Q. unfold chosen. destruct (String.eqb_spec fmt "ASCII") as [->|NA].
    - left. splits; auto. cbn. destruct (find _ (custom par)) as [(n0, q0)|] eqn:FD; [|discriminate]. injection Q as <-. apply find_some in FD as (I & E). apply String.eqb_eq in E. cbn in E. subst. exact I.
    - right. destruct (String.eqb_spec fmt "Oscar2013") as [->|N13]; cbn [select andb negb].
      + right. destruct e; cbn; [right|left]; auto.
      + left. destruct (String.eqb_spec fmt "Oscar1999"); [|discriminate B]. auto. }
  clearbody qres. clear Q B. unfold contents_of, is_ic, extended in *.
  destruct (String.eqb_spec content "Particles") as [->|]; [cbn [String.eqb] in *|].
  { intros H. assert (nn (codes "particle_lists") /\ word (codes "particle_lists")) by (split; [apply nn_lit; reflexivity|apply word_lit; reflexivity]).
    destruct (part_only_final par); injection H as <- <- <- <-; (splits; auto; try tauto; try reflexivity). }
  destruct (String.eqb_spec content "Collisions") as [->|].
  { intros H. assert (nn (codes "full_event_history") /\ word (codes "full_event_history")) by (split; [apply nn_lit; reflexivity|apply word_lit; reflexivity]).
    destruct (coll_printstartend par); injection H as <- <- <- <-; (splits; auto; try tauto; try reflexivity). }
  destruct (String.eqb_spec content "Dileptons") as [->|].
  { intros H. assert (nn (codes "Dileptons") /\ word (codes "Dileptons")) by (split; [apply nn_lit; reflexivity|apply word_lit; reflexivity]).
    injection H as <- <- <- <-; (splits; auto; try tauto; try reflexivity). }
  destruct (String.eqb_spec content "Photons") as [->|].
  { intros H. assert (nn (codes "Photons") /\ word (codes "Photons")) by (split; [apply nn_lit; reflexivity|apply word_lit; reflexivity]).
    injection H as <- <- <- <-; (splits; auto; try tauto; try reflexivity). }
  destruct (String.eqb_spec content "Initial_Conditions") as [->|]; [|discriminate].
  intros H. assert (nn (codes "SMASH_IC") /\ word (codes "SMASH_IC")) by (split; [apply nn_lit; reflexivity|apply word_lit; reflexivity]).
  injection H as <- <- <- <-; (splits; auto; try tauto; try reflexivity).
Qed.

Lemma Ok_inj A (a b : A) : Ok a = Ok b -> b = a.
Proof. congruence. Qed.
Lemma call_items f content par gs c t : gs <> [] -> oscar_call f (contents_of content par) gs c = Ok t ->
  t = text_of (flat_map (item_lines f gs) (recorded content par c)).
Proof.
  intros N. unfold contents_of, recorded. set (ic := is_ic content). set (lists := String.eqb content "Collisions" && coll_printstartend par).
  assert (T1 : forall it, text_of (flat_map (item_lines f gs) [it]) = item_head f gs it ++ nl ++ text_of (map (row_line gs) (item_rows it))) by (intros it; cbn [flat_map]; rewrite app_nil_r; apply item_text).
  assert (T2 : forall a b, text_of (flat_map (item_lines f gs) [a; b]) = text_of (item_lines f gs a) ++ text_of (item_lines f gs b)) by (intros a b; cbn [flat_map]; rewrite app_nil_r; apply text_of_app).
  assert (ROW : forall ps, text_of (flat_map (item_lines f gs) (map ICRow ps)) = text_of (map (row_line gs) ps)) by (intros ps; induction ps as [|p ps IH]; [reflexivity|cbn [map flat_map item_lines item_rows app]; change (text_of (?a :: ?b)) with ((a ++ nl) ++ text_of b); cbn [item_head]; rewrite IH; reflexivity]).
  assert (INTER : forall a d k, has k OscarInteractions = true -> interaction f k gs a d = Ok t -> t = text_of (flat_map (item_lines f gs) [Inter a d])).
  { intros a d k H. unfold interaction. rewrite H. destruct (mapM _ (incoming a)) as [di| |] eqn:EI; cbn [rbind]; try discriminate. destruct (mapM _ (outgoing a)) as [do_| |] eqn:EO; cbn [rbind]; try discriminate.
    intros X. apply Ok_inj in X; subst t. rewrite (data_lines _ _ _ EI), (data_lines _ _ _ EO), T1. cbn [item_rows item_head]. rewrite map_app, text_of_app. unfold inter_modern, inter_1999. destruct (modern f); rewrite <- ?app_assoc.
    all: reflexivity. }
  destruct c as [ps l|ps l i|a d|ps l]; cbn [oscar_call].
  - unfold eventstart. destruct (String.eqb content "Particles").
    + destruct (part_only_final par); intros X; cbv iota; cbn -[write event_line counts_line codes] in X; try (apply Ok_inj in X; subst t; reflexivity).
      destruct (write gs ps) as [d| |] eqn:W; cbn -[event_line counts_line codes] in X; try discriminate. apply Ok_inj in X; subst t. rewrite T1, (write_lines gs ps d N W). cbn [item_head item_rows]. destruct (modern f); rewrite ?event_line_head, ?counts_line_head, <- app_assoc; reflexivity.
    + destruct ic; [intros X; cbn -[event_line counts_line codes] in X; apply Ok_inj in X; subst t; rewrite T1; cbn [item_head item_rows map]; change (text_of []) with (@nil Z); rewrite app_nil_r; destruct (modern f); rewrite ?event_line_head, ?counts_line_head; reflexivity|].
      destruct lists; intros X; cbv iota; cbn -[write event_line counts_line codes] in X; try (apply Ok_inj in X; subst t; reflexivity).
      destruct (write gs ps) as [d| |] eqn:W; cbn -[event_line counts_line codes] in X; try discriminate. apply Ok_inj in X; subst t. rewrite T1, (write_lines gs ps d N W). cbn [item_head item_rows]. destruct (modern f); rewrite ?event_line_head, ?counts_line_head, <- app_assoc; reflexivity.
  - assert (END : forall k, has k OscarParticlesIC = false ->
      eventend f k gs ps l i = Ok t ->
      t = text_of (flat_map (item_lines f gs) ((if has k OscarParticlesAtEventend || has k OscarParticlesAtEventendIfNotEmpty && negb (empty_event i) then [OutList l ps] else []) ++ [Ended l i]))).
    { intros k H. unfold eventend. rewrite H. set (listed := has k OscarParticlesAtEventend || _). cbv zeta. cbn [negb].
      destruct (modern f) eqn:M.
      - destruct listed.
        + destruct (write gs ps) as [d| |] eqn:W; cbn [rbind]; try discriminate. intros X. apply Ok_inj in X; subst t. cbn [app]. rewrite T2, !item_text, (write_lines gs ps d N W). cbn [item_head item_rows map]. rewrite M. cbn [text_of flat_map app]. rewrite !event_line_head. unfold end_modern. rewrite <- !app_assoc. reflexivity.
        + cbn [rbind app]. intros X. apply Ok_inj in X; subst t. rewrite T1. cbn [item_head item_rows map]. rewrite M, event_line_head. cbn [text_of flat_map]. rewrite app_nil_r. reflexivity.
      - destruct listed.
        + destruct (write gs ps) as [d| |] eqn:W; cbn [rbind]; try discriminate. intros X. apply Ok_inj in X; subst t. cbn [app]. rewrite T2, !item_text, (write_lines gs ps d N W). cbn [item_head item_rows map]. rewrite M. rewrite !counts_line_head. unfold end_1999. change (text_of []) with (@nil Z). rewrite <- !app_assoc, ?app_nil_r. reflexivity.
        + cbn [rbind app]. intros X. apply Ok_inj in X; subst t. rewrite T1. cbn [item_head item_rows map]. rewrite M, counts_line_head. change (text_of []) with (@nil Z). rewrite app_nil_r. reflexivity. }
    destruct (String.eqb content "Particles").
    + destruct (part_only_final par); intros X; apply END in X; try reflexivity; rewrite X; cbn [has]; destruct (empty_event i); reflexivity.
    + destruct ic.
      * unfold eventend. destruct (modern f) eqn:M; intros X; cbn -[event_line counts_line pad codes] in X; apply Ok_inj in X; subst t; rewrite T1; cbn [item_head item_rows map]; rewrite M, ?event_line_head, ?counts_line_head; change (text_of []) with (@nil Z); rewrite app_nil_r; reflexivity.
      * destruct lists; intros X; apply END in X; try reflexivity; rewrite X; destruct (empty_event i); reflexivity.
  - destruct (String.eqb content "Particles"); [destruct (part_only_final par); cbn; intros X; apply Ok_inj in X; subst t; reflexivity|].
    destruct ic; [|destruct lists; apply INTER; reflexivity]. unfold interaction. cbn -[write_particledata]. destruct (mapM _ (incoming a)) as [di| |] eqn:EI; cbn [rbind]; try discriminate. intros X. apply Ok_inj in X; subst t. rewrite (data_lines _ _ _ EI). symmetry. apply ROW.
  - unfold intermediate. destruct (String.eqb content "Particles").
    + destruct (part_only_final par); intros X; cbv iota; cbn -[write event_line counts_line codes] in X; try (apply Ok_inj in X; subst t; reflexivity).
      destruct (write gs ps) as [d| |] eqn:W; cbn -[event_line counts_line codes] in X; try discriminate. apply Ok_inj in X; subst t. rewrite T1, (write_lines gs ps d N W). cbn [item_head item_rows]. destruct (modern f); rewrite ?event_line_head, ?counts_line_head, <- app_assoc; reflexivity.
    + destruct ic; [|destruct lists]; cbn; intros X; apply Ok_inj in X; subst t; reflexivity.
Qed.

(** ** the header *)
Lemma join_words ws : Forall word ws -> words (join ws [SPACE]) = ws /\ nn (join ws [SPACE]).
Proof.
  intros F. destruct F as [|w ws W F]; [split; [reflexivity|intros []]|].
  assert (E : join (w :: ws) [SPACE] = w ++ flat_map (fun s => [SPACE] ++ s) ws).
  { destruct W as (N & _). destruct w as [|c x]; [congruence|]. rewrite join_head. apply separated_flat. }
  rewrite E. clear E. revert w W. induction F as [|v ws V F IH]; intros w W; cbn [flat_map].
  - rewrite app_nil_r. split; [apply words_word; auto|apply word_no_nl; auto].
  - destruct (IH v V) as (A & B). cbn [app] in *. rewrite words_app, A, words_word by auto. split; [reflexivity|]. apply nn_app; [apply word_no_nl; auto|]. intros [I|I]; [discriminate I|exact (B I)].
Qed.
Lemma known_word q : known q -> word (codes q).
Proof. intros (x & L). apply lookup_entry in L. cbn [In table] in L. repeat (destruct L as [L|L]; [injection L; intros; subst; apply word_lit; reflexivity|]). destruct L. Qed.
Lemma unit_word q u : unit_of q = Ok u -> word u.
Proof.
  unfold unit_of. destruct (find _ units) as [(n, v)|] eqn:E; [|discriminate]. intros H. injection H as <-. apply find_some in E as (I & _). cbn [In units] in I.
  repeat (destruct I as [I|I]; [injection I; intros; subst; apply word_lit; reflexivity|]). destruct I.
Qed.
Lemma unit_known q : known q -> exists u, unit_of q = Ok u.
Proof. intros K. apply known_units in K. unfold unit_of. destruct (find _ units) as [(n, v)|] eqn:E; eauto. exfalso. apply existsb_exists in K as (x & I & X). pose proof (find_none _ _ E x I). congruence. Qed.
Lemma units_known qs : Forall known qs -> exists us, mapM unit_of qs = Ok us.
Proof. induction 1 as [|q qs K _ (us & IH)]; [exists []; reflexivity|]. destruct (unit_known q K) as (u & U). cbn [mapM]. rewrite U. cbn [rbind]. rewrite IH. eexists. reflexivity. Qed.
Lemma units_words qs us : mapM unit_of qs = Ok us -> Forall word us.
Proof.
  revert us. induction qs as [|q qs IH]; intros us; cbn [mapM]; [intros H; injection H as <-; constructor|]. destruct (unit_of q) as [u| |] eqn:U; cbn [rbind]; try discriminate.
  destruct (mapM unit_of qs); cbn [rbind]; try discriminate. intros H. injection H as <-. constructor; [eapply unit_word; eauto|apply IH; auto].
Qed.
Lemma header_lines f name version qs h : Forall known qs -> word (codes name) -> ~ In NEWLINE version -> header f name version qs = Ok h ->
  if modern f then exists l1 l2 l3, h = text_of [l1; l2; l3] /\ Forall nn [l1; l2; l3] /\ words l1 = codes ("#!" ++ format_name f) :: codes name :: map codes qs /\
    begins_with_hash l2 = true /\ begins_with_hash l3 = true
  else exists ls, h = text_of ls /\ Forall nn ls /\ forallb begins_with_hash ls = true /\ length ls = 8%nat /\ exists a, words (nth 5 ls []) = a :: map codes qs.
Proof.
  intros K W V. assert (KW : Forall word (map codes qs)) by (rewrite Forall_map; eapply Forall_impl; [|exact K]; intros; apply known_word; auto).
  destruct (join_words _ KW) as (J1 & J2). unfold header. destruct (modern f) eqn:M.
  - unfold unit_line. destruct (mapM unit_of qs) as [us| |] eqn:U; cbn [rbind]; try discriminate. intros H. apply Ok_inj in H. subst h.
    destruct (join_words us (units_words _ _ U)) as (U1 & U2).
    exists (codes "#!" ++ codes (format_name f) ++ [SPACE] ++ codes name ++ [SPACE] ++ join (map codes qs) [SPACE]), (codes "# Units: " ++ join us [SPACE]), (codes "# " ++ version). splits.
    + unfold quantities_line. cbn [text_of flat_map]. rewrite <- !app_assoc, app_nil_r. reflexivity.
    + assert (nn (codes name)) by (apply word_no_nl; auto). repeat constructor; repeat (apply nn_app); auto; try apply nn_space; try (apply nn_lit; reflexivity). destruct f; apply nn_lit; reflexivity.
    + rewrite app_assoc. change ([SPACE] ++ join (map codes qs) [SPACE]) with (SPACE :: join (map codes qs) [SPACE]); change ([SPACE] ++ codes name ++ SPACE :: join (map codes qs) [SPACE]) with (SPACE :: codes name ++ SPACE :: join (map codes qs) [SPACE]). rewrite !words_app, J1, (words_word (codes name)) by auto. destruct f; try discriminate; reflexivity.
    + reflexivity.
    + reflexivity.
  - set (oscar_name := if String.eqb name "particle_lists" then "final_id_p_x"%string else name). cbv zeta.
    assert (WO : nn (codes oscar_name)) by (unfold oscar_name; destruct (String.eqb name _); [apply nn_lit; reflexivity|apply word_no_nl; auto]).
    set (form := if String.eqb oscar_name "full_event_history" then codes "# nin nout density tot_weight part_weight proc_type" else codes "# nin nout event_number ensemble_number").
    intros H. apply Ok_inj in H. subst h.
    exists [codes "# " ++ codes (format_name f); codes "# " ++ codes oscar_name; codes "# " ++ version; codes "# Block format:"; form; codes "# " ++ join (map codes qs) [SPACE];
            codes "# End of event: 0 0 event_number ensemble_number impact_parameter"; codes "#"]. splits.
    + replace (if String.eqb oscar_name "full_event_history" then codes "# nin nout density tot_weight part_weight proc_type" ++ nl else codes "# nin nout event_number ensemble_number" ++ nl) with (form ++ nl) by (unfold form; destruct (String.eqb oscar_name "full_event_history"); reflexivity).
      clearbody form. unfold quantities_line. cbn [text_of flat_map]. rewrite <- !app_assoc, app_nil_r. reflexivity.
    + assert (NF : nn form) by (unfold form; destruct (String.eqb oscar_name "full_event_history"); apply nn_lit; reflexivity).
      assert (NN : nn (codes (format_name f))) by (destruct f; apply nn_lit; reflexivity). clearbody form oscar_name.
      repeat match goal with |- Forall _ [] => apply Forall_nil | |- Forall _ (_ :: _) => apply Forall_cons end; repeat apply nn_app; auto; apply nn_lit; reflexivity.
    + unfold form. destruct (String.eqb oscar_name "full_event_history"); reflexivity.
    + reflexivity.
    + exists (codes "#"). cbn [nth]. change (codes "# " ++ ?x) with (codes "#" ++ SPACE :: x). rewrite words_app, J1. reflexivity.
Qed.
Lemma no_hash_word w r : word w -> begins_with_hash (w ++ r) = false.
Proof. intros (N & F). destruct w as [|c w]; [congruence|]. inversion F as [|? ? C]; subst. cbn. unfold clean in C. destruct c as [|c|c]; auto. repeat (destruct c; auto). lia. Qed.
Lemma body_no_hash f gs its : modern f = false -> gs <> [] -> forallb (fun l => negb (begins_with_hash l)) (flat_map (item_lines f gs) its) = true.
Proof.
  intros M N. assert (R : forall p, begins_with_hash (row_line gs p) = false).
  { intros p. destruct gs as [|g gs]; [congruence|]. destruct gs; [rewrite row_single, <- (app_nil_r (show g p))|rewrite row_cons by discriminate]; apply no_hash_word, show_word. }
  apply forallb_forall. intros x I. apply in_flat_map in I as (it & _ & [<-|I]); [|apply in_map_iff in I as (p & <- & _); rewrite R; reflexivity].
  destruct it; cbn [item_head]; rewrite ?M, ?R; try reflexivity; unfold end_1999, counts_head, inter_1999; rewrite no_hash_word by apply to_string_word; reflexivity.
Qed.
Lemma filter_true A (g : A -> bool) l : forallb g l = true -> filter g l = l.
Proof. induction l as [|a l IH]; [reflexivity|]. cbn. intros H. apply andb_true_iff in H as (H1 & H2). rewrite H1, IH; auto. Qed.
Lemma filter_false A (g : A -> bool) l : forallb g l = true -> filter (fun x => negb (g x)) l = [].
Proof. induction l as [|a l IH]; [reflexivity|]. cbn. intros H. apply andb_true_iff in H as (H1 & H2). rewrite H1. cbn. auto. Qed.
Lemma calls_items f content par gs calls bs : gs <> [] -> mapM (oscar_call f (contents_of content par) gs) calls = Ok bs ->
  concat bs = text_of (flat_map (item_lines f gs) (flat_map (recorded content par) calls)).
Proof.
  intros N. revert bs. induction calls as [|c calls IH]; intros bs; cbn [mapM]; [intros H; injection H as <-; reflexivity|].
  destruct (oscar_call _ _ _ c) as [t| |] eqn:E; cbn [rbind]; try discriminate. destruct (mapM _ calls) as [r| |]; cbn [rbind]; try discriminate. intros H. injection H as <-.
  cbn [concat flat_map]. rewrite flat_map_app, text_of_app, <- (IH r eq_refl), <- (call_items f content par gs c t N E). reflexivity.
Qed.
Lemma recorded_fits content par c : fits_call c -> Forall fits_item (recorded content par c).
Proof.
  intros F. unfold recorded. destruct c as [ps l|ps l i|a d|ps l]; cbn [fits_call] in F; destruct (String.eqb content "Particles"); try destruct (is_ic content); try destruct (part_only_final par); try destruct (empty_event i); try destruct (_ && _);
    cbn [app]; repeat (apply Forall_nil || apply Forall_cons); cbn [fits_item fits_call]; try tauto.
  all: rewrite Forall_map; destruct F as ((_ & F) & _); exact F.
Qed.
Lemma recorded_ic content par c it : In it (recorded content par c) -> ic_item it = true -> is_ic content = true.
Proof.
  unfold recorded. destruct (String.eqb content "Particles").
  - destruct c as [ps l|ps l i|a d|ps l]; destruct (part_only_final par); try destruct (empty_event i); cbn [In]; intros I; repeat (destruct I as [I|I]; [subst; discriminate|]); destruct I.
  - destruct (is_ic content); auto. destruct c as [ps l|ps l i|a d|ps l]; try destruct (_ && _); cbn [In app]; intros I; repeat (destruct I as [I|I]; [subst; discriminate|]); destruct I.
Qed.

(** C121: every file can be read: the reader finds the names of the columns, and exactly the blocks of what was recorded,
    in order, with all the numbers. *)
Theorem oscar_readable fmt content par version calls file :
  ~ In NEWLINE version -> Forall fits_call calls -> oscar_file fmt content par version calls = Ok file ->
  exists f qs bs, chosen fmt content par f qs /\ read_oscar f (is_ic content) file = Some (map codes qs, bs) /\
    Forall2 (says f qs) (flat_map (recorded content par) calls) bs.
Proof.
  intros V F. unfold oscar_file. destruct (create_oscar fmt content par) as [(((f & contents) & name) & q)| |] eqn:C; cbn [rbind]; try discriminate.
  destruct (created _ _ _ _ _ _ _ C) as (-> & CH & WN & _). set (qs := used_quantities f q) in *.
  unfold open_oscar. fold qs. destruct (make_formatter qs) as [gs| |] eqn:MF; cbn [rbind]; try discriminate.
  assert (O : forall r, match f, q with ASCII, _ | _, [] => h <- header f name version qs ;; Ok (gs, h) | _, _ => Throw E_logic end = Ok r -> exists h, header f name version qs = Ok h /\ r = (gs, h)).
  { intros r. destruct f, q; try discriminate; (destruct (header _ name version qs) as [h| |]; cbn [rbind]; try discriminate; intros X; injection X as <-; eauto). }
  destruct (match f, q with ASCII, _ | _, [] => _ | _, _ => _ end) as [r| |] eqn:E; cbn [rbind]; try discriminate. destruct (O r eq_refl) as (h & H & ->). clear O E.
  destruct (mapM _ calls) as [bs| |] eqn:B; cbn [rbind]; try discriminate. intros X. apply Ok_inj in X. subst file.
  destruct (accepted_known qs gs MF) as (NQ & K & ->). pose proof (getters_known qs K) as GK.
  assert (NG : getters qs <> []) by (intros E; rewrite E in GK; inversion GK; congruence).
  rewrite (calls_items _ _ _ _ _ _ NG B). set (its := flat_map (recorded content par) calls).
  assert (FI : Forall fits_item its).
  { unfold its. clear - F. induction F as [|c calls F _ IH]; [constructor|]. cbn [flat_map]. apply Forall_app. split; auto. apply recorded_fits; auto. }
  assert (II : forall it, In it its -> ic_item it = true -> is_ic content = true) by (intros it I; apply in_flat_map in I as (c & _ & I); eapply recorded_ic; eauto).
  assert (N12 : modern f = false -> length qs = 12%nat) by (unfold qs; destruct f; try discriminate; reflexivity).
  pose proof (items_no_nl f (getters qs) its) as NL. set (body := flat_map (item_lines f (getters qs)) its) in *.
  destruct (read_items f (is_ic content) qs its K NQ N12 FI II (length body) (le_n _)) as (blocks & RB & SB).
  exists f, qs, blocks. split; [exact CH|]. split; [|exact SB]. pose proof (header_lines f name version qs h K WN V H) as HL. unfold read_oscar. destruct (modern f) eqn:M.
  - destruct HL as (l1 & l2 & l3 & -> & N3 & W1 & H2 & H3). rewrite <- text_of_app, lines_text by (apply Forall_app; auto). cbn [app]. rewrite W1, H2, H3.
    replace (is ("#!" ++ format_name f) (codes ("#!" ++ format_name f))) with true by (unfold is; destruct (list_eq_dec _ _ _); congruence). cbn [andb]. fold body in RB. fold body. rewrite RB. reflexivity.
  - destruct HL as (ls & -> & N8 & H8 & L8 & a & W). rewrite <- text_of_app, lines_text by (apply Forall_app; auto). rewrite app_nth1 by lia. rewrite W.
    rewrite filter_app, (filter_false _ _ _ H8), (filter_true _ _ body) by (apply body_no_hash; auto). cbn [app]. fold body in RB. fold body. rewrite RB. reflexivity.
Qed.
Print Assumptions oscar_readable.

(** ** writing succeeds *)
Lemma word_short P bits : 1 <= P <= 10 -> 0 <= bits < 2 ^ 64 -> (length (printf_g P bits) <= 20)%nat.
Proof.
  intros HP B. unfold printf_g. destruct (double_of bits) as [((neg & n) & d)|].
  - rewrite app_length. destruct (n =? 0); [destruct neg; cbn [length]; lia|].
    destruct (significant P n d) as (q, x) eqn:SG. pose proof (g_length P n d q x ltac:(lia) SG) as L. destruct neg; cbn [length]; destruct (_ <? 100); lia.
  - rewrite app_length. destruct (_ <=? bits), (_ =? 0); cbn; lia.
Qed.
Lemma to_string_short x : - 10 ^ 10 < x < 10 ^ 10 -> (length (to_string x) <= 20)%nat.
Proof.
  intros H. assert (D : forall n, 0 <= n < 10 ^ 10 -> (length (chars (dec_digits 20 n)) <= 10)%nat) by (intros n N; rewrite chars_len; apply PdgStrings.dec_digits_length_le; [lia|exact N]).
  unfold to_string. destruct (Z.ltb_spec x 0).
  - cbn [length]. pose proof (D (- x) ltac:(lia)). unfold chars in *. lia.
  - pose proof (D x ltac:(lia)). unfold chars in *. lia.
Qed.
Lemma converted qs p : Forall known qs -> fits_table p -> printable p -> exists ts, mapM (fun g => convert g p) (getters qs) = Ok ts.
Proof.
  intros K F PR. induction K as [|q qs ((i & m) & L) _ (ts & IH)]; [exists []; reflexivity|]. cbn [getters]. destruct i.
  - rewrite (getter_plain q m L). cbn [mapM]. rewrite IH. destruct m; eexists; reflexivity.
  - destruct m as [f|]; [|exfalso; exact (no_zero_double q L)]. rewrite (getter_precise q f L). cbn [mapM]. rewrite IH. pose proof (F q false f L) as B. cbn in B.
    assert (FIT : forall P, 1 <= P -> Z.of_nat (length (printf_g P (p f))) <= P + 6).
    { intros P HP. apply text_fits; auto. destruct (Z_lt_le_dec (p f) (2 ^ 63)) as [|G]; [left; auto|right]. intros v V. destruct (PR q f v L V) as [N|N]; [|right; exact N]. left.
      unfold double_value in V. destruct (double_of (p f)) as [((neg & n) & d)|] eqn:E; [|discriminate]. injection V as <-. destruct (double_bounds _ neg n d B E) as (N0 & D0 & _).
      assert (NG : neg = (2 ^ 63 <=? p f)) by (unfold double_of in E; destruct (_ =? 2047); [discriminate|injection E; congruence]).
      replace (2 ^ 63 <=? p f) with true in NG by (symmetry; apply Z.leb_le; lia). subst neg.
      assert (0 <= IZR n / IZR d)%R by (apply Rmult_le_pos; [apply IZR_le; auto|left; apply Rinv_0_lt_compat, IZR_lt; auto]). lra. }
    destruct (momentum_column q); cbn [convert]; unfold show_precise, show_double, into_buffer.
    + pose proof (FIT 9 ltac:(lia)). replace (_ <? 16) with true by (symmetry; apply Z.ltb_lt; lia). eexists; reflexivity.
    + pose proof (FIT 6 ltac:(lia)). replace (_ <? 13) with true by (symmetry; apply Z.ltb_lt; lia). eexists; reflexivity.
Qed.
Lemma line_length qs p : NoDup qs -> Forall known qs -> fits_table p -> Z.of_nat (length (ascii_line show (getters qs) p)) <= 1000.
Proof.
  intros D K F. assert (L1 : (length qs <= 35)%nat).
  { change 35%nat with (length (map fst table)). apply NoDup_incl_length; [exact D|]. intros q I. rewrite Forall_forall in K. apply K in I. apply lookup_in in I. exact I. }
  assert (L2 : (length (row_line (getters qs) p) <= 21 * length qs)%nat).
  { clear D L1. induction K as [|q qs ((i & m) & L) _ IH]; [cbn; lia|]. cbn [getters length].
    assert (G : exists g, getter_of q = Some g /\ (length (show g p) <= 20)%nat).
    { destruct i.
      - exists (match m with Value f => as_integer f | AlwaysZero => as_zero end). split; [apply getter_plain; auto|]. destruct m as [f|]; [|cbn; lia]. pose proof (F q true f L) as B. cbn in B. apply to_string_short. lia.
      - destruct m as [f|]; [|exfalso; exact (no_zero_double q L)]. eexists. split; [apply getter_precise; eauto|]. pose proof (F q false f L) as B. cbn in B. destruct (momentum_column q); apply word_short; auto; lia. }
    destruct G as (g & -> & G). destruct (getters qs) as [|g' gs]; [rewrite row_single; lia|]. rewrite row_cons by discriminate. rewrite app_length. cbn [length]. lia. }
  rewrite ascii_line_row, app_length. cbn [length nl]. lia.
Qed.
Lemma write_ok qs ps : qs <> [] -> NoDup qs -> Forall known qs -> Forall fits_table ps -> Forall printable ps -> exists d, write (getters qs) ps = Ok d.
Proof.
  intros NQ D K F PR. unfold write.
  assert (C : exists r, mapM (fun p => mapM (fun g => convert g p) (getters qs)) ps = Ok r).
  { clear D. induction F as [|p ps F _ IH]; [exists []; reflexivity|]. inversion PR; subst. destruct (converted qs p K F) as (t & T); auto. destruct IH as (r & R); auto. cbn [mapM]. rewrite T. cbn [rbind]. rewrite R. eexists; reflexivity. }
  destruct C as (r & ->). cbn [rbind]. pose proof (getters_known qs K) as GK. assert (NG : getters qs <> []) by (intros E; rewrite E in GK; inversion GK; congruence).
  destruct (chunked_writing (ascii_line show (getters qs)) (ascii_size show (getters qs)) MAX_BUFFER ps) as [(cs & E & _)|(_ & p & H & L)]; [intros p _; apply row_length; auto|rewrite E; eexists; reflexivity|].
  exfalso. destruct ps as [|p0 ps]; [discriminate|]. injection H as ->. inversion F; subst. pose proof (line_length qs p D K ltac:(assumption)). unfold MAX_BUFFER in L. lia.
Qed.
Lemma data_ok qs ps : Forall known qs -> Forall fits_table ps -> Forall printable ps -> exists d, mapM (write_particledata (getters qs)) ps = Ok d.
Proof.
  intros K F PR. induction F as [|p ps F _ IH]; [exists []; reflexivity|]. inversion PR; subst. destruct (converted qs p K F) as (t & T); auto. destruct IH as (r & R); auto. cbn [mapM]. unfold write_particledata at 1. rewrite T. cbn [rbind]. rewrite R. eexists; reflexivity.
Qed.
Lemma call_ok f k qs c : qs <> [] -> NoDup qs -> Forall known qs -> fits_call c -> printable_call c -> exists t, oscar_call f k (getters qs) c = Ok t.
Proof.
  intros NQ D K F PR. assert (W : forall ps, small ps -> Forall printable ps -> exists d, write (getters qs) ps = Ok d) by (intros ps (_ & S) P; apply write_ok; auto).
  assert (DW : forall ps, small ps -> Forall printable ps -> exists d, mapM (write_particledata (getters qs)) ps = Ok d) by (intros ps (_ & S) P; apply data_ok; auto).
  destruct c as [ps l|ps l i|a d|ps l]; cbn [oscar_call fits_call printable_call] in *.
  - destruct (W ps) as (w & E); try tauto. unfold eventstart. rewrite E. cbn [rbind]. destruct (_ && _); [|destruct (has _ _)]; eexists; reflexivity.
  - destruct (W ps) as (w & E); try tauto. unfold eventend. rewrite E. cbn [rbind]. destruct (modern f), (_ || _); eexists; reflexivity.
  - destruct F as (F1 & F2 & _). destruct PR as (P1 & P2). destruct (DW _ F1 P1) as (w & E). destruct (DW _ F2 P2) as (w' & E'). unfold interaction. rewrite E, E'. cbn [rbind]. destruct (has _ _); [|destruct (has _ _)]; eexists; reflexivity.
  - destruct (W ps) as (w & E); try tauto. unfold intermediate. rewrite E. cbn [rbind]. destruct (has _ _); eexists; reflexivity.
Qed.
(** An output with one of the formats and contents of the documentation writes its file, whatever the run reports, as
    long as no number is negative with an exponent of three digits. *)
Definition accepted (qs : list string) : Prop :=
  qs <> [] /\ NoDup qs /\ Forall known qs /\ (forall a b, In a qs -> In b qs -> ~ synonyms a b).
Theorem oscar_written fmt content par version calls :
  In content ["Particles"; "Collisions"; "Dileptons"; "Photons"; "Initial_Conditions"]%string ->
  (fmt = "Oscar2013"%string \/ fmt = "Oscar1999"%string \/ (fmt = "ASCII"%string /\ (exists qs, In (content, qs) (custom par)) /\ forall qs, In (content, qs) (custom par) -> accepted qs)) ->
  Forall fits_call calls -> Forall printable_call calls -> exists file, oscar_file fmt content par version calls = Ok file.
Proof.
  intros CO FM F PR.
  assert (CR : exists f k name q, create_oscar fmt content par = Ok (f, k, name, q) /\ (f = ASCII \/ q = []) /\ accepted (used_quantities f q)).
  { assert (AC : forall f q, (f = ASCII -> accepted q) -> accepted (used_quantities f q)).
    { intros f q A. destruct f; cbn; [auto| | |]; apply quantities_accepted; reflexivity. }
    assert (QS : exists q, (if String.eqb fmt "ASCII" then match find (fun e => String.eqb (fst e) content) (custom par) with Some (_, q) => Ok q | None => Throw E_out_of_range end else Ok []) = Ok q /\
      (String.eqb fmt "ASCII" = true -> accepted q) /\ (String.eqb fmt "ASCII" = false -> q = [])).
    { destruct FM as [->|[->|(-> & (q0 & I0) & A)]]; [exists []; splits; auto; discriminate|exists []; splits; auto; discriminate|].
      destruct (find _ (custom par)) as [(n, q)|] eqn:FD; [|exfalso; pose proof (find_none _ _ FD _ I0) as X; cbn in X; rewrite String.eqb_refl in X; discriminate].
      exists q. splits; auto; try discriminate. intros _. apply find_some in FD as (I & E). apply String.eqb_eq in E. cbn in E. subst n. auto. }
    destruct QS as (q & Q & QA & QN). unfold create_oscar.
    replace (negb (String.eqb fmt "Oscar2013") && negb (String.eqb fmt "Oscar1999") && negb (String.eqb fmt "ASCII")) with false by (destruct FM as [->|[->|(-> & _)]]; reflexivity).
    cbv zeta. rewrite Q. cbn [rbind].
    assert (SEL : forall e, (select (String.eqb fmt "Oscar2013") e (String.eqb fmt "ASCII") = ASCII \/ q = []) /\ accepted (used_quantities (select (String.eqb fmt "Oscar2013") e (String.eqb fmt "ASCII")) q)).
    { intros e. destruct (String.eqb fmt "ASCII") eqn:EA; cbn [select]; split; auto. apply AC. unfold select. destruct (_ && e); [discriminate|]. destruct (_ && negb e); discriminate. }
    cbn [In] in CO. destruct CO as [<-|[<-|[<-|[<-|[<-|[]]]]]].
    - destruct (part_only_final par); do 4 eexists; (split; [reflexivity|apply SEL]).
    - cbn [String.eqb]. destruct (coll_printstartend par); do 4 eexists; (split; [reflexivity|apply SEL]).
    - do 4 eexists; (split; [reflexivity|apply SEL]).
    - do 4 eexists; (split; [reflexivity|apply SEL]).
    - do 4 eexists; (split; [reflexivity|apply SEL]). }
  destruct CR as (f & k & name & q & C & E & A). unfold oscar_file. rewrite C. cbn [rbind]. unfold open_oscar. set (qs := used_quantities f q) in *.
  assert (MF : make_formatter qs = Ok (getters qs)) by (unfold make_formatter; apply quantities_accepted in A; rewrite A; reflexivity). rewrite MF. cbn [rbind]. destruct A as (NQ & D & K & _).
  assert (H : exists h, header f name version qs = Ok h).
  { unfold header. destruct (modern f); [|eexists; reflexivity]. unfold unit_line. destruct (units_known qs K) as (us & ->). eexists; reflexivity. }
  destruct H as (h & H).
  assert (O : match f, q with ASCII, _ | _, [] => h <- header f name version qs ;; Ok (getters qs, h) | _, _ => Throw E_logic end = Ok (getters qs, h)).
  { rewrite H. destruct E as [->| ->]; [reflexivity|destruct f; reflexivity]. }
  rewrite O. cbn [rbind].
  assert (B : exists bs, mapM (oscar_call f k (getters qs)) calls = Ok bs).
  { clear - F PR NQ D K. induction F as [|c calls F _ IH]; [exists []; reflexivity|]. inversion PR; subst. destruct (call_ok f k qs c) as (t & T); auto. destruct IH as (bs & B); auto. cbn [mapM]. rewrite T. cbn [rbind]. rewrite B. eexists; reflexivity. }
  destruct B as (bs & ->). eexists. reflexivity.
Qed.
Print Assumptions oscar_written.

(** a decay of a particle in a run of one event, as OSCAR2013 *)
Definition ex_pion (id : Z) : particle := fun f => match f with
  | Id => id | PdgDecimal => -211 | Charge => -1
  | Mom0 | EffectiveMass => 0x3fc1eb851eb851ec (* 0.14 *) | Pos0 => 0x3ff0000000000000 (* 1 *) | Pos1 => 0xbfe0000000000000 (* -0.5 *) | _ => 0 end.
Definition ex_calls : list call :=
  [at_eventstart [ex_pion 0] (mkLabel 0 0);
   at_interaction (mkAction [ex_pion 0] [ex_pion 1; ex_pion 2] 0x3ff0000000000000 0 5) 0;
   at_eventend [ex_pion 1; ex_pion 2] (mkLabel 0 0) (mkInfo 0x4004000000000000 false)].
Definition ex_par : parameters := mkPar OnlyFinalNo true false false false false false [("Collisions", ["ID"; "t"])]%string.
Example oscar_example :
  Forall fits_call ex_calls /\ Forall printable_call ex_calls /\
  oscar_file "ASCII" "Collisions" ex_par (codes "SMASH-3.3") ex_calls = Ok (text_of (map codes
    ["#!ASCII full_event_history ID t"; "# Units: none fm"; "# SMASH-3.3"; "# event 0 ensemble 0 in 1"; "0 1";
     "# interaction in 1 out 2 rho    0.0000000 weight            1 partial    0.0000000 type     5"; "0 1"; "1 1"; "2 1";
     "# event 0 ensemble 0 out 2"; "1 1"; "2 1";
     "# event 0 ensemble 0 end 0 impact   2.500 scattering_projectile_target yes"]%string)).
Proof.
  assert (FT : forall n, 0 <= n < 10 -> fits_table (ex_pion n)).
  { intros n N q i f L. apply lookup_entry in L. cbn [In table] in L. repeat (destruct L as [L|L]; [injection L; intros; subst; try discriminate; cbn; lia|]). destruct L. }
  assert (P : forall n, printable (ex_pion n)).
  { intros n q f v L V. assert (EV : forall b, In b [0; 0x3fc1eb851eb851ec; 0x3ff0000000000000; 0xbfe0000000000000] -> double_value b = Some v -> (0 <= v \/ powerRZ 10 (-99) <= Rabs v < powerRZ 10 99)%R).
    { intros b I W. unfold double_value in W. cbn [In] in I. destruct I as [<-|[<-|[<-|[<-|[]]]]].
      - left. change (double_of 0) with (Some (false, 0, 2 ^ 1074)) in W. injection W as <-. unfold Rdiv. rewrite !Rmult_0_l, ?Rmult_0_r. lra.
      - left. match type of W with match ?x with _ => _ end = _ => let y := eval vm_compute in x in change x with y in W end. injection W as <-. rewrite Rmult_1_l. apply Rmult_le_pos; [apply IZR_le; lia|]. left. apply Rinv_0_lt_compat, IZR_lt. lia.
      - left. match type of W with match ?x with _ => _ end = _ => let y := eval vm_compute in x in change x with y in W end. injection W as <-. rewrite Rmult_1_l. apply Rmult_le_pos; [apply IZR_le; lia|]. left. apply Rinv_0_lt_compat, IZR_lt. lia.
      - right. match type of W with match ?x with _ => _ end = _ => let y := eval vm_compute in x in change x with y in W end. injection W as <-.
        replace (-1 * (4503599627370496 / 9007199254740992))%R with (- (1 / 2))%R by field. rewrite Rabs_Ropp, Rabs_right by lra. split.
        + apply Rle_trans with (powerRZ 10 (-1)); [apply ten_mono; lia|]. change (powerRZ 10 (-1)) with (/ (10 * 1))%R. rewrite Rmult_1_r. lra.
        + apply Rlt_le_trans with (powerRZ 10 1); [change (powerRZ 10 1) with (10 * 1)%R; lra|apply ten_mono; lia]. }
    apply lookup_entry in L. cbn [In table] in L. repeat (destruct L as [L|L]; [injection L; intros; subst; try discriminate; (eapply EV; [|exact V]; cbn; auto 10)|]). destruct L.
    }
  splits.
  - repeat apply Forall_cons; try apply Forall_nil; cbn [fits_call]; unfold small, fits_label; cbn -[fits_table]; splits; try lia; repeat apply Forall_cons; try apply Forall_nil; apply FT; lia.
  - repeat apply Forall_cons; try apply Forall_nil; cbn [printable_call incoming outgoing]; splits; repeat apply Forall_cons; try apply Forall_nil; apply P.
  - vm_compute. reflexivity.
Qed.

(** The documented line at the end of an event says "empty yes_or_no" with "no" if projectile and target interacted
    (oscaroutput.cc:417-432); the line that is written has another keyword, and "yes" in that case. *)
Theorem documented_end_refuted : exists f par l i t,
  empty_event i = false /\ eventend f (contents_of "Collisions" par) (getters oscar2013) [] l i = Ok t /\
  let ws := words (last (lines t) []) in nth 9 ws [] <> codes "empty" /\ nth 10 ws [] = codes "yes".
Proof.
  exists OscarFormat2013, (mkPar OnlyFinalNo false false false false false false []), (mkLabel 0 0), (mkInfo 0 false). eexists. split; [reflexivity|]. split; [vm_compute; reflexivity|].
  vm_compute. split; [discriminate|reflexivity].
Qed.
Print Assumptions documented_end_refuted.

(** The header of an OSCAR1999 file of dileptons (and of photons) announces blocks "nin nout event_number
    ensemble_number", but its blocks are "nin nout density tot_weight part_weight proc_type". *)
Theorem dilepton_header_refuted : exists h b a, header OscarFormat1999 "Dileptons" [] oscar1999 = Ok h /\
  nth 4 (lines h) [] = codes "# nin nout event_number ensemble_number" /\
  interaction OscarFormat1999 (contents_of "Dileptons" (mkPar OnlyFinalNo false false false false false false [])) (getters oscar1999) a 0 = Ok b /\
  exists n m e k, header_1999 (words (hd [] (lines b))) = Some (HInter n m e k (printf_f 7 0) 5, 0).
Proof.
  eexists. eexists. exists (mkAction [] [] 0 0 5). split; [vm_compute; reflexivity|]. split; [vm_compute; reflexivity|]. split; [vm_compute; reflexivity|].
  exists 0, 0, (printf_f 7 0), (printf_f 7 0). vm_compute. reflexivity.
Qed.
Print Assumptions dilepton_header_refuted.

(** In OSCAR1999 an empty list at the start and an empty list at the end are the same line, which is also the first line
    of an event with initial conditions. *)
Theorem empty_lists_refuted : forall l gs,
  item_lines OscarFormat1999 gs (InList l []) = item_lines OscarFormat1999 gs (OutList l []) /\
  item_lines OscarFormat1999 gs (InList l []) = item_lines OscarFormat1999 gs (ICStart l).
Proof. intros. split; reflexivity. Qed.
Print Assumptions empty_lists_refuted.
