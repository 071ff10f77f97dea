(** Reading of external event lists: src/listmodus.cc:345-425 (next_event_, file_has_events_).
    A file is its text; a read position is the part of the text that follows it. *)
From Coq Require Import String.
From Coq Require Import ZArith List Bool Lia.
From Verif Require Import Base TextModel.
Import ListNotations.
Open Scope list_scope.
Open Scope Z_scope.
Notation text := (list Z).

(** std::getline on the rest of a file: the line, the new rest and whether eofbit was set; None:
    nothing left, eofbit and failbit are set *)
Fixpoint cut (s : text) : text * text * bool :=
  match s with
  | [] => ([], [], true)
  | c :: t => if c =? NEWLINE then ([], t, false) else let '(l, r, e) := cut t in (c :: l, r, e)
  end.
Definition gl (s : text) : option (text * text * bool) := match s with [] => None | _ => Some (cut s) end.

Definition needle : text := [32; 101; 110; 100; 32].
Definition has_end (l : text) : bool := match find_str needle l with Some _ => true | None => false end.
Definition starts_comment (l : text) : bool := match l with c :: _ => c =? HASH | [] => false end.

(** file_has_events_, listmodus.cc:397-425; the fuel of the loop is max_comment_lines + 1 *)
Fixpoint skip (n : nat) (s : text) : bool :=
  match gl s with
  | None => false
  | Some (l, r, e) =>
    if starts_comment l then negb e
    else match n with O => negb e | S m => if e then false else skip m r end
  end.
Definition file_has_events (pos : option text) : bool :=
  match pos with None => false | Some s => skip 4 s end.

(** the reading loop of next_event_, listmodus.cc:365-388: text of the event and new position
    (tellg is -1 as soon as eofbit is set) *)
Fixpoint read_event (fuel : nat) (s acc : text) : res (text * option text) :=
  match fuel with
  | O => UB UB_no_progress
  | S n =>
    match gl s with
    | None => Ok (acc, None)
    | Some (l, r, e) =>
      if has_end l then Ok (acc, if e then None else Some r)
      else if e then Ok (acc ++ l ++ [NEWLINE], None)
      else read_event n r (acc ++ l ++ [NEWLINE])
    end
  end.

(** state: the current and the following files (those with consecutive numbers that exist) and
    the position in the current one *)
Record lstate := LS { l_files : list text; l_pos : option text }.
Definition start (files : list text) : lstate := LS files (match files with f :: _ => Some f | [] => None end).
(** next_event_, listmodus.cc:345-395, for numbered files; a file that does not exist throws.
    The recursion moves on to the next file. *)
Fixpoint next_numbered (files : list text) (pos : option text) : res (text * lstate) :=
  match files with
  | [] => Throw E_runtime
  | f :: rest =>
    if file_has_events pos then
      match pos with
      | Some s => '(ev, p) <- read_event (S (length s)) s [] ;; Ok (ev, LS (f :: rest) p)
      | None => Throw E_runtime
      end
    else next_numbered rest (match rest with g :: _ => Some g | [] => None end)
  end.
(** the same with a single file name *)
Definition next_single (st : lstate) : res (text * lstate) :=
  match l_files st with
  | [] => Throw E_runtime
  | f :: _ =>
    if file_has_events (l_pos st) then
      match l_pos st with
      | Some s => '(ev, p) <- read_event (S (length s)) s [] ;; Ok (ev, LS (l_files st) p)
      | None => Throw E_runtime
      end
    else Throw E_runtime
  end.
Definition next_event (single : bool) (st : lstate) : res (text * lstate) :=
  if single then next_single st else next_numbered (l_files st) (l_pos st).
(** n calls *)
Fixpoint deliver (single : bool) (n : nat) (st : lstate) : res (list text * lstate) :=
  match n with
  | O => Ok ([], st)
  | S m => '(ev, st1) <- next_event single st ;; '(l, st2) <- deliver single m st1 ;; Ok (ev :: l, st2)
  end.

(** *** specification: files made of events *)
(** a line of the file; a line ends where a newline is *)
Definition plain (l : text) : Prop := ~ In NEWLINE l.
Fixpoint lines_text (ls : list text) : text := match ls with [] => [] | l :: t => l ++ NEWLINE :: lines_text t end.
(** an event: a comment line, more lines, and a last line with " end " in it *)
Record event := EV { e_first : text; e_body : list text; e_last : text }.
Definition good_event (e : event) : Prop :=
  starts_comment (e_first e) = true /\ has_end (e_last e) = true /\ plain (e_last e) /\
  Forall (fun l => plain l /\ has_end l = false) (e_first e :: e_body e).
(** what should be delivered: all lines but the last *)
Definition content (e : event) : text := lines_text (e_first e :: e_body e).
Definition event_text (e : event) : text := content e ++ e_last e ++ [NEWLINE].
Definition file_text (es : list event) : text := flat_map event_text es.

Lemma cut_line l r : plain l -> cut (l ++ NEWLINE :: r) = (l, r, false).
Proof.
  unfold plain. induction l as [|c t IH]; intros H; cbn [app cut].
  - rewrite Z.eqb_refl. reflexivity.
  - destruct (Z.eqb_spec c NEWLINE) as [-> |]; [exfalso; apply H; left; reflexivity|].
    rewrite IH by (intros I; apply H; right; exact I). reflexivity.
Qed.
Lemma gl_line l r : plain l -> gl (l ++ NEWLINE :: r) = Some (l, r, false).
Proof. intros H. unfold gl. rewrite cut_line by exact H. destruct l; reflexivity. Qed.

Lemma read_lines ls : forall fuel rest acc, Forall (fun l => plain l /\ has_end l = false) ls ->
  read_event (length ls + fuel) (lines_text ls ++ rest) acc = read_event fuel rest (acc ++ lines_text ls).
Proof.
  induction ls as [|l t IH]; intros fuel rest acc F.
  - cbn [lines_text app length Nat.add]. rewrite app_nil_r. reflexivity.
  - inversion F as [|? ? [Pl El] Ft]; subst. cbn [lines_text length Nat.add read_event]. rewrite <- app_assoc. cbn [app].
    rewrite gl_line, El by exact Pl. rewrite IH by exact Ft. f_equal. rewrite <- !app_assoc. reflexivity.
Qed.

Lemma read_fuel f1 : forall f2 s acc r, read_event f1 s acc = Ok r -> (f1 <= f2)%nat -> read_event f2 s acc = Ok r.
Proof.
  induction f1 as [|n IH]; intros f2 s acc r H L; [discriminate|]. destruct f2 as [|m]; [lia|]. cbn [read_event] in *.
  destruct (gl s) as [[[l t] e]|]; [|exact H]. destruct (has_end l); [exact H|]. destruct e; [exact H|]. apply IH; [exact H|lia].
Qed.
Lemma lines_length ls : (length ls <= length (lines_text ls))%nat.
Proof. induction ls as [|l t IH]; cbn [lines_text length]; [lia|]. rewrite app_length. cbn [length]. lia. Qed.

Lemma read_one e rest : good_event e ->
  read_event (S (length (event_text e ++ rest))) (event_text e ++ rest) [] = Ok (content e, Some rest).
Proof.
  intros (C & E & P & F). unfold event_text.
  apply (read_fuel (length (e_first e :: e_body e) + 1)).
  - rewrite <- !app_assoc. unfold content at 1. rewrite read_lines by exact F. cbn [read_event app].
    rewrite gl_line by exact P. rewrite E. reflexivity.
  - rewrite !app_length. unfold content. pose proof (lines_length (e_first e :: e_body e)). lia.
Qed.
Lemma has_one e rest : good_event e -> file_has_events (Some (event_text e ++ rest)) = true.
Proof.
  intros (C & E & P & F). inversion F as [|? ? [Pl _] _]; subst. cbn [file_has_events skip]. unfold event_text, content. cbn [lines_text].
  rewrite <- !app_assoc. cbn [app]. rewrite gl_line, C by exact Pl. reflexivity.
Qed.

(** C60: a single file is delivered event by event, completely and in order; afterwards the end
    is reported. *)
Theorem single_file_delivered es : Forall good_event es ->
  exists st, deliver true (length es) (start [file_text es]) = Ok (map content es, st) /\
    next_event true st = Throw E_runtime.
Proof.
  intros F. unfold start.
  assert (G : forall es f, Forall good_event es -> exists st, deliver true (length es) (LS [f] (Some (file_text es))) = Ok (map content es, st) /\
    next_event true st = Throw E_runtime).
  { clear. induction es as [|e t IH]; intros f F.
    - exists (LS [f] (Some [])). split; reflexivity.
    - inversion F as [|? ? Fe Ft]; subst. destruct (IH f Ft) as (st & D & N). exists st. split; [|exact N].
      cbn [length deliver next_event]. unfold next_single. cbn [l_files l_pos].
      change (file_text (e :: t)) with (event_text e ++ file_text t).
      rewrite has_one, read_one by exact Fe. cbn [rbind]. rewrite D. reflexivity. }
  apply G. exact F.
Qed.
Print Assumptions single_file_delivered.

(** C60: numbered files are delivered one after the other, completely and in order, also when
    some of them contain no events. *)
(** the events still to come from a state *)
Definition remaining (st : lstate) (es : list event) : Prop :=
  (l_files st = [] /\ es = []) \/
  exists f now later, l_files st = f :: map file_text later /\ l_pos st = Some (file_text now) /\ es = now ++ concat later /\
    Forall good_event now /\ Forall (Forall good_event) later.

Lemma next_remaining later : forall f now e t,
  now ++ concat later = e :: t -> Forall good_event now -> Forall (Forall good_event) later ->
  exists st, next_numbered (f :: map file_text later) (Some (file_text now)) = Ok (content e, st) /\ remaining st t.
Proof.
  induction later as [|g rest IH]; intros f now e t E Fn Fl.
  - destruct now as [|x now']; [discriminate|]. cbn [app] in E. assert (x = e /\ now' ++ concat [] = t) as [-> <-] by (split; congruence).
    inversion Fn as [|? ? Ge Ft]; subst. cbn [next_numbered]. change (file_text (e :: now')) with (event_text e ++ file_text now').
    rewrite has_one, read_one by exact Ge. cbn [rbind]. eexists. split; [reflexivity|]. right.
    exists f, now', []. auto.
  - destruct now as [|x now'].
    + inversion Fl as [|? ? Fg Fr]; subst. cbn [app concat] in E.
      destruct (IH (file_text g) g e t E Fg Fr) as (st & N & Rm). exists st. split; [|exact Rm]. exact N.
    + cbn [app] in E. assert (x = e /\ now' ++ concat (g :: rest) = t) as [-> <-] by (split; congruence).
      inversion Fn as [|? ? Ge Ft]; subst. cbn [next_numbered]. change (file_text (e :: now')) with (event_text e ++ file_text now').
      rewrite has_one, read_one by exact Ge. cbn [rbind]. eexists. split; [reflexivity|]. right.
      exists f, now', (g :: rest). auto.
Qed.
Lemma end_remaining later : forall f, concat later = [] ->
  next_numbered (f :: map file_text later) (Some []) = Throw E_runtime.
Proof.
  induction later as [|g rest IH]; intros f E; [reflexivity|]. cbn [concat] in E. apply app_eq_nil in E. destruct E as [-> E].
  exact (IH [] E).
Qed.

Theorem numbered_files_delivered ess : Forall (Forall good_event) ess ->
  exists st, deliver false (length (concat ess)) (start (map file_text ess)) = Ok (map content (concat ess), st) /\
    next_event false st = Throw E_runtime.
Proof.
  intros F.
  assert (G : forall es st, remaining st es -> exists st', deliver false (length es) st = Ok (map content es, st') /\ next_event false st' = Throw E_runtime).
  { clear. induction es as [|e t IH]; intros st Rm.
    - exists st. split; [reflexivity|]. unfold next_event. destruct Rm as [[-> _]|(f & now & later & -> & -> & E & _)]; [reflexivity|].
      symmetry in E. apply app_eq_nil in E. destruct E as [-> E]. apply end_remaining, E.
    - destruct Rm as [[_ ?]|(f & now & later & Ef & Ep & E & Fn & Fl)]; [discriminate|].
      destruct (next_remaining later f now e t (eq_sym E) Fn Fl) as (st1 & N & Rm1). destruct (IH st1 Rm1) as (st2 & D & T).
      exists st2. split; [|exact T]. cbn [length deliver next_event]. rewrite Ef, Ep, N. cbn [rbind]. rewrite D. reflexivity. }
  apply G. destruct ess as [|es later]; [left; auto|]. right. inversion F; subst.
  exists (file_text es), es, later. auto.
Qed.
Print Assumptions numbered_files_delivered.

(** a file with an event of two particles and an empty event *)
Definition ev1 : event := EV (codes "# event 0 out 1"%string) [codes "0 0 0 0 0.138 0.2"%string; codes "0 1 0 0 0.138 0.2"%string] (codes "# event 0 end 0"%string).
Definition ev2 : event := EV (codes "# event 1 out 0"%string) [] (codes "# event 1 end 0 impact"%string).
Example delivered_example :
  Forall good_event [ev1; ev2] /\ deliver false 3 (start [file_text [ev1; ev2]; []; file_text [ev2]]) = Ok ([content ev1; content ev2; content ev2], LS [file_text [ev2]] (Some [])).
Proof.
  split; [|vm_compute; reflexivity].
  repeat apply Forall_cons; try apply Forall_nil; unfold good_event, plain.
  all: split; [vm_compute; reflexivity|]. all: split; [vm_compute; reflexivity|]. 
  all: split; [vm_compute; intuition discriminate|]. all: repeat apply Forall_cons; try apply Forall_nil; split; vm_compute; intuition discriminate.
Qed.

(** C60: particles after the last event line that are at most four are never delivered: a file
    whose event lacks the leading comment is taken as empty. *)
Theorem short_tail_lost_refuted :
  exists f, f = lines_text [codes "0 0 0 0 0.138 0.2"%string; codes "0 1 0 0 0.138 0.2"%string] /\ next_event true (start [f]) = Throw E_runtime.
Proof. eexists. split; reflexivity. Qed.
Print Assumptions short_tail_lost_refuted.
(** C60: more than four blank lines at the end of a file are delivered as an event without
    particles. *)
Theorem blank_tail_event_refuted :
  exists st, deliver true 2 (start [file_text [ev1] ++ [NEWLINE; NEWLINE; NEWLINE; NEWLINE; NEWLINE]]) = Ok ([content ev1; [NEWLINE; NEWLINE; NEWLINE; NEWLINE; NEWLINE]], st).
Proof. eexists. vm_compute. reflexivity. Qed.
Print Assumptions blank_tail_event_refuted.

(** C60: what may follow the last event of a file without being taken for an event: up to four lines
    that are no comments, or a comment without line end. Exactly these: a fifth line counts. *)
Lemma skip_lines ls : forall n, Forall (fun l => plain l /\ starts_comment l = false) ls -> skip n (lines_text ls) = (n <? length ls)%nat.
Proof.
  induction ls as [|l t IH]; intros n F; [destruct n; reflexivity|]. inversion F as [|? ? [Pl Cl] Ft]; subst.
  destruct n; cbn [skip lines_text]; rewrite gl_line, Cl by exact Pl; [reflexivity|]. rewrite IH by exact Ft. reflexivity.
Qed.
Lemma cut_unterminated l : plain l -> cut l = (l, [], true).
Proof.
  unfold plain. induction l as [|c t IH]; intros H; [reflexivity|]. cbn [cut].
  destruct (Z.eqb_spec c NEWLINE) as [-> |]; [exfalso; apply H; left; reflexivity|].
  rewrite IH by (intros I; apply H; right; exact I). reflexivity.
Qed.
Definition harmless_tail (tl : text) : Prop :=
  (exists ls, tl = lines_text ls /\ (length ls <= 4)%nat /\ Forall (fun l => plain l /\ starts_comment l = false) ls) \/
  (plain tl /\ starts_comment tl = true).
Lemma harmless_no_events tl : harmless_tail tl -> file_has_events (Some tl) = false.
Proof.
  intros [(ls & -> & L & F)|[P C]]; cbn [file_has_events].
  - rewrite skip_lines by exact F. apply Nat.ltb_ge. exact L.
  - cbn [skip]. unfold gl. destruct tl as [|c t]; [reflexivity|]. rewrite cut_unterminated, C by exact P. reflexivity.
Qed.
Theorem tail_is_no_event es tl : Forall good_event es -> harmless_tail tl ->
  exists st, deliver true (length es) (start [file_text es ++ tl]) = Ok (map content es, st) /\
    next_event true st = Throw E_runtime.
Proof.
  intros F H. unfold start.
  assert (G : forall es f, Forall good_event es -> exists st, deliver true (length es) (LS [f] (Some (file_text es ++ tl))) = Ok (map content es, st) /\
    next_event true st = Throw E_runtime).
  { clear F es. induction es as [|e t IH]; intros f F.
    - exists (LS [f] (Some tl)). split; [reflexivity|]. cbn [next_event next_single l_files l_pos]. unfold next_single. cbn [l_files l_pos].
      rewrite harmless_no_events by exact H. reflexivity.
    - inversion F as [|? ? Ge Ft]; subst. destruct (IH f Ft) as (st & D & N). exists st. split; [|exact N].
      cbn [length deliver next_event]. unfold next_single. cbn [l_files l_pos].
      change (file_text (e :: t)) with (event_text e ++ file_text t). rewrite <- app_assoc.
      rewrite has_one, read_one by exact Ge. cbn [rbind]. rewrite D. reflexivity. }
  apply G, F.
Qed.
Print Assumptions tail_is_no_event.
Theorem long_tail_counts_as_event ls : Forall (fun l => plain l /\ starts_comment l = false) ls ->
  (file_has_events (Some (lines_text ls)) = true <-> (5 <= length ls)%nat).
Proof. intros F. cbn [file_has_events]. rewrite skip_lines by exact F. rewrite Nat.ltb_lt. lia. Qed.
Example harmless_example : harmless_tail (codes "# written by hand"%string) /\ harmless_tail [NEWLINE; NEWLINE; NEWLINE; NEWLINE].
Proof.
  split.
  - right. split; [unfold plain; vm_compute; intuition discriminate|reflexivity].
  - left. exists [[]; []; []; []]. split; [reflexivity|]. split; [cbn; lia|]. repeat apply Forall_cons; try apply Forall_nil; split; try reflexivity; intros [].
Qed.
