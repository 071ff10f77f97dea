(** Text output in the OSCAR formats: /repo/src/oscaroutput.cc, with the conversions of
    /repo/src/include/smash/outputformatter.h ([PrintfModel], [OutModel]). The file is the sequence of bytes handed to
    fprintf; failing writes and flushing are not modelled. *)
From Coq Require Import ZArith Ascii String List Bool.
From Verif Require Import Base TextModel PdgModel PrintfModel OutModel.
Import ListNotations.
Open Scope list_scope.
Open Scope Z_scope.

(** OscarOutputFormat, src/include/smash/oscaroutput.h:31-36 *)
Inductive format := ASCII | OscarFormat2013 | OscarFormat2013Extended | OscarFormat1999.
Definition modern (f : format) : bool := match f with OscarFormat1999 => false | _ => true end.
(** OscarOutputContents, oscaroutput.h:45-58 *)
Definition OscarInteractions : Z := 1.
Definition OscarTimesteps : Z := 2.
Definition OscarAtEventstart : Z := 4.
Definition OscarParticlesAtEventend : Z := 8.
Definition OscarParticlesAtEventendIfNotEmpty : Z := 16.
Definition OscarParticlesIC : Z := 32.
Definition has (contents flag : Z) : bool := negb (Z.land contents flag =? 0).

(** OutputDefaultQuantities::oscar1999, src/include/smash/outputparameters.h:333-334 *)
Definition oscar1999 : list string :=
  ["id"; "pdg"; "0"; "px"; "py"; "pz"; "p0"; "mass"; "x"; "y"; "z"; "t"]%string.

(** ** conversions of fprintf: %i, %zu, %W.Pf, %W.Pg *)
Definition pct_i (x : Z) : text := to_string x.
Definition pct_zu (n : nat) : text := to_string (Z.of_nat n).
(** %.Pf: P decimals, rounded half to even from the exact value of the double (as glibc does) *)
Definition f_positive (P n d : Z) : text :=
  let q := round_even (n * 10 ^ P) d in
  let ip := q / 10 ^ P in
  chars (digits_n (Z.to_nat (Z.max 1 (ndig ip))) ip) ++ 46 :: chars (digits_n (Z.to_nat P) q).
Definition printf_f (P bits : Z) : text :=
  match double_of bits with
  | None => printf_g P bits
  | Some (neg, n, d) => (if neg then [45] else []) ++ f_positive P n d
  end.
(** minimal field width: blanks on the left *)
Definition pad (width : nat) (t : text) : text := repeat SPACE (width - length t) ++ t.

(** ** particle lines *)
(** the text of a quantity, and the conversion with its assertion (outputformatter.h:46-93) *)
Definition show (g : getter) (p : particle) : text :=
  match g with
  | as_integer f => to_string (p f)
  | as_zero => to_string 0
  | as_double f => printf_g 6 (p f)
  | as_precise_double f => printf_g 9 (p f)
  end.
Definition convert (g : getter) (p : particle) : res text :=
  match g with
  | as_double f => show_double (p f)
  | as_precise_double f => show_precise (p f)
  | _ => Ok (show g p)
  end.
(** write_particledata, oscaroutput.cc:862-867 *)
Definition write_particledata (gs : list getter) (p : particle) : res text :=
  _ <- mapM (fun g => convert g p) gs ;; Ok (ascii_line show gs p).
(** write(Particles), oscaroutput.cc:128-133, and write(buffer), 869-872 *)
Definition write (gs : list getter) (ps : list particle) : res text :=
  _ <- mapM (fun p => mapM (fun g => convert g p) gs) ps ;;
  cs <- write_in_chunk (ascii_line show gs) (ascii_size show gs) MAX_BUFFER ps ;; Ok (concat cs).

(** ** the constructor, oscaroutput.cc:22-126; [version] is SMASH_VERSION *)
(** quantities_line, outputformatter.h:446-464, and unit_line, 476-495 *)
Definition quantities_line (qs : list string) : text := join (map codes qs) [SPACE] ++ [NEWLINE].
Definition unit_of (q : string) : res text :=
  match find (fun u => String.eqb (fst u) q) units with Some (_, u) => Ok (codes u) | None => Throw E_out_of_range end.
Definition unit_line (qs : list string) : res text := us <- mapM unit_of qs ;; Ok (join us [SPACE] ++ [NEWLINE]).
Definition used_quantities (f : format) (qs : list string) : list string :=
  match f with ASCII => qs | OscarFormat2013 => oscar2013 | OscarFormat2013Extended => oscar2013extended
  | OscarFormat1999 => oscar1999 end.
Definition format_name (f : format) : string :=
  match f with ASCII => "ASCII" | OscarFormat2013 => "OSCAR2013" | OscarFormat2013Extended => "OSCAR2013Extended"
  | OscarFormat1999 => "OSC1999A" end.
Definition nl : text := [NEWLINE].
Definition header (f : format) (name : string) (version : text) (qs : list string) : res text :=
  if modern f then
    u <- unit_line qs ;;
    Ok (codes "#!" ++ codes (format_name f) ++ [SPACE] ++ codes name ++ [SPACE] ++ quantities_line qs ++
        codes "# Units: " ++ u ++ codes "# " ++ version ++ nl)
  else
    let oscar_name := if String.eqb name "particle_lists" then "final_id_p_x"%string else name in
    Ok (codes "# " ++ codes (format_name f) ++ nl ++ codes "# " ++ codes oscar_name ++ nl ++ codes "# " ++ version ++ nl ++
        codes "# Block format:" ++ nl ++
        (if String.eqb oscar_name "full_event_history" then codes "# nin nout density tot_weight part_weight proc_type" ++ nl
         else codes "# nin nout event_number ensemble_number" ++ nl) ++
        codes "# " ++ quantities_line qs ++
        codes "# End of event: 0 0 event_number ensemble_number impact_parameter" ++ nl ++ codes "#" ++ nl).
Definition open_oscar (f : format) (name : string) (version : text) (quantities : list string) : res (list getter * text) :=
  gs <- make_formatter (used_quantities f quantities) ;;
  match f, quantities with
  | ASCII, _ | _, [] => h <- header f name version (used_quantities f quantities) ;; Ok (gs, h)
  | _, _ => Throw E_logic
  end.

(** ** the calls *)
(** "# event %i ensemble %i" *)
Definition event_line (l : label) (rest : text) : text :=
  codes "# event " ++ pct_i (event_number l) ++ codes " ensemble " ++ pct_i (ensemble_number l) ++ [SPACE] ++ rest ++ nl.
(** "%zu %zu %i %i" *)
Definition counts_line (nin nout : nat) (l : label) (rest : text) : text :=
  pct_zu nin ++ [SPACE] ++ pct_zu nout ++ [SPACE] ++ pct_i (event_number l) ++ [SPACE] ++ pct_i (ensemble_number l) ++ rest ++ nl.

(** at_eventstart, oscaroutput.cc:135-167 *)
Definition eventstart (f : format) (contents : Z) (gs : list getter) (ps : list particle) (l : label) : res text :=
  if has contents OscarAtEventstart && negb (has contents OscarParticlesIC) then
    d <- write gs ps ;;
    Ok ((if modern f then event_line l (codes "in " ++ pct_zu (length ps)) else counts_line 0 (length ps) l []) ++ d)
  else if has contents OscarParticlesIC then
    Ok (if modern f then event_line l (codes "start") else counts_line 0 0 l [])
  else Ok [].

(** at_eventend, oscaroutput.cc:169-212 *)
Definition eventend (f : format) (contents : Z) (gs : list getter) (ps : list particle) (l : label) (i : info) : res text :=
  let listed := has contents OscarParticlesAtEventend ||
                (has contents OscarParticlesAtEventendIfNotEmpty && negb (empty_event i)) in
  if modern f then
    out <- (if listed then d <- write gs ps ;; Ok (event_line l (codes "out " ++ pct_zu (length ps)) ++ d) else Ok []) ;;
    Ok (out ++
        if negb (has contents OscarParticlesIC) then
          event_line l (codes "end 0 impact " ++ pad 7 (printf_f 3 (impact_parameter i)) ++
                        codes " scattering_projectile_target " ++ codes (if empty_event i then "no" else "yes"))
        else event_line l (codes "end"))
  else
    out <- (if listed then d <- write gs ps ;; Ok (counts_line (length ps) 0 l [] ++ d) else Ok []) ;;
    Ok (out ++ counts_line 0 0 l ([SPACE] ++ pad 7 (printf_f 3 (impact_parameter i)))).

(** at_interaction, oscaroutput.cc:214-251 *)
Definition interaction (f : format) (contents : Z) (gs : list getter) (a : action) (density : Z) : res text :=
  if has contents OscarInteractions then
    let h :=
      if modern f then
        codes "# interaction in " ++ pct_zu (length (incoming a)) ++ codes " out " ++ pct_zu (length (outgoing a)) ++
        codes " rho " ++ pad 12 (printf_f 7 density) ++ codes " weight " ++ pad 12 (printf_g 7 (total_weight a)) ++
        codes " partial " ++ pad 12 (printf_f 7 (partial_weight a)) ++ codes " type " ++ pad 5 (pct_i (process_type a)) ++ nl
      else
        pct_zu (length (incoming a)) ++ [SPACE] ++ pct_zu (length (outgoing a)) ++ [SPACE] ++
        pad 12 (printf_f 7 density) ++ [SPACE] ++ pad 12 (printf_f 7 (total_weight a)) ++ [SPACE] ++
        pad 12 (printf_f 7 (partial_weight a)) ++ [SPACE] ++ pad 5 (pct_i (process_type a)) ++ nl in
    din <- mapM (write_particledata gs) (incoming a) ;;
    dout <- mapM (write_particledata gs) (outgoing a) ;;
    Ok (h ++ concat din ++ concat dout)
  else if has contents OscarParticlesIC then
    d <- mapM (write_particledata gs) (incoming a) ;; Ok (concat d)
  else Ok [].

(** at_intermediate_time, oscaroutput.cc:253-271 *)
Definition intermediate (f : format) (contents : Z) (gs : list getter) (ps : list particle) (l : label) : res text :=
  if has contents OscarTimesteps then
    d <- write gs ps ;;
    Ok ((if modern f then event_line l (codes "out " ++ pct_zu (length ps)) else counts_line (length ps) 0 l []) ++ d)
  else Ok [].

Definition oscar_call (f : format) (contents : Z) (gs : list getter) (c : call) : res text :=
  match c with
  | at_eventstart ps l => eventstart f contents gs ps l
  | at_eventend ps l i => eventend f contents gs ps l i
  | at_interaction a density => interaction f contents gs a density
  | at_intermediate_time ps l => intermediate f contents gs ps l
  end.

(** ** create_oscar_output, oscaroutput.cc:918-970, with create_selected_format, 889-915 *)
Record parameters := mkPar {
  part_only_final : only_final; coll_printstartend : bool;
  part_extended : bool; coll_extended : bool; dil_extended : bool; photons_extended : bool; ic_extended : bool;
  custom : list (string * list string) }.
Definition select (modern_format extended_format custom_format : bool) : format :=
  if custom_format then ASCII
  else if modern_format && extended_format then OscarFormat2013Extended
  else if modern_format && negb extended_format then OscarFormat2013
  else OscarFormat1999.
(** format, contents, name and quantities of the output that is created *)
Definition create_oscar (fmt content : string) (par : parameters) : res (format * Z * string * list string) :=
  if negb (String.eqb fmt "Oscar2013") && negb (String.eqb fmt "Oscar1999") && negb (String.eqb fmt "ASCII")
  then Throw E_invalid_argument
  else
    let m := String.eqb fmt "Oscar2013" in
    let cu := String.eqb fmt "ASCII" in
    qs <- (if cu then match find (fun e => String.eqb (fst e) content) (custom par) with
                      | Some (_, q) => Ok q | None => Throw E_out_of_range end
           else Ok []) ;;
    if String.eqb content "Particles" then
      match part_only_final par with
      | OnlyFinalYes => Ok (select m (part_extended par) cu, OscarParticlesAtEventend, "particle_lists"%string, qs)
      | IfNotEmpty => Ok (select m (part_extended par) cu, OscarParticlesAtEventendIfNotEmpty, "particle_lists"%string, qs)
      | OnlyFinalNo => Ok (select m (part_extended par) cu,
                           Z.lor (Z.lor OscarTimesteps OscarAtEventstart) OscarParticlesAtEventend, "particle_lists"%string, qs)
      end
    else if String.eqb content "Collisions" then
      if coll_printstartend par
      then Ok (select m (coll_extended par) cu,
               Z.lor (Z.lor OscarInteractions OscarAtEventstart) OscarParticlesAtEventend, "full_event_history"%string, qs)
      else Ok (select m (coll_extended par) cu, OscarInteractions, "full_event_history"%string, qs)
    else if String.eqb content "Dileptons" then
      Ok (select m (dil_extended par) cu, OscarInteractions, "Dileptons"%string, qs)
    else if String.eqb content "Photons" then
      Ok (select m (photons_extended par) cu, OscarInteractions, "Photons"%string, qs)
    else if String.eqb content "Initial_Conditions" then
      Ok (select m (ic_extended par) cu, Z.lor OscarParticlesIC OscarAtEventstart, "SMASH_IC"%string, qs)
    else Throw E_invalid_argument.

(** the file an output of the configuration writes in a run *)
Definition oscar_file (fmt content : string) (par : parameters) (version : text) (calls : list call) : res text :=
  '(f, contents, name, qs) <- create_oscar fmt content par ;;
  '(gs, h) <- open_oscar f name version qs ;;
  bs <- mapM (oscar_call f contents gs) calls ;;
  Ok (h ++ concat bs).
