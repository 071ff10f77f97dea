(** Model of the binary reaction channels: /repo/src/crosssections.cc,
    /repo/src/include/smash/crosssections.h, /repo/src/parametrizations.cc (isospin ratios).
    Species are represented by their PDG words; doubles are real numbers.  The fitted
    parametrisations are opaque: [par] lists their names and an environment gives the value
    of each at the energy of the collision.  ParticleType::find is assumed to find the
    species named in the tables (it throws otherwise).
    The channel tables npi_table, nk_table, deltak_table and ypi_table below are the nested
    switch statements of the source flattened to association lists; a pair which has no
    case gives no channel. *)
From Coq Require Import ZArith List Bool Reals.
From Verif Require Import Base PdgModel MultiModel.
Import ListNotations.
Open Scope Z_scope.
Open Scope bool_scope.

(** pdgcode_constants.h:30-86 *)
Definition w_Dpp : pdg := 0x2224.
Definition w_Dp : pdg := 0x2214.
Definition w_Dz : pdg := 0x2114.
Definition w_Dm : pdg := 0x1114.
Definition w_Sp : pdg := 0x3222.
Definition w_Sz : pdg := 0x3212.
Definition w_Sm : pdg := 0x3112.
Definition w_Kp : pdg := 0x321.
Definition w_Kz : pdg := 0x311.
Definition w_Km : pdg := anti 0x321.
Definition w_Kbz : pdg := anti 0x311.
Definition w_rhoz : pdg := 0x113.
Definition w_h1 : pdg := 0x10223.
(** pdgcode.h:404-474, 486-492; particletype.h:261-263 *)
Definition is_kaon (w : pdg) : bool := (Z.abs (code w) =? 0x321) || (Z.abs (code w) =? 0x311).
Definition is_Delta (w : pdg) : bool :=
  (Z.abs (code w) =? 0x2224) || (Z.abs (code w) =? 0x2214) ||
  (Z.abs (code w) =? 0x2114) || (Z.abs (code w) =? 0x1114).
Definition is_Nstar1535 (w : pdg) : bool :=
  (Z.abs (code w) =? 0x22212) || (Z.abs (code w) =? 0x22112).
Definition is_hyperon (w : pdg) : bool := is_hadron w && (n_q1 w =? 3).
Definition is_deuteron (w : pdg) : bool :=
  is_nucleus w && (nuc_A w =? 2) && (nuc_Z w =? 1) && (nuc_L w =? 0) && (nuc_I w =? 0).
Definition is_dprime (w : pdg) : bool := is_nucleus w && (Z.abs (get_decimal w) =? 1000010021).

(** pack, pdgcode_constants.h:136-140 *)
Definition pack (x y : Z) : Z := u32 x * 2 ^ 32 + u32 y.

(** The parametrisations used (parametrizations.h) *)
Inductive par :=
  (* pi N -> Y K *)
  | PipP_SpKp | PimP_SmKp | PimP_SzKz | PimP_LaKz
  (* Kbar N -> pi Y *)
  | KmP_PimSp | KmP_PipSm | KmP_PizSz | KmP_PizLa | KmN_PimSz | KmN_PimLa
  (* charge exchange, and inelastic backgrounds K N -> K Delta *)
  | KmP_KbzN | KpN_KzP | KpP_inel | KpN_inel
  (* elastic *)
  | PipP_el | PimP_el | KpP_el | KmP_el | KpN_el | KmN_el
  (* total and high energy *)
  | PP_tot | NP_tot | PPbar_tot | KpP_tot | KmP_tot | KpN_tot | KmN_tot | PipP_tot | PimP_tot
  | PipPim_tot | PizPiz_tot
  | PP_he | NP_he | PPbar_he | NPbar_he | PipP_he | PimP_he | PPbar_el.

(** Groups of reactions which can be switched off: always, strangeness exchange,
    charge exchange, K N -> K Delta. *)
Inductive grp := AL | SE | KN | KD.

(** A channel as it stands in the source: its group, the parametrisations with their
    factors in halves, the outgoing species. *)
Record entry := Entry { e_grp : grp; e_terms : list (Z * par); e_out1 : pdg; e_out2 : pdg }.

(** npi_yk, crosssections.cc:546-774 *)
Definition npi_table : list ((pdg * pdg) * list entry) :=
  [((w_p, w_pip), [Entry AL [(2, PipP_SpKp)] w_Kp w_Sp]);
   ((w_p, w_pim), [Entry AL [(2, PimP_SmKp)] w_Kp w_Sm;
      Entry AL [(2, PimP_SzKz)] w_Kz w_Sz;
      Entry AL [(2, PimP_LaKz)] w_Kz w_La]);
   ((w_p, w_piz), [Entry AL [(1, PipP_SpKp); ((-1), PimP_SzKz); (1, PimP_SmKp)] w_Kp w_Sz;
      Entry AL [(2, PimP_SzKz)] w_Kz w_Sp;
      Entry AL [(1, PimP_LaKz)] w_Kp w_La]);
   ((w_n, w_pip), [Entry AL [(2, PimP_SmKp)] w_Kz w_Sp;
      Entry AL [(2, PimP_SzKz)] w_Kp w_Sz;
      Entry AL [(2, PimP_LaKz)] w_Kp w_La]);
   ((w_n, w_pim), [Entry AL [(2, PipP_SpKp)] w_Kz w_Sm]);
   ((w_n, w_piz), [Entry AL [(1, PipP_SpKp); ((-1), PimP_SzKz); (1, PimP_SmKp)] w_Kz w_Sz;
      Entry AL [(2, PimP_SzKz)] w_Kp w_Sm;
      Entry AL [(1, PimP_LaKz)] w_Kz w_La]);
   (((anti w_p), w_pip), [Entry AL [(2, PimP_SmKp)] w_Km (anti w_Sm);
      Entry AL [(2, PimP_SzKz)] w_Kbz (anti w_Sz);
      Entry AL [(2, PimP_LaKz)] w_Kbz (anti w_La)]);
   (((anti w_p), w_pim), [Entry AL [(2, PipP_SpKp)] w_Km (anti w_Sp)]);
   (((anti w_p), w_piz), [Entry AL [(1, PipP_SpKp); ((-1), PimP_SzKz); (1, PimP_SmKp)] w_Km (anti w_Sz);
      Entry AL [(2, PimP_SzKz)] w_Kbz (anti w_Sp);
      Entry AL [(1, PimP_LaKz)] w_Km (anti w_La)]);
   (((anti w_n), w_pip), [Entry AL [(2, PipP_SpKp)] w_Kbz (anti w_Sm)]);
   (((anti w_n), w_pim), [Entry AL [(2, PimP_SmKp)] w_Kbz (anti w_Sp);
      Entry AL [(2, PimP_SzKz)] w_Km (anti w_Sz);
      Entry AL [(2, PimP_LaKz)] w_Km (anti w_La)]);
   (((anti w_n), w_piz), [Entry AL [(1, PipP_SpKp); ((-1), PimP_SzKz); (1, PimP_SmKp)] w_Kbz (anti w_Sz);
      Entry AL [(2, PimP_SzKz)] w_Km (anti w_Sm);
      Entry AL [(1, PimP_LaKz)] w_Kbz (anti w_La)])].

(** nk_xx, crosssections.cc:1280-1782 *)
Definition nk_table : list ((pdg * pdg) * list entry) :=
  [((w_Km, w_p), [Entry SE [(2, KmP_PimSp)] w_pim w_Sp;
      Entry SE [(2, KmP_PipSm)] w_pip w_Sm;
      Entry SE [(2, KmP_PizSz)] w_piz w_Sz;
      Entry SE [(2, KmP_PizLa)] w_piz w_La;
      Entry KN [(2, KmP_KbzN)] w_Kbz w_n]);
   ((w_Km, w_n), [Entry SE [(2, KmN_PimSz)] w_pim w_Sz;
      Entry SE [(2, KmN_PimSz)] w_piz w_Sm;
      Entry SE [(2, KmN_PimLa)] w_pim w_La]);
   ((w_Km, (anti w_p)), [Entry KD [(2, KpP_inel)] w_Kbz (anti w_Dpp);
      Entry KD [(2, KpP_inel)] w_Km (anti w_Dp)]);
   ((w_Km, (anti w_n)), [Entry KD [(2, KpN_inel)] w_Kbz (anti w_Dp);
      Entry KD [(2, KpN_inel)] w_Km (anti w_Dz);
      Entry KN [(2, KpN_KzP)] w_Kbz (anti w_p)]);
   ((w_Kp, w_p), [Entry KD [(2, KpP_inel)] w_Kz w_Dpp;
      Entry KD [(2, KpP_inel)] w_Kp w_Dp]);
   ((w_Kp, w_n), [Entry KD [(2, KpN_inel)] w_Kz w_Dp;
      Entry KD [(2, KpN_inel)] w_Kp w_Dz;
      Entry KN [(2, KpN_KzP)] w_Kz w_p]);
   ((w_Kp, (anti w_p)), [Entry SE [(2, KmP_PimSp)] w_pip (anti w_Sp);
      Entry SE [(2, KmP_PipSm)] w_pim (anti w_Sm);
      Entry SE [(2, KmP_PizSz)] w_piz (anti w_Sz);
      Entry SE [(2, KmP_PizLa)] w_piz (anti w_La);
      Entry KN [(2, KmP_KbzN)] w_Kz (anti w_n)]);
   ((w_Kp, (anti w_n)), [Entry SE [(2, KmN_PimSz)] w_pip (anti w_Sz);
      Entry SE [(2, KmN_PimSz)] w_piz (anti w_Sm);
      Entry SE [(2, KmN_PimLa)] w_pip (anti w_La)]);
   ((w_Kz, w_p), [Entry KD [(2, KpN_inel)] w_Kz w_Dp;
      Entry KD [(2, KpN_inel)] w_Kp w_Dz;
      Entry KN [(2, KpN_KzP)] w_Kp w_n]);
   ((w_Kz, w_n), [Entry KD [(2, KpP_inel)] w_Kz w_Dz;
      Entry KD [(2, KpP_inel)] w_Kp w_Dm]);
   ((w_Kz, (anti w_p)), [Entry SE [(2, KmN_PimSz)] w_pim (anti w_Sz);
      Entry SE [(2, KmN_PimSz)] w_piz (anti w_Sp);
      Entry SE [(2, KmN_PimLa)] w_pim (anti w_La)]);
   ((w_Kz, (anti w_n)), [Entry SE [(2, KmP_PimSp)] w_pim (anti w_Sm);
      Entry SE [(2, KmP_PipSm)] w_pip (anti w_Sp);
      Entry SE [(2, KmP_PizSz)] w_piz (anti w_Sz);
      Entry SE [(2, KmP_PizLa)] w_piz (anti w_La);
      Entry KN [(2, KmP_KbzN)] w_Kp (anti w_p)]);
   ((w_Kbz, w_p), [Entry SE [(2, KmN_PimSz)] w_piz w_Sp;
      Entry SE [(2, KmN_PimSz)] w_pip w_Sz;
      Entry SE [(2, KmN_PimLa)] w_pip w_La]);
   ((w_Kbz, w_n), [Entry SE [(2, KmP_PimSp)] w_pip w_Sm;
      Entry SE [(2, KmP_PipSm)] w_pim w_Sp;
      Entry SE [(2, KmP_PizSz)] w_piz w_Sz;
      Entry SE [(2, KmP_PizLa)] w_piz w_La;
      Entry KN [(2, KmP_KbzN)] w_Km w_p]);
   ((w_Kbz, (anti w_p)), [Entry KD [(2, KpN_inel)] w_Kbz (anti w_Dp);
      Entry KD [(2, KpN_inel)] w_Km (anti w_Dz);
      Entry KN [(2, KpN_KzP)] w_Km (anti w_n)]);
   ((w_Kbz, (anti w_n)), [Entry KD [(2, KpP_inel)] w_Kbz (anti w_Dz);
      Entry KD [(2, KpP_inel)] w_Km (anti w_Dm)])].

(** deltak_xx, crosssections.cc:1784-1933 *)
Definition deltak_table : list ((pdg * pdg) * list entry) :=
  [((w_Dpp, w_Kz), [Entry AL [(2, KpP_inel)] w_p w_Kp]);
   ((w_Dp, w_Kp), [Entry AL [(2, KpP_inel)] w_p w_Kp]);
   (((anti w_Dpp), w_Kbz), [Entry AL [(2, KpP_inel)] (anti w_p) w_Km]);
   (((anti w_Dp), w_Km), [Entry AL [(2, KpP_inel)] (anti w_p) w_Km]);
   ((w_Dp, w_Kz), [Entry AL [(2, KpN_inel)] w_n w_Kp;
      Entry AL [(2, KpN_inel)] w_p w_Kz]);
   ((w_Dz, w_Kp), [Entry AL [(2, KpN_inel)] w_n w_Kp;
      Entry AL [(2, KpN_inel)] w_p w_Kz]);
   (((anti w_Dp), w_Kbz), [Entry AL [(2, KpN_inel)] (anti w_n) w_Km;
      Entry AL [(2, KpN_inel)] (anti w_p) w_Kbz]);
   (((anti w_Dz), w_Km), [Entry AL [(2, KpN_inel)] (anti w_n) w_Km;
      Entry AL [(2, KpN_inel)] (anti w_p) w_Kbz]);
   ((w_Dz, w_Kz), [Entry AL [(2, KpP_inel)] w_n w_Kz]);
   ((w_Dm, w_Kp), [Entry AL [(2, KpP_inel)] w_n w_Kz]);
   (((anti w_Dz), w_Kbz), [Entry AL [(2, KpP_inel)] (anti w_n) w_Kbz]);
   (((anti w_Dm), w_Km), [Entry AL [(2, KpP_inel)] (anti w_n) w_Kbz])].

(** ypi_xx, crosssections.cc:1935-2297 *)
Definition ypi_table : list ((pdg * pdg) * list entry) :=
  [((w_Sz, w_pim), [Entry AL [(2, KmN_PimSz)] w_n w_Km]);
   ((w_Sz, w_pip), [Entry AL [(2, KmN_PimSz)] w_p w_Kbz]);
   (((anti w_Sz), w_pip), [Entry AL [(2, KmN_PimSz)] (anti w_n) w_Kp]);
   (((anti w_Sz), w_pim), [Entry AL [(2, KmN_PimSz)] (anti w_p) w_Kz]);
   ((w_Sm, w_piz), [Entry AL [(2, KmN_PimSz)] w_n w_Km]);
   ((w_Sp, w_piz), [Entry AL [(2, KmN_PimSz)] w_p w_Kbz]);
   (((anti w_Sm), w_piz), [Entry AL [(2, KmN_PimSz)] (anti w_n) w_Kp]);
   (((anti w_Sp), w_piz), [Entry AL [(2, KmN_PimSz)] (anti w_p) w_Kz]);
   ((w_La, w_pim), [Entry AL [(2, KmN_PimLa)] w_n w_Km]);
   ((w_La, w_pip), [Entry AL [(2, KmN_PimLa)] w_p w_Kbz]);
   (((anti w_La), w_pip), [Entry AL [(2, KmN_PimLa)] (anti w_n) w_Kp]);
   (((anti w_La), w_pim), [Entry AL [(2, KmN_PimLa)] (anti w_p) w_Kz]);
   ((w_Sz, w_piz), [Entry AL [(2, KmP_PizSz)] w_p w_Km;
      Entry AL [(2, KmP_PizSz)] w_n w_Kbz]);
   (((anti w_Sz), w_piz), [Entry AL [(2, KmP_PizSz)] (anti w_p) w_Kp;
      Entry AL [(2, KmP_PizSz)] (anti w_n) w_Kz]);
   ((w_Sm, w_pip), [Entry AL [(2, KmP_PipSm)] w_p w_Km;
      Entry AL [(2, KmP_PimSp)] w_n w_Kbz]);
   (((anti w_Sm), w_pim), [Entry AL [(2, KmP_PipSm)] (anti w_p) w_Kp;
      Entry AL [(2, KmP_PimSp)] (anti w_n) w_Kz]);
   ((w_La, w_piz), [Entry AL [(2, KmP_PizLa)] w_p w_Km;
      Entry AL [(2, KmP_PizLa)] w_n w_Kbz]);
   (((anti w_La), w_piz), [Entry AL [(2, KmP_PizLa)] (anti w_p) w_Kp;
      Entry AL [(2, KmP_PizLa)] (anti w_n) w_Kz]);
   ((w_Sp, w_pim), [Entry AL [(2, KmP_PimSp)] w_p w_Km;
      Entry AL [(2, KmP_PipSm)] w_n w_Kbz]);
   (((anti w_Sp), w_pip), [Entry AL [(2, KmP_PimSp)] (anti w_p) w_Kp;
      Entry AL [(2, KmP_PipSm)] (anti w_n) w_Kz])].

(** Lookup of the switch statements *)
Fixpoint lookup (t : list ((pdg * pdg) * list entry)) (x y : pdg) : list entry :=
  match t with
  | [] => []
  | ((a, b), l) :: t' => if (a =? x) && (b =? y) then l else lookup t' x y
  end.

(** The order in which the two particles are given does not matter: the baryon is picked by
    a test, crosssections.cc:549-550, 1284-1285, 1792-1793, 1943-1944. *)
Definition pick (test : pdg -> bool) (a b : pdg) : pdg * pdg := if test a then (a, b) else (b, a).

(** What the cross sections depend on, for one collision *)
Record xenv := XEnv {
  sqrts : R;
  pcm : R;                          (* momentum of the incoming particles *)
  sigma : par -> R;                 (* the parametrisations at this energy *)
  mass : pdg -> R;                  (* pole masses *)
  sdegR : pdg -> R;                 (* spin() + 1 *)
  intRK : pdg -> R;                 (* get_integral_RK(sqrt_s) of the multiplet of the resonance *)
  above : pdg -> pdg -> bool;       (* not is_below_threshold, crosssections.h:620-643 *)
  cg2 : pdg -> pdg -> pdg -> pdg -> R (* isospin_clebsch_gordan_sqr_2to2 *)
}.

Record xch := XCh { x_out : list pdg; x_w : R }.

Local Open Scope R_scope.

(** really_small, constants.h:41 *)
Definition really_small : R := / 10 ^ 6.

(** pCM_sqr_from_s, kinematics.h:52-56 *)
Definition pcm2 (s ma mb : R) : R :=
  let x := s + ma * ma - mb * mb in x * x * ((1 / 4) / s) - ma * ma.
(** pCM_from_s, kinematics.h:66-69 *)
Definition pcm_of (s ma mb : R) : R :=
  if Rlt_dec 0 (pcm2 s ma mb) then sqrt (pcm2 s ma mb) else 0.

(** add_channel, crosssections.h:612-651 *)
Definition add_channel (env : xenv) (v : res R) (o1 o2 : pdg) : res (list xch) :=
  if above env o1 o2 then
    x <- v ;;
    Ok (if Rlt_dec really_small x then [XCh [o1; o2] x] else [])
  else Ok [].

(** Sum of the parametrisations with their factors *)
Definition value (env : xenv) (ts : list (Z * par)) : R :=
  fold_right (fun t acc => IZR (fst t) / 2 * sigma env (snd t) + acc) 0 ts.

(** detailed_balance_factor_stable, crosssections.cc:28-40 *)
Definition same (a b : pdg) : R := if (a =? b)%Z then 1 else 0.
Definition db_stable (env : xenv) (a b c d : pdg) : R :=
  (sdegR env c * sdegR env d) / (sdegR env a * sdegR env b) *
  ((1 + same a b) / (1 + same c d)) *
  (pcm2 (sqrts env ^ 2) (mass env c) (mass env d) / pcm2 (sqrts env ^ 2) (mass env a) (mass env b)).

(** detailed_balance_factor_RK, crosssections.cc:48-64 *)
Definition db_RK (env : xenv) (a b c d : pdg) : R :=
  (sdegR env c * sdegR env d) / (sdegR env a * sdegR env b) *
  ((1 + same a b) / (1 + same c d)) *
  (pcm2 (sqrts env ^ 2) (mass env c) (mass env d) / (pcm env * intRK env a)).

(** KaonNucleonRatios: initialize, parametrizations.cc:675-740: for each incoming pair the
    two outgoing pairs. *)
Definition ratio_rows : list ((pdg * pdg) * ((pdg * pdg) * (pdg * pdg))) :=
  [((w_p, w_Kp), ((w_Kz, w_Dpp), (w_Kp, w_Dp)));
   ((w_n, w_Kp), ((w_Kz, w_Dp), (w_Kp, w_Dz)));
   ((w_p, w_Kz), ((w_Kz, w_Dp), (w_Kp, w_Dz)));
   ((w_n, w_Kz), ((w_Kz, w_Dz), (w_Kp, w_Dm)))].

Definition add_to_ratios (env : xenv) (a b c d c' d' : pdg) : (Z * Z) * R :=
  ((pack (code a) (code b), pack (code c) (code d)),
   cg2 env a b c d / (cg2 env a b c d + cg2 env a b c' d')).

Definition ratios (env : xenv) : list ((Z * Z) * R) :=
  flat_map (fun r => let '((a, b), ((c1, d1), (c2, d2))) := r in
                     [add_to_ratios env a b c1 d1 c2 d2; add_to_ratios env a b c2 d2 c1 d1])
           ratio_rows.

Fixpoint rfind (l : list ((Z * Z) * R)) (k : Z * Z) : option R :=
  match l with
  | [] => None
  | ((x, y), v) :: l' => if ((x =? fst k) && (y =? snd k))%Z then Some v else rfind l' k
  end.

(** get_ratio, parametrizations.cc:742-766: [flip] is the sign of the (anti)nucleons *)
Definition flip_of (l : list pdg) : Z :=
  fold_left (fun f w => if is_nucleon w && (f =? 0)%Z then asign w else f) l 0%Z.
Definition get_ratio (env : xenv) (a b c d : pdg) : res R :=
  let f := flip_of [a; b; c; d] in
  match rfind (ratios env) (pack (code a * f) (code b * f), pack (code c * f) (code d * f)) with
  | Some v => Ok v
  | None => Throw E_out_of_range
  end.

(** npi_yk, crosssections.cc:546-774 *)
Fixpoint collect (f : entry -> res (list xch)) (l : list entry) : res (list xch) :=
  match l with
  | [] => Ok []
  | e :: l' => x <- f e ;; y <- collect f l' ;; Ok (x ++ y)
  end.
Definition npi_yk (env : xenv) (a b : pdg) : res (list xch) :=
  let '(n, p) := pick is_nucleon a b in
  collect (fun e => add_channel env (Ok (value env (e_terms e))) (e_out1 e) (e_out2 e))
          (lookup npi_table n p).

(** Switches: Strangeness_exchange, KN_to_KN, KN_to_KDelta of included_2to2 *)
Record incl := Incl { i_SE : bool; i_KN : bool; i_KD : bool }.

(** nk_xx, crosssections.cc:1280-1782: K N -> K Delta only below the cutoff *)
Definition nk_on (env : xenv) (i : incl) (koff : R) (a b : pdg) (g : grp) : bool :=
  match g with
  | AL => true
  | SE => i_SE i
  | KN => i_KN i
  | KD => i_KD i && (if Rlt_dec (sqrts env) (koff + mass env a + mass env b) then true else false)
  end.
Definition nk_value (env : xenv) (n k : pdg) (e : entry) : res R :=
  match e_grp e with
  | KD => r <- get_ratio env n k (e_out1 e) (e_out2 e) ;; Ok (value env (e_terms e) * r)
  | _ => Ok (value env (e_terms e))
  end.
Definition nk_xx (env : xenv) (i : incl) (koff : R) (a b : pdg) : res (list xch) :=
  let '(n, k) := pick is_nucleon a b in
  collect (fun e => if nk_on env i koff a b (e_grp e)
                    then add_channel env (nk_value env n k e) (e_out1 e) (e_out2 e) else Ok [])
          (lookup nk_table k n).

(** deltak_xx, crosssections.cc:1784-1933 *)
Definition deltak_value (env : xenv) (d k : pdg) (e : entry) : res R :=
  r <- get_ratio env (e_out1 e) (e_out2 e) k d ;;
  Ok (db_RK env d k (e_out1 e) (e_out2 e) * r * value env (e_terms e)).
Definition deltak_xx (env : xenv) (i : incl) (a b : pdg) : res (list xch) :=
  if i_KD i then
    let '(d, k) := pick is_Delta a b in
    collect (fun e => add_channel env (deltak_value env d k e) (e_out1 e) (e_out2 e))
            (lookup deltak_table d k)
  else Ok [].

(** ypi_xx, crosssections.cc:1935-2297 *)
Definition ypi_value (env : xenv) (y p : pdg) (e : entry) : res R :=
  Ok (db_stable env y p (e_out1 e) (e_out2 e) * value env (e_terms e)).
Definition ypi_xx (env : xenv) (i : incl) (a b : pdg) : res (list xch) :=
  if i_SE i then
    let '(y, p) := pick is_hyperon a b in
    collect (fun e => add_channel env (ypi_value env y p e) (e_out1 e) (e_out2 e))
            (lookup ypi_table y p)
  else Ok [].

(** two_to_one, crosssections.cc:871-898, and list_possible_resonances,
    particletype.cc:776-828: a resonance is a candidate if it is unstable, differs from the
    incoming species, has their charge, baryon number and strangeness, and has a decay mode
    into them ([decays_to]).  The cross section [xs] of formation() is opaque here. *)
Definition possible_resonances (all : list pdg) (stable : pdg -> bool)
    (decays_to : pdg -> pdg -> pdg -> bool) (a b : pdg) : list pdg :=
  filter (fun r => negb (stable r) && negb (r =? a)%Z && negb (r =? b)%Z
                   && (charge r =? charge a + charge b)%Z
                   && (baryon_number r =? baryon_number a + baryon_number b)%Z
                   && (strangeness r =? strangeness a + strangeness b)%Z
                   && decays_to r a b) all.
Definition two_to_one (cand : list pdg) (xs : pdg -> R) : list xch :=
  flat_map (fun r => if Rlt_dec really_small (xs r) then [XCh [r] (xs r)] else []) cand.

(** two_to_three, crosssections.cc:983-1036; the value of two_to_three_xs is opaque *)
Definition two_to_three (xs : R) (a b : pdg) : list xch :=
  (if (is_deuteron a && is_pion b) || (is_deuteron b && is_pion a) then
     let p := if is_pion a then a else b in
     let d := if is_nucleus a then a else b in
     if (0 <? baryon_number d)%Z then [XCh [p; w_p; w_n] xs]
     else [XCh [p; anti w_p; anti w_n] xs]
   else []) ++
  (if (is_nucleon a && is_deuteron b) || (is_nucleon b && is_deuteron a) then
     let n := if is_nucleon a then a else b in
     let d := if is_deuteron a then a else b in
     if (0 <? baryon_number d)%Z then [XCh [n; w_p; w_n] xs]
     else [XCh [n; anti w_p; anti w_n] xs]
   else []).

(** two_to_four, crosssections.cc:1038-1088; [known]: try_find finds the species;
    [enough]: the comparison of sqrt_s with the masses *)
Definition components (w : pdg) : list pdg :=
  repeat w_p (Z.to_nat (nucleus_p w)) ++ repeat w_n (Z.to_nat (nucleus_n w)) ++
  repeat (anti w_p) (Z.to_nat (nucleus_ap w)) ++ repeat (anti w_n) (Z.to_nat (nucleus_an w)) ++
  repeat w_La (Z.to_nat (nucleus_La w)) ++ repeat (anti w_La) (Z.to_nat (nucleus_aLa w)).
Definition two_to_four (known : pdg -> bool) (enough : list pdg -> bool) (xs : R) (a b : pdg) : res (list xch) :=
  let '(n, c) := pick is_nucleus a b in
  if is_nucleus n && (Z.abs (baryon_number n) =? 3)%Z && (is_pion c || is_nucleon c) then
    match components n with
    | x :: y :: z :: _ =>
        if known x && known y && known z then
          Ok (if enough [c; x; y; z] then [XCh [c; x; y; z] xs] else [])
        else UB UB_oob   (* null pointer dereferenced *)
    | _ => UB UB_oob
    end
  else Ok [].

(** dn_xx, crosssections.cc:2459-2487; list_light_nuclei are the nuclei of the particle
    list, particletype.cc:358-362 *)
Definition dn_xx (on : bool) (nuclei : list pdg) (xs : pdg -> R) (a b : pdg) : list xch :=
  let n := if is_nucleon a then a else b in
  let d := if is_nucleus a then a else b in
  if on then
    map (fun q => XCh [n; q] (xs q))
        (filter (fun q => negb (q =? d)%Z && (charge q =? charge d)%Z
                          && (baryon_number q =? baryon_number d)%Z) nuclei)
  else [].

(** dpi_xx, second part, crosssections.cc:2388-2418 *)
Definition dpi_dprime (on : bool) (nuclei : list pdg) (xs : pdg -> R) (a b : pdg) : list xch :=
  let isd w := is_deuteron w || is_dprime w in
  if ((isd a && is_pion b) || (isd b && is_pion a)) && on then
    let p := if is_pion a then a else b in
    let d := if is_nucleus a then a else b in
    map (fun q => XCh [p; q] (xs q))
        (filter (fun q => negb (q =? d)%Z && (charge q =? charge d)%Z
                          && (baryon_number q =? baryon_number d)%Z) nuclei)
  else [].

(** Further data of the species, for the channels with baryon resonances *)
Record renv := REnv {
  base : xenv;
  iso : pdg -> Z;                    (* isospin(): twice the isospin of the multiplet *)
  mult : pdg -> Z;                   (* identifies the multiplet *)
  width : pdg -> R;
  minkin : pdg -> R;                 (* min_mass_kinematic *)
  cg2I : pdg -> pdg -> pdg -> pdg -> Z -> R; (* isospin_clebsch_gordan_sqr_2to2 with total isospin *)
  integral : pdg -> pdg -> R         (* get_integral_NR, get_integral_RR or pCM *)
}.

(** particletype.h:231-246 *)
Definition is_Nstar (e : renv) (w : pdg) : bool :=
  is_baryon w && (iso e w =? 1)%Z && negb (is_nucleon w) && (strangeness w =? 0)%Z && (charmness w =? 0)%Z.
Definition is_Deltastar (e : renv) (w : pdg) : bool :=
  is_baryon w && (iso e w =? 3)%Z && negb (is_Delta w) && (strangeness w =? 0)%Z && (charmness w =? 0)%Z.

(** nn_to_resonance_matrix_element, crosssections.cc:2852-2937 *)
Definition one_each (f g : pdg -> bool) (a b : pdg) : bool := (f a && g b) || (f b && g a).
Definition matrix_element (e : renv) (a b : pdg) (twoI : Z) : R :=
  let ma := mass (base e) a in
  let mb := mass (base e) b in
  let msqr := 2 * (ma * ma + mb * mb) in
  let sq := sqrts (base e) in
  if Rlt_dec (ma + mb + 3 * (width e a + width e b) + 3) sq then 0
  else let same_sign := (asign a =? asign b)%Z in
  if one_each is_Delta is_nucleon a b && same_sign then 68 / Rpower (sq - 1104 / 1000) (1951 / 1000)
  else if one_each (is_Nstar e) is_nucleon a b && same_sign then
    if (twoI =? 2)%Z then 45 / 10 / msqr
    else if (twoI =? 0)%Z then
      if is_Nstar1535 a || is_Nstar1535 b then 65 / 10 * (14 / msqr) else 14 / msqr
    else 0
  else if one_each (is_Deltastar e) is_nucleon a b && same_sign then 15 / msqr
  else if is_Delta a && is_Delta b && same_sign then
    if (twoI =? 2)%Z then 45 / msqr else if (twoI =? 0)%Z then 120 / msqr else 0
  else if one_each (is_Nstar e) is_Delta a b && same_sign then 7 / msqr
  else if one_each (is_Deltastar e) is_Delta a b && same_sign then
    if (twoI =? 2)%Z then 15 / msqr else if (twoI =? 0)%Z then 25 / msqr else 0
  else if one_each is_deuteron is_pion a b then
    55 / 1000 / ((sq - 2145 / 1000) ^ 2 + (65 / 1000) ^ 2) * (1 - exp (- (sq - 2) * 20))
  else 0.

(** I_tot_range(a, b), clebschgordan.h:82-87, and its iterator, 115-165: from the largest
    total isospin down in steps of two (twice the isospin) *)
Definition Irange (e : renv) (a b : pdg) : list Z :=
  let imax := (iso e a + iso e b)%Z in
  let imin := Z.max (Z.abs (iso e a - iso e b)) (Z.abs (isospin3 a + isospin3 b)) in
  map (fun k => (imax - 2 * Z.of_nat k)%Z) (seq 0 (Z.to_nat ((imax - imin + 2) / 2))).

(** find_nn_xsection_from_type, crosssections.cc:2939-3012 *)
Definition nn_xs (e : renv) (a b r1 r2 : pdg) (twoI : Z) : R :=
  cg2I e a b r1 r2 twoI * (sdegR (base e) r1 * sdegR (base e) r2) * matrix_element e r1 r2 twoI *
  integral e r1 r2 / (sqrts (base e) ^ 2 * pcm (base e)).
Definition nn_channel (e : renv) (a b r1 r2 : pdg) (twoI : Z) : list xch :=
  if Rlt_dec (Rabs (cg2I e a b r1 r2 twoI)) really_small then []
  else if Rlt_dec (sqrts (base e) - mass (base e) r2 - minkin e r1) (1 / 1000) then []
  else if Rle_dec (matrix_element e r1 r2 twoI) 0 then []
  else if Rlt_dec really_small (nn_xs e a b r1 r2 twoI)
       then [XCh [r1; r2] (nn_xs e a b r1 r2 twoI)] else [].
Definition find_nn (e : renv) (l1 l2 : list pdg) (a b : pdg) : list xch :=
  flat_map (fun r1 => flat_map (fun r2 =>
    if (charge r1 + charge r2 =? charge a + charge b)%Z
    then flat_map (nn_channel e a b r1 r2) (Irange e a b) else []) l2) l1.

(** The lists of the particle types, particletype.cc:330-356: [baryon_resonances] has each
    unstable type of baryon number one and its antiparticle. *)
Definition baryon_resonances (all : list pdg) (stable : pdg -> bool) : list pdg :=
  flat_map (fun w => if stable w || negb (baryon_number w =? 1)%Z then []
                     else [w; get_antiparticle w]) all.
Definition nucleons : list pdg := [w_n; w_p].
Definition deltas : list pdg := [w_Dm; w_Dz; w_Dp; w_Dpp].

(** nn_xx, crosssections.cc:1208-1278: three groups of reactions *)
Definition nn_xx (e : renv) (nr dr dpi : bool) (resonances : list pdg) (a b : pdg) : list xch :=
  let bothanti := (asign a =? -1)%Z && (asign b =? -1)%Z in
  let sgn l := if bothanti then map get_antiparticle l else l in
  (if nr then find_nn e resonances (sgn nucleons) a b else []) ++
  (if dr then find_nn e resonances (sgn deltas) a b else []) ++
  (if dpi then find_nn e [if bothanti then w_ad else w_d] [w_pim; w_piz; w_pip] a b else []).

(** bar_bar_to_nuc_nuc, crosssections.cc:2786-2850, and the first part of dpi_xx,
    crosssections.cc:2338-2386, which has the same loop *)
Definition absorb_xs (e : renv) (a b n1 n2 : pdg) (twoI : Z) (pf : R) : R :=
  cg2I e a b n1 n2 twoI * (sdegR (base e) n1 * sdegR (base e) n2) *
  (if (mult e a =? mult e b)%Z then 2 else 1) / (if (mult e n1 =? mult e n2)%Z then 2 else 1) * pf *
  matrix_element e a b twoI / (sqrts (base e) ^ 2 * pcm (base e)).
Definition absorb_channel (e : renv) (pf : pdg -> pdg -> R) (a b n1 n2 : pdg) (twoI : Z) : list xch :=
  if Rlt_dec (Rabs (cg2I e a b n1 n2 twoI)) really_small then []
  else if Rle_dec (matrix_element e a b twoI) 0 then []
  else if Rlt_dec really_small (absorb_xs e a b n1 n2 twoI (pf n1 n2))
       then [XCh [n1; n2] (absorb_xs e a b n1 n2 twoI (pf n1 n2))] else [].
Definition absorb (e : renv) (pf : pdg -> pdg -> R) (l : list pdg) (a b : pdg) : list xch :=
  flat_map (fun n1 => flat_map (fun n2 =>
    if (charge a + charge b =? charge n1 + charge n2)%Z
    then flat_map (absorb_channel e pf a b n1 n2) (Irange e n1 n2) else []) l) l.
Definition bar_bar_to_nuc_nuc (e : renv) (mN : R) (antis : bool) (a b : pdg) : list xch :=
  absorb e (fun _ _ => sqrt (sqrts (base e) ^ 2 - 4 * mN * mN) / 2)
         (if antis then map get_antiparticle nucleons else nucleons) a b.
Definition dpi_nn (e : renv) (on : bool) (a b : pdg) : list xch :=
  if (one_each is_deuteron is_pion a b) && on then
    absorb e (fun n1 n2 => pcm_of (sqrts (base e) ^ 2) (mass (base e) n1) (mass (base e) n2))
           (if (0 <? baryon_number a + baryon_number b)%Z then nucleons
            else map get_antiparticle nucleons) a b
  else [].

(** bb_xx_except_nn, crosssections.cc:1181-1206 *)
Definition bb_xx_except_nn (e : renv) (mN : R) (nr dr : bool) (a b : pdg) : list xch :=
  if negb (asign a =? asign b)%Z && negb (is_nucleus a || is_nucleus b) then []
  else if is_nucleon a || is_nucleon b then
    if nr then bar_bar_to_nuc_nuc e mN (asign a =? -1)%Z a b else []
  else if is_Delta a || is_Delta b then
    if dr then bar_bar_to_nuc_nuc e mN (asign a =? -1)%Z a b else []
  else [].

(** NNbar_to_5pi, NNbar_annihilation and NNbar_creation, crosssections.cc:2724-2784; the
    factor of NNbar_creation is opaque ([xs]) *)
Definition nnbar_to_5pi (env : xenv) (scale : R) : xch :=
  XCh [w_pip; w_pim; w_pip; w_pim; w_piz] (Rmax 0 (sigma env PPbar_tot - sigma env PPbar_el) * scale).
Definition nnbar_annihilation (env : xenv) (current scale : R) : xch :=
  XCh [w_h1; w_rhoz] (Rmax 0 (sigma env PPbar_tot * scale - current)).
Definition nnbar_creation (xs : R) (enough : bool) (a b : pdg) : list xch :=
  if ((a =? w_rhoz) && (b =? w_h1) || (a =? w_h1) && (b =? w_rhoz))%Z then
    if enough then [XCh [w_p; anti w_p] xs; XCh [w_n; anti w_n] xs] else []
  else [].

(** npi_el, crosssections.cc:463-544, nk_el, crosssections.cc:776-869 (with the backgrounds
    of K0 and Kbar0 written out, parametrizations.cc:620-638): the parametrisation, with
    factors in halves.  A value that is not positive throws. *)
Definition npi_el_table : list ((pdg * pdg) * list (Z * par)) :=
  [((w_p, w_pip), [(2, PipP_el)]); ((w_p, w_pim), [(2, PimP_el)]);
   ((w_p, w_piz), [(1, PipP_el); (1, PimP_el)]);
   ((w_n, w_pip), [(2, PimP_el)]); ((w_n, w_pim), [(2, PipP_el)]);
   ((w_n, w_piz), [(1, PipP_el); (1, PimP_el)]);
   ((anti w_p, w_pip), [(2, PimP_el)]); ((anti w_p, w_pim), [(2, PipP_el)]);
   ((anti w_p, w_piz), [(1, PipP_el); (1, PimP_el)]);
   ((anti w_n, w_pip), [(2, PipP_el)]); ((anti w_n, w_pim), [(2, PimP_el)]);
   ((anti w_n, w_piz), [(1, PipP_el); (1, PimP_el)])]%Z.
Definition nk_el_table : list ((pdg * pdg) * list (Z * par)) :=
  [((w_p, w_Kp), [(2, KpP_el)]); ((w_p, w_Km), [(2, KmP_el)]);
   ((w_p, w_Kz), [(2, KpN_el)]); ((w_p, w_Kbz), [(2, KmN_el)]);
   ((w_n, w_Kp), [(2, KpN_el)]); ((w_n, w_Km), [(2, KmN_el)]);
   ((w_n, w_Kz), [(2, KpP_el)]); ((w_n, w_Kbz), [(2, KmP_el)]);
   ((anti w_p, w_Kp), [(2, KmP_el)]); ((anti w_p, w_Km), [(2, KpP_el)]);
   ((anti w_p, w_Kz), [(2, KmN_el)]); ((anti w_p, w_Kbz), [(2, KpN_el)]);
   ((anti w_n, w_Kp), [(2, KmN_el)]); ((anti w_n, w_Km), [(2, KpN_el)]);
   ((anti w_n, w_Kz), [(2, KmP_el)]); ((anti w_n, w_Kbz), [(2, KpP_el)])]%Z.
Fixpoint elook (t : list ((pdg * pdg) * list (Z * par))) (x y : pdg) : list (Z * par) :=
  match t with
  | [] => []
  | ((a, b), l) :: t' => if ((a =? x) && (b =? y))%Z then l else elook t' x y
  end.
Definition el_value (env : xenv) (t : list ((pdg * pdg) * list (Z * par))) (a b : pdg) : res R :=
  let '(n, m) := pick is_nucleon a b in
  let v := value env (elook t n m) in
  if Rlt_dec 0 v then Ok v else Throw E_runtime.

(** parametrized_total, crosssections.cc:224-323; [aqm] is AQM_scaling_factor.  The total
    before the additional elastic part and the scaling factor. *)
Definition pick_meson (a b : pdg) : pdg * pdg := if is_meson a then (a, b) else (b, a).
Definition mb_is (m b : pdg) (l : list (Z * Z)) : bool :=
  existsb (fun p => (code m =? fst p)%Z && (code b =? snd p)%Z) l.
Definition parametrized_total (env : xenv) (cut : R) (aqm : pdg -> R) (a b : pdg) : R :=
  if is_baryon a && is_baryon b && (if Rlt_dec cut (sqrts env) then true else false) then
    (if (asign a =? asign b)%Z
     then (if (a =? b)%Z then sigma env PP_tot else sigma env NP_tot)
     else sigma env PPbar_tot) * (aqm a * aqm b)
  else if (is_baryon a && is_meson b) || (is_meson a && is_baryon b) then
    let '(m, n) := pick_meson a b in
    if is_kaon m && is_nucleon n then
      if mb_is m n [(0x321, 0x2212); (0x311, 0x2112); (-0x321, -0x2212); (-0x311, -0x2112)]%Z
      then sigma env KpP_tot
      else if mb_is m n [(0x321, -0x2212); (0x311, -0x2112); (-0x321, 0x2212); (-0x311, 0x2112)]%Z
      then sigma env KmP_tot
      else if mb_is m n [(0x321, 0x2112); (0x311, 0x2212); (-0x321, -0x2112); (-0x311, -0x2212)]%Z
      then sigma env KpN_tot
      else if mb_is m n [(0x321, -0x2112); (0x311, -0x2212); (-0x321, 0x2112); (-0x311, 0x2212)]%Z
      then sigma env KmN_tot
      else 0
    else if is_pion m && is_nucleon n then
      if mb_is m n [(0x211, 0x2212); (0x211, -0x2112); (-0x211, 0x2112); (-0x211, -0x2212)]%Z
      then sigma env PipP_tot
      else if (code m =? 0x111)%Z then 1 / 2 * (sigma env PipP_tot + sigma env PimP_tot)
      else sigma env PimP_tot
    else sigma env PimP_he * (aqm a * aqm b)
  else if is_meson a && is_meson b then
    if is_pion a && is_pion b then
      (let k := Z.quot (isospin3 a * isospin3 b) 4 in
       if (k =? -1)%Z then sigma env PipPim_tot
       else if (k =? 0)%Z then
         if (isospin3 a + isospin3 b =? 0)%Z then sigma env PizPiz_tot else sigma env PipPim_tot
       else 2 / 3 * sigma env PimP_he)
    else 2 / 3 * sigma env PimP_he * (aqm a * aqm b)
  else 0.

(** probability_transit_high, crosssections.cc:3109-3126: with the two ends of the region
    equal and the energy on them the quotient is 0/0. *)
Definition transit (sq lo hi : R) : res R :=
  if Rlt_dec sq lo then Ok 0
  else if Rlt_dec hi sq then Ok 1
  else if Req_EM_T hi lo then UB UB_div_zero
  else Ok (1 / 2 * (sin (PI * ((sq - 1 / 2 * (lo + hi)) / (hi - lo))) + 1)).

(** high_energy, crosssections.cc:2629-2695; [probh] is the transition probability *)
Definition high_energy (env : xenv) (probh : R) (aqm : pdg -> R) (a b : pdg) : R :=
  let x0 :=
    if is_baryon a && is_baryon b then
      if (a =? b)%Z then sigma env PP_he
      else if (asign a * asign b =? 1)%Z then sigma env NP_he
      else let h := if (b =? get_antiparticle a)%Z then sigma env PPbar_he else sigma env NPbar_he in
           sigma env PPbar_tot * (1 - probh) + h * probh
    else 0 in
  let is2 (x y : pdg) := ((a =? x) && (b =? y) || (b =? x) && (a =? y))%Z in
  let x1 :=
    if is2 w_pip w_p || is2 w_pim w_n then sigma env PipP_he
    else if is2 w_pim w_p || is2 w_pip w_n then sigma env PimP_he
    else if (is_meson a && is_baryon b) || (is_meson b && is_baryon a) then sigma env PimP_he
    else x0 in
  let x2 := if is_meson a && is_meson b then 2 / 3 * sigma env PipP_he else x1 in
  x2 * (aqm a * aqm b).

(** Settings of the transition to strings, scatteractionsfinderparameters.h *)
Record strpar := StrPar {
  s_switch : bool; s_prob : bool; s_bbbar : bool (* NNbar_treatment: strings *); s_aqm : bool;
  s_add_lower : R; s_KN : R; s_pipi : R; s_width : R;
  s_NN : R * R; s_Npi : R * R }.

(** string_probability, crosssections.cc:3014-3107 *)
Definition is_KplusP (a b : pdg) : bool :=
  let one x y := (((x =? w_Kp) || (x =? w_Kz)) && (y =? w_p))%Z in
  let anti1 x y := (((x =? w_Km) || (x =? w_Kbz)) && (y =? anti w_p))%Z in
  one a b || one b a || anti1 a b || anti1 b a.
Definition string_probability (sp : strpar) (sq : R) (mass : pdg -> R) (a b : pdg) : res R :=
  if negb (s_switch sp) then Ok 0 else
  let bbpair := is_baryon a && is_baryon b && (asign a =? - asign b)%Z in
  let nnpair := is_nucleon a && (b =? get_antiparticle a)%Z in
  let nn := is_nucleon a && is_nucleon b && (asign a =? asign b)%Z in
  let bb := (s_bbbar sp && bbpair && s_aqm sp) ||
            (is_nucleon a && is_nucleon b && negb (asign a =? asign b)%Z) in
  let npi := (is_pion a && is_nucleon b) || (is_nucleon a && is_pion b) in
  let aq := s_aqm sp && ((is_baryon a && is_baryon b && (asign a =? asign b)%Z) ||
                         (is_baryon a && is_meson b) || (is_baryon b && is_meson a) ||
                         (is_meson a && is_meson b)) in
  if negb nn && negb bb && negb npi && negb aq then Ok 0
  else if nnpair && negb (s_bbbar sp) then Ok 0
  else if bb then Ok 1
  else
    let off := if is_KplusP a b then s_KN sp
               else if is_pion a && is_pion b then s_pipi sp else s_add_lower sp in
    let ms := mass a + mass b in
    if negb (s_prob sp) then Ok (if Rlt_dec (ms + off) sq then 1 else 0)
    else
      let '(lo, hi) := if npi then s_Npi sp else if nn then s_NN sp
                       else (ms + off, ms + off + s_width sp) in
      if Rlt_dec hi sq then Ok 1 else if Rlt_dec sq lo then Ok 0 else transit sq lo hi.

(** string_excitation, crosssections.cc:2489-2627, from the parametrised cross sections
    (already multiplied by the additive-quark-model factor): the sub-processes and their
    weights. *)
Inductive strproc := SoftAX | SoftXB | SoftXX | SoftND | SoftAnn | HardND.
Definition string_excitation (tot : R) (can_ann : bool) (ann_param ax xb dd hard : R)
  : res (list (strproc * R)) :=
  if Rle_dec tot 0 then Ok [] else
  let ann := if can_ann then Rmin tot ann_param else 0 in
  let single := ax + xb in
  let nd := Rmax 0 (tot - ann - (single + dd)) in
  let diff := tot - ann - nd in
  let dd' := Rmax 0 (diff - single) in
  if Req_EM_T single 0 then UB UB_div_zero else
  let r := (diff - dd') / single in
  let soft := if Rlt_dec 0 nd then nd * exp (- hard / nd) else 0 in
  let hd := if Rlt_dec 0 nd then nd - soft else 0 in
  Ok ((if Rlt_dec 0 (tot - hd)
       then [(SoftAX, ax * r); (SoftXB, xb * r); (SoftXX, dd'); (SoftND, soft)] ++
            (if can_ann then [(SoftAnn, ann)] else [])
       else []) ++
      (if Rlt_dec 0 hd then [(HardND, hd)] else [])).

(** generate_collision_list, crosssections.cc:132-222: the weights of the channels, given
    the weights of the parts. *)
Inductive nnbar_treatment := NNbar_no | NNbar_resonances | NNbar_five | NNbar_strings.
Record parts := Parts {
  g_p : R;                      (* string probability *)
  g_scale : R;
  g_elastic : option R;         (* None: elastic channels excluded or below the cutoff *)
  g_core_differs : bool;        (* one particle is in the core, the other is not *)
  g_HE : R;                     (* high_energy *)
  g_strings : R -> list R;      (* string_excitation of a total *)
  g_rare : list R; g_21 : list R; g_22 : list R; g_23 : list R; g_24 : list R; (* [] when off *)
  g_treat : nnbar_treatment; g_nnbar : bool;
  g_ppbar_tot : R; g_ppbar_el : R;
  g_creation : list R }.
Definition rsum (l : list R) : R := fold_right Rplus 0 l.
Definition collision_list (g : parts) : list R :=
  let el := match g_elastic g with Some x => [x] | None => [] end in
  if g_core_differs g then el else
  let str := if Rlt_dec 0 (g_p g) then
      map (fun x => x * g_p g) (g_strings g (Rmax 0 (g_scale g * g_HE g - rsum el))) ++
      map (fun x => x * (g_p g * g_scale g)) (g_rare g)
    else [] in
  let low := if Rlt_dec (g_p g) 1 then
      map (fun x => x * ((1 - g_p g) * g_scale g)) (g_21 g ++ g_22 g ++ g_23 g ++ g_24 g)
    else [] in
  let l := el ++ str ++ low in
  match g_treat g with
  | NNbar_five => if g_nnbar g
      then l ++ [Rmax 0 (g_ppbar_tot g - g_ppbar_el g) * g_scale g] else l
  | NNbar_resonances => if g_nnbar g
      then l ++ [Rmax 0 (g_ppbar_tot g * g_scale g - rsum l)]
      else l ++ map (fun x => x * g_scale g) (g_creation g)
  | _ => l
  end.
