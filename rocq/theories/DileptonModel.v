(** Dilepton production by shining: src/decayactionsfinderdilepton.cc, src/decayactiondilepton.cc,
    src/include/smash/experiment.h. Doubles are exact reals, random draws are arguments. No potentials and no
    core particles (is_core is an argument where it occurs). *)
From Coq Require Import ZArith Reals List Bool.
From Verif Require Import Base VecModel MotionModel WidthModel DecayFindModel.
Import ListNotations.
Open Scope R_scope.

(** shine, decayactionsfinderdilepton.cc:18-58, for one particle of the list: the modes written to the output
    and their shining weights *)
Definition shine_one (power dt : R) (t : ptype) (core : bool) (p : particle) : list (mode * R) :=
  let n_all := length (get_partial_widths t (mom p) All) in
  if (n_all =? 0)%nat then [] else
  let dil := get_partial_widths t (mom p) Dileptons in
  if ((length dil =? n_all)%nat || is_stable t || core) then [] else
  filter (fun d => rltb 0 (snd d))
    (map (fun d => (fst d, dt * inverse_gamma p * snd d * xsec_scaling_factor power p 0 / hbarc)) dil).
(** shine_final, decayactionsfinderdilepton.cc:60-90, for one particle *)
Definition shine_final_one (only_res : bool) (t : ptype) (p : vec4) : list (mode * R) :=
  if (match tmodes t with [] => true | _ => false end) || (only_res && is_stable t) then [] else
  let dil := get_partial_widths t p Dileptons in
  let width_tot := total_weight (get_partial_widths t p All) in
  filter (fun d => rltb 0 (snd d)) (map (fun d => (fst d, snd d / width_tot)) dil).
Definition shine_list (only_res : bool) (tab : nat -> ptype) (ps : list fpart) : list (fpart * list (mode * R)) :=
  map (fun p => (p, shine_final_one only_res (tab (pty p)) (pmom p))) ps.
(** do_final_interactions, experiment.h:3020-3065, for one ensemble and one dilepton output: the loop of
    DecayFindModel.final_loop with what is shone before each pass, and the shining after it. Returns the
    particles left and everything shone. *)
Fixpoint shine_loop (f : dfinder) (tab : nat -> ptype) (dr : nat -> nat -> draw) (k fuel : nat) (ps : list fpart) :
  option (res (list fpart * list (fpart * list (mode * R)))) :=
  match fuel with
  | O => None
  | S fuel' =>
    let s := shine_list true tab ps in
    match pass f tab (dr k) 0 ps with
    | Ok (ps', n) =>
      if (n =? 0)%nat then Some (Ok (ps', s))
      else match shine_loop f tab dr (S k) fuel' ps' with
           | Some (Ok (q, s')) => Some (Ok (q, s ++ s'))
           | o => o
           end
    | Throw e => Some (Throw e)
    | UB b => Some (UB b)
    end
  end.
Definition shine_event (f : dfinder) (tab : nat -> ptype) (dr : nat -> nat -> draw) (fuel : nat) (ps : list fpart) :
  option (res (list fpart * list (fpart * list (mode * R)))) :=
  match shine_loop f tab dr 0 fuel ps with
  | Some (Ok (q, s)) => Some (Ok (q, s ++ shine_list false tab q))
  | o => o
  end.

(** ** Dalitz decays *)
(** a product: whether it is a lepton and its pole mass *)
Record product := Prod { lepton : bool; pole : R }.
(** sample_manybody_phasespace, decayactiondilepton.cc:21-90: [x] in [0, 1) gives the dilepton mass
    (random::uniform), [n1] and [n2] are the unit vectors drawn, [M] is the invariant mass of the mother.
    Returns the dilepton mass and the three momenta in the order of the products, in the rest frame of the mother.
    The branching factor is left out. *)
Definition non_lepton_position (out : list product) : option nat :=
  if negb (lepton (nth 0 out (Prod true 0))) then Some 0%nat
  else if negb (lepton (nth 1 out (Prod true 0))) then Some 1%nat
  else if negb (lepton (nth 2 out (Prod true 0))) then Some 2%nat else None.
Definition place (i : nat) (a b c : vec4) : list vec4 :=
  upd (Nat.modulo (i + 2) 3) c (upd (Nat.modulo (i + 1) 3) b (upd i a [zero4; zero4; zero4])).
Definition dalitz (out : list product) (M x : R) (n1 n2 : vec3) : res (R * list vec4) :=
  if negb (length out =? 3)%nat then Throw E_runtime else
  match non_lepton_position out with
  | None => Throw E_runtime
  | Some i =>
    let mass_nl := pole (nth i out (Prod true 0)) in
    let mass_l1 := pole (nth (Nat.modulo (i + 1) 3) out (Prod true 0)) in
    let mass_l2 := pole (nth (Nat.modulo (i + 2) 3) out (Prod true 0)) in
    let lo := mass_l1 + mass_l2 in
    let dil_mass := lo + x * (M - mass_nl - lo) in
    let dil_mom := pCM M dil_mass mass_nl in
    let dil_4mom := mk4 (sqrt (dil_mass * dil_mass + dil_mom * dil_mom)) (scale3 dil_mom n1) in
    let nl := on_shell mass_nl (scale3 dil_mom (neg3 n1)) in
    let mom_lep := pCM dil_mass mass_l1 mass_l2 in
    let l1 := on_shell mass_l1 (scale3 mom_lep n2) in
    let l2 := on_shell mass_l2 (scale3 mom_lep (neg3 n2)) in
    let v := neg3 (velocity dil_4mom) in
    Ok (dil_mass, place i nl (boost v l1) (boost v l2))
  end.
