(** Decay widths: src/include/smash/formfactors.h, src/decaytype.cc, src/particletype.cc.
    Doubles are exact reals. The tabulated phase-space integrals of decays with unstable daughters
    are arguments; the three-body dilepton (Dalitz) widths, which are numerical integrals as well, are
    not modelled. *)
From Coq Require Import ZArith Reals List Bool.
From Verif Require Import Base VecModel.
Import ListNotations.
Open Scope R_scope.

(** constants.h:29 [GeV fm] *)
Definition hbarc : R := 197327053 / 1000000000.

(** std::complex<double> (the part used) *)
Definition cplx : Type := (R * R)%type.
Definition cnorm (z : cplx) : R := fst z * fst z + snd z * snd z.
Definition cscale (k : R) (z : cplx) : cplx := (k * fst z, k * snd z).
Definition csub (a b : cplx) : cplx := (fst a - fst b, snd a - snd b).

(** the loop of blatt_weisskopf_sqr, formfactors.h:49-55: [n] rounds starting with l;
    returns numer and g_prev *)
Fixpoint bw_loop (x2 : R) (n : nat) (l : Z) (numer : R) (g_prevprev g_prev : cplx) : R * cplx :=
  match n with
  | O => (numer, g_prev)
  | S n' => bw_loop x2 n' (l + 1)%Z (numer * x2) g_prev (csub (cscale (IZR (2 * l + 1)) g_prev) (cscale x2 g_prevprev))
  end.
(** blatt_weisskopf_sqr, formfactors.h:36-58; int L *)
Definition blatt_weisskopf_sqr (p_ab : R) (L : Z) : R :=
  if (L =? 0)%Z then 1 else
  let x := p_ab * (1 / hbarc) in
  let x2 := x * x in
  if (L =? 1)%Z then x2 / (1 + x2) else
  let '(numer, g) := bw_loop x2 (Z.to_nat (L - 1)) 1%Z x2 (1, 0) (1, - x) in
  numer / cnorm g.
(** post_ff_sqr, formfactors.h:80-88 *)
Definition post_ff_sqr (m M0 srts0 L : R) : R :=
  let L4 := L * L * L * L in
  let M2 := M0 * M0 in
  let s0 := srts0 * srts0 in
  let sminus := (s0 - M2) * / 2 in
  let splus := m * m - (s0 + M2) * / 2 in
  let FF := (L4 + sminus * sminus) / (L4 + splus * splus) in
  FF * FF.

(** TwoBodyDecayStable::rho and width, decaytype.cc:81-93; [ma] and [mb] are the masses of the two
    stable daughters, whose sum is the threshold (decaytype.h:107-110). The assertion of line 91 is part
    of the model. *)
Definition rho_stable (ma mb : R) (L : Z) (m : R) : R :=
  let p_ab := pCM m ma mb in p_ab / m * blatt_weisskopf_sqr p_ab L.
Definition width_stable (ma mb : R) (L : Z) (m0 G0 m : R) : res R :=
  if Req_EM_T (rho_stable ma mb L m0) 0 then UB UB_assert
  else if Rle_dec m (ma + mb) then Ok 0 else Ok (G0 * rho_stable ma mb L m / rho_stable ma mb L m0).
(** TwoBodyDecaySemistable::width and TwoBodyDecayUnstable::width, decaytype.cc:165-168 and
    229-231, with the tabulated function, the threshold and the cut-off as arguments. The second one has no
    assertion: dividing by 0 there is an outcome of its own. *)
Definition width_semistable (rho : R -> R) (thr Lambda m0 G0 m : R) : res R :=
  if Req_EM_T (rho m0) 0 then UB UB_assert else Ok (G0 * rho m / rho m0 * post_ff_sqr m m0 thr Lambda).
Definition width_unstable (rho : R -> R) (thr Lambda m0 G0 m : R) : res R :=
  if Req_EM_T (rho m0) 0 then UB UB_div_zero else Ok (G0 * rho m / rho m0 * post_ff_sqr m m0 thr Lambda).
(** in_width of both, decaytype.cc:170-178 and 233-239 *)
Definition in_width_unstable (rho : R -> R) (thr Lambda : R) (L : Z) (m0 G0 m m1 m2 : R) : R :=
  let p_f := pCM m m1 m2 in
  G0 * p_f * blatt_weisskopf_sqr p_f L * post_ff_sqr m m0 thr Lambda / (m * rho m0).
(** the integrand the tabulation of a semistable decay integrates, decaytype.cc:21-34; [A] is the spectral
    function of the unstable daughter *)
Definition integrand_1res (A : R -> R) (stable_mass : R) (L : Z) (sqrts mass : R) : R :=
  if Rle_dec sqrts (mass + stable_mass) then 0 else
  let p_f := pCM sqrts stable_mass mass in p_f / sqrts * blatt_weisskopf_sqr p_f L * A mass.
(** TwoBodyDecayDilepton::width, decaytype.cc:256-267; both leptons have mass ml, threshold 2 ml *)
Definition width_dilepton (ml m0 G0 m : R) : R :=
  if Rle_dec m (ml + ml) then 0 else
  let q := ml / m * (ml / m) in
  let c := m0 / m * (m0 / m) * (m0 / m) in
  G0 * c * sqrt (1 - 4 * q) * (1 + 2 * q).
(** ThreeBodyDecay::width, decaytype.cc:300-302 *)
Definition width_three (m0 G0 m : R) : R := G0.

(** A decay mode: its threshold (processbranch.cc:35-53), its branching ratio, whether it is a dilepton
    mode, its width function DecayType::width(m0, G0, m), the types of the daughters. *)
Record mode := Mode { thr : R; ratio : R; dilepton : bool; wfun : R -> R -> R -> R; daughters : list nat }.
(** what is used of a ParticleType *)
Record ptype := PType { tmass : R; twidth : R; tmodes : list mode }.
Definition width_cutoff : R := / 100000.
(** is_stable, particletype.h:249 *)
Definition is_stable (t : ptype) : bool := rltb (twidth t) width_cutoff.
(** partial_width, particletype.cc:424-431 *)
Definition partial_width (t : ptype) (m : R) (d : mode) : R :=
  if Rlt_dec m (thr d) then 0 else wfun d (tmass t) (twidth t * ratio d) m.
(** total_width, particletype.cc:440-454 *)
Definition total_width (t : ptype) (m : R) : R :=
  if is_stable t then 0 else
  let w := fold_left (fun w d => w + partial_width t m d) (tmodes t) 0 in
  if Rlt_dec w width_cutoff then 0 else w.
