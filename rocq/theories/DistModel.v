(** Model of the distributions and the momentum samplers: /repo/src/distributions.cc, and the sampling loop of
    /repo/src/quantumsampling.cc:252-283. Doubles are exact reals. Every sampler but sample_momenta_IC_ES is a loop
    that draws until a candidate is accepted; the model gives one round of the loop: the accepted momentum, or None
    if another round is needed. Random draws are arguments; a number from random::uniform(a, b) is a + (b - a) u. *)
From Coq Require Import ZArith Reals List Bool.
From Verif Require Import Base VecModel.
Open Scope R_scope.

(** breit_wigner, distributions.cc:25-29 *)
Definition breit_wigner (m pole width : R) : R :=
  let msqr := m * m in let dmsqr := msqr - pole * pole in
  2 * msqr * width / (PI * (dmsqr * dmsqr + msqr * width * width)).
(** cauchy, distributions.cc:37-40 *)
Definition cauchy (x pole width : R) : R := let dm := x - pole in width / (PI * (dm * dm + width * width)).
(** breit_wigner_nonrel, distributions.cc:32-34 *)
Definition breit_wigner_nonrel (m pole width : R) : R := cauchy m pole (width / 2).

(** density_integrand_mass, distributions.cc:42-46 *)
Definition density_mass (energy psqr T : R) : R := psqr * sqrt psqr * exp (- energy / T).
(** density_integrand_1M_IC, distributions.cc:48-53 *)
Definition density_1M (energy psqr T : R) : R :=
  (3 / 20 * (psqr / (T * T)) - 6 / 5 * (energy / T) + 14 / 5) * exp (- energy / T) * psqr.
(** density_integrand_2M_IC, distributions.cc:55-64 *)
Definition density_2M (energy psqr T : R) : R :=
  (3 / 4 + 1 / 8 * (psqr / (T * T)) - 1 / 30 * (psqr * energy / (T * T * T)) +
   1 / 480 * (psqr * psqr / (T * T * T * T))) * exp (- energy / T) * psqr.
(** juttner_distribution_func, distributions.cc:74-84 *)
Definition juttner (p m T mu stat : R) : R :=
  let b := exp (- (sqrt (p * p + m * m) - mu) / T) in b / (1 + stat * b).

(** sample_momenta_non_eq_mass, distributions.cc:86-118. The largest momentum is the square root of
    [mass_cut]; taking it of a negative number gives NaN, which is an outcome of its own (UB_float_cast). *)
Definition mass_cut (T m : R) : R := 50 * 50 * T * T - m * m.
Definition peak_psqr (T m : R) : R := 1 / 2 * (9 * T * T + T * sqrt (81 * T * T + 36 * m * m)).
Definition round_mass (T m u v : R) : res (option R) :=
  if Rlt_dec (mass_cut T m) 0 then UB UB_float_cast
  else
    let pmax := 2 * density_mass (sqrt (peak_psqr T m + m * m)) (peak_psqr T m) T in
    let p := sqrt (mass_cut T m) * u in
    let prob := density_mass (sqrt (p * p + m * m)) (p * p) T in
    Ok (if Rlt_dec prob (pmax * v) then None else Some p).

(** the average energy, distributions.cc:124-133; [kratio] is K_1(m/T)/K_2(m/T) *)
Definition energy_average (T m kratio : R) : R := if Rlt_dec 0 m then 3 * T + m * kratio else 3 * T.
(** sample_momenta_1M_IC and sample_momenta_2M_IC, distributions.cc:120-189, for the density [dens] *)
Definition envelope (dens : R -> R -> R -> R) (T m kratio : R) : R :=
  let e := energy_average T m kratio in 16 * dens e ((e - m) * (e + m)) T.
Definition round_IC (dens : R -> R -> R -> R) (T m kratio u v : R) : option R :=
  let pmax := envelope dens T m kratio in
  let energy := m + (50 * T - m) * u in
  let psqr := (energy - m) * (energy + m) in
  if Rlt_dec (dens energy psqr T) (pmax * v) then None else Some (sqrt psqr).

(** sample_momenta_from_thermal, distributions.cc:191-242: a round of the first loop, used if T > 0.6 m *)
Definition round_hot (T m u v w d : R) : option R :=
  let p := T * (- ln u + - ln v + - ln w) in
  let energy := sqrt (p * p + m * m) in
  if Rlt_dec d (exp ((p - energy) / T)) then Some p else None.
(** a round of the second loop; [r0] selects how the kinetic energy is drawn *)
Definition weights (T m : R) : R * R * R * R :=
  let i1 := m * m in let i2 := 2 * m * T in let i3 := 2 * T * T in (i1, i2, i3, i1 + i2 + i3).
Definition kinetic_energy (T m r0 r1 r2 r3 : R) : R :=
  let '(i1, i2, i3, itot) := weights T m in
  if Rlt_dec r0 (i1 / itot) then - T * ln r1
  else if Rlt_dec r0 ((i1 + i2) / itot) then - T * ln (r1 * r2)
  else - T * ln (r1 * r2 * r3).
Definition round_cold (T m r0 r1 r2 r3 d : R) : option R :=
  let energy := kinetic_energy T m r0 r1 r2 r3 + m in
  let p := sqrt ((energy + m) * (energy - m)) in
  if Rlt_dec d (p / energy) then Some p else None.
(** the choice of the loop, distributions.cc:197 *)
Definition hot (T m : R) : bool := if Rlt_dec (6 / 10 * m) T then true else false.

(** sample_momenta_IC_ES, distributions.cc:244-253 *)
Definition sample_ES (T a b c d : R) : R := 3 / 4 * T * (- ln a + - ln b + - ln c + - ln d).

(** QuantumSampling::sample, quantumsampling.cc:252-283, for a known species; [distr_max] is the tabulated maximum *)
Definition round_quantum (m T mu stat distr_max u v : R) : option R :=
  let p := 10 * u in
  let ratio := p * p * juttner p m T mu stat / distr_max in
  if Rlt_dec ratio v then None else Some p.
(** p_max_root_equation, quantumsampling.cc:34-45 (the function whose root is the maximum) *)
Definition root_equation (p m T mu stat : R) : R :=
  let energy := sqrt (p * p + m * m) in
  2 * (1 + stat * exp (- (energy - mu) / T)) - p * p / (T * energy).
