(** Model of /repo/src/include/smash/quantumnumbers.h and /repo/src/quantumnumbers.cc,
    with the comparison of /repo/src/fourvector.cc:30-35 and
    /repo/src/include/smash/numerics.h:58-77, 99-104.  Doubles are rounded reals
    (Flt.v; no NaN or infinity), [int] additions are checked. *)
From Coq Require Import ZArith Reals List Bool.
From Flocq Require Import Core.
From Verif Require Import Base Flt.
Import ListNotations.
Open Scope Z_scope.

(** FourVector: x0, x1, x2, x3 *)
Record four := Four { m0 : R; m1 : R; m2 : R; m3 : R }.
(** The data members of QuantumNumbers, quantumnumbers.h:150-190 *)
Record qnum := Qnum { q_mom : four; q_charge : Z; q_i3 : Z; q_strange : Z; q_charm : Z;
                      q_bottom : Z; q_baryon : Z }.
(** What add_values reads from a ParticleData: momentum() and the six getters of
    pdgcode(). *)
Definition contribution := qnum.

(** QuantumNumbers(), quantumnumbers.h:32-39 *)
Definition zero_q : qnum := Qnum (Four 0 0 0 0) 0 0 0 0 0 0.

(** FourVector::operator+=, fourvector.h: component-wise *)
Definition four_add (a b : four) : four :=
  Four (fadd (m0 a) (m0 b)) (fadd (m1 a) (m1 b)) (fadd (m2 a) (m2 b)) (fadd (m3 a) (m3 b)).

(** add_values, quantumnumbers.h:84-92 *)
Definition add_values (q : qnum) (p : contribution) : res qnum :=
  c <- sint (q_charge q + q_charge p) ;;
  i <- sint (q_i3 q + q_i3 p) ;;
  s <- sint (q_strange q + q_strange p) ;;
  ch <- sint (q_charm q + q_charm p) ;;
  bt <- sint (q_bottom q + q_bottom p) ;;
  b <- sint (q_baryon q + q_baryon p) ;;
  Ok (Qnum (four_add (q_mom q) (q_mom p)) c i s ch bt b).

(** QuantumNumbers(const ParticleList&) and QuantumNumbers(const Particles&),
    quantumnumbers.h:53-75 *)
Definition of_list (l : list contribution) : res qnum := foldM add_values zero_q l.
(** QuantumNumbers(const std::vector<Particles>&), quantumnumbers.h:60-66 *)
Definition of_ensembles (ls : list (list contribution)) : res qnum :=
  foldM (fun q l => foldM add_values q l) zero_q ls.

(** constants.h:41, 55 *)
Definition really_small : R := fl (1 / 1000000).
Definition small_number : R := fl (1 / 10000).

(** almost_equal_knuthish, numerics.h:58-77 (finite arguments) *)
Definition knuthish (x y epsilon threshold : R) : bool :=
  if Req_bool x y then true
  else if Req_bool x 0 then Rle_bool (Rabs y) epsilon
  else if Req_bool y 0 then Rle_bool (Rabs x) epsilon
  else Rle_bool (Rabs (fsub x y)) threshold
       || Rle_bool (Rabs (fsub x y)) (fmul epsilon (Rmax (Rabs x) (Rabs y))).
(** almost_equal_physics, numerics.h:99-104 *)
Definition close (x y : R) : bool := knuthish x y small_number really_small.
(** FourVector::operator==, fourvector.cc:30-35 *)
Definition four_eqb (a b : four) : bool :=
  close (m0 a) (m0 b) && close (m1 a) (m1 b) && close (m2 a) (m2 b) && close (m3 a) (m3 b).

(** QuantumNumbers::operator==, quantumnumbers.h:114-122 *)
Definition q_eqb (a b : qnum) : bool :=
  four_eqb (q_mom a) (q_mom b) && (q_charge a =? q_charge b) && (q_i3 a =? q_i3 b) &&
  (q_strange a =? q_strange b) && (q_charm a =? q_charm b) && (q_bottom a =? q_bottom b) &&
  (q_baryon a =? q_baryon b).

(** report_deviations, quantumnumbers.cc:17-68.  The message is a list of its lines;
    a line is represented by the quantity it complains about. *)
Inductive dev := D_momentum | D_comp (mu : Z) | D_charge | D_i3 | D_strange | D_charm
               | D_bottom | D_baryon.
Definition when (b : bool) (d : dev) : list dev := if b then [d] else [].
Definition report_deviations (this rhs : qnum) : list dev :=
  if q_eqb rhs this then []
  else
    when (negb (four_eqb (q_mom this) (q_mom rhs))) D_momentum ++
    when (negb (close (m0 (q_mom this)) (m0 (q_mom rhs)))) (D_comp 0) ++
    when (negb (close (m1 (q_mom this)) (m1 (q_mom rhs)))) (D_comp 1) ++
    when (negb (close (m2 (q_mom this)) (m2 (q_mom rhs)))) (D_comp 2) ++
    when (negb (close (m3 (q_mom this)) (m3 (q_mom rhs)))) (D_comp 3) ++
    when (negb (q_charge this =? q_charge rhs)) D_charge ++
    when (negb (q_i3 this =? q_i3 rhs)) D_i3 ++
    when (negb (q_strange this =? q_strange rhs)) D_strange ++
    when (negb (q_charm this =? q_charm rhs)) D_charm ++
    when (negb (q_bottom this =? q_bottom rhs)) D_bottom ++
    when (negb (q_baryon this =? q_baryon rhs)) D_baryon.
