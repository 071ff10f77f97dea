(** Model of three- and four-vectors, directions and kinematics:
    /repo/src/include/smash/threevector.h, fourvector.h, angles.h, kinematics.h,
    /repo/src/fourvector.cc.  Doubles are exact real numbers here (no rounding, no NaN). *)
From Coq Require Import ZArith Reals List Bool.
From Flocq Require Import Core.
From Verif Require Import Base.
Import ListNotations.
Open Scope R_scope.

(** constants.h:41,49 *)
Definition really_small : R := / 1000000.
Definition twopi : R := 2 * PI.

(** ** ThreeVector *)
Record vec3 := V3 { x1 : R; x2 : R; x3 : R }.
(** threevector.h:198-201 *)
Definition neg3 (a : vec3) := V3 (- x1 a) (- x2 a) (- x3 a).
(** threevector.h:203-214 *)
Definition add3 (a b : vec3) := V3 (x1 a + x1 b) (x2 a + x2 b) (x3 a + x3 b).
(** threevector.h:216-227 *)
Definition sub3 (a b : vec3) := V3 (x1 a - x1 b) (x2 a - x2 b) (x3 a - x3 b).
(** threevector.h:229-246 *)
Definition scale3 (k : R) (a : vec3) := V3 (x1 a * k) (x2 a * k) (x3 a * k).
(** threevector.h:251-253 *)
Definition dot3 (a b : vec3) : R := x1 a * x1 b + x2 a * x2 b + x3 a * x3 b.
(** threevector.h:255-259 *)
Definition cross3 (a b : vec3) :=
  V3 (x2 a * x3 b - x3 a * x2 b) (x3 a * x1 b - x1 a * x3 b) (x1 a * x2 b - x2 a * x1 b).
(** threevector.h:261-273 *)
Definition div3 (a : vec3) (k : R) := scale3 (1 / k) a.
(** threevector.h:275-277 *)
Definition sqr3 (a : vec3) : R := dot3 a a.
Definition abs3 (a : vec3) : R := sqrt (dot3 a a).

(** std::atan2(y, x) for real numbers; at (0, 0) it is 0 (the sign of a zero is not modelled) *)
Definition atan2 (y x : R) : R :=
  if Rlt_dec 0 x then atan (y / x)
  else if Rlt_dec x 0 then (if Rle_dec 0 y then atan (y / x) + PI else atan (y / x) - PI)
  else if Rlt_dec 0 y then PI / 2 else if Rlt_dec y 0 then - (PI / 2) else 0.
(** get_phi, threevector.h:279-285 *)
Definition get_phi (a : vec3) : R :=
  if Rlt_dec (Rabs (x1 a)) really_small then
    if Rlt_dec (Rabs (x2 a)) really_small then 0 else atan2 (x2 a) (x1 a)
  else atan2 (x2 a) (x1 a).
(** get_theta, threevector.h:287-290 *)
Definition get_theta (a : vec3) : R :=
  if Rlt_dec 0 (abs3 a) then acos (x3 a / abs3 a) else 0.
(** rotate, threevector.h:292-311 *)
Definition rotate (phi theta psi : R) (a : vec3) : vec3 :=
  let cp := cos phi in let sp := sin phi in
  let ct := cos theta in let st := sin theta in
  let cs := cos psi in let ss := sin psi in
  V3 ((cp * cs - sp * ct * ss) * x1 a + (- cp * ss - sp * ct * cs) * x2 a + (sp * st) * x3 a)
     ((sp * cs + cp * ct * ss) * x1 a + (- sp * ss + cp * ct * cs) * x2 a + (- cp * st) * x3 a)
     ((st * ss) * x1 a + (st * cs) * x2 a + ct * x3 a).
(** rotate_around_y, threevector.h:313-322 *)
Definition rotate_around_y (theta : R) (a : vec3) : vec3 :=
  V3 (cos theta * x1 a + sin theta * x3 a) (x2 a) (- sin theta * x1 a + cos theta * x3 a).
(** rotate_around_z, threevector.h:324-333 *)
Definition rotate_around_z (theta : R) (a : vec3) : vec3 :=
  V3 (cos theta * x1 a - sin theta * x2 a) (sin theta * x1 a + cos theta * x2 a) (x3 a).
(** rotate_z_axis_to, threevector.h:335-338 *)
Definition rotate_z_axis_to (r a : vec3) : vec3 :=
  rotate_around_z (get_phi r) (rotate_around_y (get_theta r) a).

(** ** FourVector *)
Record vec4 := V4 { y0 : R; y1 : R; y2 : R; y3 : R }.
(** threevec, fourvector.h:329-331; FourVector(double, ThreeVector), fourvector.h:51-58 *)
Definition threevec (a : vec4) : vec3 := V3 (y1 a) (y2 a) (y3 a).
Definition mk4 (t : R) (a : vec3) : vec4 := V4 t (x1 a) (x2 a) (x3 a).
(** fourvector.h:362-400 *)
Definition add4 (a b : vec4) := V4 (y0 a + y0 b) (y1 a + y1 b) (y2 a + y2 b) (y3 a + y3 b).
Definition sub4 (a b : vec4) := V4 (y0 a - y0 b) (y1 a - y1 b) (y2 a - y2 b) (y3 a - y3 b).
Definition zero4 := V4 0 0 0 0.
(** velocity, fourvector.h:333 *)
Definition velocity (a : vec4) : vec3 := div3 (threevec a) (y0 a).
(** Dot, sqr, fourvector.h:456-462 *)
Definition dot4 (a b : vec4) : R := y0 a * y0 b - y1 a * y1 b - y2 a * y2 b - y3 a * y3 b.
Definition sqr4 (a : vec4) : R := y0 a * y0 a - y1 a * y1 a - y2 a * y2 a - y3 a * y3 a.
(** tau, fourvector.h:478-480 *)
Definition tau (a : vec4) : R := sqrt (y0 a * y0 a - y3 a * y3 a).
(** operator<, >, <=, >=, fourvector.h:340-360 *)
Definition rltb (x y : R) : bool := if Rlt_dec x y then true else false.
Definition lt4 (a b : vec4) : bool :=
  rltb (y0 a) (y0 b) && rltb (y1 a) (y1 b) && rltb (y2 a) (y2 b) && rltb (y3 a) (y3 b).
Definition gt4 (a b : vec4) : bool := lt4 b a.
Definition le4 (a b : vec4) : bool := negb (gt4 a b).
Definition ge4 (a b : vec4) : bool := negb (lt4 a b).
(** lorentz_boost, fourvector.cc:17-28 *)
Definition gamma (v : vec3) : R := if Rlt_dec (sqr3 v) 1 then 1 / sqrt (1 - sqr3 v) else 0.
Definition boost (v : vec3) (a : vec4) : vec4 :=
  let g := gamma v in
  let xp0 := g * (y0 a - dot3 (threevec a) v) in
  let c := g / (g + 1) * (xp0 + y0 a) in
  mk4 xp0 (sub3 (threevec a) (scale3 c v)).

(** ** Angles, angles.h:59-192 (psi is not modelled) *)
Record angles := Ang { phi : R; costheta : R }.
(** set_phi, angles.h:205-211 *)
Definition set_phi (p : R) (a : angles) : angles :=
  let p' := if orb (rltb p 0) (if Rle_dec twopi p then true else false)
            then p - twopi * IZR (Zfloor (p / twopi)) else p in
  Ang p' (costheta a).
(** set_costheta, angles.h:221-236 *)
Definition set_costheta (c : R) (a : angles) : res angles :=
  if orb (rltb c (- 1 - really_small)) (rltb (1 + really_small) c) then Throw E_invalid_argument
  else Ok (Ang (phi a) (if rltb c (- 1) then - 1 else if rltb 1 c then 1 else c)).
(** set_theta, angles.h:237-241 *)
Definition set_theta (t : R) (a : angles) : res angles := set_costheta (cos t) a.
(** sintheta, x, y, z, threevec, theta, angles.h:281-292 *)
Definition sintheta (a : angles) : R := sqrt (1 - costheta a * costheta a).
Definition direction (a : angles) : vec3 :=
  V3 (sintheta a * cos (phi a)) (sintheta a * sin (phi a)) (costheta a).
Definition theta (a : angles) : R := acos (costheta a).
(** add_to_theta, angles.h:243-267 *)
Definition add_to_theta (delta : R) (a : angles) : res (angles * bool) :=
  if orb (rltb delta (- PI)) (rltb PI delta) then Throw E_invalid_argument
  else
    let tpd := delta + theta a in
    if rltb PI tpd then
      a' <- set_theta (twopi - tpd) a ;; Ok (set_phi (phi a' + PI) a', true)
    else if rltb tpd 0 then
      a' <- set_theta (- tpd) a ;; Ok (set_phi (phi a' + PI) a', true)
    else a' <- set_theta tpd a ;; Ok (a', false).
(** add_to_theta with reverse, angles.h:268-276 *)
Definition add_to_theta_rev (delta : R) (reverse : bool) (a : angles) : res (angles * bool) :=
  '(a', r) <- add_to_theta ((if reverse then - 1 else 1) * delta) a ;; Ok (a', xorb r reverse).

(** ** Kinematics, kinematics.h *)
(** center_of_velocity_v, kinematics.h:26-30 *)
Definition center_of_velocity_v (s ma mb : R) : R :=
  let m_sum := ma + mb in let m_dif := ma - mb in
  sqrt ((s - m_sum * m_sum) / (s - m_dif * m_dif)).
(** fixed_target_projectile_v, kinematics.h:39-42 *)
Definition fixed_target_projectile_v (s ma mb : R) : R :=
  let ig := 2 * ma * mb / (s - ma * ma - mb * mb) in sqrt (1 - ig * ig).
(** pCM_sqr_from_s, pCM_from_s, pCM, pCM_sqr, kinematics.h:52-93 *)
Definition pCM_sqr_from_s (s ma mb : R) : R :=
  let x := s + ma * ma - mb * mb in x * x * (/ 4 / s) - ma * ma.
Definition pCM_from_s (s ma mb : R) : R :=
  let p2 := pCM_sqr_from_s s ma mb in if Rlt_dec 0 p2 then sqrt p2 else 0.
Definition pCM (sqrts ma mb : R) : R := pCM_from_s (sqrts * sqrts) ma mb.
Definition pCM_sqr (sqrts ma mb : R) : R := pCM_sqr_from_s (sqrts * sqrts) ma mb.
(** get_t_range, kinematics.h:109-120; the assertion is part of the model *)
Definition get_t_range (sqrts m1 m2 m3 m4 : R) : res (R * R) :=
  let p_i := pCM sqrts m1 m2 in
  let p_f := pCM sqrts m3 m4 in
  let sqrt_t0 := (m1 * m1 - m2 * m2 - m3 * m3 + m4 * m4) / (2 * sqrts) in
  let t0 := sqrt_t0 * sqrt_t0 in
  let t_min := t0 - (p_i - p_f) * (p_i - p_f) in
  let t_max := t0 - (p_i + p_f) * (p_i + p_f) in
  if Rle_dec t_max t_min then Ok (t_min, t_max) else UB UB_assert.
(** plab_from_s with two masses, kinematics.h:185-203 (with the checks of a debug build) *)
Definition plab_from_s (s mp mt : R) : res R :=
  let m_sum := mp + mt in let m_diff := mp - mt in
  let radicand := (s - m_sum * m_sum) * (s - m_diff * m_diff) in
  if rltb s (m_sum * m_sum) then Throw E_runtime
  else if rltb radicand 0 then Throw E_runtime
  else Ok (sqrt radicand / (2 * mt)).
(** plab_from_s with one mass, kinematics.h:157-165 *)
Definition plab_from_s1 (s m : R) : res R :=
  let radicand := s * (s - 4 * m * m) in
  if rltb s (2 * m * (2 * m)) then Throw E_runtime
  else if rltb radicand 0 then Throw E_runtime
  else Ok (sqrt radicand / (2 * m)).
(** s_from_Etot (fixed target), kinematics.h:211-213 *)
Definition s_from_Etot (e mp mt : R) : R := mp * mp + mt * mt + 2 * mt * e.
(** s_from_Etot (two beams), kinematics.h:224-229 *)
Definition s_from_Etot2 (ep et mp mt : R) : R :=
  let pzp := sqrt (ep * ep - mp * mp) in
  let pzt := sqrt (et * et - mt * mt) in
  (ep + et) ^ 2 - (pzp - pzt) ^ 2.
(** s_from_Ekin, kinematics.h:239-241, 252-255 *)
Definition s_from_Ekin (e mp mt : R) : R := s_from_Etot (e + mp) mp mt.
Definition s_from_Ekin2 (ep et mp mt : R) : R := s_from_Etot2 (ep + mt) (et + mt) mp mt.
(** s_from_plab, kinematics.h:265-267, 278-282 *)
Definition s_from_plab (p mp mt : R) : R := mp * mp + mt * mt + 2 * mt * sqrt (mp * mp + p * p).
Definition s_from_plab2 (pp pt mp mt : R) : R :=
  s_from_Etot2 (sqrt (mp * mp + pp * pp)) (sqrt (mt * mt + pt * pt)) pp pt.
