(** Model of particle motion and of the kinematics of final states:
    /repo/src/propagation.cc, wallcrossingaction.cc, hypersurfacecrossingfinder.cc,
    action.cc:66-445, particledata.cc:88-160, collidermodus.cc:100-240, 520-560, 625-655.
    Doubles are exact real numbers. *)
From Coq Require Import ZArith Reals List Bool.
From Verif Require Import Base VecModel.
Import ListNotations.
Open Scope R_scope.

(** ** Particles (the fields of ParticleData used here, particledata.h:500-570) *)
Record particle := Part {
  pos : vec4; mom : vec4; pole_mass : R; pid : Z; ncoll : Z;
  form_time : R; begin_form : R; scaling : R }.
Definition set_pos (x : vec4) (p : particle) :=
  Part x (mom p) (pole_mass p) (pid p) (ncoll p) (form_time p) (begin_form p) (scaling p).
Definition set_mom (q : vec4) (p : particle) :=
  Part (pos p) q (pole_mass p) (pid p) (ncoll p) (form_time p) (begin_form p) (scaling p).
(** set_4momentum(mass, three-momentum), particledata.h:187-189 *)
Definition on_shell (m : R) (q : vec3) : vec4 := mk4 (sqrt (m * m + dot3 q q)) q.
(** set_slow_formation_times, particledata.h:282-288 (history time not modelled) *)
Definition set_slow_formation (b f : R) (p : particle) :=
  Part (pos p) (mom p) (pole_mass p) (pid p) (ncoll p) f b (scaling p).
(** set_formation_time, particledata.h:264-272 *)
Definition set_formation (f : R) (p : particle) := set_slow_formation f f p.
(** set_cross_section_scaling_factor, particledata.h:313-315 *)
Definition set_scaling (s : R) (p : particle) :=
  Part (pos p) (mom p) (pole_mass p) (pid p) (ncoll p) (form_time p) (begin_form p) s.

(** ** Propagation *)
(** the velocity used, propagation.cc:67-78 (the assertion id >= 0 is a hypothesis of the
    theorems; [beam] is beam_momentum) *)
Definition motion_velocity (beam : list vec4) (p : particle) : vec3 :=
  if ((pid p <? Z.of_nat (length beam)) && (ncoll p =? 0))%Z
  then velocity (nth (Z.to_nat (pid p)) beam zero4) else velocity (mom p).
(** propagate_straight_line, propagation.cc:45-88 *)
Definition propagate1 (beam : list vec4) (to : R) (p : particle) : res particle :=
  let dt := to - y0 (pos p) in
  if rltb dt 0 then UB UB_assert
  else let x := add4 (pos p) (mk4 0 (scale3 dt (motion_velocity beam p))) in
       Ok (set_pos (mk4 to (threevec x)) p).
Definition propagate (beam : list vec4) (to : R) (ps : list particle) : res (list particle) :=
  mapM (propagate1 beam to) ps.
(** backpropagate_straight_line, propagation.cc:90-109 *)
Definition backpropagate1 (to : R) (p : particle) : res particle :=
  let t := y0 (pos p) in
  if rltb t to then UB UB_assert
  else let dt := to - t in
       let r := add3 (threevec (pos p)) (scale3 dt (velocity (mom p))) in
       Ok (set_scaling 0 (set_formation t (set_pos (mk4 to r) p))).
Definition backpropagate (to : R) (ps : list particle) : res (list particle) := mapM (backpropagate1 to) ps.
(** calc_hubble, propagation.cc:21-43; the meaning of b: input_keys.h:1328-1337 *)
Inductive expansion := NoExpansion | MasslessFRW | MassiveFRW | Exponential.
Definition calc_hubble (t : R) (mode : expansion) (b : R) : R :=
  match mode with
  | NoExpansion => 0
  | MasslessFRW => b / (2 * (b * t + 1))
  | MassiveFRW => 2 * b / (3 * (b * t + 1))
  | Exponential => b * t
  end.
(** expand_space_time, propagation.cc:111-138 *)
Definition expand1 (h dt : R) (p : particle) : particle :=
  let x := add4 (pos p) (mk4 0 (scale3 dt (scale3 h (threevec (pos p))))) in
  let q := sub4 (mom p) (mk4 0 (scale3 dt (scale3 h (threevec (mom p))))) in
  set_mom (on_shell (pole_mass p) (threevec q)) (set_pos x p).

(** ** Wall crossing, wallcrossingaction.cc:14-50.
    Coordinates (box length, position, velocity) in a list. *)
Definition coord := (R * R * R)%type.
(** the time a coordinate needs to its wall, lines 24-30 *)
Definition wall_time (tmax : R) (c : coord) : R :=
  let '(l, r, v) := c in
  if Rlt_dec really_small v then (l - r) / v
  else if Rlt_dec v (- really_small) then - r / v
  else tmax + 1.
(** the loop over coordinates, lines 22-36; the smallest time and its coordinate *)
Fixpoint wall_scan (tmax : R) (cs : list coord) (i : nat) (best : R * option nat) : R * option nat :=
  match cs with
  | [] => best
  | c :: cs' => let t := wall_time tmax c in
                wall_scan tmax cs' (S i) (if Rlt_dec t (fst best) then (t, Some i) else best)
  end.
(** the crossing point, lines 41-43 *)
Fixpoint cross_at (t : R) (cs : list coord) (i : nat) : list R :=
  match cs with
  | [] => []
  | (l, r, v) :: cs' =>
      match i with
      | O => (if Rlt_dec 0 v then 0 else l) :: map (fun '(l, r, v) => r + v * t) cs'
      | S i' => (r + v * t) :: cross_at t cs' i'
      end
  end.
Definition find_crossing (tmax : R) (cs : list coord) : option (R * nat * list R) :=
  match wall_scan tmax cs 0 (tmax, None) with
  | (_, None) => None
  | (t, Some i) => Some (t, i, cross_at t cs i)
  end.

(** ** Hypersurface crossing, hypersurfacecrossingfinder.cc *)
(** crosses_hypersurface, lines 118-151 *)
Definition crosses_hypersurface (before after : vec4) (tau0 : R) : bool :=
  let b := rltb (Rabs (y3 before)) (Rabs (y0 before)) in
  let a := rltb (Rabs (y3 after)) (Rabs (y0 after)) in
  if b && a then (negb (rltb tau0 (tau before)) && negb (rltb (tau after) tau0))%bool
  else if (negb b && a)%bool then negb (rltb (tau after) tau0)
  else false.
(** coordinates_on_hypersurface, lines 153-190, with its assertions; [v] is
    pdata_before_propagation.velocity() *)
Definition coordinates_on_hypersurface (before after : vec4) (v : vec3) (tau0 : R) : res vec4 :=
  let t1 := y0 before in let z1 := y3 before in
  let t2 := y0 after in let z2 := y3 after in
  let m := (z2 - z1) / (t2 - t1) in
  let n := z1 - m * t1 in
  let root := sqrt ((1 - m * m) * tau0 * tau0 + n * n) / (1 - m * m) in
  let sol1 := n * m / (1 - m * m) + root in
  let sol2 := n * m / (1 - m * m) - root in
  if (rltb sol1 t1 || rltb t2 sol1)%bool then UB UB_assert
  else if negb (rltb sol2 t1 || rltb t2 sol2)%bool then UB UB_assert
  else Ok (mk4 sol1 (threevec (add4 before (mk4 0 (scale3 (sol1 - t1) v))))).
(** find_actions_in_cell, lines 19-116, for one particle that is not a core particle;
    [cuts] says whether it passes the rapidity and pT cuts.  Result: the crossing position. *)
Definition hypersurface_find (beam : list vec4) (dt tau0 : R) (cuts : bool) (p : particle) : res (option vec4) :=
  let t0 := y0 (pos p) in
  let t_end := t0 + dt in
  if rltb t_end 0 then Ok None
  else
    let after := mk4 t_end (threevec (add4 (pos p) (mk4 0 (scale3 dt (motion_velocity beam p))))) in
    if (crosses_hypersurface (pos p) after tau0 && cuts)%bool
    then x <- coordinates_on_hypersurface (pos p) after (velocity (mom p)) tau0 ;; Ok (Some x)
    else Ok None.

(** ** Interaction point, action.cc:68-108 *)
Fixpoint sum3 (l : list vec3) : vec3 := match l with [] => V3 0 0 0 | a :: r => add3 a (sum3 r) end.
Definition propagated (t : R) (p : particle) : vec3 :=
  add3 (threevec (pos p)) (scale3 (t - y0 (pos p)) (velocity (mom p))).
(** one coordinate of the periodic correction, lines 90-99 *)
Definition periodic_mid (L d m : R) : R :=
  if Rlt_dec (L / 2) (Rabs d) then if Rle_dec (L / 2) m then m - L / 2 else m + L / 2 else m.
(** [L] is box_length_ (0 or negative: none), [idx] stochastic_position_idx_ if not negative *)
Definition interaction_point (L : R) (idx : option nat) (t : R) (ins : list particle) : res vec4 :=
  let xs := map (propagated t) ins in
  let mid := div3 (sum3 xs) (INR (length ins)) in
  match idx with
  | Some k => match nth_error ins k with Some p => Ok (pos p) | None => UB UB_oob end
  | None =>
    if rltb 0 L then
      match xs with
      | [a; b] => let r := sub3 a b in
                  Ok (mk4 t (V3 (periodic_mid L (x1 r) (x1 mid)) (periodic_mid L (x2 r) (x2 mid)) (periodic_mid L (x3 r) (x3 mid))))
      | _ => UB UB_assert
      end
    else Ok (mk4 t mid)
  end.

(** ** Final states *)
(** sample_angles, action.cc:284-308: momenta in the centre-of-mass frame for the sampled
    direction [u] *)
Definition sample_angles (sqrts ma mb : R) (u : vec3) : vec4 * vec4 :=
  let pcm := pCM sqrts ma mb in
  (on_shell ma (scale3 pcm u), on_shell mb (scale3 pcm (neg3 u))).
(** std::partial_sum, std::sort (insertion sort: any sort gives the same list) *)
Fixpoint partial_sums (acc : R) (m : list R) : list R :=
  match m with [] => [] | x :: r => (acc + x) :: partial_sums (acc + x) r end.
Fixpoint insert (x : R) (l : list R) : list R :=
  match l with [] => [x] | y :: r => if Rle_dec x y then x :: y :: r else y :: insert x r end.
Definition sort (l : list R) : list R := fold_right insert [] l.
Definition sumR (l : list R) : R := fold_right Rplus 0 l.
(** invariant masses of particles 1, 12, 123, ..., action.cc:372-381, for the drawn numbers *)
Definition invariant_masses (sqrts : R) (m draws : list R) : list R :=
  let s := sqrts - last (partial_sums 0 m) 0 in
  map (fun '(a, b) => a + b) (combine (sort (0 :: draws ++ [s])) (partial_sums 0 m)).
(** the two loops of action.cc:407-441 merged (the first one computes the momentum of particle
    i and the velocity for the boost of particles 0..i-1, the second one boosts): [acc] are the
    particles so far, [mp] their invariant mass; a step is invariant mass, mass, direction *)
Fixpoint add_particles (acc : list vec4) (mp : R) (steps : list (R * R * vec3)) : list vec4 :=
  match steps with
  | [] => acc
  | (mi, m, u) :: r =>
      let pcm := pCM mi mp m in
      let beta := div3 (scale3 pcm u) (sqrt (pcm * pcm + mp * mp)) in
      add_particles (map (boost beta) acc ++ [mk4 (sqrt (m * m + pcm * pcm)) (scale3 pcm u)]) mi r
  end.
(** sample_manybody_phasespace_impl, action.cc:321-452, for the numbers drawn in the accepted
    round and the directions drawn afterwards (rejection: not modelled) *)
Definition manybody (sqrts : R) (m draws : list R) (us : list vec3) : res (list vec4) :=
  match m with
  | m0 :: m1 :: ms =>
    if Rle_dec sqrts (last (partial_sums 0 m) 0) then Throw E_runtime
    else
      match invariant_masses sqrts m draws, us with
      | _ :: mi1 :: mis, u1 :: us' =>
        let pcm := pCM mi1 (nth 0 (invariant_masses sqrts m draws) 0) m1 in
        Ok (add_particles
              [mk4 (sqrt (m0 * m0 + pcm * pcm)) (scale3 (- pcm) u1); mk4 (sqrt (m1 * m1 + pcm * pcm)) (scale3 pcm u1)]
              mi1 (combine (combine mis ms) us'))
      | _, _ => UB UB_oob
      end
  | _ => UB UB_assert
  end.

(** ** Formation *)
(** xsec_scaling_factor, particledata.cc:125-160; formation times that are NaN are not modelled.
    std::pow(x, p) is 0 for x = 0 and p > 0 (not needed), Rpower otherwise. *)
Definition xsec_scaling_factor (power : R) (p : particle) (delta : R) : R :=
  let t := y0 (pos p) + delta in
  if Rle_dec power 0 then (if Rlt_dec t (form_time p) then scaling p else 1)
  else if Rle_dec (form_time p) t then 1
  else if Rle_dec t (begin_form p) then scaling p
  else scaling p + (1 - scaling p) * Rpower ((t - begin_form p) / (form_time p - begin_form p)) power.
(** std::min_element / std::max_element: the first smallest / largest *)
Fixpoint best_by (better : particle -> particle -> bool) (b : particle) (l : list particle) : particle :=
  match l with [] => b | p :: r => best_by better (if better p b then p else b) r end.
Definition all_same_formation (ins : list particle) : bool :=
  match ins with
  | [] => true
  | p :: r => forallb (fun q => rltb (Rabs (form_time p - form_time q)) really_small) r
  end.
(** assign_formation_time_to_outgoing_particles, action.cc:190-255 (an empty list of incoming
    particles would be undefined) *)
Definition last_formed (p : particle) (r : list particle) : particle :=
  if all_same_formation (p :: r) then best_by (fun q b => rltb (scaling q) (scaling b)) p r
  else best_by (fun q b => rltb (form_time b) (form_time q)) p r.
Definition assign_formation1 (lf : particle) (texec : R) (p : particle) : particle :=
  if rltb texec (form_time lf) then
    if rltb (scaling p) 1 then
      let p' := set_scaling (scaling lf * scaling p) p in
      if rltb (form_time p') (form_time lf) then set_slow_formation texec (form_time lf) p' else p'
    else set_scaling (scaling lf) (set_slow_formation (begin_form lf) (form_time lf) p)
  else if Req_EM_T (scaling p) 1 then set_formation texec p else p.
Definition assign_formation (texec : R) (ins outs : list particle) : res (list particle) :=
  match ins with
  | [] => UB UB_oob
  | p :: r => Ok (map (assign_formation1 (last_formed p r) texec) outs)
  end.

(** ** Spin: set_unpolarized_spin_vector, particledata.cc:88-123, for a massive particle with
    spin and the drawn rest-frame components [s] *)
Definition unpolarized_spin (p : vec4) (s : vec3) : vec4 := boost (velocity p) (mk4 0 s).

(** ** Collider *)
(** How the collision energy is given, collidermodus.cc:112-220 *)
Inductive energy_input :=
| SqrtSNN (e : R) | ETot (e : R) | EKin (e : R) | PLab (p : R)
| ETot2 (e1 e2 : R) | EKin2 (e1 e2 : R) | PLab2 (p1 p2 : R).
(** total_s_ and sqrt_s_NN_; [np], [nt] number_of_particles, [mp], [mt] masses of the nuclei *)
Definition collision_energy (np nt : nat) (mp mt : R) (i : energy_input) : res (R * R) :=
  let ma := mp / INR np in let mb := mt / INR nt in
  match i with
  | SqrtSNN e =>
    if Rle_dec e (ma + mb) then Throw E_invalid_argument
    else Ok ((e * e - ma * ma - mb * mb) * mp * mt / (ma * mb) + mp * mp + mt * mt, e)
  | ETot e => if Rlt_dec e 0 then Throw E_invalid_argument
              else Ok (s_from_Etot (e * INR np) mp mt, sqrt (s_from_Etot e ma mb))
  | EKin e => if Rlt_dec e 0 then Throw E_invalid_argument
              else Ok (s_from_Ekin (e * INR np) mp mt, sqrt (s_from_Ekin e ma mb))
  | PLab p => if Rlt_dec p 0 then Throw E_invalid_argument
              else Ok (s_from_plab (p * INR np) mp mt, sqrt (s_from_plab p ma mb))
  | ETot2 e1 e2 => if (rltb e1 0 || rltb e2 0)%bool then Throw E_invalid_argument
                   else Ok (s_from_Etot2 (e1 * INR np) (e2 * INR nt) mp mt, sqrt (s_from_Ekin2 e1 e2 ma mb))
  | EKin2 e1 e2 => if (rltb e1 0 || rltb e2 0)%bool then Throw E_invalid_argument
                   else Ok (s_from_Ekin2 (e1 * INR np) (e2 * INR nt) mp mt, sqrt (s_from_Ekin2 e1 e2 ma mb))
  | PLab2 p1 p2 => if (rltb p1 0 || rltb p2 0)%bool then Throw E_invalid_argument
                   else Ok (s_from_plab2 (p1 * INR np) (p2 * INR nt) mp mt, sqrt (s_from_plab2 p1 p2 ma mb))
  end.
(** the checks on the number of inputs, collidermodus.cc:222-231 *)
Definition one_energy_input (np nt : nat) (mp mt : R) (is : list energy_input) : res (R * R) :=
  rs <- mapM (collision_energy np nt mp mt) is ;;
  match rs with [] => Throw E_domain | [r] => Ok r | _ => Throw E_invalid_argument end.
(** get_velocities, collidermodus.cc:625-652 *)
Inductive frame := CenterOfVelocity | CenterOfMass | FixedTarget.
Definition get_velocities (f : frame) (s ma mb : R) : R * R :=
  match f with
  | CenterOfVelocity => let v := center_of_velocity_v s ma mb in (v, - v)
  | CenterOfMass => let p := pCM_from_s s ma mb in
                    (p / sqrt (ma * ma + p * p), - p / sqrt (mb * mb + p * p))
  | FixedTarget => (fixed_target_projectile_v s ma mb, 0)
  end.
(** start time and z positions of the centres, collidermodus.cc:541-556; [ra], [rb] radius plus
    diffusiveness, [dz] initial_z_displacement_ *)
Definition start (va vb ra rb dz : R) : R * R * R :=
  (- dz / Rabs va, - dz - sqrt (1 - va * va) * ra, dz * Rabs (vb / va) + sqrt (1 - vb * vb) * rb).
