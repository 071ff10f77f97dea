(** When two or more particles are taken to collide: src/include/smash/scatteractionsfinder.h,
    src/scatteractionsfinder.cc, src/scatteraction.cc. Doubles are exact reals. Random draws are
    arguments. The total cross section of a pair is an argument (crosssections.cc is not modelled);
    creating an action object is reduced to returning the time until it happens. *)
From Coq Require Import ZArith Reals List Bool.
From Verif Require Import Base VecModel MotionModel.
Import ListNotations.
Open Scope R_scope.

(** BelongsTo, particledata.h:21-25 *)
Inductive nucleus := Nothing | Projectile | Target.
(** what the finder reads of a ParticleData: [prt] as in MotionModel, the id of the last action
    (HistoryData::id_process, particledata.h:31-37), the nucleus it started in, whether it is a pion *)
Record body := Body { prt : particle; proc : Z; side : nucleus; pion : bool }.
(** CollisionCriterion, forwarddeclarations.h *)
Inductive criterion := Geometric | Stochastic | Covariant.
Definition side_eqb (a b : nucleus) : bool :=
  match a, b with Nothing, Nothing | Projectile, Projectile | Target, Target => true | _, _ => false end.
Definition is_stochastic (c : criterion) : bool := match c with Stochastic => true | _ => false end.

(** the parameters the finder uses: coll_crit, testparticles, allow_collisions_within_nucleus,
    only_warn_for_high_prob, the formation power (particledata.h:formation_power_) and the cross section of
    max_transverse_distance_sqr: elastic_parameter if is_constant_elastic_isotropic(), else
    maximum_cross_section (scatteractionsfinder.h:220-227) *)
Record finder := Finder { crit : criterion; ntest : Z; within_nucleus : bool; only_warn : bool; power : R; max_xs : R }.

(** the momentum used for finding: that of the beam for a nucleon that has not interacted yet,
    scatteractionsfinder.h:82-99 *)
Definition finding_momentum (beam : list vec4) (p : particle) : vec4 :=
  if (pid p <? Z.of_nat (length beam))%Z && (ncoll p =? 0)%Z then nth (Z.to_nat (pid p)) beam zero4 else mom p.

(** the geometric collision time, scatteractionsfinder.h:123-143 *)
Definition geometric_time (xa pa xb pb : vec4) : R :=
  let d := sub3 (scale3 (y0 pb) (threevec pa)) (scale3 (y0 pa) (threevec pb)) in
  let d2 := sqr3 d in
  if Rlt_dec d2 really_small then - 1
  else - dot3 (sub3 (threevec xa) (threevec xb)) d * (y0 pa * y0 pb / d2).
(** the covariant collision times and their mean, scatteractionsfinder.h:100-122 *)
Definition covariant_denominator (pa pb : vec4) : R := dot4 pa pb * dot4 pa pb - sqr4 pa * sqr4 pb.
Definition covariant_time_1 (xa pa xb pb : vec4) : R :=
  let dx := sub4 xa xb in
  (sqr4 pb * dot4 pa dx - dot4 pa pb * dot4 pb dx) * y0 pa / covariant_denominator pa pb.
Definition covariant_time_2 (xa pa xb pb : vec4) : R :=
  let dx := sub4 xa xb in
  - (sqr4 pa * dot4 pb dx - dot4 pa pb * dot4 pa dx) * y0 pb / covariant_denominator pa pb.
Definition covariant_time (xa pa xb pb : vec4) : R :=
  if Rlt_dec (Rabs (covariant_denominator pa pb)) (really_small * really_small) then - 1
  else (covariant_time_1 xa pa xb pb + covariant_time_2 xa pa xb pb) / 2.
(** collision_time, scatteractionsfinder.h:67-143; [u] is the draw of random::uniform(0, 1) *)
Definition collision_time (f : finder) (beam : list vec4) (a b : particle) (dt u : R) : res R :=
  match crit f with
  | Stochastic => Ok (dt * u)
  | c =>
    if (pid a <? 0)%Z || (pid b <? 0)%Z then Throw E_runtime
    else
      let pa := finding_momentum beam a in let pb := finding_momentum beam b in
      match c with
      | Covariant => Ok (covariant_time (pos a) pa (pos b) pb)
      | _ => Ok (geometric_time (pos a) pa (pos b) pb)
      end
  end.

(** transverse_distance_sqr, scatteraction.cc:366-402; beta_cm is the velocity of the total momentum *)
Definition transverse_distance_sqr (xa pa xb pb : vec4) : R :=
  let v := velocity (add4 (add4 zero4 pa) pb) in
  let dr := sub3 (threevec (boost v xa)) (threevec (boost v xb)) in
  let dp := sub3 (threevec (boost v pa)) (threevec (boost v pb)) in
  let dp2 := sqr3 dp in let dr2 := sqr3 dr in
  if Rlt_dec dp2 really_small then dr2
  else
    let dpdr := dot3 dr dp in
    let r := dr2 - dpdr * dpdr / dp2 in
    if Rlt_dec 0 r then r else 0.
(** cov_transverse_distance_sqr, scatteraction.cc:404-428. A vanishing denominator gives 0/0 in doubles, and
    the last line turns that into 0; this is reported as undefined here. *)
Definition cov_transverse_distance_sqr (xa pa xb pb : vec4) : res R :=
  let dx := sub4 xa xb in
  let md := sqr3 (sub3 (threevec pa) (threevec pb)) in
  let x2 := sqr4 dx in
  if Rlt_dec md really_small then Ok (- x2)
  else if Req_EM_T (covariant_denominator pa pb) 0 then UB UB_div_zero
  else
    let ax := dot4 pa dx in let bx := dot4 pb dx in let ab := dot4 pa pb in
    let b2 := - x2 - (sqr4 pa * (bx * bx) + sqr4 pb * (ax * ax) - 2 * ab * ax * bx) / covariant_denominator pa pb in
    Ok (if Rlt_dec 0 b2 then b2 else 0).

(** lambda_tilde, action.h:315-322 *)
Definition lambda_tilde (a b c : R) : R :=
  let r := (a - b - c) * (a - b - c) - 4 * b * c in if Rlt_dec r 0 then 0 else r.
(** FourVector::abs, fourvector.h:464-472, and effective_mass, particledata.cc:25-33 *)
Definition abs4 (p : vec4) : res R :=
  if Rlt_dec (- really_small) (sqr4 p) then Ok (sqrt (Rabs (sqr4 p))) else Throw E_runtime.
Definition effective_mass (p : particle) : res R :=
  if Rlt_dec (pole_mass p) really_small then Ok (pole_mass p) else abs4 (mom p).
(** relative_velocity, scatteraction.cc:357-364 *)
Definition relative_velocity (a b : particle) : res R :=
  m1 <- effective_mass a ;;
  m2 <- effective_mass b ;;
  let s := sqr4 (add4 (add4 zero4 (mom a)) (mom b)) in
  Ok (sqrt (lambda_tilde s (m1 * m1) (m2 * m2)) / (2 * y0 (mom a) * y0 (mom b))).

(** constants.h:32 *)
Definition fm2_mb : R := / 10.
(** max_transverse_distance_sqr, scatteractionsfinder.h:220-227 *)
Definition max_transverse_distance_sqr (f : finder) : R := max_xs f / IZR (ntest f) * fm2_mb * / PI.

(** check_collision_two_part, scatteractionsfinder.cc:217-370. [u] and [v] are the two draws of the
    stochastic criterion, [sigma] the total cross section of the pair in mb. The result is the time until the
    collision, or None for no collision. assert(id >= 0) is an error of its own. *)
Definition check_two (f : finder) (beam : list vec4) (dt vol u v sigma : R) (a b : body) : res (option R) :=
  let pa := prt a in let pb := prt b in
  if negb (within_nucleus f) && ((pid pa <? 0)%Z || (pid pb <? 0)%Z) then UB UB_assert else
  if negb (within_nucleus f)
     && (side_eqb (side a) Projectile && side_eqb (side b) Projectile || side_eqb (side a) Target && side_eqb (side b) Target)
     && ((ncoll pa =? 0)%Z && (ncoll pb =? 0)%Z) then Ok None else
  if is_stochastic (crit f) && rltb vol really_small then Ok None else
  t <- collision_time f beam pa pb dt u ;;
  if rltb t 0 || negb (rltb t dt) then Ok None else
  d2 <- match crit f with
        | Geometric => Ok (transverse_distance_sqr (pos pa) (mom pa) (pos pb) (mom pb))
        | Covariant => cov_transverse_distance_sqr (pos pa) (mom pa) (pos pb) (mom pb)
        | Stochastic => Ok 0
        end ;;
  if negb (is_stochastic (crit f)) && negb (rltb d2 (max_transverse_distance_sqr f)) then Ok None else
  let xs := sigma * fm2_mb / IZR (ntest f) * xsec_scaling_factor (power f) pa t * xsec_scaling_factor (power f) pb t in
  if is_stochastic (crit f) then
    vrel <- relative_velocity pa pb ;;
    let prob := xs * vrel * dt / vol in
    if rltb 1 prob && negb (only_warn f) then Throw E_runtime
    else if rltb prob v then Ok None
    else Ok (Some t)
  else
    if (0 <? proc a)%Z && (proc a =? proc b)%Z then Ok None
    else if negb (rltb d2 (xs * / PI)) then Ok None
    else Ok (Some t).

(** check_collision_multi_part, scatteractionsfinder.cc:372-450: [weight] is get_total_weight() of the action
    (scatteractionmulti.cc is not modelled) *)
Definition check_multi (f : finder) (dt vol u v weight : R) (l : list body) : res (option R) :=
  if negb (within_nucleus f)
     && (forallb (fun d => side_eqb (side d) Projectile) l || forallb (fun d => side_eqb (side d) Target) l)
     && forallb (fun d => ncoll (prt d) =? 0)%Z l then Ok None else
  if rltb vol really_small then Ok None else
  let t := dt * u in
  let prob := weight / IZR (ntest f) ^ (length l - 1) in
  if rltb 1 prob && negb (only_warn f) then Throw E_runtime
  else if rltb prob v then Ok None
  else Ok (Some t).

(** ** The loops over the particles of a cell *)
(** [included_multi]: Meson_3to1, Deuteron_3to2, NNbar_5to2, A3_Nuclei_4to2, forwarddeclarations.h:249-257 *)
Record multi := Multi { m3to1 : bool; d3to2 : bool; nn5to2 : bool; a4to2 : bool }.
Definition any_multi (m : multi) : bool := m3to1 m || d3to2 m || nn5to2 m || a4to2 m.
Definition bid (b : body) : Z := pid (prt b).
(** a range-based for loop over a list whose body changes a state *)
Definition loop {S} (l : list body) (f : body -> S -> S) (s : S) : S := fold_left (fun s p => f p s) l s.
(** find_actions_in_cell, scatteractionsfinder.cc:452-519. [offer] checks a tuple and stores the action found, if
    any; its state stands for the actions found so far and the random numbers. *)
Definition find_in_cell {S} (m : multi) (offer : list body -> S -> S) (l : list body) (s : S) : S :=
  loop l (fun p1 => loop l (fun p2 s =>
    let s := if (bid p1 <? bid p2)%Z then offer [p1; p2] s else s in
    if any_multi m then
      loop l (fun p3 s =>
        let s := if (d3to2 m || m3to1 m) && ((bid p1 <? bid p2)%Z && (bid p2 <? bid p3)%Z) then offer [p1; p2; p3] s else s in
        loop l (fun p4 s =>
          let s := if a4to2 m && ((bid p1 <? bid p2)%Z && (bid p2 <? bid p3)%Z && (bid p3 <? bid p4)%Z)
                   then offer [p1; p2; p3; p4] s else s in
          if nn5to2 m && (5 <=? length l)%nat then
            loop l (fun p5 s =>
              if ((bid p1 <? bid p2)%Z && (bid p2 <? bid p3)%Z && (bid p3 <? bid p4)%Z && (bid p4 <? bid p5)%Z)
                 && (pion p1 && pion p2 && pion p3 && pion p4 && pion p5)
              then offer [p1; p2; p3; p4; p5] s else s) s
          else s) s) s
    else s)) s.
(** find_actions_with_neighbors, scatteractionsfinder.cc:521-541; the assertion that the ids differ is an error
    of its own (None) *)
Definition find_with_neighbors {S} (c : criterion) (offer : list body -> S -> S) (search neighbors : list body) (s : S) : S :=
  if is_stochastic c then s
  else loop search (fun p1 => loop neighbors (fun p2 => offer [p1; p2])) s.
Definition neighbors_assertions (c : criterion) (search neighbors : list body) : bool :=
  is_stochastic c || forallb (fun p1 => forallb (fun p2 => negb (bid p1 =? bid p2)%Z) neighbors) search.
(** find_actions_with_surrounding_particles, scatteractionsfinder.cc:543-564 *)
Definition find_with_surrounding {S} (c : criterion) (offer : list body -> S -> S) (search surrounding : list body) (s : S) : S :=
  if is_stochastic c then s
  else loop surrounding (fun p2 s =>
    if existsb (fun p => (bid p =? bid p2)%Z) search then s
    else loop search (fun p1 => offer [p1; p2]) s) s.
