(** Isospin coupling: the range of total isospins of a reaction, the squared
    isospin factors of 2->1, 3->1 and 2->2 reactions, and the table of
    Clebsch-Gordan coefficients with its memoisation.
    Simplifications of this module: doubles are reals except in the table,
    whose literals are kept exactly as the decimal numbers in the source; the
    Wigner 3j symbol of the GNU scientific library is an argument. *)
From Coq Require Import ZArith List Bool Reals.
Import ListNotations.
From Verif Require Import Base.
Open Scope Z_scope.

(** What these functions ask of a particle species: ParticleType::isospin()
    (src/particletype.cc:415-422) and ParticleType::isospin3() (its pdg code's
    isospin3), both doubled. *)
Record sp := { iso : Z; iso3 : Z }.

(** src/particletype.cc:415-422 and src/include/smash/isoparticletype.h:96:
    the isospin of a hadron is the number of states in its multiplet minus
    one; of anything else, zero. *)
Definition isospin_of (hadron : bool) (multiplet_states : option Z) : Z :=
  match hadron, multiplet_states with
  | true, Some n => n - 1
  | _, _ => 0
  end.

(** The iterator of I_tot_range, src/include/smash/clebschgordan.h:122-179:
    starts at [cur], steps down by two, stops when it EQUALS [last].
    [fuel] bounds the number of steps looked at. *)
Fixpoint walk (fuel : nat) (cur last : Z) : res (list Z) :=
  match fuel with
  | O => UB UB_no_progress
  | S f => if cur =? last then Ok []
           else next <- sint (cur - 2) ;; l <- walk f next last ;; Ok (cur :: l)
  end.

(** begin() and end(), src/include/smash/clebschgordan.h:171-179 *)
Definition range_begin (r : Z * Z) : Z := snd r.
Definition range_end (r : Z * Z) : Z :=
  if snd r <? fst r then range_begin r else fst r - 2.

(** Number of iterations looked at before the loop is declared endless: a
    longer look never finds an end (theorem range_no_end of CgProps). *)
Definition range_fuel (r : Z * Z) : nat := S (Z.to_nat (snd r - fst r + 4)).

(** A range-based for loop over I_tot_range. *)
Definition range_list (r : Z * Z) : res (list Z) :=
  walk (range_fuel r) (range_begin r) (range_end r).

(** I_tot_range(a, b), src/include/smash/clebschgordan.h:82-87.  The pair is
    (I_min_, I_max_). *)
Definition range2 (a b : sp) : Z * Z :=
  let Izabs := Z.abs (iso3 a + iso3 b) in
  (Z.max (Z.abs (iso a - iso b)) Izabs, iso a + iso b).

(** I_tot_range(a, b, c, d), src/include/smash/clebschgordan.h:98-114 *)
Definition range4 (a b c d : sp) : Z * Z :=
  let Iz := iso3 a + iso3 b in
  if negb (Iz =? iso3 c + iso3 d) then (1, 0)
  else (Z.max (Z.max (Z.abs (iso a - iso b)) (Z.abs (iso c - iso d))) (Z.abs Iz),
        Z.min (iso a + iso b) (iso c + iso d)).

(** Arguments of a coefficient, ClebschGordan::ThreeSpins,
    src/include/smash/clebschgordan_lookup.h:41-47: j1, j2, j3, m1, m2, m3. *)
Definition key := (Z * Z * Z * Z * Z * Z)%type.

(** ThreeSpins::operator==, src/include/smash/clebschgordan_lookup.h:69-71 *)
Definition key_eqb (x y : key) : bool :=
  let '(a1, a2, a3, a4, a5, a6) := x in
  let '(b1, b2, b3, b4, b5, b6) := y in
  (a1 =? b1) && (a2 =? b2) && (a3 =? b3) && (a4 =? b4) && (a5 =? b5) && (a6 =? b6).

(** One summand of ThreeSpinHash, clebschgordan_lookup.h:178-183: cast to
    size_t (64 bits), shift left by 59, shift right. *)
Definition hash_part (x right : Z) : Z :=
  Z.shiftr (u64 (Z.shiftl (u64 x) 59)) right.

(** ThreeSpinHash::operator(), clebschgordan_lookup.h:161-184, with its
    asserts (165-170). *)
Definition hash (k : key) : res Z :=
  let '(j1, j2, j3, m1, m2, m3) := k in
  if (0 <=? j1) && (j1 <? 16) && (0 <=? j2) && (j2 <? 16) && (0 <=? j3) && (j3 <? 16)
     && (Z.abs m1 <? 16) && (Z.abs m2 <? 16) && (Z.abs m3 <? 16)
  then Ok (u64 (hash_part j1 (59 - 25) + hash_part j2 (59 - 20) + hash_part j3 (59 - 15)
                + hash_part m1 (59 - 10) + hash_part m2 (59 - 5) + hash_part m3 59))
  else UB UB_assert.

(** ClebschGordan::calculate_coefficient, src/clebschgordan_lookup.cc:22-39;
    [w3j ja jb jc ma mb mc] is gsl_sf_coupling_3j.  really_small = 1.0e-6
    (src/include/smash/constants.h:41). *)
Definition calculate (w3j : Z -> Z -> Z -> Z -> Z -> Z -> R) (k : key) : res R :=
  let '(ja, jb, jc, ma, mb, mc) := k in
  let w := w3j ja jb jc ma mb (- mc) in
  if Rlt_dec (Rabs w) (1 / 1000000)%R then Ok 0%R
  else if negb (Z.rem (ja - jb + mc) 2 =? 0) then UB UB_assert
  else
    let j := Z.quot (ja - jb + mc) 2 in
    let result := (sqrt (IZR (jc + 1)) * w)%R in
    Ok (result * IZR ((if Z.rem j 2 =? 0 then 1 else 0) * 2 - 1))%R.

(** std::unordered_map<ThreeSpins, double>: first entry with an equal key. *)
Fixpoint find (m : list (key * R)) (k : key) : option R :=
  match m with
  | [] => None
  | (k', v) :: t => if key_eqb k' k then Some v else find t k
  end.

(** ClebschGordan::coefficient, src/clebschgordan_lookup.cc:41-52: look up,
    else calculate and insert.  Looking up hashes the key.  The map is part of
    the result. *)
Definition coefficient w3j (m : list (key * R)) (k : key) : res (R * list (key * R)) :=
  _ <- hash k ;;
  match find m k with
  | Some v => Ok (v, m)
  | None => v <- calculate w3j k ;; Ok (v, (k, v) :: m)
  end.

(** A program history as far as the map is concerned: any sequence of calls. *)
Fixpoint calls w3j (m : list (key * R)) (ks : list key) : res (list R * list (key * R)) :=
  match ks with
  | [] => Ok ([], m)
  | k :: t => '(v, m') <- coefficient w3j m k ;;
              '(vs, m'') <- calls w3j m' t ;; Ok (v :: vs, m'')
  end.

(** A coefficient as a function of its arguments (CgProps shows that the
    memoised one is one: theorem coefficient_history). *)
Definition cgfun := Z -> Z -> Z -> Z -> Z -> Z -> R.

(** isospin_clebsch_gordan_sqr_2to1, src/include/smash/clebschgordan.h:26-33 *)
Definition sqr_2to1 (cg : cgfun) (a b r : sp) : R :=
  let c := cg (iso a) (iso b) (iso r) (iso3 a) (iso3 b) (iso3 r) in (c * c)%R.

(** isospin_clebsch_gordan_2to1, src/clebschgordan.cc:30-35 *)
Definition cg_2to1 (cg : cgfun) (a b : sp) (Itot Iz : Z) : R :=
  cg (iso a) (iso b) Itot (iso3 a) (iso3 b) Iz.

(** std::iota from [lo], [n] elements *)
Fixpoint iota (lo : Z) (n : nat) : list Z :=
  match n with O => [] | S n' => lo :: iota (lo + 1) n' end.

(** The values of I_ab kept by isospin_clebsch_gordan_sqr_3to1,
    src/clebschgordan.cc:41-54 *)
Definition allowed_Iab (a b c r : sp) : list Z :=
  let lo := Z.abs (iso a - iso b) in
  let hi := iso a + iso b in
  filter (fun i => (Z.abs (i - iso c) <=? iso r) && (iso r <=? i + iso c))
         (iota lo (Z.to_nat (hi - lo + 1))).

(** isospin_clebsch_gordan_sqr_3to1, src/clebschgordan.cc:37-69 *)
Definition sqr_3to1 (cg : cgfun) (a b c r : sp) : res R :=
  match allowed_Iab a b c r with
  | [i] =>
    let iz := iso3 a + iso3 b in
    let x := (cg i (iso c) (iso r) iz (iso3 c) (iso3 r)
              * cg (iso a) (iso b) i (iso3 a) (iso3 b) iz)%R in
    Ok (x * x)%R
  | _ => Throw E_runtime
  end.

(** isospin_clebsch_gordan_sqr_2to2, src/clebschgordan.cc:71-88; the default
    argument is I = -1 (clebschgordan.h:65). *)
Definition sqr_2to2 (cg : cgfun) (a b c d : sp) (I : Z) : res R :=
  let Iz := iso3 a + iso3 b in
  l <- range_list (range4 a b c d) ;;
  Ok (fold_left (fun f i =>
        if (I <? 0) || (i =? I) then
          let cin := cg_2to1 cg a b i Iz in
          let cout := cg_2to1 cg c d i Iz in
          (f + cin * cin * cout * cout)%R
        else f) l 0%R).

(** The loop of nucleon-nucleon to resonances, src/crosssections.cc:2961-2968:
    the factors of a + b -> c + d, one per total isospin of the incoming pair. *)
Definition factors_forward (cg : cgfun) (a b c d : sp) : res (list (Z * R)) :=
  l <- range_list (range2 a b) ;;
  mapM (fun i => f <- sqr_2to2 cg a b c d i ;; Ok (i, f)) l.

(** The loop of the inverse reactions, src/crosssections.cc:2354-2360 and
    2812-2818: the factors of a + b -> c + d, one per total isospin of the
    OUTGOING pair. *)
Definition factors_backward (cg : cgfun) (a b c d : sp) : res (list (Z * R)) :=
  l <- range_list (range2 c d) ;;
  mapM (fun i => f <- sqr_2to2 cg a b c d i ;; Ok (i, f)) l.

(** The initial contents of ClebschGordan::lookup_table,
    src/include/smash/clebschgordan_lookup.h:192-383, all 189 entries in source
    order; values in units of 1e-17 (every literal has 17 decimals). *)
Definition table : list (key * Z) :=
  [((0, 0, 0, 0, 0, 0), 100000000000000000);
   ((0, 1, 1, 0, (-1), (-1)), 100000000000000022);
   ((0, 1, 1, 0, 1, 1), 100000000000000022);
   ((0, 2, 2, 0, (-2), (-2)), 99999999999999989);
   ((0, 2, 2, 0, 0, 0), 99999999999999989);
   ((0, 2, 2, 0, 2, 2), 99999999999999989);
   ((0, 3, 3, 0, (-3), (-3)), 100000000000000000);
   ((0, 3, 3, 0, (-1), (-1)), 99999999999999989);
   ((0, 3, 3, 0, 1, 1), 99999999999999989);
   ((0, 3, 3, 0, 3, 3), 100000000000000000);
   ((1, 0, 1, (-1), 0, (-1)), 100000000000000022);
   ((1, 0, 1, 1, 0, 1), 100000000000000022);
   ((1, 1, 0, (-1), 1, 0), (-70710678118654757));
   ((1, 1, 0, 1, (-1), 0), 70710678118654757);
   ((1, 1, 2, (-1), (-1), (-2)), 99999999999999989);
   ((1, 1, 2, (-1), 1, 0), 70710678118654746);
   ((1, 1, 2, 1, (-1), 0), 70710678118654746);
   ((1, 1, 2, 1, 1, 2), 99999999999999989);
   ((1, 2, 1, (-1), 0, (-1)), (-57735026918962584));
   ((1, 2, 1, (-1), 2, 1), (-81649658092772615));
   ((1, 2, 1, 1, (-2), (-1)), 81649658092772615);
   ((1, 2, 1, 1, 0, 1), 57735026918962584);
   ((1, 2, 3, (-1), (-2), (-3)), 100000000000000000);
   ((1, 2, 3, (-1), 0, (-1)), 81649658092772615);
   ((1, 2, 3, (-1), 2, 1), 57735026918962584);
   ((1, 2, 3, 1, (-2), (-1)), 57735026918962584);
   ((1, 2, 3, 1, 0, 1), 81649658092772615);
   ((1, 2, 3, 1, 2, 3), 100000000000000000);
   ((1, 3, 2, (-1), (-1), (-2)), (-49999999999999983));
   ((1, 3, 2, (-1), 1, 0), (-70710678118654724));
   ((1, 3, 2, (-1), 3, 2), (-86602540378443837));
   ((1, 3, 2, 1, (-3), (-2)), 86602540378443837);
   ((1, 3, 2, 1, (-1), 0), 70710678118654724);
   ((1, 3, 2, 1, 1, 2), 49999999999999983);
   ((1, 3, 4, (-1), (-3), (-4)), 100000000000000022);
   ((1, 3, 4, (-1), (-1), (-2)), 86602540378443871);
   ((1, 3, 4, (-1), 1, 0), 70710678118654746);
   ((1, 3, 4, (-1), 3, 2), 49999999999999994);
   ((1, 3, 4, 1, (-3), (-2)), 49999999999999994);
   ((1, 3, 4, 1, (-1), 0), 70710678118654746);
   ((1, 3, 4, 1, 1, 2), 86602540378443871);
   ((1, 3, 4, 1, 3, 4), 100000000000000022);
   ((2, 0, 2, (-2), 0, (-2)), 99999999999999989);
   ((2, 0, 2, 0, 0, 0), 99999999999999989);
   ((2, 0, 2, 2, 0, 2), 99999999999999989);
   ((2, 1, 1, (-2), 1, (-1)), (-81649658092772615));
   ((2, 1, 1, 0, (-1), (-1)), 57735026918962584);
   ((2, 1, 1, 0, 1, 1), (-57735026918962584));
   ((2, 1, 1, 2, (-1), 1), 81649658092772615);
   ((2, 1, 3, (-2), (-1), (-3)), 100000000000000000);
   ((2, 1, 3, (-2), 1, (-1)), 57735026918962584);
   ((2, 1, 3, 0, (-1), (-1)), 81649658092772615);
   ((2, 1, 3, 0, 1, 1), 81649658092772615);
   ((2, 1, 3, 2, (-1), 1), 57735026918962584);
   ((2, 1, 3, 2, 1, 3), 100000000000000000);
   ((2, 2, 0, (-2), 2, 0), 57735026918962584);
   ((2, 2, 0, 0, 0, 0), (-57735026918962573));
   ((2, 2, 0, 2, (-2), 0), 57735026918962584);
   ((2, 2, 2, (-2), 0, (-2)), (-70710678118654735));
   ((2, 2, 2, (-2), 2, 0), (-70710678118654735));
   ((2, 2, 2, 0, (-2), (-2)), 70710678118654735);
   ((2, 2, 2, 0, 2, 2), (-70710678118654735));
   ((2, 2, 2, 2, (-2), 0), 70710678118654735);
   ((2, 2, 2, 2, 0, 2), 70710678118654735);
   ((2, 2, 4, (-2), (-2), (-4)), 100000000000000022);
   ((2, 2, 4, (-2), 0, (-2)), 70710678118654746);
   ((2, 2, 4, (-2), 2, 0), 40824829046386313);
   ((2, 2, 4, 0, (-2), (-2)), 70710678118654746);
   ((2, 2, 4, 0, 0, 0), 81649658092772615);
   ((2, 2, 4, 0, 2, 2), 70710678118654746);
   ((2, 2, 4, 2, (-2), 0), 40824829046386313);
   ((2, 2, 4, 2, 0, 2), 70710678118654746);
   ((2, 2, 4, 2, 2, 4), 100000000000000022);
   ((2, 3, 1, (-2), 1, (-1)), 40824829046386302);
   ((2, 3, 1, (-2), 3, 1), 70710678118654746);
   ((2, 3, 1, 0, (-1), (-1)), (-57735026918962573));
   ((2, 3, 1, 0, 1, 1), (-57735026918962573));
   ((2, 3, 1, 2, (-3), (-1)), 70710678118654746);
   ((2, 3, 1, 2, (-1), 1), 40824829046386302);
   ((2, 3, 3, (-2), (-1), (-3)), (-63245553203367610));
   ((2, 3, 3, (-2), 1, (-1)), (-73029674334022165));
   ((2, 3, 3, (-2), 3, 1), (-63245553203367610));
   ((2, 3, 3, 0, (-3), (-3)), 77459666924148352);
   ((2, 3, 3, 0, (-1), (-1)), 25819888974716126);
   ((2, 3, 3, 0, 1, 1), (-25819888974716126));
   ((2, 3, 3, 0, 3, 3), (-77459666924148352));
   ((2, 3, 3, 2, (-3), (-1)), 63245553203367610);
   ((2, 3, 3, 2, (-1), 1), 73029674334022165);
   ((2, 3, 3, 2, 1, 3), 63245553203367610);
   ((2, 3, 5, (-2), (-3), (-5)), 99999999999999989);
   ((2, 3, 5, (-2), (-1), (-3)), 77459666924148318);
   ((2, 3, 5, (-2), 1, (-1)), 54772255750516596);
   ((2, 3, 5, (-2), 3, 1), 31622776601683794);
   ((2, 3, 5, 0, (-3), (-3)), 63245553203367599);
   ((2, 3, 5, 0, (-1), (-1)), 77459666924148318);
   ((2, 3, 5, 0, 1, 1), 77459666924148318);
   ((2, 3, 5, 0, 3, 3), 63245553203367599);
   ((2, 3, 5, 2, (-3), (-1)), 31622776601683794);
   ((2, 3, 5, 2, (-1), 1), 54772255750516596);
   ((2, 3, 5, 2, 1, 3), 77459666924148318);
   ((2, 3, 5, 2, 3, 5), 99999999999999989);
   ((3, 0, 3, (-3), 0, (-3)), 100000000000000000);
   ((3, 0, 3, (-1), 0, (-1)), 99999999999999989);
   ((3, 0, 3, 1, 0, 1), 99999999999999989);
   ((3, 0, 3, 3, 0, 3), 100000000000000000);
   ((3, 1, 2, (-3), 1, (-2)), (-86602540378443837));
   ((3, 1, 2, (-1), (-1), (-2)), 49999999999999983);
   ((3, 1, 2, (-1), 1, 0), (-70710678118654724));
   ((3, 1, 2, 1, (-1), 0), 70710678118654724);
   ((3, 1, 2, 1, 1, 2), (-49999999999999983));
   ((3, 1, 2, 3, (-1), 2), 86602540378443837);
   ((3, 1, 4, (-3), (-1), (-4)), 100000000000000022);
   ((3, 1, 4, (-3), 1, (-2)), 49999999999999994);
   ((3, 1, 4, (-1), (-1), (-2)), 86602540378443871);
   ((3, 1, 4, (-1), 1, 0), 70710678118654746);
   ((3, 1, 4, 1, (-1), 0), 70710678118654746);
   ((3, 1, 4, 1, 1, 2), 86602540378443871);
   ((3, 1, 4, 3, (-1), 2), 49999999999999994);
   ((3, 1, 4, 3, 1, 4), 100000000000000022);
   ((3, 2, 1, (-3), 2, (-1)), 70710678118654746);
   ((3, 2, 1, (-1), 0, (-1)), (-57735026918962573));
   ((3, 2, 1, (-1), 2, 1), 40824829046386302);
   ((3, 2, 1, 1, (-2), (-1)), 40824829046386302);
   ((3, 2, 1, 1, 0, 1), (-57735026918962573));
   ((3, 2, 1, 3, (-2), 1), 70710678118654746);
   ((3, 2, 3, (-3), 0, (-3)), (-77459666924148352));
   ((3, 2, 3, (-3), 2, (-1)), (-63245553203367610));
   ((3, 2, 3, (-1), (-2), (-3)), 63245553203367610);
   ((3, 2, 3, (-1), 0, (-1)), (-25819888974716126));
   ((3, 2, 3, (-1), 2, 1), (-73029674334022165));
   ((3, 2, 3, 1, (-2), (-1)), 73029674334022165);
   ((3, 2, 3, 1, 0, 1), 25819888974716126);
   ((3, 2, 3, 1, 2, 3), (-63245553203367610));
   ((3, 2, 3, 3, (-2), 1), 63245553203367610);
   ((3, 2, 3, 3, 0, 3), 77459666924148352);
   ((3, 2, 5, (-3), (-2), (-5)), 99999999999999989);
   ((3, 2, 5, (-3), 0, (-3)), 63245553203367599);
   ((3, 2, 5, (-3), 2, (-1)), 31622776601683794);
   ((3, 2, 5, (-1), (-2), (-3)), 77459666924148318);
   ((3, 2, 5, (-1), 0, (-1)), 77459666924148318);
   ((3, 2, 5, (-1), 2, 1), 54772255750516596);
   ((3, 2, 5, 1, (-2), (-1)), 54772255750516596);
   ((3, 2, 5, 1, 0, 1), 77459666924148318);
   ((3, 2, 5, 1, 2, 3), 77459666924148318);
   ((3, 2, 5, 3, (-2), 1), 31622776601683794);
   ((3, 2, 5, 3, 0, 3), 63245553203367599);
   ((3, 2, 5, 3, 2, 5), 99999999999999989);
   ((3, 3, 0, (-3), 3, 0), (-49999999999999994));
   ((3, 3, 0, (-1), 1, 0), 49999999999999994);
   ((3, 3, 0, 1, (-1), 0), (-49999999999999994));
   ((3, 3, 0, 3, (-3), 0), 49999999999999994);
   ((3, 3, 2, (-3), 1, (-2)), 54772255750516596);
   ((3, 3, 2, (-3), 3, 0), 67082039324993692);
   ((3, 3, 2, (-1), (-1), (-2)), (-63245553203367599));
   ((3, 3, 2, (-1), 1, 0), (-22360679774997907));
   ((3, 3, 2, (-1), 3, 2), 54772255750516596);
   ((3, 3, 2, 1, (-3), (-2)), 54772255750516596);
   ((3, 3, 2, 1, (-1), 0), (-22360679774997907));
   ((3, 3, 2, 1, 1, 2), (-63245553203367599));
   ((3, 3, 2, 3, (-3), 0), 67082039324993692);
   ((3, 3, 2, 3, (-1), 2), 54772255750516596);
   ((3, 3, 4, (-3), (-1), (-4)), (-70710678118654746));
   ((3, 3, 4, (-3), 1, (-2)), (-70710678118654746));
   ((3, 3, 4, (-3), 3, 0), (-49999999999999994));
   ((3, 3, 4, (-1), (-3), (-4)), 70710678118654746);
   ((3, 3, 4, (-1), 1, 0), (-49999999999999994));
   ((3, 3, 4, (-1), 3, 2), (-70710678118654746));
   ((3, 3, 4, 1, (-3), (-2)), 70710678118654746);
   ((3, 3, 4, 1, (-1), 0), 49999999999999994);
   ((3, 3, 4, 1, 3, 4), (-70710678118654746));
   ((3, 3, 4, 3, (-3), 0), 49999999999999994);
   ((3, 3, 4, 3, (-1), 2), 70710678118654746);
   ((3, 3, 4, 3, 1, 4), 70710678118654746);
   ((3, 3, 6, (-3), (-3), (-6)), 100000000000000022);
   ((3, 3, 6, (-3), (-1), (-4)), 70710678118654746);
   ((3, 3, 6, (-3), 1, (-2)), 44721359549995793);
   ((3, 3, 6, (-3), 3, 0), 22360679774997894);
   ((3, 3, 6, (-1), (-3), (-4)), 70710678118654746);
   ((3, 3, 6, (-1), (-1), (-2)), 77459666924148352);
   ((3, 3, 6, (-1), 1, 0), 67082039324993670);
   ((3, 3, 6, (-1), 3, 2), 44721359549995793);
   ((3, 3, 6, 1, (-3), (-2)), 44721359549995793);
   ((3, 3, 6, 1, (-1), 0), 67082039324993670);
   ((3, 3, 6, 1, 1, 2), 77459666924148352);
   ((3, 3, 6, 1, 3, 4), 70710678118654746);
   ((3, 3, 6, 3, (-3), 0), 22360679774997894);
   ((3, 3, 6, 3, (-1), 2), 44721359549995793);
   ((3, 3, 6, 3, 1, 4), 70710678118654746);
   ((3, 3, 6, 3, 3, 6), 100000000000000022)].

(** The map a program starts with. *)
Definition initial_map : list (key * R) :=
  map (fun e => (fst e, (IZR (snd e) / IZR (10 ^ 17))%R)) table.
