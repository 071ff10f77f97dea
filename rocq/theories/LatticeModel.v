(** Model of src/include/smash/lattice.h: the rectangular lattice for thermodynamic
    quantities, and of the weights update_lattice_with_list_of_particles
    (src/include/smash/density.h) hands to its cells.

    Coordinates and lengths are exact reals (the double rounding of the bounds is not
    modelled); indices are C++ ints, with overflow and out-of-range accesses as
    undefined behaviour.  Asserts count as undefined behaviour when they fail. *)
From Coq Require Import ZArith Reals List Bool Lia.
From Flocq Require Import Core.
From Verif Require Import Base GridModel.
Import ListNotations.
Open Scope Z_scope.

(** lattice.h:834-849: the data members.  cell_sizes_ and cell_volume_ are always
    recomputed from lattice_sizes_ and n_cells_ (lattice.h:73, 827), so they are
    derived below.  when_update_ is not modelled. *)
Record lat (T : Type) := Lat {
  la_store : list T; la_len : r3; la_n : c3; la_orig : r3; la_per : bool }.
Arguments Lat {T} _ _ _ _ _.
Arguments la_store {T} _. Arguments la_len {T} _. Arguments la_n {T} _.
Arguments la_orig {T} _. Arguments la_per {T} _.

Section Lattice.
Context {T : Type}.
Implicit Type L : lat T.

(** lattice.h:73, 827-829 *)
Definition cell_size L : r3 :=
  ((rx (la_len L) / IZR (cx (la_n L)))%R, (ry (la_len L) / IZR (cy (la_n L)))%R,
   (rz (la_len L) / IZR (cz (la_n L)))%R).

(** lattice_.resize(int): the argument is converted to size_t, so a negative number
    becomes at least 2^63 and resize throws std::length_error. *)
Definition resized (size : Z) (zero : T) : res (list T) :=
  if size <? 0 then Throw E_length else Ok (repeat zero (Z.to_nat size)).

(** lattice.h:68-92, constructor *)
Definition mk_lat (len : r3) (n : c3) (orig : r3) (per : bool) (zero : T) : res (lat T) :=
  a <- sint (cx n * cy n) ;; size <- sint (a * cz n) ;;
  st <- resized size zero ;;
  if (cx n <? 1) || (cy n <? 1) || (cz n <? 1) ||
     Rlt_bool (rx len) 0 || Rlt_bool (ry len) 0 || Rlt_bool (rz len) 0
  then Throw E_invalid_argument else Ok (Lat st len n orig per).

(** lattice.h:116-123 out_of_bounds *)
Definition out_of_bounds L (c : c3) : bool :=
  negb (la_per L) &&
  ((cx c <? 0) || (cx c >=? cx (la_n L)) || (cy c <? 0) || (cy c >=? cy (la_n L)) ||
   (cz c <? 0) || (cz c >=? cz (la_n L))).

(** lattice.h:133-137 cell_center(ix, iy, iz) *)
Definition center L (c : c3) : r3 :=
  ((rx (la_orig L) + rx (cell_size L) * (IZR (cx c) + 1 / 2))%R,
   (ry (la_orig L) + ry (cell_size L) * (IZR (cy c) + 1 / 2))%R,
   (rz (la_orig L) + rz (cell_size L) * (IZR (cz c) + 1 / 2))%R).

(** lattice.h:147-153 cell_center(index); int division truncates *)
Definition center_of_index L (i : Z) : r3 :=
  let ix := Z.rem i (cx (la_n L)) in
  let i := Z.quot i (cx (la_n L)) in
  let iy := Z.rem i (cy (la_n L)) in
  let iz := Z.quot i (cy (la_n L)) in
  center L (ix, iy, iz).

(** lattice_[i]: int converted to size_t, unchecked access *)
Definition fetch (st : list T) (i : Z) : res T :=
  if i <? 0 then UB UB_oob else
  match nth_error st (Z.to_nat i) with Some v => Ok v | None => UB UB_oob end.

(** lattice.h:207-212 index1d *)
Definition index1d L (c : c3) : res Z :=
  let n := la_n L in
  if (cx c <? cx n) && (cy c <? cy n) && (cz c <? cz n) then
    a <- sint (cz c * cy n) ;; b <- sint (cy c + a) ;; d <- sint (cx n * b) ;; sint (cx c + d)
  else UB UB_assert.

(** lattice.h:223-313, the six neighbours *)
Definition index_left L (c : c3) : res Z :=
  let '(x, y, z) := c in
  if x =? 0 then (if la_per L then index1d L (cx (la_n L) - 1, y, z) else index1d L (x, y, z))
  else index1d L (x - 1, y, z).
Definition index_right L (c : c3) : res Z :=
  let '(x, y, z) := c in
  if x =? cx (la_n L) - 1 then (if la_per L then index1d L (0, y, z) else index1d L (x, y, z))
  else index1d L (x + 1, y, z).
Definition index_down L (c : c3) : res Z :=
  let '(x, y, z) := c in
  if y =? 0 then (if la_per L then index1d L (x, cy (la_n L) - 1, z) else index1d L (x, y, z))
  else index1d L (x, y - 1, z).
Definition index_up L (c : c3) : res Z :=
  let '(x, y, z) := c in
  if y =? cy (la_n L) - 1 then (if la_per L then index1d L (x, 0, z) else index1d L (x, y, z))
  else index1d L (x, y + 1, z).
Definition index_backward L (c : c3) : res Z :=
  let '(x, y, z) := c in
  if z =? 0 then (if la_per L then index1d L (x, y, cz (la_n L) - 1) else index1d L (x, y, z))
  else index1d L (x, y, z - 1).
Definition index_forward L (c : c3) : res Z :=
  let '(x, y, z) := c in
  if z =? cz (la_n L) - 1 then (if la_per L then index1d L (x, y, 0) else index1d L (x, y, z))
  else index1d L (x, y, z + 1).

(** lattice.h:860-866 positive_modulo: (i + (n << 8)) % n *)
Definition positive_modulo (i n : Z) : res Z :=
  m <- sint (n * 256) ;; s <- sint (i + m) ;;
  if n =? 0 then UB UB_div_zero else Ok (Z.rem s n).

(** numeric_cast<int>(floor(...)) and numeric_cast<int>(ceil(...)): the argument is
    integral, so only the range matters *)
Definition to_int (m : Z) : res Z := if in_i32 m then Ok m else UB UB_float_cast.

(** lattice.h:531-538 node *)
Definition node L (c : c3) : res T :=
  let n := la_n L in
  if la_per L then
    px <- positive_modulo (cx c) (cx n) ;;
    py <- positive_modulo (cy c) (cy n) ;;
    pz <- positive_modulo (cz c) (cz n) ;;
    a <- sint (cy n * pz) ;; b <- sint (py + a) ;; d <- sint (cx n * b) ;;
    i <- sint (px + d) ;; fetch (la_store L) i
  else
    a <- sint (cy n * cz c) ;; b <- sint (cy c + a) ;; d <- sint (cx n * b) ;;
    i <- sint (cx c + d) ;; fetch (la_store L) i.

(** the cell a point falls in: lattice.h:555-560, 739-744 *)
Definition cell_of_point L (r : r3) : res c3 :=
  x <- to_int (Zfloor ((rx r - rx (la_orig L)) / rx (cell_size L))) ;;
  y <- to_int (Zfloor ((ry r - ry (la_orig L)) / ry (cell_size L))) ;;
  z <- to_int (Zfloor ((rz r - rz (la_orig L)) / rz (cell_size L))) ;;
  Ok (x, y, z).

(** lattice.h:554-568 value_at: None stands for the return value false *)
Definition value_at L (r : r3) : res (option T) :=
  c <- cell_of_point L r ;;
  if out_of_bounds L c then Ok None else v <- node L c ;; Ok (Some v).

(** [for (i = lo; i < hi; i++)] *)
Definition zrange (lo hi : Z) : list Z := map (fun i => lo + i) (zseq (hi - lo)).

(** A call of the function passed to the iterators: storage index and coordinates. *)
Definition visit := (Z * c3)%type.

(** lattice.h:581-611 iterate_sublattice: the calls made.  The reference lattice_[i]
    is formed before each call; forming it outside the storage is UB. *)
Definition iterate_sublattice L (lo hi : c3) : res (list visit) :=
  let n := la_n L in
  if la_per L then
    zs <- mapM (fun z =>
      pz <- positive_modulo z (cz n) ;; zo <- sint (pz * cy n) ;;
      ys <- mapM (fun y =>
        py <- positive_modulo y (cy n) ;; s <- sint (py + zo) ;; yo <- sint (cx n * s) ;;
        mapM (fun x =>
          px <- positive_modulo x (cx n) ;; i <- sint (px + yo) ;;
          _ <- fetch (la_store L) i ;; Ok (i, (x, y, z))) (zrange (cx lo) (cx hi)))
        (zrange (cy lo) (cy hi)) ;;
      Ok (concat ys)) (zrange (cz lo) (cz hi)) ;;
    Ok (concat zs)
  else
    zs <- mapM (fun z =>
      zo <- sint (z * cy n) ;;
      ys <- mapM (fun y =>
        s <- sint (y + zo) ;; yo <- sint (cx n * s) ;;
        mapM (fun x =>
          i <- sint (x + yo) ;;
          _ <- fetch (la_store L) i ;; Ok (i, (x, y, z))) (zrange (cx lo) (cx hi)))
        (zrange (cy lo) (cy hi)) ;;
      Ok (concat ys)) (zrange (cz lo) (cz hi)) ;;
    Ok (concat zs).

(** lattice.h:633-638, 702-707: bounds in one direction *)
Definition bound (p o r s : R) : res Z := to_int (Zceil ((p - o + r) / s - 1 / 2)).

(** lattice.h:693-723 iterate_in_rectangle *)
Definition iterate_in_rectangle L (p r : r3) : res (list visit) :=
  let s := cell_size L in let o := la_orig L in let n := la_n L in
  lx <- bound (rx p) (rx o) (- rx r) (rx s) ;; ux <- bound (rx p) (rx o) (rx r) (rx s) ;;
  ly <- bound (ry p) (ry o) (- ry r) (ry s) ;; uy <- bound (ry p) (ry o) (ry r) (ry s) ;;
  lz <- bound (rz p) (rz o) (- rz r) (rz s) ;; uz <- bound (rz p) (rz o) (rz r) (rz s) ;;
  if la_per L then iterate_sublattice L (lx, ly, lz) (ux, uy, uz) else
  let clip l u m := ((if l <? 0 then 0 else l), (if u >? m then m else u)) in
  let '(lx, ux) := clip lx ux (cx n) in
  let '(ly, uy) := clip ly uy (cy n) in
  let '(lz, uz) := clip lz uz (cz n) in
  if (lx >? cx n) || (ux <? 0) || (ly >? cy n) || (uy <? 0) || (lz >? cz n) || (uz <? 0)
  then Ok [] else iterate_sublattice L (lx, ly, lz) (ux, uy, uz).

(** lattice.h:627-654 iterate_in_cube: same code with one half-size *)
Definition iterate_in_cube L (p : r3) (r : R) : res (list visit) :=
  iterate_in_rectangle L p (r, r, r).

(** lattice.h:737-772 iterate_nearest_neighbors: (iterated index, centre index) of the
    seven calls *)
Definition iterate_nearest_neighbors L (p : r3) : res (list (Z * Z)) :=
  c <- cell_of_point L p ;;
  i <- index1d L c ;;
  is <- mapM (fun f => j <- f L c ;; _ <- fetch (la_store L) j ;; Ok (j, i))
    [index1d; index_left; index_right; index_down; index_up; index_backward; index_forward] ;;
  Ok is.

(** lattice.h:812-831 reset_and_resize: new state, or the exception (state unchanged) *)
Definition reset_and_resize (zero : T) L (new_len new_orig : option r3) (new_n : option c3) : res (lat T) :=
  match new_len, new_orig, new_n with
  | None, None, None => Throw E_invalid_argument
  | _, _, _ =>
    let st := map (fun _ => zero) (la_store L) in
    Ok (Lat st (match new_len with Some l => l | None => la_len L end)
            (match new_n with Some n => n | None => la_n L end)
            (match new_orig with Some o => o | None => la_orig L end) (la_per L))
  end.

(** Gradients.  The value type needs a subtraction and a multiplication by a number;
    lattice.h:322-402 uses double, lattice.h:420-523 FourVector. *)
Variable sub : T -> T -> T.
Variable scale : T -> R -> T.

(** One direction of the gradient at one cell (lattice.h:348-398, 466-513): [i] the
    coordinate, [n] the number of cells, [step] the storage distance of neighbours,
    [period] the storage distance of a whole row ([diy], [diz] or [d]), [inv] = 0.5 / cell size. *)
Definition grad_dir L (index i n step period : Z) (inv : R) : res T :=
  let at_ j := fetch (la_store L) j in
  if i =? 0 then
    if la_per L then a <- at_ (index + step) ;; b <- at_ (index + period - step) ;; Ok (scale (sub a b) inv)
    else a <- at_ (index + step) ;; b <- at_ index ;; Ok (scale (scale (sub a b) 2) inv)
  else if i =? n - 1 then
    if la_per L then a <- at_ (index - period + step) ;; b <- at_ (index - step) ;; Ok (scale (sub a b) inv)
    else a <- at_ index ;; b <- at_ (index - step) ;; Ok (scale (scale (sub a b) 2) inv)
  else a <- at_ (index + step) ;; b <- at_ (index - step) ;; Ok (scale (sub a b) inv).

(** gradient at the cell (x, y, z) *)
Definition grad_at L (x y z : Z) : res (T * T * T) :=
  let n := la_n L in let s := cell_size L in
  let diy := cx n in let diz := cx n * cy n in let d := diz * cz n in
  let index := x + (diy * y + diz * z) in
  gx <- grad_dir L index x (cx n) 1 diy (1 / 2 / rx s) ;;
  gy <- grad_dir L index y (cy n) diy diz (1 / 2 / ry s) ;;
  gz <- grad_dir L index z (cz n) diz d (1 / 2 / rz s) ;;
  Ok (gx, gy, gz).

(** lattice.h:783-797 identical_to_lattice; really_small = 1e-6 *)
Definition near_r (a b : R) : bool := Rlt_bool (Rabs (a - b)) (1 / 1000000).
Definition identical {U} L (g : lat U) : bool :=
  (cx (la_n L) =? cx (la_n g)) && (cy (la_n L) =? cy (la_n g)) && (cz (la_n L) =? cz (la_n g)) &&
  near_r (rx (la_len L)) (rx (la_len g)) && near_r (ry (la_len L)) (ry (la_len g)) &&
  near_r (rz (la_len L)) (rz (la_len g)) &&
  near_r (rx (la_orig L)) (rx (la_orig g)) && near_r (ry (la_orig L)) (ry (la_orig g)) &&
  near_r (rz (la_orig L)) (rz (la_orig g)) && Bool.eqb (la_per L) (la_per g).

(** every write goes to [index]; storing outside the gradient lattice is UB *)
Definition store {U} (st : list U) (i : Z) (v : U) : res (list U) :=
  _ <- (if i <? 0 then UB UB_oob else
        match nth_error st (Z.to_nat i) with Some _ => Ok tt | None => UB UB_oob end) ;;
  Ok (upd (Z.to_nat i) v st).

(** the triple loop: coordinates in the order visited *)
Definition all_cells (n : c3) : list c3 :=
  flat_map (fun z => flat_map (fun y => map (fun x => (x, y, z)) (zseq (cx n))) (zseq (cy n))) (zseq (cz n)).

(** lattice.h:322-402 compute_gradient_lattice: contents of the gradient lattice
    afterwards.  int products are bounded by the size checked at construction. *)
Definition compute_gradient L (g : lat (T * T * T)) : res (list (T * T * T)) :=
  let n := la_n L in
  if (cx n <? 2) || (cy n <? 2) || (cz n <? 2) then Throw E_runtime else
  if negb (identical L g) then Throw E_invalid_argument else
  foldM (fun st c =>
      v <- grad_at L (cx c) (cy c) (cz c) ;;
      store st (cx c + (cx n * cy c + cx n * cy n * cz c)) v)
    (la_store g) (all_cells n).

(** lattice.h:420-523 compute_four_gradient_lattice; entry = (time, x, y, z) gradients *)
Definition compute_four_gradient L (old : lat T) (dt : R) (g : lat (T * (T * T * T))) :
    res (list (T * (T * T * T))) :=
  let n := la_n L in
  if (cx n <? 2) || (cy n <? 2) || (cz n <? 2) then Throw E_runtime else
  if negb (identical L g) then Throw E_invalid_argument else
  foldM (fun st c =>
      let index := cx c + (cx n * cy c + cx n * cy n * cz c) in
      a <- fetch (la_store L) index ;; b <- fetch (la_store old) index ;;
      v <- grad_at L (cx c) (cy c) (cz c) ;;
      store st index (scale (sub a b) (1 / dt), v))
    (la_store g) (all_cells n).
End Lattice.

(** * Weights handed to the cells (density.h:577-612) *)
(** Discrete smearing: weight of one call of iterate_nearest_neighbors, without the
    common factor dens_factor / (ntest * nensembles * V_cell). *)
Definition discrete_weight (big : R) (v : Z * Z) : R :=
  if fst v =? snd v then big else ((1 - big) / 6)%R.

(** Triangular smearing: weight of one visited cell, without the factor
    dens_factor / (ntest * nensembles).  [k] is triangular_range. *)
Definition triangular_radius {T} (L : lat T) (k : R) : r3 :=
  ((k * rx (cell_size L))%R, (k * ry (cell_size L))%R, (k * rz (cell_size L))%R).
Definition triangular_weight {T} (L : lat T) (k : R) (p : r3) (v : visit) : R :=
  let r := triangular_radius L k in let c := center L (snd v) in
  (1 / (rx r * rx r * ry r * ry r * rz r * rz r) *
   (rx r - Rabs (rx c - rx p)) * (ry r - Rabs (ry c - ry p)) * (rz r - Rabs (rz c - rz p)))%R.
Definition triangular_visits {T} (L : lat T) (k : R) (p : r3) : res (list visit) :=
  iterate_in_rectangle L p (triangular_radius L k).
