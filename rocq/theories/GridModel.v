(** Model of src/grid.cc and src/include/smash/grid.h: the cell grid that feeds the
    collision finders, and of the two pair loops of src/scatteractionsfinder.cc that
    consume its callbacks. *)
From Coq Require Import ZArith Reals List Bool Lia.
From Flocq Require Import Core.
From Verif Require Import Base Flt.
Import ListNotations.
Open Scope Z_scope.

(** Cell coordinates and periodic shifts (in units of the box length). *)
Definition c3 := (Z * Z * Z)%type.
Definition cx (c : c3) : Z := fst (fst c).
Definition cy (c : c3) : Z := snd (fst c).
Definition cz (c : c3) : Z := snd c.

(** [for (i = 0; i < n; ++i) body] with the mutable state threaded through. *)
Definition zseq (n : Z) : list Z := map Z.of_nat (seq 0 (Z.to_nat n)).
Definition for_ {S} (n : Z) (body : Z -> S -> S) (s : S) : S :=
  fold_left (fun s i => body i s) (zseq n) s.

(** One call made by iterate_cells: the search callback on a cell, or the neighbour
    callback on (a copy of) a search cell translated by [shift] box lengths and a
    neighbour cell.  Cells are named by their index in [cells_]. *)
Inductive call :=
| Search (c : Z)
| Pair (c : Z) (shift : c3) (c' : Z).

(** grid.cc:275-279 make_index.  [n] is number_of_cells_.  Used in the loops, where
    int overflow is not modelled; the constructor uses [make_index_int]. *)
Definition make_index (n : c3) (c : c3) : Z := (cz c * cy n + cy c) * cx n + cx c.

(** grid.cc:323-334: the displacement lists of the open grid *)
Definition dz_open (nz z : Z) : list Z := if z =? nz - 1 then [0] else [0; 1].
Definition dxy_open (n x : Z) : list Z :=
  if n =? 1 then [0] else if x =? 0 then [0; 1]
  else if x =? n - 1 then [-1; 0] else [-1; 0; 1].

(** grid.cc:302-347 Grid<Normal>::iterate_cells.  The state is
    (search_cell_index, calls made so far). *)
Definition iterate_open (n : c3) : list call :=
  snd (for_ (cz n) (fun z => for_ (cy n) (fun y => for_ (cx n) (fun x (st : Z * list call) =>
    let '(i, out) := st in
    let out := out ++ [Search i] in
    let out := fold_left (fun out dz => fold_left (fun out dy => fold_left (fun out dx =>
        let di := make_index n (dx, dy, dz) in
        if di >? 0 then out ++ [Pair i (0, 0, 0) (i + di)] else out)
      (dxy_open (cx n) x) out) (dxy_open (cy n) y) out) (dz_open (cz n) z) out in
    (i + 1, out)))) (0, [])).

(** grid.cc:357-365 NeedsToWrap, NeighborLookup *)
Inductive wrapping := PlusLength | NoWrap | MinusLength.
Record lookup := Lookup { l_index : Z; l_wrap : wrapping }.

(** grid.cc:392-398: dz_list for layer z.  The array outlives the loop; its wrap
    field is only ever written in the last layer, so it is a function of z. *)
Definition dz_per (nz z : Z) : list lookup :=
  if z + 1 =? nz then [Lookup z NoWrap; Lookup 0 MinusLength]
  else [Lookup z NoWrap; Lookup (z + 1) NoWrap].
(** grid.cc:399-411, 412-424: dy_list and dx_list *)
Definition dxy_per (n x : Z) : list lookup :=
  if x =? 0 then [Lookup x NoWrap; Lookup (x + 1) NoWrap; Lookup (n - 1) PlusLength]
  else if x + 1 =? n then [Lookup x NoWrap; Lookup (x - 1) NoWrap; Lookup 0 MinusLength]
  else [Lookup x NoWrap; Lookup (x - 1) NoWrap; Lookup (x + 1) NoWrap].

(** Mutable variables of grid.cc:432-484 for one search cell: virtual_search_index,
    wrap_vector (in box lengths), current_wrap_vector, the translation the copied list
    [search] has accumulated, and the calls made so far. *)
Record scan := Scan {
  s_virt : c3; s_wrap : c3; s_cur : c3; s_trans : c3; s_out : list call }.

Definition set_x (c : c3) (v : Z) : c3 := (v, cy c, cz c).
Definition set_y (c : c3) (v : Z) : c3 := (cx c, v, cz c).
Definition set_z (c : c3) (v : Z) : c3 := (cx c, cy c, v).
Definition sub3 (a b : c3) : c3 := (cx a - cx b, cy a - cy b, cz a - cz b).
Definition add3 (a b : c3) : c3 := (cx a + cx b, cy a + cy b, cz a + cz b).
Definition eq3 (a b : c3) : bool := (cx a =? cx b) && (cy a =? cy b) && (cz a =? cz b).

(** grid.cc:455-479: body of the dx loop *)
Definition scan_x (n : c3) (i : Z) (dz dy : lookup) (s : scan) (dx : lookup) : scan :=
  let s := match l_wrap dx with
    | MinusLength => Scan (set_x (s_virt s) (-1)) (set_x (s_wrap s) (-1)) (s_cur s) (s_trans s) (s_out s)
    | PlusLength => Scan (set_x (s_virt s) (cx n)) (set_x (s_wrap s) 1) (s_cur s) (s_trans s) (s_out s)
    | NoWrap => s end in
  let nb := make_index n (l_index dx, l_index dy, l_index dz) in
  if nb <=? make_index n (s_virt s) then s else
  let s := if eq3 (s_wrap s) (s_cur s) then s
    else Scan (s_virt s) (s_wrap s) (s_wrap s)
              (add3 (s_trans s) (sub3 (s_wrap s) (s_cur s))) (s_out s) in
  Scan (s_virt s) (s_wrap s) (s_cur s) (s_trans s) (s_out s ++ [Pair i (s_trans s) nb]).

(** grid.cc:444-483: body of the dy loop *)
Definition scan_y (n c : c3) (i : Z) (dz : lookup) (s : scan) (dy : lookup) : scan :=
  let s := match l_wrap dy with
    | MinusLength => Scan (set_y (s_virt s) (-1)) (set_y (s_wrap s) (-1)) (s_cur s) (s_trans s) (s_out s)
    | PlusLength => Scan (set_y (s_virt s) (cy n)) (set_y (s_wrap s) 1) (s_cur s) (s_trans s) (s_out s)
    | NoWrap => s end in
  let s := fold_left (scan_x n i dz dy) (dxy_per (cx n) (cx c)) s in
  Scan (set_x (s_virt s) (cx c)) (set_x (s_wrap s) 0) (s_cur s) (s_trans s) (s_out s).

(** grid.cc:438-486: body of the dz loop *)
Definition scan_z (n c : c3) (i : Z) (s : scan) (dz : lookup) : scan :=
  let s := match l_wrap dz with
    | MinusLength => Scan (set_z (s_virt s) (-1)) (set_z (s_wrap s) (-1)) (s_cur s) (s_trans s) (s_out s)
    | _ => s end in
  let s := fold_left (scan_y n c i dz) (dxy_per (cy n) (cy c)) s in
  Scan (set_y (s_virt s) (cy c)) (set_y (s_wrap s) 0) (s_cur s) (s_trans s) (s_out s).

(** grid.cc:368-491 Grid<PeriodicBoundaries>::iterate_cells *)
Definition iterate_periodic (n : c3) : list call :=
  snd (for_ (cz n) (fun z => for_ (cy n) (fun y => for_ (cx n) (fun x (st : Z * list call) =>
    let '(i, out) := st in
    let s := Scan (x, y, z) (0, 0, 0) (0, 0, 0) (0, 0, 0) (out ++ [Search i]) in
    let s := fold_left (scan_z n (x, y, z) i) (dz_per (cz n) z) s in
    (i + 1, s_out s)))) (0, [])).

(** * Construction *)
(** A particle as the grid sees it: id, position, and whether
    xsec_scaling_factor(timestep_duration) > 0 (it can interact in this step). *)
Record gpart := GPart { g_id : Z; g_x : R; g_y : R; g_z : R; g_active : bool }.
Definition r3 := (R * R * R)%type.
Definition rx (c : r3) : R := fst (fst c).
Definition ry (c : r3) : R := snd (fst c).
Definition rz (c : r3) : R := snd c.

(** The arithmetic used: how a result is rounded, and std::nextafter(., 0). *)
Record arith := Arith { rnd : R -> R; prv : R -> R }.
(** IEEE doubles (nextafter(f, 0) for f >= 0) *)
Definition dbl : arith := Arith fl (fun f => if Req_bool f 0 then 0%R else pred radix2 fexp f).
(** exact reals; stepping down is by a relative 2^-53 *)
Definition exact : arith := Arith (fun x => x) (fun x => x * (1 - u))%R.

(** grid.cc:89-114 GridBase::find_min_and_length; front() of an empty list is
    undefined. *)
Definition find_min_and_length (A : arith) (ps : list gpart) : res (r3 * r3) :=
  match ps with
  | [] => UB UB_oob
  | p :: _ =>
    let mn := fold_left (fun m q => (Rmin (rx m) (g_x q), Rmin (ry m) (g_y q), Rmin (rz m) (g_z q))) ps
                        (g_x p, g_y p, g_z p) in
    let mx := fold_left (fun m q => (Rmax (rx m) (g_x q), Rmax (ry m) (g_y q), Rmax (rz m) (g_z q))) ps
                        (g_x p, g_y p, g_z p) in
    Ok (mn, (rnd A (rx mx - rx mn), rnd A (ry mx - ry mn), rnd A (rz mx - rz mn))%R)
  end.

(** grid.cc:146-149 floor(cbrt(n)): the integer cube root (the last-digit accuracy of
    the libm function is not modelled). *)
Definition icbrt (n : Z) : Z :=
  Z.of_nat (length (filter (fun k => Z.of_nat k ^ 3 <=? n) (seq 1 (Z.to_nat n)))).
Definition max_cells (periodic : bool) (count : Z) : Z :=
  if periodic then Z.max 2 (icbrt count) else icbrt count.

(** grid.cc:205-207: while (f * len >= n) f = nextafter(f, 0).  The fuel is shown to
    suffice (GridProofs). *)
Fixpoint shrink (fuel : nat) (A : arith) (len : R) (n : Z) (f : R) : res R :=
  match fuel with
  | O => UB UB_no_progress
  | S k => if Rle_bool (IZR n) (rnd A (f * len)) then shrink k A len n (prv A f) else Ok f
  end.

(** grid.cc:157-210: one direction of the loop over directions; result is
    (number_of_cells_[i], index_factor[i]). *)
Definition axis (A : arith) (periodic largest limited : bool) (maxc : Z) (maxlen len : R) : res (Z * R) :=
  let f0 := rnd A (1 / maxlen)%R in
  n0 <- (if largest then Ok 2
         else if Rlt_bool (rnd A (IZR INT_MAX / f0)%R) len then Throw E_overflow
         else let m := Zfloor (rnd A (len * f0)%R) in
              if in_i32 m then Ok m else UB UB_float_cast) ;;
  n1 <- (if (n0 =? 0) && negb periodic then Ok 1
         else if (n0 <? 2) && periodic then Throw E_runtime
         else if limited && (maxc <? n0) then Ok maxc else Ok n0) ;;
  f1 <- (if Rle_bool maxlen len
         then shrink 8 A len n1 (rnd A (IZR n1 / len)%R)
         else Ok f0) ;;
  Ok (n1, f1).

(** int arithmetic of make_index and of the size passed to cells_.resize *)
Definition make_index_int (n : c3) (x y z : Z) : res Z :=
  a <- sint (z * cy n) ;; b <- sint (a + y) ;; c <- sint (b * cx n) ;; sint (c + x).

(** grid.cc:254-257 numeric_cast<int>(floor((pos - min) * index_factor)): the
    static_cast is undefined out of int range; in range the value is integral, so the
    round-trip check passes. *)
Definition coord (A : arith) (pos mn f : R) : res Z :=
  let m := Zfloor (rnd A (rnd A (pos - mn) * f)%R) in
  if in_i32 m then Ok m else UB UB_float_cast.

Definition cell_index_for (A : arith) (n : c3) (mn f : r3) (p : gpart) : res Z :=
  x <- coord A (g_x p) (rx mn) (rx f) ;;
  y <- coord A (g_y p) (ry mn) (ry f) ;;
  z <- coord A (g_z p) (rz mn) (rz f) ;;
  make_index_int n x y z.

(** cells_[idx].push_back(p), release build (the debug build throws instead) *)
Definition push (cells : list (list gpart)) (idx : Z) (p : gpart) : res (list (list gpart)) :=
  if idx <? 0 then UB UB_oob else
  match nth_error cells (Z.to_nat idx) with
  | Some c => Ok (upd (Z.to_nat idx) (c ++ [p]) cells)
  | None => UB UB_oob
  end.

(** A constructed grid: number_of_cells_, cells_, length_.  cell_volume_ is not
    modelled. *)
Record grid := Grid { gr_n : c3; gr_cells : list (list gpart); gr_len : r3 }.

Definition eligible (incl : bool) (p : gpart) : bool := incl || g_active p.

(** grid.cc:119-272 Grid::Grid(min_and_length, ...) *)
Definition mk_grid (A : arith) (periodic : bool) (minlen : r3 * r3) (ps : list gpart)
    (maxlen : R) (limited incl largest : bool) : res grid :=
  let '(mn, len) := minlen in
  if negb periodic && largest then Ok (Grid (1, 1, 1) [ps] len) else
  let maxc := max_cells periodic (Z.of_nat (length ps)) in
  ax <- axis A periodic largest limited maxc maxlen (rx len) ;;
  ay <- axis A periodic largest limited maxc maxlen (ry len) ;;
  az <- axis A periodic largest limited maxc maxlen (rz len) ;;
  let n := (fst ax, fst ay, fst az) in
  if negb periodic && (cx n <=? 2) && (cy n <=? 2) && (cz n <=? 2) then
    Ok (Grid (1, 1, 1) [filter (eligible incl) ps] len)
  else
    s1 <- sint (cx n * cy n) ;; size <- sint (s1 * cz n) ;;
    let f := (snd ax, snd ay, snd az) in
    cells <- foldM (fun cells p =>
        if negb (eligible incl p) then Ok cells else
        i <- cell_index_for A n mn f p ;; push cells i p)
      (repeat [] (Z.to_nat size)) ps ;;
    Ok (Grid n cells len).

(** grid.h:112-122: the constructor that measures the particles itself *)
Definition mk_grid_auto (A : arith) (periodic : bool) (ps : list gpart)
    (maxlen : R) (limited incl largest : bool) : res grid :=
  ml <- find_min_and_length A ps ;; mk_grid A periodic ml ps maxlen limited incl largest.

(** iterate_cells of the two instances *)
Definition iterate (periodic : bool) (n : c3) : list call :=
  if periodic then iterate_periodic n else iterate_open n.

(** * The finder loops fed by the callbacks *)
(** A pair of particles offered to check_collision_two_part: ids, and the shift (in
    box lengths) applied to the first. *)
Definition offer := (Z * c3 * Z)%type.

(** scatteractionsfinder.cc:456-459 (two-particle part of find_actions_in_cell) and
    525-529 (find_actions_with_neighbors; geometric criteria). *)
Definition in_cell (c : list gpart) : list offer :=
  flat_map (fun p => flat_map (fun q =>
    if g_id p <? g_id q then [(g_id p, (0, 0, 0), g_id q)] else []) c) c.
Definition with_neighbors (c : list gpart) (s : c3) (c' : list gpart) : list offer :=
  flat_map (fun p => map (fun q => (g_id p, s, g_id q)) c') c.

(** cells_[i] *)
Definition cell (cells : list (list gpart)) (i : Z) : res (list gpart) :=
  if i <? 0 then UB UB_oob else
  match nth_error cells (Z.to_nat i) with Some c => Ok c | None => UB UB_oob end.

Definition do_call (cells : list (list gpart)) (k : call) : res (list offer) :=
  match k with
  | Search i => c <- cell cells i ;; Ok (in_cell c)
  | Pair i s j => c <- cell cells i ;; c' <- cell cells j ;; Ok (with_neighbors c s c')
  end.

(** experiment.h:2585-2610: all pairs offered to the collision finder in one step *)
Definition offers (periodic : bool) (g : grid) : res (list offer) :=
  os <- mapM (do_call (gr_cells g)) (iterate periodic (gr_n g)) ;; Ok (concat os).
