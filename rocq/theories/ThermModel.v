(** Model of forced thermalization: /repo/src/grandcan_thermalizer.cc,
    /repo/src/include/smash/grandcan_thermalizer.h.
    Reals are exact; the densities given by the equation of state are arguments (non-negative
    numbers), and so are all random draws.  The equation of state itself (hadgas_eos.cc) and the
    thermal momentum distribution are not modelled. *)
From Coq Require Import ZArith Reals List Bool Lra Lia.
From Verif Require Import Base VecModel MotionModel.
Import ListNotations.
Open Scope R_scope.

(** A sampled particle: strangeness, baryon number, charge, energy. *)
Record samp := Samp { sS : Z; sB : Z; sQ : Z; sE : R }.

(** ** Choice of a cell and of a species *)
(** The loop of sample_in_random_cell_*_algo, grandcan_thermalizer.cc:276-284 and .h:342-347:
    the cells are [N_in_cells_], [idx] is the index before the round (-1 at the start); reading
    behind the end is undefined. *)
Fixpoint choose_cell_loop (cells : list R) (partial r : R) (idx : Z) : res Z :=
  if Rlt_dec partial r then
    match cells with
    | [] => UB UB_oob
    | n :: rest => choose_cell_loop rest (partial + n) r (idx + 1)
    end
  else Ok idx.
(** cells_to_sample_[index]: a negative index is out of bounds *)
Definition choose_cell (cells : list R) (r : R) : res nat :=
  i <- choose_cell_loop cells 0 r (-1) ;; if (i <? 0)%Z then UB UB_oob else Ok (Z.to_nat i).
(** The species, grandcan_thermalizer.h:354-369: [sorts] are the densities of the species with the
    value of the condition; no species found leaves a null pointer that is dereferenced. *)
Fixpoint choose_sort (sorts : list (bool * R)) (sum r : R) (idx : nat) : res nat :=
  match sorts with
  | [] => UB UB_oob
  | (c, n) :: rest =>
    if c then if Rle_dec r (sum + n) then Ok idx else choose_sort rest (sum + n) r (S idx)
    else choose_sort rest sum r (S idx)
  end.

(** ** Mode sampling, thermalize_mode_algo, grandcan_thermalizer.cc:433-541 *)
(** Modes 1, 3 and 5 (440-450, 469-481, 497-510): sample until the energy and the positive
    charge suffice, keep only positive ones.  [draws] are the particles sampled one after the
    other; None if they run out before the loop ends. *)
Fixpoint up_loop (q : samp -> Z) (need : Z) (e0 : R) (energy : R) (plus : Z) (kept draws : list samp)
  : option (list samp * Z) :=
  if (if Rlt_dec energy e0 then true else (plus <? need)%Z) then
    match draws with
    | [] => None
    | p :: ds =>
      if (0 <? q p)%Z then up_loop q need e0 (energy + sE p) (plus + q p) (kept ++ [p]) ds
      else up_loop q need e0 (energy + sE p) plus kept ds
    end
  else Some (kept, plus).
(** Modes 2, 4 and 6 (453-464, 484-494, 513-526) *)
Fixpoint down_loop (q : samp -> Z) (need : Z) (plus minus : Z) (kept draws : list samp) : option (list samp) :=
  if (need <? plus + minus)%Z then
    match draws with
    | [] => None
    | p :: ds =>
      if (need <=? plus + minus + q p)%Z then down_loop q need plus (minus + q p) (kept ++ [p]) ds
      else down_loop q need plus minus kept ds
    end
  else Some kept.
(** Mode 7 (528-541) *)
Fixpoint energy_loop (e0 energy : R) (kept draws : list samp) : option (list samp) :=
  if Rlt_dec energy e0 then
    match draws with
    | [] => None
    | p :: ds => energy_loop e0 (energy + sE p) (kept ++ [p]) ds
    end
  else Some kept.
Definition zsum (f : samp -> Z) (l : list samp) : Z := fold_right (fun p s => (f p + s)%Z) 0%Z l.
Definition esum (l : list samp) : R := fold_right (fun p s => sE p + s) 0 l.

Definition mode_algo (E0 : R) (S0 B0 Q0 : Z) (d1 d2 d3 d4 d5 d6 d7 : list samp) : option (list samp) :=
  match up_loop sS S0 E0 0 0 [] d1 with
  | None => None
  | Some (l1, splus) =>
    match down_loop sS S0 splus 0 l1 d2 with
    | None => None
    | Some l2 =>
      match up_loop sB (B0 - zsum sB l2) (E0 - esum l2) 0 0 l2 d3 with
      | None => None
      | Some (l3, bplus) =>
        match down_loop sB (B0 - zsum sB l2) bplus 0 l3 d4 with
        | None => None
        | Some l4 =>
          match up_loop sQ (Q0 - zsum sQ l4) (E0 - esum l4) 0 0 l4 d5 with
          | None => None
          | Some (l5, eplus) =>
            match down_loop sQ (Q0 - zsum sQ l4) eplus 0 l5 d6 with
            | None => None
            | Some l6 => energy_loop (E0 - esum l6) 0 l6 d7
            end
          end
        end
      end
    end
  end.

(** ** BF sampling *)
Inductive hclass := Baryon | Antibaryon | PosS | NegS | PosQ | NegQ | Neutral.
Definition hclass_eqb (a b : hclass) : bool :=
  match a, b with
  | Baryon, Baryon | Antibaryon, Antibaryon | PosS, PosS | NegS, NegS | PosQ, PosQ | NegQ, NegQ
  | Neutral, Neutral => true
  | _, _ => false
  end.
(** A species of the hadron gas: quantum numbers and mean multiplicity mult_sort_. *)
Record sort := Sort { oB : Z; oS : Z; oQ : Z; mult : R }.
(** get_class, grandcan_thermalizer.h:445-458 *)
Definition get_class (t : sort) : hclass :=
  (if 0 <? oB t then Baryon else if oB t <? 0 then Antibaryon
   else if 0 <? oS t then PosS else if oS t <? 0 then NegS
   else if 0 <? oQ t then PosQ else if oQ t <? 0 then NegQ else Neutral)%Z.
(** mult_classes_, grandcan_thermalizer.cc:326-329 *)
Definition mult_class (c : hclass) (ts : list sort) : R :=
  fold_left (fun s t => if hclass_eqb (get_class t) c then s + mult t else s) ts 0.
(** sample_multinomial, grandcan_thermalizer.cc:223-250.  [bin i N p] is the value drawn by
    binomial(N, p) for species number i; [ints] is mult_int_.  For N <= 0 the loop ends. *)
Fixpoint multinomial (bin : nat -> Z -> R -> Z) (c : hclass) (i : nat) (sum : R) (N : Z) (ts : list sort) (ints : list Z) : list Z :=
  match ts, ints with
  | t :: ts', m :: ints' =>
    if (0 <? N)%Z then
      if hclass_eqb (get_class t) c then
        let n := bin i N (mult t / sum) in
        n :: multinomial bin c (S i) (sum - mult t) (N - n) ts' ints'
      else m :: multinomial bin c (S i) sum N ts' ints'
    else ints
  | _, _ => ints
  end.
Definition sample_multinomial (bin : nat -> Z -> R -> Z) (c : hclass) (N : Z) (ts : list sort) (ints : list Z) : list Z :=
  multinomial bin c 0 (mult_class c ts) N ts ints.
Definition sampled (f : sort -> Z) (ts : list sort) (ints : list Z) : Z :=
  fold_left Z.add (map (fun '(t, n) => (f t * n)%Z) (combine ts ints)) 0%Z.

(** One round of thermalize_BF_algo, grandcan_thermalizer.cc:336-395: the binomial draws of
    the seven calls, the Bessel pairs of baryons, strange and charged mesons (or the Poisson pairs
    of the unbiased variant, which has the two checks) and the Poisson number of neutral mesons.
    None: the round is rejected.  The energy check of the microcanonical option is not modelled: it
    only rejects rounds. *)
Definition bf_round (biased : bool) (S0 Q0 : Z) (ts : list sort) (bins : hclass -> nat -> Z -> R -> Z)
    (NB : Z * Z) (NS : Z -> Z * Z) (NQ : Z -> Z * Z) (N0 : Z) : option (list Z) :=
  let m0 := map (fun _ => 0%Z) ts in
  let m1 := sample_multinomial (bins Baryon) Baryon (fst NB) ts m0 in
  let m2 := sample_multinomial (bins Antibaryon) Antibaryon (snd NB) ts m1 in
  let ds := (S0 - sampled oS ts m2)%Z in
  let ns := NS ds in
  if negb biased && negb (fst ns - snd ns =? ds)%Z then None
  else
    let m3 := sample_multinomial (bins PosS) PosS (fst ns) ts m2 in
    let m4 := sample_multinomial (bins NegS) NegS (snd ns) ts m3 in
    let dq := (Q0 - sampled oQ ts m4)%Z in
    let nq := NQ dq in
    if negb biased && negb (fst nq - snd nq =? dq)%Z then None
    else
      let m5 := sample_multinomial (bins PosQ) PosQ (fst nq) ts m4 in
      let m6 := sample_multinomial (bins NegQ) NegQ (snd nq) ts m5 in
      Some (sample_multinomial (bins Neutral) Neutral N0 ts m6).

(** ** renormalize_momenta, grandcan_thermalizer.cc:161-221 *)
(** A particle: mass and momentum. *)
Record tpart := TPart { tm : R; tmom : vec4 }.
Definition tsum (l : list tpart) : vec4 := fold_left add4 (map tmom l) zero4.
(** 165-176: the same vector is added to all three-momenta, energies from the masses *)
Definition centralize (req : vec4) (l : list tpart) : list tpart :=
  let d := div3 (sub3 (threevec req) (threevec (tsum l))) (INR (length l)) in
  map (fun p => TPart (tm p) (on_shell (tm p) (add3 (threevec (tmom p)) d))) l.
Definition tboost (v : vec3) (l : list tpart) : list tpart := map (fun p => TPart (tm p) (boost v (tmom p))) l.
(** the energy for a scaling by 1 + a, 204-209 *)
Definition scaled_energy (a : R) (l : list tpart) : R :=
  fold_left (fun e p => e + sqrt (y0 (tmom p) * y0 (tmom p) + a * (a + 2) * sqr3 (threevec (tmom p)))) l 0.
(** the do-while loop, 201-218: at most [n] rounds in all (100 in the code) *)
Fixpoint bisect (n : nat) (l : list tpart) (E : R) (lo hi : R) : R :=
  let a := / 2 * (lo + hi) in
  let er := scaled_energy a l - E in
  let '(lo', hi') := if Rle_dec 0 er then (lo, a) else (a, hi) in
  match n with
  | S (S k as n') => if Rlt_dec (/ 1000000) (Rabs er) then bisect n' l E lo' hi' else a
  | _ => a
  end.
Definition renormalize (req : vec4) (l : list tpart) : list tpart :=
  let l1 := centralize req l in
  let l2 := tboost (velocity (tsum l1)) l1 in
  let E := fold_left (fun e p => e + y0 (tmom p)) l2 0 in
  let M := sqrt (sqr4 req) in
  let a := if Rle_dec E M then bisect 100 l2 M 0 10 else bisect 100 l2 M (-1) 0 in
  map (fun p => TPart (tm p) (boost (neg3 (velocity req)) (on_shell (tm p) (scale3 (1 + a) (threevec (tmom p)))))) l2.

(** ** When and what *)
(** is_time_to_thermalize, grandcan_thermalizer.h:229-234 *)
Definition is_time (t_start period t dt : R) : bool :=
  let n := Int_part ((t - t_start) / period) in
  if Rlt_dec t_start t then if Rlt_dec t (t_start + IZR n * period + dt) then true else false else false.
(** The selection in thermalize, grandcan_thermalizer.cc:549-569: [energy_at] is the energy
    density of the node at the position of the particle, None off the lattice. *)
Definition to_remove {P} (energy_at : P -> option R) (e_crit : R) (ps : list P) : list P :=
  let l := filter (fun p => match energy_at p with Some e => if Rlt_dec e_crit e then true else false | None => false end) ps in
  if (30 <? length l)%nat then l else [].
