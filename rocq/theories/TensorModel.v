(** The energy-momentum tensor: src/include/smash/energymomentumtensor.h, src/energymomentumtensor.cc.
    Exact reals. The eigenvalues and eigenvectors computed by Eigen are an argument. *)
From Coq Require Import ZArith Reals List Bool.
From Verif Require Import Base VecModel.
Import ListNotations.
Open Scope R_scope.

(** tmn_type, energymomentumtensor.h:31: the ten stored components *)
Definition tensor : Type := list R.
Definition zero_tensor : tensor := repeat 0 10.
Definition at_ (T : tensor) (i : nat) : R := nth i T 0.
(** tmn_index, energymomentumtensor.h:55-68 *)
Definition tmn_index (mu nu : Z) : res nat :=
  if ((mu <? 4) && (nu <? 4) && (0 <=? mu) && (0 <=? nu))%Z
  then Ok (nth (Z.to_nat (mu + 4 * nu)) [0; 1; 2; 3; 1; 4; 5; 6; 2; 5; 7; 8; 3; 6; 8; 9]%nat 0%nat)
  else Throw E_invalid_argument.
(** operators, energymomentumtensor.h:158-226 *)
Definition map2 (f : R -> R -> R) (a b : tensor) : tensor := map (fun x => f (fst x) (snd x)) (combine a b).
Definition tadd := map2 Rplus.
Definition tsub := map2 Rminus.
Definition tscale (k : R) (T : tensor) : tensor := map (fun x => x * k) T.
Definition tdiv (T : tensor) (k : R) : tensor := map (fun x => x / k) T.
(** add_particle, energymomentumtensor.cc:141-154 and 156-160 *)
Definition add_particle (T : tensor) (p : vec4) : tensor :=
  let tmp := div3 (threevec p) (y0 p) in
  tadd T [y0 p; y1 p; y2 p; y3 p; y1 p * x1 tmp; y1 p * x2 tmp; y1 p * x3 tmp; y2 p * x2 tmp; y2 p * x3 tmp; y3 p * x3 tmp].
Definition scale4 (k : R) (p : vec4) : vec4 := V4 (y0 p * k) (y1 p * k) (y2 p * k) (y3 p * k).
Definition add_particle_factor (T : tensor) (p : vec4) (factor : R) : tensor :=
  if Req_EM_T factor 0 then T else add_particle T (scale4 factor p).
(** boosted, energymomentumtensor.cc:109-139: R = L A L *)
Definition comp4 (u : vec4) (i : nat) : R := match i with 0 => y0 u | 1 => y1 u | 2 => y2 u | _ => y3 u end%nat.
Definition amat (T : tensor) (i j : nat) : R :=
  at_ T (nth j (nth i [[0; 1; 2; 3]; [1; 4; 5; 6]; [2; 5; 7; 8]; [3; 6; 8; 9]]%nat []) 0%nat).
Definition lmat (u : vec4) (i j : nat) : R :=
  match i, j with
  | O, _ => comp4 u j
  | _, O => comp4 u i
  | _, _ => comp4 u j * (comp4 u i / (1 + y0 u)) + (if (i =? j)%nat then 1 else 0)
  end.
Definition sum4r (f : nat -> R) : R := f 0%nat + f 1%nat + f 2%nat + f 3%nat.
Definition rmat (T : tensor) (u : vec4) (i j : nat) : R :=
  sum4r (fun b => sum4r (fun a => lmat u i a * amat T a b) * lmat u b j).
Definition boosted (T : tensor) (u : vec4) : tensor :=
  map (fun ij => rmat T u (fst ij) (snd ij))
    [(0, 0); (0, 1); (0, 2); (0, 3); (1, 1); (1, 2); (1, 3); (2, 2); (2, 3); (3, 3)]%nat.
(** landau_frame_4velocity, energymomentumtensor.cc:23-107: [es] are the real parts of the eigenvalues and
    eigenvectors of T_mu^nu in the order in which Eigen returns them; the messages are left out *)
Fixpoint max_eigen (best : R * vec4) (es : list (R * vec4)) : R * vec4 :=
  match es with [] => best | e :: r => max_eigen (if Rlt_dec (fst best) (fst e) then e else best) r end.
Definition landau_velocity (e0 : R * vec4) (es : list (R * vec4)) : vec4 :=
  let tmp := snd (max_eigen e0 es) in
  let u := if Rlt_dec (y0 tmp) 0 then scale4 (-1) tmp else tmp in
  let u_sqr := sqr4 u in
  if Rlt_dec really_small u_sqr then scale4 (1 / sqrt u_sqr) u else V4 1 0 0 0.
