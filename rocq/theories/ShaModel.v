(** Model of src/sha256.cc and src/include/smash/sha256.h.

    Bytes and machine words are integers; sizes and positions are natural numbers, which is
    faithful because size_t cannot overflow here (all sizes are lengths of real buffers).
    A uint32_t sum is reduced once, when it is stored, instead of after every addition; this
    is the same number.  (W\[i\] is computed in 64 bits in the source, since macro R uses an
    unsigned long mask, and cut when stored.) *)
From Coq Require Import ZArith List Bool String Ascii.
Import ListNotations.
From Verif Require Import Base.
Open Scope Z_scope.

(** ** sha256.cc:20-65, the macros *)
Definition ror (x n : Z) : Z := Z.lor (Z.shiftr x n) (u32 (Z.shiftl x (32 - n))).
Definition store32h (x : Z) : list Z :=
  [Z.land (Z.shiftr x 24) 255; Z.land (Z.shiftr x 16) 255; Z.land (Z.shiftr x 8) 255; Z.land x 255].
(** reads four bytes from position [i] *)
Definition load32h (b : list Z) (i : nat) : Z :=
  Z.lor (Z.lor (Z.lor (Z.shiftl (Z.land (nth i b 0) 255) 24) (Z.shiftl (Z.land (nth (i + 1) b 0) 255) 16))
               (Z.shiftl (Z.land (nth (i + 2) b 0) 255) 8))
        (Z.land (nth (i + 3) b 0) 255).
Definition store64h (x : Z) : list Z :=
  [Z.land (Z.shiftr x 56) 255; Z.land (Z.shiftr x 48) 255; Z.land (Z.shiftr x 40) 255; Z.land (Z.shiftr x 32) 255;
   Z.land (Z.shiftr x 24) 255; Z.land (Z.shiftr x 16) 255; Z.land (Z.shiftr x 8) 255; Z.land x 255].
Definition ch (x y z : Z) : Z := Z.lxor z (Z.land x (Z.lxor y z)).
Definition maj (x y z : Z) : Z := Z.lor (Z.land (Z.lor x y) z) (Z.land x y).
Definition shr (x n : Z) : Z := Z.shiftr (Z.land x 0xFFFFFFFF) n.
Definition big_sigma0 (x : Z) : Z := Z.lxor (Z.lxor (ror x 2) (ror x 13)) (ror x 22).
Definition big_sigma1 (x : Z) : Z := Z.lxor (Z.lxor (ror x 6) (ror x 11)) (ror x 25).
Definition gamma0 (x : Z) : Z := Z.lxor (Z.lxor (ror x 7) (ror x 18)) (shr x 3).
Definition gamma1 (x : Z) : Z := Z.lxor (Z.lxor (ror x 17) (ror x 19)) (shr x 10).

(** sha256.cc:69-84 *)
Definition K : list Z :=
  [0x428a2f98; 0x71374491; 0xb5c0fbcf; 0xe9b5dba5; 0x3956c25b; 0x59f111f1; 0x923f82a4; 0xab1c5ed5;
   0xd807aa98; 0x12835b01; 0x243185be; 0x550c7dc3; 0x72be5d74; 0x80deb1fe; 0x9bdc06a7; 0xc19bf174;
   0xe49b69c1; 0xefbe4786; 0x0fc19dc6; 0x240ca1cc; 0x2de92c6f; 0x4a7484aa; 0x5cb0a9dc; 0x76f988da;
   0x983e5152; 0xa831c66d; 0xb00327c8; 0xbf597fc7; 0xc6e00bf3; 0xd5a79147; 0x06ca6351; 0x14292967;
   0x27b70a85; 0x2e1b2138; 0x4d2c6dfc; 0x53380d13; 0x650a7354; 0x766a0abb; 0x81c2c92e; 0x92722c85;
   0xa2bfe8a1; 0xa81a664b; 0xc24b8b70; 0xc76c51a3; 0xd192e819; 0xd6990624; 0xf40e3585; 0x106aa070;
   0x19a4c116; 0x1e376c08; 0x2748774c; 0x34b0bcb5; 0x391c0cb3; 0x4ed8aa4a; 0x5b9cca4f; 0x682e6ff3;
   0x748f82ee; 0x78a5636f; 0x84c87814; 0x8cc70208; 0x90befffa; 0xa4506ceb; 0xbef9a3f7; 0xc67178f2].

(** sha256.h:28-37.  [buf] always has 64 elements; uninitialised ones have some value. *)
Record ctx := Ctx { length_ : Z; state_ : list Z; curlen : nat; buf : list Z }.

(** sha256.cc:58-62 Sha256Round and sha256.cc:120-130, one pass of the compression loop:
    the new array S *)
Definition round (W : list Z) (S : list Z) (i : nat) : list Z :=
  let s n := nth n S 0 in
  let t0 := u32 (s 7%nat + big_sigma1 (s 4%nat) + ch (s 4%nat) (s 5%nat) (s 6%nat) + nth i K 0 + nth i W 0) in
  let t1 := u32 (big_sigma0 (s 0%nat) + maj (s 0%nat) (s 1%nat) (s 2%nat)) in
  let S := upd 3 (u32 (s 3%nat + t0)) S in
  let S := upd 7 (u32 (t0 + t1)) S in
  let t := nth 7 S 0 in
  let S := upd 7 (nth 6 S 0) S in
  let S := upd 6 (nth 5 S 0) S in
  let S := upd 5 (nth 4 S 0) S in
  let S := upd 4 (nth 3 S 0) S in
  let S := upd 3 (nth 2 S 0) S in
  let S := upd 2 (nth 1 S 0) S in
  let S := upd 1 (nth 0 S 0) S in
  upd 0 t S.
(** sha256.cc:113-116 *)
Definition fill (W : list Z) (i : nat) : list Z :=
  upd i (u32 (gamma1 (nth (i - 2) W 0) + nth (i - 7) W 0 + gamma0 (nth (i - 15) W 0) + nth (i - 16) W 0)) W.
(** sha256.cc:94-136 transform_function: the new state_ from the old one and a 64-byte
    buffer.  [W] starts uninitialised, here zero; it is written before it is read. *)
Definition transform (state buffer : list Z) : list Z :=
  let W := fold_left (fun W i => upd i (load32h buffer (4 * i)) W) (seq 0 16) (repeat 0 64) in
  let W := fold_left fill (seq 16 48) W in
  let S := fold_left (round W) (seq 0 64) state in
  fold_left (fun st i => upd i (u32 (nth i st 0 + nth i S 0)) st) (seq 0 8) state.

(** sha256.cc:140-151 reset (the buffer is not touched) *)
Definition initial_state : list Z :=
  [0x6A09E667; 0xBB67AE85; 0x3C6EF372; 0xA54FF53A; 0x510E527F; 0x9B05688C; 0x1F83D9AB; 0x5BE0CD19].
Definition reset (c : ctx) : ctx := Ctx 0 initial_state 0 (buf c).

(** std::memcpy(buf_ + pos, src, n) with n = length of [src] *)
Definition copy_to (pos : nat) (src b : list Z) : list Z :=
  (firstn pos b ++ src ++ skipn (pos + List.length src) b)%list.

(** sha256.cc:153-179 update; [fuel] bounds the passes of the loop and running out of it
    is reported as a loop without end *)
Fixpoint update_loop (fuel : nat) (c : ctx) (buffer : list Z) : res ctx :=
  match buffer with
  | [] => Ok c
  | _ =>
    match fuel with
    | O => UB UB_no_progress
    | S fuel =>
      if ((curlen c =? 0) && (64 <=? List.length buffer))%nat then
        update_loop fuel (Ctx (u64 (length_ c + 64 * 8)) (transform (state_ c) buffer) (curlen c) (buf c)) (skipn 64 buffer)
      else
        let n := Nat.min (List.length buffer) (64 - curlen c) in
        let b := copy_to (curlen c) (firstn n buffer) (buf c) in
        let c' := Ctx (length_ c) (state_ c) (curlen c + n) b in
        let c' := if (curlen c' =? 64)%nat then Ctx (u64 (length_ c' + 8 * 64)) (transform (state_ c') b) 0 b else c' in
        update_loop fuel c' (skipn n buffer)
    end
  end.
Definition update (c : ctx) (buffer : list Z) : res ctx :=
  if (64 <? curlen c)%nat then Ok c else update_loop (S (List.length buffer)) c buffer.

(** sha256.cc:185-224 finalize: digest and context afterwards *)
Definition zero_fill (from upto : nat) (b : list Z) : list Z := fold_left (fun b i => upd i 0 b) (seq from (upto - from)) b.
Definition finalize (c : ctx) : list Z * ctx :=
  if (64 <=? curlen c)%nat then (repeat 0 32, c) else
  let len := u64 (length_ c + Z.of_nat (curlen c) * 8) in
  let b := upd (curlen c) 128 (buf c) in
  let cur := (curlen c + 1)%nat in
  let '(st, b, cur) :=
    if (56 <? cur)%nat then let b := zero_fill cur 64 b in (transform (state_ c) b, b, 0%nat)
    else (state_ c, b, cur) in
  let b := zero_fill cur 56 b in
  let b := copy_to 56 (store64h len) b in
  let st := transform st b in
  (flat_map (fun i => store32h (nth i st 0)) (seq 0 8), Ctx len st 56 b).

(** sha256.cc:226-230 calculate.  [garbage] is the uninitialised buffer. *)
Definition calculate (garbage : list Z) (message : list Z) : res (list Z) :=
  c <- update (reset (Ctx 0 [] 0 garbage)) message ;; Ok (fst (finalize c)).

(** sha256.cc:232-239 hash_to_string: each byte in base 16, padded to two digits *)
Definition hex_digit (d : Z) : ascii :=
  nth (Z.to_nat d) ["0"; "1"; "2"; "3"; "4"; "5"; "6"; "7"; "8"; "9"; "a"; "b"; "c"; "d"; "e"; "f"]%char "0"%char.
Fixpoint hex_number (fuel : nat) (n : Z) : list ascii :=
  match fuel with
  | O => []
  | S f => if n <? 16 then [hex_digit n] else (hex_number f (n / 16) ++ [hex_digit (n mod 16)])%list
  end.
Definition setw2 (l : list ascii) : list ascii := (repeat "0"%char (2 - List.length l) ++ l)%list.
Definition hash_to_string (h : list Z) : list ascii := flat_map (fun b => setw2 (hex_number 4 b)) h.
