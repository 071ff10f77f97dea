(** Model of reactions of three, four or five particles: /repo/src/scatteractionmulti.cc,
    /repo/src/include/smash/scatteractionmulti.h.
    Particles are represented by their PDG words where only the species matters.  [known w]
    says whether ParticleType::try_find finds the species in the particle list.
    The weights (probabilities) are represented by the factor multiplying the phase space
    and cross-section parts: symmetry factor times outgoing over incoming spin degeneracy,
    kept as numerator and denominator. *)
From Coq Require Import ZArith List Bool Reals.
From Verif Require Import Base PdgModel VecModel MotionModel.
Import ListNotations.
Open Scope Z_scope.
Open Scope bool_scope.

(** pdgcode_constants.h:28-124; the negative constants have bit 31 set (PdgCode(int),
    pdgcode.h:1020-1040), the nuclei are read from their 10 digits 10LZZZAAAI. *)
Definition anti (w : pdg) : pdg := w + 2 ^ 31.
Definition w_p : pdg := 8722.        (* 0x2212 *)
Definition w_n : pdg := 8466.        (* 0x2112 *)
Definition w_La : pdg := 12578.      (* 0x3122 *)
Definition w_pip : pdg := 529.       (* 0x211 *)
Definition w_piz : pdg := 273.       (* 0x111 *)
Definition w_pim : pdg := anti 529.
Definition w_eta : pdg := 545.       (* 0x221 *)
Definition w_etap : pdg := 817.      (* 0x331 *)
Definition w_omega : pdg := 547.     (* 0x223 *)
Definition w_phi : pdg := 819.       (* 0x333 *)
Definition w_d : pdg := pack_nucleus 0 0 1 2 0.
Definition w_ad : pdg := pack_nucleus 1 0 1 2 0.
Definition w_t : pdg := pack_nucleus 0 0 1 3 0.
Definition w_at : pdg := pack_nucleus 1 0 1 3 0.
Definition w_he3 : pdg := pack_nucleus 0 0 2 3 0.
Definition w_ahe3 : pdg := pack_nucleus 1 0 2 3 0.
Definition w_ht : pdg := pack_nucleus 0 1 1 3 0.
Definition w_aht : pdg := pack_nucleus 1 1 1 3 0.

(** code(), pdgcode.h:318-319 *)
Definition code (w : pdg) : Z := asign w * ucode w.
(** is_pion, pdgcode.h:471-474 *)
Definition is_pion (w : pdg) : bool := (code w =? 273) || (code w =? 529) || (code w =? -529).
(** is_nucleon, pdgcode.h:404-407: antinucleons included *)
Definition is_nucleon (w : pdg) : bool := (Z.abs (code w) =? 8722) || (Z.abs (code w) =? 8466).
(** is_hyperon and is_Lambda, pdgcode.h:443-450 *)
Definition is_Lambda (w : pdg) : bool :=
  is_hadron w && (n_q1 w =? 3) && (n_q2 w =? 1) && (n_q3 w =? 2).
(** spin_degeneracy, pdgcode.h:712-717 *)
Definition sdeg (w : pdg) : res Z :=
  if is_hadron w && (0 <? n_J w) then Ok (n_J w) else s <- spin w ;; Ok (s + 1).

(** nucleus_p … nucleus_aLa, pdgcode.h:876-903 *)
Definition nucleus_p w := if is_nucleus w && negb (is_anti w) then nuc_Z w else 0.
Definition nucleus_n w := if is_nucleus w && negb (is_anti w) then nuc_A w - nuc_Z w - nuc_L w else 0.
Definition nucleus_La w := if is_nucleus w && negb (is_anti w) then nuc_L w else 0.
Definition nucleus_ap w := if is_nucleus w && is_anti w then nuc_Z w else 0.
Definition nucleus_an w := if is_nucleus w && is_anti w then nuc_A w - nuc_Z w - nuc_L w else 0.
Definition nucleus_aLa w := if is_nucleus w && is_anti w then nuc_L w else 0.

(** A reaction channel: outgoing species and the factor num / den in its weight. *)
Record channel := Channel { out : list pdg; num : Z; den : Z }.

(** three_different_pions, scatteractionmulti.cc:609-619 *)
Definition three_different_pions (a b c : pdg) : bool :=
  (is_pion a && is_pion b && is_pion c) && (negb (a =? b) && negb (b =? c) && negb (c =? a)).
(** two_pions_eta, scatteractionmulti.cc:621-640 *)
Definition two_pions_eta (a b c : pdg) : bool :=
  ((a =? w_piz) && (b =? w_piz) && (c =? w_eta)) ||
  ((a =? w_piz) && (b =? w_eta) && (c =? w_piz)) ||
  ((a =? w_eta) && (b =? w_piz) && (c =? w_piz)) ||
  ((a =? w_eta) && (b =? w_pim) && (c =? w_pip)) ||
  ((a =? w_eta) && (b =? w_pip) && (c =? w_pim)) ||
  ((a =? w_pim) && (b =? w_pip) && (c =? w_eta)) ||
  ((a =? w_pim) && (b =? w_eta) && (c =? w_pip)) ||
  ((a =? w_pip) && (b =? w_pim) && (c =? w_eta)) ||
  ((a =? w_pip) && (b =? w_eta) && (c =? w_pim)).

(** 3 -> 1, scatteractionmulti.cc:61-103.  No division by the spin degeneracy of the
    incoming particles: the denominator is 1. *)
Definition mesons_to (known : pdg -> bool) (w : pdg) (sym : Z) : res (list channel) :=
  if known w then g <- sdeg w ;; Ok [Channel [w] (sym * g) 1] else Ok [].
Definition three_to_one (known : pdg -> bool) (a b c : pdg) : res (list channel) :=
  if three_different_pions a b c then
    l <- mesons_to known w_omega 1 ;; m <- mesons_to known w_phi 1 ;; Ok (l ++ m)
  else if two_pions_eta a b c then
    mesons_to known w_etap (if (a =? b) || (b =? c) || (c =? a) then 2 else 1)
  else Ok [].

(** The six orders in which one particle of a kind and the two given species are met,
    scatteractionmulti.cc:122-127, 149-154, 176-181, 225-230 *)
Definition six_orders (kind : pdg -> bool) (p n a b c : pdg) : bool :=
  (kind a && (b =? p) && (c =? n)) || (kind a && (b =? n) && (c =? p)) ||
  ((a =? p) && kind b && (c =? n)) || ((a =? n) && kind b && (c =? p)) ||
  ((a =? p) && (b =? n) && kind c) || ((a =? n) && (b =? p) && kind c).

(** add_reaction with react_degen_factor (scatteractionmulti.h:286-291) *)
Definition two_out (sym gin o1 o2 : Z) : res channel :=
  g1 <- sdeg o1 ;; g2 <- sdeg o2 ;; Ok (Channel [o1; o2] (sym * (g1 * g2)) gin).

(** pion as catalyst, scatteractionmulti.cc:128-147, 155-174; [find] finds the pion, which
    exists under the condition (otherwise end() would be dereferenced) *)
Definition pion_catalyst (p n d gin a b c : pdg) : res (list channel) :=
  if six_orders is_pion p n a b c then
    match find is_pion [a; b; c] with
    | Some x => ch <- two_out 1 gin x d ;; Ok [ch]
    | None => UB UB_oob
    end
  else Ok [].
(** nucleon as catalyst, scatteractionmulti.cc:176-222, 225-271; [sign] is the
    antiparticle_sign searched for *)
Definition nucleon_catalyst (p n d : pdg) (sign : Z) (gin a b c : pdg) : res (list channel) :=
  if six_orders is_nucleon p n a b c then
    let '(x, sym) :=
      match find (fun w => asign w =? sign) [a; b; c] with
      | Some x => (x, 1)
      | None => ((if a =? b then a else c), 2)
      end in
    ch <- two_out sym gin x d ;; Ok [ch]
  else Ok [].

(** 3 -> 2, scatteractionmulti.cc:106-273 *)
Definition three_to_two (known : pdg -> bool) (a b c : pdg) : res (list channel) :=
  ga <- sdeg a ;; gb <- sdeg b ;; gc <- sdeg c ;;
  let gin := ga * gb * gc in
  if known w_d && known w_ad then
    l1 <- pion_catalyst w_p w_n w_d gin a b c ;;
    l2 <- pion_catalyst (anti w_p) (anti w_n) w_ad gin a b c ;;
    l3 <- nucleon_catalyst w_p w_n w_d (-1) gin a b c ;;
    l4 <- nucleon_catalyst (anti w_p) (anti w_n) w_ad 1 gin a b c ;;
    Ok (l1 ++ l2 ++ l3 ++ l4)
  else Ok [].

(** std::map<PdgCode, int> c, scatteractionmulti.cc:278-283: the counts, and the keys of the
    incoming particles in the order of the map.  Keys created by operator[] for species
    that are not incoming hold zero (before and after the subtraction) and are left out. *)
Definition cnt (k : pdg) (l : list pdg) : Z := Z.of_nat (count_occ Z.eq_dec l k).
Fixpoint kinsert (k : pdg) (l : list pdg) : list pdg :=
  match l with
  | [] => [k]
  | x :: r => if pdg_lt k x then k :: l else if pdg_lt x k then x :: kinsert k r else l
  end.
Definition keys (l : list pdg) : list pdg := fold_right kinsert [] l.

(** what is subtracted from the count of a species, scatteractionmulti.cc:323-329 *)
Definition comp (nuc k : pdg) : Z :=
  if k =? w_p then nucleus_p nuc else if k =? anti w_p then nucleus_ap nuc
  else if k =? w_n then nucleus_n nuc else if k =? anti w_n then nucleus_an nuc
  else if k =? w_La then nucleus_La nuc else if k =? anti w_La then nucleus_aLa nuc else 0.

(** scatteractionmulti.cc:285-288 *)
Definition possible_catalysts (l : list pdg) : Z :=
  cnt w_n l + cnt w_p l + cnt (anti w_p) l + cnt (anti w_n) l + cnt w_pip l + cnt w_piz l
  + cnt w_pim l.
(** can_form_nucleus, scatteractionmulti.cc:300-315 *)
Definition can_form (known : pdg -> bool) (nuc : pdg) (l : list pdg) : bool :=
  known nuc &&
  ((nucleus_p nuc <=? cnt w_p l) && (nucleus_ap nuc <=? cnt (anti w_p) l) &&
   (nucleus_n nuc <=? cnt w_n l) && (nucleus_an nuc <=? cnt (anti w_n) l) &&
   (nucleus_La nuc <=? cnt w_La l) && (nucleus_aLa nuc <=? cnt (anti w_La) l)) &&
  (possible_catalysts l
   - (nucleus_p nuc + nucleus_ap nuc + nucleus_n nuc + nucleus_an nuc) =? 1).
(** symmetry_factor, scatteractionmulti.cc:348-357 *)
Definition sym4 (l : list pdg) : Z :=
  fold_left (fun f k => f * (if cnt k l =? 3 then 6 else if cnt k l =? 2 then 2 else 1)) (keys l) 1.

Fixpoint spin_product (l : list pdg) : res Z :=
  match l with
  | [] => Ok 1
  | w :: r => g <- sdeg w ;; h <- spin_product r ;; Ok (g * h)
  end.

(** scatteractionmulti.cc:290-365: one nucleus of the list.  A catalyst that is not found
    leaves the invalid code, whose null type pointer is dereferenced. *)
Definition four_one (known : pdg -> bool) (l : list pdg) (gin : Z) (nuc : pdg) : res (list channel) :=
  if can_form known nuc l then
    match find (fun k => cnt k l - comp nuc k =? 1) (keys l) with
    | Some k => if known k then ch <- two_out (sym4 l) gin k nuc ;; Ok [ch] else UB UB_oob
    | None => UB UB_oob
    end
  else Ok [].
Definition a3_nuclei : list pdg := [w_t; w_at; w_he3; w_ahe3; w_ht; w_aht].
Definition four_to_two (known : pdg -> bool) (l : list pdg) : res (list channel) :=
  gin <- spin_product l ;;
  ls <- mapM (four_one known l gin) a3_nuclei ;; Ok (concat ls).

(** all_incoming_particles_are_pions_have_zero_charge_only_one_piz, scatteractionmulti.cc:642-660 *)
Definition five_pions (l : list pdg) : bool :=
  forallb is_pion l && (fold_left (fun s w => s + charge w) l 0 =? 0) && (cnt w_piz l =? 1).
(** 5 -> 2, scatteractionmulti.cc:368-407.  The types of proton and antiproton are
    dereferenced for the spin factor before it is checked that they exist. *)
Definition five_to_two (known : pdg -> bool) (l : list pdg) : res (list channel) :=
  if five_pions l then
    gin <- spin_product l ;;
    if known w_p && known (anti w_p) then
      gp <- sdeg w_p ;; ga <- sdeg (anti w_p) ;;
      if known w_n then
        if known (anti w_n) then
          Ok [Channel [w_p; anti w_p] (4 * (gp * ga)) gin; Channel [w_n; anti w_n] (4 * (gp * ga)) gin]
        else UB UB_oob
      else Ok []
    else UB UB_oob
  else Ok [].

(** IncludedMultiParticleReactions, forwarddeclarations.h *)
Record included := Incl { meson31 : bool; deut32 : bool; a3_42 : bool; nnbar52 : bool }.

(** add_possible_reactions, scatteractionmulti.cc:57-408 *)
Definition add_possible_reactions (known : pdg -> bool) (i : included) (l : list pdg) : res (list channel) :=
  match l with
  | [a; b; c] =>
    l1 <- (if meson31 i then three_to_one known a b c else Ok []) ;;
    l2 <- (if deut32 i then three_to_two known a b c else Ok []) ;;
    Ok (l1 ++ l2)
  | [_; _; _; _] => if a3_42 i then four_to_two known l else Ok []
  | [_; _; _; _; _] => if nnbar52 i then five_to_two known l else Ok []
  | _ => Ok []
  end.

Open Scope R_scope.
(** parametrizaton_phi4, scatteractionmulti.cc:516-560 (without the constant denominator
    840 sqrt 2 pi^4); [g] by the numbers of nucleons, pions and Lambdas; Rpower is std::pow
    for positive bases (pow(0, y) = 0). *)
Definition phi4_g (nn np nl : Z) (x : R) : R :=
  if (nn =? 3)%Z && (np =? 1)%Z then
    (1 + 862432/1000000 * x - 34853/10000 * (x * x) + 170259/100000 * (x * x * x)) /
    (1 + 387376/1000000 * x - 134128/100000 * (x * x) + 154489/1000000 * (x * x * x))
  else if (nn =? 4)%Z then
    (1 - 172285/100000 * x + 728331/1000000 * (x * x)) /
    (1 - 967146/1000000 * x - 103633/10000000 * (x * x))
  else if (nn =? 2)%Z && (nl =? 1)%Z && (np =? 1)%Z then
    (1 + 937064/1000000 * x - 356864/100000 * (x * x) + 1721/1000 * (x * x * x)) /
    (1 + 365202/1000000 * x - 12854/10000 * (x * x) + 138444/1000000 * (x * x * x))
  else if (nn =? 3)%Z && (nl =? 1)%Z then
    (1 + 882401/1000000 * x - 34074/10000 * (x * x) + 162454/100000 * (x * x * x)) /
    (1 + 161741/100000 * x - 212543/100000 * (x * x) - 902067/10000000 * (x * x * x))
  else -1.
Definition zcount (f : pdg -> bool) (l : list pdg) : Z := Z.of_nat (length (filter f l)).
Definition phi4 (l : list pdg) (masses : list R) (s : R) : R :=
  let sum_m := fold_left Rplus masses 0 in
  let prod_m := fold_left Rmult masses 1 in
  let x := 1 - sum_m / sqrt s in
  let g := phi4_g (zcount is_nucleon l) (zcount is_pion l) (zcount is_Lambda l) x in
  if Rlt_dec 0 g then
    (sqrt prod_m * (sum_m * sum_m) * (if Rlt_dec 0 x then Rpower x (7 / 2) else 0) * g) /
    ((1 - x) * (1 - x) * (1 - x) * (1 - x))
  else 0.

(** annihilation (scatteractionmulti.cc:582-600) and n_to_two (602-607), followed by the boost to
    the computational frame (401-412).  [ptot] is total_momentum_of_outgoing_particles(); the
    two-body momenta are those of sample_2body_phasespace (action.cc:305-314): the masses of the
    outgoing particles and the direction [u] are drawn. *)
Definition generate_final_state (ptot : vec4) (masses : list R) (u : vec3) : res (list vec4) :=
  let m := sqrt (sqr4 ptot) in
  let back := map (boost (neg3 (velocity ptot))) in
  match masses with
  | [_] => Ok (back [V4 m 0 0 0])
  | [ma; mb] => let '(pa, pb) := sample_angles m ma mb u in Ok (back [pa; pb])
  | _ => Throw E_other
  end.
