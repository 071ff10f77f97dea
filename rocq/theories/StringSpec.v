(** What the flavour bookkeeping of strings is measured against: the quark content of a
    parton, read off the PDG numbering scheme. *)
From Coq Require Import ZArith List Bool.
From Verif Require Import Base PdgSpec.
Import ListNotations.
Open Scope Z_scope.

(** the five flavours d u s c b *)
Definition flavour (f : Z) : Prop := 1 <= f <= 5.
(** codes of (anti)quarks, of (anti)diquarks = +-(1000 a + 100 b + spin degeneracy), where two
    quarks of one flavour have spin 1, and of the gluon *)
Definition quark (q : Z) : Prop := flavour (Z.abs q).
Definition diquark (d : Z) : Prop :=
  exists s a b g, (s = 1 \/ s = -1) /\ flavour a /\ flavour b /\ b <= a /\
    (g = 1 \/ g = 3) /\ (a = b -> g = 3) /\ d = s * (1000 * a + 100 * b + g).
Definition parton (x : Z) : Prop := x = 21 \/ quark x \/ diquark x.

(** the signed quarks in a parton: none in a gluon *)
Definition constituents (x : Z) : list Z :=
  if Z.abs x <? 10 then [x]
  else if Z.abs x <? 1000 then []
  else [Z.sgn x * (Z.abs x / 1000); Z.sgn x * ((Z.abs x / 100) mod 10)].
(** net number of quarks of flavour f in a list of partons *)
Definition net (f : Z) (l : list Z) : Z := net_count f (flat_map constituents l).

(** the two ends of a string: a quark or antidiquark, and an antiquark or diquark, not both
    of them diquarks *)
Definition string_ends (a b : Z) : Prop :=
  (0 < a /\ quark a /\ b < 0 /\ quark b) \/
  (0 < a /\ quark a /\ 0 < b /\ diquark b) \/
  (a < 0 /\ diquark a /\ b < 0 /\ quark b).
