(** Vocabulary: images of a supercell translation. *)
From Coq Require Import QArith.
From Verif Require Import Base M_wigner.
Open Scope Z_scope.

(** two vectors are images of each other: they differ by a vector of the superlattice *)
Definition images (g v w : v3) : Prop := exists j, w = shiftBy g v j.
Definition inCell (g v : v3) : Prop := let '(g0, g1, g2) := g in let '(a, b, c) := v in - g0 <= a <= g0 /\ - g1 <= b <= g1 /\ - g2 <= c <= g2.
(** w is as short as its images can be, up to the tolerance *)
Definition shortest (g : v3) (d : v3 -> Q) (v : v3) : Prop := forall w, images g v w -> (d v - d w < 1 # 1000000)%Q.
(** each vector has a shortest image, and vectors that short do not reach beyond the neighbouring supercells *)
Definition compact (g : v3) (d : v3 -> Q) : Prop := forall v, exists m, images g v m /\ (forall w, images g v w -> (d m <= d w)%Q) /\
  forall w, images g v w -> (d w - d m < 1 # 1000000)%Q -> inCell g w.
Definition positive (g : v3) : Prop := let '(g0, g1, g2) := g in 0 < g0 /\ 0 < g1 /\ 0 < g2.
Definition cells (g : v3) : Z := let '(g0, g1, g2) := g in g0 * g1 * g2.
(** a length on a cubic lattice, for the examples *)
Definition d1 (v : v3) : Q := let '(a, b, c) := v in inject_Z (Z.abs a + Z.abs b + Z.abs c).
