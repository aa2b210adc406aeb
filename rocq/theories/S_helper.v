(** Vocabulary: wavevectors reached from pairs of wavevectors; batches. *)
From Coq Require Import QArith.
From Verif Require Import Base M_points S_points.
Open Scope Z_scope.

(** c is the sum or the difference of the mesh points a and b, up to a reciprocal lattice vector *)
Definition thirdOf (m : mesh) (a b : Z) (c : v3) : Prop :=
  sameWavevector c (vadd (meshCoordinates m a) (meshCoordinates m b)) \/ sameWavevector c (vsub (meshCoordinates m a) (meshCoordinates m b)).
(** sizes of a list of lists *)
Definition sizes {A} (l : list (list A)) : list Z := map zlen l.
