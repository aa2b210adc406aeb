(** Specification of symmetry reduction. *)
From Coq Require Import QArith.
From Verif Require Import Base M_points S_points M_irreducible.
Open Scope Z_scope.

(** Some symmetry takes point i to point j. *)
Definition linked {S} (rot : S -> Z -> res Z) (syms : list S) (i j : Z) : Prop :=
  exists s, In s syms /\ rot s i = Ok j.

(** The symmetries act on the points 0..n-1: every image is a point or missing (-1), and "some
    symmetry takes i to j" is an equivalence relation (identity, inverses, products). *)
Definition acts {S} (rot : S -> Z -> res Z) (syms : list S) (n : Z) : Prop :=
  (forall s i, In s syms -> 0 <= i < n -> exists j, rot s i = Ok j /\ (j = -1 \/ 0 <= j < n)) /\
  (forall i, 0 <= i < n -> linked rot syms i i) /\
  (forall i j, 0 <= i < n -> 0 <= j < n -> linked rot syms i j -> linked rot syms j i) /\
  (forall i j k, 0 <= i < n -> 0 <= j < n -> 0 <= k < n ->
     linked rot syms i j -> linked rot syms j k -> linked rot syms i k).

(** e is the smallest index of the orbit of i *)
Definition isRepresentative {S} (rot : S -> Z -> res Z) (syms : list S) (n i e : Z) : Prop :=
  0 <= e < n /\ linked rot syms e i /\ forall j, 0 <= j < n -> linked rot syms j i -> e <= j.

(** integer matrix *)
Definition intMat (A : m33) : Prop := intVec (r0 A) /\ intVec (r1 A) /\ intVec (r2 A).
(** the group of the crystal: integer matrices, with the identity, products and inverses *)
Definition group (syms : list m33) : Prop :=
  Forall intMat syms /\
  (exists E, In E syms /\ forall v, veq (mv E v) v) /\
  (forall A B, In A syms -> In B syms -> exists C, In C syms /\ forall v, veq (mv C v) (mv A (mv B v))) /\
  (forall A, In A syms -> exists B, In B syms /\ forall v, veq (mv B (mv A v)) v).
(** the mesh is mapped onto itself *)
Definition meshSymmetric (m : mesh) (syms : list m33) : Prop :=
  forall A i j k, In A syms -> exists i' j' k', sameWavevector (mv A (gridNode m i j k)) (gridNode m i' j' k').
