(** Specification vocabulary for wavevector meshes, independent of how phoebe looks points up. *)
From Coq Require Import QArith.
From Verif Require Import Base M_points.
Open Scope Z_scope.

(** Same vector. *)
Definition veq (a b : v3) : Prop := (c0 a == c0 b)%Q /\ (c1 a == c1 b)%Q /\ (c2 a == c2 b)%Q.

(** Vector with integer components = reciprocal lattice vector in crystal coordinates. *)
Definition intVec (u : v3) : Prop :=
  exists n0 n1 n2 : Z, veq u (V3 (inject_Z n0) (inject_Z n1) (inject_Z n2)).

(** a and b differ by a reciprocal lattice vector: they are the same wavevector. *)
Definition sameWavevector (a b : v3) : Prop := intVec (vsub a b).

(** Node (i,j,k) of the Monkhorst-Pack grid. *)
Definition gridNode (m : mesh) (i j k : Z) : v3 :=
  V3 (inject_Z i / inject_Z (m0 m) + c0 (off m))
     (inject_Z j / inject_Z (m1 m) + c1 (off m))
     (inject_Z k / inject_Z (m2 m) + c2 (off m)).

Definition posMesh (m : mesh) : Prop := 0 < m0 m /\ 0 < m1 m /\ 0 < m2 m.
Definition nodes (m : mesh) : Z := m0 m * m1 m * m2 m.

(** The full mesh object (points on the fly, no filter). *)
Definition fullMesh (m : mesh) : points := Points m (nodes m) false false [].

(** Gamma-centred mesh. *)
Definition gammaMesh (m : mesh) : Prop :=
  (c0 (off m) == 0)%Q /\ (c1 (off m) == 0)%Q /\ (c2 (off m) == 0)%Q.

(** strictly increasing list of mesh indices *)
Fixpoint increasing (l : list Z) : Prop :=
  match l with
  | a :: ((b :: _) as r) => a < b /\ increasing r
  | _ => True
  end.

(** at most 1000 points per direction *)
Definition resolved (m : mesh) : Prop :=
  posMesh m /\ m0 m <= 1000 /\ m1 m <= 1000 /\ m2 m <= 1000.

(** shift of the mesh smaller than the spacing, by more than the folding tolerance 1e-8 *)
Definition smallOffset (m : mesh) : Prop :=
  (0 <= c0 (off m) /\ c0 (off m) + eps8 < 1 / inject_Z (m0 m) /\
   0 <= c1 (off m) /\ c1 (off m) + eps8 < 1 / inject_Z (m1 m) /\
   0 <= c2 (off m) /\ c2 (off m) + eps8 < 1 / inject_Z (m2 m))%Q.

(** Every wavevector of [pts] is (up to a reciprocal lattice vector) a node of m, every node is
    present, and there are as many entries as nodes: [pts] lists the mesh, in any order. *)
Definition listsMesh (m : mesh) (pts : list v3) : Prop :=
  zlen pts = nodes m /\
  (forall v, In v pts -> exists i j k, 0 <= i < m0 m /\ 0 <= j < m1 m /\ 0 <= k < m2 m /\
     sameWavevector v (gridNode m i j k)) /\
  (forall i j k, 0 <= i < m0 m -> 0 <= j < m1 m -> 0 <= k < m2 m ->
     exists v, In v pts /\ sameWavevector v (gridNode m i j k)).

(** squared distance *)
Definition sqDist (a b : v3) : Q := sqNorm (vsub a b).

(** distinct entries of the list stay at least sqrt(1e-5) apart, also from each other's images *)
Definition farApart (l : list v3) : Prop :=
  forall i j a b w, zget l i = Some a -> zget l j = Some b -> i <> j -> sameWavevector w a ->
    (1 # 100000 <= sqDist b w)%Q.

(** squared Cartesian length of p + G + (1e-8,1e-8,1e-8) *)
Definition shiftedNorm (B : cell) (p : v3) (g : Z * Z * Z) : Q :=
  sqNorm (vadd (vadd (toCart B p) (toCart B (gVec g))) shift8).
