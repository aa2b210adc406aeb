(** Vocabulary of the properties of smearing functions. *)
From Coq Require Import Reals Lra.
From Verif Require Import Base M_particle M_delta.
Open Scope R_scope.

(** Coordinates of the corners as reals, and points of a tetrahedron (strictly inside when [strict]) *)
Definition corner (i : Z) : R * R * R := let '(x, y, z) := cellCorner i in (IZR x, IZR y, IZR z).
Definition combo (l0 l1 l2 l3 : R) (a b c d : R * R * R) : R * R * R :=
  let '(a0, a1, a2) := a in let '(b0, b1, b2) := b in let '(c0, c1, c2) := c in let '(d0, d1, d2) := d in
  (l0 * a0 + l1 * b0 + l2 * c0 + l3 * d0, l0 * a1 + l1 * b1 + l2 * c1 + l3 * d1, l0 * a2 + l1 * b2 + l2 * c2 + l3 * d2).
Definition inTetra (t : Z * Z * Z * Z) (p : R * R * R) : Prop :=
  let '(a, b, c, d) := t in exists l0 l1 l2 l3, 0 <= l0 /\ 0 <= l1 /\ 0 <= l2 /\ 0 <= l3 /\ l0 + l1 + l2 + l3 = 1 /\
  p = combo l0 l1 l2 l3 (corner a) (corner b) (corner c) (corner d).
Definition insideTetra (t : Z * Z * Z * Z) (p : R * R * R) : Prop :=
  let '(a, b, c, d) := t in exists l0 l1 l2 l3, 0 < l0 /\ 0 < l1 /\ 0 < l2 /\ 0 < l3 /\ l0 + l1 + l2 + l3 = 1 /\
  p = combo l0 l1 l2 l3 (corner a) (corner b) (corner c) (corner d).
(** six times the signed volume *)
Definition sixVolume (t : Z * Z * Z * Z) : Z :=
  let '(a, b, c, d) := t in
  let '(a0, a1, a2) := cellCorner a in let '(b0, b1, b2) := cellCorner b in
  let '(c0, c1, c2) := cellCorner c in let '(d0, d1, d2) := cellCorner d in
  (let u0 := b0 - a0 in let u1 := b1 - a1 in let u2 := b2 - a2 in
   let v0 := c0 - a0 in let v1 := c1 - a1 in let v2 := c2 - a2 in
   let w0 := d0 - a0 in let w1 := d1 - a1 in let w2 := d2 - a2 in
   u0 * (v1 * w2 - v2 * w1) - u1 * (v0 * w2 - v2 * w0) + u2 * (v0 * w1 - v1 * w0))%Z.

(** N integrates the density of states w: continuous, 0 below [lo], 1 above [hi], derivative w except at
    finitely many energies. *)
Definition integratedDos (w : R -> R) (lo hi : R) (N : R -> R) : Prop :=
  (forall e, e <= lo -> N e = 0) /\ (forall e, hi <= e -> N e = 1) /\ (forall e, continuity_pt N e) /\
  exists except : list R, forall e, ~ In e except -> derivable_pt_lim N e (w e).
