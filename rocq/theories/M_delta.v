(** Model of src/delta_function.cpp. Doubles are real numbers. *)
From Coq Require Import Reals Lra.
From Verif Require Import Base M_particle.
Open Scope R_scope.

(** * Gaussian, delta_function.cpp:34-46: inverseWidth = 1/width, prefactor = 1/width/sqrt(pi) *)
Definition gaussianSmearing (width energy : R) : R :=
  let x := energy * (1 / width) in
  if rltb 6 x then 0 else 1 / width / sqrt PI * exp (- x * x).

(** * adaptive Gaussian, l.56-97. [q0], [q1], [q2]: rows of qTensor; prefactor = 1 and erf2 of
    delta_function.h; sqrtPi of constants.h is sqrt(PI) here *)
Definition vec := (R * R * R)%type.
Definition vdot (a b : vec) : R := let '(a0, a1, a2) := a in let '(b0, b1, b2) := b in a0 * b0 + a1 * b1 + a2 * b2.
Definition erf2 : R := 9953222650189527 / 10000000000000000.
Definition adaptiveWidth (q0 q1 q2 v : vec) : R :=
  sqrt ((vdot q0 v ^ 2 + vdot q1 v ^ 2 + vdot q2 v ^ 2) / 6).
Definition adaptiveSmearing (q0 q1 q2 : vec) (cutoff energy : R) (v : vec) : R :=
  if reqb (sqrt (vdot v v)) 0 && reqb energy 0 then 1 else
  let sigma := adaptiveWidth q0 q1 q2 v in
  if reqb sigma 0 then 0 else
  let sigma := if rltb sigma cutoff then cutoff else sigma in
  if rltb (2 * sigma) (Rabs energy) then 0 else
  let x := energy / sigma in
  if rltb 6 x then 0 else exp (- x * x) / sqrt PI / sigma / erf2.

(** * tetrahedra *)
(** l.131-140 subCellShift, in units of the mesh spacing *)
Definition cellCorner (i : Z) : Z * Z * Z :=
  nth (Z.to_nat i) [(0, 0, 0); (1, 0, 0); (0, 1, 0); (1, 1, 0); (0, 0, 1); (1, 0, 1); (0, 1, 1); (1, 1, 1)]%Z (0, 0, 0)%Z.
(** l.149-155 *)
Definition vertices : list (Z * Z * Z * Z) :=
  [(0, 1, 2, 5); (0, 2, 4, 5); (2, 4, 5, 6); (2, 5, 6, 7); (2, 3, 5, 7); (1, 2, 3, 5)]%Z.

(** std::sort *)
Fixpoint rinsert (x : R) (l : list R) : list R :=
  match l with [] => [x] | y :: r => if rleb x y then x :: l else y :: rinsert x r end.
Definition rsort (l : list R) : list R := fold_right rinsert [] l.

(** l.217-253 contribution of one tetrahedron with sorted corner energies *)
Definition cnE (e1 e2 e3 e4 energy : R) : R :=
  let c :=
    if rleb e1 energy && rleb energy e2 then
      if reqb e2 e1 || reqb e3 e1 || reqb e4 e1 then 0
      else 3 * (energy - e1) * (energy - e1) / (e2 - e1) / (e3 - e1) / (e4 - e1)
    else if rleb e2 energy && rleb energy e3 then
      let a := if reqb e4 e2 || reqb e3 e2 || reqb e3 e1 then 0
               else (e3 - energy) * (energy - e2) / (e4 - e2) / (e3 - e2) / (e3 - e1) in
      let b := if reqb e4 e1 || reqb e4 e2 || reqb e3 e1 then 0
               else (e4 - energy) * (energy - e1) / (e4 - e1) / (e4 - e2) / (e3 - e1) in
      (0 + a + b) * 3
    else if rleb e3 energy && rleb energy e4 then
      if reqb e4 e1 || reqb e4 e2 || reqb e4 e3 then 0
      else 3 * (e4 - energy) * (e4 - energy) / (e4 - e1) / (e4 - e2) / (e4 - e3)
    else 0 in
  if reqb e1 e2 && reqb e1 e3 && reqb e1 e4 && reqb energy e1 then 25 / 100 else c.
(** l.204-216: corner energies of one tetrahedron, sorted *)
Definition tetraEnergies (en : Z -> R) (t : Z * Z * Z * Z) : list R :=
  let '(a, b, c, d) := t in rsort [en a; en b; en c; en d].
Definition tetraWeight (en : Z -> R) (energy : R) (t : Z * Z * Z * Z) : R :=
  match tetraEnergies en t with [e1; e2; e3; e4] => cnE e1 e2 e3 e4 energy | _ => 0 end.
Definition rsum (l : list R) : R := fold_right Rplus 0 l.
(** l.200-270: [en i] = energy of the band at corner i of the cell of the wavevector *)
Definition tetraSmearing (en : Z -> R) (energy : R) : R :=
  let weight := rsum (map (tetraWeight en energy) vertices) in
  let weight := if rltb weight (/ 1000000000000) then 0 else weight in
  weight / 6.
