(** The lattices of Quantum ESPRESSO's manual (INPUT_PW, ibrav): lengths and angles of the primitive vectors, in terms of a, b, c and the cosines of the angles
    of the conventional cell. *)
From Coq Require Import Reals.
From Verif Require Import Base M_qe.
Local Open Scope R_scope.

Definition dot (u v : r3) : R := let '(a, b, c) := u in let '(x, y, z) := v in a * x + b * y + c * z.
Definition det (C : cell3) : R :=
  let '((a, b, c), (d, e, f), (g, h, i)) := C in a * (e * i - f * h) - b * (d * i - f * g) + c * (d * h - e * g).
(** |a1|^2, |a2|^2, |a3|^2, a1.a2, a1.a3, a2.a3 *)
Definition gram (C : cell3) : list R := let '(a1, a2, a3) := C in [dot a1 a1; dot a2 a2; dot a3 a3; dot a1 a2; dot a1 a3; dot a2 a3].
(** parameters of the conventional cell; which of them a lattice needs depends on its index *)
Record conventional := { la : R; lb : R; lc : R; cosBC : R; cosAC : R; cosAB : R }.
(** celldm as the manual defines it: a, b/a, c/a, cosines (cos(ab) for 12 and 13, cos(ac) for -12 and -13, cos(bc), cos(ac), cos(ab) for 14, the single angle
    for 5) *)
Definition ofCelldm (ib : Z) (D : celldm) : conventional :=
  {| la := cd0 D; lb := cd0 D * cd1 D; lc := cd0 D * cd2 D; cosBC := cd3 D; cosAC := cd4 D;
     cosAB := if ((ib =? 12) || (ib =? 13))%Z then cd3 D else cd5 D |}.
(** the table of the manual *)
Definition expected (ib : Z) (L : conventional) : list R :=
  let a2 := la L * la L in let b2 := lb L * lb L in let c2 := lc L * lc L in
  match ib with
  | 1%Z => [a2; a2; a2; 0; 0; 0]
  | 2%Z => [a2 / 2; a2 / 2; a2 / 2; a2 / 4; a2 / 4; a2 / 4]
  | 3%Z => [3 * a2 / 4; 3 * a2 / 4; 3 * a2 / 4; a2 / 4; - a2 / 4; a2 / 4]
  | (-3)%Z => [3 * a2 / 4; 3 * a2 / 4; 3 * a2 / 4; - a2 / 4; - a2 / 4; - a2 / 4]
  | 4%Z => [a2; a2; c2; - a2 / 2; 0; 0]
  | 5%Z | (-5)%Z => [a2; a2; a2; a2 * cosBC L; a2 * cosBC L; a2 * cosBC L]
  | 6%Z => [a2; a2; c2; 0; 0; 0]
  | 7%Z => let n := a2 / 2 + c2 / 4 in [n; n; n; c2 / 4; c2 / 4; c2 / 4 - a2 / 2]
  | 8%Z => [a2; b2; c2; 0; 0; 0]
  | 9%Z => [(a2 + b2) / 4; (a2 + b2) / 4; c2; (b2 - a2) / 4; 0; 0]
  | (-9)%Z => [(a2 + b2) / 4; (a2 + b2) / 4; c2; (a2 - b2) / 4; 0; 0]
  | 91%Z => [a2; (b2 + c2) / 4; (b2 + c2) / 4; 0; 0; (b2 - c2) / 4]
  | 10%Z => [(a2 + c2) / 4; (a2 + b2) / 4; (b2 + c2) / 4; a2 / 4; c2 / 4; b2 / 4]
  | 11%Z => let n := (a2 + b2 + c2) / 4 in [n; n; n; (b2 + c2 - a2) / 4; (c2 - a2 - b2) / 4; (a2 + c2 - b2) / 4]
  | 12%Z => [a2; b2; c2; la L * lb L * cosAB L; 0; 0]
  | (-12)%Z => [a2; b2; c2; 0; la L * lc L * cosAC L; 0]
  | 13%Z => [(a2 + c2) / 4; b2; (a2 + c2) / 4; la L * lb L * cosAB L / 2; (a2 - c2) / 4; la L * lb L * cosAB L / 2]
  | (-13)%Z => [(a2 + b2) / 4; (a2 + b2) / 4; c2; (a2 - b2) / 4; la L * lc L * cosAC L / 2; la L * lc L * cosAC L / 2]
  | 14%Z => [a2; b2; c2; la L * lb L * cosAB L; la L * lc L * cosAC L; lb L * lc L * cosBC L]
  | _ => []
  end.
Definition knownLattice (ib : Z) : Prop := In ib [1; 2; 3; -3; 4; 5; -5; 6; 7; 8; 9; -9; 91; 10; 11; 12; -12; 13; -13; 14]%Z.
Definition angle (x : R) : Prop := -1 < x < 1.
(** parameters that describe a lattice *)
Definition sensible (ib : Z) (D : celldm) : Prop :=
  0 < cd0 D /\
  (In ib [4; 6; 7]%Z -> 0 < cd2 D) /\
  (In ib [5; -5]%Z -> - (1 / 2) < cd3 D < 1) /\
  (In ib [8; 9; -9; 91; 10; 11; 12; -12; 13; -13; 14]%Z -> 0 < cd1 D /\ 0 < cd2 D) /\
  (In ib [12; 13; 14]%Z -> angle (cd3 D)) /\ (In ib [-12; -13; 14]%Z -> angle (cd4 D)) /\
  (ib = 14%Z -> angle (cd5 D) /\ 0 <= 1 + 2 * cd3 D * cd4 D * cd5 D - cd3 D * cd3 D - cd4 D * cd4 D - cd5 D * cd5 D).
(** the three edges of a triclinic cell are not in a plane *)
Definition notFlat (ib : Z) (D : celldm) : Prop :=
  ib = 14%Z -> 0 < 1 + 2 * cd3 D * cd4 D * cd5 D - cd3 D * cd3 D - cd4 D * cd4 D - cd5 D * cd5 D.
(** the roots of 2 and 3 have twelve decimals *)
Definition tolerance (ib : Z) : R := if ((ib =? 4) || (ib =? 5))%Z then 1 / 100000000000 else 0.
Definition close (ib : Z) (D : celldm) (x y : R) : Prop := Rabs (x - y) <= tolerance ib * (cd0 D * cd0 D).
