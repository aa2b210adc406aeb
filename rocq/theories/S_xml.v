(** Specification for C143: a calculation on a full mesh and the file that Quantum ESPRESSO writes for it *)
From Coq Require Import QArith.
From Verif Require Import Base M_context M_points S_points M_xml.
Open Scope Z_scope.
(** the calculation: mesh, band energies (in Hartree) at the wavevectors ks, listed in any order *)
Record scfRun := { rMesh : mesh; rKs : list v3; rBands : list (list Q) }.
(** the nodes give each wavevector in Cartesian coordinates of the reciprocal cell with its bands *)
Definition writes (r : scfRun) (x : xml) : Prop :=
  ~ (det3 (recCell x) == 0)%Q /\ zlen (rBands r) = zlen (rKs r) /\ zlen (ksEnergies x) = zlen (rKs r) /\ nks x = zlen (rKs r) /\
  forall i k e n, zget (rKs r) i = Some k -> zget (rBands r) i = Some e -> zget (ksEnergies x) i = Some n ->
    veq (kPoint n) (toCart (recCell x) k) /\ eigenvalues n = e /\ zlen e = nbnd x /\ zlen (occupations n) = nbnd x.
(** the file is a run on a full mesh without spin *)
Definition plainFile (x : xml) : Prop :=
  zlen (species x) <= ntyp x /\ zlen (atoms x) <= nat_ x /\ (highestOccupiedLevel x <> None \/ fermi_energy x <> None) /\
  monkhorst_pack x = false /\ lsda x = false /\ noncolin x = false /\
  (forall a, In a (atoms x) -> In (fst a) (map fst (species x))).
(** twice every energy: Rydberg *)
Definition rydberg (e : list Q) : list Q := map (fun h => (h * 2)%Q) e.
