(** Model of the reading of the XML file of Quantum ESPRESSO, src/parser/qe_input_parser.cpp:566-806 (parseElHarmonicFourier).
    The XML library is not modelled: the file is the content of its nodes, with the text of a node already split into numbers
    (split and stod, l.365-384). Numbers are rationals, without rounding. *)
From Coq Require Import QArith.
From Verif Require Import Base M_context M_points.
Open Scope Z_scope.

(** one node ks_energies *)
Record ksNode := { kPoint : v3; eigenvalues : list Q; occupations : list Q }.
Record xml := {
  ntyp : Z; species : list (str * Q); nat_ : Z; atoms : list (str * v3); a1 : v3; a2 : v3; a3 : v3;
  lsda : bool; noncolin : bool; spinorbit : bool; nbnd : Z; nelec : Q;
  highestOccupiedLevel : option Q; fermi_energy : option Q; nks : Z; monkhorst_pack : bool; recCell : cell; ksEnergies : list ksNode }.
(** directUnitCell(row, column); the crystal; the coarse band structure; what is left in the context *)
Record fourierFile := {
  fCell : Z -> Z -> option Q; fSpecies : list (str * Q); fAtoms : list (Z * v3);
  fMesh : mesh; fEnergies : Z -> option (list Q); fOccupied : Z; fSpinOrbit : bool; fFermi : Q }.

Fixpoint findIndex (x : str) (l : list str) : option Z :=
  match l with [] => None | y :: r => if streq y x then Some 0 else match findIndex x r with Some k => Some (k + 1) | None => None end end.
(** l.620-639 *)
Definition readAtom (names : list str) (a : str * v3) : res (Z * v3) := match findIndex (fst a) names with Some k => Ok (k, snd a) | None => Err end.
(** l.643-657: a1, a2, a3 are the columns *)
Definition cellOf (x : xml) (i j : Z) : option Q :=
  let v := if j =? 0 then Some (a1 x) else if j =? 1 then Some (a2 x) else if j =? 2 then Some (a3 x) else None in
  match v with Some v => if i =? 0 then Some (c0 v) else if i =? 1 then Some (c1 v) else if i =? 2 then Some (c2 v) else None | None => None end.
(** l.745: bVectors.inverse() * p, with the inverse as adjugate over determinant *)
Definition det3 (B : cell) : Q :=
  (c0 (b1 B) * (c1 (b2 B) * c2 (b3 B) - c1 (b3 B) * c2 (b2 B)) - c0 (b2 B) * (c1 (b1 B) * c2 (b3 B) - c1 (b3 B) * c2 (b1 B)) + c0 (b3 B) * (c1 (b1 B) * c2 (b2 B) - c1 (b2 B) * c2 (b1 B)))%Q.
Definition toCrystal (B : cell) (p : v3) : v3 :=
  let d := det3 B in
  V3 (((c1 (b2 B) * c2 (b3 B) - c1 (b3 B) * c2 (b2 B)) * c0 p + (c0 (b3 B) * c2 (b2 B) - c0 (b2 B) * c2 (b3 B)) * c1 p + (c0 (b2 B) * c1 (b3 B) - c0 (b3 B) * c1 (b2 B)) * c2 p) / d)
     (((c1 (b3 B) * c2 (b1 B) - c1 (b1 B) * c2 (b3 B)) * c0 p + (c0 (b1 B) * c2 (b3 B) - c0 (b3 B) * c2 (b1 B)) * c1 p + (c0 (b3 B) * c1 (b1 B) - c0 (b1 B) * c1 (b3 B)) * c2 p) / d)
     (((c1 (b1 B) * c2 (b2 B) - c1 (b2 B) * c2 (b1 B)) * c0 p + (c0 (b2 B) * c2 (b1 B) - c0 (b1 B) * c2 (b2 B)) * c1 p + (c0 (b1 B) * c1 (b2 B) - c0 (b2 B) * c1 (b1 B)) * c2 p) / d).
(** l.733-762: one node; the energies are doubled at l.762 *)
Definition readKs (x : xml) (k : ksNode) : res (v3 * list Q) :=
  if (zlen (eigenvalues k) <? nbnd x) || (zlen (occupations k) <? nbnd x) then UB
  else Ok (toCrystal (recCell x) (kPoint k), map (fun e => (e * 2)%Q) (firstn (Z.to_nat (nbnd x)) (eigenvalues k))).
(** l.722-762: matrices of nks columns or rows, filled with zeros *)
Definition readPoints (x : xml) : res (list (v3 * list Q)) :=
  do rows <- mapM (readKs x) (ksEnergies x) ;
  if nks x <? zlen rows then UB
  else Ok (rows ++ repeat (V3 0 0 0, repeat 0%Q (Z.to_nat (nbnd x))) (Z.to_nat (nks x - zlen rows))).
(** bandstructure.cpp l.312-322 for the loop l.781-787 *)
Definition storeEnergies (p : points) (E : Z -> option (list Q)) (row : v3 * list Q) : res (Z -> option (list Q)) :=
  do ik <- getIndex p (fst row) ; Ok (fun j => if j =? ik then Some (snd row) else E j).
(** int(double): truncation *)
Definition truncQ (q : Q) : Z := Z.quot (Qnum q) (Zpos (Qden q)).

Definition parseFourier (x : xml) (userFermi : option Q) : res fourierFile :=
  if ntyp x <? zlen (species x) then UB else
  do ats <- mapM (readAtom (map fst (species x))) (atoms x) ;
  if nat_ x <? zlen ats then UB else
  do homo <- match highestOccupiedLevel x with Some e => Ok e | None => match fermi_energy x with Some e => Ok e | None => Err end end ;
  if monkhorst_pack x then Err else
  do rows <- readPoints x ;
  if lsda x || noncolin x then Err else
  do m <- findMesh (map fst rows) ;
  do p <- newMesh (m0 m) (m1 m) (m2 m) (off m) ;
  do E <- foldM (storeEnergies p) rows (fun _ => None) ;
  let electrons := truncQ (nelec x) in
  Ok {| fCell := cellOf x; fSpecies := species x; fAtoms := ats; fMesh := m; fEnergies := E;
        fOccupied := if spinorbit x then Z.quot electrons 2 else electrons; fSpinOrbit := spinorbit x;
        fFermi := match userFermi with Some f => f | None => (homo * 2)%Q end |}.
