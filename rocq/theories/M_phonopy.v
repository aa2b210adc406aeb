(** Model of src/parser/phonopy_input_parser.cpp: force constants of fc2.hdf5 (l.21-34, 312-323, 447-542) and the BORN file (l.325-396).
    Positions are rationals; force constants and charges are reals. *)
From Coq Require Import QArith Reals Ascii String.
From Verif Require Import Base M_context.
Open Scope Z_scope.

Definition q3 : Type := Q * Q * Q.
Definition sub3 (a b : q3) : q3 := let '(a1, a2, a3) := a in let '(b1, b2, b3) := b in (a1 - b1, a2 - b2, a3 - b3)%Q.
Definition norm2 (a : q3) : Q := let '(a1, a2, a3) := a in (a1 * a1 + a2 * a2 + a3 * a3)%Q.
(** l.21-34: the list is cellPositions2, position2 is R *)
Fixpoint findR (i : Z) (l : list q3) (r : q3) : res Z :=
  match l with
  | [] => Err
  | p :: t => if negb (Qle_bool (1 # 1000000) (norm2 (sub3 r p))) then Ok i else findR (i + 1) t r
  end.
Definition findRIndex (l : list q3) (r : q3) : res Z := findR 0 l r.
(** l.316-323: iCell from 0 to the product of the grid; rows of supPositions, cartesian *)
Definition cellPositions2 (nCells : Z) (sup : list q3) : res (list q3) :=
  mapM (fun iCell => match zget sup iCell, zget sup 0 with Some a, Some b => Ok (sub3 a b) | _, _ => UB end) (zrange 0 nCells).
(** l.484-486; rows of the cell before l.531 transposes it *)
Definition lin (u : q3 * q3 * q3) (r1 r2 r3 : Z) : q3 :=
  let '((a1, a2, a3), (b1, b2, b3), (c1, c2, c3)) := u in let x := inject_Z r1 in let y := inject_Z r2 in let z := inject_Z r3 in
  (x * a1 + y * b1 + z * c1, x * a2 + y * b2 + z * c2, x * a3 + y * b3 + z * c3)%Q.

(** ic, jc, r1, r2, r3, iat, jat *)
Definition fcKey : Type := Z * Z * Z * Z * Z * Z * Z.
(** ifc2: number of first atoms, number of second atoms, values; reading outside is undefined *)
Record ifc := { nFirst : Z; nSecond : Z; value : Z -> Z -> Z -> Z -> R }.
Definition readIfc (f : ifc) (a b i j : Z) : res R :=
  if (0 <=? a) && (a <? nFirst f) && (0 <=? b) && (b <? nSecond f) then Ok (value f a b i j) else UB.
Definition three : list Z := [0; 1; 2].
(** l.463-527: the writes into forceConstants, one per element; l.443-446: the map must have one entry per atom *)
Definition forceConstants (grid : Z * Z * Z) (nAtoms : Z) (u : q3 * q3 * q3) (sup : list q3) (cellMap : list Z) (f : ifc) (conv : R) : res (list (fcKey * R)) :=
  let '(n1, n2, n3) := grid in
  do cells <- cellPositions2 (n1 * n2 * n3) sup ;
  if negb (zlen cellMap =? nAtoms) then Err else
  let compact := negb (nFirst f =? nSecond f) in
  do l <- mapM (fun r : Z * (Z * Z) => let '(r3, (r2, r1)) := r in
    do ir <- findRIndex cells (lin u r1 r2 r3) ;
    do l <- mapM (fun p : Z * Z => let '(iat, jat) := p in
      match zget cellMap iat, zget cellMap jat with
      | Some mi, Some mj =>
        let isAt := if compact then jat else mi + ir in
        let jsAt := if compact then mi + ir else mj in
        mapM (fun c : Z * Z => let '(ic, jc) := c in do x <- readIfc f isAt jsAt ic jc ; Ok ((ic, jc, r1, r2, r3, iat, jat), (x * conv)%R)) (list_prod three three)
      | _, _ => UB
      end) (list_prod (zrange 0 nAtoms) (zrange 0 nAtoms)) ;
    Ok (List.concat l)) (list_prod (zrange 0 n3) (list_prod (zrange 0 n2) (zrange 0 n1))) ;
  Ok (List.concat l).

(** * BORN file, l.325-396. A line is a comment, blank, or the list of its numbers. *)
Inductive bornLine := Comment | Blank | Numbers (l : list R).
Definition chargeKey : Type := Z * Z * Z.
(** l.373-380: charges of atom iat; bornCharges has nAtoms rows *)
Definition chargeLine (nAtoms iat : Z) (l : list R) : res (list (chargeKey * R)) :=
  if negb ((0 <=? iat) && (iat <? nAtoms)) then UB else
  mapM (fun c : Z * Z => let '(i, j) := c in match zget l (i * 3 + j) with Some x => Ok ((iat, i, j), x) | None => UB end) (list_prod three three).
(** l.364-367: iss2 >> ...; missing numbers leave the matrix as it is (a failed extraction writes 0) *)
Definition dielectricOf (l : list R) (i j : Z) : R := match zget l (i * 3 + j) with Some x => x | None => 0%R end.
Definition bornState : Type := option (list R) * Z * list (chargeKey * R).
Definition bornStep (nAtoms : Z) (s : bornState) (l : bornLine) : res bornState :=
  let '(eps, iat, w) := s in
  match l with
  | Comment | Blank => Ok s
  | Numbers x => match eps with
    | None => Ok (Some x, iat, w)
    | Some _ => do c <- chargeLine nAtoms iat x ; Ok (eps, iat + 1, w ++ c)
    end
  end.
(** the first line is skipped; the head then prints the charges with speciesNames[idx], l.389 *)
Definition readBorn (head : bool) (nAtoms nSpecies : Z) (f : list bornLine) : res bornState :=
  do s <- foldM (bornStep nAtoms) (tl f) (None, 0, []) ;
  let '(eps, iat, w) := s in
  if head && (nSpecies <? iat) then UB else Ok s.
