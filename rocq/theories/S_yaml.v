(** Specification of C139: phono3py_disp.yaml as phono3py writes it *)
From Coq Require Import QArith Ascii String.
From Verif Require Import Base M_context M_yaml.
Open Scope Z_scope.

(** text of a number *)
Definition numChar (c : ascii) : bool := isdigit c || isc "."%char c || isc "-"%char c || isc "+"%char c || isc "e"%char c || isc "E"%char c.
Record numeral := { nText : str; nValue : Q }.
Definition goodNumeral (n : numeral) : Prop := nText n <> [] /\ Forall (fun c => numChar c = true) (nText n) /\ stod (nText n) = Ok (nValue n).
Record natural := { iText : str; iValue : Z }.
Definition goodNatural (n : natural) : Prop := iText n <> [] /\ Forall (fun c => isdigit c = true) (iText n) /\ stoi (iText n) = Ok (iValue n) /\ 0 < iValue n.
Definition n3 : Type := numeral * numeral * numeral.
Definition good3 (t : n3) : Prop := let '(a, b, c) := t in goodNumeral a /\ goodNumeral b /\ goodNumeral c.
Definition val3 (t : n3) : q3 := let '(a, b, c) := t in (nValue a, nValue b, nValue c).

(** "- [ a, b, c ]" *)
Definition brackets (a b c : str) : str := str! "[ " ++ a ++ str! ", " ++ b ++ str! ", " ++ c ++ str! " ]".
Definition vectorLine (t : n3) (mark : str) : str := let '(a, b, c) := t in str! "  - " ++ brackets (nText a) (nText b) (nText c) ++ mark.
Definition coordLine (t : n3) : str := let '(a, b, c) := t in str! "    coordinates: " ++ brackets (nText a) (nText b) (nText c).
(** an atom: symbol of one or two letters, number in the list, position, mass *)
Record point := { pName : str; pNumber : natural; pAt : n3; pMass : numeral }.
Definition goodPoint (p : point) : Prop := pName p <> [] /\ (length (pName p) <= 2)%nat /\ Forall (fun c => isalpha c = true) (pName p) /\ goodNatural (pNumber p) /\ good3 (pAt p) /\ goodNumeral (pMass p).
Definition pointLines (p : point) : list str :=
  [str! "  - symbol: " ++ pName p ++ str! " # " ++ iText (pNumber p); coordLine (pAt p); str! "    mass: " ++ nText (pMass p)].
Record block := { bRows : n3 * n3 * n3; bPoints : list point }.
Definition goodBlock (b : block) : Prop := let '(r0, r1, r2) := bRows b in good3 r0 /\ good3 r1 /\ good3 r2 /\ Forall goodPoint (bPoints b).
Definition blockLines (head : str) (b : block) : list str :=
  let '(r0, r1, r2) := bRows b in
  [head; str! "  lattice:"; vectorLine r0 (str! " # a"); vectorLine r1 (str! " # b"); vectorLine r2 (str! " # c"); str! "  points:"] ++ flat_map pointLines (bPoints b).
(** diagonal matrix of a supercell *)
Definition g3 : Type := natural * natural * natural.
Definition matrixLines (g : g3) : list str :=
  let '(a, b, c) := g in let z := str! "0" in
  [str! "- " ++ brackets (iText a) z z; str! "- " ++ brackets z (iText b) z; str! "- " ++ brackets z z (iText c)].
(** lines without any of the words that the reader looks for *)
Definition words : list str := [str! "supercell_matrix:"; str! " symbol: "; str! "coordinates: "; str! "lattice:"; str! "unit_cell:"; str! "primitive_cell:"; str! "supercell:"].
Definition quiet (l : str) : Prop := forall k, In k words -> patternInString l k = false.
(** a line that says that lengths are in atomic units *)
Definition saysBohr (l : str) : bool := patternInString l (str! "length") && patternInString l (str! "au").

(** dPh: supercell of the harmonic force constants when it has its own *)
Record doc := { dPre : list str; dGrid : g3; dPh : option (g3 * block); dPrim : block; dRecip : n3 * n3 * n3; dUnit : block; dSuper : block; dPost : list str }.
Definition goodGrid (g : g3) : Prop := let '(a, b, c) := g in goodNatural a /\ goodNatural b /\ goodNatural c.
Definition goodDoc (d : doc) : Prop :=
  Forall quiet (dPre d) /\ goodGrid (dGrid d) /\ (match dPh d with Some (g, b) => goodGrid g /\ goodBlock b | None => True end) /\ goodBlock (dPrim d) /\
  (let '(r0, r1, r2) := dRecip d in good3 r0 /\ good3 r1 /\ good3 r2) /\ goodBlock (dUnit d) /\ goodBlock (dSuper d) /\ Forall quiet (dPost d).
Definition writeDoc (d : doc) : list str :=
  let '(k0, k1, k2) := dRecip d in
  dPre d ++ [str! "supercell_matrix:"] ++ matrixLines (dGrid d) ++ (match dPh d with Some (g, _) => str! "phonon_supercell_matrix:" :: matrixLines g | None => [] end) ++ [[]] ++
  blockLines (str! "primitive_cell:") (dPrim d) ++ [str! "  reciprocal_lattice: # without 2pi"; vectorLine k0 (str! " # a*"); vectorLine k1 (str! " # b*"); vectorLine k2 (str! " # c*"); []] ++
  blockLines (str! "unit_cell:") (dUnit d) ++ [[]] ++ blockLines (str! "supercell:") (dSuper d) ++ [[]] ++
  (match dPh d with Some (_, b) => blockLines (str! "phonon_supercell:") b ++ [[]] | None => [] end) ++ dPost d.

Definition rowsAre (l : list (Z * q3)) (r : n3 * n3 * n3) : Prop := let '(r0, r1, r2) := r in l = [(0, val3 r0); (1, val3 r1); (2, val3 r2)].
Definition gridOf (g : g3) : Z * Z * Z := let '(a, b, c) := g in (iValue a, iValue b, iValue c).
(** what the program must obtain *)
Definition readsDoc (d : doc) (y : yaml) : Prop :=
  yGrid y = gridOf (match dPh d with Some (g, _) => g | None => dGrid d end) /\ yBohr y = existsb saysBohr (dPre d) /\
  rowsAre (yCell y) (bRows (dUnit d)) /\ yPos y = map (fun p => val3 (pAt p)) (bPoints (dUnit d)) /\
  NoDup (yNames y) /\ (forall n, In n (yNames y) <-> exists p, In p (bPoints (dUnit d)) /\ pName p = n) /\
  Forall2 (fun k p => zget (yNames y) k = Some (pName p)) (ySpecies y) (bPoints (dUnit d)) /\
  let sup := match dPh d with Some (_, b) => b | None => dSuper d end in
  rowsAre (ySupCell y) (bRows sup) /\ ySupPos y = map (fun p => val3 (pAt p)) (bPoints sup).

(** matrix of a supercell in general *)
Record integer := { zText : str; zValue : Z }.
Definition goodInteger (n : integer) : Prop := zText n <> [] /\ Forall (fun c => numChar c = true) (zText n) /\ stoi (zText n) = Ok (zValue n).
Definition z33 : Type := (integer * integer * integer) * (integer * integer * integer) * (integer * integer * integer).
Definition entries (m : z33) : list integer := let '((a, b, c), (d, e, f), (g, h, i)) := m in [a; b; c; d; e; f; g; h; i].
Definition offDiagonal (m : z33) : list integer := let '((a, b, c), (d, e, f), (g, h, i)) := m in [b; c; d; f; g; h].
Definition fullLines (m : z33) : list str :=
  let '((a, b, c), (d, e, f), (g, h, i)) := m in
  [str! "- " ++ brackets (zText a) (zText b) (zText c); str! "- " ++ brackets (zText d) (zText e) (zText f); str! "- " ++ brackets (zText g) (zText h) (zText i)].
