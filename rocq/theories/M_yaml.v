(** Model of the reading of phono3py_disp.yaml (src/parser/phonopy_input_parser.cpp:70-262). A file is the list of its lines; numbers are read without
    rounding. The comparison with the primitive cell (l.219-226) only prints a warning and is not modelled. *)
From Coq Require Import QArith Ascii String.
From Verif Require Import Base M_context.
Open Scope Z_scope.

(** src/utilities.cpp:105-118 tokenize *)
Definition separator (c : ascii) : bool := isspace c || isc ","%char c || isc "|"%char c || isc """"%char c.
Definition flush (cur : str) : list str := match cur with [] => [] | _ => [cur] end.
Fixpoint tokensFrom (cur s : str) : list str :=
  match s with [] => flush cur | c :: r => if separator c then flush cur ++ tokensFrom [] r else tokensFrom (cur ++ [c]) r end.
Definition tokenize (s : str) : list str := tokensFrom [] s.
(** tok[i] *)
Definition token (l : str) (i : Z) : res str := match zget (tokenize l) i with Some t => Ok t | None => UB end.
(** line.find(k) != npos *)
Definition finds (l k : str) : bool := patternInString l k.

(** l.81-93, 101-113: row i of the matrix of the supercell, the other elements must vanish *)
Definition rowDim (i : Z) (l : str) : res Z :=
  do t <- token l (2 + i) ; do v <- stoi t ;
  do _ <- foldM (fun _ j => if j =? i then Ok tt else do t <- token l (2 + j) ; do w <- stoi t ; if w =? 0 then Ok tt else Err) [0; 1; 2] tt ;
  Ok v.
Definition threeRows (l0 l1 l2 : str) : res (Z * Z * Z) := do a <- rowDim 0 l0 ; do b <- rowDim 1 l1 ; do c <- rowDim 2 l2 ; Ok (a, b, c).
(** l.73-115; the flag tells whether the supercell of the harmonic force constants has its own label. std::getline at the end gives an empty line, whose tokens are missing *)
Fixpoint dims (ls : list str) (g : Z * Z * Z) : res (Z * Z * Z * bool) :=
  match ls with
  | [] => Ok (g, false)
  | l :: r =>
    if finds l (str! "phonon_supercell_matrix:") then
      match r with l0 :: l1 :: l2 :: _ => do g <- threeRows l0 l1 l2 ; Ok (g, true) | _ => do g <- threeRows (nth 0 r []) (nth 1 r []) (nth 2 r []) ; Ok (g, true) end
    else if finds l (str! "supercell_matrix:") then
      match r with l0 :: l1 :: l2 :: r' => do g <- threeRows l0 l1 l2 ; dims r' g | _ => do g <- threeRows (nth 0 r []) (nth 1 r []) (nth 2 r []) ; Ok (g, false) end
    else dims r g
  end.
(** l.119-122 *)
Definition grid (ls : list str) : res (Z * Z * Z * bool) :=
  do (g, ph) <- dims ls (0, 0, 0) ; let '(a, b, c) := g in if (a <=? 0) || (b <=? 0) || (c <=? 0) then Err else Ok (g, ph).

Definition q3 : Type := Q * Q * Q.
Definition triple (l : str) : res q3 :=
  do a <- token l 2 ; do x <- stod a ; do b <- token l 3 ; do y <- stod b ; do c <- token l 4 ; do z <- stod c ; Ok (x, y, z).
(** l.156-160: line.substr(line.find("symbol: ") + 8, line.find('#') - 13) without blanks; a negative count (npos included) goes to the end of the line *)
Definition symbolOf (l : str) : str :=
  let p := match findPattern l (str! "symbol: ") with Some n => n | None => O end in
  let rest := skipn (p + 8) l in
  remove isspace (match findFirst "#"%char l with Some n => if (n <? 13)%nat then rest else firstn (n - 13) rest | None => rest end).
Fixpoint indexOf (i : Z) (names : list str) (s : str) : option Z := match names with [] => None | x :: r => if streq x s then Some i else indexOf (i + 1) r s end.

Record unitState := { uBohr : bool; uFound : bool; uPrim : bool; uRow : Z; uNames : list str; uSpecies : list Z; uPos : list q3; uCell : list (Z * q3) }.
Definition unit0 : unitState := {| uBohr := false; uFound := false; uPrim := false; uRow := 3; uNames := []; uSpecies := []; uPos := []; uCell := [] |}.
(** l.153-170 *)
Definition addSymbol (l : str) (s : unitState) : unitState :=
  if finds l (str! " symbol: ") then
    let name := symbolOf l in
    let names := match indexOf 0 (uNames s) name with Some _ => uNames s | None => uNames s ++ [name] end in
    let k := match indexOf 0 names name with Some k => k | None => zlen names end in
    {| uBohr := uBohr s; uFound := uFound s; uPrim := uPrim s; uRow := uRow s; uNames := names; uSpecies := uSpecies s ++ [k]; uPos := uPos s; uCell := uCell s |}
  else s.
(** l.171-179 *)
Definition addPosition (l : str) (s : unitState) : res unitState :=
  if finds l (str! "coordinates: ") then
    do p <- triple l ; Ok {| uBohr := uBohr s; uFound := uFound s; uPrim := uPrim s; uRow := uRow s; uNames := uNames s; uSpecies := uSpecies s; uPos := uPos s ++ [p]; uCell := uCell s |}
  else Ok s.
Definition setRow (k : Z) (c : list (Z * q3)) (prim : bool) (s : unitState) : unitState :=
  {| uBohr := uBohr s; uFound := uFound s; uPrim := prim; uRow := k; uNames := uNames s; uSpecies := uSpecies s; uPos := uPos s; uCell := c |}.
(** l.180-190 *)
Definition addRow (l : str) (s : unitState) : res unitState :=
  do s <- (if uRow s <? 3 then do v <- triple l ; Ok (setRow (uRow s + 1) (uCell s ++ [(uRow s, v)]) (uPrim s) s) else Ok s) ;
  Ok (if finds l (str! "lattice:") then setRow 0 (uCell s) (uPrim s) s else s).
(** l.196-210: the primitive cell is only compared *)
Definition primRow (l : str) (s : unitState) : res unitState :=
  if uPrim s then
    do s <- (if uRow s <? 3 then do _ <- triple l ; Ok (setRow (uRow s + 1) (uCell s) (negb (uRow s + 1 =? 3)) s) else Ok s) ;
    Ok (if finds l (str! "lattice:") && negb (finds l (str! "recip")) then setRow 0 (uCell s) (uPrim s) s else s)
  else Ok s.
Definition setFlags (l : str) (s : unitState) : unitState :=
  {| uBohr := uBohr s; uFound := uFound s || finds l (str! "unit_cell:"); uPrim := uPrim s || finds l (str! "primitive_cell:"); uRow := uRow s; uNames := uNames s; uSpecies := uSpecies s; uPos := uPos s; uCell := uCell s |}.
Definition setBohr (l : str) (s : unitState) : unitState :=
  {| uBohr := uBohr s || (finds l (str! "length") && finds l (str! "au")); uFound := uFound s; uPrim := uPrim s; uRow := uRow s; uNames := uNames s; uSpecies := uSpecies s; uPos := uPos s; uCell := uCell s |}.
(** l.141-217; the second result are the lines after the break of l.192-194 *)
Fixpoint unitCell (ls : list str) (s : unitState) : res (unitState * list str) :=
  match ls with
  | [] => Ok (s, [])
  | l :: r =>
    let s := setBohr l s in
    if uFound s then
      do s <- addPosition l (addSymbol l s) ; do s <- addRow l s ;
      match l with [] => Ok (s, r) | _ => do s <- primRow l s ; unitCell r (setFlags l s) end
    else do s <- primRow l s ; unitCell r (setFlags l s)
  end.

Record superState := { sRead : bool; sRow : Z; sPos : list q3; sCell : list (Z * q3) }.
(** l.232-261 *)
Definition superLine (key : str) (s : superState) (l : str) : res superState :=
  let rd := sRead s || finds l key in
  if rd then
    do pos <- (if finds l (str! "coordinates: ") then do p <- triple l ; Ok (sPos s ++ [p]) else Ok (sPos s)) ;
    do (row, c) <- (if sRow s <? 3 then do v <- triple l ; Ok (sRow s + 1, sCell s ++ [(sRow s, v)]) else Ok (sRow s, sCell s)) ;
    Ok {| sRead := true; sRow := if finds l (str! "lattice:") then 0 else row; sPos := pos; sCell := c |}
  else Ok s.
Record yaml := { yGrid : Z * Z * Z; yBohr : bool; yCell : list (Z * q3); yNames : list str; ySpecies : list Z; yPos : list q3; ySupPos : list q3; ySupCell : list (Z * q3) }.
(** while (infile) { getline ... }: after the last line the body runs once more with an empty line *)
Definition readYaml (file : list str) : res yaml :=
  do (g, ph) <- grid file ;
  do (u, rest) <- unitCell (file ++ [[]]) unit0 ;
  do s <- foldM (superLine (if ph then str! "phonon_supercell:" else str! "supercell:")) rest {| sRead := false; sRow := 3; sPos := []; sCell := [] |} ;
  Ok {| yGrid := g; yBohr := uBohr u; yCell := uCell u; yNames := uNames u; ySpecies := uSpecies u; yPos := uPos u; ySupPos := sPos s; ySupCell := sCell s |}.
