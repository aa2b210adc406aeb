(** Model of ElPhQeToPhoebeApp::setupRotationMatrices, src/apps/qe_to_phoebe_wannier.cpp:796-920: the rotations written by Wannier90. A file is
    its list of lines, a line the list of its numbers (rationals; the numbers of a title line are irrelevant). assert is taken as undefined
    behaviour, as in a build without assertions. *)
From Coq Require Import Reals QArith Qreals.
From Verif Require Import Base M_points M_complex M_wannier.
Open Scope Z_scope.

Definition stream : Type := list (list Q).
(** std::getline: the rest of the current line *)
Definition getline (s : stream) : stream := tl s.
(** operator>>: skips blank lines *)
Fixpoint readTok (s : stream) : option (Q * stream) :=
  match s with
  | [] => None
  | [] :: r => readTok r
  | (q :: l) :: r => Some (q, l :: r)
  end.
(** at the end of the file the variable keeps its value; [None]: never set *)
Definition readVal (s : stream) (old : option Q) : option Q * stream :=
  match readTok s with Some (q, s') => (Some q, s') | None => (old, []) end.
Definition set (v : option Q) : res Q := match v with Some q => Ok q | None => UB end.
(** an int; a number that is not an integer is not modelled (Err) *)
Definition readInt (s : stream) : res (Z * stream) :=
  let '(v, s') := readVal s None in do q <- set v ; match Qden q with xH => Ok (Qnum q, s') | _ => Err end.
(** l.820-823, l.862-864: three numbers *)
Definition readInts (s : stream) : res (Z * Z * Z * stream) :=
  do (a, s) <- readInt s ; do (b, s) <- readInt s ; do (c, s) <- readInt s ; Ok (a, b, c, s).
Definition readPoint (s : stream) : res (v3 * stream) :=
  let '(x, s) := readVal s None in let '(y, s) := readVal s None in let '(z, s) := readVal s None in
  do x <- set x ; do y <- set y ; do z <- set z ; Ok (V3 x y z, s).
Definition pairsOf (nr nc : Z) : list (Z * Z) := flat_map (fun j => map (fun i => (i, j)) (zrange 0 nr)) (zrange 0 nc).
(** l.833-838, l.885-890: one entry; re and im live as long as the loops *)
Definition readEntry (st : stream * option Q * option Q * cmat) (p : Z * Z) : res (stream * option Q * option Q * cmat) :=
  let '(s, re, im, U) := st in
  let '(re, s) := readVal s re in let '(im, s) := readVal s im in
  do x <- set re ; do y <- set im ;
  Ok (s, re, im, fun i j => if (i =? fst p) && (j =? snd p) then (Q2R x, Q2R y) else U i j).
Definition readMatrix (nr nc : Z) (s : stream) (U : cmat) : res (cmat * stream) :=
  do (s, _, _, U) <- foldM readEntry (pairsOf nr nc) (s, None, None, U) ; Ok (U, s).
(** l.826-839, l.874-891: the block of one wavevector. [n]: size of the last dimension of the tensor *)
Definition readBlock (p : points) (n nr nc : Z) (st : stream * (Z -> cmat)) (ik : Z) : res (stream * (Z -> cmat)) :=
  let '(s, T) := st in
  do (k, s) <- readPoint (getline s) ;
  do ikk <- getIndex p k ;
  if (ikk <? 0) || (n <=? ikk) then UB else
  do (U, s) <- readMatrix nr nc s (T ikk) ;
  Ok (s, fun j => if j =? ikk then U else T j).
Definition zeroMat : cmat := fun _ _ => c0.
Definition readFile (p : points) (n nr nc : Z) (s : stream) : res (Z -> cmat) :=
  do (_, T) <- foldM (readBlock p n nr nc) (zrange 0 n) (s, fun _ => zeroMat) ; Ok T.
(** l.796-920. [uFile], [disFile]: the two files, None when they cannot be opened; result: number of rows, of columns, and the matrices *)
Definition setupRotationMatrices (prefixGiven : bool) (uFile disFile : option stream) (p : points) : res (Z * Z * (Z -> cmat)) :=
  if negb prefixGiven then Err else
  match uFile with None => Err | Some s =>
  do (n, nW, _, s) <- readInts (getline s) ;
  if negb (n =? numPoints p) || (nW <? 0) then UB else
  do U <- readFile p n nW nW s ;
  match disFile with
  | None => Ok (nW, nW, U)
  | Some s2 =>
    do (n2, nW2, nB, s2) <- readInts (getline s2) ;
    if negb (nW2 =? nW) || (nB <? nW) || (n2 <? 0) then UB else
    do D <- readFile p n2 nB nW s2 ;
    if n <? n2 then UB else Ok (nB, nW, fun ik => if ik <? n2 then rotationProduct nW (D ik) (U ik) else zeroMat)
  end end.
