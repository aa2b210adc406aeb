(** Model of the text readers of src/parser/qe_input_parser.cpp: force constants of q2r.x (parsePhHarmonic), Hamiltonian of Wannier90 (parseElHarmonicWannier) and its
    shifts (parseWSVecFromWannier90). A file is a list of lines, a line the list of its words (split(line, ' '), l.365-385); numbers are read without rounding. A
    call that throws (std::stoi, std::stod of a word) ends the program like Error. Not modelled: integers written with a decimal point. *)
From Coq Require Import Reals Ascii.
From Verif Require Import Base M_particle M_context M_complex M_qe.
Open Scope Z_scope.

Inductive word := WI (z : Z) | WR (x : R) | WS (s : str).
Definition line : Type := list word.
(** std::getline; at the end of the file the line becomes empty and the program goes on *)
Definition getline (f : list line) : line * list line := match f with [] => ([], []) | l :: r => (l, r) end.
(** lineSplit[i] *)
Definition at_ (l : line) (i : Z) : res word := match zget l i with Some w => Ok w | None => UB end.
Definition stoi (w : word) : res Z := match w with WI z => if (INT_MIN <=? z) && (z <=? INT_MAX) then Ok z else Err | _ => Err end.
Definition stod (w : word) : res R := match w with WI z => Ok (IZR z) | WR x => Ok x | WS _ => Err end.
Definition intAt (l : line) (i : Z) : res Z := do w <- at_ l i ; stoi w.
Definition realAt (l : line) (i : Z) : res R := do w <- at_ l i ; stod w.

(** a loop whose body reads lines and writes elements of an array; X is what the body keeps from one step to the next *)
Fixpoint loop {K W X} (body : K -> list line * X -> res (list W * (list line * X))) (ks : list K) (s : list line * X) : res (list W * (list line * X)) :=
  match ks with
  | [] => Ok ([], s)
  | k :: r => do (w, s1) <- body k s ; do (ws, s2) <- loop body r s1 ; Ok (w ++ ws, s2)
  end.
Definition three : list Z := [0; 1; 2].

(** * parsePhHarmonic, l.387-573 *)
(** ic, jc, r1, r2, r3, iat, jat *)
Definition fcKey : Type := Z * Z * Z * Z * Z * Z * Z.
(** l.534-537: iss >> m1Test >> m2Test >> m3Test >> x; when the line is too short x keeps its value, None being a variable without a value (l.520) *)
Definition readX (l : line) (x : option R) : option R :=
  match l with
  | WI _ :: WI _ :: WI _ :: WI z :: _ => Some (IZR z)
  | WI _ :: WI _ :: WI _ :: WR y :: _ => Some y
  | WI _ :: WI _ :: WI _ :: WS _ :: _ => Some 0%R
  | _ => x
  end.
Definition fcValue (ic : Z) (b : Z * Z * Z) (r : Z * Z * Z) (s : list line * option R) : res (list (fcKey * R) * (list line * option R)) :=
  let '(jc, iat, jat) := b in let '(r3, r2, r1) := r in
  let (l, f) := getline (fst s) in
  match readX l (snd s) with Some x => Ok ([((ic, jc, r1, r2, r3, iat, jat), x)], (f, Some x)) | None => UB end.
(** l.524-541: a line with the four indices, then the values *)
Definition fcBlock (g : Z * Z * Z) (ic : Z) (b : Z * Z * Z) (s : list line * option R) : res (list (fcKey * R) * (list line * option R)) :=
  let '(n1, n2, n3) := g in loop (fcValue ic b) (list_prod (list_prod (zrange 0 n3) (zrange 0 n2)) (zrange 0 n1)) (snd (getline (fst s)), snd s).
(** l.518-546 *)
Definition fcDir (g : Z * Z * Z) (nat ic : Z) (s : list line * option R) : res (list (fcKey * R) * (list line * option R)) :=
  loop (fcBlock g ic) (list_prod (list_prod three (zrange 0 nat)) (zrange 0 nat)) (fst s, None).

Record qeFile := { qCell : cell3; qSpecies : list (str * R); qAtoms : list (Z * (R * R * R)); qDiel : list ((Z * Z) * R); qBorn : list ((Z * Z * Z) * R);
  qGrid : Z * Z * Z; qFC : list (fcKey * R) }.
(** l.462-468: 'name' between quotes *)
Definition readSpecies (_ : Z) (s : list line * unit) : res (list (str * R) * (list line * unit)) :=
  let (l, f) := getline (fst s) in
  do w <- at_ l 1 ; do m <- realAt l 2 ; match w with WS n => Ok ([(n, m)], (f, tt)) | _ => Ok ([([], m)], (f, tt)) end.
(** l.475-487 *)
Definition readAtom (alat : R) (_ : Z) (s : list line * unit) : res (list (Z * (R * R * R)) * (list line * unit)) :=
  let (l, f) := getline (fst s) in
  do t <- intAt l 1 ; do x <- realAt l 2 ; do y <- realAt l 3 ; do z <- realAt l 4 ; Ok ([(t - 1, (alat * x, alat * y, alat * z)%R)], (f, tt)).
(** three numbers of a line *)
Definition readRow {K} (key : Z -> K) (s : list line * unit) : res (list (K * R) * (list line * unit)) :=
  let (l, f) := getline (fst s) in
  do x <- realAt l 0 ; do y <- realAt l 1 ; do z <- realAt l 2 ; Ok ([(key 0, x); (key 1, y); (key 2, z)], (f, tt)).
(** l.500-517 *)
Definition readBorn (ia : Z) (s : list line * unit) : res (list ((Z * Z * Z) * R) * (list line * unit)) :=
  loop (fun i => readRow (fun j => (ia, i, j))) three (snd (getline (fst s)), tt).
Definition isT (l : line) : bool := match l with [WS s] => streq s ["T"%char] | _ => false end.
(** l.447-455: the vectors of a free cell *)
Definition readCell (s : list line * unit) : res (cell3 * (list line * unit)) :=
  do (ws, s1) <- loop (fun i => readRow (fun j => (i, j))) three s ;
  match map snd ws with [a; b; c; d; e; f; g; h; i] => Ok ((a, b, c), (d, e, f), (g, h, i), s1) | _ => UB end.
Definition zeroCell : cell3 := let z := (0, 0, 0)%R in (z, z, z).
Definition readDielectric (yes : bool) (nat : Z) (s : list line * unit) : res (list ((Z * Z) * R) * list ((Z * Z * Z) * R) * (list line * unit)) :=
  if yes then do (d, s1) <- loop (fun i => readRow (fun j => (i, j))) three s ; do (b, s2) <- loop readBorn (zrange 0 nat) s1 ; Ok (d, b, s2)
  else Ok (map (fun k => (k, 0%R)) (list_prod three three), map (fun k => (k, 0%R)) (list_prod (list_prod (zrange 0 nat) three) three), s).
Definition parsePhHarmonic (file : list line) : res qeFile :=
  let (l0, f0) := getline file in
  do nel <- intAt l0 0 ; do nat <- intAt l0 1 ; do ib <- intAt l0 2 ;
  do c0 <- realAt l0 3 ; do c1 <- realAt l0 4 ; do c2 <- realAt l0 5 ; do c3 <- realAt l0 6 ; do c4 <- realAt l0 7 ; do c5 <- realAt l0 8 ;
  do (A, s1) <- (if ib =? 0 then readCell (f0, tt) else Ok (zeroCell, (f0, tt))) ;
  do (C, alat) <- getQELattice ib {| cd0 := c0; cd1 := c1; cd2 := c2; cd3 := c3; cd4 := c4; cd5 := c5 |} A ;
  do (sp, s2) <- loop readSpecies (zrange 0 nel) s1 ;
  do (ats, s3) <- loop (readAtom alat) (zrange 0 nat) s2 ;
  let (lt, f3) := getline (fst s3) in
  do (d, b, s4) <- readDielectric (isT lt) nat (f3, tt) ;
  let (lg, f4) := getline (fst s4) in
  do n1 <- intAt lg 0 ; do n2 <- intAt lg 1 ; do n3 <- intAt lg 2 ;
  do (fc, _) <- loop (fcDir (n1, n2, n3) nat) three (f4, None) ;
  (* l.556: the mesh is tested after its use *)
  if (n1 <=? 0) || (n2 <=? 0) || (n3 <=? 0) then Err
  else Ok {| qCell := C; qSpecies := sp; qAtoms := ats; qDiel := d; qBorn := b; qGrid := (n1, n2, n3); qFC := fc |}.

(** * parseElHarmonicWannier, l.889-1020 *)
Record tbFile := { tCell : list ((Z * Z) * R); tNum : Z; tVecs : list (Z * (R * R * R)); tDeg : list (Z * Z); tH : list ((Z * Z * Z) * cplx); tR : list ((Z * Z * Z * Z) * cplx) }.
(** l.941-953: degeneracies, all the numbers of each line *)
Fixpoint readDegs (nv : Z) (l : line) (j : Z) : res (list (Z * Z)) :=
  match l with
  | [] => Ok []
  | w :: r => do d <- stoi w ; if j <? nv then do ws <- readDegs nv r (j + 1) ; Ok ((j, d) :: ws) else UB
  end.
Definition degLine (nv : Z) (_ : Z) (s : list line * Z) : res (list (Z * Z) * (list line * Z)) :=
  let (l, f) := getline (fst s) in do ws <- readDegs nv l (snd s) ; Ok (ws, (f, snd s + zlen l)).
(** l.979-986: the indices written in the line are not read, the first index of the array is the outer loop *)
Definition hamElement (ry : R) (iR : Z) (p : Z * Z) (s : list line * unit) : res (list ((Z * Z * Z) * cplx) * (list line * unit)) :=
  let (l, f) := getline (fst s) in
  do re <- realAt l 2 ; do im <- realAt l 3 ; Ok ([((iR, fst p, snd p), (re / ry, im / ry)%R)], (f, tt)).
(** l.968-988: an empty line, the lattice vector (kept by the first reading only), the elements *)
Definition hamBlock (ry : R) (nw iR : Z) (s : list line * unit) : res (list ((Z * (R * R * R)) + ((Z * Z * Z) * cplx)) * (list line * unit)) :=
  let f1 := snd (getline (fst s)) in let (lv, f2) := getline f1 in
  do x <- realAt lv 0 ; do y <- realAt lv 1 ; do z <- realAt lv 2 ;
  do (ws, s3) <- loop (hamElement ry iR) (list_prod (zrange 0 nw) (zrange 0 nw)) (f2, tt) ;
  Ok (inl (iR, (x, y, z)) :: map inr ws, s3).
Definition posElement (bohr : R) (iR : Z) (p : Z * Z) (s : list line * unit) : res (list ((Z * Z * Z * Z) * cplx) * (list line * unit)) :=
  let (l, f) := getline (fst s) in let c := fun i => (do re <- realAt l (2 + 2 * i) ; do im <- realAt l (3 + 2 * i) ; Ok ((i, iR, fst p, snd p), (re / bohr, im / bohr)%R)) in
  do a <- c 0 ; do b <- c 1 ; do d <- c 2 ; Ok ([a; b; d], (f, tt)).
Definition posBlock (bohr : R) (nw iR : Z) (s : list line * unit) : res (list ((Z * Z * Z * Z) * cplx) * (list line * unit)) :=
  loop (posElement bohr iR) (list_prod (zrange 0 nw) (zrange 0 nw)) (snd (getline (snd (getline (fst s)))), tt).
Definition lefts {A B} (l : list (A + B)) : list A := flat_map (fun x => match x with inl a => [a] | inr _ => [] end) l.
Definition rights {A B} (l : list (A + B)) : list B := flat_map (fun x => match x with inl _ => [] | inr b => [b] end) l.
(** the arrays start as zeros; tDeg, tH, tR are the assignments in order *)
Definition parseWannier (ry bohr : R) (file : list line) : res tbFile :=
  let f0 := snd (getline file) in
  do (cl, s1) <- loop (fun i => readRow (fun j => (j, i))) three (f0, tt) ;
  let (lw, f2) := getline (fst s1) in do nw <- intAt lw 0 ;
  let (lv, f3) := getline f2 in do nv <- intAt lv 0 ;
  let numLines := Z.quot nv 15 + (if Z.rem nv 15 =? 0 then 0 else 1) in
  do (dg, s4) <- loop (degLine nv) (zrange 0 numLines) (f3, 0) ;
  do (h, s5) <- loop (hamBlock ry nw) (zrange 0 nv) (fst s4, tt) ;
  do (r, _) <- loop (posBlock bohr nw) (zrange 0 nv) s5 ;
  Ok {| tCell := map (fun kv => (fst kv, (snd kv / bohr)%R)) cl; tNum := nw; tVecs := lefts h; tDeg := dg; tH := rights h; tR := r |}.

(** * parseWSVecFromWannier90, l.812-887, after the first line *)
Definition shiftKey : Type := Z * Z * Z.
Definition z3eqb (a b : Z * Z * Z) : bool := let '(x, y, z) := a in let '(u, v, w) := b in (x =? u) && (y =? v) && (z =? w).
(** one assignment of degeneracyShifts or, for each image, of phaseShifts (crystal coordinates, before the product with the cell) *)
Inductive wsWrite := Deg (k : shiftKey) (d : Z) | Shift (iDeg : Z) (k : shiftKey) (v : Z * Z * Z).
Definition shiftLine (k : shiftKey) (iDeg : Z) (s : list line * unit) : res (list wsWrite * (list line * unit)) :=
  let (l, f) := getline (fst s) in
  do x <- intAt l 0 ; do y <- intAt l 1 ; do z <- intAt l 2 ; if iDeg <? 8 then Ok ([Shift iDeg k (x, y, z)], (f, tt)) else UB.
Definition inside (nw nv : Z) (k : shiftKey) : bool := let '(a, b, iR) := k in (0 <=? a) && (a <? nw) && (0 <=? b) && (b <? nw) && (0 <=? iR) && (iR <? nv).
(** l.850-883; n bounds the number of entries by the number of lines *)
Fixpoint wsEntries (n : nat) (nw nv : Z) (f : list line) (old : Z * Z * Z) (iR : Z) : res (list wsWrite) :=
  match n, f with
  | _, [] => Ok []
  | O, _ => Ok []
  | S m, l :: f1 =>
    do x <- intAt l 0 ; do y <- intAt l 1 ; do z <- intAt l 2 ;
    let iR' := if z3eqb (x, y, z) old then iR else iR + 1 in
    do a <- intAt l 3 ; do b <- intAt l 4 ;
    let (ld, f2) := getline f1 in
    do d <- (match ld with [] => Err | w :: _ => stoi w end) ;
    let k := (a - 1, b - 1, iR') in
    if inside nw nv k then
      do (ws, s3) <- loop (shiftLine k) (zrange 0 d) (f2, tt) ;
      do rest <- wsEntries m nw nv (fst s3) (x, y, z) iR' ; Ok (Deg k d :: ws ++ rest)
    else UB
  end.
Definition parseWsVec (nw nv : Z) (f : list line) : res (list wsWrite) := wsEntries (length f) nw nv f (0, 0, 0) (-1).
