(** Model of src/bte/scattering.cpp and of the builders of src/bte/ph_scattering.cpp and el_scattering.cpp.
    All quantities belong to one calculation iCalc (the loops over iCalc are independent; a matrix in memory allows
    only one). Values are rationals: no rounding. *)
From Coq Require Import QArith Qcanon.
From Verif Require Import Base M_mpi M_irreducible M_matrix M_vbte.
Open Scope Z_scope.

(** * Band structure seen by the builders *)
(** [gN] = numStates (irreducible states), [gPts] = getNumPoints, [gIrr] = irrPointsIterator,
    [gStar] = getReducibleStarFromIrreducible, [gB2S] = bteToState, [gS2B] = stateToBte, [gPoint] = wavevector of getIndex(state) *)
Record grid := { gN : Z; gPts : Z; gIrr : list Z; gStar : Z -> list Z; gB2S : Z -> Z; gS2B : Z -> Z; gPoint : Z -> Z }.

(** scattering.cpp:1128-1147 getSMatrixIndex (C01: compress2Indices without overflow) *)
Definition toMat (sym : bool) (b i : Z) : Z := if sym then 3 * b + i else b.
Definition ofMat (sym : bool) (m : Z) : Z * Z := if sym then (m / 3, m mod 3) else (m, 0).
(** l.113-118 *)
Definition matSize (sym : bool) (n : Z) : Z := if sym then 3 * n else n.

(** * Scattering events *)
(** One contribution to the collision operator: states and BTE indices of 1 and of the irreducible image of 2, the
    inverse of the rotation to the irreducible point, rate of the off-diagonal and of the diagonal term, and whether
    the process is Umklapp for each part of the diagonal term. *)
Record event := { evIs1 : Z; evBte1 : Z; evIs2Irr : Z; evBte2 : Z; evRot : Z -> Z -> Qc; evOff : Qc; evParts : list (Qc * bool) }.
Definition evDiag (e : event) : Qc := qsum (map fst (evParts e)).
Definition isIn (l : list Z) (x : Z) : bool := existsb (Z.eqb x) l.

Section Phonons.
(** [nb iq], [nb3p iq1 iq2], [nb3m iq1 iq2] numbers of bands; [idx iq ib] = getIndex; [irrOf iq2], [rotInv iq2] =
    getRotationToIrreducible (index and inverse rotation); [en], [en3p], [en3m] energies; [cp], [cm] = couplings after
    symmetrizeCoupling; [dp], [d1], [d2], [diso] = smearing values; [bose iBte] and [bose3p], [bose3m] populations;
    [umk], [umkm1], [umkm2] = Umklapp tests of the pair; [iso iq1 ib1 iq2 ib2] = sum over atoms of ph_scattering.cpp:697-704;
    [cpi] = pi, [norm] = 1/(number of mesh points), [cut] = energyCutoff, [same] = outerEqualInnerMesh. Both band structures
    share their indices ([same] = true) or the indices of the outer one are those of the path. *)
Variables (G : grid) (excl : list Z) (nb : Z -> Z) (nb3p nb3m : Z -> Z -> Z) (idx : Z -> Z -> Z) (irrOf : Z -> Z) (rotInv : Z -> Z -> Z -> Qc).
Variables (en : Z -> Z -> Qc) (en3p en3m : Z -> Z -> Z -> Qc) (cp cm : Z -> Z -> Z -> Z -> Z -> Qc).
Variables (dp d1 d2 : Z -> Z -> Z -> Z -> Z -> Qc) (diso iso : Z -> Z -> Z -> Z -> Qc) (bose : Z -> Qc) (bose3p bose3m : Z -> Z -> Z -> Qc).
Variables (umk umkm1 umkm2 : Z -> Z -> bool) (cpi norm cut : Qc) (same doIsotopes : bool).
Definition half : Qc := Q2Qc (1 # 2).
Definition quarter : Qc := Q2Qc (1 # 4).
Definition qltb (a b : Qc) : bool := if Qclt_le_dec a b then true else false.
(** ph_scattering.cpp:346-357, 477-486 *)
Definition discarded (e1 e2 e3 : Qc) : bool :=
  if same then qltb e1 cut || qltb e2 cut || qltb e3 cut else qltb (e1 * e2 * e3)%Qc cut.
(** l.336-403: + process of bands ib1, ib2, ib3 *)
Definition plusEvent (iq1 iq2 ib1 ib2 ib3 : Z) : list event :=
  let is1 := idx iq1 ib1 in let is2i := idx (irrOf iq2) ib2 in
  let b1 := gS2B G is1 in let b2 := gS2B G is2i in
  let e1 := en iq1 ib1 in let e2 := en iq2 ib2 in let e3 := en3p iq1 iq2 ib3 in
  if discarded e1 e2 e3 then [] else
  let delta := dp iq1 iq2 ib1 ib2 ib3 in
  if negb (qltb 0%Qc delta) then [] else
  let rate := (cpi * quarter * bose b1 * bose b2 * (bose3p iq1 iq2 ib3 + 1) * cp iq1 iq2 ib1 ib2 ib3 * delta * norm / (e1 * e2 * e3))%Qc in
  [{| evIs1 := is1; evBte1 := b1; evIs2Irr := is2i; evBte2 := b2; evRot := rotInv iq2; evOff := rate;
      evParts := [((half * rate)%Qc, umk iq1 iq2)] |}].
(** l.460-530: - processes *)
Definition minusEvent (iq1 iq2 ib1 ib2 ib3 : Z) : list event :=
  let is1 := idx iq1 ib1 in let is2i := idx (irrOf iq2) ib2 in
  let b1 := gS2B G is1 in let b2 := gS2B G is2i in
  let e1 := en iq1 ib1 in let e2 := en iq2 ib2 in let e3 := en3m iq1 iq2 ib3 in
  if discarded e1 e2 e3 then [] else
  let delta1 := d1 iq1 iq2 ib1 ib2 ib3 in let delta2 := d2 iq1 iq2 ib1 ib2 ib3 in
  if negb (qltb 0%Qc delta1) && negb (qltb 0%Qc delta2) then [] else
  let delta1 := if qltb delta1 0%Qc then 0%Qc else delta1 in let delta2 := if qltb delta2 0%Qc then 0%Qc else delta2 in
  let c := cm iq1 iq2 ib1 ib2 ib3 in let b3 := bose3m iq1 iq2 ib3 in
  let r1 := (cpi * quarter * b3 * bose b1 * (bose b2 + 1) * c * delta1 * norm / (e1 * e2 * e3))%Qc in
  let r2 := (cpi * quarter * bose b2 * b3 * (bose b1 + 1) * c * delta2 * norm / (e1 * e2 * e3))%Qc in
  [{| evIs1 := is1; evBte1 := b1; evIs2Irr := is2i; evBte2 := b2; evRot := rotInv iq2; evOff := (- (r1 + r2))%Qc;
      evParts := [((half * r1)%Qc, umkm1 iq1 iq2); ((half * r2)%Qc, umkm2 iq1 iq2)] |}].
(** l.306-334, 664-720: loops over bands of the pair; the excluded BTE indices are skipped *)
Definition threePhonon (iq1 iq2 : Z) : list event :=
  flat_map (fun ib1 => if isIn excl (gS2B G (idx iq1 ib1)) then [] else
    flat_map (fun ib2 => if isIn excl (gS2B G (idx (irrOf iq2) ib2)) then [] else
      flat_map (plusEvent iq1 iq2 ib1 ib2) (zrange 0 (nb3p iq1 iq2)) ++ flat_map (minusEvent iq1 iq2 ib1 ib2) (zrange 0 (nb3m iq1 iq2)))
      (zrange 0 (nb iq2))) (zrange 0 (nb iq1)).
(** l.612-770 *)
Definition isotopeEvent (iq1 iq2 ib1 ib2 : Z) : list event :=
  let is1 := idx iq1 ib1 in let is2i := idx (irrOf iq2) ib2 in
  let b1 := gS2B G is1 in let b2 := gS2B G is2i in
  if isIn excl b1 || qltb (en iq1 ib1) cut || isIn excl b2 || qltb (en iq2 ib2) cut then [] else
  let term := (iso iq1 ib1 iq2 ib2 * (cpi * half * norm * en iq1 ib1 * en iq2 ib2 * diso iq1 ib1 iq2 ib2))%Qc in
  let rate := (term * (bose b1 * bose b2 + half * (bose b1 + bose b2)))%Qc in
  [{| evIs1 := is1; evBte1 := b1; evIs2Irr := is2i; evBte2 := b2; evRot := rotInv iq2; evOff := (- rate)%Qc; evParts := [(rate, umk iq1 iq2)] |}].
Definition isotopes (iq1 iq2 : Z) : list event :=
  flat_map (fun ib1 => flat_map (isotopeEvent iq1 iq2 ib1) (zrange 0 (nb iq2))) (zrange 0 (nb iq1)).
(** the two loops over pairs of the builder visit the same pairs and only add: put together here *)
Definition phononEvents (iq1 iq2 : Z) : list event := threePhonon iq1 iq2 ++ (if doIsotopes then isotopes iq1 iq2 else []).
End Phonons.

Section Electrons.
(** el_scattering.cpp:213-330: [cc] coupling, [fermi], [bose3], [symm3] = 1/2/sinh, [en3]; [ik1] irreducible, [ik2] any point *)
Variables (G : grid) (nb : Z -> Z) (nb3 : Z -> Z -> Z) (idx : Z -> Z -> Z) (irrOf : Z -> Z) (rotInv : Z -> Z -> Z -> Qc).
Variables (en3 : Z -> Z -> Z -> Qc) (cc : Z -> Z -> Z -> Z -> Z -> Qc) (da db : Z -> Z -> Z -> Z -> Z -> Qc).
Variables (fermi : Z -> Qc) (bose3 symm3 : Z -> Z -> Z -> Qc) (cpi norm cut : Qc).
Definition electronEvent (ik1 ik2 ib1 ib2 ib3 : Z) : list event :=
  let is1 := idx ik1 ib1 in let is2i := idx (irrOf ik2) ib2 in
  let b1 := gS2B G is1 in let b2 := gS2B G is2i in
  let e3 := en3 ik1 ik2 ib3 in
  if qltb e3 cut then [] else
  let x := da ik1 ik2 ib1 ib2 ib3 in let y := db ik1 ik2 ib1 ib2 ib3 in
  if negb (qltb 0%Qc x) && negb (qltb 0%Qc y) then [] else
  let c := cc ik1 ik2 ib1 ib2 ib3 in
  let rate := (c * ((fermi b2 + bose3 ik1 ik2 ib3) * x + (1 - fermi b2 + bose3 ik1 ik2 ib3) * y) * norm / e3 * cpi)%Qc in
  let off := (- (c * symm3 ik1 ik2 ib3 * (x + y) * norm / e3 * cpi))%Qc in
  [{| evIs1 := is1; evBte1 := b1; evIs2Irr := is2i; evBte2 := b2; evRot := rotInv ik2; evOff := off; evParts := [(rate, false)] |}].
Definition electronEvents (ik1 ik2 : Z) : list event :=
  flat_map (fun ib2 => flat_map (fun ib1 => flat_map (electronEvent ik1 ik2 ib1 ib2) (zrange 0 (nb3 ik1 ik2))) (zrange 0 (nb ik1))) (zrange 0 (nb ik2)).
End Electrons.

(** * Pairs of wavevectors of one process, scattering.cpp:912-1126 *)
(** std::set of pairs: increasing, without repetitions *)
Definition pairLtb (a b : Z * Z) : bool := (fst a <? fst b) || ((fst a =? fst b) && (snd a <? snd b)).
Fixpoint insertPair (x : Z * Z) (l : list (Z * Z)) : list (Z * Z) :=
  match l with
  | [] => [x]
  | y :: r => if pairLtb x y then x :: l else if pairLtb y x then y :: insertPair x r else l
  end.
Definition pairSet (l : list (Z * Z)) : list (Z * Z) := fold_left (fun s x => insertPair x s) l [].
(** l.945-983, 1061-1092: pairs (irreducible point, point) of the local elements; [chunks] = local elements of the
    process split over its threads, which insert one after the other *)
Definition elementPairs (G : grid) (sym : bool) (t : Z * Z) : list (Z * Z) :=
  let k1 := gPoint G (gB2S G (fst (ofMat sym (fst t)))) in
  let k2i := gPoint G (gB2S G (fst (ofMat sym (snd t)))) in
  map (fun k2 => (k1, k2)) (gStar G k2i).
Definition localPairs (G : grid) (sym : bool) (chunks : list (list (Z * Z))) : list (Z * Z) :=
  pairSet (concat (map (flat_map (elementPairs G sym)) chunks)).
(** std::set<int> of the second (first) members *)
Definition keysOf (l : list Z) : list Z := fold_left (fun s x => insertSet x s) l [].
(** l.1094-1123 phonons: grouped by the second point *)
Definition matrixPairs (pairs : list (Z * Z)) : list (list Z * Z) :=
  map (fun k2 => (map fst (filter (fun p => snd p =? k2) pairs), k2)) (keysOf (map snd pairs)).
(** l.985-1011 electrons: grouped by the first point *)
Definition matrixPairsRow (pairs : list (Z * Z)) : list (list Z * Z) :=
  map (fun k1 => (map snd (filter (fun p => fst p =? k1) pairs), k1)) (keysOf (map fst pairs)).
(** l.1047-1059 phonons, dot and linewidths *)
Definition dotPairs (G : grid) (rank size : Z) : res (list (list Z * Z)) :=
  do q2s <- divideWorkIter (gPts G) rank size ; Ok (map (fun q2 => (gIrr G, q2)) q2s).
(** l.919-936 electrons, dot and linewidths: [mine] = parallelIrrPointsIterator *)
Definition dotPairsRow (G : grid) (mine : list Z) : list (list Z * Z) := map (fun k1 => (zrange 0 (gPts G), k1)) mine.
(** l.1016-1033 padding inside a pool: [pool] = lists of the members before; result for each *)
Definition padPool (pool : list (list (list Z * Z))) : list (list (list Z * Z)) :=
  let longest := fold_right Z.max 0 (map zlen pool) in
  if zlen pool <=? 1 then pool else map (fun l => l ++ repeat ([-1], -1) (Z.to_nat (longest - zlen l))) pool.
(** phel_scattering.cpp:9-25: no padding; [mine] as above, [q3] = irreducible phonon points *)
Definition phelPairs (q3 mine : list Z) : list (Z * list Z) := map (fun k1 => (k1, q3)) mine.

(** * Builders: one process *)
(** events met by a process; [ev iq1 iq2]; the dummy entries (-1) are skipped *)
Definition rankEvents (ev : Z -> Z -> list event) (pairs : list (list Z * Z)) : list event :=
  flat_map (fun p => flat_map (fun iq1 => ev iq1 (snd p)) (fst p)) pairs.
Definition rankEventsRow (ev : Z -> Z -> list event) (pairs : list (list Z * Z)) : list event :=
  flat_map (fun p => if snd p =? -1 then [] else flat_map (fun ik2 => ev (snd p) ik2) (fst p)) pairs.
Definition add1 (f : Z -> Qc) (a : Z) (x : Qc) : Z -> Qc := fun b => if b =? a then (f b + x)%Qc else f b.
Definition add2 (f : Z -> Z -> Qc) (a b : Z) (x : Qc) : Z -> Z -> Qc := fun r c => if (r =? a) && (c =? b) then (f r c + x)%Qc else f r c.
Definition three : list Z := [0; 1; 2].

(** matrix construction, ph_scattering.cpp:374-402, 501-533, 722-752; el_scattering.cpp:281-306. [own r c] = indicesAreLocal;
    the matrix of the process is seen as a function (C23); writes to elements of others are lost *)
Definition matrixStep (sym : bool) (own : Z -> Z -> bool) (st : (Z -> Qc) * (Z -> Z -> Qc)) (e : event) : (Z -> Qc) * (Z -> Z -> Qc) :=
  if sym then
    fold_left (fun st ij =>
      let '(lw, M) := st in let '(i, j) := ij in
      let m1 := toMat sym (evBte1 e) i in let m2 := toMat sym (evBte2 e) j in
      if own m1 m2 then
        (if (i =? 0) && (j =? 0) then add1 lw (evBte1 e) (evDiag e) else lw,
         if negb (evIs1 e =? evIs2Irr e) then add2 M m1 m2 (evRot e i j * evOff e)%Qc else M)
      else (lw, M)) (list_prod three three) st
  else
    let '(lw, M) := st in
    if own (evBte1 e) (evBte2 e) then (add1 lw (evBte1 e) (evDiag e), add2 M (evBte1 e) (evBte2 e) (evOff e)) else (lw, M).
Definition rankMatrix (sym : bool) (own : Z -> Z -> bool) (es : list event) : (Z -> Qc) * (Z -> Z -> Qc) :=
  fold_left (matrixStep sym own) es ((fun _ => 0%Qc), (fun _ _ => 0%Qc)).
(** matrix-vector product, ph_scattering.cpp:404-430, 535-563, 754-778; el_scattering.cpp:307-331 *)
Definition dotStep (x : Z -> Z -> Qc) (out : Z -> Z -> Qc) (e : event) : Z -> Z -> Qc :=
  fold_left (fun out i =>
    let out := if negb (evIs1 e =? evIs2Irr e) then add2 out i (evBte1 e) (evOff e * rotate (evRot e) (fun j => x j (evBte2 e)) i)%Qc else out in
    add2 out i (evBte1 e) (evDiag e * x i (evBte1 e))%Qc) three out.
Definition rankDot (x : Z -> Z -> Qc) (es : list event) : Z -> Z -> Qc := fold_left (dotStep x) es (fun _ _ => 0%Qc).
(** linewidths, Umklapp and Normal linewidths, ph_scattering.cpp:432-456, 565-606, 780-806 *)
Definition lwStep (lw : Z -> Qc) (e : event) : Z -> Qc := add1 lw (evBte1 e) (evDiag e).
Definition rankLinewidths (es : list event) : Z -> Qc := fold_left lwStep es (fun _ => 0%Qc).
Definition unStep (st : (Z -> Qc) * (Z -> Qc)) (e : event) : (Z -> Qc) * (Z -> Qc) :=
  fold_left (fun (st : (Z -> Qc) * (Z -> Qc)) (p : Qc * bool) => let '(u, n) := st in if snd p then (add1 u (evBte1 e) (fst p), n) else (u, add1 n (evBte1 e) (fst p))) (evParts e) st.
Definition rankUN (es : list event) : (Z -> Qc) * (Z -> Qc) := fold_left unStep es ((fun _ => 0%Qc), (fun _ => 0%Qc)).

(** * After the MPI sums *)
(** sum over processes; [bnd iBte] = boundary rate (0 when there is none) added to the BTE indices that are not excluded,
    ph_scattering.cpp:820-866 and el_scattering.cpp:355-397; then the excluded columns are cleared, l.868-906 *)
Definition total1 (fs : list (Z -> Qc)) (b : Z) : Qc := qsum (map (fun f => f b) fs).
Definition finishLinewidths (excl : list Z) (bnd : Z -> Qc) (lw : Z -> Qc) (b : Z) : Qc :=
  if isIn excl b then 0%Qc else (lw b + bnd b)%Qc.
Definition finishDot (excl : list Z) (bnd : Z -> Qc) (x out : Z -> Z -> Qc) (i b : Z) : Qc :=
  if isIn excl b then 0%Qc else (out i b + bnd b * x i b)%Qc.
(** l.868-898 and 912-935: elements between excluded states cleared, then the diagonal blocks replaced by the linewidths.
    A process that does not own the element has nothing there *)
Definition finishMatrix (sym : bool) (excl : list Z) (n : Z) (lw : Z -> Qc) (own : Z -> Z -> bool) (M : Z -> Z -> Qc) (r c : Z) : Qc :=
  if negb (own r c) then 0%Qc else
  let '(b1, i) := ofMat sym r in let '(b2, j) := ofMat sym c in
  if (b1 =? b2) && (0 <=? b1) && (b1 <? n) then if i =? j then lw b1 else 0%Qc
  else if isIn excl b1 && isIn excl b2 then 0%Qc else M r c.

(** the collision matrix in memory: linewidths (the same on all processes) and the local parts *)
Record inMemory := { imLayout : layout; imDiag : Z -> Qc; imPart : Z * Z -> Z -> Z -> Qc }.
(** scattering.cpp:92-162 setup and builder with switchCase 0; [evs p] = events met by process p *)
Definition buildInMemory (sym : bool) (excl : list Z) (n : Z) (bnd : Z -> Qc) (L : layout) (procs : list (Z * Z)) (evs : Z * Z -> list event) : inMemory :=
  let parts := fun p => rankMatrix sym (indicesAreLocal L p) (evs p) in
  let lw := finishLinewidths excl bnd (total1 (map (fun p => fst (parts p)) procs)) in
  {| imLayout := L; imDiag := lw; imPart := fun p => finishMatrix sym excl n lw (indicesAreLocal L p) (snd (parts p)) |}.
(** events met by each process of the grid, phonons and electrons; [chunks p] = local elements of p split over threads *)
Definition matrixEvents (G : grid) (sym : bool) (ev : Z -> Z -> list event) (chunks : Z * Z -> list (list (Z * Z))) (p : Z * Z) : list event :=
  rankEvents ev (matrixPairs (localPairs G sym (chunks p))).
Definition matrixEventsRow (G : grid) (sym : bool) (ev : Z -> Z -> list event) (chunks : Z * Z -> list (list (Z * Z))) (p : Z * Z) : list event :=
  rankEventsRow ev (matrixPairsRow (localPairs G sym (chunks p))).

(** * scattering.cpp:271-340 dot and 181-236 offDiagonalDot, matrix in memory *)
Definition elementStep (sym : bool) (skip : Z -> Z -> bool) (M : Z -> Z -> Qc) (x : Z -> Z -> Qc) (out : Z -> Z -> Qc) (t : Z * Z) : Z -> Z -> Qc :=
  let '(b1, i) := ofMat sym (fst t) in let '(b2, j) := ofMat sym (snd t) in
  if skip b1 b2 then out else
  if sym then add2 out i b1 (M (fst t) (snd t) * x j b2)%Qc
  else fold_left (fun out i => add2 out i b1 (M (fst t) (snd t) * x i b2)%Qc) three out.
(** [chunks p]: local elements of process p split over its threads *)
Definition memProduct (sym : bool) (skip : Z -> Z -> bool) (A : inMemory) (procs : list (Z * Z)) (chunks : Z * Z -> list (list (Z * Z))) (x : Z -> Z -> Qc) (i b : Z) : Qc :=
  qsum (map (fun p => qsum (map (fun chunk => fold_left (elementStep sym skip (imPart A p) x) chunk (fun _ _ => 0%Qc) i b) (chunks p))) procs).
Definition memDot (sym : bool) (excl : list Z) := memProduct sym (fun b1 b2 => isIn excl b1 || isIn excl b2).
Definition memOffDiagonalDot (sym : bool) := memProduct sym (fun b1 b2 => b1 =? b2).
(** l.341-350, matrix not stored: builder with switchCase 1; [evs] = events of each process *)
Definition flyDot (excl : list Z) (bnd : Z -> Qc) (evs : list (list event)) (x : Z -> Z -> Qc) : Z -> Z -> Qc :=
  finishDot excl bnd x (fun i b => qsum (map (fun es => rankDot x es i b) evs)).
(** l.238-254 *)
Definition flyOffDiagonalDot (diag : Z -> Qc) (excl : list Z) (bnd : Z -> Qc) (evs : list (list event)) (x : Z -> Z -> Qc) (i b : Z) : Qc :=
  (flyDot excl bnd evs x i b - diag b * x i b)%Qc.

(** * scattering.cpp:1168-1207 degeneracyAveragingLinewidths, for the calculation stored in row 0 *)
(** [nb], [bte ik ib] = BTE index of the band of an irreducible point, [near a b] = |a - b| < 1.0e-6 *)
Definition nearDeg (a b : Qc) : bool := qltb (a - b)%Qc (Q2Qc (1 # 1000000)) && qltb (b - a)%Qc (Q2Qc (1 # 1000000)).
Definition averageBand (en : list Qc) (vals : list Qc) (e : Qc) : Qc :=
  let group := map snd (filter (fun p => nearDeg (fst p) e) (combine en vals)) in
  (qsum group / Q2Qc (inject_Z (zlen group)))%Qc.
Definition averagePoint (en : Z -> list Qc) (bte : Z -> Z -> Z) (lw : Z -> Qc) (ik : Z) : Z -> Qc :=
  let es := en ik in
  let ibs := zrange 0 (zlen es) in
  let tmp := map (averageBand es (map (fun ib => lw (bte ik ib)) ibs)) es in
  fold_left (fun (lw : Z -> Qc) p b => if b =? bte ik (fst p) then snd p else lw b) (combine ibs tmp) lw.
Definition averageLinewidths (irr : list Z) (en : Z -> list Qc) (bte : Z -> Z -> Z) (lw : Z -> Qc) : Z -> Qc :=
  fold_left (averagePoint en bte) irr lw.
(** all rows of the linewidths: the other calculations are not touched *)
Definition averageAll (irr : list Z) (en : Z -> list Qc) (bte : Z -> Z -> Z) (lw : Z -> Z -> Qc) (iCalc : Z) : Z -> Qc :=
  if iCalc =? 0 then averageLinewidths irr en bte (lw 0) else lw iCalc.
(** linewidths when the matrix is not stored: builder with switchCase 2, average included (ph_scattering.cpp:811-818);
    [iCalc] tells whether it is the averaged row *)
Definition flyLinewidths (excl : list Z) (bnd : Z -> Qc) (avg : (Z -> Qc) -> Z -> Qc) (evs : list (list event)) : Z -> Qc :=
  finishLinewidths excl bnd (avg (total1 (map rankLinewidths evs))).
Definition flyUN (avg : (Z -> Qc) -> Z -> Qc) (evs : list (list event)) : (Z -> Qc) * (Z -> Qc) :=
  (avg (total1 (map (fun es => fst (rankUN es)) evs)), avg (total1 (map (fun es => snd (rankUN es)) evs))).
(** scattering.cpp:60-64 with a matrix in memory: the builder (switchCase 0, ph_scattering.cpp:374-402) never touches the
    Umklapp and Normal linewidths created with zeros *)
Definition memUN : (Z -> Qc) * (Z -> Qc) := ((fun _ => 0%Qc), (fun _ => 0%Qc)).

(** * scattering.cpp:1209-1318 symmetrizeCoupling *)
(** l.1219-1228: bands from [es] on that are as close as 1e-6 to the first one, stopping at the first that is not *)
Fixpoint runLen (e1 : Qc) (es : list Qc) : Z :=
  match es with [] => 0 | e2 :: r => if nearDeg e1 e2 then 1 + runLen e1 r else 0 end.
(** l.1217, 1249: first bands and lengths of the runs met by the loop; [fuel] = number of bands *)
Fixpoint runs (fuel : nat) (ib : Z) (es : list Qc) : list (Z * Z) :=
  match fuel, es with
  | S f, e :: _ => let d := runLen e es in (ib, d) :: runs f (ib + d) (skipn (Z.to_nat d) es)
  | _, _ => []
  end.
(** l.1229-1248 for fixed bands of the other two: the mean of the run replaces its elements *)
Definition averageRun (f : Z -> Qc) (run : Z * Z) : Z -> Qc :=
  let '(s, d) := run in
  let tmp := qsum (map (fun i => f (s + i)%Z / Q2Qc (inject_Z d))%Qc (zrange 0 d)) in
  fun b => if (s <=? b) && (b <? s + d) then tmp else f b.
Definition averageAxis (es : list Qc) (f : Z -> Qc) : Z -> Qc := fold_left averageRun (runs (length es) 0 es) f.
(** the three passes *)
Definition symmetrizeCoupling (e1 e2 e3 : list Qc) (c : Z -> Z -> Z -> Qc) : Z -> Z -> Z -> Qc :=
  let c1 := fun b1 b2 b3 => averageAxis e1 (fun b => c b b2 b3) b1 in
  let c2 := fun b1 b2 b3 => averageAxis e2 (fun b => c1 b1 b b3) b2 in
  fun b1 b2 b3 => averageAxis e3 (fun b => c2 b1 b2 b) b3.

(** scattering.cpp:104-152 setup: number of blocks and layout of the matrix. [calcs] = numCalculations *)
Definition setupLayout (sym : bool) (n size calcs : Z) : res layout :=
  if 1 <? calcs then Err else
  let m := matSize sym n in
  let nBlocks := Z.quot m 64 in
  let nBlocks := if nBlocks <=? Z.sqrt size then Z.sqrt size * 2 else nBlocks in
  mkLayout size m m 0 0 nBlocks nBlocks.
