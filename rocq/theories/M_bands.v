(** Model of src/bands/active_bandstructure.cpp, src/bands/window.cpp and the numbering of
    src/bands/bandstructure.cpp. *)
From Coq Require Import QArith.
From Verif Require Import Base M_utilities M_mpi M_reduce M_points M_irreducible.
Open Scope Z_scope.

(** * numbering of states, active_bandstructure.cpp:398-443 *)

(** l.426-433: cumulative offsets; [f] is the number of slots of a point with nb bands. *)
Fixpoint cumulative (f : Z -> Z) (acc : Z) (numBands : list Z) : list Z :=
  match numBands with [] => [] | nb :: r => acc :: cumulative f (acc + f nb) r end.
Definition cumulativeKbOffset (nb : list Z) : list Z := cumulative (fun n => n) 0 nb.
Definition cumulativeKbbOffset (nb : list Z) : list Z := cumulative (fun n => 3 * n * n) 0 nb.
(** l.435-442: (ik, ib) of every state, in the order of the two loops *)
Definition auxBloch2Comb (nb : list Z) : list (Z * Z) :=
  flat_map (fun ik => match zget nb ik with
                      | Some n => map (fun ib => (ik, ib)) (zrange 0 n)
                      | None => [] end) (zrange 0 (zlen nb)).

(** l.400, 405, 409, 413. Reading a vector out of range is undefined. *)
Definition velBloch2Comb (nb : list Z) (ik ib1 ib2 i : Z) : res Z :=
  match zget (cumulativeKbbOffset nb) ik, zget nb ik with
  | Some o, Some n => Ok (o + ib1 * n * 3 + ib2 * 3 + i)
  | _, _ => UB
  end.
Definition eigBloch2Comb (numFullBands : Z) (nb : list Z) (ik ib1 ib2 : Z) : res Z :=
  match zget (cumulativeKbOffset nb) ik, zget nb ik with
  | Some o, Some n => Ok (o * numFullBands + ib1 * n + ib2)
  | _, _ => UB
  end.
Definition bloch2Comb (nb : list Z) (ik ib : Z) : res Z :=
  match zget (cumulativeKbOffset nb) ik with Some o => Ok (o + ib) | None => UB end.
Definition comb2Bloch (nb : list Z) (is : Z) : res (Z * Z) :=
  match zget (auxBloch2Comb nb) is with Some p => Ok p | None => UB end.

(** l.654-664: sizes of the buffers *)
Definition numStates (nb : list Z) : Z := zsum nb.
Definition numVelStates (nb : list Z) : Z := zsum (map (fun n => 3 * n * n) nb).
Definition numEigStates (numFullBands : Z) (nb : list Z) : Z := zsum (map (fun n => n * numFullBands) nb).

(** * numbering of the irreducible states, l.461-483.  [irr], [red2irr]: maps of the Points object.
    State of the loop: (bteCumulativeKbOffset, bteAuxBloch2Comb, ikOld). *)
Definition bteStep (nb irr red2irr : list Z) (st : list Z * list (Z * Z) * Z) (ik : Z) : res (list Z * list (Z * Z) * Z) :=
  let '(offs, aux, ikOld) := st in
  do ikIrr <- asIrreducibleIndex irr red2irr ik ;
  do offs' <- (if 0 <? ikIrr then
                 match zget offs (ikIrr - 1), zget nb ikOld with
                 | Some o, Some n => put offs ikIrr (o + n)
                 | _, _ => UB
                 end
               else Ok offs) ;
  match zget nb ik with
  | Some n => Ok (offs', aux ++ map (fun ib => (ikIrr, ib)) (zrange 0 n), ik)
  | None => UB
  end.
Definition buildSymmetries (nb irr red2irr : list Z) : res (list Z * list (Z * Z)) :=
  do st <- foldM (bteStep nb irr red2irr) irr (repeat 0 (length irr), [], 0) ;
  Ok (fst (fst st), snd (fst st)).

(** l.1077-1088 irrStateIterator *)
Definition irrStateIterator (nb irr : list Z) : res (list Z) :=
  do ls <- mapM (fun ik => match zget nb ik with
                           | Some n => mapM (fun ib => bloch2Comb nb ik ib) (zrange 0 n)
                           | None => UB end) irr ;
  Ok (concat ls).
(** l.1090-1100 *)
Definition parallelSlice {A} (v : list A) (rank size : Z) : list A :=
  let '(start, stop) := divideWork (zlen v) rank size in
  firstn (Z.to_nat (stop - start)) (skipn (Z.to_nat start) v).

(** l.1121-1133 stateToBte (asIrreducibleIndex never returns a negative number: the Error of l.1129 is
    unreachable) and l.1135-1142 bteToState *)
Definition stateToBte (nb irr red2irr bteOffs : list Z) (is : Z) : res Z :=
  do p <- comb2Bloch nb is ;
  do ikBte <- asIrreducibleIndex irr red2irr (fst p) ;
  match zget bteOffs ikBte with Some o => Ok (o + snd p) | None => UB end.
Definition bteToState (nb irr : list Z) (bteAux : list (Z * Z)) (iBte : Z) : res Z :=
  match zget bteAux iBte with
  | Some (ikBte, ib) => do ik <- asReducibleIndex irr ikBte ; bloch2Comb nb ik ib
  | None => UB
  end.

(** * bandstructure.cpp:133-155, 419-448: constant number of bands *)
Definition fullGetIndex (numBands ik ib : Z) : Z := ik * numBands + ib.
Definition fullFromIndex (numBands is : Z) : res (Z * Z) :=
  if numBands =? 0 then UB else
  let ik := Z.quot is numBands in Ok (ik, is - ik * numBands).
Definition fullStateToBte (numBands : Z) (irr red2irr : list Z) (is : Z) : res Z :=
  do p <- fullFromIndex numBands is ;
  do ikBte <- asIrreducibleIndex irr red2irr (fst p) ;
  Ok (fullGetIndex numBands ikBte (snd p)).
Definition fullBteToState (numBands : Z) (irr : list Z) (iBte : Z) : res Z :=
  do p <- fullFromIndex numBands iBte ;
  do ik <- asReducibleIndex irr (fst p) ;
  Ok (fullGetIndex numBands ik (snd p)).

(** * window.cpp *)
(** l.137-157 internalEnWindow and l.113-135 internalPopWindow share the loop: [keep] is the test of
    l.146 or l.124. The two vectors filteredEnergies and bandsIndices are filled together. *)
Definition windowStep {E} (keep : E -> bool) (st : list E * list Z) (p : Z * E) : list E * list Z :=
  if keep (snd p) then (fst st ++ [snd p], snd st ++ [fst p]) else st.
Definition windowLoop {E} (keep : E -> bool) (energies : list E) : list E * list Z :=
  fold_left (windowStep keep) (combine (zrange 0 (zlen energies)) energies) ([], []).
Definition windowFilter {E} (keep : E -> bool) (energies : list E) : list E * list Z :=
  let '(ens, idx) := windowLoop keep energies in
  (ens, match idx with [] => [] | i :: _ => [i; last idx 0] end).
(** l.146 *)
Definition inEnergyWindow (minEnergy maxEnergy e : Q) : bool := Qltb e maxEnergy && Qltb minEnergy e.
(** l.101-110 "nothing": the returned energies are the band indices *)
Definition windowNothing {E} (ofZ : Z -> E) (energies : list E) : list E * list Z :=
  (map ofZ (zrange 0 (zlen energies)), [0; zlen energies - 1]).

(** l.45-78 limits of the energy windows; [limits] = context.getWindowEnergyLimit() (two numbers,
    None = NaN). minCoeff/maxCoeff of two numbers. *)
Definition qmin (a b : Q) : Q := if Qltb b a then b else a.
Definition qmax (a b : Q) : Q := if Qltb a b then b else a.
Definition qabs (a : Q) : Q := if Qltb a 0 then (- a)%Q else a.
Definition energyLimits (limits : option (Q * Q)) : res (Q * Q) :=
  match limits with
  | None => Err
  | Some (a, b) => let lo := qmin a b in let hi := qmax a b in
      if Qeq_bool lo hi then Err else Ok (lo, hi)
  end.
Definition muEnergyLimits (muMin muMax : Q) (limits : option (Q * Q)) : res (Q * Q) :=
  match limits with
  | None => Err
  | Some (a, b) => let lo := (muMin - qabs (qmin a b))%Q in let hi := (muMax + qabs (qmax a b))%Q in
      if Qeq_bool lo hi then Err else Ok (lo, hi)
  end.

(** * buildOnTheFly / buildAsPostprocessing: choice of the points, l.545-664 and 804-937.
    [apply ik] = result of window.apply on the energies of point ik.
    [chunks r] = the points of rank r, split among its threads (schedule(static), merged in thread
    order by the ordered loop of l.584-596). *)
Definition pickPoint {E} (apply : Z -> list E * list Z) (ik : Z) : res (list (Z * Z * Z)) :=
  let '(ens, extrema) := apply ik in
  match ens with
  | [] => Ok []
  | _ => match zget extrema 0, zget extrema 1 with Some a, Some b => Ok [(ik, a, b)] | _, _ => UB end
  end.
Definition threadPoints {E} (apply : Z -> list E * list Z) (iks : list Z) : res (list (Z * Z * Z)) :=
  do ls <- mapM (pickPoint apply) iks ; Ok (concat ls).
Definition rankPoints {E} (apply : Z -> list E * list Z) (threads : list (list Z)) : res (list (Z * Z * Z)) :=
  do ls <- mapM (threadPoints apply) threads ; Ok (concat ls).

(** l.612-647: counts, displacements, and the three reduced vectors filter, filteredBands(.,0), (.,1) *)
Fixpoint placeFrom {A} (d : Z) (l : list A) : list (Z * A) :=
  match l with [] => [] | x :: r => (d, x) :: placeFrom (d + 1) r end.
Definition gatherVector (numPoints : Z) (displacements : list Z) (mine : list (list Z)) : res (list (list Z)) :=
  do bufs <- mapM (fun p => scatter 0 numPoints (placeFrom (fst p) (snd p))) (combine displacements mine) ;
  Ok (allReduceG Z.add 0 bufs).
Definition gatherPoints {E} (apply : Z -> list E * list Z) (chunks : list (list (list Z)))
  : res (list (list Z) * list (list Z) * list (list Z)) :=
  do mine <- mapM (rankPoints apply) chunks ;
  do receiveCounts <- allGatherv (map (fun l => [zlen l]) mine) (repeat 0 (length chunks)) ;
  let numPoints := zsum receiveCounts in
  let displacements := cumulative (fun c => c) 0 receiveCounts in
  do f <- gatherVector numPoints displacements (map (map (fun t => fst (fst t))) mine) ;
  do lo <- gatherVector numPoints displacements (map (map (fun t => snd (fst t))) mine) ;
  do hi <- gatherVector numPoints displacements (map (map snd) mine) ;
  Ok (f, lo, hi).

(** l.654-660 *)
Definition activeNumBands (lo hi : list Z) : list Z := map (fun p => snd p - fst p + 1) (combine lo hi).

(** l.686-753: energies of the active states. [en ik] = energies of active point ik (all bands);
    [iks r] = points of rank r in the order its threads happen to write them. *)
Definition energyWrites {V} (nb lo : list Z) (en : Z -> list V) (ik : Z) : res (list (Z * V)) :=
  match zget nb ik, zget lo ik with
  | Some n, Some l =>
    mapM (fun ib => do is <- bloch2Comb nb ik ib ;
                    match zget (en ik) (l + ib) with Some e => Ok (is, e) | None => UB end) (zrange 0 n)
  | _, _ => UB
  end.
(** l.726-747 and setVelocities l.385-396: thisVelocities(ib1,ib2,i) =
    thisVelocity(lo+ib1, lo+ib2, i), stored at velBloch2Comb. [vel ik b1 b2 i] = h0.diagonalizeVelocity. *)
Definition velocityWrites {V} (nb lo : list Z) (vel : Z -> Z -> Z -> Z -> V) (ik : Z) : res (list (Z * V)) :=
  match zget nb ik, zget lo ik with
  | Some n, Some l =>
    mapM (fun t => let '(ib1, ib2, i) := t in
                   do s <- velBloch2Comb nb ik ib1 ib2 i ; Ok (s, vel ik (l + ib1) (l + ib2) i))
         (list_prod (list_prod (zrange 0 n) (zrange 0 n)) (zrange 0 3))
  | _, _ => UB
  end.
(** l.711-723 and setEigenvectors l.374-383: column lo+ib2 of the eigenvectors, stored at eigBloch2Comb *)
Definition eigenvectorWrites {V} (numFullBands : Z) (nb lo : list Z) (eig : Z -> Z -> Z -> V) (ik : Z) : res (list (Z * V)) :=
  match zget nb ik, zget lo ik with
  | Some n, Some l =>
    mapM (fun t => let '(ib1, ib2) := t in
                   do s <- eigBloch2Comb numFullBands nb ik ib1 ib2 ; Ok (s, eig ik ib1 (l + ib2)))
         (list_prod (zrange 0 numFullBands) (zrange 0 n))
  | _, _ => UB
  end.
(** l.681-753: every rank writes the slots of its points into zero buffers, then allReduceSum *)
Definition fillPoints {V} (add : V -> V -> V) (zero : V) (size : Z) (writes : Z -> res (list (Z * V)))
    (iks : list (list Z)) : res (list (list V)) :=
  do bufs <- mapM (fun l => do w <- mapM writes l ; scatter zero size (concat w)) iks ;
  Ok (allReduceG add zero bufs).
