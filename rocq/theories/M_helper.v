(** Model of src/bte/helper_3rd_state.cpp, src/bte/helper_el_scattering.cpp and of the batches of wavevectors
    (src/bte/*_scattering.cpp, src/common_kokkos.cpp, src/bands/active_bandstructure.cpp). *)
From Coq Require Import QArith Qround.
From Verif Require Import Base M_utilities M_mpi M_points M_irreducible.
Open Scope Z_scope.

(** * Points of the third states, helper_3rd_state.cpp:28-118 *)
(** std::set<int> filled with the elements of l *)
Definition setOf (l : list Z) : list Z := fold_left (fun s x => insertSet x s) l [].
(** l.57-70: the two points of a pair; [op1] op2 *)
Definition thirdPoints (inner full : points) (iq1 iq2 : Z) : res (list Z) :=
  do q1 <- getPointCoordinates inner iq1 ;
  do q2 <- getPointCoordinates inner iq2 ;
  do p <- getIndex full (vadd q1 q2) ;
  do m <- getIndex full (vsub q1 q2) ;
  Ok [p; m].
(** l.48-76: one process; [threads] = the q2 points of its threads *)
Definition threadIndexes (inner full : points) (mine : list Z) : res (list Z) :=
  do l <- mapM (fun iq2 => do r <- mapM (fun iq1 => thirdPoints inner full iq1 iq2) (zrange 0 (numPoints inner)) ; Ok (concat r)) mine ;
  Ok (setOf (concat l)).
Definition rankIndexes (inner full : points) (threads : list (list Z)) : res (list Z) :=
  do ls <- mapM (threadIndexes inner full) threads ; Ok (setOf (concat ls)).
(** l.78-99: lists of all processes, one after the other, by sums over processes of zero padded vectors *)
Definition gatherSets (sets : list (list Z)) : list (list Z) :=
  let size := zlen sets in
  let counts := allReduceSum (map (fun rs => zupd (repeat 0 (Z.to_nat size)) (fst rs) (zlen (snd rs))) (combine (zrange 0 size) sets)) in
  let bufs := map (fun x =>
    let '(r, (set, cnt)) := x in
    let total := zsum cnt in
    let displ := fold_left (fun acc c => acc + c) (firstn (Z.to_nat r) cnt) 0 in
    fold_left (fun b ix => zupd b (fst ix + displ) (snd ix)) (combine (zrange 0 (zlen set)) set) (repeat 0 (Z.to_nat total)))
    (combine (zrange 0 size) (combine sets counts)) in
  allReduceSum bufs.
(** l.44-118: the filter and the points of every process; [sched r share] = how process r splits its share over threads *)
Definition thirdStatePoints (inner : points) (size : Z) (sched : Z -> list Z -> list (list Z)) : res (list (list Z * points)) :=
  let full := Points (pmesh inner) (m0 (pmesh inner) * m1 (pmesh inner) * m2 (pmesh inner)) false false [] in
  do sets <- mapM (fun r => do mine <- divideWorkIter (numPoints inner) r size ; rankIndexes inner full (sched r mine)) (zrange 0 size) ;
  mapM (fun g => let filter := setOf g in do p <- setActiveLayer full filter ; Ok (filter, p)) (gatherSets sets).

(** * Cache, helper_3rd_state.cpp:202-226, 228-318; helper_el_scattering.cpp:272-348.
    [diag q] = everything computed at the wavevector q (energies, eigenvectors, velocities, populations, polar correction).
    Simplified: the quantities of one wavevector are cached together. *)
Section Cache.
Variables (K D : Type) (diag : K -> D).
Record cache := { offset : Z; stored : list (D * D) }.
(** prepare; [outer] [inner] = wavevectors of the two band structures *)
Definition prepare (add sub : K -> K -> K) (outer inner : Z -> K) (q1s : list Z) (iq2 : Z) : res cache :=
  match q1s with
  | [] => UB
  | first :: _ => Ok {| offset := first; stored := map (fun iq1 => (diag (add (outer iq1) (inner iq2)), diag (sub (outer iq1) (inner iq2)))) q1s |}
  end.
(** get, not stored on a grid *)
Definition get (c : cache) (plus : bool) (iq1 : Z) : res D :=
  match zget (stored c) (iq1 - offset c) with Some x => Ok (if plus then fst x else snd x) | None => UB end.
(** electrons *)
Record cacheEl := { offsetEl : Z; storedEl : list D }.
Definition prepareEl (sub : K -> K -> K) (inner : Z -> K) (k1 : K) (k2s : list Z) : res cacheEl :=
  match k2s with
  | [] => UB
  | first :: _ => Ok {| offsetEl := first; storedEl := map (fun ik2 => diag (sub (inner ik2) k1)) k2s |}
  end.
Definition getEl (c : cacheEl) (ik2 : Z) : res D :=
  match zget (storedEl c) (ik2 - offsetEl c) with Some x => Ok x | None => UB end.
End Cache.
Arguments prepare {K D}. Arguments get {D}. Arguments prepareEl {K D}. Arguments getEl {D}.

(** * Batches *)
(** ph_scattering.cpp:195-199, el_scattering.cpp:172-176, phel_scattering.cpp:201-206: bounds of the batches *)
Definition batchBounds (nq numBatches : Z) : res (list (Z * Z)) :=
  mapM (fun iBatch => do a <- ck (nq * iBatch) ; do b <- ck (nq * (iBatch + 1)) ; Ok (Z.quot a numBatches, Z.quot b numBatches)) (zrange 0 numBatches).
(** the wavevectors of a batch, iq1Indexes[start + iq1Batch] *)
Definition batchOf {A} (l : list A) (b : Z * Z) : res (list A) :=
  mapM (fun i => match zget l (fst b + i) with Some x => Ok x | None => UB end) (zrange 0 (snd b - fst b)).
Definition allBatches {A} (l : list A) (numBatches : Z) : res (list (list A)) :=
  do bs <- batchBounds (zlen l) numBatches ; mapM (batchOf l) bs.
(** common_kokkos.cpp:136-180 splitToBatches. The loop ends after at most size+1 turns; result[iBatch] out of range is UB. *)
Fixpoint splitLoop {A} (fuel : nat) (l : list A) (bs start stop iBatch : Z) (result : list (list A)) : res (list (list A)) :=
  match fuel with
  | O => UB
  | S f =>
    if start <? stop then
      do b <- batchOf l (start, stop) ;
      if (0 <=? iBatch) && (iBatch <? zlen result) then
        splitLoop f l bs (start + bs) (Z.min (stop + bs) (zlen l)) (iBatch + 1) (zupd result iBatch b)
      else UB
    else Ok result
  end.
Definition splitToBatches {A} (l : list A) (batchSize : Z) : res (list (list A)) :=
  let bs := Z.min batchSize (zlen l) in
  if bs =? 0 then UB else            (* integer division by zero *)
  let numBatches := if Z.rem (zlen l) bs =? 0 then Z.quot (zlen l) bs else Z.quot (zlen l) bs + 1 in
  splitLoop (S (S (length l))) l bs 0 bs 0 (repeat [] (Z.to_nat numBatches)).
(** active_bandstructure.cpp:98-100, 154-155 *)
Fixpoint stepLoop (fuel : nat) (niks size start : Z) : res (list (Z * Z)) :=
  match fuel with
  | O => UB
  | S f => if start <? niks then do r <- stepLoop f niks size (start + size) ; Ok ((start, Z.min niks (start + size)) :: r) else Ok []
  end.
(** interaction_3ph.cpp:407-440, interaction_elph.cpp:458-490: [per] = bytes per wavevector, [avail] = free memory.
    Simplified: exact arithmetic; nq = 0 (0/0 in the comparison, false) treated apart. *)
Definition estimateNumBatches (nq : Z) (per avail : Q) : res Z :=
  let maxUsage := (inject_Z nq * per)%Q in
  let numBatches := Qceiling (maxUsage / avail) in
  if nq =? 0 then Ok 0 else
  if Qltb avail (maxUsage / inject_Z nq) then Err else Ok numBatches.
(** phonon_h0_kokkos.cpp:230-252, electron_h0_wannier.cpp:1009-1040: points per batch, int(avail / per * 0.95) *)
Definition estimateBatchSize (per avail : Q) : res Z :=
  let n := Qfloor (avail / per * (95 # 100)) in
  do n <- ck n ;                      (* conversion of a double to int *)
  if n <? 1 then Err else Ok n.
