(** Model of src/bte/phel_scattering.cpp:9-364: linewidths of phonons due to electrons. Rationals: no rounding. The couplings (C98, C99)
    before the average over bands, the values of the smearing (C42), the energies at k + q and f(1 - f) (C41) are inputs. The
    couplings of a whole pool are computed in step: see C34 for the number of calls. *)
From Coq Require Import QArith Qcanon.
From Verif Require Import Base M_mpi M_matrix M_vbte M_scattering M_helper.
Open Scope Z_scope.

(** [kIrr] irreducible electron points of the window, [stars k] = getReducibleStarFromIrreducible, [numK] electron points, [meshSize] =
    context.getKMesh().prod(); [qIrr] irreducible phonon points; energies of the electrons at k, at k + q, of the phonons at q;
    [gsq k q ib1 ib2 ib3]; [smear] likewise; [ffTerm iCalc k ib]; [cutoff] = 5 cm^-1; [bteOf q ib3] *)
Record phel := { kIrr : list Z; stars : Z -> list Z; numK : Z; meshSize : Z; qIrr : list Z;
  enEl : Z -> list Qc; enSum : Z -> Z -> list Qc; enPh : Z -> list Qc;
  gsq : Z -> Z -> Z -> Z -> Z -> Qc; smear : Z -> Z -> Z -> Z -> Z -> Qc; ffTerm : Z -> Z -> Z -> Qc;
  temp : Z -> Qc; piQ : Qc; cutoff : Qc; bteOf : Z -> Z -> Z }.

Section Builder.
Variable (X : phel).
(** l.72-101: each process fills the points of its share, then allReduceSum *)
Definition fermiTable (shares : list (list Z)) (c ik ib : Z) : Qc :=
  qsum (map (fun mine => if isIn mine ik then ffTerm X c ik ib else 0%Qc) shares).
(** l.266-299 *)
Definition smearingValue (k q ib1 ib2 ib3 : Z) : Qc :=
  match zget (enPh X q) ib3 with
  | Some e3 => if qltb e3 (cutoff X) then 0%Qc else if qltb 0%Qc (smear X k q ib1 ib2 ib3) then smear X k q ib1 ib2 ib3 else 0%Qc
  | None => 0%Qc
  end.
(** l.301-303, 333-339; norm = 1 / meshSize (l.64), k1Weight (l.188-189) *)
Definition rate (table : Z -> Z -> Z -> Qc) (c k q ib1 ib2 ib3 : Z) : Qc :=
  (symmetrizeCoupling (enEl X k) (enSum X k q) (enPh X q) (gsq X k q) ib1 ib2 ib3 * table c k ib1 * smearingValue k q ib1 ib2 ib3
   * (1 / Q2Qc (inject_Z (meshSize X))) / temp X c * piQ X * Q2Qc (inject_Z (zlen (stars X k))))%Qc.
(** l.305-350: additions to the linewidths, for one calculation, of one pair of points *)
Definition pairUpdates (table : Z -> Z -> Z -> Qc) (c k q : Z) : list (Z * Qc) :=
  flat_map (fun ib3 => flat_map (fun ib1 => map (fun ib2 => (bteOf X q ib3, rate table c k q ib1 ib2 ib3)) (zrange 0 (zlen (enSum X k q))))
    (zrange 0 (zlen (enEl X k)))) (zrange 0 (zlen (enPh X q))).
(** l.152-354 for one process; [batches k] = estimateNumBatches at this point *)
Definition processUpdates (batches : Z -> Z) (table : Z -> Z -> Z -> Qc) (c : Z) (mine : list Z) : res (list (Z * Qc)) :=
  do per <- mapM (fun t => let '(k, qs) := t in do bs <- allBatches qs (batches k) ; Ok (flat_map (flat_map (pairUpdates table c k)) bs)) (phelPairs (qIrr X) mine) ;
  Ok (concat per).
Definition accumulate (us : list (Z * Qc)) : Z -> Qc := fold_left (fun f u => add1 f (fst u) (snd u)) us (fun _ => 0%Qc).
(** points.cpp:907-916 *)
Definition irrShare (r size : Z) : list Z :=
  let '(start, stop) := divideWork (zlen (kIrr X)) r size in firstn (Z.to_nat (stop - start)) (skipn (Z.to_nat start) (kIrr X)).
(** the builder on all processes up to l.355 (allReduceSum) *)
Definition phelSums (size : Z) (batches : Z -> Z) (c : Z) : res (Z -> Qc) :=
  do shares <- mapM (fun r => divideWorkIter (numK X) r size) (zrange 0 size) ;
  do ups <- mapM (fun r => processUpdates batches (fermiTable shares) c (irrShare r size)) (zrange 0 size) ;
  Ok (total1 (map accumulate ups)).
(** l.362: the first calculation is averaged over degenerate bands *)
Definition phelLinewidths (size : Z) (batches : Z -> Z) (c : Z) : res (Z -> Qc) :=
  do lw <- phelSums size batches c ; Ok (averageAll (qIrr X) (enPh X) (bteOf X) (fun _ => lw) c).
End Builder.

(** phonon_transport_app.cpp:455-470 with window.cpp:59-62, 137-152: electron states kept, with the largest phonon energy [maxPh] and one
    chemical potential *)
From Coq Require Import Reals.
From Verif Require Import M_particle.
Definition phelWindow (maxPh mu e : R) : bool :=
  (rltb (mu - Rabs (- (5 / 4 * maxPh))) e && rltb e (mu + Rabs (5 / 4 * maxPh)))%R%bool.
