(** Model of the Fourier interpolation of the electronic bands, src/harmonic/electron_h0_fourier.cpp.
    Simplified: exact reals instead of doubles for phases, energies and coefficients; the lengths compared in the search of
    lattice vectors are an arbitrary rational function [d] of the crystal coordinates; no overflow of int.
    The linear solver (Eigen ldlt) is an oracle, constrained by hypotheses in the theorems. *)
From Coq Require Import Reals QArith.
From Verif Require Import Base M_mpi M_wigner M_complex.
Open Scope Z_scope.

(** l.181-306 setPositionVectors, in crystal coordinates; [cut] = int(cutoff) and the test on the double is made first.
    Same search as the one of the crystal ([wsList]), but no check of the sum of the weights and originIndex = 0 by default *)
Definition setPositionVectors (g : v3) (cutoff : Q) (d : v3 -> Q) : res (list (v3 * Z)) :=
  if negb (Qle_bool 1 cutoff) then Err else
  do l <- wsList g (Qround.Qfloor cutoff) d ;
  let o := originIndex 0 0 l in
  match zget l o, zget l 0 with
  | Some x, Some y => Ok (zupd (zupd l 0 x) o y)
  | _, _ => UB
  end.

Section Fourier.
(** positionVectors (cartesian), positionDegeneracies, numPositionVectors *)
Variables (pos : Z -> vec) (deg : Z -> R) (nP : Z).
(** directUnitCell.col(0).norm() *)
Variable (firstNorm : R).

Definition norm3 (v : vec) : R := sqrt (dot3 v v).
(** l.308-316 minDistance *)
Definition minDistance : R := fold_left (fun a iR => if Rlt_dec (norm3 (pos iR)) a then norm3 (pos iR) else a) (zrange 1 (nP - 1)) firstNorm.
(** l.155-160, electron_h0_fourier.h:114-115 *)
Definition coefficient1 : R := 0.75.
Definition coefficient2 : R := 0.75.
Definition roughness (v : vec) : R :=
  ((1 - coefficient1 * norm3 v / minDistance) ^ 2 + coefficient2 * (norm3 v / minDistance) ^ 6)%R.
(** l.162-168 getStarFunction *)
Definition star (k : vec) (iR : Z) : cplx := cscale (/ deg iR) (cexpi (dot3 k (pos iR))).
(** l.170-179 getDerivativeStarFunction, component i *)
Definition starDerivative (k : vec) (iR i : Z) : cplx := cscale (pos iR i / deg iR) (cmul cI (cexpi (dot3 k (pos iR)))).

(** coordinates of the wavevectors of the coarse band structure, numDataPoints; refWavevector is pts 0 *)
Variables (pts : Z -> vec) (nD : Z).
(** l.341-363: the matrix h *)
Definition hMatrix (i j : Z) : cplx :=
  csumTo nP (fun iR => cscale (/ roughness (pos iR))
    (cmul (csub (star (pts (i + 1)) iR) (star (pts 0) iR)) (cconj (csub (star (pts (j + 1)) iR) (star (pts 0) iR))))).
(** l.322-327 *)
Definition deltaEnergies (e : Z -> R) (i : Z) : cplx := ((e (i + 1)%Z - e 0%Z)%R, 0%R).
(** l.366-368: ldlt().solve: TRUSTED, see the hypotheses of the theorems *)
Variable ldlt : cmat -> (Z -> cplx) -> Z -> cplx.
Definition lagrangeMultipliers (e : Z -> R) : Z -> cplx := ldlt hMatrix (deltaEnergies e).
(** l.371-399 getCoefficients *)
Definition coefficientOf (lam : Z -> cplx) (m : Z) : cplx :=
  cscale (/ roughness (pos m)) (csumTo (nD - 1) (fun i => cmul (lam i) (cconj (csub (star (pts (i + 1)) m) (star (pts 0) m))))).
Definition coefficients (e : Z -> R) (m : Z) : cplx :=
  let lam := lagrangeMultipliers e in
  if m =? 0 then fold_left (fun a m' => csub a (cmul (coefficientOf lam m') (star (pts 0) m'))) (zrange 1 (nP - 1)) (e 0%Z, 0%R)
  else coefficientOf lam m.

(** l.66-74: rows of the coefficients, each process computes its share of the bands and the sum of all is taken;
    [e b] = energies of band b at the coarse points *)
Definition expansionCoefficients (nB size : Z) (e : Z -> Z -> R) : res (Z -> Z -> cplx) :=
  do shares <- mapM (fun r => divideWorkIter nB r size) (zrange 0 size) ;
  Ok (fun b m => csum (map (fun share : list Z => if existsb (Z.eqb b) share then coefficients (e b) m else c0) shares)).

(** l.401-422 *)
Definition energyAt (c : Z -> cplx) (k : vec) : R := fold_left (fun a m => (a + fst (cmul (c m) (star k m)))%R) (zrange 0 nP) 0%R.
Definition velocityAt (c : Z -> cplx) (k : vec) (i : Z) : R := fold_left (fun a m => (a + fst (cmul (c m) (starDerivative k m i)))%R) (zrange 0 nP) 0%R.
(** l.91-121: energies of all bands, velocity matrix *)
Definition energiesAt (nB : Z) (c : Z -> Z -> cplx) (k : vec) : list R := map (fun b => energyAt (c b) k) (zrange 0 nB).
Definition velocityMatrix (c : Z -> Z -> cplx) (k : vec) (b b' i : Z) : cplx := if b =? b' then (velocityAt (c b) k i, 0%R) else c0.
End Fourier.

(** * l.9-43 trimBands *)
Record fourierBands (Row : Type) := { fNumBands : Z; fRows : list Row; fOccupied : Q }.
Arguments fNumBands {Row}. Arguments fRows {Row}. Arguments fOccupied {Row}.
Definition inWindow (lo hi x : Q) : bool := Qle_bool lo x && Qle_bool x hi.
(** l.11-25; coarse = energies of each band at the coarse points, all bands of the coarse calculation *)
Definition retainBands (coarse : list (list Q)) (lo hi : Q) (nB : Z) : res (list Z) :=
  do l <- mapM (fun ib => match zget coarse ib with None => UB | Some es => Ok (if existsb (inWindow lo hi) es then [ib] else []) end) (zrange 0 nB) ;
  Ok (concat l).
Definition trimBands {Row} (coarse : list (list Q)) (spinOrbit : bool) (lo hi : Q) (f : fourierBands Row) : res (fourierBands Row) :=
  do keep <- retainBands coarse lo hi (fNumBands f) ;
  do rows <- mapM (fun ib => match zget (fRows f) ib with None => UB | Some r => Ok r end) keep ;
  let spin := if spinOrbit then 1%Q else 2%Q in
  match keep with
  | [] => UB                                  (* l.41: retainBand[0] *)
  | first :: _ => Ok {| fNumBands := zlen keep; fRows := rows; fOccupied := (fOccupied f - inject_Z first * spin)%Q |}
  end.
