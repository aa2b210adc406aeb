(** Model of src/harmonic/electron_h0_wannier.cpp (interpolation of the electronic bands) and of the treatment of degenerate
    velocities (src/harmonic/harmonic.cpp). Numbers are exact (reals and pairs of reals); diagonalisation is an argument. *)
From Coq Require Import Reals QArith.
From Verif Require Import Base M_complex M_helper.
Open Scope Z_scope.

(** data given to the constructor: h0R(iR,m,n), rMatrix(i,iR,m,n), bravaisVectors.col(iR), vectorsDegeneracies(iR) (l.10-41) *)
Record wannier := { nW : Z; nR : Z; brav : Z -> vec; degR : Z -> R; h0R : Z -> Z -> Z -> cplx; rMatrix : Z -> Z -> Z -> Z -> cplx }.
(** data given to addShiftedVectors (l.560-577): degeneracyShifts(iw1,iw2,iR), a whole number, and vectorsShifts(i,iDeg,iw1,iw2,iR) *)
Record shifts := { degS : Z -> Z -> Z -> Z; vecS : Z -> Z -> Z -> Z -> Z -> R }.

Definition inb (i n : Z) : bool := (0 <=? i) && (i <? n).

Section H0.
Variable W : wannier.
(** l.171-178: phases(iR, iK) *)
Definition phaseR (k : vec) (iR : Z) : cplx := cscale (/ degR W iR) (cexpi (dot3 k (brav W iR))).
(** l.166-190, one wavevector *)
Definition hostH (k : vec) : cmat := fun m n => csumTo (nR W) (fun iR => cmul (phaseR k iR) (h0R W iR m n)).
(** l.581-592: the shifts become R + shift, for iDeg < degeneracyShifts *)
Definition shifted (S : shifts) (iDeg m n iR : Z) : vec := fun i => (vecS S i iDeg m n iR + brav W iR i)%R.
(** l.192-214, one wavevector *)
Definition hostShiftH (S : shifts) (k : vec) : cmat := fun m n =>
  csumTo (nR W) (fun iR => csumTo (degS S m n iR) (fun iDeg =>
    cmul (cscale (/ (degR W iR * IZR (degS S m n iR))) (cexpi (dot3 k (shifted S iDeg m n iR)))) (h0R W iR m n))).

(** l.45-62: view on the device of extents (nW, nW, nR); an access outside is undefined *)
Definition h0d (a b c : Z) : res cplx :=
  if inb a (nW W) && inb b (nW W) && inb c (nR W) then Ok (h0R W c a b) else UB.
(** l.801-822 *)
Definition deviceH (k : vec) (m n : Z) : res cplx :=
  foldM (fun (tmp : cplx) iR => do h <- h0d m n iR ; Ok (cadd tmp (cmul (phaseR k iR) h))) (zrange 0 (nR W)) c0.
(** l.824-846: the phase is exp / degeneracy * shifts, the view is read at (iR, iw1, iw2) *)
Definition deviceShiftH (S : shifts) (k : vec) (m n : Z) : res cplx :=
  foldM (fun (tmp : cplx) iR =>
      foldM (fun (t : cplx) iDeg =>
          let phase := cscale (/ degR W iR * IZR (degS S m n iR)) (cexpi (dot3 k (shifted S iDeg m n iR))) in
          do h <- h0d iR m n ; Ok (cadd t (cmul h phase))) (zrange 0 (degS S m n iR)) tmp)
    (zrange 0 (nR W)) c0.

(** l.30-38: rMatrix has dimensions (3, nR, nW, nW) *)
Definition rRead (a b c d : Z) : res cplx :=
  if inb a 3 && inb b (nR W) && inb c (nW W) && inb d (nW W) then Ok (rMatrix W a b c d) else UB.
(** l.542-552: Berry connection in the Wannier gauge, direction i, element (m, n) *)
Definition berryW (k : vec) (i m n : Z) : res cplx :=
  foldM (fun (tmp : cplx) iR => do r <- rRead iR m n i ; Ok (cadd tmp (cmul (phaseR k iR) r))) (zrange 0 (nR W)) c0.
End H0.

(** * Velocities *)
Definition unitVec (i : Z) : vec := fun j => if j =? i then 1%R else 0%R.
Definition vaxpy (k : vec) (a : R) (v : vec) : vec := fun j => (k j + a * v j)%R.
(** l.647-656, 903-914: the seven wavevectors, one after the other, of a point *)
Definition sevenVectors (delta : R) (k : vec) : list vec :=
  k :: flat_map (fun i => [vaxpy k delta (unitVec i); vaxpy k (- delta) (unitVec i)]) (zrange 0 3).
Definition allVectors (delta : R) (ks : list vec) : list vec := concat (map (sevenVectors delta) ks).
(** l.698-701: der from the Hamiltonians at k + delta and k - delta *)
Definition hostDer (delta : R) (Hp Hm : cmat) : cmat :=
  let der := fun m n => cscale (/ (2 * delta)) (csub (Hp m n) (Hm m n)) in
  fun m n => cscale (/ 2) (cadd (der m n) (cconj (der n m))).
(** l.950-957 *)
Definition deviceDer (delta : R) (Hp Hm : cmat) : cmat :=
  fun m n => cscale (/ 4 / delta) (cadd (csub (Hp m n) (Hm m n)) (cconj (csub (Hp n m) (Hm n m)))).
(** l.704, 961-972: U^+ der U *)
Definition rotateV (nb : Z) (U der : cmat) : cmat := matMul nb (matMul nb (adjoint U) der) U.
(** l.683: host threshold on |k|; l.977-982: device threshold on |k|^2 *)
Definition hostGamma (k : vec) : bool := if Rlt_dec (sqrt (dot3 k k)) (/ 1000000) then true else false.
Definition deviceGamma (k : vec) : bool := if Rlt_dec (/ 1000000) (dot3 k k) then false else true.
Definition zeroMat : cmat := fun _ _ => c0.
(** velocity operator along one direction, before the treatment of degenerate bands; Hp, Hm: Hamiltonians at k +- delta *)
Definition hostVelocity (nb : Z) (delta : R) (k : vec) (U Hp Hm : cmat) : cmat :=
  if hostGamma k then zeroMat else rotateV nb U (hostDer delta Hp Hm).
Definition deviceVelocity (nb : Z) (delta : R) (k : vec) (U Hp Hm : cmat) : cmat :=
  if deviceGamma k then zeroMat else rotateV nb U (deviceDer delta Hp Hm).

(** * Degenerate bands (l.716-767, phonon_h0.cpp:1005-1055, harmonic.cpp) *)
Definition farApart (thr : Q) (en : Z -> Q) (a b : Z) : bool := negb (Qle_bool (Qabs.Qabs (en a - en b)) thr).
(** l.720-728: size of the block that starts at band ib *)
Fixpoint blockSize (fuel : nat) (thr : Q) (en : Z -> Q) (nb ib ib2 : Z) : Z :=
  match fuel with
  | O => 0
  | S f => if ib2 <? nb then if farApart thr en ib ib2 then 0 else 1 + blockSize f thr en nb ib (ib2 + 1) else 0
  end.
Definition sizeSubspace (thr : Q) (en : Z -> Q) (nb ib : Z) : Z := 1 + blockSize (Z.to_nat nb) thr en nb ib (ib + 1).
(** l.716, 766: the loop over bands, jumping over each block: (first band, size) *)
Fixpoint blocksFrom (fuel : nat) (thr : Q) (en : Z -> Q) (nb ib : Z) : list (Z * Z) :=
  match fuel with
  | O => []
  | S f => if ib <? nb then let s := sizeSubspace thr en nb ib in (ib, s) :: blocksFrom f thr en nb (ib + s) else []
  end.
Definition blocks (thr : Q) (en : Z -> Q) (nb : Z) : list (Z * Z) := blocksFrom (Z.to_nat nb) thr en nb 0.
(** harmonic.cpp:37-65: degCount of the bands of one point *)
Definition degCounts (thr : Q) (en : Z -> Q) (nb : Z) : list Z :=
  flat_map (fun b => if snd b =? 1 then [0] else snd b :: repeat 0 (Z.to_nat (snd b - 1))) (blocks thr en nb).
(** harmonic.cpp:34-67, ens: energies of the points *)
Definition maxDegeneracy (thr : Q) (ens : list (Z -> Q)) (nb : Z) : Z :=
  fold_right Z.max 1 (flat_map (fun en => map snd (blocks thr en nb)) ens).
(** harmonic.cpp:113-124: exclusive scan *)
Fixpoint exclusiveScan (update : Z) (l : list Z) : list Z :=
  match l with [] => [] | x :: r => update :: exclusiveScan (update + x) r end.
(** harmonic.cpp:74-137: funcK, funcB as one list of pairs; [counts] is degCount flattened (ik*numBands+ib), [order] the order in
    which the threads visit the pairs (ik, ib) *)
Definition funcKB (nb iDeg : Z) (counts : list Z) (order : list Z) : res (list (option (Z * Z))) :=
  let marks := map (fun c => if iDeg =? c then 1 else 0) counts in
  let numMatrices := zsum marks in
  let scan := exclusiveScan 0 marks in
  foldM (fun (acc : list (option (Z * Z))) ikb =>
      match zget counts ikb, zget scan ikb with
      | Some c, Some iMat =>
        if c =? iDeg then if inb iMat (zlen acc) then Ok (zupd acc iMat (Some (Z.quot ikb nb, Z.rem ikb nb))) else UB else Ok acc
      | _, _ => UB
      end) order (repeat None (Z.to_nat numMatrices)).

(** l.734-761: one block in one direction; [solve] returns the eigenvectors of the (Hermitian) sub-matrix *)
Definition hermitise (A : cmat) : cmat := fun i j => cscale (/ 2) (cadd (A i j) (cconj (A j i))).
Definition subMat (v : cmat) (ib : Z) : cmat := fun i j => v (ib + i) (ib + j).
Definition inBlock (ib s i : Z) : bool := (ib <=? i) && (i <? ib + s).
Definition hostTreat (solve : Z -> cmat -> cmat) (v : cmat) (b : Z * Z) : cmat :=
  let ib := fst b in let s := snd b in
  if 1 <? s then
    let sub := hermitise (subMat v ib) in
    let X := solve s sub in
    let new := hermitise (matMul s (matMul s (adjoint X) sub) X) in
    fun i j => if inBlock ib s i && inBlock ib s j then new (i - ib) (j - ib) else v i j
  else v.
Definition hostDegenerate (solve : Z -> cmat -> cmat) (thr : Q) (en : Z -> Q) (nb : Z) (v : cmat) : cmat :=
  fold_left (hostTreat solve) (blocks thr en nb) v.
(** harmonic.cpp:140-199: one block in one direction *)
Definition deviceTreat (solve : Z -> cmat -> cmat) (v : cmat) (b : Z * Z) : cmat :=
  let ib := fst b in let s := snd b in
  let sub := hermitise (subMat v ib) in
  let X := solve s sub in
  let new := matMul s (matMul s (adjoint X) sub) X in
  fun i j => if inBlock ib s i && inBlock ib s j then new (i - ib) (j - ib) else v i j.
(** harmonic.cpp:72-200: for each size, all blocks of that size at all points; one direction. Elements of funcK/funcB that were never
    written are zero-initialised by Kokkos. [sched iDeg] is the order of the threads. *)
Definition deviceDegenerate (solve : Z -> cmat -> cmat) (thr : Q) (ens : list (Z -> Q)) (nb : Z) (sched : Z -> list Z) (vs : Z -> cmat) : res (Z -> cmat) :=
  let counts := flat_map (fun en => degCounts thr en nb) ens in
  foldM (fun (vs : Z -> cmat) iDeg =>
      do kb <- funcKB nb iDeg counts (sched iDeg) ;
      Ok (fold_left (fun (vs : Z -> cmat) (p : option (Z * Z)) =>
            let q := match p with Some q => q | None => (0, 0) end in
            fun iK => if iK =? fst q then deviceTreat solve (vs iK) (snd q, iDeg) else vs iK) kb vs))
    (zrange 2 (maxDegeneracy thr ens nb - 1)) vs.

(** * Batches of points (l.253-359): results of point ik written at iik + numFinishedPoints *)
Definition kokkosPopulate {K D} (diag : K -> D) (coords : list K) (iks : list Z) (batchSize : Z) (d0 : D) : res (list D) :=
  do batches <- splitToBatches iks batchSize ;
  do r <- foldM (fun (st : list D * Z) batch =>
      do out <- foldM (fun (acc : list D) iik =>
          match zget coords (iik + snd st) with
          | Some k => if inb (iik + snd st) (zlen acc) then Ok (zupd acc (iik + snd st) (diag k)) else UB
          | None => UB
          end) (zrange 0 (zlen batch)) (fst st) ;
      Ok (out, snd st + zlen batch)) batches (repeat d0 (length coords), 0) ;
  Ok (fst r).
