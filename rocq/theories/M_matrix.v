(** Model of src/algebra/SMatrix.h, SMatrix.cpp and PMatrix.h (build with MPI_AVAIL). *)
From Coq Require Import QArith Qcanon.
From Verif Require Import Base M_utilities M_mpi M_reduce M_irreducible.
Open Scope Z_scope.

(** * ParallelMatrix: layout *)

(** PMatrix.h:277-280 size of a block (int division; numBlocks > 0 after l.270-273) *)
Definition blockSize (num numBlocks : Z) : Z :=
  let q := Z.quot num numBlocks in if Z.rem num numBlocks =? 0 then q else q + 1.

(** PMatrix.h:411-473 initBlacs: shape of the process grid *)
Definition initBlacs (size numBlasRows numBlasCols : Z) : res (Z * Z) :=
  if size <? numBlasRows * numBlasCols then Err
  else if negb (numBlasRows =? 0) && (numBlasCols =? 0) then Ok (numBlasRows, Z.quot size numBlasRows)
  else if (numBlasRows =? 0) && negb (numBlasCols =? 0) then Ok (Z.quot size numBlasCols, numBlasCols)
  else if negb (numBlasRows =? 0) && negb (numBlasCols =? 0) then Ok (numBlasRows, numBlasCols)
  else let s := Z.sqrt size in if s * s <? size then Err else Ok (s, s).

(** TRUSTED (ScaLAPACK TOOLS): numroc, owner of an index as returned by infog2l, indxg2l, indxl2g,
    all with source process 0. Fortran integer division and MOD truncate; indices are 1-based. *)
Definition numroc (n nb iproc nprocs : Z) : Z :=
  let mydist := Z.rem (nprocs + iproc) nprocs in
  let nblocks := Z.quot n nb in
  let r := Z.quot nblocks nprocs * nb in
  let extrablks := Z.rem nblocks nprocs in
  if mydist <? extrablks then r + nb else if mydist =? extrablks then r + Z.rem n nb else r.
Definition infog2lOwner (g nb nprocs : Z) : Z := Z.rem (Z.quot (g - 1) nb) nprocs.
Definition indxg2l (g nb nprocs : Z) : Z := nb * Z.quot (g - 1) (nb * nprocs) + Z.rem (g - 1) nb + 1.
Definition indxl2g (l nb iproc nprocs : Z) : Z :=
  nprocs * nb * Z.quot (l - 1) nb + Z.rem (l - 1) nb + Z.rem (nprocs + iproc) nprocs * nb + 1.

(** Shape of a distributed matrix: numRows_, numCols_, blockSizeRows_, blockSizeCols_,
    numBlasRows_, numBlasCols_ *)
Record layout := { lRows : Z; lCols : Z; bsRows : Z; bsCols : Z; npRows : Z; npCols : Z }.

(** PMatrix.h:247-280 constructor: [numBlocks] 0 stands for the default, the process grid *)
Definition mkLayout (size numRows numCols numBlasRows numBlasCols numBlocksRows numBlocksCols : Z) : res layout :=
  do g <- initBlacs size numBlasRows numBlasCols ;
  let nbr := if numBlocksRows =? 0 then fst g else numBlocksRows in
  let nbc := if numBlocksCols =? 0 then snd g else numBlocksCols in
  if (nbr =? 0) || (nbc =? 0) then UB else
  Ok {| lRows := numRows; lCols := numCols; bsRows := blockSize numRows nbr; bsCols := blockSize numCols nbc;
        npRows := fst g; npCols := snd g |}.

(** l.287-289 *)
Definition numLocalRows (L : layout) (p : Z * Z) : Z := numroc (lRows L) (bsRows L) (fst p) (npRows L).
Definition numLocalCols (L : layout) (p : Z * Z) : Z := numroc (lCols L) (bsCols L) (snd p) (npCols L).
Definition numLocalElements (L : layout) (p : Z * Z) : Z := numLocalRows L p * numLocalCols L p.
(** l.302-307: descMat_[8] *)
Definition lddA (L : layout) (p : Z * Z) : Z := if 1 <? numLocalRows L p then numLocalRows L p else 1.

(** l.553-572 local2Global on process p = (myBlasRow_, myBlasCol_) *)
Definition local2Global (L : layout) (p : Z * Z) (k : Z) : Z * Z :=
  let j := Z.quot k (numLocalRows L p) in
  let i := k - j * numLocalRows L p in
  ((Z.quot i (bsRows L) * npRows L + fst p) * bsRows L + Z.rem i (bsRows L),
   (Z.quot j (bsCols L) * npCols L + snd p) * bsCols L + Z.rem j (bsCols L)).
(** l.575-596 global2Local *)
Definition global2Local (L : layout) (p : Z * Z) (row col : Z) : Z :=
  let row_ := row + 1 in let col_ := col + 1 in
  if negb (fst p =? infog2lOwner row_ (bsRows L) (npRows L)) || negb (snd p =? infog2lOwner col_ (bsCols L) (npCols L)) then -1
  else indxg2l row_ (bsRows L) (npRows L) + (indxg2l col_ (bsCols L) (npCols L) - 1) * lddA L p - 1.
(** l.531-539 *)
Definition indicesAreLocal (L : layout) (p : Z * Z) (row col : Z) : bool := negb (global2Local L p row col =? -1).
(** l.599-606 *)
Definition getAllLocalStates (L : layout) (p : Z * Z) : list (Z * Z) :=
  map (local2Global L p) (zrange 0 (numLocalElements L p)).
(** l.609-628: 0-based loop indices are given to the 1-based indxl2g *)
Definition getAllLocalRows (L : layout) (p : Z * Z) : list Z :=
  map (fun k => indxl2g k (bsRows L) (fst p) (npRows L)) (zrange 0 (numLocalRows L p)).
Definition getAllLocalCols (L : layout) (p : Z * Z) : list Z :=
  map (fun k => indxl2g k (bsCols L) (snd p) (npCols L)) (zrange 0 (numLocalCols L p)).

(** * ParallelMatrix: contents of one process *)
(** l.503-521 operator(): reading a non-local element gives zero; writing to it is lost *)
Definition pget {T} (zero : T) (L : layout) (p : Z * Z) (buf : list T) (row col : Z) : res T :=
  let k := global2Local L p row col in
  if k =? -1 then Ok zero else match zget buf k with Some v => Ok v | None => UB end.
Definition pset {T} (L : layout) (p : Z * Z) (buf : list T) (row col : Z) (v : T) : res (list T) :=
  let k := global2Local L p row col in
  if k =? -1 then Ok buf else put buf k v.
(** l.669-680 eye *)
Definition peye {T} (zero one : T) (L : layout) (p : Z * Z) (buf : list T) : res (list T) :=
  if negb (lRows L =? lCols L) then Err else
  foldM (fun b i => pset L p b i i one) (zrange 0 (lRows L)) (map (fun _ => zero) buf).
(** l.697-705 dot: local sum, then the two-buffer allReduceSum into a zero (mpiController.h:519-535);
    [as_], [bs]: buffers of all processes; the result is the value returned on every process *)
Definition qsum (l : list Qc) : Qc := fold_right Qcplus 0%Qc l.
Definition localDot (a b : list Qc) : Qc := qsum (map (fun p => fst p * snd p)%Qc (combine a b)).
Definition pdot (as_ bs : list (list Qc)) : list Qc :=
  let scalar := map (fun p => localDot (fst p) (snd p)) (combine as_ bs) in
  if zlen scalar =? 1 then map (fun _ => 0%Qc) scalar else map (fun _ => qsum scalar) scalar.

(** * SerialMatrix *)
Record smat (T : Type) := { sRows : Z; sCols : Z; sBuf : list T }.
Arguments sRows {T}. Arguments sCols {T}. Arguments sBuf {T}. Arguments Build_smat {T}.

(** SMatrix.h:193-211 constructor *)
Definition smat0 {T} (zero : T) (r c : Z) : smat T := {| sRows := r; sCols := c; sBuf := repeat zero (Z.to_nat (r * c)) |}.
(** l.322-324, 311-319 *)
Definition sGlobal2Local {T} (A : smat T) (row col : Z) : Z := sRows A * col + row.
Definition sLocal2Global {T} (A : smat T) (k : Z) : res (Z * Z) :=
  if sRows A =? 0 then Err else
  let j := Z.quot k (sRows A) in Ok (k - j * sRows A, j).
(** l.287-301 operator() as a read and as a write *)
Definition outOfBounds {T} (A : smat T) (row col : Z) : bool :=
  (sRows A <=? row) || (sCols A <=? col) || (row <? 0) || (col <? 0).
Definition sget {T} (A : smat T) (row col : Z) : res T :=
  if outOfBounds A row col then Err else
  match zget (sBuf A) (sGlobal2Local A row col) with Some v => Ok v | None => UB end.
Definition sset {T} (A : smat T) (row col : Z) (v : T) : res (smat T) :=
  if outOfBounds A row col then Err else
  do b <- put (sBuf A) (sGlobal2Local A row col) v ; Ok {| sRows := sRows A; sCols := sCols A; sBuf := b |}.
(** l.326-334 *)
Definition sGetAllLocalStates {T} (A : smat T) : res (list (Z * Z)) :=
  mapM (sLocal2Global A) (zrange 0 (sRows A * sCols A)).
(** l.348-353 eye *)
Definition seye {T} (one : T) (A : smat T) : res (smat T) :=
  if negb (sRows A =? sCols A) then Err else
  foldM (fun M row => sset M row row one) (zrange 0 (sRows A)) A.
(** SMatrix.cpp:123-138 symmetrize *)
Definition symmetrizeStep (A : smat Qc) (p : Z * Z) : res (smat Qc) :=
  let '(i, j) := p in
  do a <- sget A j i ; do b <- sget A i j ;
  let temp := ((a + b) / Q2Qc 2)%Qc in
  do A1 <- sset A i j temp ; sset A1 j i temp.
Definition symmetrizeOrder (n m : Z) : list (Z * Z) :=
  flat_map (fun i => map (fun j => (i, j)) (zrange i (m - i))) (zrange 0 n).
Definition ssymmetrize (A : smat Qc) : res (smat Qc) :=
  if negb (sRows A =? sCols A) then Err else foldM symmetrizeStep (symmetrizeOrder (sRows A) (sCols A)) A.
(** SMatrix.h:118-152 +=, -=, *=, /= *)
Definition szip (f : Qc -> Qc -> Qc) (A B : smat Qc) : res (smat Qc) :=
  if negb (sRows A =? sRows B) || negb (sCols A =? sCols B) then Err
  else Ok {| sRows := sRows A; sCols := sCols A; sBuf := map (fun p => f (fst p) (snd p)) (combine (sBuf A) (sBuf B)) |}.
Definition smapBuf (f : Qc -> Qc) (A : smat Qc) : smat Qc := {| sRows := sRows A; sCols := sCols A; sBuf := map f (sBuf A) |}.
(** l.378-384 dot *)
Definition sdot (A B : smat Qc) : Qc := localDot (sBuf A) (sBuf B).

(** TRUSTED: BLAS dgemm(transa, transb, M, N, K, alpha = 1, A, lda, B, ldb, beta = 0, C, ldc), column
    major; true = 'T' (or 'C' for real matrices). Illegal leading dimensions stop the program (XERBLA). *)
Definition gemmElement (ta tb : bool) (K : Z) (A : list Qc) (lda : Z) (B : list Qc) (ldb i j : Z) : res Qc :=
  do terms <- mapM (fun l =>
      match zget A (if ta then l + lda * i else i + lda * l), zget B (if tb then j + ldb * l else l + ldb * j) with
      | Some a, Some b => Ok (a * b)%Qc
      | _, _ => UB
      end) (zrange 0 K) ;
  Ok (qsum terms).
Definition dgemm (ta tb : bool) (M N K : Z) (A : list Qc) (lda : Z) (B : list Qc) (ldb : Z) (C : list Qc) (ldc : Z) : res (list Qc) :=
  if (lda <? Z.max 1 (if ta then K else M)) || (ldb <? Z.max 1 (if tb then N else K)) || (ldc <? Z.max 1 M) then Err
  else foldM (fun c p => let '(j, i) := p in do v <- gemmElement ta tb K A lda B ldb i j ; put c (i + ldc * j) v)
             (list_prod (zrange 0 N) (zrange 0 M)) C.
(** SMatrix.cpp:22-36 prod for real matrices *)
Definition sprod (A B : smat Qc) (ta tb : bool) : res (smat Qc) :=
  if negb (sCols A =? sRows B) then Err else
  let ret := smat0 0%Qc (sRows A) (sCols B) in
  do b <- dgemm ta tb (sRows A) (sCols B) (sCols A) (sBuf A) (sRows A) (sBuf B) (sRows B) (sBuf ret) (sRows A) ;
  Ok {| sRows := sRows A; sCols := sCols B; sBuf := b |}.

(** * FullBandStructure storage, bandstructure.cpp:28-49: matrices (rows x numPoints). Matrix.h:190-202
    passes the last two numbers (1, numBlockCols) on as the shape of the process grid. *)
Definition bandLayout (size rows numPoints : Z) : res layout :=
  let numBlockCols := Z.min size numPoints in
  if numPoints <? size then Err else mkLayout size rows numPoints 1 numBlockCols 0 0.

(** bandstructure.cpp:153-163 getWavevectorIndices: the column indices of the local states, in a std::set *)
Definition getWavevectorIndices (L : layout) (p : Z * Z) : list Z :=
  fold_left (fun st t => insertSet (snd t) st) (getAllLocalStates L p) [].
(** l.165-175 getStateIndices: (ik, ib) *)
Definition getStateIndices (L : layout) (p : Z * Z) : list (Z * Z) := map (fun t => (snd t, fst t)) (getAllLocalStates L p).

(** l.315-335 setEnergies, and the last loop of setVelocities (l.358-366) and setEigenvectors (l.382-388) *)
Definition setColumn {T} (L : layout) (p : Z * Z) (buf : list T) (ik : Z) (vals : list T) : res (list T) :=
  if negb (indicesAreLocal L p 0 ik) then Err else
  foldM (fun b ib => match zget vals ib with Some v => pset L p b ib ik v | None => UB end) (zrange 0 (numLocalRows L p)) buf.
(** l.204-213 getEnergies(ik) *)
Definition getEnergies {T} (zero : T) (L : layout) (p : Z * Z) (numBands : Z) (buf : list T) (ik : Z) : res (list T) :=
  if negb (indicesAreLocal L p 0 ik) then Err else
  mapM (fun ib => pget zero L p buf ib ik) (zrange 0 numBands).
(** l.192-202 getEnergy(is) *)
Definition getEnergy {T} (zero : T) (L : layout) (p : Z * Z) (numPoints numBands : Z) (buf : list T) (is : Z) : res T :=
  do t <- decompress2Indices is numPoints numBands ;
  if negb (indicesAreLocal L p (snd t) (fst t)) then Err else pget zero L p buf (snd t) (fst t).

(** l.337-367 setVelocities; [vel i j k] is the tensor *)
Definition packVelocities {T} (zero : T) (nb : Z) (vel : Z -> Z -> Z -> T) : res (list T) :=
  do w <- mapM (fun t => let '(i, j, k) := t in do idx <- compress3Indices i j k nb nb 3 ; Ok (idx, vel i j k))
              (list_prod (list_prod (zrange 0 nb) (zrange 0 nb)) (zrange 0 3)) ;
  scatter zero (nb * nb * 3) w.
Definition setVelocities {T} (zero : T) (L : layout) (p : Z * Z) (nb : Z) (buf : list T) (ik : Z) (vel : Z -> Z -> Z -> T) : res (list T) :=
  do tmp <- packVelocities zero nb vel ; setColumn L p buf ik tmp.
(** l.246-262 getVelocities (one entry) and l.215-230 getGroupVelocity (component i of band ib) *)
Definition getVelocities {T} (zero : T) (L : layout) (p : Z * Z) (nb : Z) (buf : list T) (ik i j k : Z) : res T :=
  if negb (indicesAreLocal L p 0 ik) then Err else
  do ind <- compress3Indices i j k nb nb 3 ; pget zero L p buf ind ik.
Definition getGroupVelocity {T} (zero : T) (L : layout) (p : Z * Z) (numPoints nb : Z) (buf : list T) (is i : Z) : res T :=
  do t <- decompress2Indices is numPoints nb ;
  if negb (indicesAreLocal L p (snd t) (fst t)) then Err else
  do ind <- compress3Indices (snd t) (snd t) i nb nb 3 ; pget zero L p buf ind (fst t).

(** l.369-389 setEigenvectors, l.264-279 getEigenvectors (one entry), l.281-297 getPhEigenvectors
    (component ic of atom ia in band ib) *)
Definition setEigenvectors {T} (zero : T) (L : layout) (p : Z * Z) (nb : Z) (buf : list T) (ik : Z) (eig : Z -> Z -> T) : res (list T) :=
  do w <- mapM (fun t => let '(i, j) := t in do idx <- compress2Indices i j nb nb ; Ok (idx, eig i j)) (list_prod (zrange 0 nb) (zrange 0 nb)) ;
  do tmp <- scatter zero (nb * nb) w ; setColumn L p buf ik tmp.
Definition getEigenvectors {T} (zero : T) (L : layout) (p : Z * Z) (nb : Z) (buf : list T) (ik i j : Z) : res T :=
  if negb (indicesAreLocal L p 0 ik) then Err else
  do ind <- compress2Indices i j nb nb ; pget zero L p buf ind ik.
Definition getPhEigenvectors {T} (zero : T) (L : layout) (p : Z * Z) (numAtoms nb : Z) (buf : list T) (ik ic ia ib : Z) : res T :=
  if negb (indicesAreLocal L p 0 ik) then Err else
  do ind <- compress3Indices ia ic ib numAtoms 3 nb ; pget zero L p buf ind ik.
