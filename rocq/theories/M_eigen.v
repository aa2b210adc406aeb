(** Model of the diagonalisation of matrices: src/algebra/PMatrix.cpp:97-420 (ParallelMatrix::diagonalize),
    src/algebra/SMatrix.cpp:36-100 (SerialMatrix::diagonalize), src/bte/scattering.cpp:871-909 (ScatteringMatrix::diagonalize)
    and the size of the scattering matrix, src/bte/scattering.cpp:112-149.
    The routines of LAPACK and ScaLAPACK are arguments of the model. The content of a matrix is a value of an arbitrary type [M];
    its distribution over processes is the subject of M_matrix and M_pmatrix.
    Left out: timers, messages other than the lists of eigenvalues, the memory that is allocated. *)
From Coq Require Import QArith.
From Verif Require Import Base M_matrix.
Open Scope Z_scope.

(** Which eigenvalues are asked from pdsyevr: range = 'V' with (vl, vu] or range = 'I' with il..iu, counted from 1. *)
Inductive selection := ByValue (vl vu : Q) | ByIndex (il iu : Z).
(** What a routine leaves: info, the number m of eigenvalues found, the values written from the start of the array
    of eigenvalues, and the matrix z of eigenvectors. *)
Record outcome (M : Type) := { info : Z; found : Z; values : list Q; vectors : M }.
Arguments info {M}. Arguments found {M}. Arguments values {M}. Arguments vectors {M}.

(** eigenvalues[i] of an array where only the listed entries have been written *)
Definition readAt (w : list Q) (i : Z) : res Q := match zget w i with Some x => Ok x | None => UB end.
(** A routine writes [new] over the start of the array. *)
Definition overwrite (new old : list Q) : list Q := new ++ skipn (length new) old.

(** PMatrix.cpp:180-184: for (int i = 0; eigenvalues[i] <= 0; i++) { print; if (i+1 == numRows_) break; } *)
Fixpoint printNegative (w : list Q) (n : Z) (fuel : nat) (i : Z) : res (list (Z * Q)) :=
  match fuel with
  | O => UB
  | S f => do x <- readAt w i ;
    if Qle_bool x 0 then
      if i + 1 =? n then Ok [(i, x)] else do r <- printNegative w n f (i + 1) ; Ok ((i, x) :: r)
    else Ok []
  end.

Section Parallel.
Context {M : Type}.
(** pdsyevd and pdsyevr called with lwork = -1 (int(work[0]) afterwards), and called to compute. [true] asks for eigenvectors. *)
Variables (evdQuery evrQuery : M -> Z) (evd : M -> outcome M) (evr : bool -> selection -> M -> outcome M).

(** PMatrix.cpp:97-199: all eigenvalues. n x nc matrix on a pr x pc grid of processes.
    Result: eigenvalues, eigenvectors, list of eigenvalues printed with a warning (if there is a warning). *)
Definition diagonalizeAll (n nc pr pc : Z) (A : M) : res (list Q * M * option (list (Z * Q))) :=
  if negb (n =? nc) then Err else
  if negb (pr =? pc) then Err else
  do liwork <- ck (7 * n + 8 * pc + 2) ;
  do lwork <- ck (evdQuery A) ;
  let c := evd A in
  if negb (info c =? 0) then Err else
  do w0 <- readAt (values c) 0 ;
  do report <- (if negb (Qle_bool 0 w0) then do l <- printNegative (values c) n (S (Z.to_nat n)) 0 ; Ok (Some l) else Ok None) ;
  do w <- mapM (readAt (values c)) (zrange 0 n) ;
  Ok (w, vectors c, report).

(** PMatrix.cpp:318-350: the check of negative eigenvalues, made on a copy of the matrix (l.325). Its info is not read.
    Result: the array of eigenvalues, and the list printed with a warning. *)
Definition negativeCheck (A : M) : res (list Q * option (list (Z * Q))) :=
  let c := evr false (ByValue (-1) (1 # 10000000000000000)) A in
  let w := overwrite (values c) [] in
  if 3 <? found c then
    do l <- mapM (fun i => do x <- readAt w i ; Ok (i, x)) (zrange 0 (found c)) ; Ok (w, Some l)
  else Ok (w, None).

(** PMatrix.cpp:254-420: the first k eigenvalues. *)
Definition diagonalizeSome (k : Z) (check : bool) (n nc pr pc : Z) (A : M) : res (list Q * M * option (list (Z * Q))) :=
  if negb (n =? nc) then Err else
  if negb (pr =? pc) then Err else
  let k := if n <? k then n else k in
  do lwork <- ck (evrQuery A) ;
  do liwork <- ck (12 * Z.max (Z.max n (pr * pc + 1)) 4 + 2 * n) ;
  do r <- (if check then negativeCheck A else Ok ([], None)) ;
  let c := evr true (ByIndex 1 k) A in
  if negb (info c =? 0) then Err else
  do w <- mapM (readAt (overwrite (values c) (fst r))) (zrange 0 k) ;
  Ok (w, vectors c, snd r).

(** scattering.cpp:112-117: number of rows and columns of the scattering matrix *)
Definition matSize (useSymmetries : bool) (numStates : Z) : Z := if useSymmetries then 3 * numStates else numStates.

(** scattering.cpp:871-909, on [size] processes (l.149: the default grid of processes) *)
Definition scatteringDiagonalize (size : Z) (useSymmetries check : bool) (numStates k : Z) (A : M) : res (list Q * M * option (list (Z * Q))) :=
  do g <- initBlacs size 0 0 ;
  let n := matSize useSymmetries numStates in
  if numStates <? k then Err else
  if (0 <? k) && negb (k =? numStates) then diagonalizeSome k check n n (fst g) (snd g) A
  else diagonalizeAll n n (fst g) (snd g) A.
End Parallel.

(** PMatrix.cpp:201-252: complex Hermitian matrices. [nb] = descMat_[5], the size of a block. [ev] = pzheev. *)
Definition diagonalizeComplex {M} (ev : M -> outcome M) (n nc pr pc nb : Z) (A : M) : res (list Q * M) :=
  if negb (n =? nc) then Err else
  if negb (pr =? pc) then Err else
  let nn := Z.max (Z.max n nb) 2 in
  let np0 := numroc nn nb 0 pr in
  let nq0 := numroc nn nb 0 pc in
  do lwork <- ck ((np0 + nq0 + nb) * nb + 3 * n + n * n) ;
  do lrwork <- ck (2 * n + 2 * n - 2) ;
  if (lwork <? 0) || (lrwork <? 0) then Err else
  let c := ev A in
  if negb (info c =? 0) then Err else
  do w <- mapM (readAt (values c)) (zrange 0 n) ;
  Ok (w, vectors c).

(** SMatrix.cpp:67-90: [syev] = dsyev, which writes the eigenvectors over the copy of the matrix (l.74). *)
Definition serialReal {T} (syev : smat T -> outcome (smat T)) (A : smat T) : res (list Q * smat T) :=
  if negb (sRows A =? sCols A) then Err else
  let c := syev A in
  if negb (info c =? 0) then Err else
  do w <- mapM (readAt (values c)) (zrange 0 (sRows A)) ;
  Ok (w, vectors c).
(** SMatrix.cpp:36-65: zheev writes the eigenvectors over [temp]; the matrix [eigenvectors] made at l.44 is returned. *)
Definition serialComplex {T} (zero : T) (heev : smat T -> outcome (smat T)) (A : smat T) : res (list Q * smat T) :=
  if negb (sRows A =? sCols A) then Err else
  let eigenvectors := smat0 zero (sRows A) (sCols A) in
  let temp := A in
  let c := heev temp in
  if negb (info c =? 0) then Err else
  do w <- mapM (readAt (values c)) (zrange 0 (sRows A)) ;
  Ok (w, eigenvectors).
