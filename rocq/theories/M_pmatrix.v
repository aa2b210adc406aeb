(** Model of the operations on whole distributed matrices: src/algebra/PMatrix.cpp and the operators of src/algebra/PMatrix.h:630-716. *)
From Coq Require Import QArith Qcanon.
From Verif Require Import Base M_matrix.
Open Scope Z_scope.

(** the processes of the grid in the order of their ranks (PMatrix.h:58: row major) *)
Definition gridRanks (L : layout) : list (Z * Z) := list_prod (zrange 0 (npRows L)) (zrange 0 (npCols L)).
(** a distributed matrix: its layout and the buffer of every process, by rank *)
Record pmat (T : Type) := { pL : layout; pBufs : list (list T) }.
Arguments pL {T}. Arguments pBufs {T}. Arguments Build_pmat {T}.

(** PMatrix.h:646-667 operator+= and operator-=: only the global sizes are compared; the loop runs over the local elements of [this] *)
Definition zipLocal {T} (f : T -> T -> T) (a b : list T) : res (list T) :=
  mapM (fun i => match zget a i, zget b i with Some x, Some y => Ok (f x y) | _, _ => UB end) (zrange 0 (zlen a)).
Definition pzip {T} (f : T -> T -> T) (A B : pmat T) : res (pmat T) :=
  if negb (lRows (pL A) =? lRows (pL B)) || negb (lCols (pL A) =? lCols (pL B)) then Err else
  do bufs <- mapM (fun r => match zget (pBufs A) r, zget (pBufs B) r with Some a, Some b => zipLocal f a b | _, _ => UB end)
                  (zrange 0 (zlen (pBufs A))) ;
  Ok {| pL := pL A; pBufs := bufs |}.
(** PMatrix.h:630-644 operator*=, operator/= and 707-713 unary minus *)
Definition pmap {T} (f : T -> T) (A : pmat T) : pmat T := {| pL := pL A; pBufs := map (map f) (pBufs A) |}.
(** l.683-685 zeros *)
Definition pzeros {T} (zero : T) (A : pmat T) : pmat T := pmap (fun _ => zero) A.

Section Scalapack.
Context {T : Type} (zero : T) (add mul : T -> T -> T) (conj : T -> T).
(** the element (row, col), from the process that has it *)
Definition pelem (A : pmat T) (row col : Z) : res T :=
  match find (fun q => indicesAreLocal (pL A) (fst q) row col) (combine (gridRanks (pL A)) (pBufs A)) with
  | Some q => pget zero (pL A) (fst q) (snd q) row col
  | None => UB
  end.
(** new values of all elements of a matrix with layout [L] *)
Definition pfill (L : layout) (v : Z -> Z -> res T) : res (pmat T) :=
  do bufs <- mapM (fun p => mapM (fun t => v (fst t) (snd t)) (getAllLocalStates L p)) (gridRanks L) ;
  Ok {| pL := L; pBufs := bufs |}.
Inductive trans := TransN | TransT | TransC.
Definition opElem (t : trans) (A : pmat T) (i j : Z) : res T :=
  match t with TransN => pelem A i j | TransT => pelem A j i | TransC => do x <- pelem A j i ; Ok (conj x) end.
(** TRUSTED: ScaLAPACK p?gemm with alpha = 1, beta = 0 on whole matrices (first indices 1, 1): C(1:m, 1:n) = op(A) op(B). A submatrix
    that does not fit in its matrix stops the program (PXERBLA). *)
Definition pgemm (t1 t2 : trans) (m n k : Z) (A B C : pmat T) : res (pmat T) :=
  let fits (M : pmat T) r c := (r <=? lRows (pL M)) && (c <=? lCols (pL M)) in
  let okA := match t1 with TransN => fits A m k | _ => fits A k m end in
  let okB := match t2 with TransN => fits B k n | _ => fits B n k end in
  if okA && okB && fits C m n then
    pfill (pL C) (fun r c => if (r <? m) && (c <? n) then
        do terms <- mapM (fun l => do a <- opElem t1 A r l ; do b <- opElem t2 B l c ; Ok (mul a b)) (zrange 0 k) ;
        Ok (fold_right add zero terms)
      else pelem C r c)
  else Err.
(** PMatrix.cpp:11-50 and 52-93 prod. [C]: the matrix of zeros that receives the result; the asserts are active *)
Definition prodInto (C A B : pmat T) (t1 t2 : trans) : res (pmat T) :=
  if negb (lCols (pL A) =? lRows (pL B)) then Err else
  let m := match t1 with TransN => lRows (pL A) | _ => lCols (pL A) end in
  let n := match t2 with TransN => lCols (pL B) | _ => lRows (pL B) end in
  let k := match t1 with TransN => lCols (pL A) | _ => lRows (pL A) end in
  if negb (k =? match t2 with TransN => lRows (pL B) | _ => lCols (pL B) end) then Err else
  pgemm t1 t2 m n k A B C.
(** l.18-19: real matrices, the result is a copy of the second operand *)
Definition prodReal (A B : pmat T) (t1 t2 : trans) : res (pmat T) := prodInto (pzeros zero B) A B t1 t2.
(** l.57-58: complex matrices, the result has the size of the first operand and the layout [L] that the constructor makes *)
Definition prodComplex (L : layout) (A B : pmat T) (t1 t2 : trans) : res (pmat T) :=
  do C <- pfill L (fun _ _ => Ok zero) ; prodInto C A B t1 t2.
End Scalapack.

(** PMatrix.cpp:420-444 symmetrize. TRUSTED: pdtran, C = beta C + alpha A^T, with alpha = beta = 1/2 *)
Definition half : Qc := Q2Qc (1 # 2).
Definition psymmetrize (A : pmat Qc) : res (pmat Qc) :=
  if negb (lRows (pL A) =? lCols (pL A)) then Err else
  pfill (pL A) (fun r c => do x <- pelem 0%Qc A r c ; do y <- pelem 0%Qc A c r ; Ok (half * x + half * y)%Qc).
