(** Specification vocabulary for matrices. *)
From Coq Require Import QArith Qcanon.
From Verif Require Import Base M_matrix.
Open Scope Z_scope.

Definition validLayout (L : layout) : Prop :=
  0 < lRows L /\ 0 < lCols L /\ 0 < bsRows L /\ 0 < bsCols L /\ 0 < npRows L /\ 0 < npCols L.
Definition inMatrix (L : layout) (r c : Z) : Prop := 0 <= r < lRows L /\ 0 <= c < lCols L.
(** processes of the grid, (row, column) coordinates *)
Definition isProcess (L : layout) (p : Z * Z) : Prop := 0 <= fst p < npRows L /\ 0 <= snd p < npCols L.
Definition processes (L : layout) : list (Z * Z) := list_prod (zrange 0 (npRows L)) (zrange 0 (npCols L)).

(** A serial matrix whose buffer has the size of the matrix *)
Definition wellFormed {T} (A : smat T) : Prop := 0 <= sRows A /\ 0 <= sCols A /\ zlen (sBuf A) = sRows A * sCols A.
(** A serial matrix of shape r x c with elements f *)
Definition hasElements {T} (A : smat T) (r c : Z) (f : Z -> Z -> T) : Prop :=
  wellFormed A /\ sRows A = r /\ sCols A = c /\ forall i j, 0 <= i < r -> 0 <= j < c -> sget A i j = Ok (f i j).

(** Sum of f over 0..n-1 *)
Definition sumTo (n : Z) (f : Z -> Qc) : Qc := fold_right Qcplus 0%Qc (map f (zrange 0 n)).

(** Last value written to (r, c) by a history of writes, [d] if none *)
Fixpoint lastWrite {T} (h : list (Z * Z * T)) (r c : Z) (d : T) : T :=
  match h with
  | [] => d
  | (i, j, v) :: h' => lastWrite h' r c (if (i =? r) && (j =? c) then v else d)
  end.

(** A history of writes applied to the buffer of one process / to a serial matrix *)
Definition psets {T} (L : layout) (p : Z * Z) (h : list (Z * Z * T)) (buf : list T) : res (list T) :=
  foldM (fun b w => let '(r, c, v) := w in pset L p b r c v) h buf.
Definition ssets {T} (h : list (Z * Z * T)) (A : smat T) : res (smat T) :=
  foldM (fun b w => let '(r, c, v) := w in sset b r c v) h A.
(** op(F): F itself or its transpose *)
Definition opF (t : bool) (F : Z -> Z -> Qc) : Z -> Z -> Qc := if t then fun i j => F j i else F.
(** A distributed matrix with elements F: the buffer of every process *)
Definition distributed {T} (L : layout) (F : Z -> Z -> T) : list (list T) :=
  map (fun p => map (fun t => F (fst t) (snd t)) (getAllLocalStates L p)) (processes L).
