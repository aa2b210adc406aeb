(** What the documentation of LAPACK and ScaLAPACK says of the routines, for one matrix, and what a user expects. *)
From Coq Require Import QArith Sorting.Sorted.
From Verif Require Import Base M_eigen.
Open Scope Z_scope.

(** The spectrum of a matrix with n rows: n numbers in ascending order. *)
Definition spectrum (n : Z) (sp : list Q) : Prop := zlen sp = n /\ StronglySorted Qle sp.

(** Success of a routine that computes all eigenvalues. [vec k] holds the eigenvectors of the k smallest eigenvalues. *)
Definition computesAll {M} (o : outcome M) (sp : list Q) (vec : Z -> M) : Prop :=
  info o = 0 /\ values o = sp /\ vectors o = vec (zlen sp).

(** pdsyevr on a matrix [A]: the eigenvalues of an interval vl < x <= vu, or those of index il..iu counted from 1;
    an interval of indices that is not 1 <= il <= iu <= n is an error. *)
Definition computesSome {M} (evr : bool -> selection -> M -> outcome M) (A : M) (sp : list Q) (vec : Z -> M) : Prop :=
  (forall v vl vu, let o := evr v (ByValue vl vu) A in
     info o = 0 /\ values o = filter (fun x => negb (Qle_bool x vl) && Qle_bool x vu) sp /\ found o = zlen (values o)) /\
  (forall v iu, let o := evr v (ByIndex 1 iu) A in
     if (1 <=? iu) && (iu <=? zlen sp) then
       info o = 0 /\ (exists larger, sp = values o ++ larger) /\ zlen (values o) = iu /\ found o = iu /\ (v = true -> vectors o = vec iu)
     else info o <> 0).

(** [w] are k eigenvalues, and none of the others is smaller than one of them. *)
Definition smallest (k : Z) (sp w : list Q) : Prop :=
  zlen w = k /\ exists larger, sp = w ++ larger /\ forall x y, In x w -> In y larger -> (x <= y)%Q.

(** The list has the eigenvalues that are not positive, each once, in order, numbered from 0. *)
Definition listsNonPositive (sp : list Q) (l : list (Z * Q)) : Prop :=
  map snd l = filter (fun x => Qle_bool x 0) sp /\ map fst l = zrange 0 (zlen l).

(** -1 < x <= 10^-16: what the check of negative eigenvalues counts *)
Definition nearZero (x : Q) : bool := negb (Qle_bool x (-1)) && Qle_bool x (1 # 10000000000000000).
