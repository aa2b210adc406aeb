(** Vocabulary for distributed matrices as whole matrices. *)
From Verif Require Import Base M_matrix S_matrix M_pmatrix.

(** the matrix with layout L and elements F, spread over the processes *)
Definition spread {T} (L : layout) (F : Z -> Z -> T) : pmat T := {| pL := L; pBufs := distributed L F |}.
(** op(F) and the product of two matrices with inner size k, in any arithmetic *)
Definition opOf {T} (conj : T -> T) (t : trans) (F : Z -> Z -> T) : Z -> Z -> T :=
  match t with TransN => F | TransT => fun i j => F j i | TransC => fun i j => conj (F j i) end.
Definition productOf {T} (zero : T) (add mul : T -> T -> T) (k : Z) (F G : Z -> Z -> T) (i j : Z) : T :=
  fold_right add zero (map (fun l => mul (F i l) (G l j)) (zrange 0 k)).
