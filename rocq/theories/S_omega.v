(** Vocabulary: representations of the collision matrix. *)
From Coq Require Import Reals Permutation.
From Verif Require Import Base M_matrix S_matrix M_scattering M_omega.
Open Scope Z_scope.

(** each process goes through its own elements, in any order *)
Definition ownElements (L : layout) (elems : Z * Z -> list (Z * Z)) : Prop := forall p, isProcess L p -> Permutation (elems p) (getAllLocalStates L p).
(** number of local elements that belong to the diagonal block of state b *)
Definition blockElements (sym : bool) (L : layout) (p : Z * Z) (b : Z) : nat :=
  length (filter (fun t => (fst (ofMat sym (fst t)) =? b) && (fst (ofMat sym (snd t)) =? b)) (getAllLocalStates L p)).
