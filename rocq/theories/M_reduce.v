(** Distributed buffers: every rank writes its own slots of a zero buffer, then the buffers are added.
    Used by active_bandstructure.cpp:630-647 and 686-755, drift.cpp, vector_bte.cpp and others. *)
From Verif Require Import Base M_utilities M_mpi.
Open Scope Z_scope.

(** x(index) = value on an Eigen vector / std::vector; out of range is undefined. *)
Definition put {V} (buf : list V) (i : Z) (v : V) : res (list V) :=
  if (0 <=? i) && (i <? zlen buf) then Ok (zupd buf i v) else UB.

Definition scatter {V} (zero : V) (n : Z) (writes : list (Z * V)) : res (list V) :=
  foldM (fun buf w => put buf (fst w) (snd w)) writes (repeat zero (Z.to_nat n)).

(** mpiController.h:564-583 in-place allReduceSum for any element type. TRUSTED: MPI_SUM. *)
Definition addBufG {V} (add : V -> V -> V) (a b : list V) : list V :=
  map (fun p => add (fst p) (snd p)) (combine a b).
Definition allReduceG {V} (add : V -> V -> V) (zero : V) (bufs : list (list V)) : list (list V) :=
  if zlen bufs =? 1 then bufs
  else map (fun b => fold_right (addBufG add) (repeat zero (length b)) bufs) bufs.
