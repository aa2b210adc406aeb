(** Specifications for the MPI properties. *)
From Verif Require Import Base.

(** offsets of consecutive chunks: 0, c0, c0+c1, ... *)
Definition offsets (counts : list Z) : list Z :=
  map (fun i => zsum (firstn i counts)) (seq 0 (length counts)).

(** component-wise sum of equally long buffers *)
Definition sumOfBuffers (l : list (list Z)) : list Z :=
  match l with
  | [] => []
  | b :: _ => map (fun i => zsum (map (fun b => nth i b 0) l)) (seq 0 (length b))
  end.

(** enough ranks, and the products formed in size_t arithmetic do not wrap *)
Definition fits (n size : Z) : Prop := 0 <= n /\ 0 < size /\ n * size < 18446744073709551616.
