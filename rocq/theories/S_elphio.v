From Verif Require Import Base M_mpi M_elphio.
Open Scope Z_scope.

Definition inRange (d : dims) (i j nu p : Z) : Prop := 0 <= i < dW d /\ 0 <= j < dW d /\ 0 <= nu < dM d /\ 0 <= p < dP d.
Definition positive (d : dims) : Prop := 0 < dW d /\ 0 < dM d /\ 0 < dP d /\ 0 < dE d.
(** equality of the couplings of all lattice vectors *)
Definition sameCoupling {A} (d : dims) (g h : tensor5 A) : Prop := forall i j nu p e, inRange d i j nu p -> 0 <= e < dE d -> g i j nu p e = h i j nu p e.
(** every process has the whole coupling *)
Definition whole {A} (d : dims) (size : Z) (g : tensor5 A) (parts : Z -> Z * tensor5 A) : Prop := forall r, 0 <= r < size -> fst (parts r) = dE d /\ sameCoupling d (snd (parts r)) g.
(** process r has the couplings of its own lattice vectors, the first at position 0 *)
Definition spread {A} (d : dims) (size : Z) (g : tensor5 A) (parts : Z -> Z * tensor5 A) : Prop := forall r, 0 <= r < size ->
  exists mine, divideWorkIter (dE d) r size = Ok mine /\ fst (parts r) = zlen mine /\
  forall i j nu p k e, inRange d i j nu p -> zget mine k = Some e -> snd (parts r) i j nu p k = g i j nu p e.
(** an order of the events of all processes: each process does what its program says *)
Definition schedule_of (d : dims) (size : Z) (s : list event) : Prop :=
  (forall ev, In ev s -> 0 <= rankOf ev < size) /\ forall r, 0 <= r < size -> exists pr, program d size r = Ok pr /\ filter (fun ev => rankOf ev =? r) s = pr.
(** all processes have opened the file before the first one writes *)
Definition openFirst (s : list event) : Prop := exists s1 s2, s = s1 ++ s2 /\ (forall ev, In ev s1 -> exists r, ev = Open r) /\ forall ev r, In ev s2 -> ev <> Open r.
(** a complete file of format 2 *)
Definition complete {A} (d : dims) (g : tensor5 A) (f : file2 A) : Prop := header f = true /\
  forall e, 0 <= e < dE d -> exists v, slices f e = Some v /\ forall i j nu p, inRange d i j nu p -> v (i + dW d * (j + dW d * (nu + dM d * p))) = g i j nu p e.
