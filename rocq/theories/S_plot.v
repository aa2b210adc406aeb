(** Specification of C140 *)
From Verif Require Import Base M_mpi S_mpi M_elphio M_plot.
Open Scope Z_scope.

Definition within (r : Z * Z) (b : Z) : Prop := fst r <= b <= snd r.
(** place of a value in the file: pairs slowest, phonon modes fastest *)
Definition place (r1 r2 r3 : Z * Z) (pair b1 b2 b3 : Z) : Z :=
  ((pair * (snd r1 - fst r1 + 1) + (b1 - fst r1)) * (snd r2 - fst r2 + 1) + (b2 - fst r2)) * (snd r3 - fst r3 + 1) + (b3 - fst r3).
(** the file holds all couplings asked for, each in its place *)
Definition fileComplete {P A} (g : P -> P -> Z -> Z -> Z -> A) (r1 r2 r3 : Z * Z) (pairs : list (P * P)) (ds : Z -> option A) : Prop :=
  forall n k q b1 b2 b3, zget pairs n = Some (k, q) -> within r1 b1 -> within r2 b2 -> within r3 b3 -> ds (place r1 r2 r3 n b1 b2 b3) = Some (g k q b1 b2 b3).
