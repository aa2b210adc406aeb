(** Specification for C144 *)
From Coq Require Import Reals Permutation.
From Verif Require Import Base M_mpi S_mpi M_bands S_bands M_particle S_particle M_drift.
Open Scope Z_scope.
(** the derivative of the equilibrium population with respect to the temperature or to the energy *)
Definition slope (k : driftKind) (s : particle) (e T mu d : R) : Prop :=
  match k with
  | TDrift => exists f, populationOfTemperature s T mu e f /\ derivable_pt_lim f T d
  | EDrift => exists f, populationOfEnergy s T mu e f /\ derivable_pt_lim f e d
  end.
(** energies at which the population is finite *)
Definition regular (s : particle) (e T mu : R) : Prop := (0 < T)%R /\ (s = phonon -> (mu < e)%R).
(** what each process does: its share of the list, in any order *)
Definition schedules (iter : list Z) (size : Z) (ranks : list (list Z)) : Prop :=
  Forall2 (fun r states => Permutation states (parallelSlice iter r size)) (zrange 0 size) ranks.
