(** Vocabulary of the properties of populations. *)
From Coq Require Import Reals Lra.
From Verif Require Import Base M_particle.
Open Scope R_scope.

(** Bose-Einstein and Fermi-Dirac functions *)
Definition boseEinstein (y : R) : R := / (exp y - 1).
Definition fermiDirac (y : R) : R := / (exp y + 1).
(** f is the population as a function of the energy (of the temperature) around a point *)
Definition populationOfEnergy (s : particle) (T mu e : R) (f : R -> R) : Prop :=
  exists d, 0 < d /\ forall x, Rabs (x - e) < d -> getPopulation s x T mu = Fin (f x).
Definition populationOfTemperature (s : particle) (T mu e : R) (f : R -> R) : Prop :=
  exists d, 0 < d /\ forall x, Rabs (x - T) < d -> getPopulation s e x mu = Fin (f x).
