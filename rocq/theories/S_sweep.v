(** Vocabulary of the properties of the sweep over temperatures and chemical potentials. *)
From Coq Require Import Reals.
From Verif Require Import Base M_particle S_particle M_delta.
Open Scope R_scope.

(** occupation of a state: Fermi-Dirac, a step at zero temperature *)
Definition occupation (temp mu e : R) : R := if Rle_dec temp 0 then (if Rle_dec e mu then 1 else 0) else fermiDirac ((e - mu) / temp).
(** all energies held by processes and threads *)
Definition allStates (ranks : list (list (list R))) : list R := concat (concat ranks).
(** electrons per cell *)
Definition electronCount (states : list R) (numPoints temp mu : R) : R := rsum (map (occupation temp mu) states) / numPoints.
(** arithmetic progression of n terms *)
Definition progression (lo delta : R) (n : nat) : list R := map (fun i => lo + INR i * delta) (seq 0 n).
(** c is where the non-increasing function f changes sign, up to delta *)
Definition crossing (f : R -> R) (delta c : R) : Prop := f c = 0 \/ exists a b, a < c /\ c < b /\ b - c < delta /\ c - a < delta /\ 0 <= f a /\ f b <= 0.
