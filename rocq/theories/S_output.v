(** Specification for C145 *)
From Coq Require Import Reals.
From Verif Require Import Base M_output.
Open Scope R_scope.
(** the reduced Planck constant in eV fs, which is also its value in meV ps *)
Definition hbarEvFs : R := 662607015 / 10 ^ 42 / (2 * PI) / (16021766208 / 10 ^ 29) * 10 ^ 15.
(** one Rydberg, the unit of the calculation, in eV *)
Definition isRydbergEv (x : R) : Prop := 136056 / 10000 < x < 136058 / 10000.
