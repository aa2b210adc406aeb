(** Specification of the operations on observables. *)
From Coq Require Import Reals.
From Verif Require Import Base M_delta M_observable.
Open Scope Z_scope.

(** Cartesian components of one calculation *)
Definition isIndex (r : nat) (d : Z) (idx : list Z) : Prop := length idx = r /\ forall i, In i idx -> 0 <= i < d.
(** an observable whose array has the sizes it says *)
Definition wellFormed (a : observable) : Prop :=
  0 <= oCalcs a /\ 0 < oDim a /\ tCalcs (oData a) = oCalcs a /\ tDim (oData a) = oDim a /\ tRank (oData a) = whichType (oClass a).
(** it still agrees with the crystal and the sweep it was made for *)
Definition current (w : world) (a : observable) : Prop :=
  crystals w (oCrystal a) = oDim a /\ sweeps w (oSweep a) = (oMus a, oTemps a) /\ oCalcs a = oMus a * oTemps a.
Definition value (a : observable) (c : Z) (idx : list Z) : R := tVal (oData a) c idx.
(** square root of the sum of the squares of all components *)
Definition frobenius (r : nat) (d : Z) (v : list Z -> R) : R := sqrt (rsum (map (fun idx => v idx * v idx)%R (indices r d))).
