(** Vocabulary for the accounts of the memory of the device. *)
From Verif Require Import Base M_device.

(** bytes of an allocation, and the allocations that live objects hold *)
Definition viewBytes (v : view) : Z := vElems v * vBytes v.
Definition held (d : device) (v : view) : Prop := 0 <= vId v /\ exists i o, In (i, o) (objs d) /\ In v (oViews o).
(** the sum of what the live objects say they occupy *)
Definition reported (d : device) : Z := zsum (map (fun p => usage (snd p)) (objs d)).
(** a condition on every operation of a history, in the state where it happens *)
Fixpoint everyStep (P : device -> op -> bool) (ops : list op) (d : device) : Prop :=
  match ops with
  | [] => True
  | o :: r => P d o = true /\ forall d', step d o = Ok d' -> everyStep P r d'
  end.
(** electron-phonon interactions are neither copied nor assigned, except from the temporary of parse *)
Definition noSharing (d : device) (o : op) : bool :=
  match o with
  | OCopy i | OAssign i _ => match lookup i (objs d) with Some x => negb (kindEq (oKind x) KElPh) | None => true end
  | _ => true
  end.
(** besides, Hamiltonians are not assigned *)
Definition noAssignment (d : device) (o : op) : bool :=
  noSharing d o && match o with OAssign _ _ => false | _ => true end.
