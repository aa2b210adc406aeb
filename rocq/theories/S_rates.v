(** Vocabulary of the conservation laws of the transition rates: values of a quantity exchanged by a list of events. *)
From Coq Require Import QArith Qcanon.
From Verif Require Import Base M_matrix S_matrix M_vbte M_scattering S_scattering.
Open Scope Z_scope.

(** contribution of the events of a pair to the collision operator applied to a quantity that is [x1] on state 1 and [x2] on state 2 *)
Definition change (evs : list event) (x1 x2 : Qc) : Qc := qsum (map (fun e => evDiag e * x1 + evOff e * x2)%Qc evs).
(** Populations written with u = exp((e - mu)/2kT) and v = exp(w/2kT): Fermi-Dirac, the root of f(1-f), Bose-Einstein and 1/(2 sinh(w/2kT)) *)
Definition fd (u : Qc) : Qc := (1 / (u * u + 1))%Qc.
Definition fdRoot (u : Qc) : Qc := (u / (u * u + 1))%Qc.
Definition be (v : Qc) : Qc := (1 / (v * v - 1))%Qc.
Definition halfInvSinh (v : Qc) : Qc := (v / (v * v - 1))%Qc.
(** every term of the in-scattering, whatever the states: rotated population times the off-diagonal rate *)
Definition inScattering (x : Z -> Z -> Qc) (i : Z) (e : event) : Qc := (evOff e * rotate (evRot e) (fun j => x j (evBte2 e)) i)%Qc.
(** the linearised collision operator: what leaves the state plus everything that comes in *)
Definition fullProduct (excl : list Z) (bnd : Z -> Qc) (es : list event) (x : Z -> Z -> Qc) (i b : Z) : Qc :=
  if isIn excl b then 0%Qc else
  (rateOut es b * x i b + bnd b * x i b + qsum (map (inScattering x i) (filter (fun e => evBte1 e =? b) es)))%Qc.
(** the same transition in a run on the whole grid and in a run on the irreducible points: same rates, same population of the second state *)
Definition sameTransition (x x' : Z -> Z -> Qc) (e e' : event) : Prop :=
  evDiag e = evDiag e' /\ forall i, 0 <= i < 3 -> inScattering x i e = inScattering x' i e'.
(** transitions out of state b *)
Definition from (b : Z) (es : list event) : list event := filter (fun e => evBte1 e =? b) es.
(** the second state is an image of the first one under a symmetry *)
Definition withinStar (e : event) : Prop := evIs1 e = evIs2Irr e.
