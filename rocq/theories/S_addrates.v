(** Vocabulary: the transport equation of phonons with an additional decay rate. *)
From Coq Require Import QArith Qcanon.
From Verif Require Import Base M_matrix M_scattering M_solver S_solver.
Open Scope Z_scope.

(** (A f)(s) + n(n+1) ph(s) f(s) = b(s): every state also decays with rate [ph] *)
Definition solvesWith (P : problem) (ph : Z -> Z -> Qc) (c : Z) (f b : Z -> Qc) : Prop :=
  forall s, active P s -> (product P c f s + pPop P c s * ph c s * f s = b s)%Qc.
(** an iteration leaves the population as it is *)
Definition unchanged (P : problem) (next : field -> field) (f : field) (c i : Z) : Prop := forall s, active P s -> next f c i s = f c i s.
(** zero at excluded states *)
Definition confined (P : problem) (f : field) (c i : Z) : Prop := forall s, 0 <= s < pN P -> ~ active P s -> f c i s = 0%Qc.
