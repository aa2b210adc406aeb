(** Specification for C156. *)
From Coq Require Import QArith String Ascii.
From Verif Require Import Base M_context M_startup.
Open Scope Z_scope.

(** every process has made its last call *)
Definition ended (s : system) : Prop := forall p, In p (fst s) -> p = [].
Definition blocked (s : system) : Prop := ~ ended s /\ forall t, ~ step s t.
(** the collective calls and the lines of one process *)
Fixpoint calls (l : list event) : list coll := match l with [] => [] | Print _ :: r => calls r | Collective c :: r => c :: calls r end.
Fixpoint lines (l : list event) : list str := match l with [] => [] | Collective _ :: r => lines r | Print m :: r => m :: lines r end.
(** number of events that are left *)
Definition left (s : system) : nat := list_sum (map (@length event) (fst s)).
(** whatever the schedule, all processes end: no schedule is longer than the number of events, and none gets stuck before the end *)
Definition alwaysEnds (s : system) : Prop := forall n t, steps n s t -> (n <= left s)%nat /\ (ended t \/ exists u, step t u).
Definition str_dec (a b : str) : {a = b} + {a <> b} := list_eq_dec ascii_dec a b.
(** an input that must be refused *)
Definition refused (i : input) : Prop := useSymmetries i = true /\ (In (str! "variational") (solverBTE i) \/ In (str! "relaxons") (solverBTE i)).
(** an even number of points; a mesh that was not set has none *)
Definition evenPoints (m : Z * Z * Z) : Prop := let '(a, b, c) := m in a * b * c <> 0 /\ Z.Even (a * b * c).
(** the warnings an input deserves *)
Definition warned (i : input) (message : str) : Prop :=
  (message = str! "Relaxons solver should be run with an odd points mesh for reasons of eigenvector parity." /\
     In (str! "relaxons") (solverBTE i) /\ (evenPoints (qMeshOf i) \/ evenPoints (kMeshOf i))) \/
  (message = str! "Adaptive smearing can cause problems with the quality of the scattering matrix" /\ In (str! "relaxons") (solverBTE i) /\ smearing i = 1) \/
  (message = str! "You have set dimensionality = 2 but not the thickness input parameter." /\ dimension i = 2 /\ thicknessUnset i = true).
