(** Specification of the acoustic sum rules. *)
From Coq Require Import QArith Qcanon.
From Verif Require Import Base M_matrix S_onsager M_sumrule.
Open Scope Z_scope.

(** force on atom [na] along [i] when all atoms of the crystal move together along [j] *)
Definition netForce (nr1 nr2 nr3 nAt : Z) (f : fvec) (i j na : Z) : Qc :=
  sumTo nAt (fun nb => sumTo nr1 (fun n1 => sumTo nr2 (fun n2 => sumTo nr3 (fun n3 => f (n1, n2, n3, i, j, na, nb))))).
Definition netCharge (nAt : Z) (z : Z -> Z -> Z -> Qc) (i j : Z) : Qc := sumTo nAt (fun na => z na i j).
Definition inRange (nr1 nr2 nr3 nAt : Z) (x : fidx) : Prop :=
  let '(n1, n2, n3, i, j, na, nb) := x in 0 <= n1 < nr1 /\ 0 <= n2 < nr2 /\ 0 <= n3 < nr3 /\ 0 <= i < 3 /\ 0 <= j < 3 /\ 0 <= na < nAt /\ 0 <= nb < nAt.
(** force of b on a is the force of a on b: element (R, i, j, a, b) is element (-R, j, i, b, a), R modulo the supercell *)
Definition mirror (nr1 nr2 nr3 : Z) (x : fidx) : fidx :=
  let '(n1, n2, n3, i, j, na, nb) := x in ((- n1) mod nr1, (- n2) mod nr2, (- n3) mod nr3, j, i, nb, na).
Definition symmetricForces (nr1 nr2 nr3 nAt : Z) (f : fvec) : Prop := forall x, inRange nr1 nr2 nr3 nAt x -> f x = f (mirror nr1 nr2 nr3 x).
