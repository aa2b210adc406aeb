(** Vocabulary: linear response. *)
From Coq Require Import QArith Qcanon.
From Verif Require Import Base M_matrix M_vbte M_onsager.
Open Scope Z_scope.

Definition sumTo (d : Z) (f : Z -> Qc) : Qc := qsum (map f (zrange 0 d)).
Definition isSymmetric (d : Z) (a : mat) : Prop := forall i j, 0 <= i < d -> 0 <= j < d -> a i j = a j i.
Definition isInverse (d : Z) (a x : mat) : Prop := forall i j, 0 <= i < d -> 0 <= j < d ->
  sumTo d (fun k => a i k * x k j)%Qc = (if i =? j then 1 else 0)%Qc /\ sumTo d (fun k => x i k * a k j)%Qc = (if i =? j then 1 else 0)%Qc.
(** particle and heat currents along j due to a force e and a temperature gradient g; the first index of the coefficients is that of
    the force *)
Definition current (d : Z) (o : onsager) (e g : Z -> Qc) (j : Z) : Qc := (sumTo d (fun i => e i * LEE o i j) + sumTo d (fun i => g i * LET o i j))%Qc.
Definition heat (d : Z) (o : onsager) (e g : Z -> Qc) (j : Z) : Qc := (sumTo d (fun i => e i * LTE o i j) + sumTo d (fun i => g i * LTT o i j))%Qc.
(** the force that a Seebeck tensor sets against the gradient *)
Definition counterForce (d : Z) (seebeck : mat) (g : Z -> Qc) (i : Z) : Qc := (- sumTo d (fun k => seebeck i k * g k))%Qc.
(** the states of the full zone: every state with every rotation of its star *)
Definition fullStates (ranks : list (list (list irrState))) : list (irrState * mat) :=
  flat_map (fun s => map (fun r => (s, r)) (oRots s)) (concat (concat ranks)).
(** the populations of the relaxation time approximation at temperature T: weight = tau n(1-n) / T *)
Definition rtaPopulations (T mu : Qc) (weight : irrState -> Qc) (s : irrState) : Prop :=
  forall i, 0 <= i < 3 -> oNE s i = (weight s * oVel s i)%Qc /\ oNT s i = (- (weight s * ((oEn s - mu) / T) * oVel s i))%Qc.
Definition rotated (r : mat) (v : Z -> Qc) (i : Z) : Qc := (r i 0%Z * v 0%Z + r i 1%Z * v 1%Z + r i 2%Z * v 2%Z)%Qc.
