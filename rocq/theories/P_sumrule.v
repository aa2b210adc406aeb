(** Property theorems for the acoustic sum rules: C79 (simple rule, charges), C80 (crystal rule on force constants). *)
From Coq Require Import QArith Qcanon String Ascii.
From Verif Require Import Base M_context M_sumrule S_sumrule L_sumrule L_sumrule2.
From Coq Require Import Lia.
Open Scope string_scope.
Open Scope list_scope.
Open Scope Z_scope.

(** C79. After the simple rule a rigid translation of the crystal gives no force on any atom; only on-site elements change, and nothing
    changes if the rule was obeyed already. *)
Theorem C79_forces : forall nr1 nr2 nr3 nAt f i j na, 0 < nr1 -> 0 < nr2 -> 0 < nr3 -> 0 <= i < 3 -> 0 <= j < 3 -> 0 <= na < nAt ->
  netForce nr1 nr2 nr3 nAt (simpleForces nr1 nr2 nr3 nAt f) i j na = 0%Qc.
Proof. exact simple_zero. Qed.
Print Assumptions C79_forces.
Theorem C79_others_unchanged : forall nr1 nr2 nr3 nAt f x, (forall i j na, 0 <= i < 3 -> 0 <= j < 3 -> 0 <= na < nAt -> x <> (0, 0, 0, i, j, na, na)) ->
  simpleForces nr1 nr2 nr3 nAt f x = f x.
Proof. exact simple_others. Qed.
Print Assumptions C79_others_unchanged.
Theorem C79_idempotent : forall nr1 nr2 nr3 nAt f, (forall i j na, 0 <= i < 3 -> 0 <= j < 3 -> 0 <= na < nAt -> netForce nr1 nr2 nr3 nAt f i j na = 0%Qc) ->
  forall x, simpleForces nr1 nr2 nr3 nAt f x = f x.
Proof. exact simple_fixed. Qed.
Print Assumptions C79_idempotent.
(** After either rule the Born charges of the cell add up to zero; the charges of both rules are the same. *)
Theorem C79_charges_simple : forall nAt z i j, 0 < nAt -> netCharge nAt (simpleCharges nAt z) i j = 0%Qc.
Proof. exact simpleCharges_sum. Qed.
Print Assumptions C79_charges_simple.
Theorem C79_charges_crystal : forall nAt, 0 < nAt -> forall z i j, 0 <= i < 3 -> 0 <= j < 3 -> netCharge nAt (crystalCharges nAt z) i j = 0%Qc.
Proof. exact crystalCharges_sum. Qed.
Print Assumptions C79_charges_crystal.
Theorem C79_charges_same : forall nAt, 0 < nAt -> forall z na i j, 0 <= i < 3 -> 0 <= j < 3 -> crystalCharges nAt z na i j = simpleCharges nAt z na i j.
Proof. exact crystal_simple. Qed.
Print Assumptions C79_charges_same.
(** names of the rules: case does not matter, nothing else is accepted *)
Theorem C79_names : forall s, parseRule s = match s with [] => Ok NoRule | _ =>
  if list_eq_dec ascii_dec (map tolower s) (list_ascii_of_string "simple") then Ok Simple
  else if list_eq_dec ascii_dec (map tolower s) (list_ascii_of_string "crystal") then Ok Crystal else Err end.
Proof.
  assert (S : forall a b, streq a b = if list_eq_dec ascii_dec a b then true else false).
  { induction a as [|x a IH]; intros [|y b]; try reflexivity. cbn [streq]. rewrite IH. destruct (Ascii.eqb_spec x y) as [-> | N].
    - destruct (list_eq_dec ascii_dec a b) as [-> | N]; destruct (list_eq_dec ascii_dec (y :: _) (y :: _)) as [E | E]; try reflexivity; exfalso; [now apply E | apply N; congruence].
    - destruct (list_eq_dec ascii_dec (x :: a) (y :: b)) as [E | _]; [congruence | reflexivity]. }
  intros [|c s]; [reflexivity |]. unfold parseRule. rewrite !S. destruct (list_eq_dec _ _ _); [reflexivity |]. now destruct (list_eq_dec _ _ _).
Qed.
Print Assumptions C79_names.
Definition C79_f : fvec := fun x => let '(n1, n2, n3, i, j, na, nb) := x in Q2Qc (inject_Z (n1 + 2 * i + j + na + 3 * nb)).
Example C79_ex : this (netForce 2 1 1 2 C79_f 0 1 1) = 16%Q /\ this (simpleForces 2 1 1 2 C79_f (0, 0, 0, 0, 1, 1, 1)) = (-11)%Q /\ parseRule (list_ascii_of_string "Crystal") = Ok Crystal.
Proof. split; [vm_compute; reflexivity |]. split; [vm_compute; reflexivity | reflexivity]. Qed.

(** C80. The crystal rule gives force constants with the symmetry of a force matrix, and leaves unchanged those that have it and obey
    the sum rule ... *)
Theorem C80_symmetric_partial : forall nr1 nr2 nr3 nAt, 0 < nr1 -> 0 < nr2 -> 0 < nr3 -> forall f, symmetricForces nr1 nr2 nr3 nAt (crystalForces nr1 nr2 nr3 nAt f).
Proof. exact crystal_symmetric. Qed.
Print Assumptions C80_symmetric_partial.
Theorem C80_idempotent_partial : forall nr1 nr2 nr3 nAt, 0 < nr1 -> 0 < nr2 -> 0 < nr3 -> forall f, symmetricForces nr1 nr2 nr3 nAt f ->
  (forall i j na, 0 <= i < 3 -> 0 <= j < 3 -> 0 <= na < nAt -> netForce nr1 nr2 nr3 nAt f i j na = 0%Qc) ->
  forall x, inRange nr1 nr2 nr3 nAt x -> crystalForces nr1 nr2 nr3 nAt f x = f x.
Proof. exact crystal_kept. Qed.
Print Assumptions C80_idempotent_partial.
(** ... but it does not make a translation free of forces: the vectors of the rule are built in the order (atom, j, i) and orthogonalised as
    if they were in the order (i, j, atom). With one atom and an off-diagonal net force, the net force changes sign. *)
Theorem C80_forces_refuted : exists f, symmetricForces 1 1 1 1 f /\ netForce 1 1 1 1 f 0 1 0 = 1%Qc /\ netForce 1 1 1 1 (crystalForces 1 1 1 1 f) 0 1 0 = (- (1))%Qc.
Proof.
  exists (fun x => let '(n1, n2, n3, i, j, na, nb) := x in if ((i =? 0) && (j =? 1)) || ((i =? 1) && (j =? 0)) then 1%Qc else 0%Qc).
  split; [| split; apply Qc_is_canon; vm_compute; reflexivity].
  intros ((((((n1 & n2) & n3) & i) & j) & na) & nb) _. cbn [mirror]. rewrite orb_comm. rewrite (andb_comm (i =? 1)), (andb_comm (i =? 0)). reflexivity.
Qed.
Print Assumptions C80_forces_refuted.
(** atoms of a chain with springs: symmetric and free of net forces *)
Definition C80_f : fvec := fun x => let '(n1, n2, n3, i, j, na, nb) := x in if negb (i =? j) then 0%Qc else if n1 =? 0 then Q2Qc 2 else Q2Qc (-1).
Example C80_ex : symmetricForces 3 1 1 1 C80_f /\ netForce 3 1 1 1 C80_f 0 0 0 = 0%Qc /\ this (crystalForces 3 1 1 1 C80_f (1, 0, 0, 0, 0, 0, 0)) = (-1)%Q.
Proof.
  split; [| split; [apply Qc_is_canon; vm_compute; reflexivity | vm_compute; reflexivity]].
  intros ((((((n1 & n2) & n3) & i) & j) & na) & nb) R. unfold inRange in R. cbn [mirror]. unfold C80_f. rewrite (Z.eqb_sym j i).
  assert (n1 = 0 \/ n1 = 1 \/ n1 = 2) as [-> | [-> | ->]] by lia; reflexivity.
Qed.
