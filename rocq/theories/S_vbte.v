(** Vocabulary of the properties of vectors of populations. *)
From Coq Require Import QArith Qcanon.
From Verif Require Import Base M_matrix M_vbte.
Open Scope Z_scope.

Definition sameShape (v w : vbte) : Prop :=
  vCalc v = vCalc w /\ vMu v = vMu w /\ vTemp v = vTemp w /\ vDim v = vDim w /\ vN v = vN w /\ vExcl v = vExcl w.
(** as built by the constructor from a sweep with one calculation per temperature and chemical potential *)
Definition consistent (v : vbte) : Prop := 0 < vMu v /\ 0 < vTemp v /\ 0 < vDim v /\ 0 <= vN v /\ vCalc v = vMu v * vTemp v /\ vRows v <= INT_MAX.
Definition inRange (v : vbte) (iCalc d s : Z) : Prop := 0 <= iCalc < vCalc v /\ 0 <= d < vDim v /\ 0 <= s < vN v.
Definition excluded (v : vbte) (s : Z) : Prop := In s (vExcl v).
(** transpose times matrix is the identity *)
Definition orthogonal (R : Z -> Z -> Qc) : Prop := forall j k, 0 <= j < 3 -> 0 <= k < 3 ->
  (R 0%Z j * R 0%Z k + R 1%Z j * R 1%Z k + R 2%Z j * R 2%Z k)%Qc = if j =? k then 1%Qc else 0%Qc.
Definition dot3 (x y : Z -> Qc) : Qc := (x 0%Z * y 0%Z + x 1%Z * y 1%Z + x 2%Z * y 2%Z)%Qc.
(** n times x *)
Definition times (n : nat) (x : Qc) : Qc := qsum (repeat x n).
