(** What is expected of interpolated electronic bands, without reference to the code. *)
From Coq Require Import Reals QArith Permutation.
From Verif Require Import Base M_complex M_electron.
Open Scope Z_scope.

Definition Hermitian (n : Z) (A : cmat) : Prop := forall i j, 0 <= i < n -> 0 <= j < n -> A i j = cconj (A j i).
Definition SameMat (n : Z) (A B : cmat) : Prop := forall i j, 0 <= i < n -> 0 <= j < n -> A i j = B i j.
Definition idMat : cmat := fun i j => if i =? j then c1 else c0.
Definition Unitary (n : Z) (U : cmat) : Prop := SameMat n (matMul n (adjoint U) U) idMat /\ SameMat n (matMul n U (adjoint U)) idMat.
Definition trace (n : Z) (A : cmat) : cplx := csumTo n (fun i => A i i).

(** the hopping matrices of a Hermitian Hamiltonian: to each lattice vector R its opposite -R, with H(-R) = H(R)^+ *)
Definition HermitianHoppings (W : wannier) (neg : Z -> Z) : Prop :=
  forall iR, 0 <= iR < nR W ->
    0 <= neg iR < nR W /\ neg (neg iR) = iR /\ (forall i, 0 <= i < 3 -> brav W (neg iR) i = (- brav W iR i)%R) /\
    degR W (neg iR) = degR W iR /\
    forall m n, 0 <= m < nW W -> 0 <= n < nW W -> h0R W (neg iR) n m = cconj (h0R W iR m n).
(** the vectors R + shift of a pair of orbitals as a list *)
Definition shiftList (W : wannier) (S : shifts) (m n iR : Z) : list (R * R * R) :=
  map (fun d => (Rplus (vecS S 0 d m n iR) (brav W iR 0), Rplus (vecS S 1 d m n iR) (brav W iR 1), Rplus (vecS S 2 d m n iR) (brav W iR 2))) (zrange 0 (degS S m n iR)).
Definition opp3 (v : R * R * R) : R * R * R := (- fst (fst v), - snd (fst v), - snd v)%R.
Definition HermitianShifts (W : wannier) (S : shifts) (neg : Z -> Z) : Prop :=
  forall iR m n, 0 <= iR < nR W -> 0 <= m < nW W -> 0 <= n < nW W ->
    degS S n m (neg iR) = degS S m n iR /\ Permutation (shiftList W S n m (neg iR)) (map opp3 (shiftList W S m n iR)).
(** G is a vector of the reciprocal lattice: G.R is a multiple of 2 pi *)
Definition ReciprocalVector (W : wannier) (G : vec) : Prop :=
  forall iR, 0 <= iR < nR W -> exists z, dot3 G (brav W iR) = (2 * PI * IZR z)%R.
Definition ReciprocalOfShifts (W : wannier) (S : shifts) (G : vec) : Prop :=
  forall iR m n d, 0 <= iR < nR W -> 0 <= m < nW W -> 0 <= n < nW W -> 0 <= d < degS S m n iR ->
    exists z, dot3 G (fun i => vecS S i d m n iR) = (2 * PI * IZR z)%R.

(** sum over R of exp(ik.R) A(R) / deg(R), and its derivative with respect to k_i *)
Definition blochSum (W : wannier) (A : Z -> cplx) (k : vec) : cplx :=
  csumTo (nR W) (fun iR => cmul (cscale (/ degR W iR) (cexpi (dot3 k (brav W iR)))) (A iR)).
Definition gradH (W : wannier) (i : Z) (k : vec) : cmat := fun m n =>
  csumTo (nR W) (fun iR => cmul (cscale (brav W iR i / degR W iR) (cmul cI (cexpi (dot3 k (brav W iR))))) (h0R W iR m n)).
Definition cabs (a : cplx) : R := sqrt (cnorm2 a).
Definition rsumTo (n : Z) (f : Z -> R) : R := fold_right Rplus 0%R (map f (zrange 0 n)).

(** the columns of X are orthonormal and diagonalise A *)
Definition Diagonalises (n : Z) (A X : cmat) : Prop :=
  Unitary n X /\ forall i j, 0 <= i < n -> 0 <= j < n -> i <> j -> matMul n (matMul n (adjoint X) A) X i j = c0.
(** the Hermitian part of the rows and columns ib, ..., ib+s-1 of v *)
Definition blockPart (v : cmat) (ib : Z) : cmat := fun i j => cscale (/ 2) (cadd (v (ib + i) (ib + j)) (cconj (v (ib + j) (ib + i)))).
(** the result of a solver depends on the entries of the matrix only *)
Definition ReadsEntries (solve : Z -> cmat -> cmat) : Prop :=
  forall n A B, SameMat n A B -> SameMat n (solve n A) (solve n B).

(** [ib, ib+s) is a maximal group of consecutive bands within thr of the first one *)
Definition Group (thr : Q) (en : Z -> Q) (nb ib s : Z) : Prop :=
  0 <= ib /\ 1 <= s /\ ib + s <= nb /\ (forall j, ib < j < ib + s -> (Qabs.Qabs (en ib - en j) <= thr)%Q) /\
  (ib + s < nb -> ~ (Qabs.Qabs (en ib - en (ib + s)%Z) <= thr)%Q).
(** positions, in a flattened table of sizes, of the groups of size iDeg *)
Definition isDeg (iDeg : Z) (counts : list Z) (p : Z) : bool := match zget counts p with Some c => c =? iDeg | None => false end.
Definition starts (iDeg : Z) (counts : list Z) : list Z := filter (isDeg iDeg counts) (zrange 0 (zlen counts)).
