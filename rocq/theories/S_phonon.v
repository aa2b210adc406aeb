(** What is expected of interpolated phonons, without reference to the code that computes them. *)
From Coq Require Import Reals QArith Qreals.
From Verif Require Import Base M_complex M_electron S_electron M_phonon.
Open Scope Z_scope.

Definition gridPositive (P : phonon) : Prop := 0 < grid P 0 /\ 0 < grid P 1 /\ 0 < grid P 2.
Definition gridCells (P : phonon) : list (Z * Z * Z) := list_prod (list_prod (zrange 0 (grid P 0)) (zrange 0 (grid P 1))) (zrange 0 (grid P 2)).
(** position of the cell (n1, n2, n3) in the table of force constants, periodic over the supercell *)
Definition wrap (P : phonon) (n : Z * Z * Z) : Z * Z * Z := let '(n1, n2, n3) := n in (n1 mod grid P 0, n2 mod grid P 1, n3 mod grid P 2).
Definition forceAt (P : phonon) (i j : Z) (n : Z * Z * Z) (a b : Z) : R := let '(m1, m2, m3) := wrap P n in force P i j m1 m2 m3 a b.
Definition opp3z (n : Z * Z * Z) : Z * Z * Z := let '(n1, n2, n3) := n in (- n1, - n2, - n3).
(** force of b on a = force of a on b *)
Definition SymmetricForce (P : phonon) : Prop :=
  forall i j a b n, 0 <= i < 3 -> 0 <= j < 3 -> 0 <= a < nAt P -> 0 <= b < nAt P -> forceAt P i j n a b = forceAt P j i (opp3z n) b a.
(** no force when all atoms move together along j *)
Definition NoNetForce (P : phonon) : Prop :=
  forall i j a, 0 <= i < 3 -> 0 <= j < 3 -> 0 <= a < nAt P ->
    rsum (map (fun b => rsum (map (fun m => forceAt P i j m a b) (gridCells P))) (zrange 0 (nAt P))) = 0%R.
(** weight given to the pair of atoms a (in the cell n) and b (in the cell 0), and the lattice vector of the cell *)
Definition weightAt (P : phonon) (n : Z * Z * Z) (a b : Z) : R := let '(n1, n2, n3) := n in Q2R (wsCache P n1 n2 n3 b a).
Definition latticeAt (P : phonon) (n : Z * Z * Z) : vec :=
  let '(n1, n2, n3) := n in fun i => (IZR n1 * Q2R (cell P 0 i) + IZR n2 * Q2R (cell P 1 i) + IZR n3 * Q2R (cell P 2 i))%R.
(** the periodic images of each pair share a total weight of one *)
Definition eq3 (m n : Z * Z * Z) : bool := let '(a, b, c) := m in let '(x, y, z) := n in (a =? x) && (b =? y) && (c =? z).
Definition WeightsOne (P : phonon) : Prop :=
  forall a b m, 0 <= a < nAt P -> 0 <= b < nAt P -> In m (gridCells P) ->
    rsum (map (fun n => weightAt P n a b) (filter (fun n => eq3 (wrap P n) m) (cellsBig P))) = 1%R.
(** Fourier transform of the force constants over the images of each pair *)
Definition fourier (P : phonon) (q : vec) (i j a b : Z) : cplx :=
  csum (map (fun n => cscale (weightAt P n a b * forceAt P i j n a b) (cexpi (- dot3 q (latticeAt P n)))) (cellsBig P)).
(** G is a vector of the reciprocal lattice *)
Definition Reciprocal (P : phonon) (G : vec) : Prop := forall c, 0 <= c < 3 -> exists z, dot3 G (toR (cell P c)) = (2 * PI * IZR z)%R.
Definition mulVec (n : Z) (A : cmat) (x : Z -> cplx) (m : Z) : cplx := csumTo n (fun l => cmul (A m l) (x l)).
(** x is an eigenvector of A with eigenvalue w *)
Definition EigenPair (n : Z) (A : cmat) (w : R) (x : Z -> cplx) : Prop := forall m, 0 <= m < n -> mulVec n A x m = cscale w (x m).
(** the term of the dipole-dipole interaction of wavevector g (Gonze and Lee 1997, in Rydberg units, e^2 = 2):
    4 pi e^2 / V exp(- g.eps.g / 4) (g.Z_a)_i (g.Z_b)_j / (g.eps.g) exp(i g.(tau_a - tau_b)) *)
Definition dipoleTerm (P : phonon) (g : vec) (i j a b : Z) : cplx :=
  cscale (4 * PI * 2 / vol P * exp (- quad (eps P) g / 4) / quad (eps P) g * (gZ P g i a * gZ P g j b)) (cexpi (dot3 g (fun k => Q2R (tau P a k) - Q2R (tau P b k))%R)).
(** all atoms moved by the same amount along direction j, in the coordinates scaled by the square roots of the masses *)
Definition translation (P : phonon) (j : Z) : Z -> cplx := fun n => if n mod 3 =? j then (sqrt (mass P (n / 3)), 0%R) else c0.
Definition vzero : vec := fun _ => 0%R.
Definition NeutralCharges (P : phonon) : Prop := forall k i, 0 <= k < 3 -> 0 <= i < 3 -> rsum (map (fun a => born P a k i) (zrange 0 (nAt P))) = 0%R.
Definition MassesPositive (P : phonon) : Prop := forall a, 0 <= a < nAt P -> (0 < mass P a)%R.
Definition diagR (e : Z -> R) : cmat := fun i j => if i =? j then (e i, 0%R) else c0.
