(** Complex numbers as pairs of reals: std::complex<double> and Kokkos::complex<double> without rounding
    (used for Hamiltonians, eigenvectors and couplings). *)
From Coq Require Import Reals.
From Verif Require Import Base.
Local Open Scope R_scope.

Definition cplx : Type := R * R.
Definition c0 : cplx := (0, 0).
Definition c1 : cplx := (1, 0).
Definition cI : cplx := (0, 1).
Definition cadd (a b : cplx) : cplx := (fst a + fst b, snd a + snd b).
Definition copp (a : cplx) : cplx := (- fst a, - snd a).
Definition csub (a b : cplx) : cplx := (fst a - fst b, snd a - snd b).
Definition cmul (a b : cplx) : cplx := (fst a * fst b - snd a * snd b, fst a * snd b + snd a * fst b).
Definition cconj (a : cplx) : cplx := (fst a, - snd a).
(** product by a real number; a / r is [cscale (/ r) a] *)
Definition cscale (r : R) (a : cplx) : cplx := (r * fst a, r * snd a).
(** {cos(x), sin(x)} *)
Definition cexpi (x : R) : cplx := (cos x, sin x).
(** tmp.real()*tmp.real() + tmp.imag()*tmp.imag() *)
Definition cnorm2 (a : cplx) : R := fst a * fst a + snd a * snd a.

Declare Scope cplx_scope.
Delimit Scope cplx_scope with C.
Infix "+" := cadd : cplx_scope.
Infix "-" := csub : cplx_scope.
Infix "*" := cmul : cplx_scope.
Notation "- a" := (copp a) : cplx_scope.

Definition csum (l : list cplx) : cplx := fold_right cadd c0 l.
(** for (i = 0; i < n; i++) tmp += f(i) *)
Definition csumTo (n : Z) (f : Z -> cplx) : cplx := csum (map f (zrange 0 n)).

(** vectors of three coordinates *)
Definition vec : Type := Z -> R.
Definition dot3 (a b : vec) : R := a 0%Z * b 0%Z + a 1%Z * b 1%Z + a 2%Z * b 2%Z.
Definition vadd (a b : vec) : vec := fun i => a i + b i.
Definition vopp (a : vec) : vec := fun i => - a i.
Definition v3r (x y z : R) : vec := fun i => if (i =? 0)%Z then x else if (i =? 1)%Z then y else z.

(** matrices, rows and columns 0 ... n-1 *)
Definition cmat : Type := Z -> Z -> cplx.
Definition adjoint (A : cmat) : cmat := fun i j => cconj (A j i).
Definition matMul (n : Z) (A B : cmat) : cmat := fun i j => csumTo n (fun l => cmul (A i l) (B l j)).
