From Coq Require Import Reals.
From Verif Require Import Base M_complex M_particle M_delta M_isotope.
Open Scope R_scope.

(** |e1* . e2|^2 of the displacements of one atom *)
Definition scalarProduct2 (e1 e2 : Z -> cplx) : R :=
  let re k := fst (e1 k) * fst (e2 k) + snd (e1 k) * snd (e2 k) in
  let im k := fst (e1 k) * snd (e2 k) - snd (e1 k) * fst (e2 k) in
  (re 0%Z + re 1%Z + re 2%Z) ^ 2 + (im 0%Z + im 1%Z + im 2%Z) ^ 2.
(** pi/2 w1 w2 sum over atoms of g |e1* . e2|^2 delta / N, with eigenvectors of the dynamical matrix *)
Definition tamura (couplings : list R) (w1 w2 : Z -> Z -> cplx) (norm e1 e2 delta : R) : R :=
  PI / 2 * norm * e1 * e2 * delta * rsum (map (fun p => snd p * scalarProduct2 (fun k => w1 k (fst p)) (fun k => w2 k (fst p))) (combine (zrange 0 (zlen couplings)) couplings)).
(** displacements: eigenvectors divided by the square roots of the masses *)
Definition displacement (masses : list R) (w : Z -> Z -> cplx) : Z -> Z -> cplx :=
  fun k iat => match zget masses iat with Some m => cscale (/ sqrt m) (w k iat) | None => c0 end.
(** mean of the smearing of the two states *)
Definition meanAdaptive (q0 q1 q2 : M_delta.vec) (cutoff : R) (s1 s2 : mode) : R :=
  (adaptiveSmearing q0 q1 q2 cutoff (mEn s1 - mEn s2) (mVel s1) + adaptiveSmearing q0 q1 q2 cutoff (mEn s1 - mEn s2) (mVel s2)) / 2.
