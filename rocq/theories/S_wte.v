(** What is expected of the interband terms of the Wigner transport equation, without reference to the loops of the code. *)
From Coq Require Import Reals.
From Verif Require Import Base M_complex M_phonon M_particle M_wte.
Open Scope Z_scope.

(** the velocity operator is Hermitian *)
Definition HermitianVelocity (p : wPoint) : Prop :=
  forall b1 b2 c, 0 <= b1 < wNb p -> 0 <= b2 < wNb p -> 0 <= c < 3 -> wVel p b2 b1 c = cconj (wVel p b1 b2 c).
(** the same wavevector with eigenvectors multiplied by phases u *)
Definition rephased (u : Z -> cplx) (p : wPoint) : wPoint :=
  {| wNb := wNb p; wEn := wEn p; wVel := fun b1 b2 c => cmul (cmul (cconj (u b1)) (wVel p b1 b2 c)) (u b2); wRate := wRate p; wRots := wRots p |}.
(** the wavevector -k of a crystal with time reversal symmetry *)
Definition reversed (p : wPoint) : wPoint :=
  {| wNb := wNb p; wEn := wEn p; wVel := fun b1 b2 c => copp (cconj (wVel p b1 b2 c)); wRate := wRate p; wRots := wRots p |}.
(** two bands of a wavevector that have equal energies *)
Definition degenerate (p : wPoint) : Prop := exists b1 b2, 0 <= b1 < wNb p /\ 0 <= b2 < wNb p /\ b1 <> b2 /\ wEn p b1 = wEn p b2.
(** two bands of a wavevector that have equal energies and infinite relaxation times *)
Definition undamped (p : wPoint) : Prop :=
  exists b1 b2, 0 <= b1 < wNb p /\ 0 <= b2 < wNb p /\ b1 <> b2 /\ wEn p b1 = wEn p b2 /\ (wRate p b1 + wRate p b2)%R = 0%R.
(** sums over directions *)
Definition over3 (f : Z -> R) : R := (f 0%Z + f 1%Z + f 2%Z)%R.
Definition form2 (t : Z -> Z -> R) (x : Z -> R) : R := over3 (fun i => over3 (fun j => x i * t i j * x j)%R).
(** all pairs of different bands *)
Definition overPairs (n : Z) (f : Z -> Z -> R) : R :=
  rsum (map (fun b1 => rsum (map (fun b2 => if b1 =? b2 then 0%R else f b1 b2) (zrange 0 n))) (zrange 0 n)).
(** heat capacity of a mode: e d n/d T times T^2, with n the Bose-Einstein function; no weight below the cutoff *)
Definition heatOf (cut temp e : R) : R := if Rlt_dec e cut then 0%R else let n := (/ (exp (e / temp) - 1))%R in (e * n * (n + 1))%R.
(** Lorentzian of the difference of energies *)
Definition lorentz (p : wPoint) (b1 b2 : Z) : R :=
  let g := (wRate p b1 + wRate p b2)%R in (g / (4 * ((wEn p b1 - wEn p b2) * (wEn p b1 - wEn p b2)) + g * g))%R.
(** real part of the product of the rotated velocities *)
Definition velProduct (r : Z -> Z -> R) (p : wPoint) (c1 c2 b1 b2 : Z) : R :=
  over3 (fun i => over3 (fun j => (r c1 i * r c2 j * fst (cmul (wVel p b1 b2 i) (wVel p b2 b1 j)))%R)).
(** Fermi-Dirac function and its derivative with respect to temperature *)
Definition fermi (temp mu e : R) : R := (/ (exp ((e - mu) / temp) + 1))%R.
Definition fermiT (temp mu e : R) : R := (fermi temp mu e * (1 - fermi temp mu e) * (e - mu) / (temp * temp))%R.
(** finite difference of the Fermi-Dirac function between two bands *)
Definition slope (temp mu : R) (p : wPoint) (b1 b2 : Z) : R := ((fermi temp mu (wEn p b1) - fermi temp mu (wEn p b2)) / (wEn p b1 - wEn p b2))%R.
(** real part of v_12 v_21 / (rates - 2 i (e1 - e2)) *)
Definition response (p : wPoint) (c1 c2 b1 b2 : Z) : R :=
  let g := (wRate p b1 + wRate p b2)%R in let d := (2 * (wEn p b1 - wEn p b2))%R in
  let z := cmul (wVel p b1 b2 c1) (wVel p b2 b1 c2) in ((fst z * g - snd z * d) / (g * g + d * d))%R.
(** the conductivity due to pairs of bands: mean energy, heat capacities, velocities, Lorentzian; [norm] has the volume and T^2 *)
Definition heatTerm (cut temp norm : R) (p : wPoint) (r : Z -> Z -> R) (c1 c2 b1 b2 : Z) : R :=
  (norm * ((wEn p b1 + wEn p b2) * velProduct r p c1 c2 b1 b2 * (heatOf cut temp (wEn p b1) + heatOf cut temp (wEn p b2)) * lorentz p b1 b2))%R.
Definition interbandHeat (cut temp norm : R) (points : list wPoint) (c1 c2 : Z) : R :=
  rsum (map (fun p => rsum (map (fun r => overPairs (wNb p) (heatTerm cut temp norm p r c1 c2)) (wRots p))) points).
(** sum over wavevectors and pairs of bands of weight times response *)
Definition interband (w : wPoint -> Z -> Z -> R) (points : list wPoint) (c1 c2 : Z) : R :=
  rsum (map (fun p => overPairs (wNb p) (fun b1 b2 => w p b1 b2 * response p c1 c2 b1 b2)%R) points).
(** the part of a single band, for the same wavevector: heat conductivity, with [norm] = 1/(N V T^2) *)
Definition intrabandHeat (cut temp norm : R) (p : wPoint) (r : Z -> Z -> R) (c1 c2 : Z) : R :=
  rsum (map (fun b => norm * (wEn p b * heatOf cut temp (wEn p b) / wRate p b * velProduct r p c1 c2 b b))%R (zrange 0 (wNb p))).
(** and L_ET: populations - v tau df/dT times velocities, with [norm] = spin/(N V) *)
Definition intrabandLET (temp mu norm : R) (p : wPoint) (c1 c2 : Z) : R :=
  rsum (map (fun b => - (norm * (fermiT temp mu (wEn p b) / wRate p b * (fst (wVel p b b c1) * fst (wVel p b b c2)))))%R (zrange 0 (wNb p))).
(** trace of the product of the velocity operators along two directions: does not depend on the basis of the bands *)
Definition velTrace (r : Z -> Z -> R) (p : wPoint) (c1 c2 : Z) : R :=
  rsum (map (fun b1 => rsum (map (fun b2 => velProduct r p c1 c2 b1 b2) (zrange 0 (wNb p)))) (zrange 0 (wNb p))).
(** the same wavevector in another basis of its bands *)
Definition inBasis (U : cmat) (p : wPoint) : wPoint :=
  {| wNb := wNb p; wEn := wEn p; wVel := fun b1 b2 c => matMul (wNb p) (matMul (wNb p) (adjoint U) (fun i j => wVel p i j c)) U b1 b2; wRate := wRate p; wRots := wRots p |}.
