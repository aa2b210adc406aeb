(** Vocabulary of the properties of the couplings: direct sums, one term for each combination of indices. *)
From Coq Require Import Reals QArith Qreals.
From Verif Require Import Base M_utilities M_complex M_electron S_electron M_phonon S_phonon M_interaction.
Open Scope Z_scope.

(** Matrix element of the third derivative of the energy between phonons with displacements e1, e2, e3 (conjugated):
    sum over Cartesian components and lattice vectors of w2 w3 D3 exp(i s q2.R2 - i (q1 + s q2).R3) e1 e2 conj(e3), s = 1 or -1 *)
Definition amplitude (T : ifc3) (w3 : Z -> Z -> Z -> R) (s : R) (q1 q2 : vec) (e1 e2 e3 : Z -> cplx) : cplx :=
  csumTo (3 * cAt T) (fun i3 => csumTo (3 * cAt T) (fun i2 => csumTo (3 * cAt T) (fun i1 => csumTo (nr3 T) (fun r3 => csumTo (nr2 T) (fun r2 =>
    cmul (cscale (wt2 T r2 (i1 / 3) (i2 / 3) * w3 r3 (i1 / 3) (i3 / 3) * d3 T i1 i2 i3 r3 r2)
      (cexpi (s * dot3 q2 (pos2 T r2) - dot3 (fun i => (q1 i + s * q2 i)%R) (pos3 T r3))))
      (cmul (cmul (e1 i1) (e2 i2)) (cconj (e3 i3)))))))).
Definition column (ev : cmat) (b : Z) : Z -> cplx := fun i => ev i b.
Definition conjOf (e : Z -> cplx) : Z -> cplx := fun i => cconj (e i).
(** every weight of the third lattice vector is 0 or 1 *)
Definition WeightsOneOrZero (T : ifc3) : Prop := forall r a b, wt3 T r a b = 0%R \/ wt3 T r a b = 1%R.
(** band b of the eigenvectors is inside the tensor *)
Definition inside (dims : Z * Z * Z) (b1 b2 b3 : Z) : Prop := 0 <= b1 < fst (fst dims) /\ 0 <= b2 < snd (fst dims) /\ 0 <= b3 < snd dims.
(** other choice of the eigenvectors of bands s, ..., s+n-1: combinations with a unitary matrix *)
Definition mixed (s n : Z) (U : cmat) (ev : cmat) : cmat :=
  fun i b => if (s <=? b) && (b <? s + n) then csumTo n (fun c => cmul (ev i (s + c)) (U c (b - s))) else ev i b.
Definition bandSum (s n : Z) (f : Z -> R) : R := rsum (map f (zrange s n)).
(** translations: the same displacement of every atom *)
Definition uniform (t : Z -> cplx) : Z -> cplx := fun i => t (i mod 3).
(** the force constants do not change when all second atoms move together *)
Definition TranslationInvariant2 (T : ifc3) : Prop := forall i1 i3 r3 j, 0 <= i1 < 3 * cAt T -> 0 <= i3 < 3 * cAt T -> 0 <= r3 < nr3 T -> 0 <= j < 3 ->
  rsum (map (fun a => rsum (map (fun r2 => wt2 T r2 (i1 / 3) a * d3 T i1 (3 * a + j) i3 r3 r2)%R (zrange 0 (nr2 T)))) (zrange 0 (cAt T))) = 0%R.

(** * Triplets *)
(** positions are equal or farther than the tolerance *)
Definition Separated (ps : list q3) : Prop := forall x y, In x ps -> In y ps -> closeTo x y = true -> q3eqb x y = true.
Definition AtomsInside (nA : Z) (ts : list triplet) : Prop := forall t, In t ts -> 0 <= ta1 t < nA /\ 0 <= ta2 t < nA /\ 0 <= ta3 t < nA.

(** * Electron-phonon *)
(** sum over Wannier functions, modes and pairs of lattice vectors of g exp(i k.Re) exp(i q.Rp) / (degeneracies), between conj(e2) and e1, with displacement e3 *)
Definition elphAmplitude (nw nph np : Z) (Rp : Z -> vec) (dp : Z -> R) (tensor : list elVector) (k q : vec) (e1 e2 e3 : Z -> cplx) : cplx :=
  csumTo nw (fun w2 => csumTo nph (fun nu => csumTo np (fun p => csumTo nw (fun w1 => csum (map (fun v =>
    cmul (cscale (/ eDeg v * / dp p) (cexpi (dot3 k (eR v) + dot3 q (Rp p)))) (cmul (eG v p nu w1 w2) (cmul (cmul (e1 w1) (cconj (e2 w2))) (e3 nu)))) tensor))))).
(** <e2|e1> *)
Definition overlap (nw : Z) (e2 e1 : Z -> cplx) : cplx := csumTo nw (fun w => cmul (cconj (e2 w)) (e1 w)).
(** the last triplet of the file for these cells and atoms *)
Definition lastAt (ts : list triplet) (p2 p3 : q3) (a1 a2 a3 : Z) : option triplet :=
  find (fun t => q3eqb (tp2 t) p2 && q3eqb (tp3 t) p3 && (ta1 t =? a1) && (ta2 t =? a2) && (ta3 t =? a3)) (rev ts).
(** l lists the values of ps without repetitions *)
Definition distinctOf (ps l : list q3) : Prop :=
  (forall x, In x l -> In x ps) /\ (forall x, In x ps -> exists y, In y l /\ q3eqb x y = true) /\
  forall i j x y, zget l i = Some x -> zget l j = Some y -> q3eqb x y = true -> i = j.

(** vectors q + m1 b1 + m2 b2 + m3 b3, |m1|, |m2|, |m3| not above the coarse grid *)
Definition boxVectors (H : phonon) (q : vec) : list vec :=
  map (fun m => fun i => (IZR (fst (fst m)) * recip H 0 i + IZR (snd (fst m)) * recip H 1 i + IZR (snd m) * recip H 2 i + q i)%R)
    (list_prod (list_prod (zrange (- grid H 0) (2 * grid H 0 + 1)) (zrange (- grid H 1) (2 * grid H 1 + 1))) (zrange (- grid H 2) (2 * grid H 2 + 1))).
(** Froehlich coupling of the displacement e (doi 10.1103/PhysRevLett.115.176401, Eq. 4) on the vectors q + G of the box and inside the cutoff, e^2 = 2 in
    Rydberg units: i (4 pi e^2 / V) sum of exp(- g.eps.g / 4) / (g.eps.g) (g.Z) exp(- i g.tau) e *)
Definition froehlich (H : phonon) (q : vec) (e : Z -> cplx) : cplx :=
  csum (map (fun g => if Rlt_dec 0 (quad (eps H) g) then if Rlt_dec (quad (eps H) g / 4) 14 then
    csumTo (nAt H) (fun a => csumTo 3 (fun p => cmul (cmul cI (cscale (4 * PI * 2 / vol H * (exp (- quad (eps H) g / 4) / quad (eps H) g) * gZ H g p a) (cexpi (- dot3 g (toR (tau H a)))))) (e (3 * a + p))))
    else c0 else c0) (boxVectors H q)).
(** eigenvectors with other phases, conjugate eigenvectors *)
Definition phased (u : Z -> cplx) (ev : cmat) : cmat := fun i b => cmul (u b) (ev i b).
Definition conjMat (ev : cmat) : cmat := fun i b => cconj (ev i b).
(** G.R is a multiple of 2 pi for every cell R *)
Definition Reciprocal (T : ifc3) (G : vec) : Prop :=
  exists n2 n3 : Z -> Z, (forall r, 0 <= r < nr2 T -> dot3 G (pos2 T r) = (2 * PI * IZR (n2 r))%R) /\ forall r, 0 <= r < nr3 T -> dot3 G (pos3 T r) = (2 * PI * IZR (n3 r))%R.
(** coupling of one final point, with the long range coefficients of the modes *)
Definition coupling (E : elph) (H : phonon) (polar : bool) (k : vec) (ev1 : cmat) (q : vec) (ev2 ev3 : cmat) (b1 b2 nu : Z) : R :=
  match calcCouplingSquared E polar k ev1 [{| fQ := q; fEv2 := ev2; fEv3 := ev3; fX := polarPart1 H q ev3 |}] with [g] => g b1 b2 nu | _ => 0%R end.
