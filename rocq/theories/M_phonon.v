(** Model of src/harmonic/phonon_h0.cpp and phonon_h0_kokkos.cpp: the dynamical matrix. Lattice vectors and atomic positions are doubles,
    hence rationals, so that the tests of the Wigner-Seitz cell compute; sums and tests are exact (no rounding). Diagonalisation is an
    argument of the functions that need it. *)
From Coq Require Import Reals QArith Qreals.
From Verif Require Import Base M_utilities M_complex M_electron.
Open Scope Z_scope.

Definition qvec : Type := Z -> Q.
Definition qdot (a b : qvec) : Q := (a 0%Z * b 0%Z + a 1%Z * b 1%Z + a 2%Z * b 2%Z)%Q.
Definition lin3 (A : Z -> qvec) (n1 n2 n3 : Z) : qvec :=
  fun i => (inject_Z n1 * A 0%Z i + inject_Z n2 * A 1%Z i + inject_Z n3 * A 2%Z i)%Q.
Definition toR (v : qvec) : vec := fun i => Q2R (v i).
Definition rsum (l : list R) : R := fold_right Rplus 0%R l.

(** l.20-52: data of the constructor. [cell c i] is directUnitCell(i,c), [recip c i] reciprocalUnitCell(i,c), [tau a i] atomicPositions(a,i),
    [mass a] speciesMasses(atomicSpecies(a)), [force i j m1 m2 m3 na nb] the force constants after the sum rule, [born na k i] the Born
    charges, [lr2d] the test dimensionality == 2 && longRange2d *)
Record phonon := { nAt : Z; cell : Z -> qvec; recip : Z -> vec; grid : Z -> Z; tau : Z -> qvec; mass : Z -> R;
  force : Z -> Z -> Z -> Z -> Z -> Z -> Z -> R; hasDiel : bool; lr2d : bool; eps : Z -> Z -> R; born : Z -> Z -> Z -> R; vol : R; gMax : R }.

Section Phonon.
Variable P : phonon.

(** * Wigner-Seitz weights *)
(** l.679-682 *)
Definition superCell (c : Z) : qvec := fun i => (cell P c i * inject_Z (grid P c))%Q.
(** l.432-460: vectors of the super-lattice around the origin. The array holds 200 columns, there are 125 combinations. *)
Definition triples (r : list Z) : list (Z * Z * Z) := list_prod (list_prod r r) r.
Definition isLong (v : qvec) : bool := negb (Qle_bool (qdot v v) (1 # 1000000)).
Definition rws : list qvec := filter isLong (map (fun t => lin3 superCell (fst (fst t)) (snd (fst t)) (snd t)) (triples (zrange (-2) 5))).
(** l.505-535; the loop with its early return: None is the return of 0 *)
Definition wsCk (r R : qvec) : Q := (qdot r R - qdot R R / 2)%Q.
Definition wsTol : Q := 1 # 100000.
Fixpoint wsLoop (r : qvec) (l : list qvec) (numREq : positive) : option positive :=
  match l with
  | [] => Some numREq
  | v :: l => if negb (Qle_bool (wsCk r v) wsTol) then None
              else wsLoop r l (if Qle_bool (Qabs.Qabs (wsCk r v)) wsTol then (numREq + 1)%positive else numREq)
  end.
Definition wsWeight (r : qvec) (l : list qvec) : Q := match wsLoop r l 1%positive with None => 0%Q | Some k => (1 # k)%Q end.
(** l.477-490: entry of wsCache *)
Definition wsVector (n1 n2 n3 nb na : Z) : qvec := fun i => (lin3 (cell P) n1 n2 n3 i + (tau P na i - tau P nb i))%Q.
Definition wsCache (n1 n2 n3 nb na : Z) : Q := wsWeight (wsVector n1 n2 n3 nb na) rws.
(** l.684-686: n runs over -2N ... 2N *)
Definition bigRange (c : Z) : list Z := zrange (- (2 * grid P c)) (4 * grid P c + 1).
Definition cellsBig : list (Z * Z * Z) := list_prod (list_prod (bigRange 0) (bigRange 1)) (bigRange 2).
(** l.466-502: the total weight of each pair of atoms is checked *)
Definition totalWeight (nb na : Z) : Q := fold_right Qplus 0%Q (map (fun n => wsCache (fst (fst n)) (snd (fst n)) (snd n) nb na) cellsBig).
Definition weightsChecked : bool :=
  forallb (fun ab => Qle_bool (Qabs.Qabs (totalWeight (snd ab) (fst ab) - inject_Z (grid P 0 * grid P 1 * grid P 2))) (1 # 100000000))
    (list_prod (zrange 0 (nAt P)) (zrange 0 (nAt P))).

(** l.694-768: the vectors iR = 0, 1, ...: cell (n1,n2,n3) and pair of atoms (nb,na), in the order of the loops *)
Definition entry : Type := Z * Z * Z * Z * Z.
Definition entries : list entry :=
  filter (fun e : entry => let '(n3, n2, n1, nb, na) := e in negb (Qle_bool (wsCache n1 n2 n3 nb na) 0))
    (list_prod (list_prod (list_prod (list_prod (bigRange 2) (bigRange 1)) (bigRange 0)) (zrange 0 (nAt P))) (zrange 0 (nAt P))).
(** l.727 *)
Definition weightOf (e : entry) : R := let '(n3, n2, n1, nb, na) := e in Q2R (wsCache n1 n2 n3 nb na).
(** l.729-734 *)
Definition bravaisOf (e : entry) : vec := let '(n3, n2, n1, nb, na) := e in toR (lin3 (cell P) n1 n2 n3).
(** l.736-750 *)
Definition cellIndex (n N : Z) : Z := let m := modZ (n + 1) N in (if m <=? 0 then m + N else m) - 1.
(** l.714, 752-757: mat2R is zero but for the pair of atoms of the vector *)
Definition mat2R (e : entry) (i j a b : Z) : R :=
  let '(n3, n2, n1, nb, na) := e in
  if (a =? na) && (b =? nb) then force P i j (cellIndex n1 (grid P 0)) (cellIndex n2 (grid P 1)) (cellIndex n3 (grid P 2)) na nb else 0%R.

(** l.773-813 *)
Definition shortRange (q : vec) (i j a b : Z) : cplx :=
  csum (map (fun e => cscale (weightOf e) (cscale (mat2R e i j a b) (cexpi (- dot3 q (bravaisOf e))))) entries).

(** * Long range term *)
(** constants.h:11-12, 36: twoPi = 2 pi, fourPi = 2 pi, e2 = 2 *)
Definition cppTwoPi : R := (2 * PI)%R.
Definition cppFourPi : R := (2 * PI)%R.
Definition cppE2 : R := 2%R.
(** l.68-79: the cast to int truncates a number that is not negative *)
Definition nrx (c : Z) : Z := if 1 <? grid P c then Int_part (sqrt (gMax P * 4)%R / sqrt (dot3 (recip P c) (recip P c)))%R + 1 else 0.
(** l.92-106 *)
Definition gVectors : list vec :=
  map (fun m : Z * Z * Z => let '(m1, m2, m3) := m in fun i => (IZR m1 * recip P 0%Z i + IZR m2 * recip P 1%Z i + IZR m3 * recip P 2%Z i)%R)
    (list_prod (list_prod (zrange (- nrx 0) (2 * nrx 0 + 1)) (zrange (- nrx 1) (2 * nrx 1 + 1))) (zrange (- nrx 2) (2 * nrx 2 + 1))).
(** v^T A v *)
Definition quad (A : Z -> Z -> R) (v : vec) : R := dot3 v (fun i => dot3 (A i) v).
(** l.81-90, 598-608 *)
Definition lrNorm : R := if lr2d P then (cppE2 * cppTwoPi / vol P)%R else (cppE2 * cppFourPi / vol P)%R.
Definition reff : Z -> Z -> R := fun i j => (eps P i j * / 2 * Q2R (cell P 2%Z 2%Z))%R.
Definition vnorm (v : vec) : R := sqrt (dot3 v v).
(** l.118-126, 613-620 *)
Definition gegHost (g : vec) : R :=
  if lr2d P then if Rlt_dec (/ 100000000) (g 0%Z * g 0%Z + g 1%Z * g 1%Z) then (quad reff g / (vnorm g * vnorm g))%R else 0%R
  else quad (eps P) g.
(** l.128, 622 *)
Definition inCut (geg : R) : bool := if Rlt_dec 0 geg then if Rlt_dec geg (4 * gMax P) then true else false else false.
(** l.131-135, 624-628 *)
Definition normHost (g : vec) : R :=
  if lr2d P then (lrNorm * exp (- vnorm g * / 4) / sqrt (vnorm g) * (1 + gegHost g * sqrt (vnorm g)))%R
  else (lrNorm * exp (- gegHost g * / 4) / gegHost g)%R.
(** l.137-142, 630-637 *)
Definition gZ (g : vec) (i a : Z) : R := (g 0%Z * born P a 0%Z i + g 1%Z * born P a 1%Z i + g 2%Z * born P a 2%Z i)%R.
Definition tauDiff (a b : Z) : vec := fun i => (Q2R (tau P a i) - Q2R (tau P b i))%R.
(** l.144-153 *)
Definition fnAt (g : vec) (a i : Z) : R := rsum (map (fun b => gZ g i b * cos (dot3 (tauDiff a b) g))%R (zrange 0 (nAt P))).
(** l.109-161: longRangeCorrection1 *)
Definition lr1 (i j a : Z) : R :=
  rsum (map (fun g => if inCut (gegHost g) then (- normHost g * gZ g i a * fnAt g a j)%R else 0%R) gVectors).
(** l.610-668: contribution of one vector G *)
Definition lrTerm (q G : vec) (i j a b : Z) : cplx :=
  let g := vadd G q in
  if inCut (gegHost g) then cmul (cscale (normHost g) (cexpi (dot3 (tauDiff a b) g))) ((gZ g i a * gZ g j b)%R, 0%R) else c0.
Definition longRange (q : vec) (i j a b : Z) : cplx :=
  cadd (if a =? b then (lr1 i j a, 0%R) else c0) (csum (map (fun G => lrTerm q G i j a b) gVectors)).

(** * Dynamical matrix on the host *)
(** l.345-361 *)
Definition dyn (q : vec) (i j a b : Z) : cplx :=
  if hasDiel P then cadd (shortRange q i j a b) (longRange q i j a b) else shortRange q i j a b.
(** l.825-835: dyn2Tmp(iat * 3 + i, jat * 3 + j) *)
Definition dynTmp (q : vec) : cmat := fun m n => dyn q (m mod 3) (n mod 3) (m / 3) (n / 3).
(** l.837-856 *)
Definition dynHost (q : vec) : cmat := fun m n =>
  cscale (/ sqrt (mass P (m / 3)%Z * mass P (n / 3)%Z)) (hermitise (dynTmp q) m n).

(** * Dynamical matrix on the device (phonon_h0_kokkos.cpp:6-172) *)
(** phonon_h0.cpp:178-199 *)
Definition mat2Rd (m n : Z) (e : entry) : R := mat2R e (m mod 3) (n mod 3) (m / 3) (n / 3).
Definition massD (m : Z) : R := mass P (m / 3).
(** l.24-46 *)
Definition shortD (q : vec) (m n : Z) : cplx :=
  csum (map (fun e => cmul (cscale (weightOf e) (cexpi (- dot3 q (bravaisOf e)))) (mat2Rd m n e, 0%R)) entries).
(** l.54-64: three directions and all atoms *)
Definition lr1D (m n : Z) : cplx := if m / 3 =? n / 3 then (lr1 (m mod 3) (n mod 3) (m / 3), 0%R) else c0.
(** l.66, 99-107: nine products; there is no 2D case *)
Definition normD : R := (cppE2 * cppFourPi / vol P)%R.
Definition gegD (g : vec) : R := rsum (map (fun ij => (g (ij / 3)%Z * eps P (ij / 3)%Z (ij mod 3)%Z * g (ij mod 3)%Z)%R) (zrange 0 9)).
(** l.112-120, with bornCharges_d(i,j,nb) = bornCharges(nb,j,i), phonon_h0.cpp:228 *)
Definition gqzD (g : vec) (x : Z) : R := rsum (map (fun j => (g j * born P (x / 3)%Z j (x mod 3)%Z)%R) (zrange 0 3)).
(** l.84-137: what one vector G adds to D(m,n) *)
Definition lrTermD (q G : vec) (m n : Z) : cplx :=
  let g := fun i => (G i + q i)%R in
  if inCut (gegD g) then
    let arg := rsum (map (fun i => ((Q2R (tau P (m / 3)%Z i) - Q2R (tau P (n / 3)%Z i)) * g i)%R) (zrange 0 3)) in
    cmul (cmul (cscale (normD * exp (- gegD g * / 4) / gegD g) (cexpi arg)) (gqzD g m, 0%R)) (gqzD g n, 0%R)
  else c0.
(** [order]: the order in which the atomic additions of the vectors G take place *)
Definition dynD (order : list vec) (q : vec) : cmat := fun m n =>
  if hasDiel P then fold_left (fun (d : cplx) G => cadd d (lrTermD q G m n)) order (cadd (shortD q m n) (lr1D m n)) else shortD q m n.
(** l.148-171 *)
Definition dynDevice (order : list vec) (q : vec) : cmat := fun m n =>
  cscale (/ sqrt (massD m * massD n)) (cscale (/ 2) (cadd (dynD order q m n) (cconj (dynD order q n m)))).
End Phonon.

(** * Frequencies and eigenvectors *)
(** phonon_h0.cpp:868-876 *)
Definition freqHost (w2 : R) : R := if Rlt_dec w2 0 then (- sqrt (- w2))%R else sqrt w2.
(** phonon_h0_kokkos.cpp:193-201 *)
Definition freqDevice (f : R) : R := if Rlt_dec 0 f then sqrt f else (- sqrt (- f))%R.
(** phonon_h0.cpp:369-384 and phonon_h0_kokkos.cpp:209-219: column [n] of the eigenvectors scaled by the masses *)
Definition massScale (P : phonon) (U : cmat) : cmat := fun m n => cscale (/ sqrt (mass P (m / 3))) (U m n).
(** phonon_h0.cpp:957-969: sqrtDPlus = eig * en * eig.adjoint() *)
Definition sqrtDyn (n : Z) (U : cmat) (en : Z -> R) : cmat :=
  matMul n (matMul n U (fun i j => if i =? j then (en i, 0%R) else c0)) (adjoint U).
