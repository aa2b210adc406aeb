From Coq Require Import Reals QArith Qabs.
From Verif Require Import Base M_utilities M_points M_phonon M_phono3py.
Open Scope Z_scope.

(** * Wigner-Seitz cell, for a crystal of cell A, a supercell of g cells and two atoms at distance d *)
Definition pos (A : Z -> qvec) (d : qvec) (n : z3) : qvec := fun i => (lat A n i + d i)%Q.
Definition len2 (A : Z -> qvec) (d : qvec) (n : z3) : Q := qdot (pos A d n) (pos A d n).
(** the cells n and m are images of each other in neighbouring supercells *)
Definition shift (g : Z -> Z) (n T : z3) : z3 := let '(n1, n2, n3) := n in let '(t1, t2, t3) := T in (n1 - g 0 * t1, n2 - g 1 * t2, n3 - g 2 * t3).
Definition images (g : Z -> Z) (n m : z3) : Prop := exists T, m = shift g n T.
Definition shortest (A : Z -> qvec) (g : Z -> Z) (d : qvec) (n : z3) : Prop := forall m, images g n m -> (len2 A d n <= len2 A d m)%Q.
(** [W] holds the shortest images of m, and the translations searched recognise them *)
Record reach (A : Z -> qvec) (g : Z -> Z) (d : qvec) (m : z3) (W : list z3) : Prop := {
  r_unique : NoDup W;
  r_images : forall n, In n W -> images g m n;
  r_exists : exists n, images g m n /\ shortest A g d n;
  r_inside : forall n, images g m n -> shortest A g d n -> In n W;
  r_relevant : forall n, In n W -> (forall T, In T box -> (len2 A d n <= len2 A d (shift g n T))%Q) -> shortest A g d n;
  r_box : forall n n', images g m n -> images g m n' -> shortest A g d n -> shortest A g d n' -> exists T, In T box /\ n' = shift g n T }.
(** lengths that differ do so by more than the tolerance; translations of the supercell are not short *)
Definition resolved (A : Z -> qvec) (g : Z -> Z) (d : qvec) (W : list z3) (tol : Q) : Prop :=
  (forall n T, In n W -> In T box -> (len2 A d n == len2 A d (shift g n T))%Q \/ (2 * tol < Qabs (len2 A d n - len2 A d (shift g n T)))%Q) /\
  (forall T, In T box -> T <> (0, 0, 0) -> (1 # 1000000 < qdot (lat (fun c i => A c i * inject_Z (g c)) T) (lat (fun c i => A c i * inject_Z (g c)) T))%Q).

(** * the tensor given to the interaction *)
(** three independent lattice vectors *)
Definition independent (A : Z -> qvec) : Prop := forall n m, (forall i, 0 <= i < 3 -> (lat A n i == lat A m i)%Q) -> n = m.
(** the first numCells atoms of the supercell are the images of one atom, one per cell of the supercell *)
Definition orderedSupercell (F : p3file) (s : z3 -> Z) : Prop :=
  forall m, (0 <= fst (fst m) < pGrid F 0 /\ 0 <= snd (fst m) < pGrid F 1 /\ 0 <= snd m < pGrid F 2) ->
    0 <= s m < numCells F /\ (forall i, 0 <= i < 3 -> (cellPos F (s m) i == lat (pCell F) m i)%Q) /\
    forall t, 0 <= t < s m -> exists i, 0 <= i < 3 /\ ((1 # 1000000000000) <= Qabs (lat (pCell F) m i - cellPos F t i))%Q.
Definition wrap (F : p3file) (n : z3) : z3 := let '(n1, n2, n3) := n in (n1 mod pGrid F 0, n2 mod pGrid F 1, n3 mod pGrid F 2).
(** sizes of the files *)
Definition wellSized (F : p3file) : Prop := 0 < pAt F /\ pAt F * 3 <= INT_MAX /\ (forall c, 0 <= c < 3 -> 0 < pGrid F c) /\ zlen (p2s F) = pAt F /\
  (forall a x, zget (p2s F) a = Some x -> 0 <= x /\ x + numCells F <= numSup F).
(** members of a list of cells that are images of m *)
Definition imageb (g : Z -> Z) (m n : z3) : bool := let '(m1, m2, m3) := m in let '(n1, n2, n3) := n in ((n1 - m1) mod g 0 =? 0) && ((n2 - m2) mod g 1 =? 0) && ((n3 - m3) mod g 2 =? 0).
Definition sumW {A} (w : A -> Q) (l : list A) : Q := fold_right Qplus 0%Q (map w l).
(** orthorhombic crystals with edges a, and atoms at distance d of less than an edge along each axis *)
Definition orthorhombic (A : Z -> qvec) (a : Z -> Q) : Prop := forall c i, 0 <= c < 3 -> 0 <= i < 3 -> (0 < a c)%Q /\ (A c i == if (c =? i)%Z then a c else 0)%Q.
(** equality of vectors *)
Definition sameVec (a b : qvec) : Prop := (a 0%Z == b 0%Z /\ a 1%Z == b 1%Z /\ a 2%Z == b 2%Z)%Q.
Definition inWindow (F : p3file) (n : z3) : Prop := let '(n1, n2, n3) := n in - (2 * pGrid F 0) <= n1 < 2 * pGrid F 0 /\ - (2 * pGrid F 1) <= n2 < 2 * pGrid F 1 /\ - (2 * pGrid F 2) <= n3 < 2 * pGrid F 2.
(** what the interaction receives: lattice vectors, weights of the pairs of atoms, and for each pair of lattice vectors of nonzero weight the
    element of the file for the atoms of the supercell equivalent to the three atoms *)
Definition readCorrectly (F : p3file) (s : z3 -> Z) (bv : list qvec) (w : wkey -> Q) (m : mkey -> R) : Prop :=
  (forall i j a b, zget bv i = Some a -> zget bv j = Some b -> sameVec a b -> i = j) /\
  (forall n na nb, inWindow F n -> 0 <= na < pAt F -> 0 <= nb < pAt F -> (0 < p3Weight F (p3vector F (lat (pCell F) n) na nb))%Q -> exists ir R, zget bv ir = Some R /\ sameVec R (lat (pCell F) n)) /\
  (forall ir R na nb, zget bv ir = Some R -> 0 <= na < pAt F -> 0 <= nb < pAt F -> w (ir, na, nb) = p3Weight F (p3vector F R na nb)) /\
  (forall iR2 iR3 R2 R3 n2 n3 na nb nc a b c i j k, zget bv iR2 = Some R2 -> sameVec R2 (lat (pCell F) n2) -> zget bv iR3 = Some R3 -> sameVec R3 (lat (pCell F) n3) ->
     zget (p2s F) na = Some a -> zget (p2s F) nb = Some b -> zget (p2s F) nc = Some c -> 0 <= i < 3 -> 0 <= j < 3 -> 0 <= k < 3 ->
     m (na * 3 + i, nb * 3 + j, nc * 3 + k, iR3, iR2) =
     if Qeq_bool (p3Weight F (p3vector F R2 na nb)) 0 || Qeq_bool (p3Weight F (p3vector F R3 na nc)) 0 then 0%R
     else (fc3 F a (b + s (wrap F n2)) (c + s (wrap F n3)) i j k * p3conv F)%R).
