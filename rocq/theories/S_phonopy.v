(** Specification of C137 and C138: what the files of phonopy hold *)
From Coq Require Import QArith Reals.
From Verif Require Import Base M_phonopy.
Open Scope Z_scope.

Definition cell : Type := Z * Z * Z.
Definition origin : cell := (0, 0, 0).
Definition inGrid (g : Z * Z * Z) (r : cell) : Prop := let '(n1, n2, n3) := g in let '(a, b, c) := r in 0 <= a < n1 /\ 0 <= b < n2 /\ 0 <= c < n3.
Definition volume (g : Z * Z * Z) : Z := let '(n1, n2, n3) := g in n1 * n2 * n3.
(** square of the distance between the lattice vector a u1 + b u2 + c u3 and p - p0 *)
Definition gap2 (u : q3 * q3 * q3) (s : cell) (p p0 : q3) : Q :=
  let '((u11, u12, u13), (u21, u22, u23), (u31, u32, u33)) := u in let '(a, b, c) := s in let '(x, y, z) := p in let '(x0, y0, z0) := p0 in
  let dx := (inject_Z a * u11 + inject_Z b * u21 + inject_Z c * u31 - (x - x0))%Q in
  let dy := (inject_Z a * u12 + inject_Z b * u22 + inject_Z c * u32 - (y - y0))%Q in
  let dz := (inject_Z a * u13 + inject_Z b * u23 + inject_Z c * u33 - (z - z0))%Q in (dx * dx + dy * dy + dz * dz)%Q.
(** the copies of the first atom of the supercell: copy number idx r lies in cell r, whatever the order of the cells *)
Definition located (u : q3 * q3 * q3) (g : Z * Z * Z) (sup : list q3) (idx : cell -> Z) : Prop :=
  (forall i, 0 <= i < volume g <-> exists r, inGrid g r /\ idx r = i) /\
  forall r, inGrid g r -> exists p p0, zget sup (idx r) = Some p /\ zget sup 0 = Some p0 /\
    forall s, inGrid g s -> ((gap2 u s p p0 < 1 # 1000000)%Q <-> s = r).
(** force constants: atom a in cell r, atom b in cell s, directions i and j *)
Definition harmonic : Type := Z -> cell -> Z -> cell -> Z -> Z -> R.
Definition symmetricFC (Phi : harmonic) : Prop := forall a r b s i j, Phi a r b s i j = Phi b s a r j i.
(** atom a in cell r has number cm a + idx r in the supercell *)
Definition mapped (nAtoms vol : Z) (cellMap : list Z) : Prop := zlen cellMap = nAtoms /\ forall m, In m cellMap -> 0 <= m /\ m + vol <= nAtoms * vol.
(** the two layouts of phonopy: all pairs of atoms of the supercell, or first atoms in the unit cell *)
Definition fullLayout (nAtoms : Z) (g : Z * Z * Z) (cellMap : list Z) (idx : cell -> Z) (f : ifc) (Phi : harmonic) : Prop :=
  nFirst f = nAtoms * volume g /\ nSecond f = nAtoms * volume g /\
  forall a b ma mb r s i j, zget cellMap a = Some ma -> zget cellMap b = Some mb -> inGrid g r -> inGrid g s -> value f (ma + idx r) (mb + idx s) i j = Phi a r b s i j.
Definition compactLayout (nAtoms : Z) (g : Z * Z * Z) (cellMap : list Z) (idx : cell -> Z) (f : ifc) (Phi : harmonic) : Prop :=
  nFirst f = nAtoms /\ nSecond f = nAtoms * volume g /\ 1 < volume g /\
  forall a b mb s i j, 0 <= a < nAtoms -> zget cellMap b = Some mb -> inGrid g s -> value f a (mb + idx s) i j = Phi a (0, 0, 0) b s i j.
(** the array of the program: element (i, j, r, a, b) is the constant between atom a in cell r and atom b in the cell at the origin *)
Definition arrayIs (l : list (fcKey * R)) (g : Z * Z * Z) (nAtoms : Z) (h : Z -> Z -> cell -> Z -> Z -> R) : Prop :=
  NoDup (map fst l) /\ forall i j r1 r2 r3 a b v, In ((i, j, r1, r2, r3, a, b), v) l <->
    0 <= i < 3 /\ 0 <= j < 3 /\ inGrid g (r1, r2, r3) /\ 0 <= a < nAtoms /\ 0 <= b < nAtoms /\ v = h i j (r1, r2, r3) a b.

(** squared frequencies at the zone centre of a crystal of n atoms with unit masses: eigenvalues of the sum over cells *)
Definition gammaMode (n : Z) (cells : list cell) (h : Z -> Z -> cell -> Z -> Z -> R) (e : R) : Prop :=
  exists x : Z -> Z -> R, (exists a i, 0 <= a < n /\ 0 <= i < 3 /\ x a i <> 0%R) /\
    forall a i, 0 <= a < n -> 0 <= i < 3 ->
      fold_right Rplus 0%R (map (fun t => let '(b, j, r) := t in (h i j r a b * x b j)%R) (list_prod (list_prod (zrange 0 n) [0; 1; 2]) cells)) = (e * x a i)%R.

(** BORN file: a first line, then comments, blank lines and numbers *)
Definition numbersOf (l : bornLine) : list (list R) := match l with Numbers x => [x] | _ => [] end.
Definition data (f : list bornLine) : list (list R) := flat_map numbersOf (tl f).
Definition chargesAre (w : list (chargeKey * R)) (cs : list (list R)) : Prop :=
  forall a i j v, In ((a, i, j), v) w <-> 0 <= i < 3 /\ 0 <= j < 3 /\ exists c, zget cs a = Some c /\ zget c (i * 3 + j) = Some v.
