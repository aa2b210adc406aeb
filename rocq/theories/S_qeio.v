(** The text files as the programs that write them lay them out: q2r.x of Quantum ESPRESSO and Wannier90. *)
From Coq Require Import Reals Ascii.
From Verif Require Import Base M_context M_complex M_electron M_qe M_qeio.
Open Scope Z_scope.

(** a list of assignments gives an array: each element in the range is assigned once, to the value of f *)
Definition definesOn {K V} (l : list (K * V)) (range : K -> Prop) (f : K -> V) : Prop := NoDup (map fst l) /\ forall k v, In (k, v) l <-> range k /\ v = f k.
Definition int (z : Z) : Prop := INT_MIN <= z <= INT_MAX.
Definition rowOf (f : Z -> R) : line := [WR (f 0); WR (f 1); WR (f 2)].

(** * q2r.x *)
Record qeData := { dEl : Z; dName : Z -> str; dMass : Z -> R; dAt : Z; dType : Z -> Z; dPos : Z -> Z -> R; dIb : Z; dDm : celldm; dFree : Z -> Z -> R;
  dHas : bool; dEps : Z -> Z -> R; dZ : Z -> Z -> Z -> R; dGrid : Z * Z * Z; dFC : fcKey -> R }.
Definition freeCell (d : qeData) : cell3 :=
  if dIb d =? 0 then let c := fun i => (dFree d i 0, dFree d i 1, dFree d i 2) in (c 0, c 1, c 2) else zeroCell.
Definition fcLines (d : qeData) : list line :=
  let '(n1, n2, n3) := dGrid d in
  flat_map (fun i => flat_map (fun b => let '(j, na, nb) := b in
    [WI (i + 1); WI (j + 1); WI (na + 1); WI (nb + 1)] ::
    flat_map (fun r => let '(m3, m2, m1) := r in [[WI (m1 + 1); WI (m2 + 1); WI (m3 + 1); WR (dFC d (i, j, m1, m2, m3, na, nb))]])
      (list_prod (list_prod (zrange 0 n3) (zrange 0 n2)) (zrange 0 n1)))
    (list_prod (list_prod three (zrange 0 (dAt d))) (zrange 0 (dAt d)))) three.
(** the lines before the force constants *)
Definition writeHead (d : qeData) : list line :=
  let D := dDm d in let '(n1, n2, n3) := dGrid d in
  [WI (dEl d); WI (dAt d); WI (dIb d); WR (cd0 D); WR (cd1 D); WR (cd2 D); WR (cd3 D); WR (cd4 D); WR (cd5 D)] ::
  (if dIb d =? 0 then flat_map (fun i => [rowOf (dFree d i)]) three else []) ++
  flat_map (fun i => [[WI (i + 1); WS (dName d i); WR (dMass d i)]]) (zrange 0 (dEl d)) ++
  flat_map (fun i => [[WI (i + 1); WI (dType d i + 1); WR (dPos d i 0); WR (dPos d i 1); WR (dPos d i 2)]]) (zrange 0 (dAt d)) ++
  [WS [if dHas d then "T"%char else "F"%char]] ::
  (if dHas d then flat_map (fun i => [rowOf (dEps d i)]) three ++ flat_map (fun a => [WI (a + 1)] :: flat_map (fun i => [rowOf (dZ d a i)]) three) (zrange 0 (dAt d)) else []) ++
  [[WI n1; WI n2; WI n3]].
Definition writeQE (d : qeData) : list line := writeHead d ++ fcLines d.
Definition qeSized (d : qeData) : Prop :=
  int (dEl d) /\ int (dAt d) /\ int (dIb d) /\ (forall i, 0 <= i < dAt d -> int (dType d i + 1)) /\ let '(n1, n2, n3) := dGrid d in 0 < n1 <= INT_MAX /\ 0 < n2 <= INT_MAX /\ 0 < n3 <= INT_MAX.
Definition dir (i : Z) : Prop := 0 <= i < 3.
Definition fcRange (d : qeData) (k : fcKey) : Prop :=
  let '(i, j, m1, m2, m3, na, nb) := k in let '(n1, n2, n3) := dGrid d in
  dir i /\ dir j /\ 0 <= m1 < n1 /\ 0 <= m2 < n2 /\ 0 <= m3 < n3 /\ 0 <= na < dAt d /\ 0 <= nb < dAt d.
(** what the program obtains *)
Definition qeRead (d : qeData) (C : cell3) (alat : R) (q : qeFile) : Prop :=
  qCell q = C /\ qSpecies q = map (fun i => (dName d i, dMass d i)) (zrange 0 (dEl d)) /\
  qAtoms q = map (fun i => (dType d i, (alat * dPos d i 0, alat * dPos d i 1, alat * dPos d i 2)%R)) (zrange 0 (dAt d)) /\
  definesOn (qDiel q) (fun k => dir (fst k) /\ dir (snd k)) (fun k => if dHas d then dEps d (fst k) (snd k) else 0%R) /\
  definesOn (qBorn q) (fun k => let '(a, i, j) := k in 0 <= a < dAt d /\ dir i /\ dir j) (fun k => let '(a, i, j) := k in if dHas d then dZ d a i j else 0%R) /\
  qGrid q = dGrid d /\ definesOn (qFC q) (fcRange d) (dFC d).

(** * Wannier90: seedname_tb.dat *)
Record tbData := { bCell : Z -> Z -> R; bW : Z; bN : Z; bVec : Z -> Z -> Z; bDeg : Z -> Z; bH : Z -> Z -> Z -> cplx; bR : Z -> Z -> Z -> Z -> cplx }.
Definition vecLine (d : tbData) (iR : Z) : line := [WI (bVec d iR 0); WI (bVec d iR 1); WI (bVec d iR 2)].
(** fifteen degeneracies in each line, fewer in the last *)
Definition degLines (d : tbData) : list line := flat_map (fun i => [map (fun j => WI (bDeg d j)) (zrange (15 * i) (Z.min 15 (bN d - 15 * i)))]) (zrange 0 ((bN d + 14) / 15)).
(** the elements in the order of the file: the first index runs fastest *)
Definition hLines (d : tbData) (iR : Z) : list line :=
  [] :: vecLine d iR :: flat_map (fun p => let '(m, n) := p in let h := bH d iR n m in [[WI (n + 1); WI (m + 1); WR (fst h); WR (snd h)]]) (list_prod (zrange 0 (bW d)) (zrange 0 (bW d))).
Definition rLines (d : tbData) (iR : Z) : list line :=
  [] :: vecLine d iR :: flat_map (fun p => let '(m, n) := p in let r := fun i => bR d i iR n m in
    [[WI (n + 1); WI (m + 1); WR (fst (r 0)); WR (snd (r 0)); WR (fst (r 1)); WR (snd (r 1)); WR (fst (r 2)); WR (snd (r 2))]]) (list_prod (zrange 0 (bW d)) (zrange 0 (bW d))).
Definition writeTb (d : tbData) : list line :=
  [WS []] :: flat_map (fun i => [rowOf (bCell d i)]) three ++ [WI (bW d)] :: [WI (bN d)] :: degLines d ++ flat_map (hLines d) (zrange 0 (bN d)) ++ flat_map (rLines d) (zrange 0 (bN d)).
Definition tbSized (d : tbData) : Prop := int (bW d) /\ 0 <= bN d <= INT_MAX /\ forall j, 0 <= j < bN d -> int (bDeg d j).
Definition over (s : R) (c : cplx) : cplx := (fst c / s, snd c / s)%R.
(** the element m, n of the arrays is the element n, m of the file *)
Definition tbRead (d : tbData) (ry bohr : R) (t : tbFile) : Prop :=
  definesOn (tCell t) (fun k => dir (fst k) /\ dir (snd k)) (fun k => (bCell d (snd k) (fst k) / bohr)%R) /\ tNum t = bW d /\
  tVecs t = map (fun iR => (iR, (IZR (bVec d iR 0), IZR (bVec d iR 1), IZR (bVec d iR 2)))) (zrange 0 (bN d)) /\
  tDeg t = map (fun j => (j, bDeg d j)) (zrange 0 (bN d)) /\
  definesOn (tH t) (fun k => let '(iR, m, n) := k in 0 <= iR < bN d /\ 0 <= m < bW d /\ 0 <= n < bW d) (fun k => let '(iR, m, n) := k in over ry (bH d iR n m)) /\
  definesOn (tR t) (fun k => let '(i, iR, m, n) := k in dir i /\ 0 <= iR < bN d /\ 0 <= m < bW d /\ 0 <= n < bW d) (fun k => let '(i, iR, m, n) := k in over bohr (bR d i iR n m)).
(** eigenvalues and eigenvectors of a matrix *)
Definition eigenpair (n : Z) (A : cmat) (e : R) (v : Z -> cplx) : Prop := forall m, 0 <= m < n -> csumTo n (fun l => cmul (A m l) (v l)) = cscale e (v m).
Definition hermitianOn (n : Z) (A : cmat) : Prop := forall a b, 0 <= a < n -> 0 <= b < n -> A a b = cconj (A b a).

(** * Wannier90: seedname_wsvec.dat *)
Definition wsEntry (v : Z * Z * Z) (a b : Z) (sh : list (Z * Z * Z)) : list line :=
  let '(x, y, z) := v in
  [WI x; WI y; WI z; WI (a + 1); WI (b + 1)] :: [WI (zlen sh)] :: map (fun t => let '(u, v, w) := t in [WI u; WI v; WI w]) sh.
(** lattice vectors vs, numbered from i; pairs of Wannier functions ps; shifts sh *)
Fixpoint wsLines (vs : list (Z * Z * Z)) (i : Z) (ps : list (Z * Z)) (sh : Z -> Z -> Z -> list (Z * Z * Z)) : list line :=
  match vs with [] => [] | v :: r => flat_map (fun p => wsEntry v (fst p) (snd p) (sh i (fst p) (snd p))) ps ++ wsLines r (i + 1) ps sh end.
Definition wsWrites (iR : Z) (ps : list (Z * Z)) (sh : Z -> Z -> Z -> list (Z * Z * Z)) : list wsWrite :=
  flat_map (fun p => let k := (fst p, snd p, iR) in let l := sh iR (fst p) (snd p) in Deg k (zlen l) :: map (fun it => Shift (fst it) k (snd it)) (combine (zrange 0 (zlen l)) l)) ps.
Definition int3 (v : Z * Z * Z) : Prop := let '(x, y, z) := v in int x /\ int y /\ int z.
Fixpoint changing (old : Z * Z * Z) (vs : list (Z * Z * Z)) : Prop := match vs with [] => True | v :: r => v <> old /\ changing v r end.
Definition wsSized (nw nv : Z) (vs : list (Z * Z * Z)) (ps : list (Z * Z)) (sh : Z -> Z -> Z -> list (Z * Z * Z)) : Prop :=
  zlen vs <= nv /\ nw < INT_MAX /\ ps <> [] /\ (forall p, In p ps -> 0 <= fst p < nw /\ 0 <= snd p < nw) /\ (forall v, In v vs -> int3 v) /\
  forall iR a b, zlen (sh iR a b) <= 8 /\ forall t, In t (sh iR a b) -> int3 t.

(** the Hamiltonian of the file, element by element; lattice vectors in cartesian coordinates are given *)
Definition ofFile (d : tbData) (ry : R) (br : Z -> vec) : wannier :=
  {| nW := bW d; nR := bN d; brav := br; degR := fun iR => IZR (bDeg d iR); h0R := fun iR m n => over ry (bH d iR m n); rMatrix := fun _ _ _ _ => c0 |}.
(** the Hamiltonian with the arrays that were read *)
Definition fromArrays (d : tbData) (t : tbFile) (br : Z -> vec) (W : wannier) : Prop :=
  nW W = tNum t /\ nR W = bN d /\ brav W = br /\ (forall iR, 0 <= iR < bN d -> exists g, In (iR, g) (tDeg t) /\ degR W iR = IZR g) /\
  forall iR m n, 0 <= iR < bN d -> 0 <= m < bW d -> 0 <= n < bW d -> In ((iR, m, n), h0R W iR m n) (tH t).
