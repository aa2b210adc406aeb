(** Model of the phono3py reader of src/parser/ifc3_parser.cpp. Lattice vectors and positions are doubles, hence rationals; sums and tests are
    exact. The text of phono3py_disp.yaml and the HDF5 file are taken as already read. [abs] of line 91 is that of doubles. *)
From Coq Require Import Reals QArith Qabs.
From Verif Require Import Base M_utilities M_points M_phonon.
Open Scope Z_scope.

Definition z3 : Type := Z * Z * Z.
(** lattice vector of integer components, l.143-146 *)
Definition lat (A : Z -> qvec) (n : z3) : qvec := let '(n1, n2, n3) := n in lin3 A n1 n2 n3.

(** what has been read. [pCell c i] is directUnitCell(i,c), [pTau a i] atomicPositions(a,i), [supPos s i] the Cartesian position of atom s
    of the supercell (l.548-556), [p2s] the data set p2s_map, [fc3 s1 s2 s3 i j k] the data set fc3 of [numSup]^3 blocks *)
Record p3file := { pAt : Z; pCell : Z -> qvec; pGrid : Z -> Z; pTau : Z -> qvec; numSup : Z; supPos : Z -> qvec; p2s : list Z;
  fc3 : Z -> Z -> Z -> Z -> Z -> Z -> R; p3conv : R }.

Section Reader.
Variable F : p3file.

(** * Wigner-Seitz weights *)
(** l.39-76 wsInit *)
Definition p3super (c : Z) : qvec := fun i => (pCell F c i * inject_Z (pGrid F c))%Q.
Definition box : list z3 := list_prod (list_prod (zrange (-2) 5) (zrange (-2) 5)) (zrange (-2) 5).
Definition p3rws : list qvec := filter (fun v => Qltb (1 # 1000000) (qdot v v)) (map (lat p3super) box).
(** l.80-97 wsWeight *)
Definition p3tol : Q := 1 # 1000000.
Fixpoint p3Loop (r : qvec) (l : list qvec) (nreq : positive) : option positive :=
  match l with
  | [] => Some nreq
  | v :: l => let ck := (qdot r v - qdot v v / 2)%Q in
    if Qltb p3tol ck then None else p3Loop r l (if Qltb (Qabs ck) p3tol then (nreq + 1)%positive else nreq)
  end.
Definition p3Weight (r : qvec) : Q := match p3Loop r p3rws 1%positive with None => 0%Q | Some k => (1 # k)%Q end.
(** l.146, 203, 324, 337: the atom nb in cell R seen from atom na *)
Definition p3vector (R : qvec) (na nb : Z) : qvec := fun i => (R i - pTau F na i + pTau F nb i)%Q.

(** * the list of lattice vectors *)
(** std::set<std::vector<double>>: ordered, without repetitions *)
Definition vlt (a b : qvec) : bool :=
  if Qltb (a 0) (b 0) then true else if Qltb (b 0) (a 0) then false else
  if Qltb (a 1) (b 1) then true else if Qltb (b 1) (a 1) then false else Qltb (a 2) (b 2).
Fixpoint setInsert (v : qvec) (l : list qvec) : list qvec :=
  match l with [] => [v] | x :: r => if vlt v x then v :: l else if vlt x v then x :: setInsert v r else l end.
(** l.138-140, 194-196: -2N <= n < 2N *)
Definition p3range (c : Z) : list Z := zrange (- (2 * pGrid F c)) (4 * pGrid F c).
(** the loops of l.132-136 and 188-193: na, nb, nr1, nr2, nr3 *)
Definition pairsWindow : list (Z * Z * z3) :=
  list_prod (list_prod (zrange 0 (pAt F)) (zrange 0 (pAt F))) (list_prod (list_prod (p3range 0) (p3range 1)) (p3range 2)).
(** l.128-162 *)
Definition bravais : list qvec :=
  fold_left (fun l (x : Z * Z * z3) => let '(na, nb, n) := x in
    if Qltb 0 (p3Weight (p3vector (lat (pCell F) n) na nb)) then setInsert (lat (pCell F) n) l else l) pairsWindow [].
(** std::find with the comparison of Eigen vectors *)
Definition vecEq (a b : qvec) : bool := Qeq_bool (a 0) (b 0) && Qeq_bool (a 1) (b 1) && Qeq_bool (a 2) (b 2).
Fixpoint findVec (l : list qvec) (v : qvec) : option Z :=
  match l with [] => None | x :: r => if vecEq x v then Some 0 else option_map (Z.add 1) (findVec r v) end.

(** * tensors as functions of their indices *)
Definition put {K V : Type} (eqb : K -> K -> bool) (op : V -> V -> V) (m : K -> V) (k : K) (v : V) : K -> V := fun k' => if eqb k k' then op (m k') v else m k'.
Definition wkey : Type := Z * Z * Z.
Definition wkeyb (a b : wkey) : bool := let '(a0, a1, a2) := a in let '(b0, b1, b2) := b in (a0 =? b0) && (a1 =? b1) && (a2 =? b2).
Definition mkey : Type := Z * Z * Z * Z * Z.
Definition mkeyb (a b : mkey) : bool := let '(a0, a1, a2, a3, a4) := a in let '(b0, b1, b2, b3, b4) := b in (a0 =? b0) && (a1 =? b1) && (a2 =? b2) && (a3 =? b3) && (a4 =? b4).
(** l.186-213: weights(ir, na, nb) = weightR2 *)
Definition p3weights : res (wkey -> Q) :=
  foldM (fun m (x : Z * Z * z3) => let '(na, nb, n) := x in
    let w := p3Weight (p3vector (lat (pCell F) n) na nb) in
    if Qltb 0 w then match findVec bravais (lat (pCell F) n) with None => Err | Some ir => Ok (put wkeyb (fun _ v => v) m (ir, na, nb) w) end
    else Ok m) pairsWindow (fun _ => 0%Q).

(** * reordering of the force constants *)
(** l.240-253: m1 = mod(nr1 + 1, N), m1 += N if m1 <= 0, m1 += -1. The operands are small: no overflow *)
Definition positive1 (n N : Z) : Z := (let m := modZ (n + 1) N in if m <=? 0 then m + N else m) + -1.
Definition positive3 (n : z3) : z3 := let '(n1, n2, n3) := n in (positive1 n1 (pGrid F 0), positive1 n2 (pGrid F 1), positive1 n3 (pGrid F 2)).
(** l.606-619: nr = numSupAtoms / numAtoms; cellPositions *)
Definition numCells : Z := Z.quot (numSup F) (pAt F).
Definition cellPos (s : Z) : qvec := fun i => (supPos F s i - supPos F 0 i)%Q.
(** l.100-112 findIndexRow: norm < 1.e-12 *)
Definition vdiff (a b : qvec) : qvec := fun i => (a i - b i)%Q.
Fixpoint findRow (l : list Z) (v : qvec) : res Z :=
  match l with [] => Err | s :: r => if Qltb (qdot (vdiff v (cellPos s)) (vdiff v (cellPos s))) ((1 # 1000000000000) * (1 # 1000000000000)) then Ok s else findRow r v end.
Definition findIndexRow (v : qvec) : res Z := findRow (zrange 0 numCells) v.
(** l.349-365: one element of the tensor of the file *)
Definition fcAt (na nb nc ir2 ir3 i j k : Z) : res R :=
  match zget (p2s F) na, zget (p2s F) nb, zget (p2s F) nc with
  | Some a, Some b, Some c =>
    let inside := fun s => (0 <=? s) && (s <? numSup F) in
    if inside a && inside (b + ir2) && inside (c + ir3) then Ok (fc3 F a (b + ir2) (c + ir3) i j k) else UB
  | _, _, _ => UB
  end.
Definition xyz : list z3 := list_prod (list_prod (zrange 0 3) (zrange 0 3)) (zrange 0 3).
(** the loops of l.223-225, 264-266: nr3, nr2, nr1 *)
Definition window : list z3 := map (fun x : z3 => let '(n3, n2, n1) := x in (n1, n2, n3)) (list_prod (list_prod (p3range 2) (p3range 1)) (p3range 0)).
(** l.354-367 *)
Definition stepXyz (na nb nc ir2 ir3 iR2 iR3 : Z) (m : mkey -> R) (x : z3) : res (mkey -> R) :=
  let '(i, j, k) := x in
  do ind1 <- compress2Indices na i (pAt F) 3 ; do ind2 <- compress2Indices nb j (pAt F) 3 ; do ind3 <- compress2Indices nc k (pAt F) 3 ;
  do v <- fcAt na nb nc ir2 ir3 i j k ; Ok (put mkeyb Rplus m (ind1, ind2, ind3, iR3, iR2) (v * p3conv F)%R).
(** l.332-343 *)
Definition stepC (r3 : qvec) (na nb ir2 ir3 iR2 iR3 : Z) (m : mkey -> R) (nc : Z) : res (mkey -> R) :=
  if Qeq_bool (p3Weight (p3vector r3 na nc)) 0 then Ok m else foldM (stepXyz na nb nc ir2 ir3 iR2 iR3) xyz m.
(** l.318-331 *)
Definition stepAB (r2 r3 : qvec) (ir2 ir3 iR2 iR3 : Z) (m : mkey -> R) (ab : Z * Z) : res (mkey -> R) :=
  if Qeq_bool (p3Weight (p3vector r2 (fst ab) (snd ab))) 0 then Ok m else foldM (stepC r3 (fst ab) (snd ab) ir2 ir3 iR2 iR3) (zrange 0 (pAt F)) m.
(** l.267-314 *)
Definition step3 (bv : list qvec) (r2 : qvec) (ir2 iR2 : Z) (m : mkey -> R) (n : z3) : res (mkey -> R) :=
  let r3 := lat (pCell F) n in
  match findVec bv r3 with
  | None => Ok m
  | Some iR3 => do ir3 <- findIndexRow (lat (pCell F) (positive3 n)) ; foldM (stepAB r2 r3 ir2 ir3 iR2 iR3) (list_prod (zrange 0 (pAt F)) (zrange 0 (pAt F))) m
  end.
(** l.226-262 *)
Definition step2 (bv : list qvec) (m : mkey -> R) (n : z3) : res (mkey -> R) :=
  let r2 := lat (pCell F) n in
  match findVec bv r2 with
  | None => Ok m
  | Some iR2 => do ir2 <- findIndexRow (lat (pCell F) (positive3 n)) ; foldM (step3 bv r2 ir2 iR2) window m
  end.
(** l.114-377 and 606-628: lattice vectors, weights and force constants given to the interaction *)
Definition parsePhono3py : res (list qvec * (wkey -> Q) * (mkey -> R)) :=
  do w <- p3weights ; do m <- foldM (step2 bravais) window (fun _ => 0%R) ; Ok (bravais, w, m).
End Reader.
