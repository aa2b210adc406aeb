(** Model of src/points.cpp (meshes, lookup, filtered lists, arithmetic of points).
    double = exact rational Q; int = Z. *)
From Coq Require Import QArith Qabs Qround.
From Verif Require Import Base M_utilities.
Open Scope Z_scope.

Record v3 := V3 { c0 : Q; c1 : Q; c2 : Q }.
Definition vget (v : v3) (i : nat) : Q := match i with O => c0 v | 1%nat => c1 v | _ => c2 v end.
Definition vmap (f : Q -> Q) (v : v3) : v3 := V3 (f (c0 v)) (f (c1 v)) (f (c2 v)).
Definition vadd (a b : v3) : v3 := V3 (c0 a + c0 b) (c1 a + c1 b) (c2 a + c2 b).
Definition vsub (a b : v3) : v3 := V3 (c0 a - c0 b) (c1 a - c1 b) (c2 a - c2 b).
Definition sqNorm (a : v3) : Q := (c0 a * c0 a + c1 a * c1 a + c2 a * c2 a)%Q.

(** strict comparison a < b on doubles *)
Definition Qltb (a b : Q) : bool := negb (Qle_bool b a).

(** C++ round(): nearest integer, halves away from zero. *)
Definition cround (x : Q) : Z :=
  if Qle_bool 0 x then Qfloor (x + (1 # 2)) else - Qfloor (- x + (1 # 2)).

Definition eps6 : Q := 1 # 1000000.
Definition eps8 : Q := 1 # 100000000.
Definition eps5 : Q := 1 # 100000.

(** The data members of class Points used here (points.h:290-345). *)
Record mesh := Mesh { m0 : Z; m1 : Z; m2 : Z; off : v3 }.
Record points := Points {
  pmesh : mesh;
  numPoints : Z;
  explicitlyStored : bool;
  isPointsListSorted : bool;
  pointsList : list v3
}.

(** points.cpp:528-557 setMesh, followed by the mesh constructor points.cpp:17-22.
    The offset checks of l.544-552 are kept literally: (o < 0) && (o >= 1). *)
Definition badOffset (o : Q) : bool := Qltb o 0 && Qle_bool 1 o.
Definition newMesh (a b c : Z) (o : v3) : res points :=
  if a <=? 0 then Err else if b <=? 0 then Err else if c <=? 0 then Err else
  if badOffset (c0 o) then Err else if badOffset (c1 o) then Err else if badOffset (c2 o) then Err else
  Ok (Points (Mesh a b c o) (a * b * c) false false []).

(** points.cpp:233-240: coordinates of a mesh point. Division by a zero mesh cannot happen after
    setMesh. *)
Definition meshIndices (m : mesh) (index : Z) : Z * Z * Z :=
  let ikz := Z.quot index (m0 m * m1 m) in
  let idx_ := index - ikz * m0 m * m1 m in
  let iky := Z.quot idx_ (m0 m) in
  let ikx := modZ idx_ (m0 m) in
  (ikx, iky, ikz).
Definition meshCoordinates (m : mesh) (index : Z) : v3 :=
  let '(ikx, iky, ikz) := meshIndices m index in
  V3 (inject_Z ikx / inject_Z (m0 m) + c0 (off m))
     (inject_Z iky / inject_Z (m1 m) + c1 (off m))
     (inject_Z ikz / inject_Z (m2 m) + c2 (off m)).

(** points.cpp:222-248 getPointCoordinates in crystal coordinates. *)
Definition getPointCoordinates (p : points) (index : Z) : res v3 :=
  if explicitlyStored p then
    match zget (pointsList p) index with Some v => Ok v | None => UB end
  else Ok (meshCoordinates (pmesh p) index).

(** points.cpp:270-295 innermostPointsBinarySearch; fuel bounds the recursion, UB = fuel exhausted or
    out-of-range access. *)
Fixpoint innermost (fuel : nat) (l : list v3) (left right : Z) (x : v3) (dir : nat) : res Z :=
  match fuel with
  | O => UB
  | S f =>
    if right >=? left then
      let mid := left + Z.quot (right - left) 2 in
      match zget l mid with
      | None => UB
      | Some p =>
        let diff := (vget p dir - vget x dir)%Q in
        if Qltb (Qabs diff) eps6 then Ok mid
        else if Qltb eps6 diff then innermost f l left (mid - 1) x dir
        else innermost f l (mid + 1) right x dir
      end
    else Ok (-1)
  end.

(** points.cpp:331-335 / 346-350: sum over i = direction..2 of the squared differences. *)
Definition partialSq (p x : v3) (dir : nat) : Q :=
  fold_left (fun acc i => acc + (vget p i - vget x i) * (vget p i - vget x i))%Q (seq dir (3 - dir)) 0%Q.

(** points.cpp:327-343: while (idxMin > 0) { if same, --idxMin else break }. Fuel = idxMin. *)
Fixpoint growDown (k : nat) (l : list v3) (x : v3) (dir : nat) : nat :=
  match k with
  | O => O
  | S k' =>
    match nth_error l k' with
    | Some p => if Qltb (Qabs (partialSq p x dir)) eps6 then growDown k' l x dir else k
    | None => k
    end
  end.

(** points.cpp:344-357. Fuel = number of remaining columns. *)
Fixpoint growUp (fuel : nat) (k : nat) (l : list v3) (x : v3) (dir : nat) : nat :=
  match fuel with
  | O => k
  | S f =>
    match nth_error l (S k) with
    | Some p => if Qltb (Qabs (partialSq p x dir)) eps6 then growUp f (S k) l x dir else k
    | None => k
    end
  end.

(** points.cpp:312-359 internalPointsBinarySearch *)
Definition internalSearch (l : list v3) (idMin idMax : Z) (x : v3) (dir : nat) : res (Z * Z) :=
  do id <- innermost (S (length l)) l idMin idMax x dir ;
  if id =? -1 then Ok (-1, -1) else
  Ok (Z.of_nat (growDown (Z.to_nat id) l x dir),
      Z.of_nat (growUp (length l) (Z.to_nat id) l x dir)).

(** points.cpp:371-402 pointsBinarySearch *)
Definition pointsBinarySearch (l : list v3) (x : v3) : res Z :=
  do tz <- internalSearch l 0 (zlen l - 1) x 2 ;
  if (fst tz =? -1) || (snd tz =? -1) then Ok (-1) else
  do ty <- internalSearch l (fst tz) (snd tz) x 1 ;
  if (fst ty =? -1) || (snd ty =? -1) then Ok (-1) else
  do tx <- internalSearch l (fst ty) (snd ty) x 0 ;
  if (fst tx =? -1) || (snd tx =? -1) then Ok (-1) else
  if negb (fst tx =? snd tx) then Err else Ok (fst tx).

(** points.cpp:432-435 and 498-522 foldToBz in crystal coordinates: x -= floor(x + 1e-8). *)
Definition fold1 (x : Q) : Q := (x - inject_Z (Qfloor (x + eps8)))%Q.
Definition foldToBz (v : v3) : v3 := vmap fold1 v.

(** points.cpp:439-450: scan of an unsorted list, the last match wins. *)
Fixpoint linearScan (l : list v3) (i : Z) (x : v3) (best : Z) : Z :=
  match l with
  | [] => best
  | k :: r =>
    let diff := vmap fold1 (vsub k x) in
    linearScan r (i + 1) x (if Qltb (sqNorm diff) eps5 then i else best)
  end.

(** points.cpp:404-453 isPointStored.  l.414 accumulates the signed differences round(x)-x. *)
Definition meshScaled (m : mesh) (c : v3) : Q * Q * Q :=
  (((c0 c - c0 (off m)) * inject_Z (m0 m))%Q,
   ((c1 c - c1 (off m)) * inject_Z (m1 m))%Q,
   ((c2 c - c2 (off m)) * inject_Z (m2 m))%Q).

Definition isPointStoredMesh (m : mesh) (c : v3) : Z :=
  let '(x, y, z) := meshScaled m c in
  let diff := ((0 + (inject_Z (cround x) - x)) + (inject_Z (cround y) - y)
               + (inject_Z (cround z) - z))%Q in
  let p0 := modZ (cround x) (m0 m) in
  let p1 := modZ (cround y) (m1 m) in
  let p2 := modZ (cround z) (m2 m) in
  if Qle_bool eps6 diff then -1
  else p2 * m0 m * m1 m + p1 * m0 m + p0.

Definition isPointStored (p : points) (c : v3) : res Z :=
  if negb (explicitlyStored p) then Ok (isPointStoredMesh (pmesh p) c)
  else if isPointsListSorted p then pointsBinarySearch (pointsList p) (foldToBz c)
  else Ok (linearScan (firstn (Z.to_nat (numPoints p)) (pointsList p)) 0 c (-1)).

(** points.cpp:250-256 getIndex *)
Definition getIndex (p : points) (c : v3) : res Z :=
  do ik <- isPointStored p c ;
  if ik =? -1 then Err else Ok ik.

(** points.cpp:126-176 setActiveLayer (irreducible points not set, mesh not yet filtered).
    [notAbove x pOld] is the test of l.157 that clears the sorted flag. *)
Definition notAbove (x pOld : v3) : bool :=
  Qle_bool (c0 x) (c0 pOld) && Qle_bool (c1 x) (c1 pOld) && Qle_bool (c2 x) (c2 pOld).

(** one iteration of l.145-161 on (pointsList so far, sorted flag); maxIndex is 0 throughout, because
    l.151 assigns to the loop-local ik, not to maxIndex. *)
Definition activeStep (m : mesh) (st : list v3 * bool) (ik : Z) : res (list v3 * bool) :=
  let x := meshCoordinates m ik in
  let maxIndex := 0 in
  let ik' := if ik >? maxIndex then maxIndex else ik in
  if ik' <? 0 then Err else
  let sorted := match rev (fst st) with
                | [] => snd st
                | pOld :: _ => if notAbove x pOld then false else snd st
                end in
  Ok (fst st ++ [x], sorted).

Definition setActiveLayer (p : points) (filter : list Z) : res points :=
  if zlen filter =? numPoints p then Ok p else
  let m := pmesh p in
  do st <- foldM (activeStep m) filter ([], true) ;
  let maxIndex := 0 in
  if maxIndex + 1 >? m0 m * m1 m * m2 m then Err else
  Ok (Points m (zlen filter) true (snd st) (fst st)).

(** points.cpp:45-124 constructor from a path.  int(norm/delta) is computed exactly:
    floor(sqrt(|d|^2/delta^2)) = Z.sqrt(floor(|d|^2/delta^2)).
    A coordinate computed with nk = 0 is 0/0 or x/0*0 = NaN: such points are [None]; every
    comparison with NaN is false. *)
Definition pathNk (p0 p1 : v3) (delta : Q) : Z :=
  Z.sqrt (Qfloor (sqNorm (vsub p1 p0) / (delta * delta))).
Definition segmentPoint (p0 p1 : v3) (nk j : Z) : option v3 :=
  if nk =? 0 then None else
  Some (V3 ((c0 p1 - c0 p0) / inject_Z nk * inject_Z j + c0 p0)
           ((c1 p1 - c1 p0) / inject_Z nk * inject_Z j + c1 p0)
           ((c2 p1 - c2 p0) / inject_Z nk * inject_Z j + c2 p0)).
(** (thisP - lastP).norm() > 1e-8, i.e. squared norm > 1e-16 *)
Definition farEnough (a b : option v3) : bool :=
  match a, b with
  | Some a, Some b => Qltb (eps8 * eps8) (sqNorm (vsub a b))
  | _, _ => false
  end.
Definition pathSegment (delta : Q) (acc : list (option v3)) (seg : v3 * v3) : list (option v3) :=
  let '(p0, p1) := seg in
  let nk := pathNk p0 p1 delta in
  let segmentPoints := map (segmentPoint p0 p1 nk) (zrange 0 (nk + 1)) in
  let lastP := last acc None in
  match segmentPoints with
  | [] => acc
  | thisP :: others => (if farEnough thisP lastP then acc ++ [thisP] else acc) ++ others
  end.
Definition pathPoints (segs : list (v3 * v3)) (delta : Q) : list (option v3) :=
  match segs with
  | [] => []
  | (p0, _) :: _ => fold_left (pathSegment delta) segs [Some p0]
  end.
(** l.110-122: the sorted flag of a path *)
Fixpoint pathSorted (l : list v3) : bool :=
  match l with
  | a :: ((b :: _) as r) => negb (notAbove b a) && pathSorted r
  | _ => true
  end.
Definition pathObject (m : mesh) (l : list v3) : points :=
  Points m (zlen l) true (pathSorted l) l.

(** points.cpp:670-690 Point::operator+ / operator-: index of the result and umklapp vector. *)
Definition pointOp (op : v3 -> v3 -> v3) (p : points) (a b : Z) : res (Z * v3) :=
  do ca <- getPointCoordinates p a ;
  do cb <- getPointCoordinates p b ;
  let coordinates := op ca cb in
  do ik <- getIndex p coordinates ;
  do ck <- getPointCoordinates p ik ;
  Ok (ik, vsub ck coordinates).
Definition pointAdd := pointOp vadd.
Definition pointSub := pointOp vsub.

(** points.cpp:662-668 hasUmklapp: norm < 1e-8, i.e. squared norm < 1e-16. *)
Definition hasUmklapp (u : v3) : bool := negb (Qltb (sqNorm u) (eps8 * eps8)).

(** points.cpp:572-620 findMesh along one direction.  std::set<double> is an increasing list without
    repetitions; the two while loops bring the value into [0,1). *)
Definition fold01 (v : Q) : Q := (v - inject_Z (Qfloor v))%Q.
Fixpoint setInsert (v : Q) (l : list Q) : list Q :=
  match l with
  | [] => [v]
  | x :: r => if Qltb v x then v :: l else if Qeq_bool v x then l else x :: setInsert v r
  end.
Definition findMesh1 (values : list Q) : res (Z * Q) :=
  let s := fold_left (fun acc v => setInsert (fold01 v) acc) values [] in
  match s with
  | [] => UB                                          (* *s.begin() of an empty set *)
  | b :: r =>
    let isSingle := forallb (fun v => negb (Qltb eps6 (v - b) && Qltb eps6 (1 - v + b))) r in
    if isSingle then Ok (1, b)
    else
      match find (fun v => Qltb eps6 (v - b)) (b :: r) with
      | Some v => Ok (cround (1 / (v - b) + (1 # 10)), b)
      | None => UB
      end
  end.
Definition findMesh (pts : list v3) : res mesh :=
  do x <- findMesh1 (map c0 pts) ;
  do y <- findMesh1 (map c1 pts) ;
  do z <- findMesh1 (map c2 pts) ;
  if negb (zlen pts =? fst x * fst y * fst z) then Err
  else Ok (Mesh (fst x) (fst y) (fst z) (V3 (snd x) (snd y) (snd z))).

(** points.cpp:24-43 setupGVectors: integer coordinates of the columns of gVectors after column 0
    (the null vector); the unused trailing columns stay null. *)
Definition gTriples : list (Z * Z * Z) :=
  filter (fun t => let '(i1, i2, i3) := t in (i1 <=? 0) || (i2 <=? 0) || (i3 <=? 0))
    (flat_map (fun i1 => flat_map (fun i2 => map (fun i3 => (i1, i2, i3)) (zrange (-2) 5))
       (zrange (-2) 5)) (zrange (-2) 5)).
Definition gColumns : list (Z * Z * Z) :=
  (0, 0, 0) :: gTriples ++ repeat (0, 0, 0) (124 - length gTriples).

(** columns of the reciprocal unit cell *)
Record cell := Cell { b1 : v3; b2 : v3; b3 : v3 }.
Definition toCart (B : cell) (v : v3) : v3 :=
  V3 (c0 (b1 B) * c0 v + c0 (b2 B) * c1 v + c0 (b3 B) * c2 v)
     (c1 (b1 B) * c0 v + c1 (b2 B) * c1 v + c1 (b3 B) * c2 v)
     (c2 (b1 B) * c0 v + c2 (b2 B) * c1 v + c2 (b3 B) * c2 v).
Definition gVec (t : Z * Z * Z) : v3 := let '(i, j, k) := t in V3 (inject_Z i) (inject_Z j) (inject_Z k).

(** points.cpp:466-496 bzToWs, crystal coordinates in and out (the inverse of the unit cell applied
    to pointCart + G is taken to be the folded point plus the integer vector of G). *)
Definition shift8 : v3 := V3 eps8 eps8 eps8.
Definition wsStep (B : cell) (pointCart : v3) (st : Q * (Z * Z * Z)) (g : Z * Z * Z) : Q * (Z * Z * Z) :=
  let n2 := sqNorm (vadd (vadd pointCart (toCart B (gVec g))) shift8) in
  if Qltb n2 (fst st) then (n2, g) else st.
Definition bzToWs (B : cell) (point : v3) : v3 :=
  let pointCrystal := foldToBz point in
  let pointCart := toCart B pointCrystal in
  let st := fold_left (wsStep B pointCart) (tl gColumns) (sqNorm pointCart, (0, 0, 0)) in
  vadd pointCrystal (gVec (snd st)).
