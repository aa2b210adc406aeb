(** Model of Points::setIrreduciblePoints and the maps built from it (src/points.cpp:692-991). *)
From Coq Require Import QArith.
From Verif Require Import Base M_utilities M_mpi M_points.
Open Scope Z_scope.

(** 3x3 matrix by rows. SymmetryOperation::rotation (src/crystal.h), crystal coordinates. *)
Record m33 := M33 { r0 : v3; r1 : v3; r2 : v3 }.
Definition dot3 (a b : v3) : Q := (c0 a * c0 b + c1 a * c1 b + c2 a * c2 b)%Q.
Definition mv (A : m33) (v : v3) : v3 := V3 (dot3 (r0 A) v) (dot3 (r1 A) v) (dot3 (r2 A) v).

(** points.cpp:742-747 and 789-791: index of the rotated point, -1 if not stored. *)
Definition rotIndex (p : points) (A : m33) (ik : Z) : res Z :=
  do c <- getPointCoordinates p ik ; isPointStored p (mv A c).

(** std::set<int>::insert: increasing list without repetitions. *)
Fixpoint insertSet (x : Z) (l : list Z) : list Z :=
  match l with
  | [] => [x]
  | y :: r => if x <? y then x :: l else if x =? y then l else y :: insertSet x r
  end.

(** points.cpp:741-766 body of the loop over symmetries for one ik; [rot] gives ikRot. State:
    (equiv, thisStar). The inner test of l.761 is always true in that branch (ikRot < ik). *)
Definition starStep {S} (rot : S -> Z -> res Z) (ik : Z) (st : list Z * list Z) (s : S) : res (list Z * list Z) :=
  let '(equiv, star) := st in
  do ikRot <- rot s ik ;
  if ikRot >=? 0 then
    match zget equiv ikRot with
    | None => UB
    | Some e =>
      if e =? ikRot then
        if ikRot >=? ik then Ok (zupd equiv ikRot ik, insertSet ikRot star) else Err
      else Ok st
    end
  else Ok st.

(** points.cpp:729-772. State: (equiv, irreducibleStars); irreducibleStars is only appended to. *)
Definition pointStep {S} (rot : S -> Z -> res Z) (syms : list S) (st : list Z * list (list Z)) (ik : Z)
  : res (list Z * list (list Z)) :=
  let '(equiv, stars) := st in
  match zget equiv ik with
  | None => UB
  | Some e =>
    if e =? ik then
      do r <- foldM (starStep rot ik) syms (equiv, []) ;
      Ok (fst r, stars ++ [snd r])
    else Ok st
  end.
Definition findStars {S} (rot : S -> Z -> res Z) (syms : list S) (n : Z) (stars0 : list (list Z))
  : res (list Z * list (list Z)) :=
  foldM (pointStep rot syms) (zrange 0 n) (zrange 0 n, stars0).

(** points.cpp:788-796 first symmetry that maps ikIrr to ikRed; -1 (l.777) if there is none. *)
Fixpoint firstRotation {S} (rot : S -> Z -> res Z) (syms : list S) (is ikIrr ikRed : Z) : res Z :=
  match syms with
  | [] => Ok (-1)
  | s :: r =>
    do ikRot <- rot s ikIrr ;
    if ikRot =? ikRed then Ok is else firstRotation rot r (is + 1) ikIrr ikRed
  end.
(** points.cpp:779-798 *)
Definition rotationIndex {S} (rot : S -> Z -> res Z) (syms : list S) (equiv : list Z) (ikRed : Z) : res Z :=
  match zget equiv ikRed with
  | None => UB
  | Some e => if e =? ikRed then Ok 0 else firstRotation rot syms 0 e ikRed
  end.

(** points.cpp:800-848, with group velocities. [diff is ikIrr ikRed] is the accumulated squared
    difference of l.831-837 (an oracle: any function). Selected symmetries with their diff, then
    std::min_element (first minimum); dereferencing an empty vector is UB. *)
Fixpoint candidates {S} (rot : S -> Z -> res Z) (diff : Z -> Z -> Z -> Q) (syms : list S) (is ikIrr ikRed : Z)
  : res (list (Z * Q)) :=
  match syms with
  | [] => Ok []
  | s :: r =>
    do ikRot <- rot s ikIrr ;
    do rest <- candidates rot diff r (is + 1) ikIrr ikRed ;
    Ok (if ikRot =? ikRed then (is, diff is ikIrr ikRed) :: rest else rest)
  end.
Fixpoint minElement (best : Z * Q) (l : list (Z * Q)) : Z * Q :=
  match l with
  | [] => best
  | x :: r => minElement (if Qltb (snd x) (snd best) then x else best) r
  end.
Definition rotationIndexVel {S} (rot : S -> Z -> res Z) (diff : Z -> Z -> Z -> Q) (syms : list S)
    (equiv : list Z) (ikRed : Z) : res Z :=
  match zget equiv ikRed with
  | None => UB
  | Some e =>
    if e =? ikRed then Ok 0 else
    do c <- candidates rot diff syms 0 e ikRed ;
    match c with [] => UB | x :: r => Ok (fst (minElement x r)) end
  end.

(** points.cpp:851-868 mapIrreducibleToReducibleList; also irrPointsIterator, points.cpp:891-905. *)
Definition irrList (equiv : list Z) : list Z :=
  filter (fun j => match zget equiv j with Some e => e =? j | None => false end) (zrange 0 (zlen equiv)).

(** std::lower_bound on an increasing list: number of leading elements smaller than x.  The list is
    increasing, so the bisection of the library is TRUSTED to return this position. *)
Fixpoint lowerBound (l : list Z) (x : Z) : Z :=
  match l with [] => 0 | y :: r => if y <? x then 1 + lowerBound r x else 0 end.

(** points.cpp:872-888 on the rank [rank] of [size]: zero vector, own share filled in. *)
Definition redToIrrLocal (equiv : list Z) (rank size : Z) : res (list Z) :=
  let n := zlen equiv in
  do mine <- divideWorkIter n rank size ;
  foldM (fun acc ik =>
           match zget equiv ik with
           | None => UB
           | Some e => Ok (zupd acc ik (lowerBound (irrList equiv) e))
           end) mine (repeat 0 (Z.to_nat n)).
(** l.888 allReduceSum: result on each rank *)
Definition redToIrr (equiv : list Z) (size : Z) : res (list (list Z)) :=
  do locals <- mapM (fun r => redToIrrLocal equiv r size) (zrange 0 size) ;
  Ok (allReduceSum locals).

(** points.cpp:907-916 parallelIrrPointsIterator *)
Definition parallelIrr (equiv : list Z) (rank size : Z) : list Z :=
  let v := irrList equiv in
  let '(start, stop) := divideWork (zlen v) rank size in
  firstn (Z.to_nat (stop - start)) (skipn (Z.to_nat start) v).

(** points.cpp:692-889 the whole call without velocities; result: equiv, stars, rotation indices.
    l.722 identity check is a hypothesis of the theorems (first symmetry = identity). *)
Definition setIrreduciblePoints {S} (rot : S -> Z -> res Z) (syms : list S) (n : Z) (stars0 : list (list Z))
  : res (list Z * list (list Z) * list Z) :=
  do es <- findStars rot syms n stars0 ;
  do ri <- mapM (rotationIndex rot syms (fst es)) (zrange 0 n) ;
  Ok (fst es, snd es, ri).

(** points.cpp:965-985 getRotationsStar / 987-991 getReducibleStarFromIrreducible: star of ik and
    the rotation indices of its members. *)
Definition starOf (stars : list (list Z)) (red2irr : list Z) (ik : Z) : res (list Z) :=
  match zget red2irr ik with
  | None => UB
  | Some i => match zget stars i with None => UB | Some st => Ok st end
  end.

(** points.cpp:918-934 asIrreducibleIndex / asReducibleIndex, numIrrPoints = length of the list of
    irreducible points; out of range reads are UB (the asserts are compiled out in release). *)
Definition asIrreducibleIndex (irr red2irr : list Z) (ik : Z) : res Z :=
  if 0 <? zlen irr then match zget red2irr ik with Some i => Ok i | None => UB end else Ok ik.
Definition asReducibleIndex (irr : list Z) (i : Z) : res Z :=
  if 0 <? zlen irr then match zget irr i with Some ik => Ok ik | None => UB end else Ok i.

(** points.cpp:965-985: the symmetries of the star (the Cartesian rotation is the same symmetry in
    another basis, l.714, so the model returns the crystal matrix). *)
Definition getRotationsStar {S} (syms : list S) (stars : list (list Z)) (red2irr rotIdx : list Z) (ik : Z) : res (list S) :=
  do st <- starOf stars red2irr ik ;
  mapM (fun ikFull =>
          match zget rotIdx ikFull with
          | None => UB
          | Some is => match zget syms is with None => UB | Some A => Ok A end
          end) st.

(** Eigen::Matrix3d::inverse(): adjugate over determinant. *)
Definition det3 (A : m33) : Q :=
  (c0 (r0 A) * (c1 (r1 A) * c2 (r2 A) - c2 (r1 A) * c1 (r2 A))
   - c1 (r0 A) * (c0 (r1 A) * c2 (r2 A) - c2 (r1 A) * c0 (r2 A))
   + c2 (r0 A) * (c0 (r1 A) * c1 (r2 A) - c1 (r1 A) * c0 (r2 A)))%Q.
Definition inv3 (A : m33) : m33 :=
  let d := det3 A in
  M33 (V3 ((c1 (r1 A) * c2 (r2 A) - c2 (r1 A) * c1 (r2 A)) / d)
          ((c2 (r0 A) * c1 (r2 A) - c1 (r0 A) * c2 (r2 A)) / d)
          ((c1 (r0 A) * c2 (r1 A) - c2 (r0 A) * c1 (r1 A)) / d))
      (V3 ((c2 (r1 A) * c0 (r2 A) - c0 (r1 A) * c2 (r2 A)) / d)
          ((c0 (r0 A) * c2 (r2 A) - c2 (r0 A) * c0 (r2 A)) / d)
          ((c2 (r0 A) * c0 (r1 A) - c0 (r0 A) * c2 (r1 A)) / d))
      (V3 ((c0 (r1 A) * c1 (r2 A) - c1 (r1 A) * c0 (r2 A)) / d)
          ((c1 (r0 A) * c0 (r2 A) - c0 (r0 A) * c1 (r2 A)) / d)
          ((c0 (r0 A) * c1 (r1 A) - c1 (r0 A) * c0 (r1 A)) / d)).

(** points.cpp:936-963 in crystal coordinates, irreducible points set. *)
Definition getRotationToIrreducible (p : points) (syms : list m33) (equiv rotIdx : list Z) (x : v3) : res (Z * m33) :=
  do ik <- getIndex p x ;
  match zget rotIdx ik with
  | None => UB
  | Some is =>
    match zget syms is, zget equiv ik with
    | Some A, Some e => Ok (e, inv3 A)
    | _, _ => UB
    end
  end.
