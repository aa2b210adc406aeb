(** Model of the matrices that hold the energies, velocities and eigenvectors of band structures: src/algebra/Matrix.h:24-45, 109-158, 185-293 and
    Matrix.cpp:1-84 (class Matrix), SMatrix.h:195-301, with the copies of src/bands/bandstructure.cpp:17-101. A Matrix is two pointers to matrices it
    owns, one of which is in use. Simplified: the buffer of a SerialMatrix or ParallelMatrix is part of its block of memory; which elements of
    a ParallelMatrix a process stores is an argument (M_pmatrix models it), and their number fits into an int; memory is never exhausted; all matrices have
    elements of one type. *)
From Verif Require Import Base.
Open Scope Z_scope.

Section Container.
Context {T : Type}.
Variable zero : T.
(** mine rows cols r c: the process stores the element (r, c) of a distributed matrix of this size (PMatrix.h:523-531 indicesAreLocal) *)
Variable mine : Z -> Z -> Z -> Z -> bool.

(** SerialMatrix or ParallelMatrix *)
Record block := { bRows : Z; bCols : Z; bVal : Z -> Z -> T }.
(** Matrix: isDistributed, pmat, mat (Matrix.h:34-44) *)
Record object := { oDist : bool; oP : option Z; oM : option Z }.
(** memory, the first address never used, the named variables *)
Record state := { heap : Z -> option block; fresh : Z; objs : Z -> option object }.
Definition start : state := {| heap := fun _ => None; fresh := 0; objs := fun _ => None |}.
Definition put {A} (f : Z -> A) (i : Z) (x : A) : Z -> A := fun j => if j =? i then x else f j.
Definition withHeap (s : state) (h : Z -> option block) : state := {| heap := h; fresh := fresh s; objs := objs s |}.
Definition withObj (s : state) (x : Z) (o : option object) : state := {| heap := heap s; fresh := fresh s; objs := put (objs s) x o |}.
(** new *)
Definition alloc (s : state) (b : block) : Z * state := (fresh s, {| heap := put (heap s) (fresh s) (Some b); fresh := fresh s + 1; objs := objs s |}).
(** if (p != nullptr) delete p; deleting what is not allocated is undefined *)
Definition free (s : state) (p : option Z) : res state :=
  match p with None => Ok s | Some a => match heap s a with None => UB | Some _ => Ok (withHeap s (put (heap s) a None)) end end.
(** *p *)
Definition deref (s : state) (p : option Z) : res block := match p with None => UB | Some a => match heap s a with None => UB | Some b => Ok b end end.
(** *p = b *)
Definition store (s : state) (p : option Z) (b : block) : res state :=
  match p with None => UB | Some a => match heap s a with None => UB | Some _ => Ok (withHeap s (put (heap s) a (Some b))) end end.
(** the pointer in use (Matrix.h:255-293) *)
Definition inUse (o : object) : option Z := if oDist o then oP o else oM o.
Definition variable (s : state) (x : Z) : res object := match objs s x with Some o => Ok o | None => UB end.

(** SMatrix.h:195-211: the number of elements is an int; PMatrix.h:247-313 *)
Definition newBlock (rows cols : Z) (dist : bool) : res block :=
  do n <- (if dist then Ok 0 else ck (rows * cols)) ; if n <? 0 then Err else Ok {| bRows := rows; bCols := cols; bVal := fun _ _ => zero |}.
(** Matrix.h:185-199 *)
Definition construct (s : state) (x rows cols : Z) (dist : bool) : res state :=
  do b <- newBlock rows cols dist ; let '(a, s1) := alloc s b in
  Ok (withObj s1 x (Some (if dist then {| oDist := true; oP := Some a; oM := None |} else {| oDist := false; oP := None; oM := Some a |}))).
(** Matrix.h:201-208, SMatrix.h:213-220 *)
Definition constructDefault (s : state) (x : Z) : res state :=
  let '(a, s1) := alloc s {| bRows := 0; bCols := 0; bVal := fun _ _ => zero |} in Ok (withObj s1 x (Some {| oDist := false; oP := None; oM := Some a |})).
(** Matrix.h:210-222: the pointers of a new object are null (l.36, 42) *)
Definition copyConstruct (s : state) (x : Z) (that : object) : res state :=
  let o := {| oDist := oDist that; oP := None; oM := None |} in
  do b <- deref s (inUse that) ; do s1 <- store s (inUse o) b ; Ok (withObj s1 x (Some o)).
(** Matrix.h:224-239 *)
Definition assign (s : state) (x y : Z) : res state :=
  do o <- variable s x ; do that <- variable s y ;
  if x =? y then Ok s else
  do s1 <- free s (if oDist that then oP o else oM o) ;
  do b <- deref s1 (inUse that) ;
  let '(a, s2) := alloc s1 b in
  Ok (withObj s2 x (Some (if oDist that then {| oDist := true; oP := Some a; oM := oM o |} else {| oDist := false; oP := oP o; oM := Some a |}))).
(** Matrix.h:241-250 *)
Definition destroy (s : state) (x : Z) : res state :=
  do o <- variable s x ; do s1 <- free s (oP o) ; do s2 <- free s1 (oM o) ; Ok (withObj s2 x None).
(** Matrix.h:253-272 *)
Definition rowsOf (s : state) (x : Z) : res Z := do o <- variable s x ; do b <- deref s (inUse o) ; Ok (bRows b).
Definition colsOf (s : state) (x : Z) : res Z := do o <- variable s x ; do b <- deref s (inUse o) ; Ok (bCols b).
(** Matrix.h:287-303. SMatrix.h:286-301: elements out of bounds are refused; PMatrix.h:502-521: elements stored elsewhere are read as zero, and
    writing them changes a variable that is not part of the matrix *)
Definition outside (b : block) (r c : Z) : bool := (bRows b <=? r) || (bCols b <=? c) || (r <? 0) || (c <? 0).
Definition element (s : state) (x r c : Z) : res T :=
  do o <- variable s x ; do b <- deref s (inUse o) ;
  if oDist o then Ok (if mine (bRows b) (bCols b) r c then bVal b r c else zero) else if outside b r c then Err else Ok (bVal b r c).
Definition setElement (s : state) (x r c : Z) (v : T) : res state :=
  do o <- variable s x ; do b <- deref s (inUse o) ;
  let b' := {| bRows := bRows b; bCols := bCols b; bVal := fun i j => if (i =? r) && (j =? c) then v else bVal b i j |} in
  if oDist o then if mine (bRows b) (bCols b) r c then store s (inUse o) b' else Ok s
  else if outside b r c then Err else store s (inUse o) b'.
(** Matrix.h:121-158: x += y and the like; [f]: the operation of SMatrix.h or PMatrix.h. The result is returned by value, as the copy [z]. *)
Definition compound (f : block -> block -> res block) (s : state) (z x y : Z) : res state :=
  do o <- variable s x ; do that <- variable s y ;
  do b <- deref s (inUse o) ; do c <- deref s (if oDist o then oP that else oM that) ; do d <- f b c ;
  do s1 <- store s (inUse o) d ; copyConstruct s1 z o.
(** Matrix.cpp:1-23: z = x.prod(y); the first statement is a copy *)
Definition product (f : block -> block -> res block) (s : state) (z x y : Z) : res state :=
  do o <- variable s x ; do that <- variable s y ; do s1 <- copyConstruct s z o ;
  do b <- deref s1 (inUse o) ; do c <- deref s1 (if oDist o then oP that else oM that) ; do d <- f b c ;
  do n <- variable s1 z ; store s1 (inUse n) d.

Inductive op :=
| New (x rows cols : Z) (dist : bool) | Default (x : Z) | Copy (x y : Z) | Assign (x y : Z) | Set_ (x r c : Z) (v : T) | Destroy (x : Z).
Definition exec (s : state) (o : op) : res state :=
  match o with
  | New x r c d => construct s x r c d
  | Default x => constructDefault s x
  | Copy x y => do that <- variable s y ; copyConstruct s x that
  | Assign x y => assign s x y
  | Set_ x r c v => setElement s x r c v
  | Destroy x => destroy s x
  end.
Definition run (s : state) (ops : list op) : res state := foldM exec ops s.

(** the matrices of a band structure: energies, velocities, eigenvectors (bandstructure.h:678-680) *)
Record bands := { energies : Z; velocities : Z; eigenvectors : Z }.
(** bandstructure.cpp:71-83: copy constructor *)
Definition copyBands (new that : bands) : list op :=
  [Default (energies new); Default (velocities new); Default (eigenvectors new);
   Assign (energies new) (energies that); Assign (velocities new) (velocities that); Assign (eigenvectors new) (eigenvectors that)].
(** l.17-68; [t]: the temporary on the right hand side; numLocalPoints, the messages and the error for more processes than points are
    left out; the numbers of rows are taken to fit into an int *)
Definition makeBands (new : bands) (t nBands nPoints : Z) (phonon withVelocities withEigenvectors dist : bool) : list op :=
  let fill x rows := [New t rows nPoints dist; Assign x t; Destroy t] in
  [Default (energies new); Default (velocities new); Default (eigenvectors new)] ++ fill (energies new) nBands ++
  (if withVelocities then fill (velocities new) (nBands * nBands * 3) else []) ++ (if withEigenvectors then fill (eigenvectors new) (if phonon then 3 * Z.quot nBands 3 * nBands else nBands * nBands) else []).
Definition destroyBands (b : bands) : list op := [Destroy (eigenvectors b); Destroy (velocities b); Destroy (energies b)].
End Container.
Arguments block T : clear implicits.
Arguments state T : clear implicits.
Arguments op T : clear implicits.
