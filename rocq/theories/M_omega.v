(** Model of the representations of the collision matrix, src/bte/scattering.cpp: a2Omega, getLinewidths, setLinewidths,
    diagonal, getSingleModeTimes. Real numbers: no rounding. One calculation (l.108-112: a matrix in memory allows only one). *)
From Coq Require Import Reals.
From Verif Require Import Base M_matrix M_scattering.
Open Scope Z_scope.

(** What the processes hold: [smDiag p b] = internalDiagonal of process p, [smPart p r c] = element (r,c) of its part,
    [smOmega] = isMatrixOmega *)
Record smatrix := { smDiag : Z * Z -> Z -> R; smPart : Z * Z -> Z -> Z -> R; smOmega : bool }.

Section Representation.
(** [sym] = useSymmetries, [excl] = excludeIndices, [pop b] = n(n+1) or n(1-n) of state b, [n] = numStates, [L] = layout *)
Variables (sym : bool) (excl : list Z) (pop : Z -> R) (n : Z) (L : layout).

(** scattering.cpp:391-431: one local element *)
Definition omegaStep (st : (Z -> R) * (Z -> Z -> R)) (t : Z * Z) : (Z -> R) * (Z -> Z -> R) :=
  let '(d, M) := st in
  let b1 := fst (ofMat sym (fst t)) in let b2 := fst (ofMat sym (snd t)) in
  if isIn excl b1 then st else if isIn excl b2 then st else
  ((if b1 =? b2 then fun b => if b =? b1 then (d b / pop b1)%R else d b else d),
   fun r c => if (r =? fst t) && (c =? snd t) then (M r c / sqrt (pop b1 * pop b2))%R else M r c).
(** l.366-433; [elems p] = local elements of process p in the order in which its threads take them. Simplified: the
    updates of internalDiagonal by different threads do not race. *)
Definition a2Omega (elems : Z * Z -> list (Z * Z)) (S : smatrix) : smatrix :=
  if smOmega S then S else
  {| smDiag := fun p => fst (fold_left omegaStep (elems p) (smDiag S p, smPart S p));
     smPart := fun p => snd (fold_left omegaStep (elems p) (smDiag S p, smPart S p));
     smOmega := true |}.

(** l.529-568: [crt] = 2 pi / constant relaxation time when it is set *)
Definition getLinewidths (electron : bool) (crt : option R) (S : smatrix) (p : Z * Z) : res (Z -> R) :=
  match crt with
  | Some c => Ok (fun _ => c)
  | None => if smOmega S then Ok (smDiag S p) else if electron then Err else Ok (fun b => (smDiag S p b / pop b)%R)
  end.
(** l.171-180 diagonal *)
Definition diagonal (crt : option R) (S : smatrix) (p : Z * Z) : Z -> R := match crt with Some c => fun _ => c | None => smDiag S p end.
(** l.484-512 getTimesFromVectorBTE(internalDiagonal); [twoPi2] = relaxation time / 2 pi. VectorBTE::reciprocal = 1/x *)
Definition getSingleModeTimes (crtTime : option R) (S : smatrix) (p : Z * Z) (b : Z) : R :=
  match crtTime with Some c => c | None => if smOmega S then (1 / smDiag S p b)%R else (pop b / smDiag S p b)%R end.
(** l.612-636: the diagonal blocks of the part of process p *)
Definition replaceDiagonal (d : Z -> R) (p : Z * Z) (M : Z -> Z -> R) : Z -> Z -> R :=
  let wr (M : Z -> Z -> R) (r c : Z) (f : R -> R) : Z -> Z -> R :=
    fun r' c' => if (r' =? r) && (c' =? c) && indicesAreLocal L p r c then f (M r' c') else M r' c' in
  if sym then
    fold_left (fun M b => fold_left (fun M i =>
      let M := fold_left (fun M j => wr M (toMat sym b i) (toMat sym b j) (fun _ => 0%R)) three M in
      wr M (toMat sym b i) (toMat sym b i) (fun x => x + d b)%R) three M) (zrange 0 n) M
  else fold_left (fun M b => wr M b b (fun _ => d b)) (zrange 0 n) M.
(** l.570-637: [calcs], [states] = sizes of the argument and of internalDiagonal *)
Definition setLinewidths (highMemory : bool) (calcs calcs' states states' : Z) (lw : Z -> R) (S : smatrix) : res smatrix :=
  if negb (calcs' =? calcs) then Err else if negb (states' =? states) then Err else
  let d := fun _ : Z * Z => if smOmega S then lw else fun b => (lw b * pop b)%R in
  Ok {| smDiag := d; smPart := if highMemory then fun p => replaceDiagonal (d p) p (smPart S p) else smPart S; smOmega := smOmega S |}.
End Representation.
