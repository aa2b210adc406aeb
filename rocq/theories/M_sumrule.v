(** Model of src/harmonic/phonon_h0_sum_rule.cpp (PhononH0::setAcousticSumRule). Values are rationals: no rounding.
    Simplification: the code stores normalised vectors u = w / sqrt(norm2) and uses each of them twice in every product
    (scalar = <x, u>, then scalar * u); the model keeps w and norm2 and writes this <x, w> / norm2 * w, which is the same number
    without square roots. In the same way the two nonzero entries +-1/sqrt(2) of the symmetry vectors, always used in pairs, give
    factors 1/2. *)
From Coq Require Import QArith Qcanon String Ascii.
From Verif Require Import Base M_utilities M_matrix M_context.
Open Scope string_scope.
Open Scope list_scope.
Open Scope Z_scope.

(** l.46-59: simple rule on Born charges [z na i j] *)
Definition simpleCharges (nAt : Z) (z : Z -> Z -> Z -> Qc) (na i j : Z) : Qc :=
  (z na i j - qsum (map (fun nb => z nb i j) (zrange 0 nAt)) / Q2Qc (inject_Z nAt))%Qc.

(** l.86-232: crystal rule on Born charges. Indices (i, j, atom) *)
Definition chargeIdx (nAt : Z) : list (Z * Z * Z) := list_prod (list_prod (zrange 0 3) (zrange 0 3)) (zrange 0 nAt).
Definition cvec : Type := Z * Z * Z -> Qc.
(** l.652-666 sp_zeu *)
Definition spZeu (nAt : Z) (u v : cvec) : Qc := qsum (map (fun x => u x * v x)%Qc (chargeIdx nAt)).
(** l.100-111: vector of (i, j) *)
Definition chargeVector (i j : Z) : cvec := fun x => let '(i', j', _) := x in if (i' =? i) && (j' =? j) then 1%Qc else 0%Qc.
Definition tiny : Qc := Q2Qc (1 # 10000000000000000).
(** l.157, 206: w -= <x, u> u, for vectors kept (Some) *)
Definition subProj {I} (ip : (I -> Qc) -> (I -> Qc) -> Qc) (x w : I -> Qc) (u : option ((I -> Qc) * Qc)) : I -> Qc :=
  match u with Some (wq, n2) => let s := (ip x wq / n2)%Qc in fun a => (w a - s * wq a)%Qc | None => w end.
Definition addProj {I} (ip : (I -> Qc) -> (I -> Qc) -> Qc) (f w : I -> Qc) (u : option ((I -> Qc) * Qc)) : I -> Qc :=
  match u with Some (wq, n2) => let s := (ip wq f / n2)%Qc in fun a => (w a + s * wq a)%Qc | None => w end.
(** l.160-175 *)
Definition keep {I} (ip : (I -> Qc) -> (I -> Qc) -> Qc) (w : I -> Qc) : option ((I -> Qc) * Qc) :=
  let n2 := ip w w in if Qclt_le_dec tiny n2 then Some (w, n2) else None.
(** l.128-176; l.139: the loop over previous vectors is q < k - 1 *)
Definition chargeStep (nAt : Z) (us : list (option (cvec * Qc))) (p : Z * Z) : list (option (cvec * Qc)) :=
  let x := chargeVector (fst p) (snd p) in
  let w := fold_left (subProj (spZeu nAt) x) (firstn (length us - 1) us) x in
  us ++ [keep (spZeu nAt) w].
Definition chargeBasis (nAt : Z) : list (option (cvec * Qc)) := fold_left (chargeStep nAt) (list_prod (zrange 0 3) (zrange 0 3)) [].
(** l.181-232 *)
Definition crystalCharges (nAt : Z) (z : Z -> Z -> Z -> Qc) : Z -> Z -> Z -> Qc :=
  let new := fun x : Z * Z * Z => let '(i, j, na) := x in z na i j in
  let w := fold_left (addProj (spZeu nAt) new) (chargeBasis nAt) (fun _ => 0%Qc) in
  fun na i j => (new (i, j, na) - w (i, j, na))%Qc.

(** * Force constants: indices (n1, n2, n3, i, j, na, nb) *)
Definition fidx : Type := Z * Z * Z * Z * Z * Z * Z.
Definition fvec : Type := fidx -> Qc.
Definition fidxb (x y : fidx) : bool :=
  let '(n1, n2, n3, i, j, na, nb) := x in let '(m1, m2, m3, k, l, ma, mb) := y in
  (n1 =? m1) && (n2 =? m2) && (n3 =? m3) && (i =? k) && (j =? l) && (na =? ma) && (nb =? mb).
Definition fset (f : fvec) (x : fidx) (v : Qc) : fvec := fun y => if fidxb x y then v else f y.

Section Force.
Variables (nr1 nr2 nr3 nAt : Z).
Definition cells : list (Z * Z * Z) := list_prod (list_prod (zrange 0 nr1) (zrange 0 nr2)) (zrange 0 nr3).
(** l.66-75 *)
Definition rowSum (f : fvec) (i j na : Z) : Qc :=
  qsum (map (fun p => let '(nb, (n1, n2, n3)) := p in f (n1, n2, n3, i, j, na, nb)) (list_prod (zrange 0 nAt) cells)).
Definition onSite (i j na : Z) : fidx := (0, 0, 0, i, j, na, na).
(** l.63-79: simple rule, updates in place *)
Definition simpleForces (f : fvec) : fvec :=
  fold_left (fun f p => let '(i, j, na) := p in fset f (onSite i j na) (f (onSite i j na) - rowSum f i j na)%Qc)
    (list_prod (list_prod (zrange 0 3) (zrange 0 3)) (zrange 0 nAt)) f.

(** l.298-304: order of the loops *)
Definition allIdx : list fidx :=
  flat_map (fun i => flat_map (fun j => flat_map (fun na => flat_map (fun nb => map (fun c => let '(n1, n2, n3) := c in (n1, n2, n3, i, j, na, nb)) cells)
    (zrange 0 nAt)) (zrange 0 nAt)) (zrange 0 3)) (zrange 0 3).
Definition ipF (u v : fvec) : Qc := qsum (map (fun x => u x * v x)%Qc allIdx).
(** l.346-352, from zero: mod(nr + 1 - (n + 1), nr) *)
Definition partner (x : fidx) : fidx :=
  let '(n1, n2, n3, i, j, na, nb) := x in (modZ (nr1 - n1) nr1, modZ (nr2 - n2) nr2, modZ (nr3 - n3) nr3, j, i, nb, na).
(** l.295-361: pairs of indices related by symmetry, each once *)
Definition addPair (l : list (fidx * fidx)) (x : fidx) : list (fidx * fidx) :=
  if existsb (fun p => fidxb (fst p) x || fidxb (snd p) x) l then l
  else if fidxb x (partner x) then l else l ++ [(x, partner x)].
Definition pairs : list (fidx * fidx) := fold_left addPair allIdx [].
(** l.397-420: projection of w on the symmetric vectors *)
Definition removePair (w : fvec) (p : fidx * fidx) : fvec :=
  let s := ((w (fst p) - w (snd p)) / Q2Qc 2)%Qc in
  let w1 := fset w (fst p) (w (fst p) - s)%Qc in fset w1 (snd p) (w1 (snd p) + s)%Qc.
(** l.268-287: vector p of (i, j, na) and their order *)
Definition sumVector (i j na : Z) : fvec := fun x => let '(_, _, _, i', j', na', _) := x in if (i' =? i) && (j' =? j) && (na' =? na) then 1%Qc else 0%Qc.
Definition sumVectors : list (Z * Z * Z) := flat_map (fun na => flat_map (fun j => map (fun i => (i, j, na)) (zrange 0 3)) (zrange 0 3)) (zrange 0 nAt).
(** l.422-437, k from 1: atom and first component attributed to vector k (from zero) *)
Definition decodeVector (k : Z) : Z * Z :=
  let na1 := if modZ k nAt =? 0 then nAt else modZ k nAt in
  let j1 := modZ (Z.quot (k - na1) nAt) 3 + 1 in
  let i1 := modZ (Z.quot (Z.quot (k - na1) nAt - j1 + 1) 3) 3 + 1 in
  (i1 - 1, na1 - 1).
(** l.446-459 *)
Definition sliceProduct (i1 na1 : Z) (x u : fvec) : Qc :=
  qsum (map (fun p => let '(nb, j, (n1, n2, n3)) := p in x (n1, n2, n3, i1, j, na1, nb) * u (n1, n2, n3, i1, j, na1, nb))%Qc
    (list_prod (list_prod (zrange 0 nAt) (zrange 0 3)) cells)).
(** l.376-521 *)
Definition forceStep (us : list (option (fvec * Qc))) (p : Z * Z * Z) : list (option (fvec * Qc)) :=
  let '(i, j, na) := p in
  let x := sumVector i j na in
  let w0 := fold_left removePair pairs x in
  let '(i1, na1) := decodeVector (Z.of_nat (length us) + 1) in
  let w := fold_left (subProj (sliceProduct i1 na1) x) us w0 in
  us ++ [keep ipF w].
Definition forceBasis : list (option (fvec * Qc)) := fold_left forceStep sumVectors [].
(** l.526-552: components along the symmetry vectors *)
Definition addPairProj (f w : fvec) (p : fidx * fidx) : fvec :=
  let s := ((f (fst p) - f (snd p)) / Q2Qc 2)%Qc in
  let w1 := fset w (fst p) (w (fst p) + s)%Qc in fset w1 (snd p) (w1 (snd p) - s)%Qc.
(** l.526-644 *)
Definition crystalForces (f : fvec) : fvec :=
  let w0 := fold_left (addPairProj f) pairs (fun _ => 0%Qc) in
  let w := fold_left (addProj ipF f) forceBasis w0 in
  fun x => (f x - w x)%Qc.
End Force.

(** l.29-38: names of the rule, compared in lower case *)
Inductive sumRule := NoRule | Simple | Crystal.
Definition parseRule (s : str) : res sumRule :=
  match s with [] => Ok NoRule | _ =>
  let l := map tolower s in
  if streq l (str! "simple") then Ok Simple else if streq l (str! "crystal") then Ok Crystal else Err end.
