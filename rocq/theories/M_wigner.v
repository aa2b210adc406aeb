(** Model of the Wigner-Seitz vectors of a supercell, src/crystal.cpp:352-640.
    [d v] = length of the lattice vector with crystal coordinates v (directUnitCell * v, plus the shift between the two
    centres): an arbitrary function here. Simplified: lengths are exact rationals, no overflow of int. *)
From Coq Require Import QArith Qabs.
From Verif Require Import Base.
Open Scope Z_scope.

Definition v3 : Type := Z * Z * Z.
(** loops over -m..m, first index slowest *)
Definition box (m : v3) : list v3 :=
  let '(m0, m1, m2) := m in list_prod (list_prod (zrange (- m0) (2 * m0 + 1)) (zrange (- m1) (2 * m1 + 1))) (zrange (- m2) (2 * m2 + 1)).
(** l.387-393: i - j * grid *)
Definition shiftBy (g i j : v3) : v3 :=
  let '(g0, g1, g2) := g in let '(i0, i1, i2) := i in let '(j0, j1, j2) := j in (i0 - j0 * g0, i1 - j1 * g1, i2 - j2 * g2).
Definition tol : Q := 1 # 1000000.
Definition near (x y : Q) : bool := negb (Qle_bool tol (Qabs (x - y))).
Definition minOf (l : list Q) : Q := match l with [] => 0 | x :: r => fold_left (fun a y => if Qle_bool a y then a else y) r x end.
(** l.384-416: the vector i of supercell A: its degeneracy if it is kept *)
Definition wsDegeneracy (g : v3) (nx : Z) (d : v3 -> Q) (i : v3) : res (option Z) :=
  let distances := map (fun j => d (shiftBy g i j)) (box (nx + 1, nx + 1, nx + 1)) in
  let distMin := minOf distances in
  match zget distances (Z.quot ((2 * (nx + 1) + 1) ^ 3) 2) with
  | None => UB
  | Some x => Ok (if near x distMin then Some (zlen (filter (fun y => near y distMin) distances)) else None)
  end.
(** l.376-421 *)
Definition wsList (g : v3) (nx : Z) (d : v3 -> Q) : res (list (v3 * Z)) :=
  let '(g0, g1, g2) := g in
  do l <- mapM (fun i => do o <- wsDegeneracy g nx d i ; Ok (match o with Some n => [(i, n)] | None => [] end)) (box (nx * g0, nx * g1, nx * g2)) ;
  Ok (concat l).
Definition sumQ (l : list Q) : Q := fold_right Qplus 0%Q l.
Definition weight (x : v3 * Z) : Q := 1 / inject_Z (snd x).
Definition isOrigin (v : v3) : bool := let '(a, b, c) := v in (a =? 0) && (b =? 0) && (c =? 0).
(** index of the last origin, -1 if none *)
Fixpoint originIndex (k : Z) (acc : Z) (l : list (v3 * Z)) : Z :=
  match l with [] => acc | x :: r => originIndex (k + 1) (if isOrigin (fst x) then k else acc) r end.
(** l.423-458; the vectors are kept in crystal coordinates *)
Definition buildWignerSeitzVectors (g : v3) (nx : Z) (d : v3 -> Q) : res (list (v3 * Z)) :=
  let '(g0, g1, g2) := g in
  do l <- wsList g nx d ;
  let tot := sumQ (map weight l) in
  if negb (Qle_bool (Qabs (tot - inject_Z (g0 * g1 * g2))) tol) then Err else
  let o := originIndex 0 (-1) l in
  if o =? -1 then Err else
  match zget l o, zget l 0 with
  | Some x, Some y => Ok (zupd (zupd l 0 x) o y)
  | _, _ => UB
  end.

(** * With shifts, l.461-639; [ds a b] = lengths for the pair of centres (a,b), [n] = number of centres *)
(** l.574-592: the list of unique vectors *)
Definition uniqueStep (acc : list v3) (x : v3) : list v3 :=
  let same (y : v3) : bool := let '(a, b, c) := x in let '(a', b', c') := y in (a =? a') && (b =? b') && (c =? c') in
  let found := match acc with [] => true | _ => existsb same acc end in
  if found then acc ++ [x] else acc.
(** l.596-616: degeneracy stored with each of them *)
Definition degOf (vs : list v3) (l : list (v3 * Z)) : list Z :=
  fold_left (fun degs x =>
    let same (y : v3) : bool := let '(a, b, c) := fst x in let '(a', b', c') := y in (a =? a') && (b =? b') && (c =? c') in
    match find (fun k => match zget vs k with Some y => same y | None => false end) (zrange 0 (zlen vs)) with
    | Some k => zupd degs k (snd x) | None => degs end) l (map (fun _ => 0) vs).
Definition buildWithShift (g : v3) (nx n : Z) (ds : Z -> Z -> v3 -> Q) : res (list v3 * list (list Z)) :=
  let '(g0, g1, g2) := g in
  do ls <- mapM (fun ab => wsList g nx (ds (fst ab) (snd ab))) (list_prod (zrange 0 n) (zrange 0 n)) ;
  let vs := fold_left uniqueStep (map fst (concat ls)) [] in
  let degs := map (degOf vs) ls in
  if forallb (fun dg => Qle_bool (Qabs (sumQ (map (fun m => 1 / inject_Z m)%Q (filter (fun m => 0 <? m) dg)) - inject_Z (g0 * g1 * g2))) tol) degs
  then Ok (vs, degs) else Err.
