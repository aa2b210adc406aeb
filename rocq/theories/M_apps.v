(** Model of src/apps/dos_app.cpp and of the labels of src/apps/bands_app.cpp. Densities of states: doubles are real numbers. Coordinates of
    the path: rationals, as in M_points. *)
From Coq Require Import Reals QArith Qabs.
From Verif Require Import Base M_mpi M_particle M_delta M_points M_context.
Open Scope Z_scope.

(** * density of states *)
(** delta_function.cpp:195-204: energies of a band at the corners of the cell of mesh point (k0, k1, k2); the lookup of k + shift is the
    lookup of C10 *)
Definition cellEnergies (n0 n1 n2 : Z) (e : Z * Z * Z -> R) (k : Z * Z * Z) (i : Z) : R :=
  let '(k0, k1, k2) := k in let '(d0, d1, d2) := cellCorner i in e ((k0 + d0) mod n0, (k1 + d1) mod n1, (k2 + d2) mod n2).
(** delta_function.cpp:158-168 getDOS. [states]: cell energies and size of the star of each irreducible state; [numPoints]: points of the
    full grid *)
Definition getDOS (states : list ((Z -> R) * Z)) (numPoints : Z) (energy : R) : R :=
  (rsum (map (fun s => tetraSmearing (fst s) energy * IZR (snd s)) states) / IZR numPoints)%R.
(** int(x): towards zero; outside the range of int undefined *)
Definition toInt (x : R) : res Z :=
  let z := if rltb x 0 then - Int_part (- x) else Int_part x in
  if (-2147483648 <=? z) && (z <=? 2147483647) then Ok z else UB.
(** dos_app.cpp:135-138 *)
Definition numEnergies (minE maxE deltaE : R) : res Z :=
  if reqb deltaE 0 then UB else do n <- toInt ((maxE - minE) / deltaE) ; if n =? 2147483647 then UB else Ok (n + 1).
(** l.140-159: energies and densities of one process *)
Definition dosRank (dos : R -> R) (minE deltaE : R) (n size r : Z) : list (R * R) :=
  let '(start, stop) := divideWork n r size in
  map (fun e => (e, dos e)) (map (fun i => (IZR i * deltaE + minE)%R) (zrange start (stop - start))).
(** l.128-171: what the head process obtains. A negative number of energies: the allocation throws *)
Definition calcDOS (dos : R -> R) (minE maxE deltaE : R) (size : Z) : res (list R * list R) :=
  do n <- numEnergies minE maxE deltaE ;
  if n <? 0 then Err else
  let parts := map (dosRank dos minE deltaE n size) (zrange 0 size) in
  do energies <- gatherv (map (map fst) parts) (repeat 0%R (Z.to_nat n)) ;
  do values <- gatherv (map (map snd) parts) (repeat 0%R (Z.to_nat n)) ;
  Ok (energies, values).
(** l.181-188: [c] converts energies *)
Definition outputDOS (c : R) (t : list R * list R) : list R * list R := (map (fun e => e * c)%R (fst t), map (fun d => d / c)%R (snd t)).

(** * labels of a path of wavevectors *)
(** bands_app.cpp:158-160 *)
Definition closeQ (a b : Q) : bool := Qltb (Qabs (a - b)) eps8.
Definition atExtremum (c e : v3) : bool := closeQ (c0 c) (c0 e) && closeQ (c1 c) (c1 e) && closeQ (c2 c) (c2 e).
(** l.172: comparison of vectors of doubles *)
Definition sameCoords (a b : v3) : bool := Qeq_bool (c0 a) (c0 b) && Qeq_bool (c1 a) (c1 b) && Qeq_bool (c2 a) (c2 b).
(** l.131-141, context.cpp:321-322: coordinates and labels of both ends of each segment *)
Definition extrema (segs : list ((v3 * str) * (v3 * str))) : list (v3 * str) := flat_map (fun s => [fst s; snd s]) segs.
(** l.143-182: highSymIndices; [count] is extremaCount, ik the index of the first of the remaining points *)
Fixpoint highSym (ext : list (v3 * str)) (pts : list v3) (ik count : Z) : res (list Z) :=
  match pts with
  | [] => Ok []
  | c :: rest =>
    match zget ext count with
    | None => UB
    | Some (e, lab) =>
      if atExtremum c e then
        match zget ext (count + 1) with
        | None => do l <- highSym ext rest (ik + 1) count ; Ok (ik :: l)
        | Some (e', lab') =>
          if sameCoords e e' || streq lab lab' then do l <- highSym ext rest (ik + 1) (count + 2) ; Ok (ik :: ik :: l)
          else do l <- highSym ext rest (ik + 1) (count + 1) ; Ok (ik :: l)
        end
      else highSym ext rest (ik + 1) count
    end
  end.
Definition highSymIndices (segs : list ((v3 * str) * (v3 * str))) (pts : list v3) : res (list Z) := highSym (extrema segs) pts 0 0.
