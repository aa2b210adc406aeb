(** Vocabulary of the properties of the collision operator: no processes, threads, batches or storage here. *)
From Coq Require Import QArith Qcanon Permutation.
From Verif Require Import Base M_matrix S_matrix M_vbte M_scattering.
Open Scope Z_scope.

(** The band structure numbers its irreducible states consistently and the stars of the irreducible points
    partition the points (C14, C15, C19). *)
Definition goodGrid (G : grid) : Prop :=
  0 <= gN G /\ 0 <= gPts G /\ NoDup (gIrr G) /\ Permutation (flat_map (gStar G) (gIrr G)) (zrange 0 (gPts G)) /\
  (forall q, In q (gIrr G) -> In q (gStar G q)) /\
  forall b, 0 <= b < gN G -> gS2B G (gB2S G b) = b /\ In (gPoint G (gB2S G b)) (gIrr G).
(** An event between irreducible point iq1 and point iq2 connects irreducible states of these points. *)
Definition goodEvents (G : grid) (ev : Z -> Z -> list event) : Prop :=
  forall iq1 iq2 q e, In iq1 (gIrr G) -> In q (gIrr G) -> In iq2 (gStar G q) -> In e (ev iq1 iq2) ->
  0 <= evBte1 e < gN G /\ 0 <= evBte2 e < gN G /\ evIs1 e = gB2S G (evBte1 e) /\ evIs2Irr e = gB2S G (evBte2 e) /\
  gPoint G (evIs1 e) = iq1 /\ gPoint G (evIs2Irr e) = q.
(** no event touches an excluded state *)
Definition avoids (excl : list Z) (ev : Z -> Z -> list event) : Prop :=
  forall iq1 iq2 e, In e (ev iq1 iq2) -> ~ In (evBte1 e) excl /\ ~ In (evBte2 e) excl.
(** without symmetries every rotation is the identity *)
Definition unrotated (ev : Z -> Z -> list event) : Prop :=
  forall iq1 iq2 e i j, In e (ev iq1 iq2) -> 0 <= i < 3 -> 0 <= j < 3 -> evRot e i j = if i =? j then 1%Qc else 0%Qc.

(** events of every pair of an irreducible point and a point *)
Definition allEvents (G : grid) (ev : Z -> Z -> list event) : list event :=
  flat_map (fun p => ev (fst p) (snd p)) (list_prod (gIrr G) (zrange 0 (gPts G))).
(** the collision operator: diagonal element of a state, its action on another state, and the action on a vector *)
Definition rateOut (es : list event) (b : Z) : Qc := qsum (map evDiag (filter (fun e => evBte1 e =? b) es)).
Definition linewidthSpec (excl : list Z) (bnd : Z -> Qc) (es : list event) (b : Z) : Qc :=
  if isIn excl b then 0%Qc else (rateOut es b + bnd b)%Qc.
Definition coupling (es : list event) (b i b' j : Z) : Qc :=
  qsum (map (fun e => evRot e i j * evOff e)%Qc (filter (fun e => (evBte1 e =? b) && (evBte2 e =? b')) es)).
Definition elementSpec (excl : list Z) (bnd : Z -> Qc) (es : list event) (b i b' j : Z) : Qc :=
  if b =? b' then if i =? j then linewidthSpec excl bnd es b else 0%Qc else coupling es b i b' j.
Definition collision (n : Z) (excl : list Z) (bnd : Z -> Qc) (es : list event) (x : Z -> Z -> Qc) (i b : Z) : Qc :=
  qsum (map (fun b' => elementSpec excl bnd es b i b' 0 * x 0%Z b' + elementSpec excl bnd es b i b' 1 * x 1%Z b' + elementSpec excl bnd es b i b' 2 * x 2%Z b')%Qc (zrange 0 n)).
(** elements split over the threads of every process of the layout *)
Definition splitElements (L : layout) (chunks : Z * Z -> list (list (Z * Z))) : Prop :=
  forall p, Permutation (concat (chunks p)) (getAllLocalStates L p).

(** pairs (first point, second point) in a list grouped by the second point (phonons) or by the first (electrons) *)
Definition pairsOf (l : list (list Z * Z)) : list (Z * Z) := flat_map (fun p => map (fun a => (a, snd p)) (fst p)) l.
Definition pairsOfRow (l : list (list Z * Z)) : list (Z * Z) := flat_map (fun p => map (fun a => (snd p, a)) (fst p)) l.
Definition allPairs (G : grid) : list (Z * Z) := list_prod (gIrr G) (zrange 0 (gPts G)).
(** States as seen by the loops over bands: [idx iq ib] numbers the bands of a point, [irrOf] gives the irreducible point
    of a star, whose points all have as many bands. *)
Definition goodStates (G : grid) (nb : Z -> Z) (idx : Z -> Z -> Z) (irrOf : Z -> Z) : Prop :=
  (forall q ib, In q (gIrr G) -> 0 <= ib < nb q -> 0 <= gS2B G (idx q ib) < gN G /\ gB2S G (gS2B G (idx q ib)) = idx q ib /\ gPoint G (idx q ib) = q) /\
  (forall q iq, In q (gIrr G) -> In iq (gStar G q) -> irrOf iq = q /\ nb iq = nb q).
(** the matrix is distributed in any valid way, its local elements are split over threads in any way, and every process
    visits the pairs given by the iterator of the particle *)
Definition fullMatrix (G : grid) (sym : bool) (L : layout) : Prop := validLayout L /\ lRows L = matSize sym (gN G) /\ lCols L = matSize sym (gN G).
(** degeneracy (closer than 1e-6 Ry) does not chain *)
Definition separated (es : list Qc) : Prop :=
  forall a b c, In a es -> In b es -> In c es -> nearDeg a b = true -> nearDeg b c = true -> nearDeg a c = true.
(** bands of the points [irr] have different BTE indices *)
Definition distinctStates (irr : list Z) (en : Z -> list Qc) (bte : Z -> Z -> Z) : Prop :=
  NoDup irr /\ forall q ib q' ib', In q irr -> In q' irr -> 0 <= ib < zlen (en q) -> 0 <= ib' < zlen (en q') -> bte q ib = bte q' ib' -> q = q' /\ ib = ib'.
(** sum of [lw] over the bands of point [ik] degenerate with energy [e] *)
Definition groupSum (en : Z -> list Qc) (bte : Z -> Z -> Z) (lw : Z -> Qc) (ik : Z) (e : Qc) : Qc :=
  qsum (map (fun ib => match zget (en ik) ib with Some e' => if nearDeg e' e then lw (bte ik ib) else 0%Qc | None => 0%Qc end) (zrange 0 (zlen (en ik)))).
(** bands degenerate with band [b], energies in increasing order *)
Definition degenerate (es : list Qc) (b : Z) : list Z :=
  filter (fun b' => match zget es b, zget es b' with Some x, Some y => nearDeg x y | _, _ => false end) (zrange 0 (zlen es)).
Definition ascending (es : list Qc) : Prop := forall b b' x y, zget es b = Some x -> zget es b' = Some y -> b <= b' -> (x <= y)%Qc.
Definition blockSum (e1 e2 e3 : list Qc) (c : Z -> Z -> Z -> Qc) (b1 b2 b3 : Z) : Qc :=
  qsum (map (fun b1' => qsum (map (fun b2' => qsum (map (fun b3' => c b1' b2' b3') (degenerate e3 b3))) (degenerate e2 b2))) (degenerate e1 b1)).
Definition blockCount (e1 e2 e3 : list Qc) (b1 b2 b3 : Z) : Z := zlen (degenerate e1 b1) * zlen (degenerate e2 b2) * zlen (degenerate e3 b3).
