From Coq Require Import Reals QArith.
From Verif Require Import Base M_particle M_delta M_points S_points M_context M_apps.
Open Scope Z_scope.

(** average over all cells of the mesh of the weights of the tetrahedra *)
Definition zoneDOS (cells : list (Z -> R)) (numPoints : Z) (energy : R) : R := (rsum (map (fun en => tetraSmearing en energy) cells) / IZR numPoints)%R.
(** area under a curve sampled at equal distances *)
Definition area (step : R) (values : list R) : R := (rsum values * step)%R.

(** every end of a segment is labelled: index k of the list is a point of the path at extremum k, or at the extremum before it if both have
    the same label *)
Definition labelled (ext : list (v3 * str)) (pts : list v3) (l : list Z) : Prop := zlen l = zlen ext /\
  forall k e lab i, zget ext k = Some (e, lab) -> zget l k = Some i ->
  exists c, zget pts i = Some c /\ (veq c e \/ exists e', zget ext (k - 1) = Some (e', lab) /\ zget l (k - 1) = Some i /\ veq c e').
(** segments at least as long as the spacing, whose ends have different labels *)
Definition goodSegment (delta : Q) (s : (v3 * str) * (v3 * str)) : Prop := (delta * delta <= sqDist (fst (snd s)) (fst (fst s)))%Q /\ snd (fst s) <> snd (snd s).
(** a segment starts where the last one ended, or at a point with the same label, or visibly elsewhere *)
Fixpoint goodJoints (segs : list ((v3 * str) * (v3 * str))) : Prop :=
  match segs with
  | s :: ((t :: _) as r) => (veq (fst (snd s)) (fst (fst t)) \/ snd (snd s) = snd (fst t) \/ ((1 # 100000000) * (1 # 100000000) < sqDist (fst (fst t)) (fst (snd s)))%Q) /\ goodJoints r
  | _ => True
  end.
Definition coords (segs : list ((v3 * str) * (v3 * str))) : list (v3 * v3) := map (fun s => (fst (fst s), fst (snd s))) segs.

(** points of a mesh *)
Definition meshPoints (n0 n1 n2 : Z) : list (Z * Z * Z) := list_prod (list_prod (zrange 0 n0) (zrange 0 n1)) (zrange 0 n2).
(** functions of the wavevector with the period of the mesh *)
Definition periodicOn (n0 n1 n2 : Z) (e : Z * Z * Z -> R) : Prop := forall a b c, e (a + n0, b, c) = e (a, b, c) /\ e (a, b + n1, c) = e (a, b, c) /\ e (a, b, c + n2) = e (a, b, c).
