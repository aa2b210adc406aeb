(** Model of src/bte/drift.cpp:3-58: the driving terms of the transport equation. All callers pass dimensionality 3. The states of the band structure,
    their energies and velocities are given; the table (temperature, chemical potential) of the sweep is given too. *)
From Coq Require Import Reals.
From Verif Require Import Base M_bands M_particle.
Open Scope Z_scope.

(** sums and products of doubles, as far as the drift needs them *)
Definition dadd (a b : dbl) : dbl := match a, b with Fin x, Fin y => Fin (x + y) | _, _ => Nan end.
Definition dmul (a : dbl) (y : R) : dbl := match a with Fin x => Fin (x * y) | _ => Nan end.
(** data(row, column), vector_bte.h operator()(iCalc, iDim, iState): row iCalc * dimensionality + iDim *)
Definition vdata := Z -> Z -> dbl.
Definition setAt (d : vdata) (iCalc iDim iBte : Z) (x : dbl) : vdata := fun r c => if (r =? iCalc * 3 + iDim) && (c =? iBte) then x else d r c.
Definition zeroData : vdata := fun _ _ => Fin 0%R.

Inductive driftKind := TDrift | EDrift.
(** l.22-25 and l.49-54: the factor of the velocity *)
Definition driftFactor (k : driftKind) (s : particle) (energy : R) (calc : R * R) (symmetrize : bool) : dbl :=
  match k with TDrift => getDndt s energy (fst calc) (snd calc) symmetrize | EDrift => getDnde s energy (fst calc) (snd calc) symmetrize end.
(** l.12-27 and l.41-56: one state *)
Definition driftState (k : driftKind) (s : particle) (symmetrize : bool) (calcs : list (R * R)) (energy : Z -> R) (vel : Z -> Z -> R) (s2b : Z -> res Z)
    (d : vdata) (is : Z) : res vdata :=
  do iBte <- s2b is ;
  foldM (fun d iCalc =>
    match zget calcs iCalc with
    | None => UB
    | Some calc => Ok (fold_left (fun d i => setAt d iCalc i iBte (dmul (driftFactor k s (energy is) calc symmetrize) (vel is i))) (zrange 0 3) d)
    end) (zrange 0 (zlen calcs)) d.
(** one process: its states in the order in which its threads finish them *)
Definition driftRank (k : driftKind) (s : particle) (symmetrize : bool) (calcs : list (R * R)) (energy : Z -> R) (vel : Z -> Z -> R) (s2b : Z -> res Z)
    (states : list Z) : res vdata :=
  foldM (driftState k s symmetrize calcs energy vel s2b) states zeroData.
(** l.29 and l.58: allReduceSum of the matrices of all processes *)
Definition bulkDrift (k : driftKind) (s : particle) (symmetrize : bool) (calcs : list (R * R)) (energy : Z -> R) (vel : Z -> Z -> R) (s2b : Z -> res Z)
    (ranks : list (list Z)) : res vdata :=
  do ds <- mapM (driftRank k s symmetrize calcs energy vel s2b) ranks ;
  Ok (fun r c => fold_left (fun acc d => dadd acc (d r c)) ds (Fin 0%R)).
