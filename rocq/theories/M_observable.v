(** Model of the operations on whole observables: src/observable/observable.cpp:4-140, with the constructors, copies, differences and types of
    specific_heat.cpp:10-28, 148, phonon_thermal_cond.cpp:12-57, 541, phonon_viscosity.cpp:10-18, 358, electron_viscosity.cpp:314. Doubles are
    real numbers. The bands an observable refers to are left out. An access outside of an array is UB (Eigen's assertions are off in the
    default, optimised build). *)
From Coq Require Import Reals.
From Verif Require Import Base M_delta.
Open Scope Z_scope.

(** an array with first index the calculation, then [tRank] Cartesian indices *)
Record tensor := { tCalcs : Z; tDim : Z; tRank : nat; tVal : Z -> list Z -> R }.
Definition noTensor : tensor := {| tCalcs := 0; tDim := 0; tRank := 0; tVal := fun _ _ => 0%R |}.
Definition inTensor (t : tensor) (c : Z) (idx : list Z) : bool :=
  (0 <=? c) && (c <? tCalcs t) && Nat.eqb (length idx) (tRank t) && forallb (fun i => (0 <=? i) && (i <? tDim t)) idx.
Definition tget (t : tensor) (c : Z) (idx : list Z) : res R := if inTensor t c idx then Ok (tVal t c idx) else UB.
Definition sameIdx (a b : list Z) : bool := if list_eq_dec Z.eq_dec a b then true else false.
Definition tset (t : tensor) (c : Z) (idx : list Z) (x : R) : res tensor :=
  if inTensor t c idx then
    Ok {| tCalcs := tCalcs t; tDim := tDim t; tRank := tRank t; tVal := fun c' i' => if (c =? c') && sameIdx idx i' then x else tVal t c' i' |}
  else UB.
(** the nested loops over [r] Cartesian indices below [d] *)
Fixpoint indices (r : nat) (d : Z) : list (list Z) :=
  match r with O => [[]] | S r => flat_map (fun i => map (cons i) (indices r d)) (zrange 0 d) end.

(** what the references point at: dimensionality of each crystal, numbers of chemical potentials and of temperatures of each sweep *)
Record world := { crystals : Z -> Z; sweeps : Z -> Z * Z }.
Definition put {A} (f : Z -> A) (i : Z) (x : A) : Z -> A := fun j => if j =? i then x else f j.

Inductive class := Base | Heat | Conductivity | Viscosity.
(** whichType: the base class answers isScalar *)
Definition whichType (k : class) : nat := match k with Base | Heat => 0 | Conductivity => 2 | Viscosity => 4 end.
(** the data of one observable; [oConv] = thCondConversion, None when never set; [oData] = the array of its type *)
Record observable := { oClass : class; oCrystal : Z; oSweep : Z; oDim : Z; oMus : Z; oTemps : Z; oCalcs : Z; oConv : option R; oData : tensor }.

(** phonon_thermal_cond.cpp:19-32; [si], [thickness]: constants and input *)
Definition conversion (si thickness : R) (d : Z) : R := if d =? 2 then (si * (1 / thickness))%R else si.
(** observable.cpp:4-11 and the constructors of the derived classes; the base class allocates nothing *)
Definition construct (si thickness : R) (w : world) (k : class) (cr sw : Z) : observable :=
  let d := crystals w cr in
  let n := fst (sweeps w sw) * snd (sweeps w sw) in
  {| oClass := k; oCrystal := cr; oSweep := sw; oDim := d; oMus := fst (sweeps w sw); oTemps := snd (sweeps w sw); oCalcs := n;
     oConv := match k with Conductivity => Some (conversion si thickness d) | _ => None end;
     oData := match k with Base => noTensor | _ => {| tCalcs := n; tDim := d; tRank := whichType k; tVal := fun _ _ => 0%R |} end |}.
(** l.14-25; phonon_thermal_cond.cpp:36-38: the conversion factor is not among the copied members *)
Definition copy (a : observable) : observable :=
  {| oClass := oClass a; oCrystal := oCrystal a; oSweep := oSweep a; oDim := oDim a; oMus := oMus a; oTemps := oTemps a; oCalcs := oCalcs a;
     oConv := None; oData := oData a |}.
(** l.28-42, a = b with a and b distinct: the members context, statisticsSweep and crystal are references, so the objects behind them are
    assigned; the dimensionality is not among the assigned members *)
Definition assign (w : world) (a b : observable) : world * observable :=
  ({| crystals := put (crystals w) (oCrystal a) (crystals w (oCrystal b)); sweeps := put (sweeps w) (oSweep a) (sweeps w (oSweep b)) |},
   {| oClass := oClass a; oCrystal := oCrystal a; oSweep := oSweep a; oDim := oDim a; oMus := oMus b; oTemps := oTemps b; oCalcs := oCalcs b;
      oConv := oConv a; oData := oData b |}).
(** l.62-95 *)
Definition baseOperatorMinus (n a b : observable) : res observable :=
  do t <- foldM (fun t p => do x <- tget (oData a) (fst p) (snd p) ; do y <- tget (oData b) (fst p) (snd p) ; tset t (fst p) (snd p) (x - y)%R)
            (list_prod (zrange 0 (oCalcs a)) (indices (whichType (oClass a)) (oDim a))) (oData n) ;
  Ok {| oClass := oClass n; oCrystal := oCrystal n; oSweep := oSweep n; oDim := oDim n; oMus := oMus n; oTemps := oTemps n; oCalcs := oCalcs n;
        oConv := oConv n; oData := t |}.
(** l.56-60, and phonon_thermal_cond.cpp:50-56 for the only class that has its own operator. The result is returned without a copy. *)
Definition minus (si thickness : R) (w : world) (a b : observable) : res observable :=
  baseOperatorMinus (construct si thickness w (match oClass a with Conductivity => Conductivity | _ => Base end) (oCrystal a) (oSweep a)) a b.
(** l.101-140 *)
Definition normOf (k : class) (d : Z) (xs : list R) : R :=
  match whichType k with
  | O => match xs with x :: _ => Rabs x | [] => 0%R end
  | r => (sqrt (rsum (map (fun x => x * x) xs)) / IZR (d ^ Z.of_nat r))%R
  end.
Definition getNorm (a : observable) : res (list R) :=
  mapM (fun c => do xs <- mapM (tget (oData a) c) (indices (whichType (oClass a)) (oDim a)) ; Ok (normOf (oClass a) (oDim a) xs)) (zrange 0 (oCalcs a)).
(** phonon_thermal_cond.cpp:448-475 print: the numbers shown for one calculation *)
Definition printCalc (a : observable) (c : Z) : res (list R) :=
  mapM (fun idx => do x <- tget (oData a) c idx ; match oConv a with Some f => Ok (x * f)%R | None => UB end) (indices 2 (oDim a)).
