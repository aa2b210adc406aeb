(** Model of src/particle.cpp (populations) and the population window of src/bands/window.cpp. Doubles are real numbers: no rounding, no overflow. A division by
    zero is kept apart from the finite results. *)
From Coq Require Import Reals Lra.
From Verif Require Import Base M_bands.
Open Scope R_scope.

(** [Inf]: non-zero number divided by zero, +infinity. [Nan]: not a number. *)
Inductive dbl := Fin (x : R) | Inf | Nan.

(** particle.cpp:5-15: statistics of the particle; phonons are bosons, electrons fermions *)
Inductive particle := phonon | electron.

Definition rltb (a b : R) : bool := if Rlt_dec a b then true else false.
Definition rleb (a b : R) : bool := if Rle_dec a b then true else false.
Definition reqb (a b : R) : bool := if Req_EM_T a b then true else false.

(** particle.cpp:64-96 getPopulation *)
Definition getPopulation (s : particle) (energy temperature mu : R) : dbl :=
  if rleb temperature 0 then Fin (if rleb energy mu then 1 else 0) else
  let y := (energy - mu) / temperature in
  match s with
  | phonon =>
    if reqb (exp y - 1) 0 then Inf else
    let n := 1 / (exp y - 1) in Fin (if rltb n 0 then 0 else n)
  | electron =>
    let f := 1 / (exp y + 1) in
    let f := if rltb f 0 then 0 else f in
    Fin (if rltb 1 f then 1 else f)
  end.

(** particle.cpp:117-128 getPopPopPm1; temperature 0 is outside of the model *)
Definition getPopPopPm1 (s : particle) (energy temperature mu : R) : dbl :=
  if reqb temperature 0 then Nan else
  let arg := (energy - mu) / 2 / temperature in
  let x := match s with phonon => sinh arg | electron => cosh arg end in
  if reqb x 0 then Inf else Fin (25 / 100 / x / x).

(** particle.cpp:98-106 getDndt, 108-115 getDnde. At energy = mu the Bose function is infinite:
    infinity times zero is NaN, minus infinity is reported as [Nan] too. *)
Definition getDndt (s : particle) (energy temperature mu : R) (symmetrize : bool) : dbl :=
  match getPopPopPm1 s energy temperature mu with
  | Fin x => Fin ((if symmetrize then sqrt x else x) * (energy - mu) / temperature / temperature)
  | _ => Nan
  end.
Definition getDnde (s : particle) (energy temperature mu : R) (symmetrize : bool) : dbl :=
  match getPopPopPm1 s energy temperature mu with
  | Fin x => Fin (- (if symmetrize then sqrt x else x) / temperature)
  | _ => Nan
  end.

(** window.cpp:119-126 |x| > threshold for the value of getPopPopPm1; comparisons with NaN are false *)
Definition exceeds (threshold : R) (x : dbl) : bool :=
  match x with Fin v => rltb threshold (Rabs v) | Inf => true | Nan => false end.
(** window.cpp:88-97 and 113-135: the population window looks at the largest temperature only, and at the
    smallest and largest chemical potential *)
Definition inPopulationWindow (s : particle) (threshold temperatureMax muMin muMax energy : R) : bool :=
  exceeds threshold (getPopPopPm1 s energy temperatureMax muMin) || exceeds threshold (getPopPopPm1 s energy temperatureMax muMax).
Definition populationWindow (s : particle) (threshold temperatureMax muMin muMax : R) (energies : list R) : list R * list Z :=
  windowFilter (inPopulationWindow s threshold temperatureMax muMin muMax) energies.
(** active_bandstructure.cpp:512-516 (phonons: mu = 0) and 784-801: minCoeff/maxCoeff, min_element/max_element
    of the temperatures and chemical potentials; of an empty list they are undefined ([0] here, excluded in
    the theorems) *)
Definition rmaxl (l : list R) : R := match l with [] => 0 | x :: r => fold_left Rmax r x end.
Definition rminl (l : list R) : R := match l with [] => 0 | x :: r => fold_left Rmin r x end.

