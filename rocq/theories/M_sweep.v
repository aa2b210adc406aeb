(** Model of src/statistics_sweep.cpp. Doubles are real numbers; the expansion of a sweep is also modelled with
    IEEE binary64 numbers. *)
From Coq Require Import Reals SpecFloat.
From Verif Require Import Base M_utilities M_particle M_delta.
Open Scope R_scope.

(** * statistics_sweep.cpp:33-39 and 155-161: while (min <= max) { push min; min += delta; }.
    [None]: still running after [fuel] turns. *)
Fixpoint sweepLoop {A} (le : A -> A -> bool) (add : A -> A -> A) (fuel : nat) (lo hi delta : A) : option (list A) :=
  match fuel with
  | O => None
  | S f => if le lo hi then option_map (cons lo) (sweepLoop le add f (add lo delta) hi delta) else Some []
  end.
Definition sweepR := sweepLoop rleb Rplus.
(** the same loop with doubles: IEEE addition rounded to nearest, 53 bits *)
Definition sweepF := sweepLoop SFleb (SFadd 53 1024).

(** * the number of electrons *)
(** utilities.h:17-19 sgn *)
Definition rsgn (v : R) : Z := ((if rltb 0 v then 1 else 0) - (if rltb v 0 then 1 else 0))%Z.
(** population of an electron: the value of getPopulation, which is finite for electrons *)
Definition fermiPop (temp mu e : R) : R := match getPopulation electron e temp mu with Fin x => x | _ => 0 end.
(** l.245-263: [ranks]: for every process the chunks of energies done by its threads. A band structure that is not
    distributed is a single process. Sum over the threads, then over the processes (MPI sum, trusted). *)
Definition sumStates (g : R -> R) (ranks : list (list (list R))) : R :=
  rsum (map (fun threads => rsum (map (fun chunk => rsum (map g chunk)) threads)) ranks).
(** l.239-265 fPop *)
Definition fPop (ranks : list (list (list R))) (numPoints numElectronsDoped mu temp : R) : R :=
  numElectronsDoped - sumStates (fermiPop temp mu) ranks / numPoints.
(** l.88-114: occupied states from a Fermi level *)
Definition occupiedFromFermiLevel (ranks : list (list (list R))) (numPoints fermiLevel : R) : R :=
  sumStates (fun e => if rltb e fermiLevel then 1 else 0) ranks / numPoints.

(** l.330-361: the bisection. [fuel] turns remain of maxIter = 100; the head process stops with an error at the
    beginning of the last turn. [f] = fPop at this temperature. *)
Fixpoint bisect (f : R -> R) (aY : R) (fuel : nat) (aX bX : R) : res R :=
  match fuel with
  | O | S O => Err
  | S n =>
    let cX := (aX + bX) / 2 in
    let cY := f cX in
    if reqb cY 0 || rltb (Rabs (bX - aX)) (/ 100000000) then Ok cX
    else if (rsgn cY =? rsgn aY)%Z then bisect f aY n cX bX else bisect f aY n aX cX
  end.
Definition maxIter : nat := 100.

(** l.267-362 findChemicalPotentialFromDoping: the chemical potential found on every process. [electrons]: occupied
    states before doping; [cm3] = distanceBohrToCm^3; [numBands] is compared as a number; [fermiLevel] is the initial
    guess. min_element of no energies is not evaluated. *)
Definition rankMin (fermi : R) (threads : list (list R)) : R := match concat threads with [] => fermi | l => rminl l end.
Definition rankMax (fermi : R) (threads : list (list R)) : R := match concat threads with [] => fermi | l => rmaxl l end.
Definition lowerLimit (threads : list (list R)) : R := match concat threads with [] => 0 | l => rminl l - 1 end.
Definition upperLimit (threads : list (list R)) : R := match concat threads with [] => 0 | l => rmaxl l + 1 end.
Definition electronsDoped (electrons volume cm3 spinFactor doping : R) : R := electrons - doping * volume * cm3 / spinFactor.
Definition findChemPot (ranks : list (list (list R))) (numPoints numBands electrons volume cm3 spinFactor fermiLevel doping temp : R) : res (list R) :=
  let n := electronsDoped electrons volume cm3 spinFactor doping in
  if rltb numBands n then Err else
  if rltb n 0 then Err else
  if reqb doping 0 && reqb temp 0 && reqb n 0 then Ok (map (rankMin fermiLevel) ranks) else
  if reqb doping 0 && reqb temp 0 && reqb n numBands then Ok (map (rankMax fermiLevel) ranks) else
  let aX := rminl (map lowerLimit ranks) in
  let bX := rmaxl (map upperLimit ranks) in
  let f := fun mu => fPop ranks numPoints n mu temp in
  let aY := f aX in
  let bY := f bX in
  if (rsgn aY =? rsgn bY)%Z then Err else
  do mu <- bisect f aY maxIter aX bX ; Ok (map (fun _ => mu) ranks).

(** l.364-389 findDopingFromChemicalPotential *)
Definition findDoping (ranks : list (list (list R))) (numPoints electrons volume cm3 spinFactor mu temp : R) : R :=
  (electrons - sumStates (fermiPop temp mu) ranks / numPoints) * (spinFactor / volume / cm3).

(** * the table of calculations *)
(** CalcStatistics, statistics_sweep.h:14-18: temperature, chemical potential, doping *)
Definition row := (R * R * R)%type.
Record sweep := mkSweep { sNTemp : Z; sNChemPot : Z; sNDop : Z; sTable : list row }.
Definition zeros (n : Z) : list row := map (fun _ => (0, 0, 0)) (zrange 0 n).
(** one assignment of the loops at l.174-185 and l.191-202 *)
Definition fillRow (nTemp nX : Z) (value : R -> R -> res row) (table : list row) (p : Z * Z * R * R) : res (list row) :=
  let '(it, ix, temp, x) := p in
  do r <- value temp x ;
  do iCalc <- compress2Indices it ix nTemp nX ;
  if (0 <=? iCalc)%Z && (iCalc <? zlen table)%Z then Ok (zupd table iCalc r) else UB.
(** the order of the two loops *)
Definition pairs (temps xs : list R) : list (Z * Z * R * R) :=
  flat_map (fun p => map (fun q => (fst p, fst q, snd p, snd q)) (combine (zrange 0 (zlen xs)) xs)) (combine (zrange 0 (zlen temps)) temps).
(** l.42-53 phonons *)
Definition phononSweep (temps : list R) : sweep :=
  mkSweep (zlen temps) 1 1 (map (fun t => (t, 0, 0)) temps).
(** l.134-209 electrons: [dopings] and [mus] after the expansion of a range of chemical potentials;
    [muOf doping temp], [dopingOf mu temp] as above *)
Definition electronSweep (muOf : R -> R -> res R) (dopingOf : R -> R -> R) (temps dopings mus : list R) : res sweep :=
  let nTemp := zlen temps in
  let nDop := zlen dopings in
  let nChemPot := zlen mus in
  do n <- ck (nTemp * Z.max nChemPot nDop) ;
  let table := zeros n in
  if (nChemPot =? 0)%Z then
    do t <- foldM (fillRow nTemp nDop (fun temp d => do mu <- muOf d temp ; Ok (temp, mu, d))) (pairs temps dopings) table ;
    Ok (mkSweep nTemp nDop nDop t)
  else if (nDop =? 0)%Z then
    do t <- foldM (fillRow nTemp nChemPot (fun temp mu => Ok (temp, mu, dopingOf mu temp))) (pairs temps mus) table ;
    Ok (mkSweep nTemp nChemPot nChemPot t)
  else Ok (mkSweep nTemp nChemPot nDop table).
(** l.391-408 getCalcStatistics, getNumCalculations; a row outside of the matrix is undefined *)
Definition numCalculations (s : sweep) : Z := zlen (sTable s).
Definition calcStatistics (s : sweep) (index : Z) : res row :=
  match zget (sTable s) index with Some r => Ok r | None => UB end.
Definition calcStatistics2 (s : sweep) (iTemp iChemPot : Z) : res row :=
  do index <- compress2Indices iTemp iChemPot (sNTemp s) (sNChemPot s) ; calcStatistics s index.
(** l.216-237 copies *)
Definition copySweep (s : sweep) : sweep := mkSweep (sNTemp s) (sNChemPot s) (sNDop s) (sTable s).
