(** Model of the files of relaxation times: src/bte/scattering.cpp:639-869 (outputToJSON, relaxonsToJSON) and src/apps/transport_epa_app.cpp:306-379.
    The JSON library is not modelled: a file is its lists. Numbers are reals, without rounding. *)
From Coq Require Import Reals.
From Verif Require Import Base M_bands M_particle M_matrix M_scattering M_omega.
Open Scope R_scope.

(** constants/constants.h:10-60 *)
Definition twoPi : R := 2 * PI.
Definition hPlanckSi : R := 662607015 / 10 ^ 42.
Definition hBarSi : R := hPlanckSi / twoPi.
Definition electronVoltSi : R := 16021766208 / 10 ^ 29.
Definition hartreeSi : R := 4359744650 / 10 ^ 27.
Definition rydbergSi : R := hartreeSi / 2.
Definition timeRy : R := hBarSi / rydbergSi.
Definition energyRyToEv : R := rydbergSi / electronVoltSi.
Definition timeAuToFs : R := timeRy * 10 ^ 15.
Definition energyRyToFs : R := timeAuToFs * twoPi.

(** scattering.cpp:655-672: eV and fs, meV and ps for phonons *)
Definition energyConversion (s : particle) : R := match s with electron => energyRyToEv | phonon => energyRyToEv * 1000 end.
Definition energyToTime (s : particle) : R := match s with electron => energyRyToFs / twoPi | phonon => energyRyToFs / twoPi * / 1000 end.

Section Lists.
(** tables of the band structure (M_bands) and what is known of the state [is] of number [iBte] in the transport equation *)
Variables (nb irr red2irr offs : list Z) (numCalc : Z).
Context {A : Type}.
(** scattering.cpp:687-745 and 746-772: one of the lists; [value iCalc is iBte] *)
Definition statesList (value : Z -> Z -> Z -> A) : res (list (list (list A))) :=
  mapM (fun iCalc => mapM (fun ik =>
    match zget nb ik with
    | None => UB
    | Some n => mapM (fun ib => do is <- bloch2Comb nb ik ib ; do iBte <- stateToBte nb irr red2irr offs is ; Ok (value iCalc is iBte)) (zrange 0 n)
    end) irr) (zrange 0 numCalc).
End Lists.

(** scattering.cpp:724-727: the time and the linewidth written for a state, from the diagonal of process p (the head); [crt] = constant relaxation time *)
Definition writtenTime (s : particle) (pop : Z -> R) (crt : option R) (S : smatrix) (p : Z * Z) (b : Z) : R :=
  getSingleModeTimes pop (option_map (fun t => t / twoPi) crt) S p b * energyToTime s.
Definition writtenLinewidth (s : particle) (pop : Z -> R) (crt : option R) (S : smatrix) (p : Z * Z) (b : Z) : res R :=
  do l <- getLinewidths pop (match s with electron => true | phonon => false end) (option_map (fun t => twoPi / t) crt) S p ; Ok (l b * energyConversion s).
(** context.cpp:77-82: a constant relaxation time given in fs *)
Definition inputTimeFs (t : R) : R := t / timeAuToFs.
(** scattering.cpp:822, 832, 852-854: the time of a relaxon, in fs *)
Definition writtenRelaxonTime (eigenvalue : R) : R := 1 / eigenvalue * energyRyToFs.
(** transport_epa_app.cpp:316-318, 351-355: time in fs and linewidth in eV of an energy *)
Definition writtenEpaTime (rate : R) : R := 1 / rate * energyRyToFs.
Definition writtenEpaLinewidth (rate : R) : R := 1 / (1 / rate) * energyRyToEv.
