(** Model of the choice of application and of its check of the input (src/apps/app.cpp, checkRequirements of every application).
    Values: a string, a double (None is NaN), an int (None is never written), a mesh, a list. *)
From Coq Require Import QArith String Ascii.
From Verif Require Import Base M_context.
Open Scope Z_scope.

(** context.h l.10-118, the variables read by the checks and by the parts of run() in S_inputs.v *)
Record inputs := {
  phFC2FileName : str; phFC3FileName : str; electronH0Name : str; wannier90Prefix : str; quantumEspressoPrefix : str; elPhInterpolation : str;
  elphFileName : str; epaFileName : str; g2PlotStyle : str; g2MeshStyle : str; appName : str;
  smearingMethod : option Z; epaNumBins : option Z;
  smearingWidth : option Q; electronFourierCutoff : option Q; fermiLevel : option Q; numOccupiedStates : option Q;
  dosMinEnergy : option Q; dosMaxEnergy : option Q; dosDeltaEnergy : option Q; deltaPath : option Q; constantRelaxationTime : option Q;
  minChemicalPotential : option Q; maxChemicalPotential : option Q; deltaChemicalPotential : option Q;
  minTemperature : option Q; maxTemperature : option Q; deltaTemperature : option Q;
  epaEnergyRange : option Q; epaEnergyStep : option Q; epaMinEnergy : option Q; epaMaxEnergy : option Q; epaSmearingEnergy : option Q; epaDeltaEnergy : option Q;
  temperatures : list Q; dopings : list Q; chemicalPotentials : list Q;
  qMesh : Z * Z * Z; kMesh : Z * Z * Z;
  inputAtomicPositions : list (Q * Q * Q); inputAtomicSpecies : list Z; inputSpeciesNames : list str;
  pathExtrema : list (list Q) }.
(** context.h: values before the input file is read; epaNumBins has none *)
Definition defaults : inputs := {|
  phFC2FileName := []; phFC3FileName := []; electronH0Name := []; wannier90Prefix := []; quantumEspressoPrefix := []; elPhInterpolation := [];
  elphFileName := []; epaFileName := []; g2PlotStyle := str! "allToAll"; g2MeshStyle := str! "pointsMesh"; appName := [];
  smearingMethod := Some (-1); epaNumBins := None;
  smearingWidth := None; electronFourierCutoff := None; fermiLevel := None; numOccupiedStates := None;
  dosMinEnergy := None; dosMaxEnergy := None; dosDeltaEnergy := None; deltaPath := Some (5 # 100)%Q; constantRelaxationTime := None;
  minChemicalPotential := None; maxChemicalPotential := None; deltaChemicalPotential := None;
  minTemperature := None; maxTemperature := None; deltaTemperature := None;
  epaEnergyRange := None; epaEnergyStep := None; epaMinEnergy := None; epaMaxEnergy := None; epaSmearingEnergy := None; epaDeltaEnergy := None;
  temperatures := []; dopings := []; chemicalPotentials := [];
  qMesh := (0, 0, 0); kMesh := (0, 0, 0);
  inputAtomicPositions := []; inputAtomicSpecies := []; inputSpeciesNames := [];
  pathExtrema := [] |}.

Inductive app := PhononTransport | PhononDos | ElectronWannierDos | ElectronFourierDos | PhononBands | ElectronWannierBands | ElectronFourierBands
  | ElectronWannierTransport | ElPhQeToPhoebe | ElPhCouplingPlot | ElectronLifetimes | PhononLifetimes | TransportEpa | PhononElectronLifetimes.
(** app.cpp l.17-30 *)
Definition choices : list str := map list_ascii_of_string ["phononTransport"; "phononDos"; "electronWannierDos"; "electronFourierDos"; "phononBands"; "electronWannierBands";
  "electronFourierBands"; "electronWannierTransport"; "elPhQeToPhoebe"; "elPhCouplingPlot"; "electronLifetimes"; "phononLifetimes"; "transportEpa";
  "phononElectronLifetimes"]%string.
(** app.cpp l.16-69; the last branch, a null pointer whose member functions main calls, is UB *)
Definition loadApp (choice : str) : res app :=
  if negb (existsb (streq choice) choices) then Err else
  if streq choice (str! "phononTransport") then Ok PhononTransport else
  if streq choice (str! "electronWannierTransport") then Ok ElectronWannierTransport else
  if streq choice (str! "elPhQeToPhoebe") then Ok ElPhQeToPhoebe else
  if streq choice (str! "phononDos") then Ok PhononDos else
  if streq choice (str! "electronWannierDos") then Ok ElectronWannierDos else
  if streq choice (str! "electronFourierDos") then Ok ElectronFourierDos else
  if streq choice (str! "phononBands") then Ok PhononBands else
  if streq choice (str! "electronWannierBands") then Ok ElectronWannierBands else
  if streq choice (str! "electronFourierBands") then Ok ElectronFourierBands else
  if streq choice (str! "transportEpa") then Ok TransportEpa else
  if streq choice (str! "elPhCouplingPlot") then Ok ElPhCouplingPlot else
  if streq choice (str! "electronLifetimes") then Ok ElectronLifetimes else
  if streq choice (str! "phononLifetimes") then Ok PhononLifetimes else
  if streq choice (str! "phononElectronLifetimes") then Ok PhononElectronLifetimes else UB.

Definition okIf (b : bool) : res unit := if b then Ok tt else Err.
(** app.cpp l.82-86, 88-93 and the overloads for lists, l.101-105, 115-133 *)
Definition needList {A} (l : list A) : res unit := okIf (match l with [] => false | _ => true end).
(** l.95-99 *)
Definition needDouble (x : option Q) : res unit := okIf (match x with None => false | _ => true end).
(** an int is converted to a double, which is not NaN; reading an int that was never written is undefined *)
Definition needInt (x : option Z) : res unit := match x with Some _ => Ok tt | None => UB end.
Definition inInt (x : Z) : bool := (-2147483648 <=? x) && (x <=? 2147483647).
(** l.107-113: x(0)*x(1)*x(2) == 0 on ints *)
Definition needMesh (m : Z * Z * Z) : res unit :=
  let '(a, b, c) := m in if negb (inInt (a * b) && inInt (a * b * c)) then UB else okIf (negb (a * b * c =? 0)).
Definition nan (x : option Q) : bool := match x with None => true | _ => false end.
Definition noList {A} (l : list A) : bool := match l with [] => true | _ => false end.
(** delta_function.h l.17: gaussian = 0 *)
Definition isGaussian (m : option Z) : bool := match m with Some m => m =? 0 | None => false end.
Definition seq2 (a b : res unit) : res unit := do _ <- a ; b.
Infix ";;;" := seq2 (at level 61, right associativity).
Definition needSmearing (i : inputs) : res unit :=
  needInt (smearingMethod i) ;;; (if isGaussian (smearingMethod i) then needDouble (smearingWidth i) else Ok tt).
Definition needMu (i : inputs) : res unit := okIf (negb (noList (dopings i) && noList (chemicalPotentials i))).
Definition needStructure (i : inputs) : res unit := needList (inputAtomicPositions i) ;;; needList (inputSpeciesNames i) ;;; needList (inputAtomicSpecies i).
Definition needLevel (i : inputs) : res unit := okIf (negb (nan (numOccupiedStates i) && nan (fermiLevel i))).

Definition checkRequirements (a : app) (i : inputs) : res unit :=
  match a with
  (** phonon_transport_app.cpp l.521-539 *)
  | PhononTransport => needList (phFC2FileName i) ;;; needMesh (qMesh i) ;;; needList (phFC3FileName i) ;;; needList (temperatures i) ;;; needSmearing i ;;;
      if noList (elphFileName i) then Ok tt else needList (electronH0Name i) ;;; needMesh (kMesh i) ;;; needMu i
  (** dos_app.cpp l.202-231 *)
  | PhononDos => needList (phFC2FileName i) ;;; needMesh (qMesh i) ;;; needDouble (dosMinEnergy i) ;;; needDouble (dosMaxEnergy i) ;;; needDouble (dosDeltaEnergy i)
  | ElectronWannierDos => needList (electronH0Name i) ;;; needMesh (kMesh i) ;;; needDouble (dosMinEnergy i) ;;; needDouble (dosMaxEnergy i) ;;; needDouble (dosDeltaEnergy i) ;;; needStructure i
  | ElectronFourierDos => needList (electronH0Name i) ;;; needMesh (kMesh i) ;;; needDouble (dosMinEnergy i) ;;; needDouble (dosMaxEnergy i) ;;; needDouble (dosDeltaEnergy i) ;;; needDouble (electronFourierCutoff i)
  (** bands_app.cpp l.263-287 *)
  | PhononBands => needList (phFC2FileName i) ;;; needList (pathExtrema i) ;;; needDouble (deltaPath i)
  | ElectronWannierBands => needList (electronH0Name i) ;;; needList (pathExtrema i) ;;; needDouble (deltaPath i) ;;; needStructure i
  | ElectronFourierBands => needList (electronH0Name i) ;;; needList (pathExtrema i) ;;; needDouble (deltaPath i) ;;; needDouble (electronFourierCutoff i)
  (** electron_wannier_transport_app.cpp l.242-269 *)
  | ElectronWannierTransport => needList (electronH0Name i) ;;; needMesh (kMesh i) ;;; needList (temperatures i) ;;;
      (if nan (constantRelaxationTime i) then needList (elphFileName i) ;;; needSmearing i else needLevel i) ;;;
      okIf (negb (noList (dopings i) && noList (chemicalPotentials i) && (nan (minChemicalPotential i) || nan (maxChemicalPotential i) || nan (deltaChemicalPotential i))))
  (** elph_qe_to_phoebe_app.cpp l.47-73 *)
  | ElPhQeToPhoebe => needList (electronH0Name i) ;;; needList (phFC2FileName i) ;;; needList (quantumEspressoPrefix i) ;;; needList (elPhInterpolation i) ;;;
      okIf (existsb (streq (elPhInterpolation i)) [str! "wannier"; str! "epa"]) ;;;
      (if streq (elPhInterpolation i) (str! "wannier") then needList (wannier90Prefix i)
       else needDouble (epaSmearingEnergy i) ;;; needDouble (electronFourierCutoff i) ;;; needDouble (epaMinEnergy i) ;;; needDouble (epaMaxEnergy i) ;;;
            if nan (epaDeltaEnergy i) then needInt (epaNumBins i) else needDouble (epaDeltaEnergy i))
  (** elph_plot_app.cpp l.392-401 *)
  | ElPhCouplingPlot => needList (electronH0Name i) ;;; needList (phFC2FileName i) ;;;
      (if streq (g2PlotStyle i) (str! "pointsPath") then needList (pathExtrema i) else needMesh (kMesh i)) ;;; needList (elphFileName i)
  (** lifetimes_app.cpp l.99-128 *)
  | ElectronLifetimes => needList (electronH0Name i) ;;; needList (phFC2FileName i) ;;; needList (pathExtrema i) ;;; needList (elphFileName i) ;;; needMesh (kMesh i) ;;;
      needList (temperatures i) ;;; needSmearing i ;;; needMu i
  | PhononLifetimes => needList (phFC2FileName i) ;;; needList (phFC3FileName i) ;;; needList (pathExtrema i) ;;; needMesh (qMesh i) ;;; needList (temperatures i) ;;; needSmearing i
  (** transport_epa_app.cpp l.102-116 *)
  | TransportEpa => needList (epaFileName i) ;;; needList (electronH0Name i) ;;; needMesh (kMesh i) ;;; needDouble (electronFourierCutoff i) ;;; needDouble (epaEnergyStep i) ;;;
      needDouble (epaEnergyRange i) ;;; needList (temperatures i) ;;; needMu i
  (** ph_el_lifetimes.cpp l.105-130 *)
  | PhononElectronLifetimes => needList (electronH0Name i) ;;; needList (phFC2FileName i) ;;; needMesh (qMesh i) ;;; needList (temperatures i) ;;;
      (if nan (constantRelaxationTime i) then needList (elphFileName i) ;;; needSmearing i else needLevel i) ;;; needMu i
  end.

(** main.cpp l.34-42: selection and check; the result is the application started *)
Definition startApp (i : inputs) : res app := do a <- loadApp (appName i) ; do _ <- checkRequirements a i ; Ok a.
