(** Specification for C141: what run() of each application reads, with the lines where it does *)
From Coq Require Import QArith String Ascii.
From Verif Require Import Base M_context M_inputs.
Open Scope Z_scope.
Definition given (x : option Q) : Prop := x <> None.
Definition filled {A} (l : list A) : Prop := l <> [].
Definition meshSet (m : Z * Z * Z) : Prop := let '(a, b, c) := m in a <> 0 /\ b <> 0 /\ c <> 0.
(** partial products fit in an int *)
Definition meshSmall (m : Z * Z * Z) : Prop := let '(a, b, c) := m in -2147483648 <= a * b <= 2147483647 /\ -2147483648 <= a * b * c <= 2147483647.
(** parser/qe_input_parser.cpp l.391, phonopy_input_parser.cpp l.425 *)
Definition phononFiles (i : inputs) : Prop := filled (phFC2FileName i).
(** qe_input_parser.cpp l.889 *)
Definition wannierFile (i : inputs) : Prop := filled (electronH0Name i).
(** qe_input_parser.cpp l.1044-1046, when there is no phonon crystal *)
Definition structure (i : inputs) : Prop := filled (inputAtomicPositions i) /\ filled (inputAtomicSpecies i) /\ filled (inputSpeciesNames i).
(** qe_input_parser.cpp l.573-574 *)
Definition fourierFile (i : inputs) : Prop := filled (electronH0Name i) /\ given (electronFourierCutoff i).
(** points.cpp, path constructor *)
Definition path (i : inputs) : Prop := filled (pathExtrema i) /\ given (deltaPath i).
(** dos_app.cpp l.135-137 *)
Definition dosGrid (i : inputs) : Prop := given (dosMinEnergy i) /\ given (dosMaxEnergy i) /\ given (dosDeltaEnergy i).
(** statistics_sweep.cpp l.22-30 *)
Definition temps (i : inputs) : Prop := filled (temperatures i) \/ given (minTemperature i) /\ given (maxTemperature i) /\ given (deltaTemperature i).
(** statistics_sweep.cpp l.137-153 *)
Definition mus (i : inputs) : Prop := filled (dopings i) \/ filled (chemicalPotentials i) \/
  given (minChemicalPotential i) /\ given (maxChemicalPotential i) /\ given (deltaChemicalPotential i).
(** delta_function.cpp l.19-37: one of gaussian (0), adaptiveGaussian (1), tetrahedron (2); the first with a width *)
Definition smearing (i : inputs) : Prop := (smearingMethod i = Some 0 /\ given (smearingWidth i)) \/ smearingMethod i = Some 1 \/ smearingMethod i = Some 2.
(** statistics_sweep.cpp l.91-98; other applications get it from the coupling or XML file *)
Definition level (i : inputs) : Prop := given (numOccupiedStates i) \/ given (fermiLevel i).

Definition complete (a : app) (i : inputs) : Prop :=
  match a with
  (** phonon_transport_app.cpp l.31-70; with a coupling file l.440-475 *)
  | PhononTransport => phononFiles i /\ meshSet (qMesh i) /\ filled (phFC3FileName i) /\ temps i /\ smearing i /\
      (filled (elphFileName i) -> wannierFile i /\ meshSet (kMesh i) /\ mus i)
  (** dos_app.cpp l.31-36, 66-70, 100-104 *)
  | PhononDos => phononFiles i /\ meshSet (qMesh i) /\ dosGrid i
  | ElectronWannierDos => wannierFile i /\ structure i /\ meshSet (kMesh i) /\ dosGrid i
  | ElectronFourierDos => fourierFile i /\ meshSet (kMesh i) /\ dosGrid i
  (** bands_app.cpp l.25-31, 54-59, 82-87 *)
  | PhononBands => phononFiles i /\ path i
  | ElectronWannierBands => wannierFile i /\ structure i /\ path i
  | ElectronFourierBands => fourierFile i /\ path i
  (** electron_wannier_transport_app.cpp l.16-43 *)
  | ElectronWannierTransport => phononFiles i /\ wannierFile i /\ meshSet (kMesh i) /\ temps i /\ mus i /\
      (constantRelaxationTime i = None -> filled (elphFileName i) /\ smearing i) /\ (constantRelaxationTime i <> None -> level i)
  (** elph_qe_to_phoebe_app.cpp l.13-44, qe_to_phoebe_epa.cpp l.24-50 *)
  | ElPhQeToPhoebe => phononFiles i /\ filled (quantumEspressoPrefix i) /\
      (elPhInterpolation i = str! "wannier" /\ filled (wannier90Prefix i) \/
       elPhInterpolation i = str! "epa" /\ fourierFile i /\ given (epaMinEnergy i) /\ given (epaMaxEnergy i) /\ given (epaSmearingEnergy i) /\
       (epaNumBins i <> None \/ given (epaDeltaEnergy i)))
  (** elph_plot_app.cpp l.23-60 *)
  | ElPhCouplingPlot => phononFiles i /\ wannierFile i /\ filled (elphFileName i) /\
      In (g2PlotStyle i) [str! "qFixed"; str! "kFixed"; str! "allToAll"] /\
      (if streq (g2MeshStyle i) (str! "pointsPath") then path i else meshSet (if streq (g2PlotStyle i) (str! "kFixed") then qMesh i else kMesh i))
  (** lifetimes_app.cpp l.13-96 *)
  | ElectronLifetimes => phononFiles i /\ wannierFile i /\ filled (elphFileName i) /\ path i /\ meshSet (kMesh i) /\ temps i /\ mus i /\ smearing i
  | PhononLifetimes => phononFiles i /\ filled (phFC3FileName i) /\ path i /\ meshSet (qMesh i) /\ temps i /\ smearing i
  (** transport_epa_app.cpp l.21-60 *)
  | TransportEpa => fourierFile i /\ filled (epaFileName i) /\ given (epaEnergyRange i) /\ given (epaEnergyStep i) /\ meshSet (kMesh i) /\ temps i /\ mus i
  (** ph_el_lifetimes.cpp l.8-95 *)
  | PhononElectronLifetimes => phononFiles i /\ wannierFile i /\ filled (elphFileName i) /\ meshSet (qMesh i) /\ meshSet (kMesh i) /\ temps i /\ mus i /\ smearing i
  end.
(** the word of the manual for each application *)
Definition appWord (a : app) : string := match a with
  | PhononTransport => "phononTransport" | PhononDos => "phononDos" | ElectronWannierDos => "electronWannierDos" | ElectronFourierDos => "electronFourierDos"
  | PhononBands => "phononBands" | ElectronWannierBands => "electronWannierBands" | ElectronFourierBands => "electronFourierBands"
  | ElectronWannierTransport => "electronWannierTransport" | ElPhQeToPhoebe => "elPhQeToPhoebe" | ElPhCouplingPlot => "elPhCouplingPlot"
  | ElectronLifetimes => "electronLifetimes" | PhononLifetimes => "phononLifetimes" | TransportEpa => "transportEpa"
  | PhononElectronLifetimes => "phononElectronLifetimes" end%string.
