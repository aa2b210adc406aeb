(** C141: the application that was asked for starts, with what it needs *)
From Coq Require Import QArith String Ascii.
From Verif Require Import Base BaseLemmas M_context L_context M_inputs S_inputs L_inputs.
From Coq Require Import Lia.
Open Scope Z_scope.

(** each of the fourteen names starts its own application, every other name stops the program *)
Theorem C141_names : (forall a, loadApp (list_ascii_of_string (appWord a)) = Ok a) /\ (forall s a, loadApp s = Ok a -> s = list_ascii_of_string (appWord a)) /\
  (forall s, (forall a, s <> list_ascii_of_string (appWord a)) -> loadApp s = Err).
Proof.
  split; [exact load_word|]. split; intros s.
  - intros a H. destruct (load_inv s) as [(b & -> & E)|[E _]]; rewrite E in H; [injection H as ->; reflexivity|discriminate].
  - intro N. destruct (load_inv s) as [(b & E & _)|[E _]]; [exfalso; exact (N b E)|exact E].
Qed.
Print Assumptions C141_names.

(** an accepted input has all that the application reads. The hypotheses are what the checks leave out *)
Theorem C141_accepted_partial : forall i a, startApp i = Ok a ->
  In (smearingMethod i) [Some 0; Some 1; Some 2] ->
  (a = ElectronWannierTransport -> phononFiles i) ->
  (a = PhononElectronLifetimes -> meshSet (kMesh i) /\ constantRelaxationTime i = None) ->
  (a = ElPhCouplingPlot -> In (g2PlotStyle i) [str! "qFixed"; str! "kFixed"; str! "allToAll"] /\ (g2MeshStyle i = str! "pointsPath" -> path i) /\ (g2PlotStyle i = str! "kFixed" -> meshSet (qMesh i))) ->
  (a = ElectronLifetimes \/ a = PhononLifetimes -> given (deltaPath i)) ->
  appName i = list_ascii_of_string (appWord a) /\ complete a i.
Proof.
  intros i a H Sm E1 E2 E3 E4. unfold startApp in H. destruct (loadApp (appName i)) as [b| |] eqn:L; try discriminate. cbn [bind] in H. destruct (checkRequirements b i) as [[]| |] eqn:C; try discriminate. cbn [bind] in H. injection H as ->.
  split; [apply (proj1 (proj2 C141_names)), L|]. apply checked_complete; assumption.
Qed.
Print Assumptions C141_accepted_partial.
(** a complete input is accepted; for the other applications with temperatures and dopings or chemical potentials given as lists *)
Theorem C141_started_partial : forall i a, appName i = list_ascii_of_string (appWord a) -> complete a i -> meshSmall (qMesh i) -> meshSmall (kMesh i) ->
  In a [PhononDos; ElectronWannierDos; ElectronFourierDos; PhononBands; ElectronWannierBands; ElectronFourierBands] \/
  filled (temperatures i) /\ (filled (dopings i) \/ filled (chemicalPotentials i) \/ a = ElectronWannierTransport) /\ a <> ElPhCouplingPlot /\ a <> ElPhQeToPhoebe /\ (a = PhononElectronLifetimes -> constantRelaxationTime i = None) ->
  startApp i = Ok a.
Proof. intros i a N C Q K T. unfold startApp. rewrite N, load_word. cbn [bind]. rewrite (complete_checked a i C Q K T). reflexivity. Qed.
Print Assumptions C141_started_partial.

(** inputs for the examples *)
Definition exIn (a : app) (fc2 h0 elph style : string) (sm nb : option Z) (ts : list Q) (tRange : option Q) (q k : Z * Z * Z) (p : list (list Q)) : inputs := {|
  phFC2FileName := list_ascii_of_string fc2; phFC3FileName := str! "fc3"; electronH0Name := list_ascii_of_string h0; wannier90Prefix := []; quantumEspressoPrefix := str! "si"; elPhInterpolation := str! "epa";
  elphFileName := list_ascii_of_string elph; epaFileName := str! "epa"; g2PlotStyle := list_ascii_of_string style; g2MeshStyle := match p with [] => str! "pointsMesh" | _ => str! "pointsPath" end; appName := list_ascii_of_string (appWord a);
  smearingMethod := sm; epaNumBins := nb;
  smearingWidth := None; electronFourierCutoff := Some 4%Q; fermiLevel := None; numOccupiedStates := None;
  dosMinEnergy := None; dosMaxEnergy := None; dosDeltaEnergy := None; deltaPath := deltaPath defaults; constantRelaxationTime := None;
  minChemicalPotential := None; maxChemicalPotential := None; deltaChemicalPotential := None;
  minTemperature := tRange; maxTemperature := tRange; deltaTemperature := tRange;
  epaEnergyRange := Some 1%Q; epaEnergyStep := Some 1%Q; epaMinEnergy := Some 0%Q; epaMaxEnergy := Some 1%Q; epaSmearingEnergy := Some 1%Q; epaDeltaEnergy := None;
  temperatures := ts; dopings := [1%Q]; chemicalPotentials := [];
  qMesh := q; kMesh := k; inputAtomicPositions := []; inputAtomicSpecies := []; inputSpeciesNames := []; pathExtrema := p |}.

(** without a smearing method the application starts: the test of an int never fails *)
Theorem C141_smearing_refuted : exists i, startApp i = Ok PhononTransport /\ smearingMethod i = smearingMethod defaults /\ ~ smearing i.
Proof.
  exists (exIn PhononTransport "fc" "" "" "allToAll" (Some (-1)) None [300%Q] None (4, 4, 4) (0, 0, 0) []). split; [reflexivity|]. split; [reflexivity|]. intros [[E _]|[E|E]]; discriminate E.
Qed.
Print Assumptions C141_smearing_refuted.
(** electron transport starts without the file of force constants that it reads first *)
Theorem C141_transport_refuted : exists i, startApp i = Ok ElectronWannierTransport /\ phFC2FileName i = [].
Proof. exists (exIn ElectronWannierTransport "" "h0" "g" "allToAll" (Some 1) None [300%Q] None (0, 0, 0) (4, 4, 4) []). split; reflexivity. Qed.
Print Assumptions C141_transport_refuted.
(** phonon-electron lifetimes start without kMesh *)
Theorem C141_phel_refuted : exists i, startApp i = Ok PhononElectronLifetimes /\ kMesh i = kMesh defaults.
Proof. exists (exIn PhononElectronLifetimes "fc" "h0" "g" "allToAll" (Some 1) None [300%Q] None (4, 4, 4) (0, 0, 0) []). split; reflexivity. Qed.
Print Assumptions C141_phel_refuted.
(** the coupling plot starts with a fixed k and no mesh of q, and refuses a path when kMesh is not set *)
Theorem C141_plot_refuted : (exists i, startApp i = Ok ElPhCouplingPlot /\ g2PlotStyle i = str! "kFixed" /\ pathExtrema i = [] /\ qMesh i = qMesh defaults) /\
  exists i, complete ElPhCouplingPlot i /\ appName i = str! "elPhCouplingPlot" /\ startApp i = Err.
Proof.
  split.
  - exists (exIn ElPhCouplingPlot "fc" "h0" "g" "kFixed" (Some 1) None [300%Q] None (0, 0, 0) (4, 4, 4) []). repeat split; reflexivity.
  - exists (exIn ElPhCouplingPlot "fc" "h0" "g" "kFixed" (Some 1) None [300%Q] None (0, 0, 0) (0, 0, 0) [[0%Q]]). split; [|split; reflexivity].
    cbn. unfold phononFiles, wannierFile, filled, path, given. cbn. repeat split; try discriminate. right. left. reflexivity.
Qed.
Print Assumptions C141_plot_refuted.
(** a range of temperatures, which the sweep supports, is refused *)
Theorem C141_temperatures_refuted : exists i, complete PhononTransport i /\ appName i = str! "phononTransport" /\ startApp i = Err.
Proof.
  exists (exIn PhononTransport "fc" "" "" "allToAll" (Some 2) None [] (Some 300%Q) (4, 4, 4) (0, 0, 0) []). split; [|split; reflexivity]. cbn. unfold phononFiles, filled, temps, given, smearing. cbn.
  repeat split; try discriminate; try lia; [right; repeat split; discriminate|right; right; reflexivity|congruence|congruence..].
Qed.
Print Assumptions C141_temperatures_refuted.
(** the number of EPA bins is not initialised and its absence is not seen *)
Theorem C141_bins_refuted : exists i, epaNumBins i = epaNumBins defaults /\ nan (epaDeltaEnergy i) = true /\ startApp i = UB.
Proof. exists (exIn ElPhQeToPhoebe "fc" "h0" "" "allToAll" (Some 1) None [300%Q] None (4, 4, 4) (0, 0, 0) []). repeat split. Qed.
Print Assumptions C141_bins_refuted.

(** an accepted input and an incomplete one *)
Example C141_ex : let i := exIn ElectronLifetimes "fc" "h0" "g" "allToAll" (Some 1) None [300%Q] None (0, 0, 0) (4, 4, 4) [[0%Q]; [1%Q]] in
  startApp i = Ok ElectronLifetimes /\ complete ElectronLifetimes i /\ meshSmall (kMesh i) /\
  startApp (exIn ElectronLifetimes "fc" "h0" "g" "allToAll" (Some 1) None [300%Q] None (0, 0, 0) (4, 0, 4) [[0%Q]; [1%Q]]) = Err /\
  startApp (exIn TransportEpa "fc" "h0" "g" "allToAll" (Some 1) None [300%Q] None (0, 0, 0) (4, 4, 4) []) = Ok TransportEpa.
Proof.
  cbn zeta. match goal with |- startApp ?i = _ /\ _ => set (j := i) end. assert (S : startApp j = Ok ElectronLifetimes) by reflexivity. split; [exact S|]. split; [|split; [cbn; lia|split; reflexivity]].
  refine (proj2 (C141_accepted_partial j ElectronLifetimes S _ _ _ _ _)); try discriminate. right; left; reflexivity.
Qed.
