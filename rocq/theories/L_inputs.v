(** Lemmas for C141 *)
From Coq Require Import QArith String Ascii.
From Verif Require Import Base BaseLemmas M_context L_context M_inputs S_inputs.
From Coq Require Import Lia.
Open Scope Z_scope.

Lemma seq2_ok a b : (a ;;; b) = Ok tt <-> a = Ok tt /\ b = Ok tt.
Proof. unfold seq2. destruct a as [[]| |]; cbn [bind]; split; intros; try (split; [reflexivity|assumption]); try (destruct H; congruence); try discriminate; tauto. Qed.
Lemma okIf_ok b : okIf b = Ok tt <-> b = true.
Proof. destruct b; cbn; split; congruence. Qed.
Lemma needList_ok {A} (l : list A) : needList l = Ok tt <-> filled l.
Proof. unfold needList, filled. rewrite okIf_ok. destruct l; split; congruence. Qed.
Lemma needDouble_ok x : needDouble x = Ok tt <-> given x.
Proof. unfold needDouble, given. rewrite okIf_ok. destruct x; split; congruence. Qed.
Lemma needInt_ok x : needInt x = Ok tt <-> x <> None.
Proof. destruct x; cbn; split; congruence. Qed.
Lemma needMesh_ok m : needMesh m = Ok tt -> meshSet m.
Proof. destruct m as [[a b] c]. cbn. destruct (negb _); [discriminate|]. rewrite okIf_ok. intro H. apply negb_true_iff, Z.eqb_neq in H. repeat split; intro; subst; nia. Qed.

Lemma needMesh_rev m : meshSet m -> meshSmall m -> needMesh m = Ok tt.
Proof. destruct m as [[a b] c]. cbn. intros (A & B & C) [S1 S2]. unfold inInt. rewrite !(proj2 (Z.leb_le _ _)) by lia. cbn. apply okIf_ok, negb_true_iff, Z.eqb_neq. nia. Qed.
Lemma nan_given x : nan x = false <-> given x.
Proof. destruct x; cbn; unfold given; split; congruence. Qed.
Lemma nan_none x : nan x = true <-> x = None.
Proof. destruct x; cbn; split; congruence. Qed.
Lemma noList_filled {A} (l : list A) : noList l = false <-> filled l.
Proof. destruct l; cbn; unfold filled; split; congruence. Qed.
Lemma needMu_ok i : needMu i = Ok tt <-> filled (dopings i) \/ filled (chemicalPotentials i).
Proof. unfold needMu. rewrite okIf_ok, negb_true_iff, andb_false_iff, !noList_filled. reflexivity. Qed.
Lemma needLevel_ok i : needLevel i = Ok tt <-> level i.
Proof. unfold needLevel, level. rewrite okIf_ok, negb_true_iff, andb_false_iff, !nan_given. reflexivity. Qed.
Lemma needStructure_ok i : needStructure i = Ok tt <-> structure i.
Proof. unfold needStructure, structure. rewrite !seq2_ok, !needList_ok. tauto. Qed.
Lemma needSmearing_ok i : needSmearing i = Ok tt <-> smearingMethod i <> None /\ (smearingMethod i = Some 0 -> given (smearingWidth i)).
Proof.
  unfold needSmearing. rewrite seq2_ok, needInt_ok. destruct (smearingMethod i) as [m|]; cbn; [|split; [tauto|intros [H _]; congruence]].
  destruct (Z.eqb_spec m 0) as [->|N]; [rewrite needDouble_ok; split; intros [H H2]; split; auto|]. split; intros [H _]; (split; [exact H|]); [|reflexivity]. intro E. congruence.
Qed.
Lemma smearing_of i : needSmearing i = Ok tt -> In (smearingMethod i) [Some 0; Some 1; Some 2] -> smearing i.
Proof. rewrite needSmearing_ok. intros [_ W] [E|[E|[E|[]]]]; unfold smearing; symmetry in E; auto. Qed.
Lemma smearing_rev i : smearing i -> needSmearing i = Ok tt.
Proof. rewrite needSmearing_ok. intros [[E W]|[E|E]]; rewrite E; split; intros; try congruence; exact W. Qed.
Lemma mus_of i : filled (dopings i) \/ filled (chemicalPotentials i) -> mus i.
Proof. unfold mus. tauto. Qed.
Lemma needRange_ok i : okIf (negb (noList (dopings i) && noList (chemicalPotentials i) && (nan (minChemicalPotential i) || nan (maxChemicalPotential i) || nan (deltaChemicalPotential i)))) = Ok tt <-> mus i.
Proof.
  rewrite okIf_ok, negb_true_iff, !andb_false_iff, !orb_false_iff, !noList_filled, !nan_given. unfold mus. tauto.
Qed.
Ltac norm H := rewrite ?seq2_ok, ?needList_ok, ?needDouble_ok, ?needMu_ok, ?needStructure_ok, ?needInt_ok, ?needRange_ok in H.

Lemma checked_complete a i : checkRequirements a i = Ok tt ->
  In (smearingMethod i) [Some 0; Some 1; Some 2] ->
  (a = ElectronWannierTransport -> phononFiles i) ->
  (a = PhononElectronLifetimes -> meshSet (kMesh i) /\ constantRelaxationTime i = None) ->
  (a = ElPhCouplingPlot -> In (g2PlotStyle i) [str! "qFixed"; str! "kFixed"; str! "allToAll"] /\ (g2MeshStyle i = str! "pointsPath" -> path i) /\ (g2PlotStyle i = str! "kFixed" -> meshSet (qMesh i))) ->
  ((a = ElectronLifetimes \/ a = PhononLifetimes) -> given (deltaPath i)) ->
  complete a i.
Proof.
  intros H Sm E1 E2 E3 E4. destruct a; cbn [checkRequirements complete] in *; norm H.
  - destruct H as (A & B & C & D & E & F). apply needMesh_ok in B. pose proof (smearing_of i E Sm). unfold phononFiles, temps. repeat split; try tauto.
    + destruct (elphFileName i); [exfalso; apply H0; reflexivity|]. cbn [noList] in F. norm F. unfold wannierFile. tauto.
    + destruct (elphFileName i); [exfalso; apply H0; reflexivity|]. cbn [noList] in F. norm F. apply needMesh_ok. tauto.
    + destruct (elphFileName i); [exfalso; apply H0; reflexivity|]. cbn [noList] in F. norm F. apply mus_of. tauto.
  - destruct H as (A & B & C). apply needMesh_ok in B. unfold phononFiles, dosGrid. tauto.
  - destruct H as (A & B & C). apply needMesh_ok in B. unfold wannierFile, dosGrid. tauto.
  - destruct H as (A & B & C). apply needMesh_ok in B. unfold fourierFile, dosGrid. tauto.
  - unfold phononFiles, path. tauto.
  - unfold wannierFile, path. tauto.
  - unfold fourierFile, path. tauto.
  - destruct H as (A & B & C & D & E). apply needMesh_ok in B. unfold wannierFile, temps. repeat split; try tauto.
    + rewrite H in D. cbn [nan] in D. rewrite seq2_ok, needList_ok in D. tauto.
    + rewrite H in D. cbn [nan] in D. rewrite seq2_ok in D. apply smearing_of; tauto.
    + intro N. apply nan_given in N. rewrite N in D. apply needLevel_ok, D.
  - destruct H as (A & B & C & D & E & F). rewrite okIf_ok in E. unfold phononFiles, fourierFile. split; [exact B|]. split; [exact C|].
    destruct (streq (elPhInterpolation i) (str! "wannier")) eqn:W.
    + left. apply streq_eq in W. rewrite needList_ok in F. tauto.
    + right. cbn [existsb] in E. rewrite W, orb_false_r in E. cbn [orb] in E. apply streq_eq in E. norm F. destruct F as (F1 & F2 & F3 & F4 & F5). repeat split; try tauto.
      destruct (nan (epaDeltaEnergy i)) eqn:N; [left; apply needInt_ok, F5|right; apply nan_given, N].
  - destruct H as (A & B & C & D). destruct (E3 eq_refl) as (P1 & P2 & P3). unfold phononFiles, wannierFile. repeat split; try tauto.
    destruct (streq (g2MeshStyle i) (str! "pointsPath")) eqn:M; [apply P2, streq_eq, M|]. destruct (streq (g2PlotStyle i) (str! "kFixed")) eqn:K; [apply P3, streq_eq, K|].
    destruct (streq (g2PlotStyle i) (str! "pointsPath")) eqn:Q; [|apply needMesh_ok, C]. exfalso. apply streq_eq in Q. rewrite Q in P1. cbn in P1. destruct P1 as [P|[P|[P|[]]]]; discriminate P.
  - destruct H as (A & B & C & D & E & F & G & H). apply needMesh_ok in E. pose proof (smearing_of i G Sm). pose proof (mus_of i H). unfold phononFiles, wannierFile, path, temps. repeat split; try tauto; apply E4; tauto.
  - destruct H as (A & B & C & D & E & F). apply needMesh_ok in D. pose proof (smearing_of i F Sm). unfold phononFiles, path, temps. repeat split; try tauto; apply E4; tauto.
  - destruct H as (A & B & C & D & E & F & G & H). apply needMesh_ok in C. pose proof (mus_of i H). unfold fourierFile, temps. tauto.
  - destruct H as (A & B & C & D & E & F). apply needMesh_ok in C. destruct (E2 eq_refl) as [K T]. rewrite T in E. cbn [nan] in E. rewrite seq2_ok, needList_ok in E. pose proof (smearing_of i (proj2 E) Sm). pose proof (mus_of i F). unfold phononFiles, wannierFile, temps. tauto.
Qed.

Lemma complete_checked a i : complete a i -> meshSmall (qMesh i) -> meshSmall (kMesh i) ->
  In a [PhononDos; ElectronWannierDos; ElectronFourierDos; PhononBands; ElectronWannierBands; ElectronFourierBands] \/
  filled (temperatures i) /\ (filled (dopings i) \/ filled (chemicalPotentials i) \/ a = ElectronWannierTransport) /\ a <> ElPhCouplingPlot /\ a <> ElPhQeToPhoebe /\ (a = PhononElectronLifetimes -> constantRelaxationTime i = None) ->
  checkRequirements a i = Ok tt.
Proof.
  intros C Q K T. destruct a; cbn [checkRequirements complete] in *; rewrite ?seq2_ok, ?needList_ok, ?needDouble_ok, ?needMu_ok, ?needStructure_ok, ?needRange_ok.
  - destruct T as [T|(T & M & _)]; [exfalso; cbn in T; decompose [or] T; try discriminate; contradiction|]. destruct C as (A & B & D & _ & E & F).
    split; [exact A|]. split; [apply needMesh_rev; assumption|]. split; [exact D|]. split; [exact T|]. split; [apply smearing_rev, E|].
    destruct (elphFileName i) eqn:N; cbn [noList]; [reflexivity|]. destruct F as (F1 & F2 & F3); [discriminate|]. rewrite !seq2_ok, needList_ok, needMu_ok. split; [exact F1|]. split; [apply needMesh_rev; assumption|].
    destruct M as [M|[M|M]]; [left|right|discriminate M]; exact M.
  - destruct C as (A & B & D). unfold dosGrid in D. split; [exact A|]. split; [apply needMesh_rev; assumption|]. tauto.
  - destruct C as (A & B & D & E). unfold dosGrid in E. split; [exact A|]. split; [apply needMesh_rev; assumption|]. tauto.
  - destruct C as ([A A'] & B & D). unfold dosGrid in D. split; [exact A|]. split; [apply needMesh_rev; assumption|]. tauto.
  - unfold phononFiles, path in C. tauto.
  - unfold wannierFile, path in C. tauto.
  - unfold fourierFile, path in C. tauto.
  - destruct T as [T|(T & M & _)]; [exfalso; cbn in T; decompose [or] T; try discriminate; contradiction|]. destruct C as (A & B & D & _ & E & F & G).
    split; [exact B|]. split; [apply needMesh_rev; assumption|]. split; [exact T|]. split; [|exact E].
    destruct (nan (constantRelaxationTime i)) eqn:N; [apply nan_none in N; destruct (F N) as [F1 F2]; rewrite seq2_ok, needList_ok; split; [exact F1|apply smearing_rev, F2]|apply needLevel_ok, G, nan_given, N].
  - destruct T as [T|(_ & _ & _ & T & _)]; [exfalso; cbn in T; decompose [or] T; try discriminate; contradiction|congruence].
  - destruct T as [T|(_ & _ & T & _ & _)]; [exfalso; cbn in T; decompose [or] T; try discriminate; contradiction|congruence].
  - destruct T as [T|(T & M & _)]; [exfalso; cbn in T; decompose [or] T; try discriminate; contradiction|]. destruct C as (A & B & D & [E _] & F & _ & _ & G).
    split; [exact B|]. split; [exact A|]. split; [exact E|]. split; [exact D|]. split; [apply needMesh_rev; assumption|]. split; [exact T|]. split; [apply smearing_rev, G|]. destruct M as [M|[M|M]]; [left|right|discriminate M]; exact M.
  - destruct T as [T|(T & M & _)]; [exfalso; cbn in T; decompose [or] T; try discriminate; contradiction|]. destruct C as (A & B & [D _] & E & _ & F).
    split; [exact A|]. split; [exact B|]. split; [exact D|]. split; [apply needMesh_rev; assumption|]. split; [exact T|]. apply smearing_rev, F.
  - destruct T as [T|(T & M & _)]; [exfalso; cbn in T; decompose [or] T; try discriminate; contradiction|]. destruct C as ([A A'] & B & D & E & F & _ & G).
    split; [exact B|]. split; [exact A|]. split; [apply needMesh_rev; assumption|]. split; [exact A'|]. split; [exact E|]. split; [exact D|]. split; [exact T|]. destruct M as [M|[M|M]]; [left|right|discriminate M]; exact M.
  - destruct T as [T|(T & M & _ & _ & CT)]; [exfalso; cbn in T; decompose [or] T; try discriminate; contradiction|]. specialize (CT eq_refl). destruct C as (A & B & D & E & F & _ & G & H).
    rewrite CT. cbn [nan]. rewrite !seq2_ok, needList_ok.
    split; [exact B|]. split; [exact A|]. split; [apply needMesh_rev; assumption|]. split; [exact T|]. split; [split; [exact D|apply smearing_rev, H]|]. destruct M as [M|[M|M]]; [left|right|discriminate M]; exact M.
Qed.

Lemma load_word a : loadApp (list_ascii_of_string (appWord a)) = Ok a.
Proof. destruct a; vm_compute; reflexivity. Qed.
Lemma load_inv s : (exists a, s = list_ascii_of_string (appWord a) /\ loadApp s = Ok a) \/ (loadApp s = Err /\ forall a, s <> list_ascii_of_string (appWord a)).
Proof.
  destruct (existsb (streq s) choices) eqn:E.
  - left. apply existsb_exists in E. destruct E as (c & Hc & E). apply streq_eq in E. subst c. apply in_map_iff in Hc. destruct Hc as (w & <- & Hw).
    assert (exists a, w = appWord a) as [a ->]; [|exists a; split; [reflexivity|apply load_word]]. cbn in Hw. repeat match type of Hw with _ \/ _ => destruct Hw as [<- | Hw] end; [..|contradiction];
    [exists PhononTransport|exists PhononDos|exists ElectronWannierDos|exists ElectronFourierDos|exists PhononBands|exists ElectronWannierBands|exists ElectronFourierBands|exists ElectronWannierTransport|exists ElPhQeToPhoebe|exists ElPhCouplingPlot|exists ElectronLifetimes|exists PhononLifetimes|exists TransportEpa|exists PhononElectronLifetimes]; reflexivity.
  - right. split; [unfold loadApp; rewrite E; reflexivity|]. intros a ->. assert (X : existsb (streq (list_ascii_of_string (appWord a))) choices = true) by (destruct a; vm_compute; reflexivity). congruence.
Qed.
