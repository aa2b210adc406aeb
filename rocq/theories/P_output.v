(** C145: the files of relaxation times *)
From Coq Require Import Reals List Lia ZArith Lra.
From Verif Require Import Base BaseLemmas M_mpi S_mpi L_mpi M_bands S_bands L_bands2 M_particle M_matrix M_scattering M_omega M_output S_output P_bands.
Import ListNotations.
Open Scope Z_scope.

Lemma mapM_concat {A B C} (g : A -> res (list B)) (f : B -> res C) l ls : mapM g l = Ok ls -> forall cs, mapM f (concat ls) = Ok cs ->
  exists css, mapM (fun a => do bs <- g a ; mapM f bs) l = Ok css /\ concat css = cs /\ map (@length C) css = map (@length B) ls.
Proof.
  revert ls. induction l as [|a l IH]; intros ls H cs F; cbn [mapM] in H.
  - injection H as <-. cbn in F. injection F as <-. exists []. repeat split.
  - destruct (g a) as [bs| |] eqn:G; try discriminate. cbn [bind] in H. destruct (mapM g l) as [t| |] eqn:T; try discriminate. cbn [bind] in H. injection H as <-.
    cbn [concat] in F.
    assert (Sp : forall (x y : list B) r, mapM f (x ++ y) = Ok r -> exists r1 r2, mapM f x = Ok r1 /\ mapM f y = Ok r2 /\ r = r1 ++ r2 /\ length r1 = length x).
    { clear. induction x as [|b x IH]; intros y r H; cbn [app mapM] in *; [exists [], r; repeat split; assumption|].
      destruct (f b) as [c| |]; try discriminate. cbn [bind] in *. destruct (mapM f (x ++ y)) as [r'| |] eqn:E; try discriminate. cbn [bind] in H. injection H as <-.
      destruct (IH y r' E) as (r1 & r2 & E1 & E2 & -> & L). exists (c :: r1), r2. rewrite E1. cbn. rewrite L. repeat split; assumption. }
    destruct (Sp _ _ _ F) as (r1 & r2 & E1 & E2 & -> & L). destruct (IH t eq_refl r2 E2) as (css & E & Cc & Ll).
    exists (r1 :: css). cbn [mapM]. rewrite G. cbn [bind]. rewrite E1. cbn [bind]. rewrite E. cbn [bind concat map]. rewrite Cc, L, Ll. repeat split.
Qed.
Lemma mapM_ext_in {A B} (f g : A -> res B) l : (forall a, In a l -> f a = g a) -> mapM f l = mapM g l.
Proof. induction l as [|a l IH]; intros H; [reflexivity|]. cbn [mapM]. rewrite (H a (or_introl eq_refl)), IH; [reflexivity|]. intros x X. apply H. right. exact X. Qed.
Lemma mapM_bind {A B C} (f : A -> res B) (g : B -> res C) l : forall bs, mapM f l = Ok bs -> mapM (fun a => do b <- f a ; g b) l = mapM g bs.
Proof.
  induction l as [|a l IH]; intros bs H; cbn [mapM] in H; [injection H as <-; reflexivity|].
  destruct (f a) as [b| |] eqn:E; try discriminate. cbn [bind] in H. destruct (mapM f l) as [t| |] eqn:T; try discriminate. cbn [bind] in H. injection H as <-.
  cbn [mapM]. rewrite E. cbn [bind]. rewrite (IH t eq_refl). reflexivity.
Qed.
Lemma mapM_val {A B C} (f : A -> res B) (v : A -> B -> C) l : forall bs, mapM f l = Ok bs -> mapM (fun a => do b <- f a ; Ok (v a b)) l = Ok (map (fun p => v (fst p) (snd p)) (combine l bs)).
Proof.
  induction l as [|a l IH]; intros bs H; cbn [mapM] in H; [injection H as <-; reflexivity|].
  destruct (f a) as [b| |] eqn:E; try discriminate. cbn [bind] in H. destruct (mapM f l) as [t| |] eqn:T; try discriminate. cbn [bind] in H. injection H as <-.
  cbn [mapM]. rewrite E. cbn [bind]. rewrite (IH t eq_refl). reflexivity.
Qed.
Lemma mapM_in {A B} (f : A -> res B) l : forall bs, mapM f l = Ok bs -> forall a, In a l -> exists b, f a = Ok b.
Proof.
  induction l as [|x l IH]; intros bs H a I; [destruct I|]. cbn [mapM] in H. destruct (f x) as [b| |] eqn:E; try discriminate. cbn [bind] in H.
  destruct (mapM f l) as [t| |]; try discriminate. destruct I as [<-|I]; [eauto|exact (IH t eq_refl a I)].
Qed.

(** Every list of the file (times, linewidths, velocities, energies, normal and umklapp times) has for every calculation one list per irreducible
    wavevector, with one entry per band; read one after the other, the entries belong to the states 0, 1, 2, ... of the transport equation. So the n-th
    time and the n-th energy belong to the same state. *)
Theorem C145_lists : forall nb irr red2irr numCalc, Forall (fun n => 0 <= n) nb -> indexMaps irr red2irr (zlen nb) -> 0 <= numCalc ->
  exists offs aux iter, buildSymmetries nb irr red2irr = Ok (offs, aux) /\ irrStateIterator nb irr = Ok iter /\
  mapM (stateToBte nb irr red2irr offs) iter = Ok (zrange 0 (zsum (map (bandsAt nb) irr))) /\
  forall (A : Type) (value : Z -> Z -> Z -> A), exists out, statesList nb irr red2irr offs numCalc value = Ok out /\ zlen out = numCalc /\
    forall iCalc calc, zget out iCalc = Some calc ->
      map (@zlen A) calc = map (bandsAt nb) irr /\
      forall b is, zget iter b = Some is -> zget (concat calc) b = Some (value iCalc is b).
Proof.
  intros nb irr red2irr numCalc HN HI Hc. destruct (C19_irreducible_states_iterator nb irr red2irr HN HI) as (offs & aux & E & iter & Ei & M & In_ & _).
  exists offs, aux, iter. split; [exact E|]. split; [exact Ei|]. split; [exact M|]. intros A value.
  set (nI := zsum (map (bandsAt nb) irr)) in *.
  unfold irrStateIterator in Ei. destruct (mapM _ irr) as [ls| |] eqn:EL in Ei; try discriminate. cbn [bind] in Ei. injection Ei as <-.
  set (g := fun ik => match zget nb ik with Some n => mapM (fun ib => bloch2Comb nb ik ib) (zrange 0 n) | None => UB end) in EL.
  assert (Per : forall iCalc, exists css, mapM (fun ik => match zget nb ik with None => UB | Some n => mapM (fun ib => do is <- bloch2Comb nb ik ib ; do iBte <- stateToBte nb irr red2irr offs is ; Ok (value iCalc is iBte)) (zrange 0 n) end) irr = Ok css /\
     concat css = map (fun p => value iCalc (fst p) (snd p)) (combine (concat ls) (zrange 0 nI)) /\ map (@length A) css = map (@length Z) ls).
  { intros iCalc. pose proof (mapM_val (stateToBte nb irr red2irr offs) (value iCalc) (concat ls) _ M) as V.
    destruct (mapM_concat g (fun is => do iBte <- stateToBte nb irr red2irr offs is ; Ok (value iCalc is iBte)) irr ls EL _ V) as (css & E1 & E2 & E3).
    exists css. split; [|split; assumption]. rewrite <- E1. apply mapM_ext_in. intros ik Iik. unfold g. destruct (zget nb ik) as [n|] eqn:Zn; [|reflexivity].
    assert (Gk : exists bs, mapM (fun ib => bloch2Comb nb ik ib) (zrange 0 n) = Ok bs).
    { destruct (mapM_in g irr ls EL ik Iik) as (bs & Gb). unfold g in Gb. rewrite Zn in Gb. eauto. }
    destruct Gk as (bs & Gk). rewrite Gk. cbn [bind]. exact (mapM_bind _ (fun is => do iBte <- stateToBte nb irr red2irr offs is ; Ok (value iCalc is iBte)) _ _ Gk). }
  assert (Lz : map (@zlen Z) ls = map (bandsAt nb) irr).
  { clear -EL HN. revert ls EL. induction irr as [|ik irr IH]; intros ls EL; cbn [mapM] in EL; [injection EL as <-; reflexivity|].
    destruct (g ik) as [bs| |] eqn:G; try discriminate. cbn [bind] in EL. destruct (mapM g irr) as [t| |] eqn:T; try discriminate. cbn [bind] in EL. injection EL as <-.
    cbn [map]. rewrite (IH t eq_refl). f_equal. unfold g in G. unfold bandsAt. destruct (zget nb ik) as [n|] eqn:Z; [|discriminate].
    assert (Hn : 0 <= n). { unfold zget in Z. destruct (ik <? 0); [discriminate|]. apply nth_error_In in Z. rewrite Forall_forall in HN. apply HN, Z. }
    transitivity (zlen (zrange 0 n)); [|apply zlen_zrange, Hn]. clear -G. revert bs G. generalize (zrange 0 n). induction l as [|a l IH]; intros bs G; cbn [mapM] in G; [injection G as <-; reflexivity|].
    destruct (bloch2Comb nb ik a) as [x| |]; try discriminate. cbn [bind] in G. destruct (mapM _ l) as [t| |] eqn:T; try discriminate. cbn [bind] in G. injection G as <-.
    rewrite !zlen_cons. rewrite (IH t eq_refl). reflexivity. }
  assert (Lc : forall (l : list Z) bs, mapM (stateToBte nb irr red2irr offs) l = Ok bs -> length l = length bs).
  { clear. induction l as [|a l IH]; intros bs G; cbn [mapM] in G; [injection G as <-; reflexivity|].
    destruct (stateToBte nb irr red2irr offs a) as [x| |]; try discriminate. cbn [bind] in G. destruct (mapM _ l) as [t| |] eqn:T; try discriminate. cbn [bind] in G. injection G as <-.
    cbn. f_equal. apply IH. reflexivity. }
  specialize (Lc _ _ M).
  assert (All : forall l, exists out, mapM (fun iCalc => mapM (fun ik => match zget nb ik with None => UB | Some n => mapM (fun ib => do is <- bloch2Comb nb ik ib ; do iBte <- stateToBte nb irr red2irr offs is ; Ok (value iCalc is iBte)) (zrange 0 n) end) irr) l = Ok out /\
     length out = length l /\ forall n calc, nth_error out n = Some calc -> exists iCalc, nth_error l n = Some iCalc /\ map (@zlen A) calc = map (bandsAt nb) irr /\
       concat calc = map (fun p => value iCalc (fst p) (snd p)) (combine (concat ls) (zrange 0 nI))).
  { induction l as [|c l (out & Eo & Lo & Ho)].
    - exists []. split; [reflexivity|]. split; [reflexivity|]. intros [|n] calc H; discriminate.
    - destruct (Per c) as (css & E1 & E2 & E3). exists (css :: out). split; [cbn [mapM]; rewrite E1; cbn [bind]; rewrite Eo; reflexivity|]. split; [cbn; f_equal; exact Lo|].
      intros [|n] calc H; cbn in H.
      + injection H as <-. exists c. split; [reflexivity|]. split; [|exact E2]. rewrite <- Lz. unfold zlen. rewrite <- (map_map (@length A) Z.of_nat), <- (map_map (@length Z) Z.of_nat), E3. reflexivity.
      + apply Ho. exact H. }
  destruct (All (zrange 0 numCalc)) as (out & Eo & Lo & Ho). exists out. split; [exact Eo|]. split; [unfold zlen; rewrite Lo; apply (zlen_zrange 0 numCalc Hc)|].
  intros iCalc calc G. unfold zget in G. destruct (Z.ltb_spec iCalc 0); [discriminate|]. destruct (Ho _ _ G) as (c & Gc & L1 & L2).
  assert (c = iCalc). { assert (Gz : zget (zrange 0 numCalc) iCalc = Some c) by (unfold zget; destruct (Z.ltb_spec iCalc 0); [lia|exact Gc]).
    assert (Rg : 0 <= iCalc < numCalc). { assert (Z.to_nat iCalc < length (zrange 0 numCalc))%nat by (apply nth_error_Some; congruence). pose proof (zlen_zrange 0 numCalc Hc). unfold zlen in *. lia. }
    rewrite zget_zrange in Gz by lia. injection Gz as <-. lia. }
  subst c. split; [exact L1|]. intros b is Gb. rewrite L2.
  assert (Gb2 : zget (zrange 0 nI) b = Some b).
  { unfold zget in Gb. destruct (Z.ltb_spec b 0); [discriminate|]. assert (Z.to_nat b < length (concat ls))%nat by (apply nth_error_Some; congruence).
    assert (Hl : zlen (zrange 0 nI) = zlen (concat ls)) by (unfold zlen; rewrite Lc; reflexivity).
    assert (0 <= b < nI). { split; [lia|]. unfold zrange, zlen in Hl. rewrite map_length, seq_length in Hl. lia. }
    rewrite zget_zrange by lia. first [reflexivity | f_equal; lia]. }
  rewrite zget_map. unfold zget in *. destruct (b <? 0); [discriminate|]. revert Gb Gb2. generalize (Z.to_nat b) (concat ls) (zrange 0 nI). clear.
  intros n l m. generalize b at 1 2. revert l m. induction n as [|n IH]; intros [|x l] [|y m] z; cbn; try discriminate; [intros [= ->] [= ->]; reflexivity|apply IH].
Qed.
Print Assumptions C145_lists.

Lemma pi_ne : (PI <> 0)%R. Proof. pose proof PI_RGT_0. lra. Qed.
Open Scope R_scope.
Lemma energyTime s : energyToTime s * energyConversion s = hbarEvFs.
Proof.
  pose proof pi_ne. unfold energyToTime, energyConversion, hbarEvFs, energyRyToFs, energyRyToEv, timeAuToFs, timeRy, rydbergSi, hartreeSi, electronVoltSi, hBarSi, hPlanckSi, twoPi.
  destruct s; field; repeat split; lra.
Qed.

(** The time and the linewidth written for a state always satisfy time * linewidth = hbar, in units of eV and fs for electrons and meV and ps for
    phonons, with the matrix in either representation, after relabelling, and with a constant relaxation time. *)
Theorem C145_hbar : forall s pop crt S p b l, writtenLinewidth s pop crt S p b = Ok l ->
  (crt = None -> smDiag S p b <> 0 /\ (smOmega S = false -> pop b <> 0)) -> (forall t, crt = Some t -> t <> 0) ->
  writtenTime s pop crt S p b * l = hbarEvFs.
Proof.
  intros s pop crt S p b l H Hn Ht. rewrite <- (energyTime s). unfold writtenLinewidth, writtenTime, getLinewidths, getSingleModeTimes in *. pose proof pi_ne.
  destruct crt as [t|]; cbn [option_map bind] in *.
  - injection H as <-. pose proof (Ht t eq_refl). unfold twoPi. field. split; [assumption|lra].
  - destruct (Hn eq_refl) as (D & P). destruct (smOmega S).
    + cbn [bind] in H. injection H as <-. field. exact D.
    + destruct s; cbn [bind] in H; [|discriminate]. injection H as <-. cbv beta. change (energyRyToEv * 1000) with (energyConversion phonon). field. split; [exact (P eq_refl)|exact D].
Qed.
Print Assumptions C145_hbar.
(** The linewidths are in eV, and in meV for phonons: those of the calculation, in Rydberg, times a factor. *)
Theorem C145_energy_units : exists f, isRydbergEv f /\ forall pop S p b, smOmega S = true ->
  writtenLinewidth electron pop None S p b = Ok (smDiag S p b * f) /\ writtenLinewidth phonon pop None S p b = Ok (smDiag S p b * (1000 * f)) /\
  forall rate, rate <> 0 -> writtenEpaLinewidth rate = rate * f.
Proof.
  exists energyRyToEv. split; [unfold isRydbergEv, energyRyToEv, rydbergSi, hartreeSi, electronVoltSi; lra|]. intros pop S p b H.
  unfold writtenLinewidth, getLinewidths. cbn [option_map]. rewrite H. cbn [bind]. split; [reflexivity|]. split; [f_equal; unfold energyConversion; ring|].
  intros rate Hr. unfold writtenEpaLinewidth. field. exact Hr.
Qed.
Print Assumptions C145_energy_units.
(** for electrons the matrix must be symmetrized, otherwise nothing is written *)
Theorem C145_electrons_refuted : forall pop S p b, smOmega S = false -> writtenLinewidth electron pop None S p b = Err.
Proof. intros pop S p b H. unfold writtenLinewidth, getLinewidths. cbn [option_map]. rewrite H. reflexivity. Qed.
Print Assumptions C145_electrons_refuted.

(** A constant relaxation time of t fs is written as t / (2 pi) fs for every state. *)
Theorem C145_constant_refuted : forall pop S p b t, writtenTime electron pop (Some (inputTimeFs t)) S p b = t / (2 * PI).
Proof.
  intros pop S p b t. unfold writtenTime, getSingleModeTimes, inputTimeFs, energyToTime, energyRyToFs, timeAuToFs, timeRy, hBarSi, hPlanckSi, rydbergSi, hartreeSi, twoPi. cbn [option_map].
  pose proof pi_ne. field. repeat split; lra.
Qed.
Print Assumptions C145_constant_refuted.

(** The relaxon of rate g is written with 2 pi times the time of a state of linewidth g, and the energies of the EPA too: time * linewidth = 2 pi hbar. *)
Theorem C145_relaxons_refuted : forall pop S p b, smOmega S = true -> smDiag S p b <> 0 ->
  writtenRelaxonTime (smDiag S p b) = 2 * PI * writtenTime electron pop None S p b.
Proof.
  intros pop S p b H D. unfold writtenTime, getSingleModeTimes, writtenRelaxonTime, energyToTime, twoPi. cbn [option_map]. rewrite H. pose proof pi_ne. field; repeat split; (assumption || lra).
Qed.
Print Assumptions C145_relaxons_refuted.
Theorem C145_epa_refuted : forall rate, rate <> 0 -> writtenEpaTime rate * writtenEpaLinewidth rate = 2 * PI * hbarEvFs.
Proof.
  intros r H. rewrite <- (energyTime electron). unfold writtenEpaTime, writtenEpaLinewidth, energyToTime, energyConversion, twoPi. pose proof pi_ne. field; repeat split; (assumption || lra).
Qed.
Print Assumptions C145_epa_refuted.

(** a band structure with 3 wavevectors, of which 2 are irreducible, and a matrix with a diagonal that is not constant *)
Example C145_ex_lists : let nb := [2; 1; 2]%Z in let irr := [0; 1]%Z in let r2i := [0; 1; 0]%Z in
  Forall (fun n => (0 <= n)%Z) nb /\ indexMaps irr r2i (zlen nb) /\
  statesList nb irr r2i [0; 2]%Z 2 (fun c is b => (c, is, b)) = Ok [[[(0, 0, 0); (0, 1, 1)]; [(0, 2, 2)]]; [[(1, 0, 0); (1, 1, 1)]; [(1, 2, 2)]]]%Z.
Proof.
  cbn zeta. split; [repeat constructor; lia|]. split; [|vm_compute; reflexivity]. split; [reflexivity|]. split.
  - intros i Hi. assert (C : (i = 0 \/ i = 1)%Z) by (cbn in Hi; lia). destruct C as [-> | ->]; [exists 0%Z|exists 1%Z]; cbn; repeat split; lia.
  - intros i Hi. assert (C : (i = 0 \/ i = 1 \/ i = 2)%Z) by (cbn in Hi; lia). destruct C as [-> | [-> | ->]]; [exists 0%Z|exists 1%Z|exists 0%Z]; cbn; repeat split; lia.
Qed.
Definition exS (omega : bool) : smatrix := {| smDiag := fun _ b => IZR (b + 3); smPart := fun _ _ _ => 0; smOmega := omega |}.
Example C145_ex : (exists l, writtenLinewidth phonon (fun _ => 2) None (exS false) (0, 0)%Z 1 = Ok l) /\ smDiag (exS false) (0, 0)%Z 1 <> 0 /\
  (exists l, writtenLinewidth electron (fun _ => 2) None (exS true) (0, 0)%Z 1 = Ok l) /\ (exists l, writtenLinewidth electron (fun _ => 2) (Some 5) (exS false) (0, 0)%Z 1 = Ok l).
Proof. repeat split; try (eexists; reflexivity). cbn. lra. Qed.
