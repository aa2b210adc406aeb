(** Property theorems for the EPA approximation (C112-C117). Each [Print Assumptions] output is recorded in DESIGN.md. *)
From Coq Require Import QArith Qabs Permutation.
From Verif Require Import Base BaseLemmas M_mpi S_mpi L_mpi M_wigner M_epa S_epa L_epa.
From Coq Require Import Lia Lqa.
Open Scope Z_scope.

(** C112: the coupling returned for two energies is the one of the nearest bins. *)
Theorem C112_nearest : forall e0 b en g nu enI enF, uniform e0 b en -> 1 < zlen en -> fitsInt e0 b enI -> fitsInt e0 b enF ->
  exists j k, nearest en enI j /\ nearest en enF k /\ getCoupling en g nu enI enF = Ok (g nu j k).
Proof. exact getCoupling_nearest. Qed.
Print Assumptions C112_nearest.
Theorem C112_single : forall e0 g nu enI enF, fitsInt e0 1 enI -> fitsInt e0 1 enF -> getCoupling [e0] g nu enI enF = Ok (g nu 0 0).
Proof. intros e0 g nu x y Fx Fy. unfold getCoupling. rewrite (binIndex_single e0 x Fx), (binIndex_single e0 y Fy). reflexivity. Qed.
Print Assumptions C112_single.
(** every energy gives an answer only if the first two bins differ *)
Theorem C112_equal_bins : forall en g nu enI enF, 1 < zlen en -> (forall a b, zget en 0 = Some a -> zget en 1 = Some b -> (a == b)%Q) -> getCoupling en g nu enI enF = UB.
Proof. intros en g nu x y L H. unfold getCoupling. rewrite (binIndex_equal en x L H). reflexivity. Qed.
Print Assumptions C112_equal_bins.
Definition bins3 : list Q := [0%Q; (1 # 10)%Q; (2 # 10)%Q].
Lemma bins3_uniform : uniform 0 (1 # 10) bins3.
Proof. split; [reflexivity|]. split; [reflexivity|]. intros i x H. pose proof (zget_Some _ _ _ H) as [R _]. change (zlen bins3) with 3 in R. assert (i = 0 \/ i = 1 \/ i = 2) as [-> | [-> | ->]] by lia; injection H as <-; reflexivity. Qed.
Example C112_ex : uniform 0 (1 # 10) bins3 /\ fitsInt 0 (1 # 10) (14 # 100) /\ fitsInt 0 (1 # 10) (-5) /\
  getCoupling bins3 (fun nu j k => inject_Z (100 * nu + 10 * j + k)) 2 (14 # 100) (-5) = Ok (inject_Z 210).
Proof. split; [exact bins3_uniform|]. split; [vm_compute; discriminate|]. split; [vm_compute; discriminate|]. reflexivity. Qed.
Example C112_ex2 : getCoupling [0%Q; 0%Q] (fun _ _ _ => 1%Q) 0 1 1 = UB. Proof. reflexivity. Qed.

(** C113: the energies of the transport calculation and the bins of the averages. *)
Theorem C113_grid : forall fermi range step, (0 <= range)%Q -> (0 < step)%Q ->
  exists es, epaGrid fermi range step = Ok es /\
    (inject_Z (zlen es) * step <= 2 * range < (inject_Z (zlen es) + 1) * step)%Q /\
    forall i e, zget es i = Some e -> (e == fermi - range + (inject_Z i + (1 # 2)) * step)%Q /\ (fermi - range < e < fermi + range)%Q.
Proof. exact epaGrid_spec. Qed.
Print Assumptions C113_grid.
(** bins given by their step: they start at the minimum and end within one step of the maximum; every energy of the window is within one step of its bin *)
Theorem C113_step : forall emin emax d num, (emin <= emax)%Q -> (0 < d)%Q -> ((emax - emin) / d <= inject_Z 2147483646)%Q ->
  exists es, epaBins emin emax (Some d) num = Ok es /\ uniform emin d es /\
    (inject_Z (zlen es - 1) * d <= emax - emin < inject_Z (zlen es) * d)%Q /\
    forall x j e, (emin <= x <= emax)%Q -> nearest es x j -> zget es j = Some e -> (Qabs (x - e) <= d)%Q.
Proof.
  intros emin emax d num E D F. destruct (epaBins_delta emin emax d num E D F) as (es & Ee & U & B). exists es. split; [exact Ee|]. split; [exact U|]. split; [exact B|]. intros x j e X N Z. apply (nearest_within emin d es x j e U); [lra|exact N|exact Z].
Qed.
Print Assumptions C113_step.
Theorem C113_number : forall emin emax num, (emin < emax)%Q -> 0 < num ->
  exists es, epaBins emin emax None num = Ok es /\ zlen es = num /\ uniform emin ((emax - emin) / inject_Z num) es /\
    forall x j e, (emin <= x < emax)%Q -> nearest es x j -> zget es j = Some e -> (Qabs (x - e) <= (emax - emin) / inject_Z num)%Q.
Proof.
  intros emin emax num E N. destruct (epaBins_number emin emax num E N) as (es & Ee & L & U). exists es. split; [exact Ee|]. split; [exact L|]. split; [exact U|]. intros x j e X Nj Z. apply (nearest_within _ _ es x j e U); [|exact Nj|exact Z]. rewrite L.
  setoid_replace (emin + inject_Z num * ((emax - emin) / inject_Z num))%Q with emax; [exact X|]. field. intro X0. assert (P : (0 < inject_Z num)%Q) by (change 0%Q with (inject_Z 0); apply inj_lt; lia). lra.
Qed.
Print Assumptions C113_number.
(** a number of bins instead of a step: the maximum of the window is never a bin *)
Theorem C113_last_bin : forall emin emax num es e, (emin < emax)%Q -> 0 < num -> epaBins emin emax None num = Ok es -> In e es -> (e < emax)%Q.
Proof.
  intros emin emax num es e E N B I. destruct (epaBins_number emin emax num E N) as (es' & Ee & L & U). assert (es' = es) by congruence. subst es'. assert (P : (0 < inject_Z num)%Q) by (change 0%Q with (inject_Z 0); apply inj_lt; lia).
  apply In_nth_error in I as (k & K). assert (Z : zget es (Z.of_nat k) = Some e) by (unfold zget; destruct (Z.ltb_spec (Z.of_nat k) 0); [lia|]; rewrite Nat2Z.id; exact K). apply zget_Some in Z as Z'. destruct Z' as [R _]. apply (proj2 (proj2 U)) in Z. rewrite Z.
  destruct U as (S & _). assert (inject_Z (Z.of_nat k) * ((emax - emin) / inject_Z num) < inject_Z num * ((emax - emin) / inject_Z num))%Q by (apply Qmult_lt_compat_r; [exact S|apply inj_lt; lia]). assert (inject_Z num * ((emax - emin) / inject_Z num) == emax - emin)%Q by (field; lra). lra.
Qed.
Print Assumptions C113_last_bin.
Theorem C113_refused : forall emin emax d num, (emax < emin)%Q -> epaBins emin emax d num = Err.
Proof. exact epaBins_refused. Qed.
Print Assumptions C113_refused.
Example C113_ex : exists a b c a' b' c' d', epaGrid 1 (1 # 2) (3 # 10) = Ok [a; b; c] /\ (b == (1 # 2) + (3 # 2) * (3 # 10))%Q /\ epaBins 0 1 (Some (3 # 10)%Q) 0 = Ok [a'; b'; c'; d'] /\ (a' == 0)%Q /\ (d' == 9 # 10)%Q.
Proof. do 7 eexists. split; [vm_compute; reflexivity|]. split; [vm_compute; reflexivity|]. split; [vm_compute; reflexivity|]. split; reflexivity. Qed.
Example C113_ex2 : exists a b, epaBins 0 1 None 2 = Ok [a; b] /\ (b == 1 # 2)%Q.
Proof. do 2 eexists. split; [vm_compute; reflexivity|reflexivity]. Qed.

(** C114: the averaged coupling of a pair of bins, for any number of processes. *)
Theorem C114_average : forall nB nK gauss cut size stars nu i j, fits (zlen stars) size ->
  exists r, epaAverage nB nK gauss cut size stars nu i j = Ok r /\
    let l := epaTerms nB nK gauss i j nu stars in
    let kept := filter (fun t => negb (Qle_bool (snd t) cut)) l in
    ((1 # 1000000000000) < totalWeight l -> r == totalCoupling kept / totalWeight l)%Q /\
    (totalWeight l <= (1 # 1000000000000) -> r == totalCoupling kept)%Q.
Proof. exact epaAverage_value. Qed.
Print Assumptions C114_average.
(** when every frequency is above the cutoff and the weight is not negligible it is a weighted average, between the smallest and the largest coupling *)
Theorem C114_bounded : forall nB nK gauss cut size stars nu i j m M, fits (zlen stars) size ->
  (forall t, In t (epaTerms nB nK gauss i j nu stars) -> (cut < snd t)%Q /\ (0 <= fst (fst t))%Q /\ (m <= snd (fst t) / (2 * snd t) <= M)%Q) ->
  ((1 # 1000000000000) < totalWeight (epaTerms nB nK gauss i j nu stars))%Q ->
  exists r, epaAverage nB nK gauss cut size stars nu i j = Ok r /\ (r == totalCoupling (epaTerms nB nK gauss i j nu stars) / totalWeight (epaTerms nB nK gauss i j nu stars))%Q /\ (m <= r <= M)%Q.
Proof.
  intros nB nK gauss cut size stars nu i j m M F H W. destruct (epaAverage_value nB nK gauss cut size stars nu i j F) as (r & Er & R & _). exists r. split; [exact Er|]. specialize (R W).
  rewrite filter_all in R by (intros t It; destruct (H t It) as (C & _); destruct (Qle_bool (snd t) cut) eqn:X; [apply Qle_bool_iff in X; lra|reflexivity]). split; [exact R|]. rewrite R. apply average_bounds; [intros t It; destruct (H t It) as (_ & A); exact A|lra].
Qed.
Print Assumptions C114_bounded.
Theorem C114_frequency : forall size nQ stars nu, fits (zlen stars) size -> exists r, epaFrequency size nQ stars nu = Ok r /\ (r == sumQ (map (fun q => qPh q nu) (concat stars)) / inject_Z nQ)%Q.
Proof. exact epaFrequency_value. Qed.
Print Assumptions C114_frequency.
Definition qpt (w g : Q) : epaQ := {| qPh := fun _ => w; qKq := fun _ => 0; qG2 := fun _ _ _ _ => g |}.
(** modes below the cutoff are left out of the sum but kept in its normalisation *)
Theorem C114_cutoff : exists nB nK gauss cut stars r, epaAverage nB nK gauss cut 1 stars 0 0 0 = Ok r /\
  ((1 # 1000000000000) < totalWeight (epaTerms nB nK gauss 0 0 0 stars))%Q /\
  (forall t, In t (epaTerms nB nK gauss 0 0 0 stars) -> (cut < snd t)%Q -> (snd (fst t) / (2 * snd t) == 1)%Q) /\ (r == 1 # 2)%Q.
Proof.
  exists 1, 1, (fun _ _ _ => 1%Q), (1 # 100)%Q, [[qpt 1 2; qpt 0 2]]. eexists. split; [vm_compute; reflexivity|]. split; [vm_compute; reflexivity|]. split; [|reflexivity].
  intros t It C. vm_compute in It. destruct It as [<-|[<-|[]]]; [reflexivity|]. vm_compute in C. discriminate.
Qed.
Print Assumptions C114_cutoff.
(** pairs of bins of negligible weight keep the sum that was not normalised *)
Theorem C114_weight : exists nB nK gauss cut stars r, epaAverage nB nK gauss cut 1 stars 0 0 0 = Ok r /\
  (forall t, In t (epaTerms nB nK gauss 0 0 0 stars) -> (cut < snd t)%Q /\ (0 < fst (fst t))%Q /\ (snd (fst t) / (2 * snd t) == 1)%Q) /\ (r == 1 # 1000000000000)%Q.
Proof.
  exists 1, 1, (fun _ _ _ => 1 # 1000000)%Q, (1 # 100)%Q, [[qpt 1 2]]. eexists. split; [vm_compute; reflexivity|]. split; [|reflexivity].
  intros t It. vm_compute in It. destruct It as [<-|[]]. split; [reflexivity|]. split; reflexivity.
Qed.
Print Assumptions C114_weight.
Example C114_ex : fits 2 2 /\ exists r, epaAverage 2 2 (fun i b k => inject_Z (1 + i + b + k)) (1 # 100) 2 [[qpt 1 2; qpt 1 4]; [qpt 2 8]] 0 0 1 = Ok r /\ (r == 5 # 3)%Q.
Proof. split; [repeat split; vm_compute; discriminate || reflexivity|]. eexists. split; [vm_compute; reflexivity|reflexivity]. Qed.

(** C115: what is written by the averaging calculation is what the transport calculation reads, up to the digits printed. *)
Theorem C115_round_trip : forall pr nel ph en g, exists f, parseEpa (writeEpa pr nel 1 ph en g) = Ok f /\
  efElectrons f = nel /\ efModes f = zlen ph /\ efPh f = map pr ph /\ efEnergies f = zlen en /\ efEn f = map pr en /\
  zlen (efG f) = zlen ph * zlen en * zlen en /\
  forall nu j k, 0 <= nu < zlen ph -> 0 <= j < zlen en -> 0 <= k < zlen en -> efCoupling f nu j k = pr (g nu j k).
Proof.
  intros pr nel ph en g. eexists. split; [apply parse_write|]. unfold fileOf. cbn [efElectrons efModes efPh efEnergies efEn efG]. repeat (split; [reflexivity|]). split.
  - unfold zlen at 1. rewrite allCouplings_len. pose proof (zlen_nonneg ph). pose proof (zlen_nonneg en). nia.
  - intros nu j k Hn Hj Hk. unfold efCoupling. cbn [efEnergies efG]. apply nth_error_nth. apply allCouplings_nth; assumption.
Qed.
Print Assumptions C115_round_trip.
Theorem C115_spin : forall pr nel nspin ph en g, nspin <> 1 -> parseEpa (writeEpa pr nel nspin ph en g) = Err.
Proof. exact parse_spin. Qed.
Print Assumptions C115_spin.
(** a file that was cut anywhere in its list of couplings is accepted, and the missing couplings are zero *)
Theorem C115_truncated : forall pr nel ph en g m, (m <= Z.to_nat (zlen ph * zlen en * zlen en))%nat ->
  exists f, parseEpa (firstn (4 + length ph + length en + m) (writeEpa pr nel 1 ph en g)) = Ok f /\
  forall nu j k, 0 <= nu < zlen ph -> 0 <= j < zlen en -> 0 <= k < zlen en ->
    efCoupling f nu j k = if (nu * zlen en + j) * zlen en + k <? Z.of_nat m then pr (g nu j k) else 0%Q.
Proof.
  intros pr nel ph en g m M. eexists. split; [apply parse_truncated; exact M|]. intros nu j k Hn Hj Hk. unfold efCoupling, fileOf. cbn [efEnergies efG]. pose proof (allCouplings_nth pr (zlen ph) (zlen en) g nu j k Hn Hj Hk) as N. set (p := (nu * zlen en + j) * zlen en + k) in *. assert (P : 0 <= p) by (subst p; nia).
  set (cs := allCouplings pr (zlen ph) (zlen en) g) in *. assert (L : length cs = Z.to_nat (zlen ph * zlen en * zlen en)) by (unfold cs; rewrite allCouplings_len; nia). destruct (Z.ltb_spec p (Z.of_nat m)) as [C|C].
  - rewrite app_nth1 by (rewrite firstn_length; lia). apply nth_error_nth. rewrite <- N. rewrite <- (firstn_skipn m cs) at 2. rewrite nth_error_app1 by (rewrite firstn_length; lia). reflexivity.
  - rewrite app_nth2 by (rewrite firstn_length; lia). destruct (nth_in_or_default (Z.to_nat p - length (firstn m cs)) (repeat 0%Q (Z.to_nat (zlen ph * zlen en * zlen en) - m)) 0%Q) as [I|I]; [apply repeat_spec in I; exact I|exact I].
Qed.
Print Assumptions C115_truncated.
Example C115_ex : exists f, parseEpa (writeEpa (fun x => x) 8 1 [1%Q; 2%Q] [0%Q; 1%Q] (fun nu j k => inject_Z (1 + nu + 2 * j + 4 * k))) = Ok f /\ efCoupling f 1 0 1 = inject_Z 6.
Proof. eexists. split; reflexivity. Qed.
Example C115_ex2 : exists f, parseEpa (firstn 9 (writeEpa (fun x => x) 8 1 [1%Q; 2%Q] [0%Q; 1%Q] (fun nu j k => inject_Z (1 + nu + 2 * j + 4 * k)))) = Ok f /\ efCoupling f 0 0 0 = 1%Q /\ efCoupling f 1 0 1 = 0%Q.
Proof. eexists. split; [reflexivity|]. split; reflexivity. Qed.

(** C116: the rates of the transport calculation. *)
Theorem C116_rates : forall size b0 b binEn g ph e0 step energies dos norm bose fermi el,
  fits (zlen energies) size -> uniform b0 b binEn -> 1 < zlen binEn -> uniform e0 step energies -> zlen dos = zlen energies ->
  regularInput b0 b step ph energies -> zget energies (zlen energies - 1) = Some el ->
  exists out, epaRates size binEn g ph energies dos step norm bose fermi = Ok out /\ zlen out = zlen energies /\
    forall iE e, zget energies iE = Some e -> exists r terms, zget out iE = Some r /\ (r == sumQ terms)%Q /\
      Forall2 (fun nu t => exists w, zget ph nu = Some w /\ oneTerm binEn g energies dos e0 el norm bose fermi e nu w t) (zrange 0 (zlen ph)) terms.
Proof. exact epaRates_spec. Qed.
Print Assumptions C116_rates.
Theorem C116_nonneg : forall size b0 b binEn g ph e0 step energies dos norm bose fermi,
  fits (zlen energies) size -> uniform b0 b binEn -> 1 < zlen binEn -> uniform e0 step energies -> zlen dos = zlen energies ->
  regularInput b0 b step ph energies ->
  (forall i d, zget dos i = Some d -> (0 <= d)%Q) -> (0 <= norm)%Q -> (forall nu j k, (0 <= g nu j k)%Q) -> (forall nu, (0 <= bose nu)%Q) -> (forall x, (0 <= fermi x <= 1)%Q) ->
  exists out, epaRates size binEn g ph energies dos step norm bose fermi = Ok out /\ forall r, In r out -> (0 <= r)%Q.
Proof.
  intros size b0 b binEn g ph e0 step energies dos norm bose fermi F Ub Lb Ue D R Hd Hn Hg Hb Hf. destruct (zget_inrange energies (zlen energies - 1)) as (el & El); [destruct Ue as (_ & X & _); lia|].
  destruct (epaRates_spec size b0 b binEn g ph e0 step energies dos norm bose fermi el F Ub Lb Ue D R El) as (out & Eo & Lo & H). exists out. split; [exact Eo|]. intros r I. apply In_nth_error in I as (k & K). assert (Z : zget out (Z.of_nat k) = Some r) by (unfold zget; destruct (Z.ltb_spec (Z.of_nat k) 0); [lia|]; rewrite Nat2Z.id; exact K).
  apply zget_Some in Z as Z'. destruct Z' as [Rg _]. rewrite Lo in Rg. destruct (zget_inrange energies (Z.of_nat k) Rg) as (e & E). destruct (H _ e E) as (r' & ts & Er & Qr & Ft). assert (r' = r) by congruence. subst r'. rewrite Qr. apply sumQ_nonneg. intros t It. clear - Ft It Ue Hd Hn Hg Hb Hf.
  induction Ft as [|nu t' a l (w & _ & Ht) Ft IH]; [destruct It|]. destruct It as [<-|It]; [|exact (IH It)]. exact (oneTerm_nonneg _ _ _ _ _ _ _ _ _ _ _ _ _ _ Ue Hd Hn Hg (Hb nu) Hf Ht).
Qed.
Print Assumptions C116_nonneg.
(** a density of states linear in the energy is taken exactly at the final energies *)
Theorem C116_linear : forall energies dos e v e0 step a b, uniform e0 step energies -> linearDos a b energies dos -> interpolatedAt energies dos e v -> (v == a + b * e)%Q.
Proof. exact interpolated_linear. Qed.
Print Assumptions C116_linear.
(** the number of processes changes nothing *)
Theorem C116_processes : forall size binEn g ph energies dos step norm bose fermi, fits (zlen energies) size ->
  (forall iE, 0 <= iE < zlen energies -> exists r, epaRateAt binEn g ph energies dos step norm bose fermi iE = Ok r) ->
  exists out, epaRates size binEn g ph energies dos step norm bose fermi = Ok out /\ zlen out = zlen energies /\
    forall iE r, 0 <= iE < zlen energies -> epaRateAt binEn g ph energies dos step norm bose fermi iE = Ok r -> exists x, zget out iE = Some x /\ (x == r)%Q.
Proof.
  intros size binEn g ph energies dos step norm bose fermi F H. unfold epaRates. set (f := epaRateAt binEn g ph energies dos step norm bose fermi) in *.
  destruct (overEnergies_ok size (zlen energies) f (fun iE => match f iE with Ok r => r | _ => 0%Q end) F) as (out & Eo & Lo & Ho); [intros iE I; destruct (H iE I) as (r & Er); rewrite Er; reflexivity|].
  exists out. split; [exact Eo|]. split; [exact Lo|]. intros iE r I Er. destruct (Ho iE I) as (x & Ex & Qx). exists x. split; [exact Ex|]. rewrite Qx, Er. reflexivity.
Qed.
Print Assumptions C116_processes.
(** an average frequency below zero (an unstable mode) reads outside of the table *)
Theorem C116_unstable : forall dos w step, 0 < zlen dos -> (0 < step)%Q -> (w <= - step)%Q -> dosFinal dos 0 w step = UB.
Proof. exact dosFinal_unstable. Qed.
Print Assumptions C116_unstable.
(** a final energy equal to the last (or first) energy of the grid finds no states *)
Theorem C116_edge : forall e0 step energies dos iE e el w, uniform e0 step energies -> zlen dos = zlen energies -> zget energies iE = Some e -> zget energies (zlen energies - 1) = Some el -> (0 <= w)%Q -> (w / step <= inject_Z 2147483647)%Q ->
  exists em ab, dosFinal dos iE w step = Ok (em, ab) /\ ((e + w == el)%Q -> (ab == 0)%Q) /\ ((e - w == e0)%Q -> (em == 0)%Q).
Proof.
  intros e0 step energies dos iE e el w U D E El W F. destruct (dosFinal_spec e0 step energies dos iE e el w U D E El W F) as (em & ab & Ed & _ & D2 & _ & D4). exists em, ab. split; [exact Ed|]. split; intro X; [apply D4|apply D2]; lra.
Qed.
Print Assumptions C116_edge.
Definition grid3 : list Q := [0%Q; 1%Q; 2%Q].
Lemma grid3_uniform : uniform 0 1 grid3.
Proof. split; [reflexivity|]. split; [reflexivity|]. intros i x H. pose proof (zget_Some _ _ _ H) as [R _]. change (zlen grid3) with 3 in R. assert (i = 0 \/ i = 1 \/ i = 2) as [-> | [-> | ->]] by lia; injection H as <-; reflexivity. Qed.
Lemma grid3_regular : regularInput 0 1 1 [(1 # 2)%Q] grid3.
Proof. intros e w [<-|[<-|[<-|[]]]] [<-|[]]; repeat split; vm_compute; discriminate. Qed.
Example C116_ex : uniform 0 1 grid3 /\ regularInput 0 1 1 [(1 # 2)%Q] grid3 /\
  exists a b c, epaRates 2 grid3 (fun _ j k => inject_Z (1 + j + k)) [(1 # 2)%Q] grid3 [1%Q; 2%Q; 3%Q] 1 2 (fun _ => 1%Q) (fun _ => (1 # 2)%Q) = Ok [a; b; c] /\ (a == 9)%Q /\ (b == 87 # 2)%Q /\ (c == 75 # 2)%Q.
Proof. split; [exact grid3_uniform|]. split; [exact grid3_regular|]. do 3 eexists. split; [vm_compute; reflexivity|]. repeat split. Qed.

(** C117: projected velocities and density of states. *)
Theorem C117_symmetric : forall norm states iE i j, (projVelocity norm states iE i j == projVelocity norm states iE j i)%Q.
Proof. exact projVelocity_sym. Qed.
Print Assumptions C117_symmetric.
Theorem C117_nonneg : forall norm states iE x, (0 <= norm)%Q -> (forall s, In s states -> (0 <= sDelta s iE)%Q) -> (0 <= quad3 (projVelocity norm states iE) x)%Q.
Proof. exact projVelocity_psd. Qed.
Print Assumptions C117_nonneg.
(** the tensor is unchanged by the operations of the crystal *)
Theorem C117_invariant : forall norm states iE P i j, starsClosed P states -> 0 <= i < 3 -> 0 <= j < 3 ->
  (projVelocity norm states iE i j == sumQ (map (fun ab => P i (fst ab) * P j (snd ab) * projVelocity norm states iE (fst ab) (snd ab))%Q (list_prod (zrange 0 3) (zrange 0 3))))%Q.
Proof. exact projVelocity_invariant. Qed.
Print Assumptions C117_invariant.
(** the density of states counts every point of the full zone, and is not negative *)
Theorem C117_dos : forall norm states iE, (epaDos norm states iE == sumQ (flat_map (fun s => map (fun _ => (sDelta s iE * norm)%Q) (sRot s)) states))%Q /\
  ((0 <= norm)%Q -> (forall s, In s states -> (0 <= sDelta s iE)%Q) -> (0 <= epaDos norm states iE)%Q).
Proof.
  intros norm states iE. split; [apply epaDos_full|]. intros N D. rewrite epaDos_full. apply sumQ_nonneg. intros y Hy. apply in_flat_map in Hy as (s & Is & Hy). apply in_map_iff in Hy as (r & <- & _). apply Qmult_le_0_compat; [apply D; exact Is|exact N].
Qed.
Print Assumptions C117_dos.
Theorem C117_processes : forall size nE norm states, fits nE size ->
  (forall i j, exists out, overEnergies size nE (fun iE => Ok (projVelocity norm states iE i j)) = Ok out /\ zlen out = nE /\ forall iE, 0 <= iE < nE -> exists x, zget out iE = Some x /\ (x == projVelocity norm states iE i j)%Q) /\
  exists out, overEnergies size nE (fun iE => Ok (epaDos norm states iE)) = Ok out /\ zlen out = nE /\ forall iE, 0 <= iE < nE -> exists x, zget out iE = Some x /\ (x == epaDos norm states iE)%Q.
Proof. intros size nE norm states F. split; [intros i j|]; apply overEnergies_ok; try exact F; intros; reflexivity. Qed.
Print Assumptions C117_processes.
Definition mat3 (a b c d e f g h k : Q) (i j : Z) : Q := nth (Z.to_nat (3 * i + j)) [a; b; c; d; e; f; g; h; k] 0%Q.
Definition idR := mat3 1 0 0 0 1 0 0 0 1.
Definition swapR := mat3 0 1 0 1 0 0 0 0 1.
Definition oneState : epaState := {| sVel := fun i => inject_Z (i + 1); sRot := [idR; swapR]; sDelta := fun _ => 1%Q |}.
Example C117_ex : starsClosed swapR [oneState] /\ (projVelocity (1 # 2) [oneState] 0 0 0 == 5 # 2)%Q /\ (projVelocity (1 # 2) [oneState] 0 1 1 == 5 # 2)%Q /\ (epaDos (1 # 2) [oneState] 0 == 1)%Q.
Proof.
  split; [|repeat split]. intros s [<-|[]]. exists [swapR; idR]. split; [apply perm_swap|]. repeat constructor; intros i I; assert (i = 0 \/ i = 1 \/ i = 2) as [-> | [-> | ->]] by lia; reflexivity.
Qed.
