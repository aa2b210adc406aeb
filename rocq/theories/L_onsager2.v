(** Views, EPA, lists of the output, relaxons, specific heat. *)
From Coq Require Import QArith Qcanon Qcabs Lqa Permutation.
From Verif Require Import Base BaseLemmas M_matrix M_vbte M_scattering M_onsager S_onsager L_mpi L_matrix L_matrix2 L_vbte L_scattering L_scattering2 L_solver L_onsager.
From Coq Require Import Lia.
Open Scope Z_scope.
Delimit Scope Qc_scope with Qc.

(** * A single energy *)
Lemma single_energy norm mu T ranks weight d X e : (forall s, In s (concat (concat ranks)) -> rtaPopulations T mu weight s) -> T <> 0%Qc ->
  isInverse d (LEE (fromPopulations norm mu ranks)) X -> (forall s, In s (concat (concat ranks)) -> oEn s = e) ->
  forall i j, 0 <= i < d -> 0 <= j < d -> kappaOf d X (fromPopulations norm mu ranks) i j = 0%Qc.
Proof.
  intros RTA NT INV E i j Hi Hj. set (o := fromPopulations norm mu ranks) in *.
  assert (T1 : forall i j, LET o i j = (- ((e - mu) / T) * LEE o i j)%Qc /\ LTE o i j = ((e - mu) * LEE o i j)%Qc /\ LTT o i j = (- ((e - mu) * ((e - mu) / T)) * LEE o i j)%Qc).
  { intros a b. destruct (rta_tensors norm mu T ranks weight RTA a b) as (A & B & C & D). fold o in A, B, C, D. rewrite A, B, C, D, <- !qsum_map_scale.
    repeat split; apply qsum_ext; intros p I; unfold eOf; rewrite (E _ (full_in ranks p I)); field; exact NT. }
  rewrite kappa_eq. destruct (T1 i j) as (_ & _ & D). rewrite D.
  assert (S : forall k, 0 <= k < d -> seebeckOf d X o k j = (- ((e - mu) / T) * (if k =? j then 1 else 0))%Qc).
  { intros k Hk. rewrite seebeck_eq, <- (proj2 (INV k j Hk Hj)), <- sumTo_scale. apply sumTo_ext. intros l _. rewrite (proj1 (T1 l j)). ring. }
  rewrite (sumTo_ext d _ (fun k => (if j =? k then 1 else 0) * (- ((e - mu) * ((e - mu) / T)) * LEE o i k))%Qc).
  - rewrite (sumTo_delta d j (fun k => - ((e - mu) * ((e - mu) / T)) * LEE o i k)%Qc Hj). ring.
  - intros k Hk. rewrite (S k Hk), (proj1 (proj2 (T1 i k))), (Z.eqb_sym k j). ring.
Qed.

(** * EPA *)
Definition binTerm (factor step : Qc) (b : bin) (i j : Z) : Qc := (bVel b i j / bRate b * factor * bPop b * step)%Qc.
Lemma fromEPA_sums factor step temp bins i j : temp <> 0%Qc -> let o := fromEPA factor step temp bins in let K := filter (fun b => negb (skipped b)) bins in
  LEE o i j = qsum (map (fun b => binTerm factor step b i j / temp)%Qc K) /\ LET o i j = qsum (map (fun b => - (binTerm factor step b i j * bEn b / (temp * temp)))%Qc K) /\
  LTE o i j = qsum (map (fun b => - (binTerm factor step b i j * bEn b / temp))%Qc K) /\
  LTT o i j = qsum (map (fun b => - (binTerm factor step b i j * (bEn b * bEn b) / (temp * temp)))%Qc K).
Proof.
  intros NT. cbv zeta. unfold fromEPA.
  assert (G : forall z, LEE (fold_left (addBin factor step temp) bins z) i j = (LEE z i j + qsum (map (fun b => binTerm factor step b i j / temp)%Qc (filter (fun b => negb (skipped b)) bins)))%Qc /\
    LET (fold_left (addBin factor step temp) bins z) i j = (LET z i j + qsum (map (fun b => - (binTerm factor step b i j * bEn b / (temp * temp)))%Qc (filter (fun b => negb (skipped b)) bins)))%Qc /\
    LTE (fold_left (addBin factor step temp) bins z) i j = (LTE z i j + qsum (map (fun b => - (binTerm factor step b i j * bEn b / temp))%Qc (filter (fun b => negb (skipped b)) bins)))%Qc /\
    LTT (fold_left (addBin factor step temp) bins z) i j = (LTT z i j + qsum (map (fun b => - (binTerm factor step b i j * (bEn b * bEn b) / (temp * temp)))%Qc (filter (fun b => negb (skipped b)) bins)))%Qc).
  { induction bins as [|b bins IH]; intros z; cbn [fold_left filter]. { cbn [map]. change (qsum []) with 0%Qc. repeat split; ring. }
    destruct (IH (addBin factor step temp z b)) as (A & B & C & D). rewrite A, B, C, D. unfold addBin. destruct (skipped b); cbn [negb]; [now repeat split |].
    cbn [map LEE LET LTE LTT]. change (qsum (?x :: ?m)) with (x + qsum m)%Qc. unfold binTerm, Qcdiv. repeat split; ring. }
  destruct (G zeroOnsager) as (A & B & C & D). rewrite A, B, C, D. cbn [zeroOnsager LEE LET LTE LTT]. repeat split; ring.
Qed.
Lemma epa_reciprocity factor step temp bins i j : temp <> 0%Qc -> let o := fromEPA factor step temp bins in LTE o i j = (temp * LET o i j)%Qc.
Proof.
  intros NT. cbv zeta. destruct (fromEPA_sums factor step temp bins i j NT) as (_ & B & C & _). rewrite B, C, <- qsum_map_scale. apply qsum_ext. intros. field. exact NT.
Qed.

(** * Views *)
Lemma view_three numCalc : 0 <= numCalc -> exists l, viewWrites numCalc 3 = Ok l /\ NoDup l.
Proof.
  intros H. set (P := list_prod (zrange 0 numCalc) (list_prod (zrange 0 3) (zrange 0 3))).
  exists (map (fun t => viewOffset numCalc (fst t) (fst (snd t)) (snd (snd t))) P). split.
  - unfold viewWrites. fold P. assert (I : forall t, In t P -> 0 <= fst t < numCalc /\ 0 <= fst (snd t) < 3 /\ 0 <= snd (snd t) < 3).
    { intros (c & i & j) Hin. unfold P in Hin. apply in_prod_iff in Hin as (Hc & Hij). apply in_prod_iff in Hij as (Hi & Hj). apply in_zrange in Hc, Hi, Hj. cbn. lia. }
    clearbody P. induction P as [|t P IH]; [reflexivity |]. cbn [mapM map]. rewrite IH by (intros; apply I; now right).
    destruct (I t (or_introl eq_refl)) as (Hc & Hi & Hj). unfold viewOffset. destruct (Z.ltb_spec (fst t + numCalc * (fst (snd t) + 3 * snd (snd t))) (numCalc * 3 * 3)); [reflexivity | exfalso; nia].
  - assert (ND : NoDup P) by (apply NoDup_list_prod; [| apply NoDup_list_prod]; apply NoDup_zrange).
    assert (I : forall t, In t P -> 0 <= fst t < numCalc /\ 0 <= fst (snd t) < 3 /\ 0 <= snd (snd t) < 3).
    { intros (c & i & j) Hin. unfold P in Hin. apply in_prod_iff in Hin as (Hc & Hij). apply in_prod_iff in Hij as (Hi & Hj). apply in_zrange in Hc, Hi, Hj. cbn. lia. }
    clearbody P. induction ND as [| t P NI ND IH]; cbn [map]; constructor; [| apply IH; intros; apply I; now right].
    intros C. apply in_map_iff in C as (t' & E & I'). apply NI. replace t with t'; [exact I' |].
    destruct (I t (or_introl eq_refl)) as (A1 & A2 & A3), (I t' (or_intror I')) as (B1 & B2 & B3).
    destruct t as (c & i & j), t' as (c' & i' & j'). cbn [fst snd] in *. unfold viewOffset in E.
    assert (i' + 3 * j' = i + 3 * j) by nia. f_equal; [nia | f_equal; lia].
Qed.
Lemma mapM_UB {A B} (f : A -> res B) l x : (forall a, In a l -> (exists b, f a = Ok b) \/ f a = UB) -> In x l -> f x = UB -> mapM f l = UB.
Proof.
  induction l as [|a l IH]; intros H I E; [destruct I |]. cbn [mapM]. destruct (H a (or_introl eq_refl)) as [(b & Eb) | Ea]; [| now rewrite Ea].
  destruct I as [-> | I]; [congruence |]. rewrite Eb. cbn [bind]. rewrite IH; [reflexivity | intros; apply H; now right | exact I | exact E].
Qed.
Lemma view_low numCalc d : 0 < numCalc -> 0 <= d < 3 -> viewWrites numCalc d = UB.
Proof.
  intros H Hd. apply (mapM_UB _ _ (0, (2, 2))).
  - intros t _. cbv zeta. match goal with |- context [if ?b then _ else _] => destruct b end; eauto.
  - apply in_prod_iff. split; [apply in_zrange; lia |]. apply in_prod_iff. split; apply in_zrange; lia.
  - cbn [fst snd]. unfold viewOffset. replace (0 + numCalc * (2 + 3 * 2) <? numCalc * d * d) with false; [reflexivity |]. symmetry. apply Z.ltb_ge. assert (D : d = 0 \/ d = 1 \/ d = 2) by lia. destruct D as [-> | [-> | ->]]; lia.
Qed.

(** * Lists of the output *)
Lemma json_mobility l : jsonMobility l = map kMobility (filter (fun c => if Qc_eq_dec (kDoping c) 0 then false else true) l).
Proof.
  unfold jsonMobility. assert (G : forall out, fold_left (fun (out : list mat) (c : calcOut) => if Qclt_le_dec 0%Qc (Qcabs (kDoping c)) then out ++ (kMobility c :: nil) else out) l out =
    out ++ map kMobility (filter (fun c => if Qc_eq_dec (kDoping c) 0 then false else true) l)); [| apply G].
  induction l as [|c l IH]; intros out; cbn [fold_left filter map]; [now rewrite app_nil_r |]. rewrite IH.
  destruct (Qclt_le_dec 0 (Qcabs (kDoping c))) as [L | L], (Qc_eq_dec (kDoping c) 0) as [E | N].
  - exfalso. rewrite E in L. rewrite (Qcabs_pos 0) in L by apply Qcle_refl. now apply Qclt_not_eq in L.
  - cbn [map]. now rewrite <- app_assoc.
  - reflexivity.
  - exfalso. apply N, Qcabs_null. apply Qcle_antisym; [exact L | apply Qcabs_nonneg].
Qed.

(** * Heat conductivity *)
Lemma heat_sum norm ranks i j : heatConductivity norm ranks i j =
  qsum (map (fun p => rotated (snd p) (oNT (fst p)) i * rotated (snd p) (oVel (fst p)) j * oEn (fst p) * norm)%Qc
    (starList (map snd (filter (fun q => negb (fst q)) (concat (concat ranks)))))).
Proof.
  set (f := fun p : irrState * mat => (rotated (snd p) (oNT (fst p)) i * rotated (snd p) (oVel (fst p)) j * oEn (fst p) * norm)%Qc).
  assert (R : forall s rots z, fold_left (addHeat norm s) rots z i j = (z i j + qsum (map f (map (fun r => (s, r)) rots)))%Qc).
  { intros s rots. induction rots as [|r rots IH]; intros z; cbn [fold_left map]; [change (qsum []) with 0%Qc; ring |]. rewrite IH. change (qsum (?x :: ?m)) with (x + qsum m)%Qc.
    unfold addHeat, f at 2. cbn [fst snd]. unfold rotate, rotated. ring. }
  assert (C : forall chunk, heatThread norm chunk i j = qsum (map f (starList (map snd (filter (fun q => negb (fst q)) chunk))))).
  { intros chunk. unfold heatThread. assert (G : forall z : mat, fold_left (fun (t : mat) (p : bool * irrState) => if fst p then t else fold_left (addHeat norm (snd p)) (oRots (snd p)) t) chunk z i j =
      (z i j + qsum (map f (starList (map snd (filter (fun q => negb (fst q)) chunk)))))%Qc); [| rewrite G; ring].
    induction chunk as [|[x s] chunk IH]; intros z; cbn [fold_left filter]; [change (qsum (map f (starList (map snd [])))) with 0%Qc; ring |]. rewrite IH. cbn [fst snd].
    destruct x; cbn [negb]; [reflexivity |]. rewrite R. cbn [map snd]. unfold starList at 2. cbn [flat_map]. rewrite map_app, qsum_app. fold (starList (map snd (filter (fun q : bool * irrState => negb (fst q)) chunk))). ring. }
  assert (S : forall (ms : list mat) z, fold_left addMat ms z i j = (z i j + qsum (map (fun m : mat => m i j) ms))%Qc).
  { induction ms as [|m ms IH]; intros z; cbn [fold_left map]; [change (qsum []) with 0%Qc; ring |]. rewrite IH. unfold addMat. change (qsum (?x :: ?m)) with (x + qsum m)%Qc. ring. }
  unfold heatConductivity. rewrite S, map_map. transitivity (qsum (map (fun chunks => qsum (map (fun chunk => qsum (map f (starList (map snd (filter (fun q => negb (fst q)) chunk))))) chunks)) ranks)).
  { rewrite Qcplus_0_l. apply qsum_ext. intros chunks _. rewrite S, map_map, Qcplus_0_l. apply qsum_ext. intros chunk _. apply C. }
  clear. induction ranks as [|chunks ranks IH]; [reflexivity |]. cbn [map concat]. change (qsum (?x :: ?m)) with (x + qsum m)%Qc. rewrite IH. clear IH.
  rewrite concat_app, filter_app, map_app, starList_app, map_app, qsum_app. f_equal.
  induction chunks as [|c chunks IH]; [reflexivity |]. cbn [map concat]. change (qsum (?x :: ?m)) with (x + qsum m)%Qc. rewrite IH, filter_app, map_app, starList_app, map_app, qsum_app. reflexivity.
Qed.

(** * Specific heat *)
Definition heatTerm (phonon : bool) (cutoff norm mu : Qc) (s : Qc * Qc * Z) : Qc :=
  let '(en, dndt, star) := s in
  if phonon && (if Qclt_le_dec en cutoff then true else false) then 0%Qc else (Qcabs dndt * Qcabs (en - mu) * norm * Q2Qc (inject_Z star))%Qc.
Lemma specificHeat_sum phonon cutoff norm mu chunks : specificHeat phonon cutoff norm mu chunks = qsum (map (heatTerm phonon cutoff norm mu) (concat chunks)).
Proof.
  unfold specificHeat. rewrite <- qsum_concat. apply qsum_ext. intros chunk _.
  match goal with |- fold_left ?f chunk 0%Qc = _ => assert (G : forall z, fold_left f chunk z = (z + qsum (map (heatTerm phonon cutoff norm mu) chunk))%Qc) end; [| rewrite G; ring].
  induction chunk as [|((en & dndt) & star) chunk IH]; intros z; cbn [fold_left map]; [change (qsum []) with 0%Qc; ring |]. rewrite IH. change (qsum (?x :: ?m)) with (x + qsum m)%Qc.
  generalize (qsum (map (heatTerm phonon cutoff norm mu) chunk)). intros S. unfold heatTerm. destruct (phonon && _); ring.
Qed.
Lemma specificHeat_nonneg phonon cutoff norm mu chunks : (0 <= norm)%Qc -> (forall s, In s (concat chunks) -> 0 <= snd s) -> (0 <= specificHeat phonon cutoff norm mu chunks)%Qc.
Proof.
  intros NN S. rewrite specificHeat_sum. apply qsum_nonneg. intros ((en & dndt) & star) I. unfold heatTerm. destruct (phonon && _); [apply Qcle_refl |].
  specialize (S _ I). cbn in S. repeat apply Qcmult_nonneg; try apply Qcabs_nonneg; [exact NN |]. unfold Qcle. cbn [this Q2Qc]. rewrite !Qred_correct. change 0%Q with (inject_Z 0). now rewrite <- Zle_Qle.
Qed.

(** * Relaxons *)
Definition usedb (ev : list Qc) (a : Z) : bool := if Qclt_le_dec 0 (eig ev a) then true else false.
Lemma relaxonUsed_in ev a : 0 <= a < zlen ev -> relaxonUsed ev a = Ok (usedb ev a).
Proof.
  intros H. unfold relaxonUsed, usedb, eig. destruct (zget_inrange ev a H) as (l & ->).
  destruct (Qclt_le_dec 0 l); cbn [negb]; [| reflexivity]. replace (a <? zlen ev) with true by lia. reflexivity.
Qed.
Lemma relaxonUsed_out ev a : zlen ev <= a -> relaxonUsed ev a = UB.
Proof. intros H. unfold relaxonUsed. destruct (zget ev a) as [l |] eqn:E; [| reflexivity]. apply zget_Some in E. lia. Qed.
Lemma relaxonPairs_ok ev pairs : (forall p, In p pairs -> 0 <= snd p < zlen ev) -> relaxonPairs ev pairs = Ok (filter (fun p => usedb ev (snd p)) pairs).
Proof.
  intros H. unfold relaxonPairs. rewrite (mapM_ok _ (fun p => usedb ev (snd p))) by (intros p I; now apply relaxonUsed_in, H). cbn [bind]. f_equal. clear H.
  induction pairs as [|p pairs IH]; [reflexivity |]. cbn [map combine filter]. cbn [snd]. destruct (usedb ev (snd p)); cbn [map fst]; now rewrite IH.
Qed.
Lemma fromRelaxons_missing theta ev b ranks p : In p (concat ranks) -> zlen ev <= snd p -> (forall q, In q (concat ranks) -> 0 <= snd q) -> fromRelaxons theta ev b ranks = UB.
Proof.
  intros I H NN. apply in_concat in I as (pairs & I & Ip).
  assert (R : forall q, In q (concat ranks) -> (exists b, relaxonUsed ev (snd q) = Ok b) \/ relaxonUsed ev (snd q) = UB).
  { intros q Iq. destruct (Z_lt_le_dec (snd q) (zlen ev)); [left; eexists; apply relaxonUsed_in; specialize (NN q Iq); lia | right; now apply relaxonUsed_out]. }
  assert (P : forall ps, In ps ranks -> (exists x, relaxonPairs ev ps = Ok x) \/ relaxonPairs ev ps = UB).
  { intros ps Ips. unfold relaxonPairs. destruct (mapM (fun p => relaxonUsed ev (snd p)) ps) as [k | |] eqn:E; cbn [bind]; [left; eauto | | right; reflexivity].
    exfalso. assert (Rp : forall q, In q ps -> (exists b, relaxonUsed ev (snd q) = Ok b) \/ relaxonUsed ev (snd q) = UB) by (intros q Iq; apply R, in_concat; eauto).
    clear - E Rp. induction ps as [|q ps IH]; cbn [mapM] in E; [discriminate |]. destruct (Rp q (or_introl eq_refl)) as [(x & Ex) | Ex]; rewrite Ex in E; cbn [bind] in E; [| discriminate].
    destruct (mapM (fun p => relaxonUsed ev (snd p)) ps) eqn:F; cbn [bind] in E; try discriminate. apply IH; [reflexivity | intros; apply Rp; now right]. }
  unfold fromRelaxons. rewrite (mapM_UB (relaxonPairs ev) ranks pairs P I); [reflexivity |].
  unfold relaxonPairs. rewrite (mapM_UB (fun p => relaxonUsed ev (snd p)) pairs p); [reflexivity | | exact Ip | now apply relaxonUsed_out].
  intros q Iq. apply R, in_concat. eauto.
Qed.
Section Relaxons.
Variables (n : Z) (A theta : mat) (ev : list Qc) (b : Z -> Qc) (ranks : list (list (Z * Z))).
Hypothesis Hn : zlen ev = n.
Hypothesis DIST : Permutation (concat ranks) (list_prod (zrange 0 n) (zrange 0 n)).
Lemma pair_range p : In p (concat ranks) -> 0 <= fst p < n /\ 0 <= snd p < n.
Proof. intros I. apply (Permutation_in _ DIST) in I. destruct p. apply in_prod_iff in I as (I1 & I2). apply in_zrange in I1, I2. cbn. lia. Qed.
Let kept := map (filter (fun p : Z * Z => usedb ev (snd p))) ranks.
Lemma kept_eq : mapM (relaxonPairs ev) ranks = Ok kept.
Proof.
  apply mapM_ok. intros pairs I. apply relaxonPairs_ok. intros p Ip. rewrite Hn. apply pair_range. apply in_concat. eauto.
Qed.
Lemma kept_sum (f : Z * Z -> Qc) (q : Z * Z -> bool) : qsum (map (fun pairs => qsum (map f (filter q pairs))) kept) =
  sumTo n (fun s => sumTo n (fun a => ite (usedb ev a) (ite (q (s, a)) (f (s, a))))).
Proof.
  unfold kept. rewrite map_map. transitivity (qsum (map (fun pairs => qsum (map (fun p => ite (usedb ev (snd p)) (ite (q p) (f p))) pairs)) ranks)).
  { apply qsum_ext. intros pairs _. rewrite !qsum_filter. reflexivity. }
  rewrite qsum_concat. erewrite qsum_perm by (apply Permutation_map, DIST). rewrite qsum_list_prod. reflexivity.
Qed.
Lemma sum_single (f : Z -> Qc) s : 0 <= s < n -> sumTo n (fun k => ite (k =? s) (f k)) = f s.
Proof.
  intros H. unfold sumTo. rewrite (qsum_one _ _ s Z.eq_dec (NoDup_zrange 0 n)). { now rewrite Z.eqb_refl. } { apply in_zrange. lia. }
  intros k _ N. replace (k =? s) with false by (symmetry; now apply Z.eqb_neq). reflexivity.
Qed.
Lemma amplitude_eq a : 0 <= a < n -> relaxonAmplitude theta ev b kept a = ite (usedb ev a) (sumTo n (fun s => b s * theta s a) / eig ev a)%Qc.
Proof.
  intros H. unfold relaxonAmplitude. rewrite kept_sum. cbn [fst snd].
  transitivity (sumTo n (fun s => ite (usedb ev a) (b s * theta s a / eig ev a)%Qc)).
  { apply sumTo_ext. intros s _. rewrite <- (sum_single (fun k => ite (usedb ev k) (b s * theta s a / eig ev a)%Qc) a H). apply sumTo_ext. intros k _. destruct (Z.eqb_spec k a) as [-> | N]; unfold ite; destruct (usedb ev _); reflexivity. }
  destruct (usedb ev a); cbn [ite]. { unfold Qcdiv. now rewrite sumTo_scale_r. } unfold sumTo. apply qsum_zero.
Qed.
Lemma population_eq s : 0 <= s < n -> relaxonPopulation theta ev b kept s =
  sumTo n (fun a => ite (usedb ev a) (sumTo n (fun s' => b s' * theta s' a) / eig ev a * theta s a)%Qc).
Proof.
  intros H. unfold relaxonPopulation. rewrite kept_sum. cbn [fst snd]. rewrite sumTo_swap. apply sumTo_ext. intros a Ha.
  rewrite amplitude_eq by exact Ha. destruct (usedb ev a); cbn [ite]; [| unfold sumTo; apply qsum_zero].
  apply (sum_single (fun k => sumTo n (fun s0 => b s0 * theta s0 a) / eig ev a * theta s a)%Qc s H).
Qed.
Hypothesis EIG : forall s a, 0 <= s < n -> 0 <= a < n -> sumTo n (fun s' => A s s' * theta s' a)%Qc = (eig ev a * theta s a)%Qc.
Lemma relaxons_apply s : 0 <= s < n -> sumTo n (fun s' => A s s' * relaxonPopulation theta ev b kept s')%Qc =
  sumTo n (fun a => ite (usedb ev a) (sumTo n (fun s' => b s' * theta s' a) * theta s a)%Qc).
Proof.
  intros H. transitivity (sumTo n (fun s' => sumTo n (fun a => A s s' * ite (usedb ev a) (sumTo n (fun s' => b s' * theta s' a) / eig ev a * theta s' a)%Qc)%Qc)).
  { apply sumTo_ext. intros s' Hs. rewrite population_eq by exact Hs. now rewrite sumTo_scale. }
  rewrite sumTo_swap. apply sumTo_ext. intros a Ha. destruct (usedb ev a) eqn:U; cbn [ite].
  - transitivity (sumTo n (fun s' => (sumTo n (fun s' => b s' * theta s' a) / eig ev a) * (A s s' * theta s' a))%Qc); [apply sumTo_ext; intros; ring |].
    rewrite sumTo_scale, (EIG s a H Ha). unfold usedb in U. destruct (Qclt_le_dec 0 (eig ev a)) as [L | L]; [| discriminate]. field. now apply Qcpos_neq.
  - transitivity (sumTo n (fun s' => 0 * A s s')%Qc); [apply sumTo_ext; intros; ring | rewrite sumTo_scale; ring].
Qed.
Hypothesis COMPLETE : forall s s', 0 <= s < n -> 0 <= s' < n -> sumTo n (fun a => theta s a * theta s' a)%Qc = (if s =? s' then 1 else 0)%Qc.
Hypothesis POS : forall a, 0 <= a < n -> (0 < eig ev a)%Qc.
Lemma relaxons_solve : exists u, fromRelaxons theta ev b ranks = Ok u /\ forall s, 0 <= s < n -> sumTo n (fun s' => A s s' * u s')%Qc = b s.
Proof.
  exists (relaxonPopulation theta ev b kept). split; [unfold fromRelaxons; now rewrite kept_eq |]. intros s H. rewrite relaxons_apply by exact H.
  transitivity (sumTo n (fun a => sumTo n (fun s' => b s' * (theta s a * theta s' a))%Qc)).
  { apply sumTo_ext. intros a Ha. unfold usedb. destruct (Qclt_le_dec 0 (eig ev a)) as [L | L]; cbn [ite].
    - rewrite <- sumTo_scale_r. apply sumTo_ext. intros. ring.
    - exfalso. specialize (POS a Ha). now apply (Qclt_not_le 0 (eig ev a)). }
  rewrite sumTo_swap. rewrite (sumTo_ext n _ (fun s' => (if s =? s' then 1 else 0) * b s')%Qc).
  - apply (sumTo_delta n s b H).
  - intros s' Hs. rewrite sumTo_scale, (COMPLETE s s' H Hs). ring.
Qed.
End Relaxons.

(** * Phonons in the relaxation time approximation *)
Lemma quadForm {A} (c : A -> Qc) (v : A -> Z -> Qc) (l : list A) d e :
  sumTo d (fun i => sumTo d (fun j => e i * qsum (map (fun p => c p * (v p i * v p j))%Qc l) * e j)%Qc) =
  qsum (map (fun p => c p * (sumTo d (fun i => e i * v p i) * sumTo d (fun j => e j * v p j)))%Qc l).
Proof.
  transitivity (sumTo d (fun i => qsum (map (fun p => c p * (e i * v p i) * sumTo d (fun j => e j * v p j))%Qc l))).
  - apply sumTo_ext. intros i _. transitivity (sumTo d (fun j => qsum (map (fun p => c p * (e i * v p i) * (e j * v p j))%Qc l))).
    + apply sumTo_ext. intros j _. rewrite (Qcmult_comm (e i)), <- Qcmult_assoc, (Qcmult_comm (qsum _)), <- qsum_map_scale. apply qsum_ext. intros. ring.
    + rewrite sumTo_qsum. apply qsum_ext. intros p _. now rewrite sumTo_scale.
  - rewrite sumTo_qsum. apply qsum_ext. intros p _.
    transitivity (sumTo d (fun i => (c p * sumTo d (fun j => e j * v p j)) * (e i * v p i))%Qc); [apply sumTo_ext; intros; ring |]. rewrite sumTo_scale. ring.
Qed.
Section PhononRTA.
Variables (norm : Qc) (ranks : list (list (list (bool * irrState)))) (weight : irrState -> Qc).
Hypothesis RTA : forall s, In s (map snd (filter (fun q => negb (fst q)) (concat (concat ranks)))) -> forall i, 0 <= i < 3 -> oNT s i = (weight s * oEn s * oVel s i)%Qc.
Lemma heat_rta_sum i j : heatConductivity norm ranks i j =
  qsum (map (fun p => (weight (fst p) * norm * (oEn (fst p) * oEn (fst p))) * (rotated (snd p) (oVel (fst p)) i * rotated (snd p) (oVel (fst p)) j))%Qc
    (starList (map snd (filter (fun q => negb (fst q)) (concat (concat ranks)))))).
Proof.
  rewrite heat_sum. apply qsum_ext. intros [s r] I. unfold starList in I. apply in_flat_map in I as (s' & I & K). apply in_map_iff in K as (r' & E & _). injection E as -> ->.
  cbn [fst snd]. rewrite (rotated_lin r (weight s * oEn s) (oVel s) (oNT s) i) by (intros k Hk; now apply RTA). ring.
Qed.
Lemma heat_rta_symmetric i j : heatConductivity norm ranks i j = heatConductivity norm ranks j i.
Proof. rewrite !heat_rta_sum. apply qsum_ext. intros. ring. Qed.
Lemma heat_rta_psd d e : (0 <= norm)%Qc -> (forall s, In s (map snd (filter (fun q => negb (fst q)) (concat (concat ranks)))) -> (0 <= weight s)%Qc) ->
  (0 <= sumTo d (fun i => sumTo d (fun j => e i * heatConductivity norm ranks i j * e j)))%Qc.
Proof.
  intros NN W. set (l := starList (map snd (filter (fun q => negb (fst q)) (concat (concat ranks))))).
  rewrite (sumTo_ext d _ (fun i => sumTo d (fun j => e i * qsum (map (fun p => (weight (fst p) * norm * (oEn (fst p) * oEn (fst p))) * (rotated (snd p) (oVel (fst p)) i * rotated (snd p) (oVel (fst p)) j))%Qc l) * e j)%Qc)).
  2: { intros i _. apply sumTo_ext. intros j _. now rewrite heat_rta_sum. }
  rewrite quadForm. apply qsum_nonneg. intros [s r] I. unfold l, starList in I. apply in_flat_map in I as (s' & I & K). apply in_map_iff in K as (r' & E & _). injection E as -> ->. cbn [fst snd].
  apply Qcmult_nonneg; [| apply sq_nonneg]. apply Qcmult_nonneg; [| apply sq_nonneg]. apply Qcmult_nonneg; [now apply W | exact NN].
Qed.
End PhononRTA.

(** * Six states, coupled two by two, whose exact response has an asymmetric LET *)
Definition idMat : mat := fun i j => if i =? j then 1%Qc else 0%Qc.
Definition vec3 (a b c : Q) : Z -> Qc := fun i => Q2Qc (if i =? 0 then a else if i =? 1 then b else c).
Definition ex6 : list irrState := [
  {| oEn := Q2Qc 1; oVel := vec3 1 0 0; oNE := vec3 (2#3) (1#3) 0; oNT := vec3 (-2#3) (-1) 0; oRots := [idMat] |};
  {| oEn := Q2Qc 3; oVel := vec3 0 1 0; oNE := vec3 (1#3) (2#3) 0; oNT := vec3 (-1#3) (-2) 0; oRots := [idMat] |};
  {| oEn := Q2Qc 1; oVel := vec3 (-1) 0 0; oNE := vec3 (-2#3) (-1#3) 0; oNT := vec3 (2#3) 1 0; oRots := [idMat] |};
  {| oEn := Q2Qc 3; oVel := vec3 0 (-1) 0; oNE := vec3 (-1#3) (-2#3) 0; oNT := vec3 (1#3) 2 0; oRots := [idMat] |};
  {| oEn := Q2Qc 1; oVel := vec3 0 0 1; oNE := vec3 0 0 1; oNT := vec3 0 0 (-1); oRots := [idMat] |};
  {| oEn := Q2Qc 1; oVel := vec3 0 0 (-1); oNE := vec3 0 0 (-1); oNT := vec3 0 0 1; oRots := [idMat] |} ].
Definition ex6A (s s' : Z) : Qc := Q2Qc (if s =? s' then (if s <? 4 then 2 else 1) else if (s / 2 =? s' / 2) && (s <? 4) then -1 else 0).
Definition ex6X : mat := fun i j => Q2Qc (if i =? j then (if i <? 2 then 1 else 1#2) else if (i <? 2) && (j <? 2) then -1#2 else 0).
