(** Averages over degenerate bands, Umklapp and Normal linewidths. *)
From Coq Require Import QArith Qcanon Permutation.
From Verif Require Import Base BaseLemmas M_mpi S_mpi L_mpi M_points S_points M_irreducible M_matrix S_matrix L_fill L_irreducible L_matrix L_matrix2 L_matrix3 M_vbte S_vbte L_vbte M_scattering S_scattering L_scattering L_scattering2 L_scattering3.
Open Scope Z_scope.

Lemma nearDeg_sym a b : nearDeg a b = nearDeg b a.
Proof. unfold nearDeg. apply andb_comm. Qed.
Lemma nearDeg_refl a : nearDeg a a = true.
Proof. unfold nearDeg. replace (a - a)%Qc with 0%Qc by ring. unfold qltb. destruct (Qclt_le_dec 0 (Q2Qc (1 # 1000000))) as [H|H]; [reflexivity|]. exfalso. vm_compute in H. apply H. reflexivity. Qed.
Definition gsum (es vals : list Qc) (e : Qc) : Qc := qsum (map snd (filter (fun p => nearDeg (fst p) e) (combine es vals))).
Definition gcount (es : list Qc) (e : Qc) : Z := zlen (filter (fun a => nearDeg a e) es).
Lemma averageBand_eq es vals e : length es = length vals -> averageBand es vals e = (gsum es vals e / Q2Qc (inject_Z (gcount es e)))%Qc.
Proof.
  intro E. unfold averageBand, gsum, gcount. cbv zeta.
  replace (zlen (map snd (filter (fun p => nearDeg (fst p) e) (combine es vals)))) with (zlen (filter (fun a => nearDeg a e) es)); [reflexivity|].
  unfold zlen. f_equal. rewrite map_length. revert vals E.
  induction es as [|a es IH]; intros [|v vals] E; try discriminate; [reflexivity|]. cbn [combine filter fst]. injection E as E.
  destruct (nearDeg a e); cbn [length]; rewrite (IH vals E); reflexivity.
Qed.
Lemma gcount_pos es e : In e es -> 0 < gcount es e.
Proof. intro H. assert (K : In e (filter (fun a => nearDeg a e) es)) by (apply filter_In; split; [exact H|apply nearDeg_refl]). unfold gcount, zlen. destruct (filter _ es); [destruct K|cbn [length]; lia]. Qed.
Lemma gsum_map es (f : Qc -> Qc) e : gsum es (map f es) e = qsum (map f (filter (fun a => nearDeg a e) es)).
Proof. unfold gsum. induction es as [|a es IH]; [reflexivity|]. cbn [map combine filter fst]. destruct (nearDeg a e); cbn [map snd]; [unfold qsum in *; cbn [fold_right]; f_equal|]; exact IH. Qed.
Lemma near_filter es a e : separated es -> In a es -> In e es -> nearDeg a e = true -> forall c, In c es -> nearDeg c a = nearDeg c e.
Proof.
  intros S Ha He H c Hc. destruct (nearDeg c a) eqn:E1, (nearDeg c e) eqn:E2; try reflexivity; exfalso.
  - rewrite (S c a e Hc Ha He E1 H) in E2. discriminate.
  - rewrite (S c e a Hc He Ha E2) in E1; [discriminate|]. rewrite nearDeg_sym. exact H.
Qed.
Lemma gsum_near es vals a e : separated es -> In a es -> In e es -> nearDeg a e = true -> gsum es vals a = gsum es vals e.
Proof. intros S Ha He H. unfold gsum. f_equal. f_equal. apply filter_ext_in. intros [c v] Hc. apply in_combine_l in Hc. cbn [fst]. apply (near_filter es a e); assumption. Qed.
Lemma gcount_near es a e : separated es -> In a es -> In e es -> nearDeg a e = true -> gcount es a = gcount es e.
Proof. intros S Ha He H. unfold gcount. f_equal. apply filter_ext_in. intros c Hc. apply (near_filter es a e); assumption. Qed.
Lemma average_near es vals a e : length es = length vals -> separated es -> In a es -> In e es -> nearDeg a e = true -> averageBand es vals a = averageBand es vals e.
Proof. intros El S Ha He H. rewrite !averageBand_eq by exact El. rewrite (gsum_near es vals a e), (gcount_near es a e) by assumption. reflexivity. Qed.
Lemma inject_pos n : 0 < n -> Q2Qc (inject_Z n) <> 0%Qc.
Proof. intros H C. apply (f_equal this) in C. change (this (Q2Qc (inject_Z n))) with (Qred (inject_Z n)) in C. assert (E : (inject_Z n == 0)%Q) by (rewrite <- (Qred_correct (inject_Z n)), C; reflexivity). unfold Qeq, inject_Z in E. cbn [Qnum Qden] in E. lia. Qed.
Lemma qsum_const {A} (c : Qc) (l : list A) : qsum (map (fun _ => c) l) = (Q2Qc (inject_Z (zlen l)) * c)%Qc.
Proof.
  induction l as [|a l IH]; [change (Q2Qc (inject_Z (zlen (@nil A)))) with 0%Qc; unfold qsum; cbn [map fold_right]; ring|]. cbn [map]. unfold qsum in *. cbn [fold_right]. rewrite IH, zlen_cons.
  replace (Q2Qc (inject_Z (1 + zlen l))) with (1 + Q2Qc (inject_Z (zlen l)))%Qc; [ring|]. change (1 + Q2Qc (inject_Z (zlen l)))%Qc with (Q2Qc (1 + Qred (inject_Z (zlen l)))%Q). apply Q2Qc_eq_iff. rewrite Qred_correct, inject_Z_plus. reflexivity.
Qed.
Lemma gsum_average es vals e : length es = length vals -> separated es -> In e es -> gsum es (map (averageBand es vals) es) e = gsum es vals e.
Proof.
  intros El S He. rewrite gsum_map. rewrite (qsum_ext _ (fun _ : Qc => averageBand es vals e)).
  - rewrite qsum_const, averageBand_eq by exact El. fold (gcount es e). field. apply inject_pos. apply gcount_pos. exact He.
  - intros a Ha. apply filter_In in Ha as [Ha1 Ha2]. apply average_near; assumption.
Qed.
Lemma average_alone es vals e v n : length es = length vals -> nth_error es n = Some e -> nth_error vals n = Some v ->
  (forall m e', nth_error es m = Some e' -> nearDeg e' e = true -> m = n) -> averageBand es vals e = v.
Proof.
  intros El He Hv Ha. rewrite averageBand_eq by exact El. unfold gsum, gcount.
  assert (K : filter (fun p => nearDeg (fst p) e) (combine es vals) = [(e, v)] /\ filter (fun a => nearDeg a e) es = [e]).
  { revert vals n El He Hv Ha. induction es as [|a es IH]; intros vals n El He Hv Ha; [destruct n; discriminate|]. destruct vals as [|w vals]; [discriminate|]. injection El as El.
    cbn [combine filter fst]. destruct n as [|n].
    - cbn in He, Hv. injection He as ->. injection Hv as ->. rewrite nearDeg_refl.
      assert (Z0 : filter (fun a => nearDeg a e) es = []).
      { destruct (filter (fun a => nearDeg a e) es) as [|y r] eqn:F; [reflexivity|]. exfalso. assert (Hy : In y (filter (fun a => nearDeg a e) es)) by (rewrite F; left; reflexivity).
        apply filter_In in Hy as [Hy1 Hy2]. apply In_nth_error in Hy1 as [m Hm]. specialize (Ha (S m) y Hm Hy2). discriminate. }
      assert (Z1 : filter (fun p : Qc * Qc => nearDeg (fst p) e) (combine es vals) = []).
      { destruct (filter _ (combine es vals)) as [|y r] eqn:F; [reflexivity|]. exfalso. assert (Hy : In y (filter (fun p : Qc * Qc => nearDeg (fst p) e) (combine es vals))) by (rewrite F; left; reflexivity).
        apply filter_In in Hy as [Hy1 Hy2]. destruct y as [y1 y2]. apply in_combine_l in Hy1. assert (In y1 []) as []. rewrite <- Z0. apply filter_In. split; assumption. }
      rewrite Z0, Z1. split; reflexivity.
    - cbn in He, Hv. destruct (nearDeg a e) eqn:N; [specialize (Ha 0%nat a eq_refl N); discriminate|]. apply (IH vals n El He Hv). intros m e' Hm Hn. specialize (Ha (S m) e' Hm Hn). lia. }
  destruct K as [-> ->]. cbn [map snd]. unfold qsum, zlen. cbn [fold_right length]. change (Q2Qc (inject_Z (Z.of_nat 1))) with 1%Qc. field. discriminate.
Qed.

(** all points *)
Definition valsOf (en : Z -> list Qc) (bte : Z -> Z -> Z) (lw : Z -> Qc) (ik : Z) : list Qc := map (fun ib => lw (bte ik ib)) (zrange 0 (zlen (en ik))).
Lemma valsOf_length en bte lw ik : length (en ik) = length (valsOf en bte lw ik).
Proof. unfold valsOf, zlen. rewrite map_length, zrange_length. lia. Qed.
Lemma averageLinewidths_at irr en bte : distinctStates irr en bte -> forall lw ik ib e, In ik irr -> zget (en ik) ib = Some e ->
  averageLinewidths irr en bte lw (bte ik ib) = averageBand (en ik) (valsOf en bte lw ik) e.
Proof.
  intros [Nd Dj]. unfold averageLinewidths.
  induction irr as [|q irr IH]; intros lw ik ib e Hik He; [destruct Hik|]. cbn [fold_left]. inversion Nd as [|? ? Hq Nd']; subst. destruct (zget_Some _ _ _ He) as [Hib _].
  destruct (Z.eq_dec ik q) as [->|Hne].
  - assert (K : forall l (f : Z -> Qc), incl l irr -> fold_left (averagePoint en bte) l f (bte q ib) = f (bte q ib)).
    { induction l as [|a l IHl]; intros f Hl; [reflexivity|]. cbn [fold_left]. rewrite IHl by (intros y Hy; apply Hl; right; exact Hy). apply avg_other. intros ib' Hib' C.
      assert (Ha : In a irr) by (apply Hl; left; reflexivity). destruct (Dj a ib' q ib (or_intror Ha) (or_introl eq_refl) Hib' Hib C) as [Eq _]. subst a. exact (Hq Ha). }
    rewrite K by apply incl_refl. apply avg_at; [|exact He]. intros i j Hi Hj Eq. exact (proj2 (Dj q i q j (or_introl eq_refl) (or_introl eq_refl) Hi Hj Eq)).
  - destruct Hik as [->|Hik]; [congruence|]. rewrite (IH Nd') with (e := e); [|intros; apply Dj; (right; assumption) || assumption|exact Hik|exact He]. f_equal. unfold valsOf. apply map_ext_in. intros ib' Hib'. apply in_zrange in Hib'.
    apply avg_other. intros ib2 Hib2 C. destruct (Dj q ib2 ik ib' (or_introl eq_refl) (or_intror Hik)) as [Eq _]; [exact Hib2|lia|exact C|congruence].
Qed.
Lemma averageLinewidths_other irr en bte b : (forall ik ib, In ik irr -> 0 <= ib < zlen (en ik) -> bte ik ib <> b) -> forall lw, averageLinewidths irr en bte lw b = lw b.
Proof.
  unfold averageLinewidths. induction irr as [|q irr IH]; intros H lw; [reflexivity|]. cbn [fold_left]. rewrite IH by (intros; apply H; [right|]; assumption). apply avg_other. intros. apply H; [left; reflexivity|assumption].
Qed.
Lemma averageLinewidths_ext irr en bte : forall f g b, (forall b, f b = g b) -> averageLinewidths irr en bte f b = averageLinewidths irr en bte g b.
Proof.
  unfold averageLinewidths. induction irr as [|q irr IH]; intros f g b H; [apply H|]. cbn [fold_left]. apply IH. intro b'. unfold averagePoint.
  replace (map (fun ib => g (bte q ib)) (zrange 0 (zlen (en q)))) with (map (fun ib => f (bte q ib)) (zrange 0 (zlen (en q)))) by (apply map_ext; intro; apply H).
  generalize (combine (zrange 0 (zlen (en q))) (map (averageBand (en q) (map (fun ib : Z => f (bte q ib)) (zrange 0 (zlen (en q))))) (en q))) as l.
  intro l. revert f g H. induction l as [|p l IHl]; intros f g H; [apply H|]. cbn [fold_left]. apply IHl. intro c. destruct (c =? bte q (fst p)); [reflexivity|apply H].
Qed.
Lemma gsum_groupSum en bte lw ik e : groupSum en bte lw ik e = gsum (en ik) (valsOf en bte lw ik) e.
Proof.
  unfold groupSum, gsum, valsOf.
  assert (K : forall (es : list Qc) (f : Z -> Qc) a, qsum (map (fun ib => match zget es (ib - a) with Some e' => if nearDeg e' e then f ib else 0%Qc | None => 0%Qc end) (zrange a (zlen es))) =
    qsum (map snd (filter (fun p => nearDeg (fst p) e) (combine es (map f (zrange a (zlen es))))))).
  { induction es as [|x es IH]; intros f a; [reflexivity|]. rewrite zlen_cons, zrange_cons by (pose proof (zlen_nonneg es); lia). replace (1 + zlen es - 1) with (zlen es) by lia.
    cbn [map combine filter fst]. replace (a - a) with 0 by lia. assert (Z0 : zget (x :: es) 0 = Some x) by reflexivity. rewrite Z0. unfold qsum at 1. cbn [fold_right]. fold (qsum (map (fun ib => match zget (x :: es) (ib - a) with Some e' => if nearDeg e' e then f ib else 0%Qc | None => 0%Qc end) (zrange (a + 1) (zlen es)))).
    assert (T : qsum (map (fun ib => match zget (x :: es) (ib - a) with Some e' => if nearDeg e' e then f ib else 0%Qc | None => 0%Qc end) (zrange (a + 1) (zlen es))) =
      qsum (map snd (filter (fun p => nearDeg (fst p) e) (combine es (map f (zrange (a + 1) (zlen es))))))).
    { rewrite <- IH. apply qsum_ext. intros ib Hib. apply in_zrange in Hib. replace (zget (x :: es) (ib - a)) with (zget es (ib - (a + 1))); [reflexivity|].
      unfold zget. destruct (ib - (a + 1) <? 0) eqn:E1; [lia|]. destruct (ib - a <? 0) eqn:E2; [lia|]. replace (Z.to_nat (ib - a)) with (S (Z.to_nat (ib - (a + 1)))) by lia. reflexivity. }
    rewrite T. destruct (nearDeg x e); cbn [map snd]; [reflexivity|]. ring. }
  rewrite <- K. apply qsum_ext. intros ib _. rewrite Z.sub_0_r. reflexivity.
Qed.
Lemma nth_valsOf en bte lw ik ib e : zget (en ik) ib = Some e -> nth_error (valsOf en bte lw ik) (Z.to_nat ib) = Some (lw (bte ik ib)).
Proof. intro H. destruct (zget_Some _ _ _ H) as [R _]. unfold valsOf. rewrite (map_nth_error (fun ib => lw (bte ik ib)) _ (zrange 0 (zlen (en ik))) (d := ib)); [reflexivity|]. rewrite nth_error_zrange by lia. f_equal. lia. Qed.
Lemma zget_nth {A} (l : list A) i a : zget l i = Some a -> nth_error l (Z.to_nat i) = Some a.
Proof. unfold zget. destruct (i <? 0); [discriminate|auto]. Qed.

Lemma average_spec irr en bte lw ik ib e : distinctStates irr en bte -> In ik irr -> separated (en ik) -> zget (en ik) ib = Some e ->
  (forall ib' e', zget (en ik) ib' = Some e' -> nearDeg e' e = true ->
     averageLinewidths irr en bte lw (bte ik ib') = averageLinewidths irr en bte lw (bte ik ib)) /\
  groupSum en bte (averageLinewidths irr en bte lw) ik e = groupSum en bte lw ik e /\
  ((forall ib' e', zget (en ik) ib' = Some e' -> nearDeg e' e = true -> ib' = ib) -> averageLinewidths irr en bte lw (bte ik ib) = lw (bte ik ib)).
Proof.
  intros D Hik S He. assert (Ie : In e (en ik)) by (apply zget_nth, nth_error_In in He; exact He). split; [|split].
  - intros ib' e' He' N. rewrite (averageLinewidths_at _ _ _ D lw ik ib' e' Hik He'), (averageLinewidths_at _ _ _ D lw ik ib e Hik He).
    apply average_near; [apply valsOf_length|exact S| |exact Ie|exact N]. apply zget_nth, nth_error_In in He'. exact He'.
  - rewrite !gsum_groupSum. rewrite <- (gsum_average (en ik) (valsOf en bte lw ik) e (valsOf_length _ _ _ _) S Ie). f_equal.
    apply nth_error_ext. intro n. destruct (nth_error (en ik) n) as [a|] eqn:En.
    + rewrite (map_nth_error _ _ _ En). assert (Zg : zget (en ik) (Z.of_nat n) = Some a) by (unfold zget; destruct (Z.of_nat n <? 0) eqn:E0; [lia|]; rewrite Nat2Z.id; exact En).
      rewrite <- (Nat2Z.id n) at 1. rewrite (nth_valsOf en bte _ ik (Z.of_nat n) a Zg). f_equal. apply (averageLinewidths_at _ _ _ D); assumption.
    + pose proof En as En2. apply nth_error_None in En. transitivity (@None Qc); [|symmetry]; apply nth_error_None; [rewrite <- valsOf_length; exact En|rewrite map_length; exact En].
  - intro Al. rewrite (averageLinewidths_at _ _ _ D lw ik ib e Hik He). apply (average_alone _ _ _ _ (Z.to_nat ib)); [apply valsOf_length|apply zget_nth; exact He|apply (nth_valsOf _ _ _ _ _ e); exact He|].
    intros m e' Hm N. assert (Zg : zget (en ik) (Z.of_nat m) = Some e') by (unfold zget; destruct (Z.of_nat m <? 0) eqn:E0; [lia|]; rewrite Nat2Z.id; exact Hm).
    specialize (Al _ _ Zg N). lia.
Qed.

(** * Umklapp and Normal *)
Lemma gsum_add es u v e : length es = length u -> length u = length v -> gsum es (map (fun p => fst p + snd p)%Qc (combine u v)) e = (gsum es u e + gsum es v e)%Qc.
Proof.
  unfold gsum. revert u v. induction es as [|a es IH]; intros [|x u] [|y v] E1 E2; try discriminate; [cbn; ring|].
  injection E1 as E1. injection E2 as E2. cbn [combine map filter fst snd]. specialize (IH u v E1 E2). destruct (nearDeg a e); cbn [map snd]; [|exact IH]. unfold qsum in *. cbn [fold_right]. rewrite IH. ring.
Qed.
Lemma average_add irr en bte u n lw : distinctStates irr en bte -> (forall b, lw b = (u b + n b)%Qc) -> forall b,
  averageLinewidths irr en bte lw b = (averageLinewidths irr en bte u b + averageLinewidths irr en bte n b)%Qc.
Proof.
  intros D H b.
  destruct (existsb (fun ik => existsb (fun ib => bte ik ib =? b) (zrange 0 (zlen (en ik)))) irr) eqn:X.
  - apply existsb_exists in X as (ik & Hik & X). apply existsb_exists in X as (ib & Hib & X). assert (b = bte ik ib) as -> by lia.
    apply in_zrange in Hib. destruct (zget (en ik) ib) as [e|] eqn:He.
    2:{ exfalso. unfold zget in He. destruct (ib <? 0) eqn:E0; [lia|]. apply nth_error_None in He. unfold zlen in Hib. lia. }
    rewrite !(averageLinewidths_at _ _ _ D _ ik ib e Hik He). rewrite !averageBand_eq by apply valsOf_length.
    assert (Hp : 0 < gcount (en ik) e) by (apply gcount_pos; apply zget_nth, nth_error_In in He; exact He).
    replace (valsOf en bte lw ik) with (map (fun p => fst p + snd p)%Qc (combine (valsOf en bte u ik) (valsOf en bte n ik))).
    + rewrite gsum_add by (rewrite <- ?valsOf_length; reflexivity). field. apply inject_pos. exact Hp.
    + unfold valsOf. clear - H. induction (zrange 0 (zlen (en ik))) as [|i l IH]; [reflexivity|]. cbn [map combine fst snd]. rewrite IH, H. reflexivity.
  - rewrite !averageLinewidths_other; [apply H| | |]; intros ik ib Hik Hib C;
      assert (existsb (fun ik => existsb (fun ib => bte ik ib =? b) (zrange 0 (zlen (en ik)))) irr = true) by (apply existsb_exists; exists ik; split; [exact Hik|]; apply existsb_exists; exists ib; split; [apply in_zrange; lia|lia]); congruence.
Qed.
Lemma unStep_sum st e b : (fst (unStep st e) b + snd (unStep st e) b = fst st b + snd st b + ite (b =? evBte1 e) (evDiag e))%Qc.
Proof.
  unfold unStep, evDiag. generalize (evParts e) as ps. intro ps. revert st. induction ps as [|p ps IH]; intros [u n]; cbn [fold_left map fst snd].
  - unfold qsum. cbn [fold_right]. rewrite ite_zero. ring.
  - rewrite IH. unfold qsum. cbn [fold_right]. destruct (snd p); cbn [fst snd]; rewrite add1_eq; destruct (b =? evBte1 e); cbn [ite]; ring.
Qed.
Lemma rankUN_sum es b : (fst (rankUN es) b + snd (rankUN es) b = rankLinewidths es b)%Qc.
Proof.
  rewrite rankLinewidths_sum. unfold rankUN.
  assert (K : forall st, (fst (fold_left unStep es st) b + snd (fold_left unStep es st) b = fst st b + snd st b + qsum (map (fun e => ite (b =? evBte1 e) (evDiag e)) es))%Qc).
  { induction es as [|e es IH]; intro st; cbn [fold_left map]; [unfold qsum; cbn [fold_right]; ring|]. rewrite IH, unStep_sum. unfold qsum. cbn [fold_right]. ring. }
  rewrite K. cbn [fst snd]. ring.
Qed.
Lemma total1_un evs b : (total1 (map (fun es => fst (rankUN es)) evs) b + total1 (map (fun es => snd (rankUN es)) evs) b = total1 (map rankLinewidths evs) b)%Qc.
Proof. unfold total1. rewrite !map_map. rewrite <- qsum_map_add. apply qsum_ext. intros es _. apply rankUN_sum. Qed.
Lemma flyUN_sum irr en bte excl bnd evs b : distinctStates irr en bte -> isIn excl b = false ->
  (fst (flyUN (averageLinewidths irr en bte) evs) b + snd (flyUN (averageLinewidths irr en bte) evs) b + bnd b = flyLinewidths excl bnd (averageLinewidths irr en bte) evs b)%Qc.
Proof.
  intros D X. unfold flyUN, flyLinewidths, finishLinewidths. cbn [fst snd]. rewrite X. f_equal. symmetry. apply average_add; [exact D|]. intro c. symmetry. apply total1_un.
Qed.
Lemma fly_linewidths_total G ev evs b : Permutation (concat evs) (allEvents G ev) -> total1 (map rankLinewidths evs) b = rateOut (allEvents G ev) b.
Proof.
  intro P. unfold total1. rewrite map_map. rewrite (qsum_ext _ (fun es => qsum (map (fun e => ite (b =? evBte1 e) (evDiag e)) es))) by (intros; apply rankLinewidths_sum).
  rewrite qsum_concat, (qsum_perm _ _ (Permutation_map _ P)). rewrite rateOut_sum. reflexivity.
Qed.
Lemma fly_linewidths irr en bte excl bnd G ev evs b : Permutation (concat evs) (allEvents G ev) ->
  flyLinewidths excl bnd (averageLinewidths irr en bte) evs b = finishLinewidths excl bnd (averageLinewidths irr en bte (rateOut (allEvents G ev))) b.
Proof. intro P. unfold flyLinewidths, finishLinewidths. destruct (isIn excl b); [reflexivity|]. f_equal. apply averageLinewidths_ext. intro c. apply fly_linewidths_total. exact P. Qed.
