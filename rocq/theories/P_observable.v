(** C155: operations on whole observables. *)
From Coq Require Import Reals Lra.
From Verif Require Import Base BaseLemmas M_delta M_observable S_observable L_observable.
Open Scope Z_scope.

(** The loops visit every component once. *)
Theorem C155_components : forall r d, NoDup (indices r d) /\ forall idx, In idx (indices r d) <-> isIndex r d idx.
Proof. intros r d. split; [apply indices_nodup|apply in_indices]. Qed.
Print Assumptions C155_components.

(** The norm of each calculation is the Frobenius norm divided by the number of components; it bounds every component, and is zero when and only when
    all components are zero. *)
Theorem C155_norm_partial : forall a, wellFormed a -> exists ns, getNorm a = Ok ns /\ zlen ns = oCalcs a /\ forall c, 0 <= c < oCalcs a -> exists x, zget ns c = Some x /\
  let r := whichType (oClass a) in let count := IZR (oDim a ^ Z.of_nat r) in
  (x = frobenius r (oDim a) (value a c) / count)%R /\ (0 <= x)%R /\ (forall idx, isIndex r (oDim a) idx -> (Rabs (value a c idx) <= count * x)%R) /\
  (x = 0%R <-> forall idx, isIndex r (oDim a) idx -> value a c idx = 0%R).
Proof.
  intros a W. pose proof W as (N & D & _). rewrite (getNorm_ok a W). eexists. split; [reflexivity|]. rewrite zlen_map, zlen_zrange by exact N. split; [reflexivity|].
  intros c Hc. eexists. rewrite zget_map, zget_zrange by lia. split; [reflexivity|]. rewrite Z.add_0_l. rewrite normOf_frobenius by exact D. cbv zeta.
  pose proof (scale_pos (oDim a) (whichType (oClass a)) D) as P. set (k := IZR (oDim a ^ _)) in *. set (r := whichType _) in *.
  split; [reflexivity|]. pose proof (frobenius_nonneg r (oDim a) (value a c)) as F. split; [|split].
  - apply Rmult_le_pos; [exact F|]. left. now apply Rinv_0_lt_compat.
  - intros idx Hi. replace (k * (frobenius r (oDim a) (value a c) / k))%R with (frobenius r (oDim a) (value a c)) by (field; lra). now apply frobenius_member.
  - rewrite <- frobenius_zero. split; intro E.
    + replace (frobenius r (oDim a) (value a c)) with (k * (frobenius r (oDim a) (value a c) / k))%R by (field; lra). rewrite E. ring.
    + rewrite E. unfold Rdiv. ring.
Qed.
Print Assumptions C155_norm_partial.

(** The documented norm is the Frobenius norm. It is for scalars and in one dimension; for conductivities and viscosities in more dimensions never, unless
    they vanish. *)
Theorem C155_frobenius_refuted : forall a ns c x, wellFormed a -> getNorm a = Ok ns -> 0 <= c < oCalcs a -> zget ns c = Some x ->
  (x = frobenius (whichType (oClass a)) (oDim a) (value a c) <-> whichType (oClass a) = O \/ oDim a = 1 \/ x = 0%R).
Proof.
  intros a ns c x W E Hc Hx. destruct (C155_norm_partial a W) as (ns' & E' & _ & H). rewrite E in E'. injection E' as <-. destruct (H c Hc) as (x' & Hx' & F & P & _ & _).
  rewrite Hx in Hx'. injection Hx' as <-. cbv zeta in F. destruct W as (_ & D & _). pose proof (scale_pos (oDim a) (whichType (oClass a)) D) as K.
  set (k := IZR (oDim a ^ _)) in *. set (f := frobenius _ _ _) in *.
  assert (FK : (f = x * k)%R) by (rewrite F; field; lra). split.
  - intro Q. destruct (Req_dec x 0) as [X0|X0]; [now right; right|]. assert (K1 : k = 1%R) by (apply (Rmult_eq_reg_l x); [lra|exact X0]).
    unfold k in K1. apply (eq_IZR _ 1) in K1. destruct (whichType (oClass a)) as [|r]; [now left|]. right. left.
    destruct (Z.eq_dec (oDim a) 1) as [O|O]; [exact O|]. exfalso. assert (1 < oDim a ^ Z.of_nat (S r)); [|lia]. apply Z.pow_gt_1; lia.
  - intros [Q|[Q|Q]].
    + unfold k in FK. rewrite Q in FK. cbn in FK. lra.
    + unfold k in FK. rewrite Q, Z.pow_1_l in FK by lia. lra.
    + rewrite FK, Q. ring.
Qed.
Print Assumptions C155_frobenius_refuted.

(** The difference of two conductivities of the same sizes, whatever they hold: component by component for every calculation; its norm is zero for the
    calculations in which the two agree, and only for them. *)
Theorem C155_difference : forall si thickness w a b, oClass a = Conductivity -> oClass b = Conductivity -> wellFormed a -> wellFormed b -> current w a -> oCalcs b = oCalcs a -> oDim b = oDim a ->
  exists d, minus si thickness w a b = Ok d /\ wellFormed d /\ current w d /\ oClass d = Conductivity /\ oCalcs d = oCalcs a /\ oDim d = oDim a /\
    (forall c idx, 0 <= c < oCalcs a -> isIndex 2 (oDim a) idx -> value d c idx = (value a c idx - value b c idx)%R) /\
    exists ns, getNorm d = Ok ns /\ forall c x, zget ns c = Some x -> (x = 0%R <-> forall idx, isIndex 2 (oDim a) idx -> value a c idx = value b c idx).
Proof.
  intros si thickness w a b KA KB WA WB (CU1 & CU2 & CU3) EC ED. pose proof WA as (NA & DA & TC & TD & TR). pose proof WB as (NB & DB & TC' & TD' & TR').
  unfold minus, baseOperatorMinus. rewrite KA. unfold construct. rewrite CU1, CU2. cbn [fst snd oData oClass oCrystal oSweep oDim oMus oTemps oCalcs oConv whichType].
  rewrite KA in TR. rewrite KB in TR'. cbn [whichType] in TR, TR'.
  edestruct (minus_fold (oData a) (oData b) (list_prod (zrange 0 (oCalcs a)) (indices 2 (oDim a))) {| tCalcs := oMus a * oTemps a; tDim := oDim a; tRank := 2; tVal := fun _ _ => 0%R |}) as (t & E & T1 & T2 & T3 & V).
  { intros [c idx] Hp. apply in_prod_iff in Hp as [Hc Hi]. apply in_zrange in Hc. apply in_indices in Hi. cbn [fst snd].
    split; [apply inTensor_ok; [lia|now rewrite TR, TD]|]. split; [apply inTensor_ok; [lia|now rewrite TR', TD', ED]|]. apply inTensor_ok; cbn; [lia|exact Hi]. }
  rewrite E. cbn [bind]. cbn [tCalcs tDim tRank] in T1, T2, T3. eexists. split; [reflexivity|].
  set (d := {| oClass := Conductivity; oCrystal := oCrystal a; oSweep := oSweep a; oDim := oDim a; oMus := oMus a; oTemps := oTemps a; oCalcs := oMus a * oTemps a;
               oConv := Some (conversion si thickness (oDim a)); oData := t |}).
  assert (WD : wellFormed d) by (unfold wellFormed; cbn; repeat split; lia || assumption).
  assert (VD : forall c idx, 0 <= c < oCalcs a -> isIndex 2 (oDim a) idx -> value d c idx = (value a c idx - value b c idx)%R).
  { intros c idx Hc Hi. unfold value. cbn [d oData]. apply V. apply in_prod; [apply in_zrange; lia|now apply in_indices]. }
  split; [exact WD|]. split; [unfold current; cbn; auto|]. split; [reflexivity|]. split; [cbn; now symmetry|]. split; [reflexivity|]. split; [exact VD|].
  destruct (C155_norm_partial d WD) as (ns & EN & L & H). exists ns. split; [exact EN|]. intros c x Hx. pose proof (proj1 (zget_Some _ _ _ Hx)) as B. rewrite L in B.
  destruct (H c B) as (x' & Hx' & _ & _ & _ & Z0). rewrite Hx in Hx'. injection Hx' as <-. cbn [d oClass whichType oDim] in Z0. rewrite Z0. cbn [d oCalcs] in B. rewrite <- CU3 in B.
  split; intros G idx Hi; specialize (G idx Hi); pose proof (VD c idx B Hi) as Q; unfold value in *; lra.
Qed.
Print Assumptions C155_difference.

(** The operator that specific heats and viscosities inherit writes outside of an array that was never allocated. *)
Theorem C155_inherited_difference_refuted : forall si thickness w a b, oClass a <> Conductivity -> wellFormed a -> wellFormed b -> oClass b = oClass a -> oCalcs b = oCalcs a -> oDim b = oDim a -> 0 < oCalcs a ->
  minus si thickness w a b = UB.
Proof.
  intros si thickness w a b K WA WB KB EC ED H. pose proof WA as (NA & DA & TC & TD & TR). pose proof WB as (NB & DB & TC' & TD' & TR').
  unfold minus, baseOperatorMinus. replace (match oClass a with Conductivity => Conductivity | _ => Base end) with Base by (destruct (oClass a); congruence || reflexivity). cbn [construct oData].
  rewrite zrange_cons by exact H.
  assert (I0 : exists i0 l, indices (whichType (oClass a)) (oDim a) = i0 :: l).
  { destruct (indices (whichType (oClass a)) (oDim a)) as [|i0 l] eqn:E; [|now exists i0, l]. exfalso.
    assert (Q : In (repeat 0 (whichType (oClass a))) (indices (whichType (oClass a)) (oDim a))) by (apply in_indices; split; [apply repeat_length|]; intros i Hi; apply repeat_spec in Hi; lia). rewrite E in Q. destruct Q. }
  destruct I0 as (i0 & l & EI). assert (HI : isIndex (whichType (oClass a)) (oDim a) i0) by (apply in_indices; rewrite EI; now left). rewrite EI. cbn [list_prod map app foldM fst snd].
  rewrite (tget_ok (oData a)) by (lia || now rewrite TR, TD). cbn [bind]. rewrite (tget_ok (oData b)) by (lia || now rewrite TR', TD', KB, ED). reflexivity.
Qed.
Print Assumptions C155_inherited_difference_refuted.

(** A copy holds the same values and does not see what happens to the original. *)
Theorem C155_copy : forall a, wellFormed a -> wellFormed (copy a) /\ oClass (copy a) = oClass a /\ oCalcs (copy a) = oCalcs a /\ oDim (copy a) = oDim a /\ (forall c idx, value (copy a) c idx = value a c idx) /\ getNorm (copy a) = getNorm a /\
  oCrystal (copy a) = oCrystal a /\ oSweep (copy a) = oSweep a /\ oMus (copy a) = oMus a /\ oTemps (copy a) = oTemps a /\ forall w, current w a -> current w (copy a).
Proof. intros a W. repeat split; try reflexivity; try apply W; apply H. Qed.
Print Assumptions C155_copy.

(** A conductivity is shown in the units asked for: all components times the factor, divided by the thickness in two dimensions only. *)
Theorem C155_units : forall si thickness w cr sw v c, let new := construct si thickness w Conductivity cr sw in
  let a := {| oClass := oClass new; oCrystal := oCrystal new; oSweep := oSweep new; oDim := oDim new; oMus := oMus new; oTemps := oTemps new; oCalcs := oCalcs new; oConv := oConv new;
              oData := {| tCalcs := tCalcs (oData new); tDim := tDim (oData new); tRank := tRank (oData new); tVal := v |} |} in
  0 < crystals w cr -> 0 <= c < fst (sweeps w sw) * snd (sweeps w sw) -> exists shown, printCalc a c = Ok shown /\
    (crystals w cr = 2 -> shown = map (fun idx => (v c idx * (si / thickness))%R) (indices 2 2)) /\
    (crystals w cr <> 2 -> shown = map (fun idx => (v c idx * si)%R) (indices 2 (crystals w cr))).
Proof.
  intros si thickness w cr sw v c new a D Hc. exists (map (fun idx => (v c idx * conversion si thickness (crystals w cr))%R) (indices 2 (crystals w cr))). split.
  - unfold printCalc. change (oDim a) with (crystals w cr). apply mapM_all_ok. intros idx Hi. apply in_indices in Hi. rewrite tget_ok; [reflexivity|exact Hc|exact Hi].
  - unfold conversion. split; intro E.
    + rewrite E. cbn [Z.eqb Pos.eqb]. apply map_ext. intro idx. unfold Rdiv. ring.
    + apply Z.eqb_neq in E. rewrite E. reflexivity.
Qed.
Print Assumptions C155_units.

(** But a copied conductivity cannot be shown: the factor to the units of the output was left out. The original can. *)
Theorem C155_copied_units_refuted : forall si thickness w cr sw c, let a := construct si thickness w Conductivity cr sw in 0 < crystals w cr -> 0 <= c < oCalcs a ->
  (exists l, printCalc a c = Ok l) /\ printCalc (copy a) c = UB.
Proof.
  intros si thickness w cr sw c a D Hc. assert (G : forall idx, In idx (indices 2 (oDim a)) -> tget (oData a) c idx = Ok 0%R) by (intros idx Hi; apply in_indices in Hi; apply tget_ok; [exact Hc|exact Hi]).
  assert (I0 : exists i0 l, indices 2 (oDim a) = i0 :: l).
  { destruct (indices 2 (oDim a)) as [|i0 l] eqn:E; [|now exists i0, l]. exfalso. assert (Q : In [0; 0] (indices 2 (oDim a))) by (apply in_indices; split; [reflexivity|]; intros i [<- |[<- |[]]]; cbn; lia). rewrite E in Q. destruct Q. }
  split.
  - exists (map (fun _ => (0 * conversion si thickness (crystals w cr))%R) (indices 2 (oDim a))). apply mapM_all_ok. intros idx Hi. rewrite (G idx Hi). reflexivity.
  - destruct I0 as (i0 & l & E). unfold printCalc. cbn [copy oDim oData oConv]. rewrite E. cbn [mapM]. rewrite (G i0) by (rewrite E; now left). reflexivity.
Qed.
Print Assumptions C155_copied_units_refuted.

(** Assignment between observables of the same crystal and sweep: all values, nothing else changes. *)
Theorem C155_assignment_partial : forall w a b, wellFormed b -> oClass a = oClass b -> oCrystal a = oCrystal b -> oSweep a = oSweep b -> oDim a = oDim b ->
  wellFormed (snd (assign w a b)) /\ (forall c idx, value (snd (assign w a b)) c idx = value b c idx) /\ getNorm (snd (assign w a b)) = getNorm b /\ oConv (snd (assign w a b)) = oConv a /\
  (forall i, crystals (fst (assign w a b)) i = crystals w i) /\ (forall i, sweeps (fst (assign w a b)) i = sweeps w i) /\ (current w b -> current w (snd (assign w a b))).
Proof.
  intros w a b (N & D & TC & TD & TR) K C S E. repeat split; cbn; try assumption; try lia; try congruence.
  - unfold getNorm. cbn. now rewrite K, E.
  - intro i. unfold put. rewrite C. destruct (Z.eqb_spec i (oCrystal b)); congruence.
  - intro i. unfold put. rewrite S. destruct (Z.eqb_spec i (oSweep b)); congruence.
  - rewrite C, E. apply H.
  - rewrite S. apply H.
  - apply H.
Qed.
Print Assumptions C155_assignment_partial.

(** Missing, and false: between crystals of different dimensionality. The crystal of the target itself is replaced, for everyone that refers to it, and the
    target keeps its old dimensionality: the norm of a three-dimensional target reads outside of the array of a two-dimensional source, and a
    two-dimensional target leaves components of a three-dimensional source out. *)
Theorem C155_assignment_refuted : forall w a b, wellFormed b -> oClass a = oClass b -> whichType (oClass a) <> O -> 0 < oCalcs b ->
  crystals (fst (assign w a b)) (oCrystal a) = crystals w (oCrystal b) /\ sweeps (fst (assign w a b)) (oSweep a) = sweeps w (oSweep b) /\
  (forall i, i <> oCrystal a -> crystals (fst (assign w a b)) i = crystals w i) /\ (forall i, i <> oSweep a -> sweeps (fst (assign w a b)) i = sweeps w i) /\
  (oDim b < oDim a -> getNorm (snd (assign w a b)) = UB) /\
  (0 < oDim a < oDim b -> exists v, let b' := {| oClass := oClass b; oCrystal := oCrystal b; oSweep := oSweep b; oDim := oDim b; oMus := oMus b; oTemps := oTemps b; oCalcs := oCalcs b; oConv := oConv b;
       oData := {| tCalcs := oCalcs b; tDim := oDim b; tRank := whichType (oClass b); tVal := v |} |} in
     wellFormed b' /\ getNorm (snd (assign w a b')) = Ok (map (fun _ => 0%R) (zrange 0 (oCalcs b))) /\ getNorm b' <> getNorm (snd (assign w a b'))).
Proof.
  intros w a b (N & D & TC & TD & TR) K R H. split; [cbn; unfold put; now rewrite Z.eqb_refl|]. split; [cbn; unfold put; now rewrite Z.eqb_refl|].
  split; [intros i NE; cbn; unfold put; apply Z.eqb_neq in NE; now rewrite NE|]. split; [intros i NE; cbn; unfold put; apply Z.eqb_neq in NE; now rewrite NE|]. split.
  - intro L. unfold getNorm. cbn [assign snd oCalcs oClass oDim oData]. rewrite zrange_cons by exact H. cbn [mapM].
    assert (U : forall l, (forall idx, In idx l -> tget (oData b) 0 idx = UB \/ exists x, tget (oData b) 0 idx = Ok x) -> (exists idx, In idx l /\ tget (oData b) 0 idx = UB) -> mapM (tget (oData b) 0) l = UB).
    { induction l as [|i l IH]; intros HA (idx & Hi & HU); [destruct Hi|]. cbn [mapM]. destruct (HA i (or_introl eq_refl)) as [-> |(x & Ex)]; [reflexivity|]. rewrite Ex. cbn [bind].
      rewrite IH; [reflexivity|intros j Hj; apply HA; now right|]. destruct Hi as [<- |Hi]; [congruence|]. now exists idx. }
    rewrite U; [reflexivity| |].
    + intros idx _. unfold tget. destruct (inTensor _ _ _); [right; now eexists|now left].
    + exists (repeat (oDim b) (whichType (oClass a))). split; [apply in_indices; split; [apply repeat_length|]; intros i Hi; apply repeat_spec in Hi; lia|].
      unfold tget. replace (inTensor _ _ _) with false; [reflexivity|]. symmetry. unfold inTensor. rewrite andb_false_iff. right. rewrite TD. destruct (whichType (oClass a)); [congruence|]. cbn [repeat forallb].
      replace (oDim b <? oDim b) with false by lia. now rewrite andb_false_r.
  - intros L. exists (fun _ idx => if forallb (fun i => i <? oDim a) idx then 0%R else 1%R). cbv zeta. set (b' := {| oClass := oClass b |}).
    assert (WB : wellFormed b') by (unfold wellFormed; cbn; repeat split; lia || reflexivity). split; [exact WB|].
    assert (WA : getNorm (snd (assign w a b')) = Ok (map (fun _ => 0%R) (zrange 0 (oCalcs b)))).
    { unfold getNorm. cbn [assign snd oCalcs oClass oDim oData b']. apply mapM_all_ok. intros c Hc. apply in_zrange in Hc.
      set (t := {| tCalcs := oCalcs b |}).
      rewrite mapM_tget; [|cbn; lia|]. 2:{ intros idx Hi. apply in_indices in Hi as [HL HB]. split; [cbn; now rewrite <- K|]. intros i Hi. specialize (HB i Hi). cbn. lia. }
      cbn [bind]. f_equal. rewrite normOf_frobenius by lia. rewrite (proj2 (frobenius_zero _ _ _)); [unfold Rdiv; ring|]. intros idx [_ HB]. cbn [t tVal].
      replace (forallb _ idx) with true; [reflexivity|]. symmetry. apply forallb_forall. intros i Hi. specialize (HB i Hi). lia. }
    split; [exact WA|]. rewrite WA. intro E. destruct (C155_norm_partial b' WB) as (ns & EN & _ & HN). rewrite E in EN. injection EN as <-.
    destruct (HN 0 ltac:(cbn; lia)) as (x & Hx & _ & _ & _ & Z0). rewrite zget_map, zget_zrange in Hx by lia. cbn in Hx. injection Hx as <-.
    pose proof (proj1 Z0 eq_refl (repeat (oDim a) (whichType (oClass b)))) as Q. cbn [value b' oData tVal oClass oDim] in Q.
    assert (Q' : (if forallb (fun i => i <? oDim a) (repeat (oDim a) (whichType (oClass b))) then 0%R else 1%R) = 0%R) by (apply Q; split; [apply repeat_length|]; intros i Hi; apply repeat_spec in Hi; lia).
    rewrite <- K in Q'. destruct (whichType (oClass a)); [congruence|]. cbn [repeat forallb] in Q'. replace (oDim a <? oDim a) with false in Q' by lia. cbn in Q'. lra.
Qed.
Print Assumptions C155_assignment_refuted.

(** Two conductivities in two dimensions at two temperatures. *)
Definition exWorld : world := {| crystals := fun i => if i =? 0 then 2 else 3; sweeps := fun _ => (1, 2) |}.
Definition exCond : observable := construct 1 1 exWorld Conductivity 0 0.
Definition exCond2 : observable :=
  {| oClass := Conductivity; oCrystal := 0; oSweep := 0; oDim := 2; oMus := 1; oTemps := 2; oCalcs := 2; oConv := None;
     oData := {| tCalcs := 2; tDim := 2; tRank := 2; tVal := fun c idx => if (c =? 1) && sameIdx idx [0; 1] then 4%R else 0%R |} |}.
Definition exVisc : observable := construct 1 1 exWorld Viscosity 1 0.
Example C155_ex : wellFormed exCond /\ current exWorld exCond /\ wellFormed exCond2 /\ current exWorld exCond2 /\ wellFormed exVisc /\ 0 < oCalcs exVisc /\
  exists d ns, minus 1 1 exWorld exCond2 exCond = Ok d /\ getNorm d = Ok ns /\ zget ns 0 = Some 0%R /\ zget ns 1 = Some 1%R.
Proof.
  assert (WA : wellFormed exCond) by (unfold wellFormed; cbn; repeat split; lia). assert (WB : wellFormed exCond2) by (unfold wellFormed; cbn; repeat split; lia).
  assert (CB : current exWorld exCond2) by (unfold current; cbn; repeat split).
  split; [exact WA|]. split; [unfold current; cbn; repeat split|]. split; [exact WB|]. split; [exact CB|]. split; [unfold wellFormed; cbn; repeat split; lia|]. split; [cbn; lia|].
  destruct (C155_difference 1 1 exWorld exCond2 exCond eq_refl eq_refl WB WA CB eq_refl eq_refl) as (d & E & WD & _ & KD & ND & DD & V & _).
  destruct (C155_norm_partial d WD) as (ns & EN & _ & H). exists d, ns. split; [exact E|]. split; [exact EN|]. rewrite ND, DD, KD in H. cbn [exCond2 oCalcs oDim whichType] in *.
  destruct (H 0 ltac:(lia)) as (x & Hx & F & _). destruct (H 1 ltac:(lia)) as (y & Hy & G & _). cbv zeta in F, G.
  rewrite Hx, Hy. split; f_equal; [rewrite F|rewrite G]; unfold frobenius.
  - rewrite (map_ext_in _ (fun _ => 0%R)); [assert (S0 : rsum (map (fun _ => 0%R) (indices 2 2)) = 0%R) by (change (rsum (map (fun _ => 0%R) (indices 2 2))) with (0 + (0 + (0 + (0 + 0))))%R; ring); rewrite S0, sqrt_0; unfold Rdiv; ring|].
    intros idx Hi. apply in_indices in Hi. rewrite (V 0 idx ltac:(lia) Hi). replace (value _ 0 idx) with 0%R by reflexivity. replace (value exCond 0 idx) with 0%R by reflexivity. ring.
  - rewrite (map_ext_in _ (fun idx => if sameIdx idx [0; 1] then 16%R else 0%R)).
    + assert (S0 : rsum (map (fun idx => if sameIdx idx [0; 1] then 16%R else 0%R) (indices 2 2)) = (4 * 4)%R) by (change (0 + (16 + (0 + (0 + 0))) = 4 * 4)%R; ring). rewrite S0, sqrt_square by lra. replace (IZR (2 ^ Z.of_nat 2)) with 4%R by reflexivity. field.
    + intros idx Hi. apply in_indices in Hi. rewrite (V 1 idx ltac:(lia) Hi). replace (value exCond 1 idx) with 0%R by reflexivity. change (value exCond2 1 idx) with (if sameIdx idx [0; 1] then 4%R else 0%R). destruct (sameIdx idx [0; 1]); ring.
Qed.
