(** Consequences: products, iterators, averages. *)
From Coq Require Import QArith Qcanon Permutation.
From Verif Require Import Base BaseLemmas M_mpi S_mpi L_mpi M_points S_points M_irreducible M_matrix S_matrix L_fill L_irreducible L_matrix L_matrix2 L_matrix3 M_vbte S_vbte L_vbte M_scattering S_scattering L_scattering L_scattering2.
Open Scope Z_scope.

Ltac peq := match goal with |- Permutation ?a ?b => cut (a = b); [intros ->; apply Permutation_refl|] end.
(** * Events of the builders are events of the grid *)
Lemma phonon_good G excl nb nb3p nb3m idx irrOf rotInv en en3p en3m cp cm dp d1 d2 diso iso bose bose3p bose3m umk umkm1 umkm2 cpi norm cut same doIso :
  goodStates G nb idx irrOf ->
  goodEvents G (phononEvents G excl nb nb3p nb3m idx irrOf rotInv en en3p en3m cp cm dp d1 d2 diso iso bose bose3p bose3m umk umkm1 umkm2 cpi norm cut same doIso) /\
  avoids excl (phononEvents G excl nb nb3p nb3m idx irrOf rotInv en en3p en3m cp cm dp d1 d2 diso iso bose bose3p bose3m umk umkm1 umkm2 cpi norm cut same doIso).
Proof.
  intros [HS HI].
  assert (K : forall iq1 iq2 e, In e (phononEvents G excl nb nb3p nb3m idx irrOf rotInv en en3p en3m cp cm dp d1 d2 diso iso bose bose3p bose3m umk umkm1 umkm2 cpi norm cut same doIso iq1 iq2) ->
    exists ib1 ib2, 0 <= ib1 < nb iq1 /\ 0 <= ib2 < nb iq2 /\ evIs1 e = idx iq1 ib1 /\ evIs2Irr e = idx (irrOf iq2) ib2 /\ evBte1 e = gS2B G (evIs1 e) /\ evBte2 e = gS2B G (evIs2Irr e) /\
      isIn excl (evBte1 e) = false /\ isIn excl (evBte2 e) = false).
  { intros iq1 iq2 e He. unfold phononEvents in He. apply in_app_iff in He as [He|He].
    - unfold threePhonon in He. apply in_flat_map in He as (ib1 & H1 & He). apply in_zrange in H1. destruct (isIn excl (gS2B G (idx iq1 ib1))) eqn:X1; [destruct He|].
      apply in_flat_map in He as (ib2 & H2 & He). apply in_zrange in H2. destruct (isIn excl (gS2B G (idx (irrOf iq2) ib2))) eqn:X2; [destruct He|].
      exists ib1, ib2. apply in_app_iff in He as [He|He]; apply in_flat_map in He as (ib3 & _ & He).
      + unfold plusEvent in He. cbv zeta in He. destruct (discarded _ _ _ _ _); [destruct He|]. destruct (negb _); [destruct He|]. destruct He as [<-|[]]. cbn [evIs1 evIs2Irr evBte1 evBte2]. repeat split; try lia; assumption.
      + unfold minusEvent in He. cbv zeta in He. destruct (discarded _ _ _ _ _); [destruct He|]. destruct (negb _ && negb _); [destruct He|]. destruct He as [<-|[]]. cbn [evIs1 evIs2Irr evBte1 evBte2]. repeat split; try lia; assumption.
    - destruct doIso; [|destruct He]. unfold isotopes in He. apply in_flat_map in He as (ib1 & H1 & He). apply in_zrange in H1. apply in_flat_map in He as (ib2 & H2 & He). apply in_zrange in H2.
      exists ib1, ib2. unfold isotopeEvent in He. cbv zeta in He. destruct (isIn excl (gS2B G (idx iq1 ib1))) eqn:X1; [destruct He|]. destruct (qltb (en iq1 ib1) cut); [destruct He|].
      destruct (isIn excl (gS2B G (idx (irrOf iq2) ib2))) eqn:X2; [destruct He|]. destruct (qltb (en iq2 ib2) cut); [destruct He|]. destruct He as [<-|[]]. cbn [evIs1 evIs2Irr evBte1 evBte2]. repeat split; try lia; assumption. }
  split.
  - intros iq1 iq2 q e H1 Hq H2 He. destruct (K _ _ _ He) as (ib1 & ib2 & B1 & B2 & E1 & E2 & E3 & E4 & _). destruct (HI q iq2 Hq H2) as [I1 I2].
    rewrite E3, E4, E1, E2, I1. rewrite I2 in B2. destruct (HS iq1 ib1 H1 B1) as (P1 & P2 & P3). destruct (HS q ib2 Hq B2) as (Q1 & Q2 & Q3). repeat split; (lia || congruence).
  - intros iq1 iq2 e He. destruct (K _ _ _ He) as (ib1 & ib2 & _ & _ & _ & _ & _ & _ & X1 & X2). split; intro C; apply isIn_In in C; congruence.
Qed.
Lemma electron_good G nb nb3 idx irrOf rotInv en3 cc da db fermi bose3 symm3 cpi norm cut : goodStates G nb idx irrOf ->
  goodEvents G (electronEvents G nb nb3 idx irrOf rotInv en3 cc da db fermi bose3 symm3 cpi norm cut) /\
  avoids [] (electronEvents G nb nb3 idx irrOf rotInv en3 cc da db fermi bose3 symm3 cpi norm cut).
Proof.
  intros [HS HI]. split.
  - intros iq1 iq2 q e H1 Hq H2 He. unfold electronEvents in He. apply in_flat_map in He as (ib2 & B2 & He). apply in_flat_map in He as (ib1 & B1 & He). apply in_flat_map in He as (ib3 & _ & He).
    apply in_zrange in B1, B2. destruct (HI q iq2 Hq H2) as [I1 I2]. rewrite I2 in B2. destruct (HS iq1 ib1 H1 B1) as (P1 & P2 & P3). destruct (HS q ib2 Hq B2) as (Q1 & Q2 & Q3).
    unfold electronEvent in He. cbv zeta in He. destruct (qltb (en3 iq1 iq2 ib3) cut); [destruct He|]. destruct (negb _ && negb _); [destruct He|]. destruct He as [<-|[]].
    cbn [evIs1 evIs2Irr evBte1 evBte2]. rewrite I1. repeat split; (lia || congruence).
  - intros iq1 iq2 e _. split; intros [].
Qed.

(** * Iterators *)
Lemma dotPairs_cover G size : fits (gPts G) size -> exists lists, mapM (fun r => dotPairs G r size) (zrange 0 size) = Ok lists /\
  Permutation (flat_map pairsOf lists) (allPairs G).
Proof.
  intro F. destruct (divideWorkIter_partition (gPts G) size F) as (shares & E & C).
  exists (map (map (fun q2 => (gIrr G, q2))) shares). split.
  - assert (M : forall l s, mapM (fun r => divideWorkIter (gPts G) r size) l = Ok s -> mapM (fun r => dotPairs G r size) l = Ok (map (map (fun q2 => (gIrr G, q2))) s)).
    { induction l as [|r l IH]; intros s Hs; cbn [mapM] in *; [injection Hs as <-; reflexivity|].
      unfold dotPairs at 1. destruct (divideWorkIter (gPts G) r size) as [a| |] eqn:Ea; cbn [bind] in *; try discriminate.
      destruct (mapM _ l) as [t| |] eqn:Et; cbn [bind] in *; try discriminate. injection Hs as <-. rewrite (IH t eq_refl). reflexivity. }
    apply M, E.
  - transitivity (flat_map (fun q2 => map (fun a => (a, q2)) (gIrr G)) (concat shares)).
    + peq. clear. induction shares as [|s l IH]; [reflexivity|]. rewrite concat_cons, flat_map_app, <- IH. cbn [map flat_map]. f_equal.
      unfold pairsOf. induction s as [|x s IHs]; [reflexivity|]. cbn [map flat_map fst snd]. rewrite IHs. reflexivity.
    + rewrite C. unfold allPairs. generalize (zrange 0 (gPts G)) as ks. intro ks. clear.
      induction (gIrr G) as [|q l IH]; [cbn [map list_prod]; induction ks as [|k ks IHk]; [reflexivity|exact IHk]|].
      cbn [list_prod]. rewrite <- IH. clear. induction ks as [|k ks IHk]; [reflexivity|]. cbn [flat_map map app]. constructor.
      rewrite IHk. rewrite !app_assoc. apply Permutation_app_tail. apply Permutation_app_comm.
Qed.
Lemma dotPairsRow_cover G mines : concat mines = gIrr G -> flat_map pairsOfRow (map (dotPairsRow G) mines) = allPairs G.
Proof.
  intro E. unfold allPairs. rewrite <- E. clear E. induction mines as [|m l IH]; [reflexivity|]. cbn [map flat_map concat]. rewrite IH.
  assert (P : forall (l l' : list Z) (r : list Z), list_prod (l ++ l') r = list_prod l r ++ list_prod l' r).
  { clear. intros l l' r. induction l as [|a l IH]; [reflexivity|]. cbn [app list_prod]. rewrite IH, app_assoc. reflexivity. }
  rewrite P. f_equal. unfold pairsOfRow, dotPairsRow. clear. induction m as [|k m IH]; [reflexivity|]. cbn [map flat_map list_prod fst snd]. rewrite IH. reflexivity.
Qed.
Lemma rankEvents_all G ev lists : Permutation (flat_map pairsOf lists) (allPairs G) -> Permutation (concat (map (rankEvents ev) lists)) (allEvents G ev).
Proof.
  intro P. transitivity (flat_map (fun p => ev (fst p) (snd p)) (flat_map pairsOf lists)); [|apply Permutation_flat_map, P].
  peq. clear. induction lists as [|l r IH]; [reflexivity|]. cbn [map concat flat_map]. rewrite flat_map_app, IH, rankEvents_flat. reflexivity.
Qed.
Lemma rankEventsRow_all G ev lists : (forall l, In l lists -> forall p, In p l -> snd p <> -1) -> Permutation (flat_map pairsOfRow lists) (allPairs G) -> Permutation (concat (map (rankEventsRow ev) lists)) (allEvents G ev).
Proof.
  intros H P. transitivity (flat_map (fun p => ev (fst p) (snd p)) (flat_map pairsOfRow lists)); [|apply Permutation_flat_map, P].
  peq. clear P. induction lists as [|l r IH]; [reflexivity|]. cbn [map concat flat_map]. rewrite flat_map_app, IH, rankEventsRow_flat; [reflexivity| |].
  - apply H. left. reflexivity. - intros l' Hl. apply H. right. exact Hl.
Qed.
Lemma pad_events ev l n : rankEventsRow ev (l ++ repeat ([-1], -1) n) = rankEventsRow ev l.
Proof.
  unfold rankEventsRow. rewrite flat_map_app. assert (E : flat_map (fun p : list Z * Z => if snd p =? -1 then [] else flat_map (fun ik2 => ev (snd p) ik2) (fst p)) (repeat ([-1], -1) n) = []) by (induction n; [reflexivity|exact IHn]).
  rewrite E, app_nil_r. reflexivity.
Qed.
Lemma padPool_events ev pool : map (rankEventsRow ev) (padPool pool) = map (rankEventsRow ev) pool.
Proof. unfold padPool. destruct (zlen pool <=? 1); [reflexivity|]. rewrite map_map. apply map_ext. intro l. apply pad_events. Qed.
Lemma padPool_spec pool : zlen (padPool pool) = zlen pool /\
  (forall l l', In l (padPool pool) -> In l' (padPool pool) -> zlen l = zlen l') /\
  (forall m l, zget pool m = Some l -> exists n, zget (padPool pool) m = Some (l ++ repeat ([-1], -1) n)) /\
  (forall l, In l (padPool pool) -> exists l', In l' pool /\ zlen l' = zlen l).
Proof.
  unfold padPool. destruct (zlen pool <=? 1) eqn:E.
  - split; [reflexivity|]. split; [|split].
    + intros l l' H H'. destruct pool as [|a [|b r]]; [destruct H| |rewrite !zlen_cons in E; pose proof (zlen_nonneg r); lia]. destruct H as [<-|[]], H' as [<-|[]]. reflexivity.
    + intros m l H. exists 0%nat. cbn [repeat]. rewrite app_nil_r. exact H.
    + intros l H. exists l. split; [exact H|reflexivity].
  - set (f := fun l : list (list Z * Z) => l ++ repeat ([-1], -1) (Z.to_nat (fold_right Z.max 0 (map zlen pool) - zlen l))).
    assert (B : forall l, In l pool -> zlen (f l) = fold_right Z.max 0 (map zlen pool)).
    { intros l Hl. unfold f. rewrite zlen_app. unfold zlen at 2. rewrite repeat_length.
      assert (zlen l <= fold_right Z.max 0 (map zlen pool)); [|lia].
      clear E f. induction pool as [|a r IH]; [destruct Hl|]. cbn [map fold_right]. destruct Hl as [->|Hl]; [lia|]. specialize (IH Hl). lia. }
    split; [unfold zlen; rewrite map_length; reflexivity|]. split; [|split].
    + intros l l' H H'. apply in_map_iff in H as (a & <- & Ha). apply in_map_iff in H' as (a' & <- & Ha'). fold (f a). fold (f a'). rewrite !B by assumption. reflexivity.
    + intros m l H. eexists. rewrite zget_map, H. reflexivity.
    + intros l H. apply in_map_iff in H as (a & <- & Ha). fold (f a). rewrite B by exact Ha.
      assert (K : pool <> []) by (intro C; rewrite C in Ha; destruct Ha). clear - K. induction pool as [|x r IH]; [congruence|]. cbn [map fold_right].
      destruct r as [|y r]; [exists x; split; [left; reflexivity|cbn [map fold_right]; pose proof (zlen_nonneg x); lia]|].
      destruct IH as (l' & Hl & El); [discriminate|]. destruct (Z.max_spec (zlen x) (fold_right Z.max 0 (map zlen (y :: r)))) as [[_ M]|[_ M]]; rewrite M.
      * exists l'. split; [right; exact Hl|exact El].
      * exists x. split; [left; reflexivity|reflexivity].
Qed.

(** * Products *)
Section Products.
Variables (G : grid) (HG : goodGrid G) (ev : Z -> Z -> list event) (Hev : goodEvents G ev).
Variables (excl : list Z) (Hav : avoids excl ev) (bnd : Z -> Qc) (sym : bool) (Hrot : sym = false -> unrotated ev).
Variables (L : layout) (HL : fullMatrix G sym L) (chunks chunks' : Z * Z -> list (list (Z * Z))) (Hch : splitElements L chunks) (Hch' : splitElements L chunks').
Variable evs : Z * Z -> list event.
Hypothesis Hevs : evs = matrixEvents G sym ev chunks \/ evs = matrixEventsRow G sym ev chunks.
Notation A := (buildInMemory sym excl (gN G) bnd L (processes L) evs).
Lemma mem_product skip (x : Z -> Z -> Qc) i b : 0 <= i < 3 -> 0 <= b < gN G -> memProduct sym skip A (processes L) chunks' x i b =
  qsum (map (fun b' => ite (negb (skip b b')) (elementSpec excl bnd (allEvents G ev) b i b' 0 * x 0%Z b' + elementSpec excl bnd (allEvents G ev) b i b' 1 * x 1%Z b' + elementSpec excl bnd (allEvents G ev) b i b' 2 * x 2%Z b'))%Qc (zrange 0 (gN G))).
Proof.
  destruct HL as (V & R & C). intros Hi Hb. apply (memProduct_sum G HG ev bnd sym Hrot L V R C chunks' Hch' _ (or_introl eq_refl) A (elementSpec excl bnd (allEvents G ev))).
  - intros p b0 i0 b' j Hp H1 H2 H3 H4 H5 O. rewrite (mem_element G HG ev Hev excl Hav bnd sym Hrot L V R C chunks Hch evs Hevs) by assumption. rewrite O. reflexivity.
  - intros. apply (element_unrotated G ev excl bnd sym Hrot); assumption.
  - exact Hi.
  - exact Hb.
Qed.
Lemma memDot_collision (x : Z -> Z -> Qc) i b : 0 <= i < 3 -> 0 <= b < gN G -> memDot sym excl A (processes L) chunks' x i b = collision (gN G) excl bnd (allEvents G ev) x i b.
Proof.
  intros Hi Hb. unfold memDot. rewrite mem_product by assumption. unfold collision. apply qsum_ext. intros b' Hb'. destruct (isIn excl b || isIn excl b') eqn:E; [|reflexivity]. cbn [negb ite].
  assert (In b excl \/ In b' excl) by (apply orb_true_iff in E; rewrite !isIn_In in E; exact E). rewrite !(element_excluded G HG ev Hev excl Hav bnd) by assumption. ring.
Qed.
Lemma memOff (x : Z -> Z -> Qc) i b : 0 <= i < 3 -> 0 <= b < gN G ->
  (memOffDiagonalDot sym A (processes L) chunks' x i b + imDiag A b * x i b = collision (gN G) excl bnd (allEvents G ev) x i b)%Qc.
Proof.
  intros Hi Hb. unfold memOffDiagonalDot. rewrite mem_product by assumption. destruct HL as (V & R & C).
  rewrite (mem_diag G HG ev Hev excl Hav bnd sym Hrot L V R C chunks Hch evs Hevs). unfold collision.
  transitivity (qsum (map (fun b' => ite (negb (b =? b')) (elementSpec excl bnd (allEvents G ev) b i b' 0 * x 0%Z b' + elementSpec excl bnd (allEvents G ev) b i b' 1 * x 1%Z b' + elementSpec excl bnd (allEvents G ev) b i b' 2 * x 2%Z b') + ite (b =? b') (linewidthSpec excl bnd (allEvents G ev) b * x i b))%Qc (zrange 0 (gN G)))).
  - rewrite qsum_map_add. f_equal. symmetry. rewrite (qsum_one _ _ b Z.eq_dec); [rewrite Z.eqb_refl; reflexivity|apply NoDup_zrange|apply in_zrange; lia|].
    intros y _ Hy. replace (b =? y) with false by lia. reflexivity.
  - apply qsum_ext. intros b' _. destruct (b =? b') eqn:E; cbn [negb ite]; [|ring]. assert (b' = b) as -> by lia.
    unfold elementSpec. rewrite E. assert (Ci : i = 0 \/ i = 1 \/ i = 2) by lia. destruct Ci as [->|[->| ->]]; cbn [Z.eqb Pos.eqb]; ring.
Qed.
End Products.

(** * Averages *)
Lemma avg_other en bte lw ik b : (forall ib, 0 <= ib < zlen (en ik) -> bte ik ib <> b) -> averagePoint en bte lw ik b = lw b.
Proof.
  intro H. unfold averagePoint. set (ibs := zrange 0 (zlen (en ik))). set (tmp := map _ (en ik)).
  assert (K : forall l (f : Z -> Qc), (forall p, In p l -> 0 <= fst p < zlen (en ik)) -> fold_left (fun (lw : Z -> Qc) (p : Z * Qc) b => if b =? bte ik (fst p) then snd p else lw b) l f b = f b).
  { induction l as [|p l IH]; intros f Hl; [reflexivity|]. cbn [fold_left]. rewrite IH by (intros; apply Hl; right; assumption).
    specialize (H (fst p) (Hl p (or_introl eq_refl))). replace (b =? bte ik (fst p)) with false by lia. reflexivity. }
  apply K. intros [ib v] Hp. apply in_combine_l in Hp. apply in_zrange in Hp. exact Hp.
Qed.
Lemma avg_at en bte lw ik ib e : (forall i j, 0 <= i < zlen (en ik) -> 0 <= j < zlen (en ik) -> bte ik i = bte ik j -> i = j) -> zget (en ik) ib = Some e ->
  averagePoint en bte lw ik (bte ik ib) = averageBand (en ik) (map (fun ib => lw (bte ik ib)) (zrange 0 (zlen (en ik)))) e.
Proof.
  intros Inj He. unfold averagePoint. set (f := averageBand _ _). destruct (zget_Some _ _ _ He) as [Hib _].
  assert (K : forall (l : list (Z * Qc)) (g : Z -> Qc) v, (forall p, In p l -> 0 <= fst p < zlen (en ik)) -> NoDup (map fst l) -> In (ib, v) l ->
    fold_left (fun (lw : Z -> Qc) (p : Z * Qc) b => if b =? bte ik (fst p) then snd p else lw b) l g (bte ik ib) = v).
  { induction l as [|p l IH]; intros g v Hl Nd Hin; [destruct Hin|]. cbn [fold_left]. cbn [map] in Nd. inversion Nd as [|? ? Hni Nd']; subst.
    destruct Hin as [->|Hin].
    - clear IH. cbn [fst snd] in *.
      assert (Q : forall (l' : list (Z * Qc)) (g : Z -> Qc), (forall p, In p l' -> 0 <= fst p < zlen (en ik) /\ fst p <> ib) -> fold_left (fun (lw : Z -> Qc) (p : Z * Qc) b => if b =? bte ik (fst p) then snd p else lw b) l' g (bte ik ib) = g (bte ik ib)).
      { induction l' as [|p l' IH]; intros g' H'; [reflexivity|]. cbn [fold_left]. rewrite IH by (intros; apply H'; right; assumption).
        destruct (H' p (or_introl eq_refl)) as [R N]. destruct (bte ik ib =? bte ik (fst p)) eqn:E; [|reflexivity]. exfalso. apply N. symmetry. apply Inj; [exact Hib|exact R|lia]. }
      rewrite Q; [rewrite Z.eqb_refl; reflexivity|]. intros p Hp. split; [apply Hl; right; exact Hp|]. intro C. apply Hni. rewrite <- C. apply in_map. exact Hp.
    - apply IH; [intros; apply Hl; right; assumption|exact Nd'|exact Hin]. }
  assert (Ef : map fst (combine (zrange 0 (zlen (en ik))) (map f (en ik))) = zrange 0 (zlen (en ik))).
  { assert (Lc : forall (A B : Type) (l : list A) (l' : list B), length l = length l' -> map fst (combine l l') = l).
    { induction l as [|a l IH]; intros [|b l'] El; try discriminate; [reflexivity|]. cbn [combine map fst]. f_equal. apply IH. injection El as El. exact El. }
    apply Lc. rewrite map_length. unfold zlen. rewrite zrange_length. lia. }
  apply K.
  - intros p Hp. apply (in_map fst) in Hp. rewrite Ef in Hp. apply in_zrange in Hp. exact Hp.
  - rewrite Ef. apply NoDup_zrange.
  - assert (Nt : nth_error (combine (zrange 0 (zlen (en ik))) (map f (en ik))) (Z.to_nat ib) = Some (ib, f e)).
    { assert (Nc : forall (A B : Type) (l : list A) (l' : list B) n a b, nth_error l n = Some a -> nth_error l' n = Some b -> nth_error (combine l l') n = Some (a, b)).
      { induction l as [|a l IH]; intros [|b l'] [|n] a' b' E1 E2; try discriminate; cbn in *; [congruence|]. apply IH; assumption. }
      apply Nc.
      - rewrite nth_error_zrange by lia. f_equal. lia.
      - unfold zget in He. destruct (ib <? 0) eqn:Ei; [lia|]. apply map_nth_error. exact He. }
    apply nth_error_In in Nt. exact Nt.
Qed.
