(** Property theorems for the collision operator: C32-C38. *)
From Coq Require Import QArith Qcanon Permutation.
From Verif Require Import Base BaseLemmas M_mpi S_mpi L_mpi M_points S_points M_irreducible S_irreducible L_irreducible M_matrix S_matrix L_matrix L_matrix2 L_matrix3 P_matrix M_vbte S_vbte L_vbte M_scattering S_scattering L_scattering L_scattering2 L_scattering3 L_scattering4 L_scattering5.
Open Scope Z_scope.

(** A small case used by the examples: three points, stars {0} and {1,2}; point 2 is the inversion of point 1. *)
Definition exGrid : grid := {| gN := 2; gPts := 3; gIrr := [0; 1]; gStar := fun q => if q =? 0 then [0] else [1; 2]; gB2S := fun b => b; gS2B := fun s => Z.min s 1; gPoint := fun s => s |}.
Definition q (z : Z) : Qc := Q2Qc (inject_Z z).
Definition exRot (iq2 : Z) (i j : Z) : Qc := if i =? j then if iq2 =? 2 then q (-1) else q 1 else 0%Qc.
Definition exEvents (iq1 iq2 : Z) : list event :=
  [{| evIs1 := iq1; evBte1 := iq1; evIs2Irr := Z.min iq2 1; evBte2 := Z.min iq2 1; evRot := exRot iq2; evOff := q (3 * iq1 + iq2 + 1); evParts := [(q (iq2 + 1), iq2 =? 1); (q 5, false)] |}].
Definition exX (i b : Z) : Qc := q (3 * b + i - 2).
Lemma exGrid_good : goodGrid exGrid.
Proof.
  unfold goodGrid, exGrid. cbn [gN gPts gIrr gStar gB2S gS2B gPoint]. split; [lia|]. split; [lia|]. split; [repeat constructor; cbn; lia|]. split; [apply Permutation_refl|]. split.
  - intros k Hk. cbn [In] in Hk. destruct Hk as [<-|[<-|[]]]; cbn; tauto.
  - intros b Hb. cbn [In]. split; lia.
Qed.
Lemma exEvents_good : goodEvents exGrid exEvents.
Proof.
  intros iq1 iq2 k e H1 Hk H2 He. unfold exEvents in He. destruct He as [<-|[]]. cbn [exGrid gN gIrr gStar gB2S gPoint evBte1 evBte2 evIs1 evIs2Irr In] in *.
  assert (C : (k = 0 /\ iq2 = 0) \/ (k = 1 /\ (iq2 = 1 \/ iq2 = 2))) by (destruct Hk as [<-|[<-|[]]]; cbn in H2; lia). lia.
Qed.
Lemma exEvents_avoids : avoids [] exEvents. Proof. intros iq1 iq2 e _. split; intros []. Qed.

(** * C33: the distribution of the work *)
(** setup gives a valid layout exactly when the number of processes is a square and there is one calculation *)
Theorem C33_setup_layout : forall G sym s, 0 < gN G -> 0 < s ->
  exists L, setupLayout sym (gN G) (s * s) 1 = Ok L /\ fullMatrix G sym L /\ npRows L = s /\ npCols L = s.
Proof.
  intros G sym s Hn Hs. unfold setupLayout. cbn [Z.ltb Z.compare Pos.compare Pos.compare_cont]. rewrite Z.sqrt_square by lia.
  assert (Hm : 0 < matSize sym (gN G)) by (destruct sym; cbn [matSize]; lia).
  set (nb := if Z.quot (matSize sym (gN G)) 64 <=? s then s * 2 else Z.quot (matSize sym (gN G)) 64).
  assert (Hnb : 0 < nb) by (unfold nb; destruct (_ <=? _) eqn:E; lia).
  clearbody nb. destruct (C23_square_grid (s * s) ltac:(nia)) as [Hg _].
  assert (E : exists L, mkLayout (s * s) (matSize sym (gN G)) (matSize sym (gN G)) 0 0 nb nb = Ok L /\ npRows L = s /\ npCols L = s).
  { unfold mkLayout. rewrite (Hg s Hs eq_refl). cbn [bind fst snd]. cbv zeta. replace (nb =? 0) with false by lia. replace (nb =? 0) with false by lia. cbn [orb]. eexists. split; [reflexivity|]. split; reflexivity. }
  destruct E as (L & E & E1 & E2). exists L. split; [exact E|]. split; [|auto].
  destruct (C23_constructor_layout (s * s) (matSize sym (gN G)) (matSize sym (gN G)) 0 0 nb nb L ltac:(nia) Hm Hm ltac:(nia) ltac:(nia) ltac:(lia) ltac:(lia) E) as (V & R & C & _). split; [exact V|]. split; assumption.
Qed.
Print Assumptions C33_setup_layout.
(** otherwise the program stops with an error *)
Theorem C33_setup_refused : forall sym n size calcs, 0 < size -> 1 < calcs \/ (forall s, size <> s * s) -> setupLayout sym n size calcs = Err.
Proof.
  intros sym n size calcs Hs H. unfold setupLayout. destruct (1 <? calcs) eqn:E; [reflexivity|]. destruct H as [H|H]; [lia|]. cbv zeta. unfold mkLayout. rewrite (proj2 (C23_square_grid size Hs) H). reflexivity.
Qed.
Print Assumptions C33_setup_refused.
(** linewidths of the matrix in memory: the sum over all events, whatever the layout, the threads and the iterator *)
Theorem C33_memory_linewidths : forall G ev excl bnd sym L chunks evs, goodGrid G -> goodEvents G ev -> avoids excl ev -> (sym = false -> unrotated ev) ->
  fullMatrix G sym L -> splitElements L chunks -> evs = matrixEvents G sym ev chunks \/ evs = matrixEventsRow G sym ev chunks ->
  forall b, imDiag (buildInMemory sym excl (gN G) bnd L (processes L) evs) b = linewidthSpec excl bnd (allEvents G ev) b.
Proof. intros G ev excl bnd sym L chunks evs H1 H2 H3 H4 (V & R & C) H6 H7 b. exact (mem_diag G H1 ev H2 excl H3 bnd sym H4 L V R C chunks H6 evs H7 b). Qed.
Print Assumptions C33_memory_linewidths.
(** every element is held by its owner, and by nobody else *)
Theorem C33_memory_elements : forall G ev excl bnd sym L chunks evs, goodGrid G -> goodEvents G ev -> avoids excl ev -> (sym = false -> unrotated ev) ->
  fullMatrix G sym L -> splitElements L chunks -> evs = matrixEvents G sym ev chunks \/ evs = matrixEventsRow G sym ev chunks ->
  forall p b i b' j, In p (processes L) -> 0 <= b < gN G -> 0 <= b' < gN G -> 0 <= i < 3 -> 0 <= j < 3 -> (sym = false -> i = 0 /\ j = 0) ->
  imPart (buildInMemory sym excl (gN G) bnd L (processes L) evs) p (toMat sym b i) (toMat sym b' j) =
  if indicesAreLocal L p (toMat sym b i) (toMat sym b' j) then elementSpec excl bnd (allEvents G ev) b i b' j else 0%Qc.
Proof. intros G ev excl bnd sym L chunks evs H1 H2 H3 H4 (V & R & C) H6 H7. exact (mem_element G H1 ev H2 excl H3 bnd sym H4 L V R C chunks H6 evs H7). Qed.
Print Assumptions C33_memory_elements.
(** linewidths on the fly: any division of the events over processes, threads and batches *)
Theorem C33_fly_linewidths : forall G ev evs, Permutation (concat evs) (allEvents G ev) -> forall irr en bte excl bnd b,
  flyLinewidths excl bnd (fun lw => lw) evs b = linewidthSpec excl bnd (allEvents G ev) b /\
  flyLinewidths excl bnd (averageLinewidths irr en bte) evs b = finishLinewidths excl bnd (averageLinewidths irr en bte (rateOut (allEvents G ev))) b.
Proof.
  intros G ev evs P irr en bte excl bnd b. split; [|apply fly_linewidths; exact P]. unfold flyLinewidths, finishLinewidths, linewidthSpec. destruct (isIn excl b); [reflexivity|].
  f_equal. apply fly_linewidths_total. exact P.
Qed.
Print Assumptions C33_fly_linewidths.
Theorem C33_fly_product : forall G ev excl bnd evs, goodGrid G -> goodEvents G ev -> avoids excl ev -> Permutation (concat evs) (allEvents G ev) ->
  forall x i b, 0 <= i < 3 -> 0 <= b < gN G -> flyDot excl bnd evs x i b = collision (gN G) excl bnd (allEvents G ev) x i b.
Proof. intros G ev excl bnd evs H1 H2 H3 H4 x i b Hi Hb. apply (flyDot_collision G H1 ev H2 excl H3 bnd true); assumption. Qed.
Print Assumptions C33_fly_product.
Example C33_ex : goodGrid exGrid /\ goodEvents exGrid exEvents /\ avoids [] exEvents /\
  (exists L, setupLayout true 2 4 1 = Ok L /\ fullMatrix exGrid true L) /\
  linewidthSpec [] (fun _ => q 7) (allEvents exGrid exEvents) 1 = q 28 /\
  elementSpec [] (fun _ => q 7) (allEvents exGrid exEvents) 0 0 1 0 = q (-1).
Proof.
  split; [exact exGrid_good|]. split; [exact exEvents_good|]. split; [exact exEvents_avoids|]. split.
  - destruct (C33_setup_layout exGrid true 2 ltac:(reflexivity) ltac:(lia)) as (L & E & F & _). exists L. split; assumption.
  - split; apply Qc_is_canon; vm_compute; reflexivity.
Qed.

(** * C32: matrix in memory and matrix-free products *)
Theorem C32_products_agree : forall G ev excl bnd sym L chunks chunks' evs size, goodGrid G -> goodEvents G ev -> avoids excl ev -> (sym = false -> unrotated ev) ->
  fullMatrix G sym L -> splitElements L chunks -> splitElements L chunks' ->
  evs = matrixEvents G sym ev chunks \/ evs = matrixEventsRow G sym ev chunks -> fits (gPts G) size ->
  exists lists, mapM (fun r => dotPairs G r size) (zrange 0 size) = Ok lists /\
  forall x i b, 0 <= i < 3 -> 0 <= b < gN G ->
  memDot sym excl (buildInMemory sym excl (gN G) bnd L (processes L) evs) (processes L) chunks' x i b =
  flyDot excl bnd (map (rankEvents ev) lists) x i b.
Proof.
  intros G ev excl bnd sym L chunks chunks' evs size H1 H2 H3 H4 H5 H6 H7 H8 F. destruct (dotPairs_cover G size F) as (lists & E & P). exists lists. split; [exact E|]. intros x i b Hi Hb.
  rewrite (memDot_collision G H1 ev H2 excl H3 bnd sym H4 L H5 chunks chunks' H6 H7 evs H8 x i b Hi Hb). symmetry. apply (flyDot_collision G H1 ev H2 excl H3 bnd true); try assumption. apply rankEvents_all. exact P.
Qed.
Print Assumptions C32_products_agree.
(** electrons: the irreducible points are divided over the processes (C15), padded inside pools (C34) *)
Theorem C32_products_agree_electrons : forall G ev excl bnd sym L chunks chunks' evs mines, goodGrid G -> goodEvents G ev -> avoids excl ev -> (sym = false -> unrotated ev) ->
  fullMatrix G sym L -> splitElements L chunks -> splitElements L chunks' ->
  evs = matrixEvents G sym ev chunks \/ evs = matrixEventsRow G sym ev chunks -> concat (map (@concat Z) mines) = gIrr G ->
  forall x i b, 0 <= i < 3 -> 0 <= b < gN G ->
  memDot sym excl (buildInMemory sym excl (gN G) bnd L (processes L) evs) (processes L) chunks' x i b =
  flyDot excl bnd (flat_map (fun pool => map (rankEventsRow ev) (padPool (map (dotPairsRow G) pool))) mines) x i b.
Proof.
  intros G ev excl bnd sym L chunks chunks' evs mines H1 H2 H3 H4 H5 H6 H7 H8 E x i b Hi Hb.
  rewrite (memDot_collision G H1 ev H2 excl H3 bnd sym H4 L H5 chunks chunks' H6 H7 evs H8 x i b Hi Hb). symmetry. apply (flyDot_collision G H1 ev H2 excl H3 bnd true); try assumption.
  assert (Q : flat_map (fun pool => map (rankEventsRow ev) (padPool (map (dotPairsRow G) pool))) mines = map (rankEventsRow ev) (map (dotPairsRow G) (concat mines))).
  { clear. induction mines as [|pool r IH]; [reflexivity|]. cbn [flat_map concat]. rewrite padPool_events, IH, !map_app. reflexivity. }
  rewrite Q. apply rankEventsRow_all.
  - intros l Hl p Hp. apply in_map_iff in Hl as (mine & <- & Hm). unfold dotPairsRow in Hp. apply in_map_iff in Hp as (k & <- & Hk). cbn [snd].
    assert (In k (gIrr G)). { rewrite <- E. apply in_concat. apply in_concat in Hm as (pool & Hpool & Hm). exists (concat pool). split; [apply in_map; exact Hpool|]. apply in_concat. exists mine. split; assumption. }
    pose proof (irr_point G H1 bnd true k H). lia.
  - rewrite dotPairsRow_cover; [apply Permutation_refl|]. rewrite <- E. clear. induction mines as [|a r IH]; [reflexivity|]. cbn [concat map]. rewrite concat_app, IH. reflexivity.
Qed.
Print Assumptions C32_products_agree_electrons.
(** the events generated by the builders meet the hypotheses *)
Theorem C32_phonon_events : forall G excl nb nb3p nb3m idx irrOf rotInv en en3p en3m cp cm dp d1 d2 diso iso bose bose3p bose3m umk umkm1 umkm2 cpi norm cut same doIso,
  goodStates G nb idx irrOf ->
  let ev := phononEvents G excl nb nb3p nb3m idx irrOf rotInv en en3p en3m cp cm dp d1 d2 diso iso bose bose3p bose3m umk umkm1 umkm2 cpi norm cut same doIso in
  goodEvents G ev /\ avoids excl ev /\ ((forall iq2 i j, rotInv iq2 i j = if i =? j then 1%Qc else 0%Qc) -> unrotated ev).
Proof.
  intros G excl nb nb3p nb3m idx irrOf rotInv en en3p en3m cp cm dp d1 d2 diso iso bose bose3p bose3m umk umkm1 umkm2 cpi norm cut same doIso HS ev.
  destruct (phonon_good G excl nb nb3p nb3m idx irrOf rotInv en en3p en3m cp cm dp d1 d2 diso iso bose bose3p bose3m umk umkm1 umkm2 cpi norm cut same doIso HS) as [A B].
  split; [exact A|]. split; [exact B|]. intros R iq1 iq2 e i j He Hi Hj.
  assert (evRot e = rotInv iq2) as ->; [|apply R]. unfold ev, phononEvents in He. apply in_app_iff in He as [He|He].
  - unfold threePhonon in He. apply in_flat_map in He as (ib1 & _ & He). destruct (isIn excl _); [destruct He|]. apply in_flat_map in He as (ib2 & _ & He). destruct (isIn excl _); [destruct He|].
    apply in_app_iff in He as [He|He]; apply in_flat_map in He as (ib3 & _ & He).
    + unfold plusEvent in He. cbv zeta in He. destruct (discarded _ _ _ _ _); [destruct He|]. destruct (negb _); [destruct He|]. destruct He as [<-|[]]. reflexivity.
    + unfold minusEvent in He. cbv zeta in He. destruct (discarded _ _ _ _ _); [destruct He|]. destruct (negb _ && negb _); [destruct He|]. destruct He as [<-|[]]. reflexivity.
  - destruct doIso; [|destruct He]. unfold isotopes in He. apply in_flat_map in He as (ib1 & _ & He). apply in_flat_map in He as (ib2 & _ & He). unfold isotopeEvent in He. cbv zeta in He.
    destruct (_ || _); [destruct He|]. destruct He as [<-|[]]. reflexivity.
Qed.
Print Assumptions C32_phonon_events.
Theorem C32_electron_events : forall G nb nb3 idx irrOf rotInv en3 cc da db fermi bose3 symm3 cpi norm cut, goodStates G nb idx irrOf ->
  let ev := electronEvents G nb nb3 idx irrOf rotInv en3 cc da db fermi bose3 symm3 cpi norm cut in
  goodEvents G ev /\ avoids [] ev /\ ((forall iq2 i j, rotInv iq2 i j = if i =? j then 1%Qc else 0%Qc) -> unrotated ev).
Proof.
  intros G nb nb3 idx irrOf rotInv en3 cc da db fermi bose3 symm3 cpi norm cut HS ev. destruct (electron_good G nb nb3 idx irrOf rotInv en3 cc da db fermi bose3 symm3 cpi norm cut HS) as [A B].
  split; [exact A|]. split; [exact B|]. intros R iq1 iq2 e i j He Hi Hj. assert (evRot e = rotInv iq2) as ->; [|apply R].
  unfold ev, electronEvents in He. apply in_flat_map in He as (ib2 & _ & He). apply in_flat_map in He as (ib1 & _ & He). apply in_flat_map in He as (ib3 & _ & He).
  unfold electronEvent in He. cbv zeta in He. destruct (qltb _ _); [destruct He|]. destruct (negb _ && negb _); [destruct He|]. destruct He as [<-|[]]. reflexivity.
Qed.
Print Assumptions C32_electron_events.
Example C32_ex : goodStates exGrid (fun _ => 1) (fun iq _ => iq) (fun iq => Z.min iq 1) /\ fits (gPts exGrid) 4 /\
  exists lists, mapM (fun r => dotPairs exGrid r 4) (zrange 0 4) = Ok lists /\
  flyDot [] (fun _ => q 7) (map (rankEvents exEvents) lists) exX 1 0 = q (-30) /\
  concat (map (@concat Z) [[[0]; []]; [[1]; []]]) = gIrr exGrid.
Proof.
  split; [|split].
  - unfold goodStates, exGrid. cbn [gIrr gStar gN gS2B gB2S gPoint In]. split; [intros k ib Hk Hib; assert (k = 0 \/ k = 1) by lia; lia|].
    intros k iq Hk Hiq. assert (C : (k = 0 /\ iq = 0) \/ (k = 1 /\ (iq = 1 \/ iq = 2))) by (destruct Hk as [<-|[<-|[]]]; cbn in Hiq; lia). lia.
  - unfold fits. cbn. lia.
  - eexists. split; [reflexivity|]. split; [apply Qc_is_canon; vm_compute; reflexivity|reflexivity].
Qed.

(** * C34: pairs of wavevectors *)
Theorem C34_phonon_pairs : forall G size, fits (gPts G) size ->
  exists lists, mapM (fun r => dotPairs G r size) (zrange 0 size) = Ok lists /\ Permutation (flat_map pairsOf lists) (list_prod (gIrr G) (zrange 0 (gPts G))).
Proof. exact dotPairs_cover. Qed.
Print Assumptions C34_phonon_pairs.
(** [mines]: irreducible points of each process (C15) *)
Theorem C34_electron_pairs : forall G mines, concat mines = gIrr G -> flat_map pairsOfRow (map (dotPairsRow G) mines) = list_prod (gIrr G) (zrange 0 (gPts G)).
Proof. exact dotPairsRow_cover. Qed.
Print Assumptions C34_electron_pairs.
(** matrix in memory: a process visits the pairs that contribute to its elements, each once *)
Theorem C34_matrix_pairs : forall G sym L chunks, splitElements L chunks -> forall p,
  Permutation (pairsOf (matrixPairs (localPairs G sym (chunks p)))) (pairsOfRow (matrixPairsRow (localPairs G sym (chunks p)))) /\
  NoDup (pairsOf (matrixPairs (localPairs G sym (chunks p)))) /\
  forall q1 q2, In (q1, q2) (pairsOf (matrixPairs (localPairs G sym (chunks p)))) <->
    exists r c, In (r, c) (getAllLocalStates L p) /\ q1 = gPoint G (gB2S G (fst (ofMat sym r))) /\ In q2 (gStar G (gPoint G (gB2S G (fst (ofMat sym c))))).
Proof.
  intros G sym L chunks Hch p. pose proof (localPairs_NoDup G sym (chunks p)) as Nd. pose proof (flatPairs_matrix _ Nd) as P1. pose proof (flatPairsRow_matrix _ Nd) as P2.
  split; [rewrite P1, P2; apply Permutation_refl|]. split; [apply (Permutation_NoDup (Permutation_sym P1)); exact Nd|]. intros q1 q2. split.
  - intro H. apply (Permutation_in _ P1) in H. apply localPairs_In in H as ([r c] & Ht & E1 & E2). apply (Permutation_in _ (Hch p)) in Ht. exists r, c. auto.
  - intros (r & c & Ht & E1 & E2). apply (Permutation_in _ (Permutation_sym P1)). apply localPairs_In. exists (r, c). split; [apply (Permutation_in _ (Permutation_sym (Hch p))); exact Ht|]. auto.
Qed.
Print Assumptions C34_matrix_pairs.
(** all members of a pool get lists of the same length: their own pairs, then dummies, no longer than needed *)
Theorem C34_pools_in_step : forall pool, zlen (padPool pool) = zlen pool /\
  (forall l l', In l (padPool pool) -> In l' (padPool pool) -> zlen l = zlen l') /\
  (forall m l, zget pool m = Some l -> exists n, zget (padPool pool) m = Some (l ++ repeat ([-1], -1) n)) /\
  (forall l, In l (padPool pool) -> exists l', In l' pool /\ zlen l' = zlen l).
Proof. exact padPool_spec. Qed.
Print Assumptions C34_pools_in_step.
Theorem C34_dummies_skipped : forall ev pool, map (rankEventsRow ev) (padPool pool) = map (rankEventsRow ev) pool.
Proof. exact padPool_events. Qed.
Print Assumptions C34_dummies_skipped.
(** phonon-electron scattering divides the k points without padding: two members of a pool get different numbers of collective calls *)
Theorem C34_phonon_electron_refuted : exists equiv q3 l l', map (fun r => phelPairs q3 (parallelIrr equiv r 2)) (zrange 0 2) = [l; l'] /\ zlen l <> zlen l' /\ flat_map (fun r => parallelIrr equiv r 2) (zrange 0 2) = irrList equiv.
Proof. exists [0; 1; 2], [0; 1]. eexists _, _. split; [reflexivity|]. split; [vm_compute; discriminate|reflexivity]. Qed.
Print Assumptions C34_phonon_electron_refuted.
Example C34_ex : fits (gPts exGrid) 2 /\ concat [[0]; [1]] = gIrr exGrid /\
  mapM (fun r => dotPairs exGrid r 2) (zrange 0 2) = Ok [[([0; 1], 0)]; [([0; 1], 1); ([0; 1], 2)]] /\
  padPool [[([0; 1], 0)]; [([0; 1], 1); ([0; 1], 2)]] = [[([0; 1], 0); ([-1], -1)]; [([0; 1], 1); ([0; 1], 2)]].
Proof. split; [unfold fits; cbn; lia|]. split; [reflexivity|]. split; reflexivity. Qed.

(** * C35: diagonal plus off-diagonal *)
Theorem C35_memory : forall G ev excl bnd sym L chunks chunks' evs, goodGrid G -> goodEvents G ev -> avoids excl ev -> (sym = false -> unrotated ev) ->
  fullMatrix G sym L -> splitElements L chunks -> splitElements L chunks' ->
  evs = matrixEvents G sym ev chunks \/ evs = matrixEventsRow G sym ev chunks ->
  forall x i b, 0 <= i < 3 -> 0 <= b < gN G -> let A := buildInMemory sym excl (gN G) bnd L (processes L) evs in
  (memOffDiagonalDot sym A (processes L) chunks' x i b + imDiag A b * x i b = memDot sym excl A (processes L) chunks' x i b)%Qc.
Proof.
  intros G ev excl bnd sym L chunks chunks' evs H1 H2 H3 H4 H5 H6 H7 H8 x i b Hi Hb A. unfold A.
  rewrite (memOff G H1 ev H2 excl H3 bnd sym H4 L H5 chunks chunks' H6 H7 evs H8 x i b Hi Hb). symmetry. apply (memDot_collision G H1 ev H2 excl H3 bnd sym H4 L H5 chunks chunks' H6 H7 evs H8 x i b Hi Hb).
Qed.
Print Assumptions C35_memory.
Theorem C35_on_the_fly : forall diag excl bnd evs x i b, (flyOffDiagonalDot diag excl bnd evs x i b + diag b * x i b = flyDot excl bnd evs x i b)%Qc.
Proof. intros. unfold flyOffDiagonalDot. ring. Qed.
Print Assumptions C35_on_the_fly.
(** the two modes do not have the same off-diagonal part when bands are degenerate: matrix-free linewidths are averaged over
    degenerate bands, those of the stored matrix are not *)
Definition degGrid : grid := {| gN := 2; gPts := 1; gIrr := [0]; gStar := fun _ => [0]; gB2S := fun b => b; gS2B := fun s => s; gPoint := fun _ => 0 |}.
Definition degEvents (iq1 iq2 : Z) : list event :=
  [{| evIs1 := 0; evBte1 := 0; evIs2Irr := 1; evBte2 := 1; evRot := fun i j => if i =? j then 1%Qc else 0%Qc; evOff := q 3; evParts := [(q 4, false)] |}].
Definition degEn (_ : Z) : list Qc := [q 1; q 1].
Theorem C35_modes_differ_refuted : exists L evs chunks, fullMatrix degGrid false L /\ splitElements L chunks /\ evs = matrixEvents degGrid false degEvents chunks /\
  goodGrid degGrid /\ goodEvents degGrid degEvents /\ unrotated degEvents /\
  exists x, memOffDiagonalDot false (buildInMemory false [] 2 (fun _ => 0%Qc) L (processes L) evs) (processes L) chunks x 0 0 = q 3 /\
  flyOffDiagonalDot (flyLinewidths [] (fun _ => 0%Qc) (averageLinewidths [0] degEn (fun _ ib => ib)) [allEvents degGrid degEvents]) [] (fun _ => 0%Qc) [allEvents degGrid degEvents] x 0 0 = q 5.
Proof.
  destruct (C33_setup_layout degGrid false 1 ltac:(reflexivity) ltac:(lia)) as (L & E & F & _). vm_compute in E. injection E as <-.
  eexists _, _, (fun p => [getAllLocalStates _ p]). split; [exact F|]. split; [intro p; cbn [concat]; rewrite app_nil_r; apply Permutation_refl|]. split; [reflexivity|].
  split. { unfold goodGrid, degGrid. cbn [gN gPts gIrr gStar gB2S gS2B gPoint]. split; [lia|]. split; [lia|]. split; [repeat constructor; cbn; lia|]. split; [apply Permutation_refl|]. split; [intros k Hk; exact Hk|]. intros b Hb. cbn [In]. lia. }
  split. { intros iq1 iq2 k e H1 Hk H2 [<-|[]]. cbn [degGrid gN gB2S gPoint gIrr In evBte1 evBte2 evIs1 evIs2Irr] in *. lia. }
  split. { intros iq1 iq2 e i j [<-|[]] Hi Hj. reflexivity. }
  exists (fun _ _ => 1%Qc). split; apply Qc_is_canon; vm_compute; reflexivity.
Qed.
Print Assumptions C35_modes_differ_refuted.

(** * C36: couplings of degenerate bands *)
Theorem C36_average_over_blocks : forall e1 e2 e3, ascending e1 -> ascending e2 -> ascending e3 -> separated e1 -> separated e2 -> separated e3 ->
  forall c b1 b2 b3, 0 <= b1 < zlen e1 -> 0 <= b2 < zlen e2 -> 0 <= b3 < zlen e3 ->
  let s := symmetrizeCoupling e1 e2 e3 in
  s c b1 b2 b3 = (blockSum e1 e2 e3 c b1 b2 b3 / Q2Qc (inject_Z (blockCount e1 e2 e3 b1 b2 b3)))%Qc /\
  (forall b1' b2' b3', In b1' (degenerate e1 b1) -> In b2' (degenerate e2 b2) -> In b3' (degenerate e3 b3) -> s c b1' b2' b3' = s c b1 b2 b3) /\
  blockSum e1 e2 e3 (s c) b1 b2 b3 = blockSum e1 e2 e3 c b1 b2 b3 /\
  s (s c) b1 b2 b3 = s c b1 b2 b3.
Proof.
  intros e1 e2 e3 A1 A2 A3 S1 S2 S3 c b1 b2 b3 H1 H2 H3 s. unfold s. split; [apply symmetrize_block; assumption|]. split; [intros; apply symmetrize_equal; assumption|].
  split; [apply symmetrize_sum; assumption|apply symmetrize_twice; assumption].
Qed.
Print Assumptions C36_average_over_blocks.
(** degeneracies that chain: bands 1 and 2 are closer than the tolerance and get different couplings *)
Theorem C36_chain_refuted : exists e1 c, ascending e1 /\ In 2 (degenerate e1 1) /\ symmetrizeCoupling e1 [q 0] [q 0] c 1 0 0 <> symmetrizeCoupling e1 [q 0] [q 0] c 2 0 0.
Proof.
  exists [Q2Qc (0 # 1); Q2Qc (7 # 10000000); Q2Qc (14 # 10000000)], (fun b1 _ _ => if b1 =? 0 then q 1 else 0%Qc). split; [|split].
  - intros b b' x y Hx Hy Hle. destruct (zget_Some _ _ _ Hx) as [Rx _]. destruct (zget_Some _ _ _ Hy) as [Ry _]. unfold zlen in Rx, Ry. cbn [length] in Rx, Ry.
    assert (C : (b = 0 \/ b = 1 \/ b = 2) /\ (b' = 0 \/ b' = 1 \/ b' = 2)) by lia. destruct C as [[->|[->| ->]] [->|[->| ->]]]; try lia; injection Hx as <-; injection Hy as <-; vm_compute; discriminate.
  - vm_compute. tauto.
  - intro C. apply (f_equal this) in C. vm_compute in C. discriminate.
Qed.
Print Assumptions C36_chain_refuted.
Example C36_ex : let e := [q 0; q 1; q 1] in ascending e /\ separated e /\ degenerate e 2 = [1; 2] /\ degenerate e 0 = [0] /\
  symmetrizeCoupling e [q 0] [q 5; q 5] (fun b1 b2 b3 => q (b1 + 10 * b3)) 2 0 0 = Q2Qc (13 # 2).
Proof.
  cbv zeta. assert (K : forall b x, zget [q 0; q 1; q 1] b = Some x -> (b = 0 /\ x = q 0) \/ (0 < b /\ x = q 1)).
  { intros b x Hx. destruct (zget_Some _ _ _ Hx) as [Rx _]. unfold zlen in Rx. cbn [length] in Rx. assert (C : b = 0 \/ b = 1 \/ b = 2) by lia. destruct C as [->|[->| ->]]; injection Hx as <-; [left|right|right]; split; (lia || reflexivity). }
  split; [|split; [|split; [|split]]].
  - intros b b' x y Hx Hy Hle. destruct (K _ _ Hx) as [[? ->]|[? ->]], (K _ _ Hy) as [[? ->]|[? ->]]; try lia; vm_compute; discriminate.
  - intros a b c Ha Hb Hc. cbn [In] in Ha, Hb, Hc. destruct Ha as [<-|[<-|[<-|[]]]], Hb as [<-|[<-|[<-|[]]]], Hc as [<-|[<-|[<-|[]]]]; intros N1 N2; vm_compute in N1, N2; try discriminate; vm_compute; reflexivity.
  - vm_compute. reflexivity.
  - vm_compute. reflexivity.
  - apply Qc_is_canon. vm_compute. reflexivity.
Qed.

(** * C37: linewidths of degenerate bands *)
Theorem C37_average_partial : forall irr en bte, distinctStates irr en bte -> forall lw ik ib e, In ik irr -> separated (en ik) -> zget (en ik) ib = Some e ->
  let out := averageAll irr en bte lw 0 in
  (forall ib' e', zget (en ik) ib' = Some e' -> nearDeg e' e = true -> out (bte ik ib') = out (bte ik ib)) /\
  groupSum en bte out ik e = groupSum en bte (lw 0) ik e /\
  ((forall ib' e', zget (en ik) ib' = Some e' -> nearDeg e' e = true -> ib' = ib) -> out (bte ik ib) = lw 0 (bte ik ib)).
Proof. intros irr en bte D lw ik ib e Hik S He out. unfold out, averageAll. cbn [Z.eqb]. apply average_spec; assumption. Qed.
Print Assumptions C37_average_partial.
From Coq Require Lqa.
(** Bands are degenerate when their energies differ by less than 1e-6 Ry. *)
Theorem C37_threshold : forall a b, nearDeg a b = true <-> (- Q2Qc (1 # 1000000) < a - b)%Qc /\ (a - b < Q2Qc (1 # 1000000))%Qc.
Proof.
  intros a b. unfold nearDeg, qltb. destruct (Qclt_le_dec (a - b) (Q2Qc (1 # 1000000))) as [A|A], (Qclt_le_dec (b - a) (Q2Qc (1 # 1000000))) as [B|B]; cbn [andb].
  - split; [intros _|reflexivity]. split; [|exact A]. replace (a - b)%Qc with (- (b - a))%Qc by ring. unfold Qclt in *. cbn [this Qcopp Q2Qc] in *. rewrite !Qred_correct in *. Lqa.lra.
  - split; [discriminate|]. intros [C _]. exfalso. apply (Qcle_not_lt _ _ B). replace (b - a)%Qc with (- (a - b))%Qc by ring. unfold Qclt in *. cbn [this Qcopp Q2Qc] in *. rewrite !Qred_correct in *. Lqa.lra.
  - split; [discriminate|]. intros [_ C]. exfalso. exact (Qcle_not_lt _ _ A C).
  - split; [discriminate|]. intros [_ C]. exfalso. exact (Qcle_not_lt _ _ A C).
Qed.
Print Assumptions C37_threshold.
(** missing: the other temperatures and chemical potentials are not averaged *)
Theorem C37_second_calculation_refuted : exists irr en bte lw, distinctStates irr en bte /\ separated (en 0) /\ nearDeg (q 1) (q 1) = true /\ en 0 = [q 1; q 1] /\ In 0 irr /\
  averageAll irr en bte lw 1 (bte 0 0) <> averageAll irr en bte lw 1 (bte 0 1).
Proof.
  exists [0], degEn, (fun _ ib => ib), (fun _ b => q b). split; [|split; [|split; [|split; [|split]]]].
  - split; [repeat constructor; cbn; tauto|]. intros a ib a' ib' Ha Ha' _ _ E. cbn [In] in Ha, Ha'. split; [lia|exact E].
  - intros a b c Ha Hb Hc _ _. cbn [degEn In] in *. destruct Ha as [<-|[<-|[]]], Hc as [<-|[<-|[]]]; vm_compute; reflexivity.
  - vm_compute. reflexivity.
  - reflexivity.
  - left. reflexivity.
  - intro C. apply (f_equal this) in C. vm_compute in C. discriminate.
Qed.
Print Assumptions C37_second_calculation_refuted.
(** and degeneracies that chain lose the sum of the linewidths *)
Theorem C37_chain_refuted : exists en lw, distinctStates [0] en (fun _ ib => ib) /\
  qsum (map (averageAll [0] en (fun _ ib => ib) lw 0) [0; 1; 2]) <> qsum (map (lw 0) [0; 1; 2]) /\ zlen (en 0) = 3.
Proof.
  exists (fun _ => [Q2Qc (0 # 1); Q2Qc (7 # 10000000); Q2Qc (14 # 10000000)]), (fun _ b => if b =? 0 then q 1 else 0%Qc). split; [|split; [|reflexivity]].
  - split; [repeat constructor; cbn; tauto|]. intros a ib a' ib' Ha Ha' _ _ E. cbn [In] in Ha, Ha'. split; [lia|exact E].
  - intro C. apply (f_equal this) in C. vm_compute in C. discriminate.
Qed.
Print Assumptions C37_chain_refuted.
Example C37_ex : averageAll [0; 1] degEn (fun ik ib => 2 * ik + ib) (fun _ b => q b) 0 3 = Q2Qc (5 # 2) /\ groupSum degEn (fun ik ib => 2 * ik + ib) q 1 (q 1) = q 5.
Proof. split; apply Qc_is_canon; vm_compute; reflexivity. Qed.

(** * C38: Umklapp and Normal linewidths *)
Theorem C38_sum_partial : forall irr en bte, distinctStates irr en bte -> forall excl bnd evs b, isIn excl b = false ->
  (fst (flyUN (averageLinewidths irr en bte) evs) b + snd (flyUN (averageLinewidths irr en bte) evs) b + bnd b = flyLinewidths excl bnd (averageLinewidths irr en bte) evs b)%Qc.
Proof. intros. apply flyUN_sum; assumption. Qed.
Print Assumptions C38_sum_partial.
(** the other calculations, without average *)
Theorem C38_sum_other_calculations : forall excl bnd evs b, isIn excl b = false ->
  (fst (flyUN (fun lw => lw) evs) b + snd (flyUN (fun lw => lw) evs) b + bnd b = flyLinewidths excl bnd (fun lw => lw) evs b)%Qc.
Proof. intros excl bnd evs b X. unfold flyUN, flyLinewidths, finishLinewidths. cbn [fst snd]. rewrite X, total1_un. reflexivity. Qed.
Print Assumptions C38_sum_other_calculations.
(** missing: with the matrix in memory they stay zero *)
Theorem C38_memory_refuted : exists L, fullMatrix degGrid false L /\
  imDiag (buildInMemory false [] 2 (fun _ => 0%Qc) L (processes L) (matrixEvents degGrid false degEvents (fun p => [getAllLocalStates L p]))) 0 = q 4 /\
  (fst memUN 0%Z + snd memUN 0%Z = 0)%Qc.
Proof.
  destruct (C33_setup_layout degGrid false 1 ltac:(reflexivity) ltac:(lia)) as (L & E & F & _). vm_compute in E. injection E as <-. eexists. split; [exact F|].
  split; apply Qc_is_canon; vm_compute; reflexivity.
Qed.
Print Assumptions C38_memory_refuted.
(** and a state excluded from the calculation keeps the Normal rate averaged from a degenerate band *)
Theorem C38_excluded_refuted : exists en bte, distinctStates [0] en bte /\ avoids [1] (fun _ _ => filter (fun e => negb (evBte2 e =? 1)) (degEvents 0 0)) /\
  let evs := [map (fun e => {| evIs1 := evIs1 e; evBte1 := evBte1 e; evIs2Irr := 0; evBte2 := 0; evRot := evRot e; evOff := evOff e; evParts := evParts e |}) (degEvents 0 0)] in
  flyLinewidths [1] (fun _ => 0%Qc) (averageLinewidths [0] en bte) evs 1 = 0%Qc /\ snd (flyUN (averageLinewidths [0] en bte) evs) 1 = q 2.
Proof.
  exists degEn, (fun _ ib => ib). split; [|split].
  - split; [repeat constructor; cbn; tauto|]. intros a ib a' ib' Ha Ha' _ _ E. cbn [In] in Ha, Ha'. split; [lia|exact E].
  - intros iq1 iq2 e He. cbn in He. destruct He.
  - cbv zeta. split; apply Qc_is_canon; vm_compute; reflexivity.
Qed.
Print Assumptions C38_excluded_refuted.
Example C38_ex : isIn [] 1 = false /\ fst (flyUN (fun lw => lw) [allEvents exGrid exEvents]) 1 = q 2 /\ snd (flyUN (fun lw => lw) [allEvents exGrid exEvents]) 1 = q 19 /\
  flyLinewidths [] (fun _ => q 7) (fun lw => lw) [allEvents exGrid exEvents] 1 = q 28.
Proof. split; [reflexivity|]. split; [|split]; apply Qc_is_canon; vm_compute; reflexivity. Qed.
