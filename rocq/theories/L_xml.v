From Coq Require Import QArith Lia List ZArith.
From Verif Require Import Base BaseLemmas M_context L_context M_points S_points L_points L_points2 M_xml S_xml L_mpi.
Import ListNotations.
Open Scope Z_scope.

Lemma toCrystal_cart B p k : ~ (det3 B == 0)%Q -> veq p (toCart B k) -> veq (toCrystal B p) k.
Proof.
  intros D (E0 & E1 & E2). unfold veq, toCrystal, toCart in *. cbn [c0 c1 c2] in *.
  rewrite E0, E1, E2. unfold det3 in *. repeat split; field; exact D.
Qed.

Lemma zget_nth {A} (l : list A) i d : 0 <= i < zlen l -> zget l i = Some (nth (Z.to_nat i) l d).
Proof.
  intros H. unfold zget. destruct (Z.ltb_spec i 0); [lia|]. apply nth_error_nth'. unfold zlen in H. lia.
Qed.
Lemma foldM_app_x {A S} (f : S -> A -> res S) a b s : foldM f (a ++ b) s = (do s' <- foldM f a s ; foldM f b s').
Proof. revert s; induction a as [|x a IH]; intros s; cbn; [reflexivity|]. destruct (f s x); cbn; [apply IH|reflexivity|reflexivity]. Qed.

(** writes at distinct places do not disturb each other *)
Lemma store_all p rows (idx : v3 * list Q -> Z) : (forall r, In r rows -> getIndex p (fst r) = Ok (idx r)) ->
  forall E, exists E', foldM (storeEnergies p) rows E = Ok E' /\
   (NoDup (map idx rows) -> forall r, In r rows -> E' (idx r) = Some (snd r)) /\
   (forall j, ~ In j (map idx rows) -> E' j = E j).
Proof.
  induction rows as [|r rows IH]; intros H E.
  - exists E. split; [reflexivity|]. split; [intros _ r []|reflexivity].
  - destruct (IH (fun x X => H x (or_intror X)) (fun j => if j =? idx r then Some (snd r) else E j)) as (E' & F & A & B).
    exists E'. split; [|split].
    + cbn [foldM]. assert (G : storeEnergies p E r = Ok (fun j => if j =? idx r then Some (snd r) else E j)) by (unfold storeEnergies; rewrite (H r (or_introl eq_refl)); reflexivity). rewrite G. cbn [bind]. exact F.
    + cbn [map]. intros N x [<-|X].
      * inversion N as [|? ? N1 N2]; subst. rewrite B by exact N1. rewrite Z.eqb_refl. reflexivity.
      * inversion N as [|? ? N1 N2]; subst. apply A; assumption.
    + cbn [map]. intros j Hj. rewrite B by (intros X; apply Hj; right; exact X).
      destruct (Z.eqb_spec j (idx r)) as [->|]; [exfalso; apply Hj; left; reflexivity|reflexivity].
Qed.

Lemma findIndex_spec x l : In x l -> exists k, findIndex x l = Some k /\ zget l k = Some x.
Proof.
  induction l as [|y l IH]; intros H; [destruct H|]. cbn [findIndex].
  destruct (streq y x) eqn:E.
  - apply streq_eq in E. subst. exists 0. split; [reflexivity|]. reflexivity.
  - destruct H as [->|H]; [exfalso; assert (streq x x = true) by (apply streq_eq; reflexivity); congruence|].
    destruct (IH H) as (k & -> & G). exists (k + 1). split; [reflexivity|].
    assert (0 <= k) by (unfold zget in G; destruct (Z.ltb_spec k 0); [discriminate|lia]).
    rewrite zget_consS by lia. replace (k + 1 - 1) with k by lia. exact G.
Qed.
Lemma findIndex_none x l : ~ In x l -> findIndex x l = None.
Proof.
  induction l as [|y l IH]; intros H; [reflexivity|]. cbn [findIndex].
  destruct (streq y x) eqn:E; [apply streq_eq in E; exfalso; apply H; left; auto|].
  rewrite IH by (intros X; apply H; right; exact X). reflexivity.
Qed.

Definition idOf (names : list str) (a : str * v3) : Z * v3 := (match findIndex (fst a) names with Some k => k | None => -1 end, snd a).
Lemma readAtom_ok names a : In (fst a) names -> readAtom names a = Ok (idOf names a).
Proof. intros H. unfold readAtom, idOf. destruct (findIndex_spec _ _ H) as (k & -> & _). reflexivity. Qed.

Definition rowOf (x : xml) (n : ksNode) : v3 * list Q :=
  (toCrystal (recCell x) (kPoint n), map (fun e => (e * 2)%Q) (firstn (Z.to_nat (nbnd x)) (eigenvalues n))).

Lemma newMesh_full m : posMesh m -> newMesh (m0 m) (m1 m) (m2 m) (off m) = Ok (fullMesh m).
Proof.
  intros (A & B & C). unfold newMesh.
  assert (X : forall o, badOffset o = false).
  { intros o. unfold badOffset, Qltb. destruct (Qle_bool 0 o) eqn:E1; [reflexivity|]. cbn [negb andb].
    destruct (Qle_bool 1 o) eqn:E2; [|reflexivity]. apply Qle_bool_iff in E2. exfalso.
    assert (0 <= o)%Q by (apply Qle_trans with 1%Q; [discriminate|exact E2]). apply Qle_bool_iff in H. congruence. }
  rewrite !X. destruct (Z.leb_spec (m0 m) 0); [lia|]. destruct (Z.leb_spec (m1 m) 0); [lia|]. destruct (Z.leb_spec (m2 m) 0); [lia|].
  unfold fullMesh, nodes. destruct m; reflexivity.
Qed.

Section Run.
Context (r : scfRun) (x : xml).
Hypothesis W : writes r x.
Lemma w_zip i : 0 <= i < zlen (rKs r) -> exists k e n, zget (rKs r) i = Some k /\ zget (rBands r) i = Some e /\ zget (ksEnergies x) i = Some n /\ veq (kPoint n) (toCart (recCell x) k) /\ eigenvalues n = e /\ zlen e = nbnd x /\ zlen (occupations n) = nbnd x.
Proof using W.
  intros H. destruct W as (D & L1 & L2 & L3 & Z).
  destruct (zget_inrange (rKs r) i H) as (k & K). destruct (zget_inrange (rBands r) i ltac:(lia)) as (e & Ee).
  destruct (zget_inrange (ksEnergies x) i ltac:(lia)) as (n & N). exists k, e, n. repeat (split; [assumption|]). exact (Z _ _ _ _ K Ee N).
Qed.
Lemma w_row i k e n : zget (rKs r) i = Some k -> zget (rBands r) i = Some e -> zget (ksEnergies x) i = Some n ->
  readKs x n = Ok (rowOf x n) /\ veq (fst (rowOf x n)) k /\ snd (rowOf x n) = rydberg e.
Proof using W.
  intros K Ee N. destruct W as (D & L1 & L2 & L3 & Z). destruct (Z _ _ _ _ K Ee N) as (V & X & Y & O).
  split; [|split].
  - unfold readKs, rowOf. rewrite X, O, Y, Z.ltb_irrefl. reflexivity.
  - apply toCrystal_cart; assumption.
  - unfold rowOf, rydberg. cbn [snd]. rewrite X. rewrite <- Y. unfold zlen. rewrite Nat2Z.id, firstn_all. reflexivity.
Qed.
Lemma in_zget {A} (l : list A) a : In a l -> exists i, 0 <= i < zlen l /\ zget l i = Some a.
Proof.
  clear. intros H. apply In_nth_error in H. destruct H as (n & H). exists (Z.of_nat n). unfold zlen, zget.
  assert (n < length l)%nat by (apply nth_error_Some; congruence). split; [lia|].
  destruct (Z.ltb_spec (Z.of_nat n) 0); [lia|]. rewrite Nat2Z.id. exact H.
Qed.
Lemma zget_in {A} (l : list A) i a : zget l i = Some a -> In a l /\ 0 <= i < zlen l.
Proof.
  clear. unfold zget, zlen. destruct (Z.ltb_spec i 0); [discriminate|]. intros E. split; [apply nth_error_In in E; exact E|].
  assert (Z.to_nat i < length l)%nat by (apply nth_error_Some; congruence). lia.
Qed.
Lemma w_points : readPoints x = Ok (map (rowOf x) (ksEnergies x)).
Proof using W.
  unfold readPoints. rewrite (mapM_ok (readKs x) (rowOf x)).
  - cbn [bind]. destruct W as (D & L1 & L2 & L3 & Z). unfold zlen at 1 2. rewrite map_length. fold (zlen (ksEnergies x)). rewrite L2, L3, Z.ltb_irrefl, Z.sub_diag.
    cbn [Z.to_nat repeat]. rewrite app_nil_r. reflexivity.
  - intros n N. destruct (in_zget _ _ N) as (i & I & G). assert (H := W). destruct H as (D & L1 & L2 & L3 & Z).
    destruct (w_zip i ltac:(lia)) as (k & e & n' & K & Ee & N' & _). assert (n' = n) by congruence. subst n'. apply (w_row i k e n K Ee N').
Qed.
Context (m : mesh).
Hypothesis P : posMesh m.
Hypothesis S0 : m0 m < 1000000.
Hypothesis S1 : m1 m < 1000000.
Hypothesis S2 : m2 m < 1000000.
Hypothesis SO : smallOffset m.
Hypothesis LM : listsMesh m (rKs r).
Let rows := map (rowOf x) (ksEnergies x).
Lemma w_lists : listsMesh m (map fst rows).
Proof using W LM.
  destruct LM as (L & A & B). assert (H := W). destruct H as (D & L1 & L2 & L3 & Z). split; [|split].
  - unfold rows, zlen. rewrite !map_length. fold (zlen (ksEnergies x)). lia.
  - intros v V. unfold rows in V. rewrite map_map in V. apply in_map_iff in V. destruct V as (n & <- & N).
    destruct (in_zget _ _ N) as (i & I & G). destruct (w_zip i ltac:(lia)) as (k & e & n' & K & Ee & N' & _). assert (n' = n) by congruence. subst n'.
    destruct (w_row i k e n K Ee N') as (_ & V & _). destruct (A k (proj1 (zget_in _ _ _ K))) as (i0 & j0 & k0 & I0 & J0 & K0 & SW).
    exists i0, j0, k0. repeat (split; [assumption|]). exact (same_veq _ _ _ V SW).
  - intros i0 j0 k0 I0 J0 K0. destruct (B i0 j0 k0 I0 J0 K0) as (k & In & SW). destruct (in_zget _ _ In) as (i & I & G).
    destruct (w_zip i I) as (k' & e & n & K & Ee & N' & _). assert (k' = k) by congruence. subst k'.
    destruct (w_row i k e n K Ee N') as (_ & V & _). exists (fst (rowOf x n)). split.
    + unfold rows. rewrite map_map. apply in_map_iff. exists n. split; [reflexivity|]. exact (proj1 (zget_in _ _ _ N')).
    + exact (same_veq _ _ _ V SW).
Qed.
Lemma grid_off o v i j k : veq o (off m) -> sameWavevector v (gridNode m i j k) -> sameWavevector v (gridNode (Mesh (m0 m) (m1 m) (m2 m) o) i j k).
Proof using.
  clear. intros (E0 & E1 & E2) (a & b & c & (F0 & F1 & F2)). exists a, b, c. unfold veq, vsub, gridNode in *. cbn [c0 c1 c2 m0 m1 m2 off] in *.
  rewrite E0, E1, E2. repeat split; assumption.
Qed.
Lemma grid_off' o v i j k : veq o (off m) -> sameWavevector v (gridNode (Mesh (m0 m) (m1 m) (m2 m) o) i j k) -> sameWavevector v (gridNode m i j k).
Proof using.
  clear. intros (E0 & E1 & E2) (a & b & c & (F0 & F1 & F2)). exists a, b, c. unfold veq, vsub, gridNode in *. cbn [c0 c1 c2 m0 m1 m2 off] in *.
  rewrite <- E0, <- E1, <- E2. repeat split; assumption.
Qed.

Definition idxOf (M : mesh) (row : v3 * list Q) : Z := match getIndex (fullMesh M) (fst row) with Ok i => i | _ => -1 end.
Lemma w_store : exists o E, veq o (off m) /\ findMesh (map fst rows) = Ok (Mesh (m0 m) (m1 m) (m2 m) o) /\ let M := Mesh (m0 m) (m1 m) (m2 m) o in
  newMesh (m0 m) (m1 m) (m2 m) o = Ok (fullMesh M) /\ foldM (storeEnergies (fullMesh M)) rows (fun _ => None) = Ok E /\ (forall row, In row rows -> exists ik, 0 <= ik < nodes m /\ sameWavevector (fst row) (meshCoordinates M ik) /\ E ik = Some (snd row)) /\ (forall ik, 0 <= ik < nodes m -> exists row, In row rows /\ sameWavevector (fst row) (meshCoordinates M ik) /\ E ik = Some (snd row)) /\ (forall ik, ~ 0 <= ik < nodes m -> E ik = None).
Proof using W LM P S0 S1 S2 SO.
  destruct (findMesh_spec m (map fst rows) P S0 S1 S2 SO w_lists) as (o & F & V). set (M := Mesh (m0 m) (m1 m) (m2 m) o) in *.
  assert (PM : posMesh M) by exact P.
  assert (H1 : forall row, In row rows -> exists ik, getIndex (fullMesh M) (fst row) = Ok ik /\ 0 <= ik < nodes m /\ sameWavevector (fst row) (meshCoordinates M ik)).
  { intros row R. destruct w_lists as (_ & A & _). destruct (A (fst row) (in_map fst _ _ R)) as (i & j & k & I & J & K & SW).
    apply (grid_off o) in SW; [|exact V]. fold M in SW. destruct (getIndex_any_node M i j k PM) as (ik & G & R' & SW').
    assert (SW2 := sameWavevector_trans _ _ _ SW SW'). exists ik. split; [|split; [exact R'|exact SW2]]. apply getIndex_full; assumption. }
  destruct (store_all (fullMesh M) rows (idxOf M)) with (E := fun _ : Z => @None (list Q)) as (E & HE & A & B).
  { intros row R. unfold idxOf. destruct (H1 row R) as (ik & -> & _). reflexivity. }
  assert (SU : forall ik, 0 <= ik < nodes m -> exists row, In row rows /\ idxOf M row = ik /\ sameWavevector (fst row) (meshCoordinates M ik)).
  { intros ik I. destruct (meshIndex_decode M ik PM I) as (i & j & k & Hi & Hj & Hk & E').
    destruct w_lists as (_ & _ & C). destruct (C i j k Hi Hj Hk) as (v & Hv & SW). apply in_map_iff in Hv. destruct Hv as (row & <- & R).
    apply (grid_off o) in SW; [|exact V]. fold M in SW.
    assert (SW2 : sameWavevector (fst row) (meshCoordinates M ik)) by (rewrite E', meshCoordinates_node by assumption; exact SW).
    exists row. split; [exact R|]. split; [|exact SW2]. unfold idxOf. rewrite (getIndex_full M _ ik PM I SW2). reflexivity. }
  assert (ND : NoDup (map (idxOf M) rows)).
  { apply (@NoDup_incl_NoDup Z (zrange 0 (nodes m))).
    - unfold zrange. apply FinFun.Injective_map_NoDup; [intros a b; lia|apply seq_NoDup].
    - assert (L := zlen_zrange 0 (nodes m)). destruct w_lists as (L' & _). unfold zlen in *. rewrite map_length in *.
      destruct P as (P0 & P1 & P2). assert (0 <= nodes m) by (unfold nodes; nia). lia.
    - intros ik I. apply in_zrange in I. destruct (SU ik ltac:(lia)) as (row & R & <- & _). apply in_map. exact R. }
  exists o, E. split; [exact V|]. split; [exact F|]. cbn zeta. fold M. split; [exact (newMesh_full M PM)|]. split; [exact HE|]. split; [|split].
  - intros row R. destruct (H1 row R) as (ik & G & I & SW). exists ik. split; [exact I|]. split; [exact SW|].
    rewrite <- (A ND row R). unfold idxOf. rewrite G. reflexivity.
  - intros ik I. destruct (SU ik I) as (row & R & <- & SW). exists row. split; [exact R|]. split; [exact SW|]. apply A; assumption.
  - intros ik I. rewrite B; [reflexivity|]. intros H. apply in_map_iff in H. destruct H as (row & <- & R). destruct (H1 row R) as (i' & G & I' & _).
    apply I. unfold idxOf. rewrite G. exact I'.
Qed.
End Run.

Lemma mapM_ok_inv {A B} (f : A -> res B) l : forall l', mapM f l = Ok l' ->
  zlen l' = zlen l /\ forall i a, zget l i = Some a -> exists b, zget l' i = Some b /\ f a = Ok b.
Proof.
  induction l as [|x l IH]; intros l' H; cbn [mapM] in H.
  - injection H as <-. split; [reflexivity|]. intros i a G. unfold zget in G. destruct (i <? 0); [discriminate|]. destruct (Z.to_nat i); discriminate.
  - destruct (f x) as [b| |] eqn:E; try discriminate. cbn [bind] in H. destruct (mapM f l) as [t| |]; try discriminate. cbn [bind] in H.
    injection H as <-. destruct (IH t eq_refl) as (L & G). split; [unfold zlen in *; cbn [length]; lia|].
    intros i a Z. destruct (Z.eq_dec i 0) as [->|N].
    + exists b. cbn in *. injection Z as <-. split; [reflexivity|exact E].
    + assert (0 <= i) by (unfold zget in Z; destruct (Z.ltb_spec i 0); [discriminate|lia]).
      rewrite zget_consS in Z by lia. destruct (G _ _ Z) as (c & G1 & G2). exists c. rewrite zget_consS by lia. split; assumption.
Qed.
Lemma findIndex_some x l k : findIndex x l = Some k -> zget l k = Some x.
Proof.
  intros H. destruct (in_dec (list_eq_dec Ascii.ascii_dec) x l) as [I|I].
  - destruct (findIndex_spec x l I) as (k' & E & G). congruence.
  - rewrite findIndex_none in H by exact I. discriminate.
Qed.
Lemma readPoints_len x rows : 0 <= nks x -> readPoints x = Ok rows -> zlen rows = nks x.
Proof.
  intros N. unfold readPoints. destruct (mapM _ _) as [t| |]; try discriminate. cbn [bind]. destruct (Z.ltb_spec (nks x) (zlen t)); [discriminate|].
  intros E. injection E as <-. unfold zlen in *. rewrite app_length, repeat_length. lia.
Qed.
Lemma findMesh_len l m : findMesh l = Ok m -> zlen l = nodes m.
Proof.
  unfold findMesh. destruct (findMesh1 (map c0 l)) as [a| |]; try discriminate. destruct (findMesh1 (map c1 l)) as [b| |]; try discriminate.
  destruct (findMesh1 (map c2 l)) as [c| |]; try discriminate. cbn [bind]. destruct (Z.eqb_spec (zlen l) (fst a * fst b * fst c)); [|discriminate].
  intros E. injection E as <-. assumption.
Qed.
