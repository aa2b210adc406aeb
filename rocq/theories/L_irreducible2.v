From Coq Require Import QArith Lqa Permutation.
From Verif Require Import Base BaseLemmas M_utilities M_mpi S_mpi L_mpi L_fill M_points S_points L_points L_search L_points2
  M_irreducible S_irreducible L_irreducible.
Open Scope Z_scope.

(** * the mesh realises the action *)
Lemma mv_veq A a b : veq a b -> veq (mv A a) (mv A b).
Proof. intros (H0 & H1 & H2). unfold mv, dot3. split; [|split]; cbn; rewrite H0, H1, H2; reflexivity. Qed.

Lemma dot3_int a b : intVec a -> intVec b -> exists n, (dot3 a b == inject_Z n)%Q.
Proof.
  intros (x0 & x1 & x2 & X0 & X1 & X2) (y0 & y1 & y2 & Y0 & Y1 & Y2). cbn in *.
  exists (x0 * y0 + x1 * y1 + x2 * y2). unfold dot3. rewrite X0, X1, X2, Y0, Y1, Y2.
  rewrite !inject_Z_plus, !inject_Z_mult. reflexivity.
Qed.
Lemma mv_int A v : intMat A -> intVec v -> intVec (mv A v).
Proof.
  intros (H0 & H1 & H2) V. destruct (dot3_int _ _ H0 V) as (a & Ea). destruct (dot3_int _ _ H1 V) as (b & Eb).
  destruct (dot3_int _ _ H2 V) as (c & Ec). exists a, b, c. unfold mv. split; [|split]; cbn; assumption.
Qed.
Lemma mv_vsub A a b : veq (mv A (vsub a b)) (vsub (mv A a) (mv A b)).
Proof. unfold mv, vsub, dot3. split; [|split]; cbn; ring. Qed.
Lemma intVec_veq a b : veq a b -> intVec a -> intVec b.
Proof.
  intros (H0 & H1 & H2) (x & y & z & X & Y & Z0). cbn in *. exists x, y, z.
  split; [|split]; cbn; [rewrite <- H0|rewrite <- H1|rewrite <- H2]; assumption.
Qed.
Lemma mv_same A a b : intMat A -> sameWavevector a b -> sameWavevector (mv A a) (mv A b).
Proof. intros HA H. unfold sameWavevector in *. eapply intVec_veq; [apply mv_vsub|]. apply mv_int; assumption. Qed.

Lemma meshCoordinates_some_node m ik : posMesh m -> 0 <= ik < nodes m ->
  exists i j k, meshCoordinates m ik = gridNode m i j k.
Proof.
  intros P H. destruct (meshIndex_decode m ik P H) as (i & j & k & Hi & Hj & Hk & ->).
  exists i, j, k. apply meshCoordinates_node; assumption.
Qed.

Lemma rotIndex_mesh m syms A ik : posMesh m -> meshSymmetric m syms -> In A syms -> 0 <= ik < nodes m ->
  exists j, rotIndex (fullMesh m) A ik = Ok j /\ 0 <= j < nodes m /\
    sameWavevector (mv A (meshCoordinates m ik)) (meshCoordinates m j).
Proof.
  intros P HS IA Hi. destruct (meshCoordinates_some_node m ik P Hi) as (a & b & c & E).
  destruct (HS A a b c IA) as (a' & b' & c' & S').
  unfold rotIndex. cbn [getPointCoordinates fullMesh explicitlyStored bind pmesh isPointStored negb].
  rewrite E. eexists. split; [reflexivity|]. rewrite (isPointStoredMesh_node m _ a' b' c' P S').
  assert (R0 : 0 <= a' mod m0 m < m0 m) by (apply Z.mod_pos_bound, P).
  assert (R1 : 0 <= b' mod m1 m < m1 m) by (apply Z.mod_pos_bound, P).
  assert (R2 : 0 <= c' mod m2 m < m2 m) by (apply Z.mod_pos_bound, P).
  split; [apply nodeIndex_range; assumption|].
  rewrite meshCoordinates_node by assumption. eapply sameWavevector_trans; [exact S'|]. apply gridNode_fold; assumption.
Qed.

Lemma rotIndex_unique m syms A i j : posMesh m -> meshSymmetric m syms -> In A syms -> 0 <= i < nodes m -> 0 <= j < nodes m ->
  (rotIndex (fullMesh m) A i = Ok j <-> sameWavevector (mv A (meshCoordinates m i)) (meshCoordinates m j)).
Proof.
  intros P HS IA Hi Hj. destruct (rotIndex_mesh m syms A i P HS IA Hi) as (j' & E & Hj' & S').
  split.
  - intro E'. rewrite E in E'. injection E' as <-. assumption.
  - intro S. rewrite E. f_equal. apply (mesh_distinct m); [assumption..|].
    eapply sameWavevector_trans; [apply sameWavevector_sym; exact S'|exact S].
Qed.

Lemma mesh_acts m syms : posMesh m -> group syms -> meshSymmetric m syms ->
  acts (rotIndex (fullMesh m)) syms (nodes m).
Proof.
  intros P (HI & (E & IE & HE) & HC & HV) HS.
  assert (IM : forall A, In A syms -> intMat A) by (apply Forall_forall; assumption).
  split; [|split; [|split]].
  - intros A i IA Hi. destruct (rotIndex_mesh m syms A i P HS IA Hi) as (j & Ej & Hj & _). exists j. split; [assumption|right; assumption].
  - intros i Hi. exists E. split; [assumption|]. apply (rotIndex_unique m syms); try assumption. apply veq_same, HE.
  - intros i j Hi Hj (A & IA & EA). apply (rotIndex_unique m syms) in EA; try assumption.
    destruct (HV A IA) as (B & IB & HB). exists B. split; [assumption|]. apply (rotIndex_unique m syms); try assumption.
    eapply sameWavevector_trans; [apply mv_same; [apply IM; assumption|apply sameWavevector_sym; exact EA]|].
    apply veq_same, HB.
  - intros i j k Hi Hj Hk (A & IA & EA) (B & IB & EB).
    apply (rotIndex_unique m syms) in EA; try assumption. apply (rotIndex_unique m syms) in EB; try assumption.
    destruct (HC B A IB IA) as (C & IC & HC'). exists C. split; [assumption|]. apply (rotIndex_unique m syms); try assumption.
    eapply same_veq; [apply HC'|]. eapply sameWavevector_trans; [|exact EB]. apply mv_same; [apply IM; assumption|assumption].
Qed.

Lemma cubic_symmetric m syms : posMesh m -> gammaMesh m -> m0 m = m1 m -> m1 m = m2 m -> Forall intMat syms -> meshSymmetric m syms.
Proof.
  intros (P0 & P1 & P2) (G0 & G1 & G2) E1 E2 HI A i j k IA. rewrite Forall_forall in HI. specialize (HI A IA).
  assert (V : intVec (V3 (inject_Z i) (inject_Z j) (inject_Z k))) by (exists i, j, k; repeat split).
  destruct (mv_int A _ HI V) as (i' & j' & k' & H0 & H1 & H2). exists i', j', k'.
  apply veq_same. unfold gridNode, mv, dot3 in *. rewrite <- E2, <- E1. cbn [c0 c1 c2] in *.
  assert (N : ~ (inject_Z (m0 m) == 0)%Q) by (apply injZ_neq; lia).
  split; [|split]; cbn [c0 c1 c2]; rewrite ?G0, ?G1, ?G2, <- ?H0, <- ?H1, <- ?H2; field; assumption.
Qed.

(** * inverses *)
Lemma left_inverse_det A B : (forall v, veq (mv B (mv A v)) v) -> ~ (det3 A == 0)%Q.
Proof.
  intros H D.
  destruct (H (V3 1 0 0)) as (X0 & X1 & X2). destruct (H (V3 0 1 0)) as (Y0 & Y1 & Y2). destruct (H (V3 0 0 1)) as (Z0 & Z1 & Z2).
  unfold mv, dot3 in *. cbn [c0 c1 c2 r0 r1 r2] in *. unfold det3 in D.
  destruct A as [[a b c] [d e f] [g h i]], B as [[a' b' c'] [d' e' f'] [g' h' i']]. cbn [c0 c1 c2 r0 r1 r2] in *.
  assert (K : ((a' * (e' * i' - f' * h') - b' * (d' * i' - f' * g') + c' * (d' * h' - e' * g')) *
     (a * (e * i - f * h) - b * (d * i - f * g) + c * (d * h - e * g)) == 1)%Q).
  { set (x00 := (a' * a + b' * d + c' * g)%Q). set (x01 := (a' * b + b' * e + c' * h)%Q). set (x02 := (a' * c + b' * f + c' * i)%Q).
    set (x10 := (d' * a + e' * d + f' * g)%Q). set (x11 := (d' * b + e' * e + f' * h)%Q). set (x12 := (d' * c + e' * f + f' * i)%Q).
    set (x20 := (g' * a + h' * d + i' * g)%Q). set (x21 := (g' * b + h' * e + i' * h)%Q). set (x22 := (g' * c + h' * f + i' * i)%Q).
    transitivity (x00 * (x11 * x22 - x12 * x21) - x01 * (x10 * x22 - x12 * x20) + x02 * (x10 * x21 - x11 * x20))%Q.
    - subst x00 x01 x02 x10 x11 x12 x20 x21 x22. ring.
    - assert (E00 : (x00 == 1)%Q) by (subst x00; rewrite <- X0; ring). assert (E10 : (x10 == 0)%Q) by (subst x10; rewrite <- X1; ring).
      assert (E20 : (x20 == 0)%Q) by (subst x20; rewrite <- X2; ring). assert (E01 : (x01 == 0)%Q) by (subst x01; rewrite <- Y0; ring).
      assert (E11 : (x11 == 1)%Q) by (subst x11; rewrite <- Y1; ring). assert (E21 : (x21 == 0)%Q) by (subst x21; rewrite <- Y2; ring).
      assert (E02 : (x02 == 0)%Q) by (subst x02; rewrite <- Z0; ring). assert (E12 : (x12 == 0)%Q) by (subst x12; rewrite <- Z1; ring).
      assert (E22 : (x22 == 1)%Q) by (subst x22; rewrite <- Z2; ring).
      rewrite E00, E01, E02, E10, E11, E12, E20, E21, E22. ring. }
  rewrite D in K. rewrite Qmult_0_r in K. discriminate K.
Qed.
Lemma inv3_left A v : ~ (det3 A == 0)%Q -> veq (mv (inv3 A) (mv A v)) v.
Proof.
  intro D. destruct A as [[a b c] [d e f] [g h i]], v as [x y z]. unfold inv3. set (dt := det3 _) in *.
  unfold mv, dot3. cbn [c0 c1 c2 r0 r1 r2].
  assert (E : (dt == a * (e * i - f * h) - b * (d * i - f * g) + c * (d * h - e * g))%Q) by reflexivity.
  split; [|split]; cbn [c0 c1 c2].
  - transitivity (x * (a * (e * i - f * h) - b * (d * i - f * g) + c * (d * h - e * g)) / dt)%Q; [field; assumption|].
    rewrite <- E. field. assumption.
  - transitivity (y * (a * (e * i - f * h) - b * (d * i - f * g) + c * (d * h - e * g)) / dt)%Q; [field; assumption|].
    rewrite <- E. field. assumption.
  - transitivity (z * (a * (e * i - f * h) - b * (d * i - f * g) + c * (d * h - e * g)) / dt)%Q; [field; assumption|].
    rewrite <- E. field. assumption.
Qed.
Lemma inv3_is_inverse A B v : (forall v, veq (mv B (mv A v)) v) -> veq (mv (inv3 A) v) (mv B v).
Proof.
  intro H. pose proof (left_inverse_det A B H) as D.
  (* v = A (inv v) *)
  assert (R : veq (mv A (mv (inv3 A) v)) v).
  { destruct A as [[a b c] [d e f] [g h i]], v as [x y z]. unfold inv3. set (dt := det3 _) in *.
    unfold mv, dot3. cbn [c0 c1 c2 r0 r1 r2].
    assert (E : (dt == a * (e * i - f * h) - b * (d * i - f * g) + c * (d * h - e * g))%Q) by reflexivity.
    split; [|split]; cbn [c0 c1 c2].
    - transitivity (x * (a * (e * i - f * h) - b * (d * i - f * g) + c * (d * h - e * g)) / dt)%Q; [field; assumption|].
      rewrite <- E. field. assumption.
    - transitivity (y * (a * (e * i - f * h) - b * (d * i - f * g) + c * (d * h - e * g)) / dt)%Q; [field; assumption|].
      rewrite <- E. field. assumption.
    - transitivity (z * (a * (e * i - f * h) - b * (d * i - f * g) + c * (d * h - e * g)) / dt)%Q; [field; assumption|].
      rewrite <- E. field. assumption. }
  destruct (H (mv (inv3 A) v)) as (K0 & K1 & K2). destruct (mv_veq B _ _ R) as (J0 & J1 & J2).
  split; [|split]; [rewrite <- K0, J0|rewrite <- K1, J1|rewrite <- K2, J2]; reflexivity.
Qed.

(** * index maps *)
Lemma increasing_zrange_filter (f : Z -> bool) n : forall a, increasing (filter f (zrange a (Z.of_nat n))).
Proof.
  induction n; intro a; [exact I|]. replace (Z.of_nat (S n)) with (Z.of_nat n + 1) by lia.
  rewrite zrange_cons by lia. cbn [filter]. replace (Z.of_nat n + 1 - 1) with (Z.of_nat n) by lia.
  destruct (f a); [|apply IHn]. apply increasing_cons. split; [|apply IHn].
  intros y I. apply filter_In in I. destruct I as [I _]. apply in_zrange in I. lia.
Qed.
Lemma irrList_increasing equiv : increasing (irrList equiv).
Proof. unfold irrList, zlen. apply increasing_zrange_filter. Qed.
Lemma irrList_In equiv j : In j (irrList equiv) <-> zget equiv j = Some j.
Proof.
  unfold irrList. rewrite filter_In, in_zrange. split.
  - intros [_ H]. destruct (zget equiv j); [|discriminate]. apply Z.eqb_eq in H. congruence.
  - intro E. rewrite E, Z.eqb_refl. apply zget_Some in E. split; [lia|reflexivity].
Qed.
Lemma lowerBound_spec l : increasing l -> forall x, In x l -> zget l (lowerBound l x) = Some x.
Proof.
  induction l as [|a l IH]; intros H x I; [destruct I|]. cbn [lowerBound]. apply increasing_cons in H. destruct H as [H1 H2].
  destruct (Z.ltb_spec a x).
  - destruct I as [->|I]; [lia|]. specialize (IH H2 x I). pose proof IH as IH'. apply zget_Some in IH'.
    rewrite zget_consS by lia. replace (1 + lowerBound l x - 1) with (lowerBound l x) by lia. assumption.
  - destruct I as [->|I]; [reflexivity|]. specialize (H1 x I). lia.
Qed.

Lemma redToIrr_spec equiv size : fits (zlen equiv) size -> exists outs,
  redToIrr equiv size = Ok outs /\ zlen outs = size /\
  Forall (fun o => o = map (fun ik => lowerBound (irrList equiv) (match zget equiv ik with Some e => e | None => 0 end)) (zrange 0 (zlen equiv))) outs.
Proof.
  intro F.
  destruct (fill_allReduce (zlen equiv) size
     (fun acc ik => match zget equiv ik with None => UB | Some e => Ok (zupd acc ik (lowerBound (irrList equiv) e)) end)
     (fun ik => lowerBound (irrList equiv) (match zget equiv ik with Some e => e | None => 0 end)) F) as (locals & outs & E & -> & Hl & HF).
  { intros acc ik H. destruct (zget_inrange equiv ik H) as (e & Ee). rewrite Ee. reflexivity. }
  eexists. split; [|split; [exact Hl|exact HF]]. unfold redToIrr, redToIrrLocal. rewrite E. reflexivity.
Qed.

Lemma NoDup_zget_inj (l : list Z) i j x : NoDup l -> zget l i = Some x -> zget l j = Some x -> i = j.
Proof.
  intros ND Ei Ej. rewrite <- (posOf_spec l x i ND Ei). apply posOf_spec; assumption.
Qed.

Lemma index_maps equiv size : fits (zlen equiv) size ->
  (forall i e, zget equiv i = Some e -> zget equiv e = Some e) ->
  exists outs, redToIrr equiv size = Ok outs /\ zlen outs = size /\
  Forall (fun red2irr =>
    (forall i, 0 <= i < zlen (irrList equiv) -> exists ik, asReducibleIndex (irrList equiv) i = Ok ik /\
        asIrreducibleIndex (irrList equiv) red2irr ik = Ok i) /\
    (forall ik e, zget equiv ik = Some e -> exists i, asIrreducibleIndex (irrList equiv) red2irr ik = Ok i /\
        0 <= i < zlen (irrList equiv) /\ asReducibleIndex (irrList equiv) i = Ok e)) outs.
Proof.
  intros F Hid. destruct (redToIrr_spec equiv size F) as (outs & E & Hl & HF). exists outs.
  split; [assumption|]. split; [assumption|]. eapply Forall_impl; [|exact HF]. cbn beta. intros o ->.
  assert (ND : NoDup (irrList equiv)) by (apply increasing_NoDup, irrList_increasing).
  assert (G : forall ik e, zget equiv ik = Some e -> exists i,
     zget (map (fun ik => lowerBound (irrList equiv) (match zget equiv ik with Some e => e | None => 0 end)) (zrange 0 (zlen equiv))) ik = Some i /\
     zget (irrList equiv) i = Some e).
  { intros ik e Ee. exists (lowerBound (irrList equiv) e). apply zget_Some in Ee as R. rewrite zget_map, zget_zrange by lia.
    cbn [option_map]. rewrite Z.add_0_l, Ee. split; [reflexivity|]. apply lowerBound_spec; [apply irrList_increasing|].
    apply irrList_In. eapply Hid; eassumption. }
  split.
  - intros i Hi. destruct (zget_inrange (irrList equiv) i Hi) as (ik & Eik). exists ik.
    unfold asReducibleIndex, asIrreducibleIndex. destruct (Z.ltb_spec 0 (zlen (irrList equiv))); [|lia]. rewrite Eik.
    split; [reflexivity|]. assert (Ie : zget equiv ik = Some ik).
    { apply irrList_In. unfold zget in Eik. destruct (i <? 0); [discriminate|]. eapply nth_error_In; eassumption. }
    destruct (G ik ik Ie) as (i' & G1 & G2). rewrite G1. f_equal. apply (NoDup_zget_inj (irrList equiv) i' i ik); assumption.
  - intros ik e Ee. destruct (G ik e Ee) as (i & G1 & G2). exists i.
    unfold asReducibleIndex, asIrreducibleIndex. apply zget_Some in G2 as R. destruct R as [R _].
    destruct (Z.ltb_spec 0 (zlen (irrList equiv))); [|lia]. rewrite G1, G2. split; [reflexivity|]. split; [assumption|reflexivity].
Qed.

Lemma concat_slices {A} (v : list A) size (k : nat) : fits (zlen v) size -> Z.of_nat k <= size ->
  concat (map (fun r => firstn (Z.to_nat (cut (zlen v) size (r + 1) - cut (zlen v) size r)) (skipn (Z.to_nat (cut (zlen v) size r)) v)) (zrange 0 (Z.of_nat k)))
  = firstn (Z.to_nat (cut (zlen v) size (Z.of_nat k))) v.
Proof.
  intros (Hn & Hs & _). induction k as [|k IH]; intro Hk.
  - rewrite cut_0. reflexivity.
  - replace (Z.of_nat (S k)) with (Z.of_nat k + 1) in * by lia. rewrite zrange_S, map_app, concat_app, IH by lia.
    cbn [map concat]. rewrite app_nil_r, Z.add_0_l.
    set (a := cut (zlen v) size (Z.of_nat k)). set (b := cut (zlen v) size (Z.of_nat k + 1)).
    assert (a <= b) by (apply cut_mono; assumption).
    assert (0 <= a) by (unfold a; rewrite <- (cut_0 (zlen v) size); apply cut_mono_le; lia).
    replace (Z.to_nat b) with (Z.to_nat a + Z.to_nat (b - a))%nat by lia.
    rewrite firstn_skipn_comm. rewrite <- (firstn_skipn (Z.to_nat a) (firstn (Z.to_nat a + Z.to_nat (b - a)) v)) at 2.
    f_equal. rewrite firstn_firstn. f_equal. lia.
Qed.
Lemma parallelIrr_join equiv size : fits (zlen (irrList equiv)) size ->
  concat (map (fun r => parallelIrr equiv r size) (zrange 0 size)) = irrList equiv.
Proof.
  intro F. pose proof F as (Hn & Hs & _).
  rewrite map_ext_in with (g := fun r => firstn (Z.to_nat (cut (zlen (irrList equiv)) size (r + 1) - cut (zlen (irrList equiv)) size r))
     (skipn (Z.to_nat (cut (zlen (irrList equiv)) size r)) (irrList equiv))).
  - pose proof (concat_slices (irrList equiv) size (Z.to_nat size) F ltac:(lia)) as H. rewrite Z2Nat.id in H by lia. rewrite H.
    rewrite cut_size by assumption. unfold zlen. rewrite Nat2Z.id. apply firstn_all.
  - intros r I. apply in_zrange in I. unfold parallelIrr. rewrite divideWork_cut by (try assumption; lia). reflexivity.
Qed.

(** * the whole call *)
Section Whole.
Context {S : Type}.
Variable rot : S -> Z -> res Z.
Variable syms : list S.
Variable n : Z.
Hypothesis A : acts rot syms n.
Hypothesis Hid : exists E, zget syms 0 = Some E /\ forall j, 0 <= j < n -> rot E j = Ok j.
Hypothesis Hn : 0 <= n.

Lemma zget_map_zrange {B} (f : Z -> B) i : 0 <= i < n -> zget (map f (zrange 0 n)) i = Some (f i).
Proof. intro H. rewrite zget_map, zget_zrange by assumption. reflexivity. Qed.

Lemma setIrr_spec stars0 : exists equiv stars ri,
  setIrreduciblePoints rot syms n stars0 = Ok (equiv, stars0 ++ stars, ri) /\ zlen equiv = n /\ zlen ri = n /\
  (forall i, 0 <= i < n -> exists e, zget equiv i = Some e /\ isRepresentative rot syms n i e) /\
  Forall2 (goodStar rot syms n) (irrList equiv) stars /\
  (forall i e, zget equiv i = Some e -> exists is s, zget ri i = Some is /\ zget syms is = Some s /\ rot s e = Ok i).
Proof.
  destruct (findStars_spec rot syms n A stars0 Hn) as (equiv & stars & E & Hl & HR & HF).
  set (f := fun i => match rotationIndex rot syms equiv i with Ok v => v | _ => 0 end).
  assert (G : forall i, 0 <= i < n -> exists e ri s, zget equiv i = Some e /\ rotationIndex rot syms equiv i = Ok ri /\ zget syms ri = Some s /\ rot s e = Ok i).
  { intros i Hi. destruct (HR i Hi) as (e & Ee & R). destruct (rotationIndex_spec rot syms n A equiv i e Ee Hi R Hid) as (r & s & H1 & H2 & H3).
    exists e, r, s. split; [assumption|split; [assumption|split; assumption]]. }
  exists equiv, stars, (map f (zrange 0 n)).
  unfold setIrreduciblePoints. rewrite E. cbn [bind fst snd].
  rewrite (mapM_ok _ f).
  2:{ intros i I. apply in_zrange in I. destruct (G i ltac:(lia)) as (e & r & s & _ & H & _). unfold f. rewrite H. reflexivity. }
  split; [reflexivity|]. split; [assumption|]. split; [unfold zlen; rewrite map_length; exact (zlen_zrange 0 n Hn)|].
  split; [assumption|]. split; [assumption|].
  intros i e Ee. apply zget_Some in Ee as R. destruct (G i ltac:(lia)) as (e' & r & s & H1 & H2 & H3 & H4).
  rewrite Ee in H1. injection H1 as <-. exists r, s. rewrite zget_map_zrange by lia. unfold f. rewrite H2.
  split; [reflexivity|split; assumption].
Qed.

Lemma rep_idem equiv : zlen equiv = n -> (forall i, 0 <= i < n -> exists e, zget equiv i = Some e /\ isRepresentative rot syms n i e) ->
  forall i e, zget equiv i = Some e -> zget equiv e = Some e.
Proof.
  intros Hl HR i e Ee. apply zget_Some in Ee as R. destruct (HR i ltac:(lia)) as (e' & E' & Rp). rewrite Ee in E'. injection E' as <-.
  destruct Rp as (R1 & R2 & R3). destruct (HR e R1) as (e2 & E2 & (S1 & S2 & S3)). rewrite E2. f_equal.
  assert (e2 <= e) by (apply S3; [assumption|apply (L_refl rot syms n A); assumption]).
  assert (e <= e2); [|lia]. apply R3; [assumption|]. apply (L_trans rot syms n A e2 e i); try assumption; lia.
Qed.

Lemma Forall2_zget {X Y} (R : X -> Y -> Prop) l l' : Forall2 R l l' -> forall i x, zget l i = Some x -> exists y, zget l' i = Some y /\ R x y.
Proof.
  induction 1 as [|x y l l' Rxy HF IH]; intros i z E.
  - apply zget_Some in E. unfold zlen in E; cbn in E; lia.
  - apply zget_Some in E as Hr. destruct (Z.eq_dec i 0) as [->|N].
    + rewrite zget_cons0 in E. injection E as <-. exists y. split; [reflexivity|assumption].
    + rewrite zget_consS in E by lia. destruct (IH _ _ E) as (y' & E' & R'). exists y'. rewrite zget_consS by lia. split; assumption.
Qed.

Lemma star_rotations : exists equiv stars ri,
  setIrreduciblePoints rot syms n [] = Ok (equiv, stars, ri) /\
  forall size outs, fits n size -> redToIrr equiv size = Ok outs -> Forall (fun red2irr =>
    forall ik e, zget equiv ik = Some e -> exists star rots,
      starOf stars red2irr ik = Ok star /\ getRotationsStar syms stars red2irr ri ik = Ok rots /\
      Forall2 (fun s j => rot s e = Ok j) rots star /\ NoDup star /\
      forall j, In j star <-> 0 <= j < n /\ linked rot syms ik j) outs.
Proof.
  destruct (setIrr_spec []) as (equiv & stars & ri & E & Hl & Hri & HR & HF & Hrot).
  exists equiv, stars, ri. split; [exact E|]. intros size outs F EO.
  rewrite <- Hl in F. destruct (redToIrr_spec equiv size F) as (outs' & E' & _ & HFo). rewrite EO in E'. injection E' as <-.
  eapply Forall_impl; [|exact HFo]. cbn beta. intros o -> ik e Ee.
  apply zget_Some in Ee as Rik. destruct Rik as [Rik _].
  pose proof (rep_idem equiv Hl HR ik e Ee) as Eee.
  assert (GL : zget (irrList equiv) (lowerBound (irrList equiv) e) = Some e).
  { apply lowerBound_spec; [apply irrList_increasing|apply irrList_In; assumption]. }
  destruct (Forall2_zget _ _ _ HF _ _ GL) as (star & Gs & (Ginc & Gst)).
  assert (ES : starOf stars (map (fun ik => lowerBound (irrList equiv) (match zget equiv ik with Some e => e | None => 0 end)) (zrange 0 (zlen equiv))) ik = Ok star).
  { unfold starOf. rewrite zget_map, zget_zrange by lia. cbn [option_map]. rewrite Z.add_0_l, Ee, Gs. reflexivity. }
  destruct (HR ik ltac:(lia)) as (e' & E' & (Q1 & Q2 & Q3)). rewrite Ee in E'. injection E' as <-.
  assert (Mem : forall j, In j star -> zget equiv j = Some e).
  { intros j I. apply Gst in I. destruct I as [Hj Lj]. destruct (HR j Hj) as (e2 & E2 & (S1 & S2 & S3)). rewrite E2. f_equal.
    assert (e2 <= e) by (apply S3; assumption).
    assert (e <= e2); [|lia]. apply Q3; [assumption|].
    apply (L_trans rot syms n A e2 e ik); [assumption|assumption|lia| |assumption].
    apply (L_trans rot syms n A e2 j e); [assumption..|]. apply (L_sym rot syms n A); assumption. }
  set (pick := fun j => match zget ri j with Some is => match zget syms is with Some s => Some s | None => None end | None => None end).
  assert (K : forall l, (forall j, In j l -> In j star) -> exists rots,
     mapM (fun ikFull => match zget ri ikFull with None => UB | Some is => match zget syms is with None => UB | Some A0 => Ok A0 end end) l = Ok rots /\
     Forall2 (fun s j => rot s e = Ok j) rots l).
  { clear - Mem Hrot. induction l as [|j l IH]; intro H; [exists []; split; [reflexivity|constructor]|].
    destruct (Hrot j e (Mem j (H j ltac:(left; reflexivity)))) as (is & s & H1 & H2 & H3).
    destruct IH as (rots & ER & FR); [intros; apply H; right; assumption|].
    exists (s :: rots). cbn [mapM]. rewrite H1, H2, ER. cbn [bind]. split; [reflexivity|constructor; assumption]. }
  destruct (K star ltac:(auto)) as (rots & ER & FR).
  exists star, rots. split; [exact ES|]. split; [unfold getRotationsStar; rewrite ES; cbn [bind]; exact ER|].
  split; [exact FR|]. split; [apply increasing_NoDup; exact Ginc|].
  intro j. rewrite Gst. split; intros [Hj Lj]; (split; [assumption|]).
  - apply (L_trans rot syms n A ik e j); [lia|assumption|assumption| |assumption]. apply (L_sym rot syms n A); [assumption|lia|assumption].
  - apply (L_trans rot syms n A e ik j); [assumption|lia|assumption..].
Qed.
End Whole.

Lemma rotation_to_irreducible m syms : posMesh m -> group syms -> meshSymmetric m syms ->
  (exists E, zget syms 0 = Some E /\ forall v, veq (mv E v) v) ->
  exists equiv stars ri, setIrreduciblePoints (rotIndex (fullMesh m)) syms (nodes m) [] = Ok (equiv, stars, ri) /\
  forall ik x, 0 <= ik < nodes m -> sameWavevector x (meshCoordinates m ik) -> exists e R,
    getRotationToIrreducible (fullMesh m) syms equiv ri x = Ok (e, R) /\ zget equiv ik = Some e /\
    sameWavevector (mv R x) (meshCoordinates m e).
Proof.
  intros P G HS (E0 & Ez & HE0).
  pose proof (mesh_acts m syms P G HS) as A.
  assert (Hn : 0 <= nodes m) by (unfold nodes; destruct P as (? & ? & ?); nia).
  assert (InE : In E0 syms) by (unfold zget in Ez; cbn in Ez; eapply nth_error_In with (n := 0%nat); exact Ez).
  destruct (setIrr_spec (rotIndex (fullMesh m)) syms (nodes m) A) with (stars0 := @nil (list Z)) as (equiv & stars & ri & E & Hl & Hri & HR & HF & Hrot).
  { exists E0. split; [assumption|]. intros j Hj. apply (rotIndex_unique m syms); try assumption. apply veq_same, HE0. }
  { assumption. }
  exists equiv, stars, ri. split; [exact E|]. intros ik x Hik Sx.
  destruct (HR ik Hik) as (e & Ee & (R1 & R2 & R3)). destruct (Hrot ik e Ee) as (is & B & H1 & H2 & H3).
  exists e, (inv3 B). unfold getRotationToIrreducible. rewrite (getIndex_full m x ik P Hik Sx). cbn [bind].
  rewrite H1, H2, Ee. split; [reflexivity|]. split; [reflexivity|].
  assert (IB : In B syms) by (unfold zget in H2; destruct (is <? 0); [discriminate|eapply nth_error_In; eassumption]).
  destruct G as (HI & _ & _ & HV). rewrite Forall_forall in HI. destruct (HV B IB) as (C & IC & HC).
  apply (rotIndex_unique m syms) in H3; try assumption.
  eapply same_veq; [apply (inv3_is_inverse B C); assumption|].
  eapply sameWavevector_trans; [apply mv_same; [apply HI; assumption|exact Sx]|].
  eapply sameWavevector_trans; [apply mv_same; [apply HI; assumption|apply sameWavevector_sym; exact H3]|].
  apply veq_same, HC.
Qed.

Lemma filter_length_le {A} (f : A -> bool) l : (length (filter f l) <= length l)%nat.
Proof. induction l as [|a l IH]; [constructor|]. cbn. destruct (f a); cbn; lia. Qed.
Lemma Forall2_length {A B} (R : A -> B -> Prop) l l' : Forall2 R l l' -> length l = length l'.
Proof. induction 1; [reflexivity|]. cbn. congruence. Qed.
Lemma zsum_concat_len {A} (l : list (list A)) : zsum (map zlen l) = zlen (concat l).
Proof. induction l; [reflexivity|]. cbn [map concat]. rewrite zlen_app, <- IHl. reflexivity. Qed.

Lemma orbits_spec {S} (rot : S -> Z -> res Z) syms n : 0 <= n -> acts rot syms n ->
  (exists E, zget syms 0 = Some E /\ forall j, 0 <= j < n -> rot E j = Ok j) ->
  exists equiv stars ri, setIrreduciblePoints rot syms n [] = Ok (equiv, stars, ri) /\ zlen equiv = n /\
    (forall i e, zget equiv i = Some e -> isRepresentative rot syms n i e) /\
    (forall i j e e', zget equiv i = Some e -> zget equiv j = Some e' -> (e = e' <-> linked rot syms i j)) /\
    Forall2 (fun r star => increasing star /\ forall i, In i star <-> 0 <= i < n /\ linked rot syms r i) (irrList equiv) stars /\
    Permutation (concat stars) (zrange 0 n) /\ zsum (map zlen stars) = n.
Proof.
  intros Hn A Hid. destruct (setIrr_spec rot syms n A Hid Hn []) as (equiv & stars & ri & E & Hl & Hri & HR & HF & Hrot).
  exists equiv, stars, ri. split; [exact E|]. split; [assumption|].
  assert (HR' : forall i e, zget equiv i = Some e -> 0 <= i < n /\ isRepresentative rot syms n i e).
  { intros i e Ee. apply zget_Some in Ee as R. destruct (HR i ltac:(lia)) as (e' & E' & Rp). rewrite Ee in E'. injection E' as <-. split; [lia|assumption]. }
  split; [intros i e Ee; apply HR'; assumption|]. split; [|split; [exact HF|]].
  - intros i j e e' Ei Ej. destruct (HR' i e Ei) as (Hi & R1 & R2 & R3). destruct (HR' j e' Ej) as (Hj & S1 & S2 & S3). split.
    + intros <-. apply (L_trans rot syms n A i e j); try assumption. apply (L_sym rot syms n A); assumption.
    + intro Lij. assert (e <= e').
      { apply R3; [assumption|]. apply (L_trans rot syms n A e' j i); try assumption. apply (L_sym rot syms n A); assumption. }
      assert (e' <= e); [|lia]. apply S3; [assumption|]. apply (L_trans rot syms n A e i j); assumption.
  - assert (Pm : Permutation (concat stars) (zrange 0 n)) by exact (goodStars_partition rot syms n A equiv stars Hn Hl HR HF).
    split; [assumption|]. rewrite zsum_concat_len. unfold zlen. rewrite (Permutation_length Pm). exact (zlen_zrange 0 n Hn).
Qed.

Lemma maps_spec {S} (rot : S -> Z -> res Z) syms n : 0 <= n -> acts rot syms n ->
  (exists E, zget syms 0 = Some E /\ forall j, 0 <= j < n -> rot E j = Ok j) ->
  exists equiv stars ri, setIrreduciblePoints rot syms n [] = Ok (equiv, stars, ri) /\
  forall size, fits n size -> exists outs, redToIrr equiv size = Ok outs /\ zlen outs = size /\
  Forall (fun red2irr =>
    (forall i, 0 <= i < zlen (irrList equiv) -> exists ik, asReducibleIndex (irrList equiv) i = Ok ik /\
        asIrreducibleIndex (irrList equiv) red2irr ik = Ok i) /\
    (forall ik, 0 <= ik < n -> exists i e, asIrreducibleIndex (irrList equiv) red2irr ik = Ok i /\
        0 <= i < zlen (irrList equiv) /\ asReducibleIndex (irrList equiv) i = Ok e /\
        isRepresentative rot syms n ik e)) outs.
Proof.
  intros Hn A Hid. destruct (setIrr_spec rot syms n A Hid Hn []) as (equiv & stars & ri & E & Hl & Hri & HR & HF & Hrot).
  exists equiv, stars, ri. split; [exact E|]. intros size F. rewrite <- Hl in F.
  destruct (index_maps equiv size F (rep_idem rot syms n A equiv Hl HR)) as (outs & E' & Hz & HFo).
  exists outs. split; [assumption|]. split; [assumption|]. eapply Forall_impl; [|exact HFo]. cbn beta. intros o [H1 H2].
  split; [exact H1|]. intros ik Hik. destruct (HR ik Hik) as (e & Ee & Rp). destruct (H2 ik e Ee) as (i & K1 & K2 & K3).
  exists i, e. split; [assumption|]. split; [assumption|]. split; assumption.
Qed.

Lemma irr_iterators {S} (rot : S -> Z -> res Z) syms n : 0 <= n -> acts rot syms n ->
  (exists E, zget syms 0 = Some E /\ forall j, 0 <= j < n -> rot E j = Ok j) ->
  exists equiv stars ri, setIrreduciblePoints rot syms n [] = Ok (equiv, stars, ri) /\
    increasing (irrList equiv) /\ (forall k, In k (irrList equiv) <-> 0 <= k < n /\ isRepresentative rot syms n k k) /\
    forall size, fits n size -> concat (map (fun r => parallelIrr equiv r size) (zrange 0 size)) = irrList equiv.
Proof.
  intros Hn A Hid. destruct (setIrr_spec rot syms n A Hid Hn []) as (equiv & stars & ri & E & Hl & Hri & HR & HF & Hrot).
  exists equiv, stars, ri. split; [exact E|]. split; [apply irrList_increasing|]. split.
  - intro k. rewrite irrList_In. split.
    + intro Ek. apply zget_Some in Ek as R. split; [lia|]. destruct (HR k ltac:(lia)) as (e & Ee & Rp). rewrite Ek in Ee. injection Ee as <-. assumption.
    + intros [Hk Rp]. destruct (HR k Hk) as (e & Ee & Rp'). rewrite Ee. f_equal. eapply rep_unique; eassumption.
  - intros size (F1 & F2 & F3). apply parallelIrr_join.
    assert (zlen (irrList equiv) <= n).
    { unfold irrList. rewrite Hl. pose proof (zlen_zrange 0 n Hn) as X. unfold zlen in *.
      pose proof (filter_length_le (fun j => match zget equiv j with Some e => e =? j | None => false end) (zrange 0 n)). lia. }
    split; [unfold zlen; lia|]. split; [assumption|]. unfold zlen in *. nia.
Qed.

Lemma recompute_same {S} (rot : S -> Z -> res Z) syms n : 0 <= n -> acts rot syms n ->
  (exists E, zget syms 0 = Some E /\ forall j, 0 <= j < n -> rot E j = Ok j) ->
  exists equiv stars ri, setIrreduciblePoints rot syms n [] = Ok (equiv, stars, ri) /\
    exists stars', setIrreduciblePoints rot syms n stars = Ok (equiv, stars', ri) /\
    forall i, 0 <= i < zlen (irrList equiv) -> zget stars' i = zget stars i.
Proof.
  intros Hn A Hid. destruct (setIrr_spec rot syms n A Hid Hn []) as (equiv & stars & ri & E & Hl & Hri & HR & HF & Hrot).
  exists equiv, stars, ri. split; [exact E|].
  destruct (findStars_inv rot syms n A [] (Z.to_nat n)) as (eq1 & st1 & E1 & _ & _); [lia|].
  destruct (findStars_inv rot syms n A stars (Z.to_nat n)) as (eq2 & st2 & E2 & I2 & F2); [lia|].
  rewrite Z2Nat.id in * by lia.
  (* the stars found do not depend on the stars already present *)
  assert (Indep : forall l eq s0, forall eqf sf, foldM (pointStep rot syms) l (eq, []) = Ok (eqf, sf) ->
     foldM (pointStep rot syms) l (eq, s0) = Ok (eqf, s0 ++ sf)).
  { clear. intros l. assert (K : forall eq s0 s1 eqf sf, foldM (pointStep rot syms) l (eq, s1) = Ok (eqf, sf) ->
       foldM (pointStep rot syms) l (eq, s0 ++ s1) = Ok (eqf, s0 ++ sf)).
    { induction l as [|x l IH]; intros eq s0 s1 eqf sf H.
      - cbn in *. injection H as <- <-. reflexivity.
      - cbn [foldM] in *. unfold pointStep at 1 in H. unfold pointStep at 1. destruct (zget eq x); [|discriminate].
        destruct (z =? x).
        + destruct (foldM (starStep rot x) syms (eq, [])) as [r| |]; cbn [bind] in *; try discriminate.
          rewrite <- app_assoc. apply IH. assumption.
        + cbn [bind] in *. apply IH. assumption. }
    intros eq s0 eqf sf H. specialize (K eq s0 [] eqf sf H). rewrite app_nil_r in K. assumption. }
  unfold setIrreduciblePoints, findStars in *. cbn [app] in E1.
  rewrite E1 in E. cbn [bind fst snd] in E.
  destruct (mapM (rotationIndex rot syms eq1) (zrange 0 n)) as [r| |] eqn:ER; cbn [bind] in E; try discriminate.
  injection E as -> -> ->.
  rewrite (Indep _ _ stars _ _ E1). cbn [bind fst snd]. rewrite ER. cbn [bind].
  eexists. split; [reflexivity|]. intros i Hi.
  assert (zlen (irrList equiv) = zlen stars).
  { unfold zlen. f_equal. eapply Forall2_length; exact HF. }
  apply zget_app1. lia.
Qed.

Lemma stars_equivalent m syms : posMesh m -> group syms -> meshSymmetric m syms ->
  (exists E, zget syms 0 = Some E /\ forall v, veq (mv E v) v) ->
  exists equiv stars ri, setIrreduciblePoints (rotIndex (fullMesh m)) syms (nodes m) [] = Ok (equiv, stars, ri) /\
  forall i j, (exists e, zget equiv i = Some e /\ zget equiv j = Some e) <->
    (0 <= i < nodes m /\ 0 <= j < nodes m /\ exists A, In A syms /\ sameWavevector (mv A (meshCoordinates m i)) (meshCoordinates m j)).
Proof.
  intros P G HS (E0 & Ez & HE0).
  pose proof (mesh_acts m syms P G HS) as A.
  assert (Hn : 0 <= nodes m) by (unfold nodes; destruct P as (? & ? & ?); nia).
  assert (InE : In E0 syms) by (unfold zget in Ez; cbn in Ez; eapply nth_error_In with (n := 0%nat); exact Ez).
  destruct (orbits_spec (rotIndex (fullMesh m)) syms (nodes m) Hn A) as (equiv & stars & ri & E & Hl & HR & HE & _).
  { exists E0. split; [assumption|]. intros j Hj. apply (rotIndex_unique m syms); try assumption. apply veq_same, HE0. }
  exists equiv, stars, ri. split; [exact E|]. intros i j. split.
  - intros (e & Ei & Ej). apply zget_Some in Ei as Ri. apply zget_Some in Ej as Rj. rewrite Hl in *.
    split; [lia|]. split; [lia|]. destruct (proj1 (HE i j e e Ei Ej) eq_refl) as (B & IB & EB).
    exists B. split; [assumption|]. apply (rotIndex_unique m syms) in EB; try assumption; lia.
  - intros (Hi & Hj & B & IB & SB). destruct (zget_inrange equiv i ltac:(lia)) as (e & Ei). destruct (zget_inrange equiv j ltac:(lia)) as (e' & Ej).
    exists e. split; [assumption|]. rewrite Ej. f_equal. symmetry. apply (HE i j e e' Ei Ej). exists B. split; [assumption|].
    apply (rotIndex_unique m syms); assumption.
Qed.
