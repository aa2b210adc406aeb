(** C148: the rotations of Wannier90 *)
From Coq Require Import Reals QArith Qreals List Lia ZArith Lra.
From Verif Require Import Base BaseLemmas M_points S_points L_points L_points2 M_complex L_complex M_wannier M_umat S_umat.
Import ListNotations.
Open Scope Z_scope.

Ltac useF F := match type of F with _ = ?r => match goal with |- context [foldM ?f ?l ?s] => replace (foldM f l s) with r by (symmetry; exact F) end end.
Ltac useR F := match type of F with _ = ?r => match goal with |- context [readFile ?a ?b ?c ?d ?e] => replace (readFile a b c d e) with r by (symmetry; exact F) end end.
Lemma pairs_lines nr nc U : entryLines nr nc U = map (fun p => [fst (U (fst p) (snd p)); snd (U (fst p) (snd p))]) (pairsOf nr nc).
Proof.
  unfold entryLines, pairsOf. rewrite flat_map_concat_map, concat_map, map_map. f_equal. apply map_ext. intros j. rewrite map_map. reflexivity.
Qed.
Lemma in_pairs nr nc i j : In (i, j) (pairsOf nr nc) <-> 0 <= i < nr /\ 0 <= j < nc.
Proof.
  unfold pairsOf. rewrite in_flat_map. split.
  - intros (j' & J & I). apply in_map_iff in I. destruct I as (i' & E & I). injection E as <- <-. apply in_zrange in J. apply in_zrange in I. lia.
  - intros [I J]. exists j. split; [apply in_zrange; lia|]. apply in_map_iff. exists i. split; [reflexivity|]. apply in_zrange. lia.
Qed.
Lemma entries U : forall ps re im V rest, exists re' im' V',
  foldM readEntry ps ([] :: map (fun p => [fst (U (fst p) (snd p)); snd (U (fst p) (snd p))]) ps ++ rest, re, im, V) = Ok ([] :: rest, re', im', V') /\
  (forall i j, In (i, j) ps -> V' i j = cplxOf (U i j)) /\ (forall i j, ~ In (i, j) ps -> V' i j = V i j).
Proof.
  induction ps as [|[a b] ps IH]; intros re im V rest.
  - exists re, im, V. split; [reflexivity|]. split; [intros i j []|reflexivity].
  - cbn [map app foldM fst snd]. unfold readEntry at 2. cbn [readVal readTok]. cbn [set bind fst snd].
    destruct (IH (Some (fst (U a b))) (Some (snd (U a b))) (fun i j => if (i =? a) && (j =? b) then (Q2R (fst (U a b)), Q2R (snd (U a b))) else V i j) rest) as (re' & im' & V' & F & G1 & G2).
    exists re', im', V'. split; [exact F|]. split.
    + intros i j H. destruct (in_dec (fun x y : Z * Z => ltac:(decide equality; apply Z.eq_dec)) (i, j) ps) as [I|I]; [apply G1; exact I|].
      destruct H as [E|H]; [|contradiction]. injection E as <- <-. rewrite G2 by exact I. rewrite !Z.eqb_refl. reflexivity.
    + intros i j H. rewrite G2 by (intros I; apply H; right; exact I). destruct (Z.eqb_spec i a) as [->|N]; [|reflexivity]. destruct (Z.eqb_spec j b) as [->|N]; [|reflexivity].
      exfalso. apply H. left. reflexivity.
Qed.
Lemma matrix nr nc U rest V : exists V', readMatrix nr nc ([] :: entryLines nr nc U ++ rest) V = Ok (V', [] :: rest) /\
  (forall i j, 0 <= i < nr -> 0 <= j < nc -> V' i j = cplxOf (U i j)).
Proof.
  rewrite pairs_lines. destruct (entries U (pairsOf nr nc) None None V rest) as (re & im & V' & F & G & _). exists V'. unfold readMatrix. useF F. cbn [bind].
  split; [reflexivity|]. intros i j I J. apply G. apply in_pairs. split; assumption.
Qed.
Lemma v3_eta k : V3 (M_points.c0 k) (M_points.c1 k) (M_points.c2 k) = k. Proof. destruct k. reflexivity. Qed.
Lemma block p n nr nc b rest T ik ikk : getIndex p (fst b) = Ok ikk -> 0 <= ikk < n -> exists U,
  readBlock p n nr nc ([] :: blockLines nr nc b ++ rest, T) ik = Ok ([] :: rest, fun j => if j =? ikk then U else T j) /\
  (forall i j, 0 <= i < nr -> 0 <= j < nc -> U i j = cplxOf (snd b i j)).
Proof.
  intros G R. unfold readBlock. cbn [getline tl blockLines app]. unfold readPoint. cbn [readVal readTok set bind]. rewrite v3_eta, G. cbn [bind].
  replace ((ikk <? 0) || (n <=? ikk)) with false by lia. destruct (matrix nr nc (snd b) rest (T ikk)) as (U & F & E). rewrite F. cbn [bind]. exists U. split; [reflexivity|exact E].
Qed.
Lemma blocks p n nr nc (idx : rotation -> Z) : forall bs ks T, length ks = length bs -> (forall b, In b bs -> getIndex p (fst b) = Ok (idx b) /\ 0 <= idx b < n) ->
  exists T', foldM (readBlock p n nr nc) ks ([] :: concat (map (blockLines nr nc) bs), T) = Ok ([[]], T') /\
  (NoDup (map idx bs) -> forall b, In b bs -> forall i j, 0 <= i < nr -> 0 <= j < nc -> T' (idx b) i j = cplxOf (snd b i j)) /\
  (forall j, ~ In j (map idx bs) -> T' j = T j).
Proof.
  induction bs as [|b bs IH]; intros [|ik ks] T L H; try discriminate.
  - exists T. split; [reflexivity|]. split; [intros _ b []|reflexivity].
  - destruct (H b (or_introl eq_refl)) as [G R]. destruct (block p n nr nc b (concat (map (blockLines nr nc) bs)) T ik (idx b) G R) as (U & F & E).
    cbn [foldM map concat]. match type of F with _ = ?r => match goal with |- context [readBlock ?a ?b ?c ?d ?e ?f] => replace (readBlock a b c d e f) with r by (symmetry; exact F) end end. cbn [bind].
    destruct (IH ks (fun j => if j =? idx b then U else T j)) as (T' & F' & A & B); [injection L as L; exact L|intros b' I; apply H; right; exact I|].
    exists T'. split; [exact F'|]. split.
    + intros N b' I i j Hi Hj. inversion N as [|? ? N1 N2]; subst. destruct I as [<-|I]; [|apply A; assumption].
      rewrite B by exact N1. rewrite Z.eqb_refl. apply E; assumption.
    + intros j J. rewrite B by (intros I; apply J; right; exact I). destruct (Z.eqb_spec j (idx b)) as [->|_]; [|reflexivity]. exfalso. apply J. left. reflexivity.
Qed.
Lemma file p nr nc idx bs : (forall b, In b bs -> getIndex p (fst b) = Ok (idx b) /\ 0 <= idx b < zlen bs) -> NoDup (map idx bs) -> exists T,
  readFile p (zlen bs) nr nc ([] :: concat (map (blockLines nr nc) bs)) = Ok T /\
  forall b, In b bs -> forall i j, 0 <= i < nr -> 0 <= j < nc -> T (idx b) i j = cplxOf (snd b i j).
Proof.
  intros H N. destruct (blocks p (zlen bs) nr nc idx bs (zrange 0 (zlen bs)) (fun _ => zeroMat)) as (T & F & A & _); [|exact H|].
  - unfold zrange, zlen. rewrite map_length, seq_length. lia.
  - exists T. unfold readFile. useF F. cbn [bind]. split; [reflexivity|]. apply A. exact N.
Qed.
Lemma header title a b c rest : readInts (getline (title :: [inject_Z a; inject_Z b; inject_Z c] :: rest)) = Ok (a, b, c, [] :: rest).
Proof. reflexivity. Qed.
(** each wavevector of the list is recognized as a mesh point, different wavevectors as different ones; rounded decimals included *)
Definition located (m : mesh) (bs : list rotation) (idx : rotation -> Z) : Prop :=
  zlen bs = nodes m /\ NoDup (map idx bs) /\ forall b, In b bs -> getIndex (fullMesh m) (fst b) = Ok (idx b) /\ 0 <= idx b < nodes m.
Theorem C148_rotations : forall m nW title bs idx, 0 <= nW -> located m bs idx -> exists u,
  setupRotationMatrices true (Some (uMat title nW bs)) None (fullMesh m) = Ok (nW, nW, u) /\
  forall b, In b bs -> forall i j, 0 <= i < nW -> 0 <= j < nW -> u (idx b) i j = cplxOf (snd b i j).
Proof.
  intros m nW title bs idx W (L & N & H). rewrite <- L in H. destruct (file (fullMesh m) nW nW idx bs H N) as (T & F & A). exists T.
  unfold setupRotationMatrices, uMat, matFile. cbn [negb]. rewrite header. cbn [bind]. change (numPoints (fullMesh m)) with (nodes m). replace (zlen bs =? nodes m) with true by lia. replace (nW <? 0) with false by lia. cbn [negb orb].
  useR F. cbn [bind]. split; [reflexivity|exact A].
Qed.
Print Assumptions C148_rotations.
(** with disentanglement the result is the product of the disentanglement matrix and of the rotation of the same wavevector, in whatever order
    each file lists the wavevectors *)
Theorem C148_disentangled : forall m nB nW title title2 bs ds idx idx2, 0 <= nW <= nB -> located m bs idx -> located m ds idx2 -> exists u,
  setupRotationMatrices true (Some (uMat title nW bs)) (Some (disMat title2 nB nW ds)) (fullMesh m) = Ok (nB, nW, u) /\
  forall b d, In b bs -> In d ds -> idx b = idx2 d -> forall i j, 0 <= i < nB -> 0 <= j < nW ->
    u (idx b) i j = csumTo nW (fun l => cmul (cplxOf (snd d i l)) (cplxOf (snd b l j))).
Proof.
  intros m nB nW title title2 bs ds idx idx2 W (L & N & H) (L2 & N2 & H2). assert (H' := H). assert (H2' := H2). rewrite <- L in H'. rewrite <- L2 in H2'.
  destruct (file (fullMesh m) nW nW idx bs H' N) as (T & F & A). destruct (file (fullMesh m) nB nW idx2 ds H2' N2) as (D & F2 & A2).
  unfold setupRotationMatrices, uMat, disMat, matFile. cbn [negb]. rewrite header. cbn [bind]. change (numPoints (fullMesh m)) with (nodes m). replace (zlen bs =? nodes m) with true by lia. replace (nW <? 0) with false by lia. cbn [negb orb].
  useR F. cbn [bind]. rewrite header. cbn [bind]. rewrite Z.eqb_refl. replace (nB <? nW) with false by lia. replace (zlen ds <? 0) with false by (unfold zlen; lia). cbn [negb orb].
  useR F2. cbn [bind]. replace (zlen bs <? zlen ds) with false by lia. eexists. split; [reflexivity|].
  intros b d B Dd E i j I J. cbn beta. destruct (H b B) as [_ R]. replace (idx b <? zlen ds) with true by lia. unfold rotationProduct. apply csumTo_ext. intros l Ll.
  rewrite (A b B l j Ll J). rewrite E. rewrite (A2 d Dd i l I Ll). unfold cmul. cbn. f_equal; ring.
Qed.
Print Assumptions C148_disentangled.
(** lists of the mesh, in any order and with any images, are located *)
Lemma lists_located m bs : posMesh m -> listsMesh m (map fst bs) -> exists idx, located m bs idx /\ (forall b, In b bs -> sameWavevector (fst b) (meshCoordinates m (idx b))) /\
  forall ik, 0 <= ik < nodes m -> exists b, In b bs /\ idx b = ik.
Proof.
  intros P (L & A & C). set (idx := fun b : rotation => match getIndex (fullMesh m) (fst b) with Ok i => i | _ => -1 end). exists idx.
  assert (H1 : forall b, In b bs -> exists ik, getIndex (fullMesh m) (fst b) = Ok ik /\ 0 <= ik < nodes m /\ sameWavevector (fst b) (meshCoordinates m ik)).
  { intros b B. destruct (A (fst b) (in_map fst _ _ B)) as (i & j & k & I & J & K & SW). destruct (getIndex_any_node m i j k P) as (ik & G & R' & SW').
    assert (SW2 := sameWavevector_trans _ _ _ SW SW'). exists ik. split; [|split; [exact R'|exact SW2]]. apply getIndex_full; assumption. }
  assert (SU : forall ik, 0 <= ik < nodes m -> exists b, In b bs /\ idx b = ik).
  { intros ik I. destruct (meshIndex_decode m ik P I) as (i & j & k & Hi & Hj & Hk & E'). destruct (C i j k Hi Hj Hk) as (v & Hv & SW). apply in_map_iff in Hv. destruct Hv as (b & <- & R).
    assert (SW2 : sameWavevector (fst b) (meshCoordinates m ik)) by (rewrite E', meshCoordinates_node by assumption; exact SW).
    exists b. split; [exact R|]. unfold idx. rewrite (getIndex_full m _ ik P I SW2). reflexivity. }
  split; [|split; [|exact SU]].
  - split; [unfold zlen in *; rewrite map_length in L; exact L|]. split.
    + apply (@NoDup_incl_NoDup Z (zrange 0 (nodes m))).
      * unfold zrange. apply FinFun.Injective_map_NoDup; [intros a b; lia|apply seq_NoDup].
      * destruct P as (P0 & P1 & P2). assert (Nn : 0 <= nodes m) by (unfold nodes; nia). assert (L' := zlen_zrange 0 (nodes m) Nn). unfold zlen in L, L'. rewrite map_length in L. rewrite (map_length idx). assert (L2 : Z.of_nat (@length rotation bs) = nodes m) by exact L. lia.
      * intros ik I. apply in_zrange in I. destruct (SU ik ltac:(lia)) as (b & B & <-). apply in_map. exact B.
    + intros b B. unfold idx. destruct (H1 b B) as (ik & -> & R & _). split; [reflexivity|exact R].
  - intros b B. unfold idx. destruct (H1 b B) as (ik & -> & _ & SW). exact SW.
Qed.
Theorem C148_mesh : forall m nB nW title title2 bs ds, posMesh m -> 0 <= nW <= nB -> listsMesh m (map fst bs) -> listsMesh m (map fst ds) -> exists u,
  setupRotationMatrices true (Some (uMat title nW bs)) (Some (disMat title2 nB nW ds)) (fullMesh m) = Ok (nB, nW, u) /\
  forall ik, 0 <= ik < nodes m -> exists k U k2 D, In (k, U) bs /\ In (k2, D) ds /\ sameWavevector k (meshCoordinates m ik) /\ sameWavevector k2 (meshCoordinates m ik) /\
    forall i j, 0 <= i < nB -> 0 <= j < nW -> u ik i j = csumTo nW (fun l => cmul (cplxOf (D i l)) (cplxOf (U l j))).
Proof.
  intros m nB nW title title2 bs ds P W L1 L2. destruct (lists_located m bs P L1) as (idx & Lo1 & S1 & U1). destruct (lists_located m ds P L2) as (idx2 & Lo2 & S2 & U2).
  destruct (C148_disentangled m nB nW title title2 bs ds idx idx2 W Lo1 Lo2) as (u & E & G). exists u. split; [exact E|]. intros ik I.
  destruct (U1 ik I) as ([k U] & B & Eb). destruct (U2 ik I) as ([k2 D] & B2 & Ed). exists k, U, k2, D. split; [exact B|]. split; [exact B2|].
  split; [rewrite <- Eb; apply (S1 _ B)|]. split; [rewrite <- Ed; apply (S2 _ B2)|]. intros i j Hi Hj. rewrite <- Eb. apply (G (k, U) (k2, D) B B2); [congruence|exact Hi|exact Hj].
Qed.
Print Assumptions C148_mesh.
(** example: two wavevectors in the wrong order, rounded differently *)
Definition exM : mesh := Mesh 2 1 1 (V3 0 0 0).
Definition exU : list rotation := [(V3 (1 # 2) 0 0, fun i j => (inject_Z (i + 2 * j), 1%Q)); (V3 (1 # 1000000000) 0 1, fun i j => (1%Q, inject_Z i))].
Example C148_ex : let idx := fun b : rotation => match getIndex (fullMesh exM) (fst b) with Ok i => i | _ => -1 end in located exM exU idx /\ map idx exU = [1; 0].
Proof.
  cbv zeta. split; [|vm_compute; reflexivity]. split; [reflexivity|]. split; [vm_compute; repeat constructor; cbn; lia|].
  intros b [<- | [<- | []]]; vm_compute; repeat split; discriminate.
Qed.
(** finding: a list with a repeated wavevector is accepted; the missing one keeps a zero matrix *)
Theorem C148_repeated_refuted : ~ forall m nW title bs u, posMesh m -> 0 < nW -> zlen bs = nodes m -> (forall b, In b bs -> exists ik, getIndex (fullMesh m) (fst b) = Ok ik) ->
  setupRotationMatrices true (Some (uMat title nW bs)) None (fullMesh m) = Ok (nW, nW, u) -> forall ik, 0 <= ik < nodes m -> exists b, In b bs /\ getIndex (fullMesh m) (fst b) = Ok ik.
Proof.
  intros H. set (b := (V3 0 0 0, fun _ _ => (1%Q, 0%Q)) : rotation).
  assert (G : getIndex (fullMesh exM) (fst b) = Ok 0) by (vm_compute; reflexivity).
  destruct (setupRotationMatrices true (Some (uMat [] 1 [b; b])) None (fullMesh exM)) as [[[r c] u]| |] eqn:E; [|exfalso; revert E; vm_compute; discriminate|exfalso; revert E; vm_compute; discriminate].
  assert (r = 1 /\ c = 1) as [-> ->] by (revert E; vm_compute; intros E; injection E as <- <- _; split; reflexivity).
  assert (P : posMesh exM) by (repeat split).
  assert (Kn : forall b', In b' [b; b] -> exists ik, getIndex (fullMesh exM) (fst b') = Ok ik) by (intros b' [<- | [<- | []]]; exists 0; exact G).
  assert (R : 0 <= 1 < nodes exM) by (change (nodes exM) with 2; lia).
  destruct (H exM 1 [] [b; b] u P ltac:(lia) eq_refl Kn E 1 R) as (b' & B & G'). destruct B as [<- | [<- | []]]; rewrite G in G'; discriminate.
Qed.
Print Assumptions C148_repeated_refuted.
(** finding: a file that ends early is accepted; the missing entries of its last wavevector are copies of the last entry read *)
Theorem C148_truncated_refuted : exists m f b u, posMesh m /\ (length f < length (uMat [] 2 [b]))%nat /\ f = firstn (length f) (uMat [] 2 [b]) /\
  setupRotationMatrices true (Some f) None (fullMesh m) = Ok (2, 2, u) /\ u 0 1 1 <> cplxOf (snd b 1 1) /\ u 0 1 1 = u 0 0 0.
Proof.
  set (m := Mesh 1 1 1 (V3 0 0 0)). set (b := (V3 0 0 0, fun i j => if i =? j then (inject_Z (1 + i), 0%Q) else (0%Q, 0%Q)) : rotation).
  set (f := firstn 5 (uMat [] 2 [b])). exists m, f, b.
  exists (fun j => if j =? 0 then fun i j0 => if (i =? 1) && (j0 =? 1) then (Q2R 1, Q2R 0) else if (i =? 0) && (j0 =? 1) then (Q2R 1, Q2R 0) else if (i =? 1) && (j0 =? 0) then (Q2R 1, Q2R 0) else
     if (i =? 0) && (j0 =? 0) then (Q2R 1, Q2R 0) else zeroMat i j0 else zeroMat).
  split; [repeat split|]. split; [apply Nat.ltb_lt; vm_compute; reflexivity|]. split; [reflexivity|]. split; [reflexivity|]. split; [|reflexivity].
  cbn. unfold cplxOf; cbn. intros E. injection E as E. unfold Q2R in E. cbn in E. lra.
Qed.
Print Assumptions C148_truncated_refuted.
