(** C143: the XML file of Quantum ESPRESSO gives the crystal and the coarse band structure of the calculation *)
From Coq Require Import QArith Lia List ZArith String Ascii.
From Verif Require Import Base BaseLemmas M_context L_context M_points S_points L_points L_points2 M_xml S_xml L_mpi L_xml.
Import ListNotations.
Open Scope Z_scope.

(** The energies: a run on a full mesh, its points in any order and up to reciprocal lattice vectors, is read with the mesh of the run; the
    energies of every listed wavevector are at the mesh point which is that wavevector, every mesh point has the energies of a listed
    wavevector, and nothing is stored elsewhere. *)
Theorem C143_read : forall r x u, let m := rMesh r in
  posMesh m -> m0 m < 1000000 -> m1 m < 1000000 -> m2 m < 1000000 -> smallOffset m -> listsMesh m (rKs r) -> writes r x -> plainFile x ->
  exists f, parseFourier x u = Ok f /\
    m0 (fMesh f) = m0 m /\ m1 (fMesh f) = m1 m /\ m2 (fMesh f) = m2 m /\ veq (off (fMesh f)) (off m) /\
    (forall i k e, zget (rKs r) i = Some k -> zget (rBands r) i = Some e ->
       exists ik, 0 <= ik < nodes m /\ sameWavevector k (meshCoordinates (fMesh f) ik) /\ fEnergies f ik = Some (rydberg e)) /\
    (forall ik, 0 <= ik < nodes m -> exists i k e, zget (rKs r) i = Some k /\ zget (rBands r) i = Some e /\
       sameWavevector k (meshCoordinates (fMesh f) ik) /\ fEnergies f ik = Some (rydberg e)) /\
    (forall ik, ~ 0 <= ik < nodes m -> fEnergies f ik = None).
Proof.
  intros r x u m P S0 S1 S2 SO LM W (A1 & A2 & A3 & A4 & A5 & A6 & A7).
  destruct (w_store r x W m P S0 S1 S2 SO LM) as (o & E & V & F & NM & ST & H1 & H2 & H3). cbn zeta in *.
  set (M := Mesh (m0 m) (m1 m) (m2 m) o) in *.
  assert (HA : mapM (readAtom (map fst (species x))) (atoms x) = Ok (map (idOf (map fst (species x))) (atoms x))).
  { apply mapM_ok. intros a Ha. apply readAtom_ok, A7, Ha. }
  assert (Hh : exists h, match highestOccupiedLevel x with Some e => Ok e | None => match fermi_energy x with Some e => Ok e | None => Err end end = Ok h).
  { destruct (highestOccupiedLevel x), (fermi_energy x); eauto. exfalso. destruct A3 as [A3|A3]; apply A3; reflexivity. }
  destruct Hh as (h & Hh). unfold parseFourier.
  destruct (Z.ltb_spec (ntyp x) (zlen (species x))); [lia|]. rewrite HA. cbn [bind].
  replace (zlen (map (idOf (map fst (species x))) (atoms x))) with (zlen (atoms x)) by (unfold zlen; rewrite map_length; reflexivity).
  destruct (Z.ltb_spec (nat_ x) (zlen (atoms x))); [lia|]. rewrite Hh, A4, A5, A6. cbn [bind orb]. rewrite (w_points r x W). cbn [bind]. rewrite F. cbn [bind].
  change (m0 M) with (m0 m). change (m1 M) with (m1 m). change (m2 M) with (m2 m). change (off M) with o. rewrite NM. cbn [bind]. rewrite ST. cbn [bind].
  eexists. split; [reflexivity|]. cbn [fMesh fEnergies]. repeat (split; [reflexivity || exact V|]). split; [|split].
  - intros i k e K Ee. destruct (w_zip r x W i (proj2 (zget_in _ _ _ K))) as (k' & e' & n & K' & E' & N & _).
    assert (k' = k) by congruence. assert (e' = e) by congruence. subst k' e'. destruct (w_row r x W i k e n K Ee N) as (_ & Vk & Er).
    destruct (H1 (rowOf x n) (in_map _ _ _ (proj1 (zget_in _ _ _ N)))) as (ik & I & SW & Q). exists ik. split; [exact I|]. rewrite Er in Q. split; [|exact Q].
    apply (same_veq k (fst (rowOf x n))); [|exact SW]. destruct Vk as (V0 & V1 & V2). repeat split; symmetry; assumption.
  - intros ik I. destruct (H2 ik I) as (row & R & SW & Q). apply in_map_iff in R. destruct R as (n & <- & N). destruct (in_zget _ _ N) as (i & Ii & G).
    assert (L := W). destruct L as (_ & L1 & L2 & _). destruct (w_zip r x W i ltac:(lia)) as (k & e & n' & K & Ee & N' & _).
    assert (n' = n) by congruence. subst n'. destruct (w_row r x W i k e n K Ee N') as (_ & Vk & Er). exists i, k, e. rewrite Er in Q.
    repeat (split; [assumption|]). split; [|exact Q].
    apply (same_veq k (fst (rowOf x n))); [|exact SW]. destruct Vk as (V0 & V1 & V2). repeat split; symmetry; assumption.
  - exact H3.
Qed.

(** The crystal and the context, for every file that is read: the columns of the cell, the species of every atom, the Fermi level and the
    number of occupied states; such a file has no Monkhorst-Pack node and no spin, and as many points as the mesh. *)
Theorem C143_crystal : forall x u f, 0 <= nks x -> parseFourier x u = Ok f ->
  (fCell f 0 0 = Some (c0 (a1 x)) /\ fCell f 1 0 = Some (c1 (a1 x)) /\ fCell f 2 0 = Some (c2 (a1 x)) /\
   fCell f 0 1 = Some (c0 (a2 x)) /\ fCell f 1 1 = Some (c1 (a2 x)) /\ fCell f 2 1 = Some (c2 (a2 x)) /\
   fCell f 0 2 = Some (c0 (a3 x)) /\ fCell f 1 2 = Some (c1 (a3 x)) /\ fCell f 2 2 = Some (c2 (a3 x))) /\
  fSpecies f = species x /\ zlen (fAtoms f) = zlen (atoms x) /\
  (forall i name pos, zget (atoms x) i = Some (name, pos) -> exists s mass, zget (fAtoms f) i = Some (s, pos) /\ zget (fSpecies f) s = Some (name, mass)) /\
  (forall v, u = Some v -> fFermi f = v) /\
  (u = None -> forall h, highestOccupiedLevel x = Some h -> (fFermi f == 2 * h)%Q) /\
  (u = None -> highestOccupiedLevel x = None -> exists h, fermi_energy x = Some h /\ (fFermi f == 2 * h)%Q) /\
  (forall n, (nelec x == inject_Z n)%Q -> spinorbit x = false -> fOccupied f = n) /\
  monkhorst_pack x = false /\ lsda x = false /\ noncolin x = false /\ nks x = nodes (fMesh f).
Proof.
  intros x u f N. unfold parseFourier. destruct (ntyp x <? zlen (species x)); [discriminate|].
  destruct (mapM _ (atoms x)) as [ats| |] eqn:EA; try discriminate. cbn [bind]. destruct (nat_ x <? zlen ats); [discriminate|].
  destruct (match highestOccupiedLevel x with Some e => Ok e | None => _ end) as [h| |] eqn:EH; try discriminate. cbn [bind].
  destruct (monkhorst_pack x); [discriminate|]. destruct (readPoints x) as [rows| |] eqn:ER; try discriminate. cbn [bind].
  destruct (lsda x); [discriminate|]. destruct (noncolin x); [discriminate|]. cbn [orb].
  destruct (findMesh (map fst rows)) as [m| |] eqn:EM; try discriminate. cbn [bind]. destruct (newMesh _ _ _ _) as [p| |]; try discriminate. cbn [bind].
  destruct (foldM _ _ _) as [E| |]; try discriminate. cbn [bind]. intros H. injection H as <-. cbn.
  split; [repeat split|]. split; [reflexivity|].
  destruct (mapM_ok_inv _ _ _ EA) as (LA & GA). split; [exact LA|]. split.
  { intros i name pos G. destruct (GA _ _ G) as (b & B1 & B2). unfold readAtom in B2. cbn [fst snd] in B2. destruct (findIndex name _) as [k|] eqn:Ek; [|discriminate].
    injection B2 as <-. apply findIndex_some in Ek. rewrite zget_map in Ek. destruct (zget (species x) k) as [[nm ms]|] eqn:G2; [|discriminate].
    cbn in Ek. injection Ek as ->. exists k, ms. split; assumption. }
  split; [intros v ->; reflexivity|]. split; [|split; [|split]].
  - intros -> h' E'. rewrite E' in EH. injection EH as <-. ring.
  - intros -> E'. rewrite E' in EH. destruct (fermi_energy x) as [h'|]; [|discriminate]. injection EH as <-. exists h'. split; [reflexivity|]. ring.
  - intros n En ->. unfold truncQ. unfold Qeq in En. cbn in En. rewrite Z.mul_1_r in En. rewrite En. apply Z.quot_mul. discriminate.
  - repeat (split; [reflexivity|]). rewrite <- (findMesh_len _ _ EM). unfold zlen. rewrite map_length. symmetry. apply readPoints_len; assumption.
Qed.

(** a run on a 2 x 1 x 2 mesh of a skew cell, its points not in order and one of them outside of the first cell *)
Definition exB : cell := Cell (V3 1 0 0) (V3 (1#2) 1 0) (V3 0 (1#3) 2).
Definition exKs : list v3 := [V3 (1#2) 0 (1#2); V3 0 0 0; V3 (-1#2) 0 0; V3 0 0 (3#2)].
Definition exBands : list (list Q) := [[1;2]; [3;4]; [5;6]; [7;8]]%Q.
Definition exRun : scfRun := {| rMesh := Mesh 2 1 2 (V3 0 0 0); rKs := exKs; rBands := exBands |}.
Definition exXml (ks : list v3) (bands : list (list Q)) (n : Z) : xml :=
  {| ntyp := 2; species := [(str! "Ga", 70); (str! "As", 75)]%Q; nat_ := 2; atoms := [(str! "As", V3 0 0 0); (str! "Ga", V3 1 1 1)];
     a1 := V3 1 2 3; a2 := V3 4 5 6; a3 := V3 7 8 10; lsda := false; noncolin := false; spinorbit := false; nbnd := 2; nelec := (8 # 1)%Q;
     highestOccupiedLevel := Some (1#4); fermi_energy := None; nks := n; monkhorst_pack := false; recCell := exB;
     ksEnergies := map (fun ke => {| kPoint := toCart exB (fst ke); eigenvalues := snd ke; occupations := [1;0]%Q |}) (combine ks bands) |}.
Ltac four i := let H := fresh in assert (H : i = 0 \/ i = 1 \/ i = 2 \/ i = 3) by lia; destruct H as [-> | [-> | [-> | ->]]].
Example C143_ex : let m := rMesh exRun in let x := exXml exKs exBands 4 in
  posMesh m /\ m0 m < 1000000 /\ m1 m < 1000000 /\ m2 m < 1000000 /\ smallOffset m /\ listsMesh m (rKs exRun) /\ writes exRun x /\ plainFile x /\
  exists f, parseFourier x None = Ok f /\ fEnergies f 1 = Some [10;12]%Q /\ map fst (fAtoms f) = [1; 0].
Proof.
  cbn zeta. split; [repeat split; lia|]. split; [reflexivity|]. split; [reflexivity|]. split; [reflexivity|]. split; [repeat split; reflexivity || (cbn; discriminate)|].
  split; [|split; [|split]].
  - split; [reflexivity|]. split.
    + intros v [<-|[<-|[<-|[<-|[]]]]].
      * exists 1, 0, 1. repeat split; try (cbn; lia). exists 0, 0, 0. repeat split.
      * exists 0, 0, 0. repeat split; try (cbn; lia). exists 0, 0, 0. repeat split.
      * exists 1, 0, 0. repeat split; try (cbn; lia). exists (-1), 0, 0. repeat split.
      * exists 0, 0, 1. repeat split; try (cbn; lia). exists 0, 0, 1. repeat split.
    + cbn [m0 m1 m2 rMesh exRun]. intros i j k Hi Hj Hk. assert (j = 0) by lia. subst j.
      assert (Ci : i = 0 \/ i = 1) by lia. assert (Ck : k = 0 \/ k = 1) by lia. destruct Ci as [->| ->], Ck as [->| ->].
      * exists (V3 0 0 0). split; [right; left; reflexivity|]. exists 0, 0, 0. repeat split.
      * exists (V3 0 0 (3#2)). split; [do 3 right; left; reflexivity|]. exists 0, 0, 1. repeat split.
      * exists (V3 (-1#2) 0 0). split; [do 2 right; left; reflexivity|]. exists (-1), 0, 0. repeat split.
      * exists (V3 (1#2) 0 (1#2)). split; [left; reflexivity|]. exists 0, 0, 0. repeat split.
  - split; [cbn; discriminate|]. split; [reflexivity|]. split; [reflexivity|]. split; [reflexivity|].
    intros i k e n K Ee Nn. pose proof (proj2 (zget_in _ _ _ K)) as R. cbn in R. four i; cbn in K, Ee, Nn; injection K as <-; injection Ee as <-; injection Nn as <-; repeat split.
  - repeat split; try (cbn; lia).
    + left. discriminate.
    + intros a [<-|[<-|[]]]; [right; left; reflexivity|left; reflexivity].
  - eexists. split; [vm_compute; reflexivity|]. split; reflexivity.
Qed.

(** A file with fewer ks_energies nodes than nks is read: the missing point is Gamma, with energies zero. *)
Theorem C143_missing_refuted : exists x f, zlen (ksEnergies x) < nks x /\ parseFourier x None = Ok f /\ fEnergies f 0 = Some [0; 0]%Q.
Proof. exists (exXml [V3 (1#2) 0 0] [[1;2]%Q] 2). eexists. split; [reflexivity|]. split; [vm_compute; reflexivity|]. reflexivity. Qed.

(** A file which repeats a wavevector and lacks another one is read: two mesh points have no energies. *)
Theorem C143_repeated_refuted : exists x f, parseFourier x None = Ok f /\ nodes (fMesh f) = 4 /\ fEnergies f 1 = None /\ fEnergies f 2 = None.
Proof.
  exists (exXml [V3 0 0 0; V3 (1#2) 0 (1#2); V3 0 0 0; V3 0 0 0] exBands 4). eexists. split; [vm_compute; reflexivity|]. repeat split.
Qed.

(** The number of electrons is cut to an integer: a doped run with 7.5 electrons is taken as one with 7. *)
Theorem C143_electrons_refuted : exists x f, parseFourier x None = Ok f /\ (nelec x == 15 # 2)%Q /\ fOccupied f = 7.
Proof.
  exists {| ntyp := 0; species := []; nat_ := 0; atoms := []; a1 := V3 1 0 0; a2 := V3 0 1 0; a3 := V3 0 0 1; lsda := false; noncolin := false; spinorbit := false;
     nbnd := 1; nelec := (15 # 2)%Q; highestOccupiedLevel := None; fermi_energy := Some (1#4); nks := 1; monkhorst_pack := false; recCell := exB;
     ksEnergies := [{| kPoint := V3 0 0 0; eigenvalues := [1%Q]; occupations := [1%Q] |}] |}.
  eexists. split; [vm_compute; reflexivity|]. split; reflexivity.
Qed.
Print Assumptions C143_read.
Print Assumptions C143_crystal.
Print Assumptions C143_missing_refuted.
Print Assumptions C143_repeated_refuted.
Print Assumptions C143_electrons_refuted.
