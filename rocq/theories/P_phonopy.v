(** Properties C137 and C138 *)
From Coq Require Import QArith Reals Permutation.
From Verif Require Import Base BaseLemmas L_mpi M_phonopy S_phonopy L_phonopy.
From Coq Require Import Lia Lra.
Open Scope Z_scope.

(** * C137: force constants *)
Theorem C137_full : forall u g sup idx nAtoms cellMap f conv Phi, located u g sup idx -> mapped nAtoms (volume g) cellMap -> fullLayout nAtoms g cellMap idx f Phi ->
  exists l, forceConstants g nAtoms u sup cellMap f conv = Ok l /\ arrayIs l g nAtoms (fun i j r a b => (Phi a r b origin i j * conv)%R).
Proof. intros. now apply (full_ok u g sup idx). Qed.
Theorem C137_compact_partial : forall u g sup idx nAtoms cellMap f conv Phi, located u g sup idx -> mapped nAtoms (volume g) cellMap -> compactLayout nAtoms g cellMap idx f Phi ->
  symmetricFC Phi -> (forall a r b s i j, Phi a r b s i j = Phi a r b s j i) ->
  exists l, forceConstants g nAtoms u sup cellMap f conv = Ok l /\ arrayIs l g nAtoms (fun i j r a b => (Phi a r b origin i j * conv)%R).
Proof.
  intros u g sup idx nAtoms cellMap f conv Phi HL HM HC HS HB. destruct (compact_ok u g sup idx nAtoms cellMap f conv HL HM Phi HC) as (l & E & HN & HA). exists l. split; [exact E|]. split; [exact HN|]. intros. rewrite HA, (HS b origin a), HB. reflexivity.
Qed.
(** the two layouts of the same force constants give crystals with different frequencies *)
Definition cubic : q3 * q3 * q3 := ((10, 0, 0), (0, 10, 0), (0, 0, 10))%Q.
Definition twoAtoms : list q3 := [(0, 0, 0); (10, 0, 0); (2, 0, 0); (12, 0, 0)]%Q.
Definition along (r : cell) : Z := fst (fst r).
Definition sheared (a : Z) (r : cell) (b : Z) (s : cell) (i j : Z) : R :=
  if negb (along r =? along s) then 0%R else
  if (a =? 0) && (b =? 0) && (i =? 0) && (j =? 0) then 1%R else
  if (a =? 0) && (b =? 1) && (i =? 0) && (j =? 1) then 1%R else
  if (a =? 1) && (b =? 0) && (i =? 1) && (j =? 0) then 1%R else 0%R.
Definition fullFile (Phi : harmonic) : ifc := {| nFirst := 4; nSecond := 4; value := fun x y => Phi (x / 2) (x mod 2, 0, 0) (y / 2) (y mod 2, 0, 0) |}.
Definition compactFile (Phi : harmonic) : ifc := {| nFirst := 2; nSecond := 4; value := fun x y => Phi x (0, 0, 0) (y / 2) (y mod 2, 0, 0) |}.
Lemma two_located : located cubic (2, 1, 1) twoAtoms along.
Proof.
  split.
  - intro i. cbn [volume Z.mul]. split.
    + intro H. exists (i, 0, 0). cbn. lia.
    + intros ([[a b] c] & H & <-). cbn in *. lia.
  - intros [[a b] c] (Ha & Hb & Hc). replace b with 0 by lia. replace c with 0 by lia. clear Hb Hc. exists (inject_Z a * 10, 0, 0)%Q, (0, 0, 0)%Q.
    assert (a = 0 \/ a = 1) as [-> | ->] by lia.
    + split; [reflexivity|]. split; [reflexivity|]. intros [[a' b'] c'] (Ha' & Hb' & Hc'). replace b' with 0 by lia. replace c' with 0 by lia. assert (a' = 0 \/ a' = 1) as [-> | ->] by lia; (split; [intro H|intro H]); first [reflexivity | discriminate H].
    + split; [reflexivity|]. split; [reflexivity|]. intros [[a' b'] c'] (Ha' & Hb' & Hc'). replace b' with 0 by lia. replace c' with 0 by lia. assert (a' = 0 \/ a' = 1) as [-> | ->] by lia; (split; [intro H|intro H]); first [reflexivity | discriminate H].
Qed.
Lemma two_mapped : mapped 2 (volume (2, 1, 1)) [0; 2].
Proof. split; [reflexivity|]. intros m [<-|[<-|[]]]; cbn; lia. Qed.
Lemma get_two a m : zget [0; 2] a = Some m -> m = 2 * a /\ 0 <= a < 2.
Proof. intro H. destruct (zget_Some _ _ _ H) as [R _]. change (zlen [0; 2]) with 2 in R. assert (a = 0 \/ a = 1) as [-> | ->] by lia; cbn in H; injection H as <-; lia. Qed.
Lemma split_two a k : 0 <= k < 2 -> (2 * a + k) / 2 = a /\ (2 * a + k) mod 2 = k.
Proof. intro H. pose proof (Z.div_mod (2 * a + k) 2). pose proof (Z.mod_pos_bound (2 * a + k) 2). lia. Qed.
Lemma two_full Phi : fullLayout 2 (2, 1, 1) [0; 2] along (fullFile Phi) Phi.
Proof.
  split; [reflexivity|]. split; [reflexivity|]. intros a b ma mb [[r1 r2] r3] [[s1 s2] s3] i j Ha Hb (R1 & R2 & R3) (S1 & S2 & S3). apply get_two in Ha, Hb. destruct Ha as [-> Ha], Hb as [-> Hb]. unfold fullFile, value, along. cbn [fst snd].
  destruct (split_two a r1 R1) as [-> ->]. destruct (split_two b s1 S1) as [-> ->]. replace r2 with 0 by lia. replace r3 with 0 by lia. replace s2 with 0 by lia. replace s3 with 0 by lia. reflexivity.
Qed.
Lemma two_compact Phi : compactLayout 2 (2, 1, 1) [0; 2] along (compactFile Phi) Phi.
Proof.
  split; [reflexivity|]. split; [reflexivity|]. split; [cbn; lia|]. intros a b mb [[s1 s2] s3] i j Ha Hb (S1 & S2 & S3). apply get_two in Hb. destruct Hb as [-> Hb]. unfold compactFile, value, along. cbn [fst snd].
  destruct (split_two b s1 S1) as [-> ->]. replace s2 with 0 by lia. replace s3 with 0 by lia. reflexivity.
Qed.
Lemma sheared_symmetric : symmetricFC sheared.
Proof. intros a r b s i j. unfold sheared. rewrite (Z.eqb_sym (along r)). destruct (along s =? along r); [|reflexivity]. cbn [negb]. destruct (a =? 0) eqn:A0, (a =? 1) eqn:A1, (b =? 0) eqn:B0, (b =? 1) eqn:B1, (i =? 0), (i =? 1), (j =? 0), (j =? 1); cbn; try reflexivity; exfalso; lia. Qed.
Theorem C137_compact_refuted : exists u g sup idx nAtoms cellMap Phi f f', located u g sup idx /\ mapped nAtoms (volume g) cellMap /\ symmetricFC Phi /\ fullLayout nAtoms g cellMap idx f Phi /\ compactLayout nAtoms g cellMap idx f' Phi /\
  exists l l' h h', forceConstants g nAtoms u sup cellMap f 1 = Ok l /\ arrayIs l g nAtoms h /\ forceConstants g nAtoms u sup cellMap f' 1 = Ok l' /\ arrayIs l' g nAtoms h' /\
    ~ gammaMode nAtoms [(0, 0, 0); (1, 0, 0)] h 1 /\ gammaMode nAtoms [(0, 0, 0); (1, 0, 0)] h' 1.
Proof.
  exists cubic, (2, 1, 1), twoAtoms, along, 2, [0; 2], sheared, (fullFile sheared), (compactFile sheared). split; [exact two_located|]. split; [exact two_mapped|]. split; [exact sheared_symmetric|]. split; [apply two_full|]. split; [apply two_compact|].
  destruct (full_ok _ _ _ _ _ _ _ 1 two_located two_mapped _ (two_full sheared)) as (l & E & HA). destruct (compact_ok _ _ _ _ _ _ _ 1 two_located two_mapped _ (two_compact sheared)) as (l' & E' & HA').
  exists l, l'. eexists. eexists. split; [exact E|]. split; [exact HA|]. split; [exact E'|]. split; [exact HA'|]. split.
  - intros (x & (a & i & Ha & Hi & HX) & HE). pose proof (HE 0 0 ltac:(lia) ltac:(lia)) as E00. pose proof (HE 0 1 ltac:(lia) ltac:(lia)) as E01. pose proof (HE 0 2 ltac:(lia) ltac:(lia)) as E02. pose proof (HE 1 0 ltac:(lia) ltac:(lia)) as E10. pose proof (HE 1 1 ltac:(lia) ltac:(lia)) as E11. pose proof (HE 1 2 ltac:(lia) ltac:(lia)) as E12.
    change (zrange 0 2) with [0; 1] in *. cbn [list_prod app map fold_right sheared along origin fst snd Z.eqb negb andb Pos.eqb] in E00, E01, E02, E10, E11, E12. unfold sheared, along in *. cbn in E00, E01, E02, E10, E11, E12.
    assert (x 0 0 = 0%R /\ x 0 1 = 0%R /\ x 0 2 = 0%R /\ x 1 0 = 0%R /\ x 1 1 = 0%R /\ x 1 2 = 0%R) as (Z0 & Z1 & Z2 & Z3 & Z4 & Z5) by lra.
    assert (a = 0 \/ a = 1) as [-> | ->] by lia; assert (i = 0 \/ i = 1 \/ i = 2) as [-> | [-> | ->]] by lia; contradiction.
  - exists (fun a i => if (a =? 0) && (i =? 0) then 1%R else 0%R). split; [exists 0, 0; cbn; repeat split; try lia; lra|]. intros a i Ha Hi. change (zrange 0 2) with [0; 1].
    assert (a = 0 \/ a = 1) as [-> | ->] by lia; assert (i = 0 \/ i = 1 \/ i = 2) as [-> | [-> | ->]] by lia; unfold sheared, along; cbn; lra.
Qed.
Example C137_ex : located cubic (2, 1, 1) twoAtoms along /\ mapped 2 (volume (2, 1, 1)) [0; 2] /\ fullLayout 2 (2, 1, 1) [0; 2] along (fullFile sheared) sheared /\
  exists Phi, symmetricFC Phi /\ (forall a r b s i j, Phi a r b s i j = Phi a r b s j i) /\ compactLayout 2 (2, 1, 1) [0; 2] along (compactFile Phi) Phi /\ Phi 0 origin 1 origin 0 1 <> 0%R.
Proof.
  split; [exact two_located|]. split; [exact two_mapped|]. split; [apply two_full|]. exists (fun a r b s i j => IZR ((a + b) * (i + j + 1))). split; [|split; [|split]].
  - intros a r b s i j. f_equal. lia.
  - intros a r b s i j. f_equal. lia.
  - apply two_compact.
  - cbn. lra.
Qed.

(** * C138: Born charges *)
Theorem C138_read : forall head nAtoms nSpecies f eps cs, data f = eps :: cs -> zlen cs <= nAtoms -> zlen cs <= nSpecies -> (forall c, In c cs -> 9 <= zlen c) ->
  exists w, readBorn head nAtoms nSpecies f = Ok (Some eps, zlen cs, w) /\ chargesAre w cs.
Proof. intros. now apply born_ok. Qed.
(** in a crystal with two atoms of one species no file gives the charges of all atoms *)
Theorem C138_repeated_species_refuted : forall nAtoms nSpecies f eps n w, nSpecies < nAtoms -> readBorn true nAtoms nSpecies f = Ok (eps, n, w) -> forall i j v, ~ In ((nAtoms - 1, i, j), v) w.
Proof.
  intros nAtoms nSpecies f eps n w HN HR i j v Hin. unfold readBorn in HR. destruct (foldM _ _ _) as [[[e k] w']| |] eqn:EF; try discriminate. cbn [bind] in HR. destruct (true && (nSpecies <? k)) eqn:EB; [discriminate|]. injection HR as -> -> ->.
  destruct (born_bound nAtoms _ _ _ EF) as [_ HI]. cbn [fst snd] in HI. destruct (HI _ _ _ _ Hin) as [[]|HK]. cbn in EB. lia.
Qed.
(** a file with one line per inequivalent atom, as phonopy writes: atoms Ga, Ga, N, N have the lines of Ga and N. The second Ga gets the charge of N, the N atoms none *)
Theorem C138_inequivalent_refuted : forall head eps (zGa zN : list R), zlen zGa = 9 -> zlen zN = 9 -> exists w, readBorn head 4 2 [Comment; Numbers eps; Numbers zGa; Numbers zN] = Ok (Some eps, 2, w) /\
  (forall i j v, 0 <= i < 3 -> 0 <= j < 3 -> (In ((1, i, j), v) w <-> zget zN (i * 3 + j) = Some v)) /\ forall a i j v, 2 <= a -> ~ In ((a, i, j), v) w.
Proof.
  intros head eps zGa zN H1 H2. destruct (C138_read head 4 2 [Comment; Numbers eps; Numbers zGa; Numbers zN] eps [zGa; zN] eq_refl) as (w & E & HW); [cbn; lia|cbn; lia|intros c [<-|[<-|[]]]; lia|]. exists w. split; [exact E|]. split.
  - intros i j v Hi Hj. rewrite (HW 1 i j v). split.
    + intros (_ & _ & c & Ec & Ev). cbn in Ec. now injection Ec as <-.
    + intro Ev. repeat split; try lia. now exists zN.
  - intros a i j v Ha Hin. apply HW in Hin. destruct Hin as (_ & _ & c & Ec & _). apply zget_Some in Ec. change (zlen [zGa; zN]) with 2 in Ec. lia.
Qed.
Example C138_ex : let f := [Comment; Blank; Numbers [1;0;0;0;1;0;0;0;1]%R; Comment; Numbers [2;0;0;0;2;0;0;0;2]%R; Numbers [-2;0;0;0;-2;0;0;0;-2]%R] in
  data f = [[1;0;0;0;1;0;0;0;1]; [2;0;0;0;2;0;0;0;2]; [-2;0;0;0;-2;0;0;0;-2]]%R /\ exists s, readBorn true 2 2 f = Ok s /\ In ((1, 2, 2), (-2)%R) (snd s).
Proof. cbv zeta. split; [reflexivity|]. eexists. split; [reflexivity|]. cbn. tauto. Qed.
Print Assumptions C137_full. Print Assumptions C137_compact_partial. Print Assumptions C137_compact_refuted. Print Assumptions C138_read. Print Assumptions C138_repeated_species_refuted. Print Assumptions C138_inequivalent_refuted.
