(** Velocities, eigenvectors of the full band structure; distributed dot product. *)
From Coq Require Import QArith Qcanon Permutation.
From Verif Require Import Base BaseLemmas M_utilities M_mpi M_reduce M_points M_irreducible S_points M_matrix S_matrix L_utilities L_mpi L_fill L_reduce L_irreducible L_matrix L_matrix2 L_matrix3.
Open Scope Z_scope.

Lemma scatter_spec' {V} (zero : V) n (w : list (Z * V)) : 0 <= n -> NoDup (map fst w) -> Forall (fun p => 0 <= fst p < n) w ->
  exists buf, scatter zero n w = Ok buf /\ zlen buf = n /\ (forall i v, In (i, v) w -> zget buf i = Some v).
Proof.
  intros Hn. unfold scatter. assert (G : forall b0, zlen b0 = n -> NoDup (map fst w) -> Forall (fun p => 0 <= fst p < n) w ->
    exists buf, foldM (fun buf w => put buf (fst w) (snd w)) w b0 = Ok buf /\ zlen buf = n /\ (forall i v, In (i, v) w -> zget buf i = Some v) /\
    forall i, ~ In i (map fst w) -> zget buf i = zget b0 i).
  { clear Hn. induction w as [|[i v] w IH]; intros b0 Hb ND HF.
    - exists b0. split; [reflexivity|]. split; [exact Hb|]. split; [intros ? ? []|reflexivity].
    - cbn [map fst] in ND. apply NoDup_cons_iff in ND as [N1 N2]. pose proof (Forall_inv HF) as R. cbn in R.
      destruct (IH (zupd b0 i v)) as (b & E & Lb & G1 & G2); [rewrite zlen_zupd; exact Hb|exact N2|exact (Forall_inv_tail HF)|].
      exists b. cbn [foldM fst snd]. rewrite put_ok by lia. cbn [bind]. split; [exact E|]. split; [exact Lb|]. split.
      + intros j u [I|I]; [injection I as <- <-; rewrite (G2 i N1); apply zget_zupd_eq; lia|apply G1; exact I].
      + intros j NJ. cbn [map fst In] in NJ. rewrite G2 by tauto. apply zget_zupd_ne. tauto. }
  intros ND HF. destruct (G (repeat zero (Z.to_nat n))) as (b & E & Lb & G1 & _); try assumption; [apply zlen_repeat; exact Hn|].
  exists b. split; [exact E|]. split; [exact Lb|exact G1].
Qed.

(** packing a family of values into a vector *)
Lemma pack_ok {A T} (zero : T) (N : Z) (l : list A) (idx : A -> res Z) (pos : A -> Z) (val : A -> T) :
  0 <= N -> NoDup l -> (forall a, In a l -> idx a = Ok (pos a) /\ 0 <= pos a < N) ->
  (forall a b, In a l -> In b l -> pos a = pos b -> a = b) ->
  exists w tmp, mapM (fun a => do i <- idx a ; Ok (i, val a)) l = Ok w /\ scatter zero N w = Ok tmp /\ zlen tmp = N /\
  forall a, In a l -> zget tmp (pos a) = Some (val a).
Proof.
  intros HN ND Hi Hinj. exists (map (fun a => (pos a, val a)) l).
  assert (E : mapM (fun a => do i <- idx a ; Ok (i, val a)) l = Ok (map (fun a => (pos a, val a)) l)).
  { apply mapM_ok. intros a I. destruct (Hi a I) as [-> _]. reflexivity. }
  destruct (scatter_spec' zero N (map (fun a => (pos a, val a)) l) HN) as (tmp & E2 & Lt & G).
  - rewrite map_map. cbn [fst]. clear - ND Hinj. induction l as [|a l IH]; [constructor|]. apply NoDup_cons_iff in ND as [N1 N2]. cbn. constructor.
    + intro C. apply in_map_iff in C as (b & Eb & Ib). apply N1. rewrite (Hinj a b (or_introl eq_refl) (or_intror Ib) (eq_sym Eb)). exact Ib.
    + apply IH; [exact N2|]. intros; apply Hinj; try right; assumption.
  - apply Forall_forall. intros [i v] I. apply in_map_iff in I as (a & Ea & Ia). injection Ea as <- <-. cbn. apply (Hi a Ia).
  - exists tmp. split; [exact E|]. split; [exact E2|]. split; [exact Lt|]. intros a Ia. apply G. apply in_map_iff. exists a. split; [reflexivity|exact Ia].
Qed.

Lemma c3_inj i j k i' j' k' s1 s2 s3 : 0 <= i < s1 -> 0 <= j < s2 -> 0 <= k < s3 -> 0 <= i' < s1 -> 0 <= j' < s2 -> 0 <= k' < s3 ->
  c3 i j k s2 s3 = c3 i' j' k' s2 s3 -> i = i' /\ j = j' /\ k = k'.
Proof.
  unfold c3. intros. assert (i * s2 + j = i' * s2 + j') by nia. assert (k = k') by lia. assert (i = i') by nia. subst. lia.
Qed.

Section V.
Variables (size nb n : Z) (L : layout).
Hypothesis Hsize : 0 < size.
Hypothesis Hnb : 0 < nb.
Hypothesis Hn : 0 < n.
Context {T : Type}.
Variable zero : T.
Variable p : Z * Z.
Hypothesis Hp : isProcess L p.

Lemma velocities_roundtrip (buf : list T) ik vel : bandLayout size (nb * nb * 3) n = Ok L -> nb * nb * 3 <= INT_MAX ->
  zlen buf = numLocalElements L p -> 0 <= ik < n -> indicesAreLocal L p 0 ik = true ->
  exists buf', setVelocities zero L p nb buf ik vel = Ok buf' /\ zlen buf' = numLocalElements L p /\
  (forall i j k, 0 <= i < nb -> 0 <= j < nb -> 0 <= k < 3 -> getVelocities zero L p nb buf' ik i j k = Ok (vel i j k)) /\
  (forall ik' i j k, 0 <= ik' < n -> ik' <> ik -> indicesAreLocal L p 0 ik' = true -> 0 <= i < nb -> 0 <= j < nb -> 0 <= k < 3 ->
     getVelocities zero L p nb buf' ik' i j k = getVelocities zero L p nb buf ik' i j k).
Proof.
  intros HB HM Hb Hk Hloc. unfold setVelocities, packVelocities.
  set (l := list_prod (list_prod (zrange 0 nb) (zrange 0 nb)) (zrange 0 3)).
  assert (Hl : forall i j k, In (i, j, k) l <-> 0 <= i < nb /\ 0 <= j < nb /\ 0 <= k < 3).
  { intros. unfold l. rewrite !in_prod_iff, !in_zrange. lia. }
  destruct (pack_ok zero (nb * nb * 3) l (fun t => compress3Indices (fst (fst t)) (snd (fst t)) (snd t) nb nb 3)
     (fun t => c3 (fst (fst t)) (snd (fst t)) (snd t) nb 3) (fun t => vel (fst (fst t)) (snd (fst t)) (snd t))) as (w & tmp & E1 & E2 & Lt & G).
  - nia.
  - unfold l. apply NoDup_list_prod; [apply NoDup_list_prod|]; apply NoDup_zrange.
  - intros [[i j] k] I. apply Hl in I. cbn [fst snd]. split; [apply compress3_ok; lia|apply c3_range; lia].
  - intros [[i j] k] [[i' j'] k'] I I' E. apply Hl in I. apply Hl in I'. cbn [fst snd] in E.
    destruct (c3_inj i j k i' j' k' nb nb 3) as (-> & -> & ->); try lia; reflexivity.
  - assert (EW : mapM (fun t => let '(i, j, k) := t in do idx <- compress3Indices i j k nb nb 3 ; Ok (idx, vel i j k)) l = Ok w).
    { rewrite <- E1. clear. induction l as [|[[i j] k] l IH]; [reflexivity|]. cbn [mapM fst snd]. rewrite IH. reflexivity. }
    rewrite EW. cbn [bind]. rewrite E2. cbn [bind].
    destruct (setColumn_ok size (nb * nb * 3) n L Hsize ltac:(nia) Hn HB zero p Hp buf ik tmp Hb Hk Hloc Lt) as (b & Eb & Lb & G1 & G2).
    exists b. split; [exact Eb|]. split; [exact Lb|]. split.
    + intros i j k Hi Hj Hkk. unfold getVelocities. rewrite Hloc. cbn [negb]. rewrite (compress3_ok i j k nb nb 3) by lia. cbn [bind].
      specialize (G (i, j, k) (proj2 (Hl i j k) (conj Hi (conj Hj Hkk)))). cbn [fst snd] in G.
      specialize (G1 (c3 i j k nb 3) ltac:(apply c3_range; lia)). rewrite G in G1. cbn in G1. congruence.
    + intros ik' i j k Hk' Hne Hl' Hi Hj Hkk. unfold getVelocities. rewrite Hl'. cbn [negb]. rewrite (compress3_ok i j k nb nb 3) by lia. cbn [bind].
      apply G2; try assumption. apply c3_range; lia.
Qed.

Lemma group_velocity (buf : list T) ik ib i : bandLayout size (nb * nb * 3) n = Ok L -> nb * nb * 3 <= INT_MAX -> n * nb <= INT_MAX ->
  0 <= ik < n -> 0 <= ib < nb -> 0 <= i < 3 ->
  getGroupVelocity zero L p n nb buf (ik * nb + ib) i = getVelocities zero L p nb buf ik ib ib i.
Proof.
  intros HB HM HM2 Hk Hb Hi. unfold getGroupVelocity. destruct (compress2_roundtrip n nb ik ib) as (k & E & _ & D); try lia.
  destruct (compress2_ok ik ib n nb) as [E' _]; try lia. rewrite E' in E. injection E as <-. rewrite D. cbn [bind fst snd].
  rewrite (band_local0 size (nb * nb * 3) n L Hsize ltac:(nia) Hn HB p Hp ik ib) by nia. reflexivity.
Qed.

Lemma eigenvectors_roundtrip (buf : list T) ik eig : bandLayout size (nb * nb) n = Ok L -> nb * nb <= INT_MAX ->
  zlen buf = numLocalElements L p -> 0 <= ik < n -> indicesAreLocal L p 0 ik = true ->
  exists buf', setEigenvectors zero L p nb buf ik eig = Ok buf' /\ zlen buf' = numLocalElements L p /\
  (forall i j, 0 <= i < nb -> 0 <= j < nb -> getEigenvectors zero L p nb buf' ik i j = Ok (eig i j)) /\
  (forall numAtoms ic ia ib, nb = 3 * numAtoms -> 0 <= ic < 3 -> 0 <= ia < numAtoms -> 0 <= ib < nb ->
     getPhEigenvectors zero L p numAtoms nb buf' ik ic ia ib = Ok (eig (3 * ia + ic) ib)) /\
  (forall ik' i j, 0 <= ik' < n -> ik' <> ik -> indicesAreLocal L p 0 ik' = true -> 0 <= i < nb -> 0 <= j < nb ->
     getEigenvectors zero L p nb buf' ik' i j = getEigenvectors zero L p nb buf ik' i j).
Proof.
  intros HB HM Hb Hk Hloc. unfold setEigenvectors.
  set (l := list_prod (zrange 0 nb) (zrange 0 nb)).
  assert (Hl : forall i j, In (i, j) l <-> 0 <= i < nb /\ 0 <= j < nb).
  { intros. unfold l. rewrite in_prod_iff, !in_zrange. lia. }
  destruct (pack_ok zero (nb * nb) l (fun t => compress2Indices (fst t) (snd t) nb nb)
     (fun t => fst t * nb + snd t) (fun t => eig (fst t) (snd t))) as (w & tmp & E1 & E2 & Lt & G).
  - nia.
  - unfold l. apply NoDup_list_prod; apply NoDup_zrange.
  - intros [i j] I. apply Hl in I. cbn [fst snd]. apply compress2_ok; lia.
  - intros [i j] [i' j'] I I' E. apply Hl in I. apply Hl in I'. cbn [fst snd] in E. assert (i = i') by nia. subst i'. f_equal. lia.
  - assert (EW : mapM (fun t => let '(i, j) := t in do idx <- compress2Indices i j nb nb ; Ok (idx, eig i j)) l = Ok w).
    { rewrite <- E1. clear. induction l as [|[i j] l IH]; [reflexivity|]. cbn [mapM fst snd]. rewrite IH. reflexivity. }
    rewrite EW. cbn [bind]. rewrite E2. cbn [bind].
    destruct (setColumn_ok size (nb * nb) n L Hsize ltac:(nia) Hn HB zero p Hp buf ik tmp Hb Hk Hloc Lt) as (b & Eb & Lb & G1 & G2).
    assert (V : forall i j, 0 <= i < nb -> 0 <= j < nb -> pget zero L p b (i * nb + j) ik = Ok (eig i j)).
    { intros i j Hi Hj. specialize (G (i, j) (proj2 (Hl i j) (conj Hi Hj))). cbn [fst snd] in G.
      specialize (G1 (i * nb + j) ltac:(nia)). rewrite G in G1. cbn in G1. congruence. }
    exists b. split; [exact Eb|]. split; [exact Lb|]. split; [|split].
    + intros i j Hi Hj. unfold getEigenvectors. rewrite Hloc. cbn [negb]. destruct (compress2_ok i j nb nb) as [-> _]; try lia. apply V; assumption.
    + intros numAtoms ic ia ib En Hic Hia Hib. unfold getPhEigenvectors. rewrite Hloc. cbn [negb].
      rewrite (compress3_ok ia ic ib numAtoms 3 nb) by nia. cbn [bind]. unfold c3. replace (ia * 3 + ic) with (3 * ia + ic) by ring.
      apply V; lia.
    + intros ik' i j Hk' Hne Hl' Hi Hj. unfold getEigenvectors. rewrite Hl'. cbn [negb]. destruct (compress2_ok i j nb nb) as [-> _]; try lia. cbn [bind].
      apply G2; try assumption. nia.
Qed.
End V.

(** ** dot *)
Lemma pdot_many L (A B : Z -> Z -> Qc) : validLayout L -> 2 <= npRows L * npCols L ->
  pdot (map (fun p => map (fun t => A (fst t) (snd t)) (getAllLocalStates L p)) (processes L))
       (map (fun p => map (fun t => B (fst t) (snd t)) (getAllLocalStates L p)) (processes L)) =
  map (fun _ => sumTo (lRows L) (fun i => sumTo (lCols L) (fun j => (A i j * B i j)%Qc))) (processes L).
Proof.
  intros HL H2. unfold pdot.
  assert (E : map (fun q => localDot (fst q) (snd q)) (combine (map (fun p => map (fun t => A (fst t) (snd t)) (getAllLocalStates L p)) (processes L)) (map (fun p => map (fun t => B (fst t) (snd t)) (getAllLocalStates L p)) (processes L)))
     = map (fun p => qsum (map (fun t => (A (fst t) (snd t) * B (fst t) (snd t))%Qc) (getAllLocalStates L p))) (processes L)).
  { induction (processes L) as [|p l IH]; [reflexivity|]. cbn [map combine fst snd]. rewrite IH. f_equal. unfold localDot. f_equal.
    induction (getAllLocalStates L p) as [|t l' IH']; [reflexivity|]. cbn [map combine fst snd]. rewrite IH'. reflexivity. }
  rewrite E. clear E. rewrite zlen_map.
  assert (Hlen : zlen (processes L) = npRows L * npCols L).
  { unfold processes, zlen. rewrite prod_length, !zrange_length. destruct HL as (_&_&_&_&?&?). rewrite Nat2Z.inj_mul, !Z2Nat.id by lia. reflexivity. }
  rewrite Hlen. destruct (_ =? 1) eqn:E; [lia|]. rewrite map_map. apply map_ext. intros _.
  assert (F : qsum (map (fun p => qsum (map (fun t => (A (fst t) (snd t) * B (fst t) (snd t))%Qc) (getAllLocalStates L p))) (processes L)) =
     qsum (map (fun t => (A (fst t) (snd t) * B (fst t) (snd t))%Qc) (flat_map (getAllLocalStates L) (processes L)))).
  { clear Hlen. induction (processes L) as [|p l IH]; [reflexivity|]. cbn [map flat_map]. rewrite map_app, qsum_app, <- IH. reflexivity. }
  rewrite F. rewrite (qsum_perm _ _ (Permutation_map _ (states_partition L HL))).
  unfold sumTo. fold (qsum (map (fun i => qsum (map (fun j => (A i j * B i j)%Qc) (zrange 0 (lCols L)))) (zrange 0 (lRows L)))).
  generalize (zrange 0 (lRows L)) as l. induction l as [|i l IH]; [reflexivity|]. cbn [list_prod]. rewrite map_app, qsum_app, IH. cbn [map].
  rewrite map_map. unfold qsum. cbn [fold_right fst snd]. reflexivity.
Qed.
