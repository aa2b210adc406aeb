(** Property theorems for setIrreduciblePoints: C14-C17, C57. *)
From Coq Require Import QArith Permutation.
From Verif Require Import Base M_utilities M_mpi S_mpi M_points S_points L_points M_irreducible S_irreducible L_irreducible L_irreducible2.
Open Scope Z_scope.

(** * C14 *)
Theorem C14_orbits_and_stars : forall (S : Type) (rot : S -> Z -> res Z) syms n, 0 <= n -> acts rot syms n ->
  (exists E, zget syms 0 = Some E /\ forall j, 0 <= j < n -> rot E j = Ok j) ->
  exists equiv stars ri, setIrreduciblePoints rot syms n [] = Ok (equiv, stars, ri) /\ zlen equiv = n /\
    (forall i e, zget equiv i = Some e -> isRepresentative rot syms n i e) /\
    (forall i j e e', zget equiv i = Some e -> zget equiv j = Some e' -> (e = e' <-> linked rot syms i j)) /\
    Forall2 (fun r star => increasing star /\ forall i, In i star <-> 0 <= i < n /\ linked rot syms r i) (irrList equiv) stars /\
    Permutation (concat stars) (zrange 0 n) /\ zsum (map zlen stars) = n.
Proof. exact @orbits_spec. Qed.
Print Assumptions C14_orbits_and_stars.
(** a mesh with the symmetry of the crystal realises the hypothesis *)
Theorem C14_mesh_group_acts : forall m syms, posMesh m -> group syms -> meshSymmetric m syms ->
  acts (rotIndex (fullMesh m)) syms (nodes m) /\
  forall A i j, In A syms -> 0 <= i < nodes m -> 0 <= j < nodes m ->
    (rotIndex (fullMesh m) A i = Ok j <-> sameWavevector (mv A (meshCoordinates m i)) (meshCoordinates m j)).
Proof. intros m syms P G HS. split; [apply mesh_acts; assumption|]. intros. eapply rotIndex_unique; eassumption. Qed.
Print Assumptions C14_mesh_group_acts.

(** a case that meets the hypotheses: identity, inversion, and x<->y on a 3x3x3 mesh *)
Definition mI : m33 := M33 (V3 1 0 0) (V3 0 1 0) (V3 0 0 1).
Definition mInv : m33 := M33 (V3 (-1) 0 0) (V3 0 (-1) 0) (V3 0 0 (-1)).
Definition mSw : m33 := M33 (V3 0 1 0) (V3 1 0 0) (V3 0 0 1).
Definition mSwInv : m33 := M33 (V3 0 (-1) 0) (V3 (-1) 0 0) (V3 0 0 (-1)).
Ltac intmat := match goal with |- intMat ?A =>
  split; [|split]; [exists (Qnum (c0 (r0 A))), (Qnum (c1 (r0 A))), (Qnum (c2 (r0 A)))
                   |exists (Qnum (c0 (r1 A))), (Qnum (c1 (r1 A))), (Qnum (c2 (r1 A)))
                   |exists (Qnum (c0 (r2 A))), (Qnum (c1 (r2 A))), (Qnum (c2 (r2 A)))];
  (split; [|split]; vm_compute; reflexivity) end.
Ltac mvv := intros [? ? ?]; unfold mv, dot3; split; [|split]; cbn; ring.
Lemma group_ex : group [mI; mInv; mSw; mSwInv].
Proof.
  split; [repeat (apply Forall_cons; [intmat|]); apply Forall_nil|].
  split; [exists mI; split; [left; reflexivity|mvv]|].
  split.
  - intros A B IA IB.
    destruct IA as [<-|[<-|[<-|[<-|[]]]]], IB as [<-|[<-|[<-|[<-|[]]]]];
    first [exists mI; split; [cbn; tauto|mvv] | exists mInv; split; [cbn; tauto|mvv]
          | exists mSw; split; [cbn; tauto|mvv] | exists mSwInv; split; [cbn; tauto|mvv]].
  - intros A [<-|[<-|[<-|[<-|[]]]]];
    first [exists mI; split; [cbn; tauto|mvv] | exists mInv; split; [cbn; tauto|mvv]
          | exists mSw; split; [cbn; tauto|mvv] | exists mSwInv; split; [cbn; tauto|mvv]].
Qed.
Definition mesh333 := Mesh 3 3 3 (V3 0 0 0).
Lemma mesh333_symmetric : meshSymmetric mesh333 [mI; mInv; mSw; mSwInv].
Proof.
  apply cubic_symmetric; [split; [|split]; reflexivity|split; [|split]; reflexivity|reflexivity|reflexivity|apply group_ex].
Qed.
Example C14_ex : posMesh mesh333 /\ group [mI; mInv; mSw; mSwInv] /\ meshSymmetric mesh333 [mI; mInv; mSw; mSwInv] /\
  exists equiv stars ri, setIrreduciblePoints (rotIndex (fullMesh mesh333)) [mI; mInv; mSw; mSwInv] (nodes mesh333) [] = Ok (equiv, stars, ri) /\
    zlen (irrList equiv) = 10 /\ zget stars 1 = Some [1; 2; 3; 6] /\ zget ri 6 = Some 3.
Proof.
  split; [split; [|split]; reflexivity|]. split; [exact group_ex|]. split; [exact mesh333_symmetric|].
  eexists _, _, _. split; [vm_compute; reflexivity|]. split; [reflexivity|]. split; reflexivity.
Qed.

(** * C15 *)
Theorem C15_index_maps_inverse : forall (S : Type) (rot : S -> Z -> res Z) syms n, 0 <= n -> acts rot syms n ->
  (exists E, zget syms 0 = Some E /\ forall j, 0 <= j < n -> rot E j = Ok j) ->
  exists equiv stars ri, setIrreduciblePoints rot syms n [] = Ok (equiv, stars, ri) /\
  forall size, fits n size -> exists outs, redToIrr equiv size = Ok outs /\ zlen outs = size /\
  Forall (fun red2irr =>
    (forall i, 0 <= i < zlen (irrList equiv) -> exists ik, asReducibleIndex (irrList equiv) i = Ok ik /\
        asIrreducibleIndex (irrList equiv) red2irr ik = Ok i) /\
    (forall ik, 0 <= ik < n -> exists i e, asIrreducibleIndex (irrList equiv) red2irr ik = Ok i /\
        0 <= i < zlen (irrList equiv) /\ asReducibleIndex (irrList equiv) i = Ok e /\
        isRepresentative rot syms n ik e)) outs.
Proof. exact @maps_spec. Qed.
Print Assumptions C15_index_maps_inverse.
Theorem C15_irreducible_iterators : forall (S : Type) (rot : S -> Z -> res Z) syms n, 0 <= n -> acts rot syms n ->
  (exists E, zget syms 0 = Some E /\ forall j, 0 <= j < n -> rot E j = Ok j) ->
  exists equiv stars ri, setIrreduciblePoints rot syms n [] = Ok (equiv, stars, ri) /\
    increasing (irrList equiv) /\ (forall k, In k (irrList equiv) <-> 0 <= k < n /\ isRepresentative rot syms n k k) /\
    forall size, fits n size -> concat (map (fun r => parallelIrr equiv r size) (zrange 0 size)) = irrList equiv.
Proof. exact @irr_iterators. Qed.
Print Assumptions C15_irreducible_iterators.
Example C15_ex : exists equiv stars ri outs,
  setIrreduciblePoints (rotIndex (fullMesh mesh333)) [mI; mInv; mSw; mSwInv] 27 [] = Ok (equiv, stars, ri) /\
  redToIrr equiv 4 = Ok outs /\ Forall (fun o => asIrreducibleIndex (irrList equiv) o 26 = Ok 7) outs /\
  asReducibleIndex (irrList equiv) 7 = Ok 13 /\ parallelIrr equiv 2 4 = [10; 11].
Proof.
  eexists _, _, _, _. split; [vm_compute; reflexivity|]. split; [vm_compute; reflexivity|].
  split; [repeat (apply Forall_cons; [reflexivity|]); apply Forall_nil|]. split; vm_compute; reflexivity.
Qed.

(** * C16 *)
Theorem C16_rotations_of_the_star : forall (S : Type) (rot : S -> Z -> res Z) syms n, acts rot syms n ->
  (exists E, zget syms 0 = Some E /\ forall j, 0 <= j < n -> rot E j = Ok j) -> 0 <= n ->
  exists equiv stars ri, setIrreduciblePoints rot syms n [] = Ok (equiv, stars, ri) /\
  forall size outs, fits n size -> redToIrr equiv size = Ok outs -> Forall (fun red2irr =>
    forall ik e, zget equiv ik = Some e -> exists star rots,
      starOf stars red2irr ik = Ok star /\ getRotationsStar syms stars red2irr ri ik = Ok rots /\
      Forall2 (fun s j => rot s e = Ok j) rots star /\ NoDup star /\
      forall j, In j star <-> 0 <= j < n /\ linked rot syms ik j) outs.
Proof. exact @star_rotations. Qed.
Print Assumptions C16_rotations_of_the_star.
Theorem C16_rotation_to_irreducible : forall m syms, posMesh m -> group syms -> meshSymmetric m syms ->
  (exists E, zget syms 0 = Some E /\ forall v, veq (mv E v) v) ->
  exists equiv stars ri, setIrreduciblePoints (rotIndex (fullMesh m)) syms (nodes m) [] = Ok (equiv, stars, ri) /\
  forall ik x, 0 <= ik < nodes m -> sameWavevector x (meshCoordinates m ik) -> exists e R,
    getRotationToIrreducible (fullMesh m) syms equiv ri x = Ok (e, R) /\ zget equiv ik = Some e /\
    sameWavevector (mv R x) (meshCoordinates m e).
Proof. exact rotation_to_irreducible. Qed.
Print Assumptions C16_rotation_to_irreducible.
(** with group velocities: still a rotation from the representative, and the one whose velocities match best *)
Theorem C16_rotation_with_velocities : forall (S : Type) (rot : S -> Z -> res Z) syms n, acts rot syms n ->
  forall diff equiv i e, zget equiv i = Some e -> 0 <= i < n -> isRepresentative rot syms n i e ->
  (exists E, zget syms 0 = Some E /\ forall j, 0 <= j < n -> rot E j = Ok j) ->
  exists ri s, rotationIndexVel rot diff syms equiv i = Ok ri /\ zget syms ri = Some s /\ rot s e = Ok i /\
    (e <> i -> forall ri' s', zget syms ri' = Some s' -> rot s' e = Ok i -> (diff ri e i <= diff ri' e i)%Q).
Proof. exact @rotationIndexVel_spec. Qed.
Print Assumptions C16_rotation_with_velocities.
Example C16_ex : exists equiv stars ri,
  setIrreduciblePoints (rotIndex (fullMesh mesh333)) [mI; mInv; mSw; mSwInv] 27 [] = Ok (equiv, stars, ri) /\
  exists R, getRotationToIrreducible (fullMesh mesh333) [mI; mInv; mSw; mSwInv] equiv ri (V3 0 (5#3) 1) = Ok (1, R) /\
    sameWavevector (mv R (V3 0 (5#3) 1)) (meshCoordinates mesh333 1) /\
  rotationIndexVel (rotIndex (fullMesh mesh333)) (fun is _ _ => inject_Z is) [mI; mInv; mSw; mSwInv] equiv 6 = Ok 3.
Proof.
  eexists _, _, _. split; [vm_compute; reflexivity|]. eexists. split; [vm_compute; reflexivity|]. split; [|vm_compute; reflexivity].
  exists (-2), (0), (-1). vm_compute. repeat split.
Qed.

(** * C17: false: the stars of the first call stay in the list *)
Theorem C17_recompute_refuted : exists (rot : bool -> Z -> res Z) n,
  acts rot [true; false] n /\ acts rot [true] n /\ (forall j, rot true j = Ok j) /\
  exists e1 s1 r1 e2 s2 r2 s2' red, 
    setIrreduciblePoints rot [true; false] n [] = Ok (e1, s1, r1) /\
    setIrreduciblePoints rot [true] n s1 = Ok (e2, s2, r2) /\
    setIrreduciblePoints rot [true] n [] = Ok (e2, s2', r2) /\
    redToIrr e2 1 = Ok [red] /\ starOf s2 red 1 = Ok [2; 3] /\ starOf s2' red 1 = Ok [1].
Proof.
  exists (fun b i => if b : bool then Ok i else Ok (match i with 0 => 1 | 1 => 0 | 2 => 3 | 3 => 2 | _ => i end)), 4.
  split; [|split; [|split]].
  - split; [|split; [|split]].
    + intros s i _ Hi. destruct s; [exists i; split; [reflexivity|lia]|].
      assert (i = 0 \/ i = 1 \/ i = 2 \/ i = 3) as [->|[->|[->| ->]]] by lia; eexists; (split; [reflexivity|lia]).
    + intros i _. exists true. split; [left; reflexivity|reflexivity].
    + intros i j Hi Hj (s & Is & E). exists s. split; [assumption|]. destruct s; [congruence|].
      assert (i = 0 \/ i = 1 \/ i = 2 \/ i = 3) as [->|[->|[->| ->]]] by lia; injection E as <-; reflexivity.
    + intros i j k Hi Hj Hk (s & Is & E) (t & It & F). destruct s, t.
      * exists true. split; [left; reflexivity|]. congruence.
      * exists false. split; [right; left; reflexivity|]. injection E as <-. exact F.
      * exists false. split; [right; left; reflexivity|]. injection F as <-. exact E.
      * exists true. split; [left; reflexivity|].
        assert (i = 0 \/ i = 1 \/ i = 2 \/ i = 3) as [->|[->|[->| ->]]] by lia; injection E as <-; injection F as <-; reflexivity.
  - split; [|split; [|split]].
    + intros s i [<-|[]] Hi. exists i. split; [reflexivity|lia].
    + intros i _. exists true. split; [left; reflexivity|reflexivity].
    + intros i j Hi Hj (s & [<-|[]] & E). exists true. split; [left; reflexivity|congruence].
    + intros i j k Hi Hj Hk (s & [<-|[]] & E) (t & [<-|[]] & F). exists true. split; [left; reflexivity|congruence].
  - reflexivity.
  - eexists _, _, _, _, _, _, _, _. split; [vm_compute; reflexivity|]. split; [vm_compute; reflexivity|].
    split; [vm_compute; reflexivity|]. split; [vm_compute; reflexivity|]. split; vm_compute; reflexivity.
Qed.
Print Assumptions C17_recompute_refuted.
(** with the same symmetries the answers do not change (missing: other symmetry lists, see above) *)
Theorem C17_recompute_partial : forall (S : Type) (rot : S -> Z -> res Z) syms n, 0 <= n -> acts rot syms n ->
  (exists E, zget syms 0 = Some E /\ forall j, 0 <= j < n -> rot E j = Ok j) ->
  exists equiv stars ri, setIrreduciblePoints rot syms n [] = Ok (equiv, stars, ri) /\
    exists stars', setIrreduciblePoints rot syms n stars = Ok (equiv, stars', ri) /\
    forall i, 0 <= i < zlen (irrList equiv) -> zget stars' i = zget stars i.
Proof. exact @recompute_same. Qed.
Print Assumptions C17_recompute_partial.

(** * C57: false on meshes without the symmetry of the crystal: no error, wrong stars *)
Theorem C57_stars_refuted : exists m syms, posMesh m /\ gammaMesh m /\ group syms /\
  exists equiv stars ri, setIrreduciblePoints (rotIndex (fullMesh m)) syms (nodes m) [] = Ok (equiv, stars, ri) /\
    zget equiv 3 = Some 2 /\
    forall A, In A syms -> ~ sameWavevector (mv A (meshCoordinates m 2)) (meshCoordinates m 3).
Proof.
  exists (Mesh 3 2 1 (V3 0 0 0)), [mI; mSw]. split; [split; [|split]; reflexivity|]. split; [split; [|split]; reflexivity|].
  split.
  { split; [repeat (apply Forall_cons; [intmat|]); apply Forall_nil|].
    split; [exists mI; split; [left; reflexivity|mvv]|]. split.
    - intros A B [<-|[<-|[]]] [<-|[<-|[]]]; first [exists mI; split; [cbn; tauto|mvv] | exists mSw; split; [cbn; tauto|mvv]].
    - intros A [<-|[<-|[]]]; first [exists mI; split; [cbn; tauto|mvv] | exists mSw; split; [cbn; tauto|mvv]]. }
  eexists _, _, _. split; [vm_compute; reflexivity|]. split; [reflexivity|].
  intros A [<-|[<-|[]]] (a & b & c & H0 & H1 & H2).
  - assert (E : (2#3 == inject_Z a)%Q) by (rewrite <- (H0 : (_ == inject_Z a)%Q); vm_compute; reflexivity).
    unfold Qeq in E; cbn in E. lia.
  - assert (E : (1#6 == inject_Z b)%Q) by (rewrite <- (H1 : (_ == inject_Z b)%Q); vm_compute; reflexivity).
    unfold Qeq in E; cbn in E. lia.
Qed.
Print Assumptions C57_stars_refuted.
(** true on every mesh mapped onto itself by the group (missing: the other meshes) *)
Theorem C57_stars_partial : forall m syms, posMesh m -> group syms -> meshSymmetric m syms ->
  (exists E, zget syms 0 = Some E /\ forall v, veq (mv E v) v) ->
  exists equiv stars ri, setIrreduciblePoints (rotIndex (fullMesh m)) syms (nodes m) [] = Ok (equiv, stars, ri) /\
  forall i j, (exists e, zget equiv i = Some e /\ zget equiv j = Some e) <->
    (0 <= i < nodes m /\ 0 <= j < nodes m /\ exists A, In A syms /\ sameWavevector (mv A (meshCoordinates m i)) (meshCoordinates m j)).
Proof. exact stars_equivalent. Qed.
Print Assumptions C57_stars_partial.
(** equal subdivisions without shift are always mapped onto themselves *)
Theorem C57_cubic_meshes_qualify : forall m syms, posMesh m -> gammaMesh m -> m0 m = m1 m -> m1 m = m2 m ->
  Forall intMat syms -> meshSymmetric m syms.
Proof. exact cubic_symmetric. Qed.
Print Assumptions C57_cubic_meshes_qualify.
