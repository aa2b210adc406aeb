(** Property theorems for src/points.cpp: C08-C13, C54, C58-C60. *)
From Coq Require Import QArith Qabs.
From Verif Require Import Base M_points S_points L_points L_search L_points2.
Open Scope Z_scope.

(** * C08 *)
Theorem C08_node_order : forall m i j k, posMesh m ->
  0 <= i < m0 m -> 0 <= j < m1 m -> 0 <= k < m2 m ->
  getPointCoordinates (fullMesh m) (k * m0 m * m1 m + j * m0 m + i) = Ok (gridNode m i j k).
Proof. intros. cbn. f_equal. apply meshCoordinates_node; assumption. Qed.
Print Assumptions C08_node_order.
Theorem C08_lookup_of_coordinates : forall m c ik v, posMesh m -> 0 <= ik < nodes m ->
  getPointCoordinates (fullMesh m) ik = Ok v -> sameWavevector c v ->
  getIndex (fullMesh m) c = Ok ik.
Proof. intros m c ik v P H E S. injection E as <-. apply getIndex_full; assumption. Qed.
Print Assumptions C08_lookup_of_coordinates.
Theorem C08_coordinates_distinct : forall m a b va vb, posMesh m -> 0 <= a < nodes m -> 0 <= b < nodes m ->
  getPointCoordinates (fullMesh m) a = Ok va -> getPointCoordinates (fullMesh m) b = Ok vb ->
  sameWavevector va vb -> a = b.
Proof. intros m a b va vb P Ha Hb Ea Eb S. injection Ea as <-. injection Eb as <-. eapply mesh_distinct; eassumption. Qed.
Print Assumptions C08_coordinates_distinct.
(** every grid node, folded or not, is found *)
Theorem C08_every_node_found : forall m i j k, posMesh m ->
  exists ik v, getIndex (fullMesh m) (gridNode m i j k) = Ok ik /\ 0 <= ik < nodes m /\
    getPointCoordinates (fullMesh m) ik = Ok v /\ sameWavevector (gridNode m i j k) v.
Proof.
  intros m i j k P. destruct (getIndex_any_node m i j k P) as (ik & E & R & S).
  exists ik, (meshCoordinates m ik). repeat split; try assumption; apply R.
Qed.
Print Assumptions C08_every_node_found.
Example C08_ex : let m := Mesh 4 3 2 (V3 (1#8) 0 (1#5)) in posMesh m /\
  getIndex (fullMesh m) (V3 ((3#4) + (1#8) - 2) (2#3) ((1#2) + (1#5) + 1)) = Ok 23.
Proof. split; [repeat split|vm_compute; reflexivity]. Qed.

(** * C09: false as stated: the deviations are added with their sign *)
Theorem C09_off_mesh_rejected_refuted : exists m c, posMesh m /\ gammaMesh m /\
  (forall i j k, ~ sameWavevector c (gridNode m i j k)) /\
  (forall i j k, 1 # 10 <= Qabs (c0 c - c0 (gridNode m i j k)))%Q /\
  getIndex (fullMesh m) c = Ok 0.
Proof. exact offmesh_accepted. Qed.
Print Assumptions C09_off_mesh_rejected_refuted.
(** rejected when no component lies above its nearest node (missing: the other sign combinations) *)
Theorem C09_off_mesh_rejected_partial : forall m c i j k, posMesh m ->
  (0 <= (c0 (gridNode m i j k) - c0 c) * inject_Z (m0 m) < 1 # 2)%Q ->
  (0 <= (c1 (gridNode m i j k) - c1 c) * inject_Z (m1 m) < 1 # 2)%Q ->
  (0 <= (c2 (gridNode m i j k) - c2 c) * inject_Z (m2 m) < 1 # 2)%Q ->
  (1 # 1000000 <= (c0 (gridNode m i j k) - c0 c) * inject_Z (m0 m) \/
   1 # 1000000 <= (c1 (gridNode m i j k) - c1 c) * inject_Z (m1 m) \/
   1 # 1000000 <= (c2 (gridNode m i j k) - c2 c) * inject_Z (m2 m))%Q ->
  getIndex (fullMesh m) c = Err.
Proof. exact getIndex_offmesh. Qed.
Print Assumptions C09_off_mesh_rejected_partial.
Example C09_ex : let m := Mesh 2 2 2 (V3 0 0 0) in
  getIndex (fullMesh m) (V3 (7#20) (1#2) (9#10)) = Err /\
  ((c0 (gridNode m 1 1 2) - (7#20)) * 2 == 3#10 /\ (c2 (gridNode m 1 1 2) - (9#10)) * 2 == 1#5)%Q.
Proof. repeat split; vm_compute; reflexivity. Qed.
(** whatever is accepted is the nearest node *)
Theorem C09_accepted_is_nearest_node : forall m c ik, posMesh m -> getIndex (fullMesh m) c = Ok ik ->
  0 <= ik < nodes m /\
  exists i j k, sameWavevector (gridNode m i j k) (meshCoordinates m ik) /\
    (Qabs ((c0 c - c0 (gridNode m i j k)) * inject_Z (m0 m)) <= 1 # 2)%Q /\
    (Qabs ((c1 c - c1 (gridNode m i j k)) * inject_Z (m1 m)) <= 1 # 2)%Q /\
    (Qabs ((c2 c - c2 (gridNode m i j k)) * inject_Z (m2 m)) <= 1 # 2)%Q.
Proof. exact getIndex_nearest. Qed.
Print Assumptions C09_accepted_is_nearest_node.

(** * C10 *)
Theorem C10_sum_conserves_momentum : forall m a b, posMesh m -> gammaMesh m ->
  0 <= a < nodes m -> 0 <= b < nodes m ->
  exists ik u, pointAdd (fullMesh m) a b = Ok (ik, u) /\ 0 <= ik < nodes m /\ intVec u /\
    veq (meshCoordinates m ik) (vadd (vadd (meshCoordinates m a) (meshCoordinates m b)) u).
Proof. exact pointAdd_spec. Qed.
Print Assumptions C10_sum_conserves_momentum.
Theorem C10_difference_conserves_momentum : forall m a b, posMesh m -> gammaMesh m ->
  0 <= a < nodes m -> 0 <= b < nodes m ->
  exists ik u, pointSub (fullMesh m) a b = Ok (ik, u) /\ 0 <= ik < nodes m /\ intVec u /\
    veq (meshCoordinates m ik) (vadd (vsub (meshCoordinates m a) (meshCoordinates m b)) u).
Proof. exact pointSub_spec. Qed.
Print Assumptions C10_difference_conserves_momentum.
Theorem C10_sum_commutes : forall m a b, posMesh m -> gammaMesh m -> 0 <= a < nodes m -> 0 <= b < nodes m ->
  exists ik u u', pointAdd (fullMesh m) a b = Ok (ik, u) /\ pointAdd (fullMesh m) b a = Ok (ik, u') /\ veq u u'.
Proof. exact pointAdd_comm. Qed.
Print Assumptions C10_sum_commutes.
Theorem C10_sum_associates : forall m a b c, posMesh m -> gammaMesh m ->
  0 <= a < nodes m -> 0 <= b < nodes m -> 0 <= c < nodes m ->
  exists ab uab bc ubc r u u', pointAdd (fullMesh m) a b = Ok (ab, uab) /\ pointAdd (fullMesh m) b c = Ok (bc, ubc) /\
    pointAdd (fullMesh m) ab c = Ok (r, u) /\ pointAdd (fullMesh m) a bc = Ok (r, u') /\
    veq (vadd uab u) (vadd ubc u').
Proof. exact pointAdd_assoc. Qed.
Print Assumptions C10_sum_associates.
Theorem C10_sum_then_difference : forall m a b, posMesh m -> gammaMesh m -> 0 <= a < nodes m -> 0 <= b < nodes m ->
  exists ab u u', pointAdd (fullMesh m) a b = Ok (ab, u) /\ pointSub (fullMesh m) ab b = Ok (a, u') /\
    veq (vadd u u') (V3 0 0 0).
Proof. exact pointAdd_sub. Qed.
Print Assumptions C10_sum_then_difference.
Theorem C10_hasUmklapp : forall u, intVec u -> (hasUmklapp u = true <-> ~ veq u (V3 0 0 0)).
Proof. exact hasUmklapp_spec. Qed.
Print Assumptions C10_hasUmklapp.
Example C10_ex : let m := Mesh 4 4 1 (V3 0 0 0) in posMesh m /\ gammaMesh m /\
  exists u, pointAdd (fullMesh m) 7 11 = Ok (14, u) /\ veq u (V3 (-1) 0 0).
Proof.
  split; [repeat split|]. split; [repeat split|].
  eexists. split; [vm_compute; reflexivity|vm_compute; repeat split].
Qed.
(** on a shifted mesh a sum can be accepted although it is not momentum conserving *)
Theorem C10_shifted_mesh_refuted : exists m a b ik u, posMesh m /\ 0 <= a < nodes m /\ 0 <= b < nodes m /\
  pointAdd (fullMesh m) a b = Ok (ik, u) /\ ~ intVec u.
Proof. exact shifted_add. Qed.
Print Assumptions C10_shifted_mesh_refuted.

(** * C11 *)
Theorem C11_active_lookup : forall m F, resolved m -> smallOffset m -> increasing F ->
  Forall (fun ik => 0 <= ik < nodes m) F ->
  exists p, setActiveLayer (fullMesh m) F = Ok p /\ numPoints p = zlen F /\
    (forall i ik c, zget F i = Some ik -> sameWavevector c (meshCoordinates m ik) ->
       getIndex p c = Ok i /\ getPointCoordinates p i = Ok (meshCoordinates m ik)) /\
    (forall ik c, 0 <= ik < nodes m -> ~ In ik F -> sameWavevector c (meshCoordinates m ik) ->
       getIndex p c = Err).
Proof. exact activeLayer_lookup. Qed.
Print Assumptions C11_active_lookup.
Example C11_ex : let m := Mesh 3 3 3 (V3 (1#9) 0 0) in let F := [1; 2; 9; 13; 26] in
  resolved m /\ smallOffset m /\ increasing F /\ Forall (fun ik => 0 <= ik < nodes m) F /\
  exists p, setActiveLayer (fullMesh m) F = Ok p /\ getIndex p (meshCoordinates m 13) = Ok 3 /\
            getIndex p (meshCoordinates m 14) = Err.
Proof.
  cbv zeta. split; [vm_compute; repeat split; congruence|]. split; [vm_compute; repeat split; congruence|].
  split; [cbn; lia|]. split; [unfold nodes; cbn; repeat (apply Forall_cons; [lia|]); apply Forall_nil|].
  eexists. split; [vm_compute; reflexivity|]. split; vm_compute; reflexivity.
Qed.
(** beyond 1000 points per direction neighbours are confused *)
Theorem C11_fine_mesh_refuted : exists m F, posMesh m /\ smallOffset m /\ increasing F /\
  Forall (fun ik => 0 <= ik < nodes m) F /\
  exists p ik, setActiveLayer (fullMesh m) F = Ok p /\ In ik F /\ getIndex p (meshCoordinates m ik) = Err.
Proof.
  exists (Mesh 2000 1 1 (V3 0 0 0)), [0; 1]. split; [repeat split|]. split; [vm_compute; repeat split; congruence|].
  split; [cbn; lia|]. split; [unfold nodes; cbn; repeat (apply Forall_cons; [lia|]); apply Forall_nil|].
  eexists _, 0. split; [vm_compute; reflexivity|]. split; [left; reflexivity|vm_compute; reflexivity].
Qed.
Print Assumptions C11_fine_mesh_refuted.
(** a filter that is not increasing can be taken for a sorted one: a kept point is not found *)
Theorem C11_unsorted_filter_refuted : exists m F, resolved m /\ smallOffset m /\ NoDup F /\
  Forall (fun ik => 0 <= ik < nodes m) F /\
  exists p ik, setActiveLayer (fullMesh m) F = Ok p /\ In ik F /\ getIndex p (meshCoordinates m ik) = Err.
Proof.
  exists (Mesh 2 2 1 (V3 0 0 0)), [2; 1].
  split; [vm_compute; repeat split; congruence|]. split; [vm_compute; repeat split; congruence|].
  split; [repeat constructor; cbn; intuition congruence|].
  split; [unfold nodes; cbn; repeat (apply Forall_cons; [lia|]); apply Forall_nil|].
  eexists _, 1. split; [vm_compute; reflexivity|]. split; [right; left; reflexivity|vm_compute; reflexivity].
Qed.
Print Assumptions C11_unsorted_filter_refuted.

(** * C12 *)
Theorem C12_path_lookup_refuted : exists m l i a, zget l i = Some a /\ getIndex (pathObject m l) a = Err.
Proof.
  exists (Mesh 1 1 1 (V3 0 0 0)), [V3 0 0 (1#2); V3 (1#10) 0 0], 1, (V3 (1#10) 0 0).
  split; [reflexivity|vm_compute; reflexivity].
Qed.
Print Assumptions C12_path_lookup_refuted.
Theorem C12_shifted_filter_refuted : exists m F p i v, posMesh m /\ increasing F /\
  Forall (fun ik => 0 <= ik < nodes m) F /\ setActiveLayer (fullMesh m) F = Ok p /\
  getPointCoordinates p i = Ok v /\ 0 <= i < numPoints p /\ getIndex p v = Err.
Proof.
  exists (Mesh 2 2 1 (V3 (3#5) 0 0)), [0; 1; 2]. eexists _, 1, _.
  split; [repeat split|]. split; [cbn; lia|]. split; [unfold nodes; cbn; repeat (apply Forall_cons; [lia|]); apply Forall_nil|].
  split; [vm_compute; reflexivity|]. split; [vm_compute; reflexivity|]. split; [vm_compute; split; congruence|vm_compute; reflexivity].
Qed.
Print Assumptions C12_shifted_filter_refuted.
(** proved: lists recognised as unsorted, with points further apart than the matching distance *)
Theorem C12_unsorted_list_lookup_partial : forall m l i a c, pathSorted l = false -> farApart l ->
  zget l i = Some a -> sameWavevector c a -> getIndex (pathObject m l) c = Ok i.
Proof. exact path_lookup. Qed.
Print Assumptions C12_unsorted_list_lookup_partial.
Example C12_ex : let l := [V3 (1#2) 0 0; V3 (1#4) 0 0; V3 0 0 0] in pathSorted l = false /\
  getIndex (pathObject (Mesh 1 1 1 (V3 0 0 0)) l) (V3 (5#4) 3 0) = Ok 1.
Proof. split; vm_compute; reflexivity. Qed.

(** * C13 *)
Theorem C13_range_check_refuted : exists m F p, posMesh m /\ In 5 F /\ nodes m = 2 /\
  setActiveLayer (fullMesh m) F = Ok p.
Proof.
  exists (Mesh 2 1 1 (V3 0 0 0)), [5]. eexists.
  split; [repeat split|]. split; [left; reflexivity|]. split; [reflexivity|vm_compute; reflexivity].
Qed.
Print Assumptions C13_range_check_refuted.
Theorem C13_full_size_filter_refuted : exists m F, posMesh m /\ In (-1) F /\
  setActiveLayer (fullMesh m) F = Ok (fullMesh m).
Proof. exists (Mesh 2 1 1 (V3 0 0 0)), [-1; 7]. repeat split. left; reflexivity. Qed.
Print Assumptions C13_full_size_filter_refuted.
(** proved: negative indices, when the filter does not have the size of the mesh *)
Theorem C13_negative_refused_partial : forall p F ik, zlen F <> numPoints p -> In ik F -> ik < 0 ->
  setActiveLayer p F = Err.
Proof. exact setActiveLayer_negative. Qed.
Print Assumptions C13_negative_refused_partial.
Example C13_ex : setActiveLayer (fullMesh (Mesh 2 2 1 (V3 0 0 0))) [0; -3] = Err.
Proof. vm_compute. reflexivity. Qed.

(** * C54 *)
Theorem C54_foldToBz_equivalent : forall v, sameWavevector (foldToBz v) v /\
  (- (1 # 100000000) <= c0 (foldToBz v) < 1 - (1 # 100000000))%Q /\
  (- (1 # 100000000) <= c1 (foldToBz v) < 1 - (1 # 100000000))%Q /\
  (- (1 # 100000000) <= c2 (foldToBz v) < 1 - (1 # 100000000))%Q.
Proof. intro v. split; [apply foldToBz_same|]. split; [|split]; apply fold1_range. Qed.
Print Assumptions C54_foldToBz_equivalent.
Theorem C54_foldToBz_idempotent : forall v, veq (foldToBz (foldToBz v)) (foldToBz v).
Proof. exact foldToBz_idem. Qed.
Print Assumptions C54_foldToBz_idempotent.
Theorem C54_foldToBz_canonical : forall a b, sameWavevector a b -> veq (foldToBz a) (foldToBz b).
Proof. exact foldToBz_unique. Qed.
Print Assumptions C54_foldToBz_canonical.
Theorem C54_bzToWs_equivalent : forall B v, sameWavevector (bzToWs B v) v.
Proof. exact bzToWs_same. Qed.
Print Assumptions C54_bzToWs_equivalent.
(** minimal only among the folded point plus the listed lattice vectors, up to a 1e-8 shift *)
Theorem C54_bzToWs_minimal_partial : forall B v, exists g,
  veq (bzToWs B v) (vadd (foldToBz v) (gVec g)) /\
  forall i j k, -2 <= i <= 2 -> -2 <= j <= 2 -> -2 <= k <= 2 -> (i <= 0 \/ j <= 0 \/ k <= 0) ->
    (g = (0, 0, 0) /\ (sqNorm (toCart B (foldToBz v)) <= shiftedNorm B (foldToBz v) (i, j, k))%Q) \/
    (shiftedNorm B (foldToBz v) g <= shiftedNorm B (foldToBz v) (i, j, k))%Q.
Proof.
  intros B v. destruct (bzToWs_min B v) as (g & V & H). exists g. split; [exact V|].
  intros i j k Hi Hj Hk Hl. destruct (H (i, j, k)) as [[A C]|C]; [apply gTriples_spec; auto|left; auto|right; auto].
Qed.
Print Assumptions C54_bzToWs_minimal_partial.
Theorem C54_bzToWs_minimal_refuted : exists B v w, sameWavevector w v /\
  (1 + sqNorm (toCart B w) < sqNorm (toCart B (bzToWs B v)))%Q.
Proof. exact bzToWs_not_min. Qed.
Print Assumptions C54_bzToWs_minimal_refuted.
Example C54_ex : veq (bzToWs (Cell (V3 1 0 0) (V3 0 1 0) (V3 0 0 1)) (V3 (3#4) (5#4) (-1#8))) (V3 (-1#4) (1#4) (-1#8)).
Proof. vm_compute. repeat split. Qed.

(** * C58 *)
Theorem C58_offset_check_refuted : exists o p, (1 <= c0 o)%Q /\ newMesh 2 2 2 o = Ok p.
Proof. exists (V3 3 0 0). eexists. split; [vm_compute; congruence|vm_compute; reflexivity]. Qed.
Print Assumptions C58_offset_check_refuted.
Theorem C58_sizes_checked_partial : forall a b c o,
  (a <= 0 \/ b <= 0 \/ c <= 0 -> newMesh a b c o = Err) /\
  (0 < a -> 0 < b -> 0 < c -> newMesh a b c o = Ok (fullMesh (Mesh a b c o))).
Proof.
  intros a b c o. unfold newMesh. split.
  - intros H. destruct (Z.leb_spec a 0); [reflexivity|]. destruct (Z.leb_spec b 0); [reflexivity|].
    destruct (Z.leb_spec c 0); [reflexivity|lia].
  - intros A B C. destruct (Z.leb_spec a 0); [lia|]. destruct (Z.leb_spec b 0); [lia|].
    destruct (Z.leb_spec c 0); [lia|].
    assert (X : forall q, badOffset q = false).
    { intro q. unfold badOffset. destruct (Qltb_spec q 0) as [L|L]; [|reflexivity].
      rewrite Qle_bool_false; [reflexivity|]. eapply Qlt_trans; [exact L|reflexivity]. }
    rewrite !X. reflexivity.
Qed.
Print Assumptions C58_sizes_checked_partial.
Example C58_ex : newMesh 3 0 2 (V3 0 0 0) = Err /\ newMesh 3 1 2 (V3 0 0 0) = Ok (fullMesh (Mesh 3 1 2 (V3 0 0 0))).
Proof. split; vm_compute; reflexivity. Qed.

(** * C59 *)
Theorem C59_findMesh_recovers_mesh : forall m pts, posMesh m ->
  m0 m < 1000000 -> m1 m < 1000000 -> m2 m < 1000000 -> smallOffset m -> listsMesh m pts ->
  exists o, findMesh pts = Ok (Mesh (m0 m) (m1 m) (m2 m) o) /\ veq o (off m).
Proof. exact findMesh_spec. Qed.
Print Assumptions C59_findMesh_recovers_mesh.
Example C59_ex : exists o, findMesh [V3 (2#3) (1#4) 0; V3 (1#3) (-3#4) 1; V3 (-1) (1#4) 0] = Ok (Mesh 3 1 1 o) /\
  veq o (V3 0 (1#4) 0).
Proof. eexists. split; [vm_compute; reflexivity|vm_compute; repeat split]. Qed.

(** * C60 *)
Theorem C60_path_contains_extrema_partial : forall delta segs, (0 < delta)%Q -> segs <> [] ->
  Forall (fun s => delta * delta <= sqDist (snd s) (fst s))%Q segs ->
  exists vs, pathPoints segs delta = map Some vs /\
    Forall (fun s => (exists v, In v vs /\ (sqDist v (fst s) <= (1 # 100000000) * (1 # 100000000))%Q) /\
                     (exists v, In v vs /\ veq v (snd s))) segs.
Proof. exact pathPoints_spec. Qed.
Print Assumptions C60_path_contains_extrema_partial.
Example C60_ex : let segs := [(V3 0 0 0, V3 (1#2) 0 0); (V3 (1#2) 0 0, V3 (1#2) (1#2) 0)] in
  Forall (fun s => (1#4) * (1#4) <= sqDist (snd s) (fst s))%Q segs /\ length (pathPoints segs (1#4)) = 5%nat.
Proof. split; [apply Forall_cons; [|apply Forall_cons; [|apply Forall_nil]]; vm_compute; congruence|vm_compute; reflexivity]. Qed.
(** a segment shorter than the spacing loses its end point *)
Theorem C60_short_segment_refuted : exists delta segs p0 p1, (0 < delta)%Q /\ In (p0, p1) segs /\
  forall v, In (Some v) (pathPoints segs delta) -> ~ veq v p1.
Proof.
  exists (1#10), [(V3 0 0 0, V3 (1#20) 0 0)], (V3 0 0 0), (V3 (1#20) 0 0).
  split; [reflexivity|]. split; [left; reflexivity|].
  intros v H. change (pathPoints [(V3 0 0 0, V3 (1 # 20) 0 0)] (1 # 10)) with [Some (V3 0 0 0)] in H.
  destruct H as [E|[]]. injection E as <-. intros (A & _ & _). vm_compute in A. discriminate.
Qed.
Print Assumptions C60_short_segment_refuted.
