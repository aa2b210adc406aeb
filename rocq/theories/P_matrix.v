(** Property theorems for matrices: C23-C28, C55 (storage), C62. *)
From Coq Require Import QArith Qcanon Permutation.
From Verif Require Import Base BaseLemmas M_utilities M_mpi M_reduce M_matrix S_matrix L_matrix L_matrix2 L_matrix3 L_matrix4.
Open Scope Z_scope.

(** * C23 *)
Theorem C23_constructor_layout : forall size n m a b nbr nbc L, 0 < size -> 0 < n -> 0 < m -> 0 <= a <= size -> 0 <= b <= size -> 0 <= nbr -> 0 <= nbc ->
  mkLayout size n m a b nbr nbc = Ok L -> validLayout L /\ lRows L = n /\ lCols L = m /\ npRows L * npCols L <= size.
Proof. exact mkLayout_valid. Qed.
Print Assumptions C23_constructor_layout.
Theorem C23_one_owner : forall L r c, validLayout L -> inMatrix L r c ->
  exists p, isProcess L p /\ indicesAreLocal L p r c = true /\
  forall q, isProcess L q -> indicesAreLocal L q r c = true -> q = p.
Proof. exact one_owner. Qed.
Print Assumptions C23_one_owner.
Theorem C23_global_to_local_to_global : forall L p r c, validLayout L -> isProcess L p -> inMatrix L r c -> indicesAreLocal L p r c = true ->
  0 <= global2Local L p r c < numLocalElements L p /\ local2Global L p (global2Local L p r c) = (r, c).
Proof.
  intros L p r c HL Hp Hin E. apply (local_slot L HL p Hp r c); [exact Hin|reflexivity|].
  unfold indicesAreLocal in E. destruct (_ =? -1) eqn:F; [discriminate|lia].
Qed.
Print Assumptions C23_global_to_local_to_global.
Theorem C23_local_to_global_to_local : forall L p k, validLayout L -> isProcess L p -> 0 <= k < numLocalElements L p ->
  inMatrix L (fst (local2Global L p k)) (snd (local2Global L p k)) /\
  indicesAreLocal L p (fst (local2Global L p k)) (snd (local2Global L p k)) = true /\
  global2Local L p (fst (local2Global L p k)) (snd (local2Global L p k)) = k.
Proof.
  intros L p k HL Hp Hk. destruct (local_back L HL p Hp k Hk) as [A B]. split; [exact A|]. split; [|exact B].
  unfold indicesAreLocal. rewrite B. destruct (k =? -1) eqn:E; [lia|reflexivity].
Qed.
Print Assumptions C23_local_to_global_to_local.
Theorem C23_local_states_partition : forall L, validLayout L ->
  Permutation (flat_map (getAllLocalStates L) (processes L)) (list_prod (zrange 0 (lRows L)) (zrange 0 (lCols L))).
Proof. exact states_partition. Qed.
Print Assumptions C23_local_states_partition.
Theorem C23_storage_size : forall L p, validLayout L -> isProcess L p ->
  zlen (getAllLocalStates L p) = numLocalElements L p /\ NoDup (getAllLocalStates L p) /\
  forall r c, In (r, c) (getAllLocalStates L p) <-> inMatrix L r c /\ indicesAreLocal L p r c = true.
Proof.
  intros L p HL Hp. split; [|split].
  - unfold getAllLocalStates. rewrite zlen_map. apply zlen_zrange. unfold numLocalElements.
    pose proof (nr_nonneg L HL p Hp). pose proof (nc_nonneg L HL p Hp). nia.
  - exact (states_NoDup L HL p Hp).
  - intros r c. rewrite (states_In L HL p Hp). unfold indicesAreLocal. destruct (_ =? -1) eqn:E; split; intros [A B]; split; try assumption; try reflexivity; try discriminate; lia.
Qed.
Print Assumptions C23_storage_size.
(** a 7 x 5 matrix in blocks of 2 x 3 on 4 processes *)
Example C23_ex : exists L, mkLayout 4 7 5 0 0 4 2 = Ok L /\ validLayout L /\ isProcess L (1, 0) /\ inMatrix L 6 2 /\
  indicesAreLocal L (1, 0) 6 2 = true /\ global2Local L (1, 0) 6 2 = 8 /\ local2Global L (1, 0) 8 = (6, 2) /\ numLocalElements L (1, 0) = 9.
Proof. eexists. split; [reflexivity|]. unfold validLayout, isProcess, inMatrix. cbn [lRows lCols bsRows bsCols npRows npCols fst snd]. repeat split; (lia || reflexivity). Qed.
(** default grid: exactly the square numbers of processes are accepted *)
Theorem C23_square_grid : forall size, 0 < size ->
  (forall s, 0 < s -> size = s * s -> initBlacs size 0 0 = Ok (s, s)) /\
  ((forall s, size <> s * s) -> initBlacs size 0 0 = Err).
Proof.
  intros size Hs. unfold initBlacs. change (0 * 0) with 0. destruct (size <? 0) eqn:E0; [lia|]. cbn [Z.eqb negb andb].
  pose proof (Z.sqrt_spec size ltac:(lia)) as S. cbv zeta in S. split.
  - intros s H0 ->. rewrite Z.sqrt_square by lia. rewrite Z.ltb_irrefl. reflexivity.
  - intro H. cbv zeta. destruct (Z.sqrt size * Z.sqrt size <? size) eqn:E; [reflexivity|]. exfalso. apply (H (Z.sqrt size)). lia.
Qed.
Print Assumptions C23_square_grid.
(** elements written through operator() are read back on their owner, and only they change *)
Theorem C23_write_history : forall (T : Type) (zero : T) L p h buf, validLayout L -> isProcess L p ->
  zlen buf = numLocalElements L p -> Forall (fun w => inMatrix L (fst (fst w)) (snd (fst w))) h ->
  exists buf', psets L p h buf = Ok buf' /\ zlen buf' = numLocalElements L p /\
  forall r c d, inMatrix L r c -> indicesAreLocal L p r c = true -> pget zero L p buf r c = Ok d ->
    pget zero L p buf' r c = Ok (lastWrite h r c d).
Proof. intros T zero L p h buf HL Hp. exact (psets_ok zero L HL p Hp h buf). Qed.
Print Assumptions C23_write_history.
Theorem C23_nonlocal_reads_zero : forall (T : Type) (zero : T) L p buf r c v, indicesAreLocal L p r c = false ->
  pget zero L p buf r c = Ok zero /\ pset L p buf r c v = Ok buf.
Proof.
  intros T zero L p buf r c v H. unfold indicesAreLocal in H. unfold pget, pset. destruct (_ =? -1); [split; reflexivity|discriminate].
Qed.
Print Assumptions C23_nonlocal_reads_zero.
Example C23_ex2 : exists L, mkLayout 1 2 2 0 0 0 0 = Ok L /\ psets L (0, 0) [(0, 1, 5); (1, 1, 6); (0, 1, 7)] [1; 2; 3; 4] = Ok [1; 2; 7; 6].
Proof. eexists. split; reflexivity. Qed.

(** * C24 *)
(** two rows on a 2 x 2 grid: process 0 is told it owns row -1 *)
Theorem C24_local_rows_refuted : exists L p r, mkLayout 4 2 2 0 0 0 0 = Ok L /\ isProcess L p /\ 0 < numLocalCols L p /\
  In r (getAllLocalRows L p) /\ ~ (exists c, inMatrix L r c /\ indicesAreLocal L p r c = true).
Proof.
  eexists _, (0, 0), (-1). split; [reflexivity|]. split; [split; cbn; lia|]. split; [reflexivity|]. split; [left; reflexivity|].
  intros (c & [[H _] _] & _). lia.
Qed.
Print Assumptions C24_local_rows_refuted.
(** several blocks per process: 8 columns in 4 blocks on a 2 x 2 grid; column 4 is owned by process (0,0) but not listed *)
Theorem C24_local_cols_refuted : exists L p c, mkLayout 4 8 8 0 0 4 4 = Ok L /\ isProcess L p /\ 0 < numLocalRows L p /\
  ~ In c (getAllLocalCols L p) /\ (exists r, inMatrix L r c /\ indicesAreLocal L p r c = true).
Proof.
  eexists _, (0, 0), 4. split; [reflexivity|]. split; [split; cbn; lia|]. split; [reflexivity|]. split.
  - vm_compute. intuition discriminate.
  - exists 0. split; [split; cbn; lia|reflexivity].
Qed.
Print Assumptions C24_local_cols_refuted.
(** true with one block per process of more than one row, or with a single process row (column) *)
Theorem C24_local_rows_partial : forall L p, validLayout L -> isProcess L p -> 0 < numLocalCols L p ->
  npRows L = 1 \/ (1 < bsRows L /\ lRows L <= bsRows L * npRows L) ->
  forall r, In r (getAllLocalRows L p) <-> exists c, inMatrix L r c /\ indicesAreLocal L p r c = true.
Proof. exact local_rows_ok. Qed.
Print Assumptions C24_local_rows_partial.
Theorem C24_local_cols_partial : forall L p, validLayout L -> isProcess L p -> 0 < numLocalRows L p ->
  npCols L = 1 \/ (1 < bsCols L /\ lCols L <= bsCols L * npCols L) ->
  forall c, In c (getAllLocalCols L p) <-> exists r, inMatrix L r c /\ indicesAreLocal L p r c = true.
Proof. exact local_cols_ok. Qed.
Print Assumptions C24_local_cols_partial.
(** in particular for the default layout of a matrix with more rows and columns than the grid *)
Theorem C24_default_layout_partial : forall size n m L p, 0 < size -> 0 < n -> 0 < m -> mkLayout size n m 0 0 0 0 = Ok L -> isProcess L p ->
  npRows L < n -> npCols L < m ->
  (0 < numLocalCols L p -> forall r, In r (getAllLocalRows L p) <-> exists c, inMatrix L r c /\ indicesAreLocal L p r c = true) /\
  (0 < numLocalRows L p -> forall c, In c (getAllLocalCols L p) <-> exists r, inMatrix L r c /\ indicesAreLocal L p r c = true).
Proof.
  intros size n m L p Hs Hn Hm E Hp H1 H2. destruct (default_layout size n m L Hs Hn Hm E) as (V & _ & E1 & E2 & _ & B1 & B2 & C1 & C2).
  split; intro H; [apply local_rows_ok|apply local_cols_ok]; try assumption; right; split; auto.
Qed.
Print Assumptions C24_default_layout_partial.
Example C24_ex : exists L, mkLayout 4 7 5 0 0 0 0 = Ok L /\ isProcess L (1, 1) /\ npRows L < 7 /\ npCols L < 5 /\ 0 < numLocalCols L (1, 1) /\
  getAllLocalRows L (1, 1) = [4; 5; 6] /\ getAllLocalCols L (1, 1) = [3; 4].
Proof. eexists. split; [reflexivity|]. unfold isProcess. cbn [npRows npCols fst snd]. repeat split; (lia || reflexivity). Qed.

(** * C25 *)
Theorem C25_write_history : forall (T : Type) h (A : smat T), wellFormed A ->
  Forall (fun w => 0 <= fst (fst w) < sRows A /\ 0 <= snd (fst w) < sCols A) h ->
  exists A', ssets h A = Ok A' /\ wellFormed A' /\ sRows A' = sRows A /\ sCols A' = sCols A /\
  forall r c d, sget A r c = Ok d -> sget A' r c = Ok (lastWrite h r c d).
Proof. exact @ssets_ok. Qed.
Print Assumptions C25_write_history.
Theorem C25_write_then_read : forall (T : Type) (A : smat T) r c v, wellFormed A -> 0 <= r < sRows A -> 0 <= c < sCols A ->
  exists A', sset A r c v = Ok A' /\ wellFormed A' /\ sRows A' = sRows A /\ sCols A' = sCols A /\ sget A' r c = Ok v /\
  forall r' c', 0 <= r' < sRows A -> 0 <= c' < sCols A -> (r', c') <> (r, c) -> sget A' r' c' = sget A r' c'.
Proof.
  intros T A r c v W Hr Hc. destruct (sset_ok A r c v W Hr Hc) as (A' & E & W' & R & C & G). exists A'.
  split; [exact E|]. split; [exact W'|]. split; [exact R|]. split; [exact C|]. split.
  - rewrite G by lia. rewrite !Z.eqb_refl. reflexivity.
  - intros r' c' Hr' Hc' N. rewrite G by lia. destruct ((r =? r') && (c =? c')) eqn:Eq; [|reflexivity]. exfalso. apply N. f_equal; lia.
Qed.
Print Assumptions C25_write_then_read.
Theorem C25_out_of_range_stops : forall (T : Type) (A : smat T) r c, ~ (0 <= r < sRows A /\ 0 <= c < sCols A) ->
  sget A r c = Err /\ forall v, sset A r c v = Err.
Proof. exact @sget_err. Qed.
Print Assumptions C25_out_of_range_stops.
Theorem C25_new_matrix_is_zero : forall (T : Type) (zero : T) r c, 0 <= r -> 0 <= c -> hasElements (smat0 zero r c) r c (fun _ _ => zero).
Proof. exact @smat0_ok. Qed.
Print Assumptions C25_new_matrix_is_zero.
Theorem C25_index_maps_inverse : forall (T : Type) (A : smat T), 0 < sRows A -> 0 <= sCols A ->
  (forall r c, 0 <= r < sRows A -> 0 <= c < sCols A -> 0 <= sGlobal2Local A r c < sRows A * sCols A /\ sLocal2Global A (sGlobal2Local A r c) = Ok (r, c)) /\
  (forall k, 0 <= k < sRows A * sCols A -> exists r c, sLocal2Global A k = Ok (r, c) /\ 0 <= r < sRows A /\ 0 <= c < sCols A /\ sGlobal2Local A r c = k).
Proof. exact @slocal_inverse. Qed.
Print Assumptions C25_index_maps_inverse.
Theorem C25_all_states : forall (T : Type) (A : smat T), 0 < sRows A -> 0 <= sCols A ->
  exists l, sGetAllLocalStates A = Ok l /\ NoDup l /\ forall r c, In (r, c) l <-> 0 <= r < sRows A /\ 0 <= c < sCols A.
Proof. exact @slocal_states. Qed.
Print Assumptions C25_all_states.
Example C25_ex : wellFormed (smat0 0 2 3) /\
  (do A <- ssets [(1, 2, 7); (0, 0, 5); (1, 2, 8)] (smat0 0 2 3) ; Ok (sBuf A)) = Ok [5; 0; 0; 0; 0; 8] /\
  sget (smat0 0 2 3) 2 0 = Err.
Proof. split; [unfold wellFormed; repeat split; (reflexivity || (cbn; lia))|]. split; reflexivity. Qed.

(** * C26 *)
(** the serial eye() leaves off-diagonal elements as they were *)
Theorem C26_eye_refuted : exists (A A' : smat Z), wellFormed A /\ sRows A = sCols A /\ seye 1 A = Ok A' /\ sget A' 0 1 = Ok 5.
Proof.
  exists {| sRows := 2; sCols := 2; sBuf := [0; 0; 5; 0] |}. eexists. split; [unfold wellFormed; repeat split; (reflexivity || (cbn; lia))|]. split; [reflexivity|]. split; reflexivity.
Qed.
Print Assumptions C26_eye_refuted.
(** missing: clearing what was off the diagonal; the result is the identity iff the matrix was zero there *)
Theorem C26_eye_partial : forall (T : Type) (one : T) (A : smat T), wellFormed A -> sRows A = sCols A ->
  exists A', seye one A = Ok A' /\ wellFormed A' /\ sRows A' = sRows A /\ sCols A' = sCols A /\
  forall r c d, sget A r c = Ok d -> sget A' r c = Ok (if r =? c then one else d).
Proof. exact @seye_lastWrite. Qed.
Print Assumptions C26_eye_partial.
Theorem C26_eye_of_new_matrix : forall (T : Type) (zero one : T) n, 0 <= n ->
  exists A, seye one (smat0 zero n n) = Ok A /\ hasElements A n n (fun i j => if i =? j then one else zero).
Proof.
  intros T zero one n Hn. destruct (smat0_ok zero n n Hn Hn) as (W & R & C & G).
  destruct (seye_lastWrite one (smat0 zero n n) W eq_refl) as (A & E & W' & R' & C' & G'). exists A. split; [exact E|].
  split; [exact W'|]. split; [exact R'|]. split; [exact C'|]. intros i j Hi Hj. apply G'. apply G; assumption.
Qed.
Print Assumptions C26_eye_of_new_matrix.
(** the distributed matrix becomes the identity whatever it contained *)
Theorem C26_distributed_eye : forall (T : Type) (zero one : T) L p buf, validLayout L -> isProcess L p -> lRows L = lCols L ->
  zlen buf = numLocalElements L p ->
  exists buf', peye zero one L p buf = Ok buf' /\ zlen buf' = numLocalElements L p /\
  forall r c, inMatrix L r c -> indicesAreLocal L p r c = true -> pget zero L p buf' r c = Ok (if r =? c then one else zero).
Proof. intros T zero one L p buf HL Hp. exact (peye_ok zero L HL p Hp one buf). Qed.
Print Assumptions C26_distributed_eye.
Theorem C26_nonsquare_stops : forall (T : Type) (zero one : T) L p buf (A : smat T),
  (lRows L <> lCols L -> peye zero one L p buf = Err) /\ (sRows A <> sCols A -> seye one A = Err).
Proof.
  intros. unfold peye, seye. split; intro H; [destruct (lRows L =? lCols L) eqn:E|destruct (sRows A =? sCols A) eqn:E]; try reflexivity; lia.
Qed.
Print Assumptions C26_nonsquare_stops.
Example C26_ex : exists L, mkLayout 4 3 3 0 0 0 0 = Ok L /\ validLayout L /\ isProcess L (0, 0) /\ zlen [9; 9; 9; 9] = numLocalElements L (0, 0) /\
  peye 0 1 L (0, 0) [9; 9; 9; 9] = Ok [1; 0; 0; 1] /\ peye 0 1 L (0, 1) [9; 9] = Ok [0; 0] /\ peye 0 1 L (1, 1) [9] = Ok [1].
Proof. eexists. split; [reflexivity|]. unfold validLayout, isProcess. cbn [lRows lCols bsRows bsCols npRows npCols fst snd]. repeat split; (lia || reflexivity). Qed.

(** * C27 *)
Theorem C27_symmetrize : forall A n F, hasElements A n n F ->
  exists A', ssymmetrize A = Ok A' /\ hasElements A' n n (fun i j => ((F i j + F j i) / Q2Qc 2)%Qc).
Proof. exact symmetrize_ok. Qed.
Print Assumptions C27_symmetrize.
Theorem C27_symmetrize_consequences : forall A n F, hasElements A n n F ->
  exists A' G, ssymmetrize A = Ok A' /\ hasElements A' n n G /\
  (forall i j, G i j = G j i) /\ (forall i, G i i = F i i) /\
  ((forall i j, F i j = F j i) -> forall i j, G i j = F i j) /\
  forall x, sumTo n (fun i => sumTo n (fun j => x i * G i j * x j))%Qc = sumTo n (fun i => sumTo n (fun j => x i * F i j * x j))%Qc.
Proof.
  intros A n F H. destruct (symmetrize_ok A n F H) as (A' & E & HA). exists A', (symF F). split; [exact E|]. split; [exact HA|].
  assert (two : (Q2Qc 2 <> 0)%Qc) by discriminate.
  split. { intros i j. unfold symF. f_equal. ring. }
  split. { intro i. unfold symF. rewrite two_eq. field. discriminate. }
  split. { intros Hs i j. unfold symF. rewrite (Hs j i). rewrite two_eq. field. discriminate. }
  intro x. apply quad_sym.
Qed.
Print Assumptions C27_symmetrize_consequences.
Theorem C27_nonsquare_stops : forall A, sRows A <> sCols A -> ssymmetrize A = Err.
Proof. intros A H. unfold ssymmetrize. destruct (sRows A =? sCols A) eqn:E; [lia|reflexivity]. Qed.
Print Assumptions C27_nonsquare_stops.
Definition mat27 : smat Qc := {| sRows := 2; sCols := 2; sBuf := [Q2Qc 1; Q2Qc 4; Q2Qc 2; Q2Qc 3] |}.
Example C27_ex : hasElements mat27 2 2 (fun i j => match zget (sBuf mat27) (2 * j + i) with Some v => v | None => 0%Qc end) /\
  (do A <- ssymmetrize mat27 ; Ok (map this (sBuf A))) = Ok [1; 3; 3; 3]%Q.
Proof.
  split; [|vm_compute; reflexivity].
  split; [unfold wellFormed; repeat split; (reflexivity || (cbn; lia))|]. split; [reflexivity|]. split; [reflexivity|]. intros i j Hi Hj.
  assert (Ci : i = 0 \/ i = 1) by lia. assert (Cj : j = 0 \/ j = 1) by lia. destruct Ci as [-> | ->]; destruct Cj as [-> | ->]; reflexivity.
Qed.

(** * C28 *)
(** 2 x 1 times (transposed) 2 x 3 is a legitimate product, but is refused *)
Theorem C28_transposed_rectangular_refuted : exists A B, wellFormed A /\ wellFormed B /\ sRows A = 2 /\ sCols A = 1 /\ sRows B = 2 /\ sCols B = 3 /\
  sprod A B true false = Err.
Proof.
  exists (smat0 0%Qc 2 1), (smat0 0%Qc 2 3). unfold wellFormed. split; [repeat split; (reflexivity || (cbn; lia))|]. split; [repeat split; (reflexivity || (cbn; lia))|]. repeat split; reflexivity.
Qed.
Print Assumptions C28_transposed_rectangular_refuted.
(** correct without transposition for all shapes, and with transposition for square operands
    (missing: transposed rectangular operands) *)
Theorem C28_prod_partial : forall A B ta tb n k m FA FB, 0 < n -> 0 < k -> 0 < m ->
  hasElements A n k FA -> hasElements B k m FB -> (ta = true -> n = k) -> (tb = true -> m = k) ->
  exists C, sprod A B ta tb = Ok C /\ hasElements C n m (fun i j => sumTo k (fun l => opF ta FA i l * opF tb FB l j)%Qc).
Proof. exact sprod_ok. Qed.
Print Assumptions C28_prod_partial.
Theorem C28_incompatible_stops : forall A B ta tb, sCols A <> sRows B -> sprod A B ta tb = Err.
Proof. intros A B ta tb H. unfold sprod. destruct (sCols A =? sRows B) eqn:E; [lia|reflexivity]. Qed.
Print Assumptions C28_incompatible_stops.
Example C28_ex : (do C <- sprod mat27 mat27 true false ; Ok (map this (sBuf C))) = Ok [17; 14; 14; 13]%Q /\
  (do C <- sprod mat27 mat27 false false ; Ok (map this (sBuf C))) = Ok [9; 16; 8; 17]%Q.
Proof. split; vm_compute; reflexivity. Qed.

(** * C62 distributed dot product *)
(** on one process the answer is always 0 *)
Theorem C62_single_process_dot_refuted : exists L (A : Z -> Z -> Qc), mkLayout 1 2 2 0 0 0 0 = Ok L /\
  pdot (distributed L A) (distributed L A) = [0%Qc] /\ sumTo 2 (fun i => sumTo 2 (fun j => A i j * A i j))%Qc <> 0%Qc.
Proof. eexists _, (fun _ _ => 1%Qc). split; [reflexivity|]. split; [reflexivity|]. discriminate. Qed.
Print Assumptions C62_single_process_dot_refuted.
Theorem C62_dot_partial : forall L (A B : Z -> Z -> Qc), validLayout L -> 2 <= npRows L * npCols L ->
  pdot (distributed L A) (distributed L B) = map (fun _ => sumTo (lRows L) (fun i => sumTo (lCols L) (fun j => (A i j * B i j)%Qc))) (processes L).
Proof. exact pdot_many. Qed.
Print Assumptions C62_dot_partial.
Example C62_ex : exists L, mkLayout 4 3 2 0 0 0 0 = Ok L /\ validLayout L /\ 2 <= npRows L * npCols L /\
  map this (pdot (distributed L (fun i j => Q2Qc (inject_Z (i + j)))) (distributed L (fun i j => Q2Qc (inject_Z (i - j))))) = [7; 7; 7; 7]%Q.
Proof. eexists. split; [reflexivity|]. unfold validLayout. cbn [lRows lCols bsRows bsCols npRows npCols]. split; [repeat split; (lia || reflexivity)|]. split; [vm_compute; discriminate|]. vm_compute. reflexivity. Qed.

(** * C55 storage of the full band structure *)
Theorem C55_energies_stored : forall (T : Type) (zero : T) size nb n L p (buf : list T) ik vals, 0 < size -> 0 < nb -> 0 < n ->
  bandLayout size nb n = Ok L -> isProcess L p -> zlen buf = numLocalElements L p -> 0 <= ik < n -> indicesAreLocal L p 0 ik = true -> zlen vals = nb ->
  exists buf', setColumn L p buf ik vals = Ok buf' /\ zlen buf' = numLocalElements L p /\
  getEnergies zero L p nb buf' ik = Ok vals /\
  forall ik', 0 <= ik' < n -> ik' <> ik -> indicesAreLocal L p 0 ik' = true -> getEnergies zero L p nb buf' ik' = getEnergies zero L p nb buf ik'.
Proof.
  intros T zero size nb n L p buf ik vals Hs Hnb Hn HB Hp Hb Hk Hl Hv.
  destruct (setColumn_ok size nb n L Hs Hnb Hn HB zero p Hp buf ik vals Hb Hk Hl Hv) as (b & E & Lb & _).
  exists b. split; [exact E|]. split; [exact Lb|].
  exact (getEnergies_set size nb n L Hs Hnb Hn HB zero p Hp buf ik vals b Hb Hk Hl Hv E).
Qed.
Print Assumptions C55_energies_stored.
Theorem C55_velocities_stored : forall (T : Type) (zero : T) size nb n L p (buf : list T) ik vel, 0 < size -> 0 < nb -> 0 < n ->
  isProcess L p -> bandLayout size (nb * nb * 3) n = Ok L -> nb * nb * 3 <= INT_MAX ->
  zlen buf = numLocalElements L p -> 0 <= ik < n -> indicesAreLocal L p 0 ik = true ->
  exists buf', setVelocities zero L p nb buf ik vel = Ok buf' /\ zlen buf' = numLocalElements L p /\
  (forall i j k, 0 <= i < nb -> 0 <= j < nb -> 0 <= k < 3 -> getVelocities zero L p nb buf' ik i j k = Ok (vel i j k)) /\
  (forall ik' i j k, 0 <= ik' < n -> ik' <> ik -> indicesAreLocal L p 0 ik' = true -> 0 <= i < nb -> 0 <= j < nb -> 0 <= k < 3 ->
     getVelocities zero L p nb buf' ik' i j k = getVelocities zero L p nb buf ik' i j k).
Proof. intros T zero size nb n L p. intros. apply (velocities_roundtrip size nb n L); assumption. Qed.
Print Assumptions C55_velocities_stored.
(** the group velocity of state (ik, ib) is the diagonal entry of the velocity operator *)
Theorem C55_group_velocity : forall (T : Type) (zero : T) size nb n L p (buf : list T) ik ib i, 0 < size -> 0 < nb -> 0 < n ->
  isProcess L p -> bandLayout size (nb * nb * 3) n = Ok L -> nb * nb * 3 <= INT_MAX -> n * nb <= INT_MAX ->
  0 <= ik < n -> 0 <= ib < nb -> 0 <= i < 3 ->
  getGroupVelocity zero L p n nb buf (ik * nb + ib) i = getVelocities zero L p nb buf ik ib ib i.
Proof. intros T zero size nb n L p. intros. apply (group_velocity size nb n L); assumption. Qed.
Print Assumptions C55_group_velocity.
Theorem C55_eigenvectors_stored : forall (T : Type) (zero : T) size nb n L p (buf : list T) ik eig, 0 < size -> 0 < nb -> 0 < n ->
  isProcess L p -> bandLayout size (nb * nb) n = Ok L -> nb * nb <= INT_MAX ->
  zlen buf = numLocalElements L p -> 0 <= ik < n -> indicesAreLocal L p 0 ik = true ->
  exists buf', setEigenvectors zero L p nb buf ik eig = Ok buf' /\ zlen buf' = numLocalElements L p /\
  (forall i j, 0 <= i < nb -> 0 <= j < nb -> getEigenvectors zero L p nb buf' ik i j = Ok (eig i j)) /\
  (forall numAtoms ic ia ib, nb = 3 * numAtoms -> 0 <= ic < 3 -> 0 <= ia < numAtoms -> 0 <= ib < nb ->
     getPhEigenvectors zero L p numAtoms nb buf' ik ic ia ib = Ok (eig (3 * ia + ic) ib)) /\
  (forall ik' i j, 0 <= ik' < n -> ik' <> ik -> indicesAreLocal L p 0 ik' = true -> 0 <= i < nb -> 0 <= j < nb ->
     getEigenvectors zero L p nb buf' ik' i j = getEigenvectors zero L p nb buf ik' i j).
Proof. intros T zero size nb n L p. intros. apply (eigenvectors_roundtrip size nb n L); assumption. Qed.
Print Assumptions C55_eigenvectors_stored.
Theorem C55_nonlocal_access_stops : forall (T : Type) (zero : T) L p nb numAtoms (buf : list T) ik vals i j k, indicesAreLocal L p 0 ik = false ->
  setColumn L p buf ik vals = Err /\ getEnergies zero L p nb buf ik = Err /\ getVelocities zero L p nb buf ik i j k = Err /\
  getEigenvectors zero L p nb buf ik i j = Err /\ getPhEigenvectors zero L p numAtoms nb buf ik i j k = Err.
Proof. intros T zero L p nb na buf ik vals i j k H. unfold setColumn, getEnergies, getVelocities, getEigenvectors, getPhEigenvectors. rewrite H. repeat split. Qed.
Print Assumptions C55_nonlocal_access_stops.
(** the iterators of a rank: states and wavevectors it owns, in order; over all ranks, every wavevector once *)
Theorem C55_iterators_are_local : forall size nb n L p, 0 < size -> 0 < nb -> 0 < n -> bandLayout size nb n = Ok L -> isProcess L p ->
  (forall ik ib, In (ik, ib) (getStateIndices L p) <-> 0 <= ik < n /\ 0 <= ib < nb /\ indicesAreLocal L p ib ik = true) /\
  (forall ik, In ik (getWavevectorIndices L p) <-> 0 <= ik < n /\ indicesAreLocal L p 0 ik = true).
Proof.
  intros size nb n L p Hs Hnb Hn HB Hp. pose proof (band_valid size nb n L Hs Hnb Hn HB) as HL.
  destruct (band_rows size nb n L Hs HB) as (R1 & R2 & _ & _). split.
  - intros ik ib. unfold getStateIndices. rewrite in_map_iff. split.
    + intros ([r c] & E & I). cbn in E. injection E as -> ->. apply (states_In L HL p Hp) in I as [[I1 I2] I3].
      split; [lia|]. split; [lia|]. unfold indicesAreLocal. destruct (_ =? -1) eqn:F; [lia|reflexivity].
    + intros (I1 & I2 & I3). exists (ib, ik). split; [reflexivity|]. apply (states_In L HL p Hp). split; [split; lia|].
      unfold indicesAreLocal in I3. destruct (_ =? -1) eqn:F; [discriminate|lia].
  - intro ik. rewrite (band_wavevectors size nb n L Hs Hnb Hn HB p Hp), in_zrange. split.
    + intro H. assert (Hk : 0 <= ik < n).
      { unfold cutB in H. destruct (blockSize_pos n size Hn Hs). destruct Hp. nia. }
      split; [exact Hk|]. apply (band_local size nb n L Hs Hnb Hn HB p 0 ik Hp); [split; lia|lia].
    + intros [Hk E]. apply (band_local size nb n L Hs Hnb Hn HB p 0 ik Hp) in E; [lia|split; lia].
Qed.
Print Assumptions C55_iterators_are_local.
Theorem C55_iterators_join : forall size nb n L, 0 < size -> 0 < nb -> 0 < n -> bandLayout size nb n = Ok L ->
  concat (map (fun r => getWavevectorIndices L (0, r)) (zrange 0 size)) = zrange 0 n.
Proof. exact band_join. Qed.
Print Assumptions C55_iterators_join.
Theorem C55_more_processes_than_points_stops : forall size nb n, n < size -> bandLayout size nb n = Err.
Proof. intros size nb n H. unfold bandLayout. destruct (n <? size) eqn:E; [reflexivity|lia]. Qed.
Print Assumptions C55_more_processes_than_points_stops.
Example C55_ex2 : exists L, bandLayout 3 2 5 = Ok L /\ isProcess L (0, 1) /\ zlen [1; 2; 3; 4] = numLocalElements L (0, 1) /\ indicesAreLocal L (0, 1) 0 3 = true /\
  setColumn L (0, 1) [1; 2; 3; 4] 3 [7; 8] = Ok [1; 2; 7; 8] /\ getEnergies 0 L (0, 1) 2 [1; 2; 7; 8] 3 = Ok [7; 8] /\
  map (fun r => getWavevectorIndices L (0, r)) [0; 1; 2] = [[0; 1]; [2; 3]; [4]].
Proof. eexists. split; [reflexivity|]. unfold isProcess. cbn [npRows npCols fst snd]. repeat split; (lia || reflexivity). Qed.
Example C55_ex3 : exists L, bandLayout 2 12 2 = Ok L /\ isProcess L (0, 1) /\ indicesAreLocal L (0, 1) 0 1 = true /\
  setVelocities 0 L (0, 1) 2 (repeat 9 12) 1 (fun i j k => 100 * i + 10 * j + k) = Ok [0; 1; 2; 10; 11; 12; 100; 101; 102; 110; 111; 112].
Proof. eexists. split; [reflexivity|]. unfold isProcess. cbn [npRows npCols fst snd]. repeat split; (lia || reflexivity). Qed.
