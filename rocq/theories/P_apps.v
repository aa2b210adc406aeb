(** Properties C128 to C130 *)
From Coq Require Import Reals QArith Qabs Permutation Ascii String.
From Coq Require Import List.
From Verif Require Import Base BaseLemmas M_mpi S_mpi L_mpi M_particle L_particle M_delta S_delta L_delta P_delta M_points S_points L_points M_context L_context M_apps S_apps L_apps L_apps2.
From Verif Require L_matrix.
From Coq Require Import Lia Lra.
Open Scope R_scope.

(** * C128: the table of the density of states *)
Lemma Int_part_bounds x : IZR (Int_part x) <= x < IZR (Int_part x) + 1.
Proof. pose proof (base_Int_part x). lra. Qed.
Lemma numEnergies_ok minE maxE deltaE n : 0 < deltaE -> minE <= maxE -> numEnergies minE maxE deltaE = Ok n ->
  (1 <= n <= 2147483647)%Z /\ minE + IZR (n - 1) * deltaE <= maxE < minE + IZR n * deltaE.
Proof.
  intros Hd Hm. unfold numEnergies. destruct (reqb deltaE 0) eqn:E0; [apply reqb_eq in E0; lra|]. unfold toInt. set (x := (maxE - minE) / deltaE).
  assert (Hx : x * deltaE = maxE - minE) by (unfold x; field; lra). assert (Hx0 : 0 <= x) by (apply Rmult_le_reg_r with deltaE; lra).
  rewrite (proj2 (rltb_ge x 0) Hx0). pose proof (Int_part_bounds x) as B. set (z := Int_part x) in *. clearbody z x.
  destruct ((-2147483648 <=? z)%Z && (z <=? 2147483647)%Z) eqn:Er; cbn [bind]; [|discriminate]. destruct (Z.eqb_spec z 2147483647); [discriminate|]. intro E. injection E as <-.
  apply Bool.andb_true_iff in Er. destruct Er as [E1 E2]. apply Z.leb_le in E1, E2. assert (Hz : (0 <= z)%Z). { apply Z.lt_succ_r, lt_IZR. rewrite succ_IZR. lra. }
  split; [lia|]. replace (z + 1 - 1)%Z with z by lia. rewrite plus_IZR. split; nra.
Qed.
Theorem C128_table : forall (dos : R -> R) minE maxE deltaE n size, 0 < deltaE -> minE <= maxE -> numEnergies minE maxE deltaE = Ok n -> fits n size ->
  (exists es vs, calcDOS dos minE maxE deltaE size = Ok (es, vs) /\ zlen es = n /\ zlen vs = n /\
    forall i, (0 <= i < n)%Z -> zget es i = Some (minE + IZR i * deltaE) /\ zget vs i = Some (dos (minE + IZR i * deltaE))) /\
  (1 <= n)%Z /\ minE + IZR (n - 1) * deltaE <= maxE < minE + IZR n * deltaE.
Proof.
  intros dos minE maxE deltaE n size Hd Hm Hn F. destruct (numEnergies_ok minE maxE deltaE n Hd Hm Hn) as [Rn B]. split; [|split; [lia|exact B]].
  unfold calcDOS. rewrite Hn. cbn [bind]. replace (n <? 0)%Z with false by (symmetry; apply Z.ltb_ge; lia).
  set (en := fun i => IZR i * deltaE + minE). set (share := fun r => zrange (cut n size r) (cut n size (r + 1) - cut n size r)).
  assert (EP : map (dosRank dos minE deltaE n size) (zrange 0 size) = map (map (fun i => (en i, dos (en i)))) (map share (zrange 0 size))).
  { rewrite map_map. apply map_ext_in. intros r Hr. apply in_zrange in Hr. destruct (divideWork_agrees n size r F ltac:(lia)) as (a & b & E1 & _ & E2).
    rewrite divideWorkIter_cut in E2 by (assumption || lia). injection E2 as E2. unfold dosRank. rewrite E1, <- E2, map_map. reflexivity. }
  assert (ES : mapM (fun r => divideWorkIter n r size) (zrange 0 size) = Ok (map share (zrange 0 size))).
  { apply mapM_ok. intros r Hr. apply in_zrange in Hr. apply divideWorkIter_cut; [exact F|lia]. }
  rewrite EP, !map_map. assert (Zl : zlen (repeat 0 (Z.to_nat n)) = n) by (unfold zlen; rewrite repeat_length; lia). assert (HI : (n <= INT_MAX)%Z) by (unfold INT_MAX; lia).
  pose proof (proj2 (allGatherv_serial en n size _ _ F HI Zl ES)) as G1. pose proof (proj2 (allGatherv_serial (fun i => dos (en i)) n size _ _ F HI Zl ES)) as G2. rewrite map_map in G1, G2.
  erewrite map_ext; [rewrite G1|intro r; rewrite map_map; reflexivity]. cbn [bind]. erewrite map_ext; [rewrite G2|intro r; rewrite map_map; reflexivity]. cbn [bind].
  eexists _, _. split; [reflexivity|]. rewrite !zlen_map, zlen_zrange by lia. split; [reflexivity|]. split; [reflexivity|].
  intros i Hi. rewrite !zget_map, zget_zrange by lia. cbn [option_map]. unfold en. rewrite Z.add_0_l, (Rplus_comm (IZR i * deltaE)). split; reflexivity.
Qed.
(** the table does not depend on the number of processes *)
Theorem C128_processes : forall (dos : R -> R) minE maxE deltaE n size size', 0 < deltaE -> minE <= maxE -> numEnergies minE maxE deltaE = Ok n -> fits n size -> fits n size' ->
  calcDOS dos minE maxE deltaE size = calcDOS dos minE maxE deltaE size'.
Proof.
  intros dos minE maxE deltaE n size size' Hd Hm Hn F F'.
  destruct (C128_table dos minE maxE deltaE n size Hd Hm Hn F) as ((es & vs & E & L1 & L2 & H) & _). destruct (C128_table dos minE maxE deltaE n size' Hd Hm Hn F') as ((es' & vs' & E' & L1' & L2' & H') & _).
  rewrite E, E'. f_equal. f_equal; apply zget_ext; try congruence.
  - intros i Hi. rewrite L1 in Hi. now rewrite (proj1 (H i Hi)), (proj1 (H' i Hi)).
  - intros i Hi. rewrite L2 in Hi. now rewrite (proj2 (H i Hi)), (proj2 (H' i Hi)).
Qed.
(** the area under the curve is the same in the units of the output *)
Lemma rsum_div c l : rsum (map (fun d => d / c) l) = rsum l / c.
Proof. induction l as [|x l IH]; cbn [map rsum fold_right]; [unfold Rdiv; ring|]. fold (rsum (map (fun d => d / c) l)) (rsum l). rewrite IH. unfold Rdiv. ring. Qed.
Theorem C128_units : forall c (es vs : list R) i a b, c <> 0 -> zget es i = Some a -> zget es (i + 1) = Some b ->
  exists a' b', zget (fst (outputDOS c (es, vs))) i = Some a' /\ zget (fst (outputDOS c (es, vs))) (i + 1) = Some b' /\ area (b' - a') (snd (outputDOS c (es, vs))) = area (b - a) vs.
Proof.
  intros c es vs i a b Hc Ha Hb. exists (a * c), (b * c). unfold outputDOS. cbn [fst snd]. rewrite !zget_map, Ha, Hb. split; [reflexivity|]. split; [reflexivity|].
  unfold area. rewrite rsum_div. field. exact Hc.
Qed.
Lemma ex_int : Int_part (5 / 2) = 2%Z.
Proof. apply eq_IZR. pose proof (Int_part_bounds (5 / 2)) as B. assert (Int_part (5 / 2) = 2)%Z; [|now f_equal]. assert (Int_part (5/2) < 3)%Z by (apply lt_IZR; lra). assert (1 < Int_part (5/2))%Z by (apply lt_IZR; lra). lia. Qed.
Example C128_ex : numEnergies 1 6 2 = Ok 3%Z /\ fits 3 2 /\ calcDOS (fun e => e * e) 1 6 2 2 = calcDOS (fun e => e * e) 1 6 2 5.
Proof.
  assert (E : numEnergies 1 6 2 = Ok 3%Z).
  { unfold numEnergies. destruct (reqb 2 0) eqn:E0; [apply reqb_eq in E0; lra|]. unfold toInt. replace ((6 - 1) / 2) with (5 / 2) by lra. rewrite (proj2 (rltb_ge (5 / 2) 0)) by lra. rewrite ex_int. reflexivity. }
  split; [exact E|]. split; [unfold fits; lia|]. apply (C128_processes _ 1 6 2 3); try lra; try exact E; unfold fits; lia.
Qed.

(** * C129: the density of states from the irreducible states *)
Definition irreducible {K} (cell : K -> Z -> R) (stars : list (K * list K)) : list ((Z -> R) * Z) := map (fun s => (cell (fst s), (zlen (snd s) + 1)%Z)) stars.
Definition members {K} (stars : list (K * list K)) : list K := flat_map (fun s => fst s :: snd s) stars.
Lemma rsum_cons x l : rsum (x :: l) = x + rsum l. Proof. reflexivity. Qed.
Lemma rsum_app a b : rsum (a ++ b) = rsum a + rsum b.
Proof. induction a as [|x a IH]; cbn [app rsum fold_right]; [unfold rsum; ring|]. fold (rsum (a ++ b)) (rsum a). rewrite IH. ring. Qed.
Lemma rsum_const {T} (f : T -> R) c l : (forall x, In x l -> f x = c) -> rsum (map f l) = c * IZR (zlen l).
Proof. induction l as [|x l IH]; intro H; cbn [map rsum fold_right]; [unfold zlen; cbn; ring|]. fold (rsum (map f l)). rewrite IH by (intros; apply H; now right). rewrite (H x (or_introl eq_refl)), zlen_cons, plus_IZR. ring. Qed.
Lemma rsum_perm a b : Permutation a b -> rsum a = rsum b.
Proof. induction 1; cbn [rsum fold_right] in *; unfold rsum in *; lra. Qed.
(** if the cells of the points of a star have the same weight *)
Theorem C129_stars_partial : forall {K} (cell : K -> Z -> R) (stars : list (K * list K)) (all : list K) energy,
  Permutation (members stars) all -> (forall s k, In s stars -> In k (snd s) -> tetraSmearing (cell k) energy = tetraSmearing (cell (fst s)) energy) ->
  forall numPoints, getDOS (irreducible cell stars) numPoints energy = zoneDOS (map cell all) numPoints energy.
Proof.
  intros K cell stars all energy HP HS numPoints. unfold getDOS, zoneDOS. f_equal. rewrite map_map. rewrite <- (rsum_perm _ _ (Permutation_map _ HP)). clear HP. unfold irreducible. rewrite map_map.
  induction stars as [|s stars IH]; [reflexivity|]. unfold members in *. cbn [map flat_map]. rewrite map_app, rsum_app, rsum_cons.
  rewrite IH by (intros; eapply HS; [right|]; eassumption). f_equal. cbn [fst snd map]. rewrite rsum_cons.
  rewrite (rsum_const _ (tetraSmearing (cell (fst s)) energy)) by (intros k Hk; apply HS; [now left|exact Hk]). rewrite plus_IZR. ring.
Qed.
(** without symmetries: the density of the full mesh *)
Theorem C129_no_symmetries : forall {K} (cell : K -> Z -> R) (points : list K) numPoints energy,
  getDOS (map (fun k => (cell k, 1%Z)) points) numPoints energy = zoneDOS (map cell points) numPoints energy.
Proof.
  intros K cell points numPoints energy. rewrite <- (C129_stars_partial cell (map (fun k => (k, [])) points) points energy).
  - unfold irreducible. rewrite map_map. reflexivity.
  - unfold members. rewrite flat_map_concat_map, map_map. cbn [fst snd]. induction points; cbn [map concat app]; [constructor|now constructor].
  - intros s k Hs Hk. apply in_map_iff in Hs. destruct Hs as (k' & <- & _). destruct Hk.
Qed.
(** the cell of k has the energies at k + corner; over the mesh, each corner visits each point once *)
Lemma periodic_mod (h : Z -> R) n x : (0 < n)%Z -> (forall a, h (a + n)%Z = h a) -> h (x mod n)%Z = h x.
Proof.
  intros Hn H. assert (P : forall k a, (0 <= k)%Z -> h (a + k * n)%Z = h a).
  { intros k a Hk. revert k Hk. apply natlike_ind; [f_equal; lia|]. intros k Hk IH. rewrite <- IH, <- (H (a + k * n)%Z). f_equal. lia. }
  pose proof (Z.div_mod x n ltac:(lia)) as E. destruct (Z.le_gt_cases 0 (x / n)) as [L|L].
  - rewrite E at 2. rewrite <- (P (x / n)%Z (x mod n)%Z L). f_equal. lia.
  - rewrite <- (P (- (x / n))%Z x ltac:(lia)). f_equal. lia.
Qed.
Theorem C129_corner : forall n0 n1 n2 e k0 k1 k2 i, (0 < n0)%Z -> (0 < n1)%Z -> (0 < n2)%Z -> periodicOn n0 n1 n2 e ->
  cellEnergies n0 n1 n2 e (k0, k1, k2) i = let '(d0, d1, d2) := cellCorner i in e (k0 + d0, k1 + d1, k2 + d2)%Z.
Proof.
  intros n0 n1 n2 e k0 k1 k2 i H0 H1 H2 HP. unfold cellEnergies. destruct (cellCorner i) as [[d0 d1] d2].
  rewrite (periodic_mod (fun x => e (x, _, _)) n0) by (try lia; intros; apply HP).
  rewrite (periodic_mod (fun x => e (_, x, _)) n1) by (try lia; intros; apply HP).
  apply (periodic_mod (fun x => e (_, _, x)) n2); [lia | intros; apply HP].
Qed.
Theorem C129_cells : forall n0 n1 n2 e i, (0 < n0)%Z -> (0 < n1)%Z -> (0 < n2)%Z ->
  Permutation (map (fun k => cellEnergies n0 n1 n2 e k i) (meshPoints n0 n1 n2)) (map e (meshPoints n0 n1 n2)).
Proof.
  intros n0 n1 n2 e i H0 H1 H2. destruct (cellCorner i) as [[d0 d1] d2] eqn:EC.
  set (sh := fun k : Z * Z * Z => let '(k0, k1, k2) := k in ((k0 + d0) mod n0, (k1 + d1) mod n1, (k2 + d2) mod n2)%Z).
  rewrite (map_ext _ (fun k => e (sh k))) by (intros [[k0 k1] k2]; unfold cellEnergies, sh; rewrite EC; reflexivity).
  rewrite <- map_map. apply Permutation_map. assert (N : NoDup (meshPoints n0 n1 n2)) by (apply L_matrix.NoDup_list_prod; [apply L_matrix.NoDup_list_prod|]; apply NoDup_zrange).
  assert (INJ : forall n d a b, (0 < n)%Z -> (0 <= a < n)%Z -> (0 <= b < n)%Z -> ((a + d) mod n)%Z = ((b + d) mod n)%Z -> a = b).
  { intros n d a b Hn Ha Hb E. pose proof (Z.div_mod (a + d) n ltac:(lia)). pose proof (Z.div_mod (b + d) n ltac:(lia)).
    assert (F : (a - b = n * ((a + d) / n - (b + d) / n))%Z) by lia. assert (((a + d) / n - (b + d) / n)%Z = 0%Z) by nia. lia. }
  assert (I : forall k, In k (meshPoints n0 n1 n2) <-> let '(a, b, c) := k in (0 <= a < n0 /\ 0 <= b < n1 /\ 0 <= c < n2)%Z).
  { intros [[a b] c]. unfold meshPoints. rewrite !in_prod_iff, !in_zrange. lia. }
  apply NoDup_Permutation_bis.
  - assert (G : forall l, NoDup l -> (forall k, In k l -> In k (meshPoints n0 n1 n2)) -> NoDup (map sh l)); [|apply G; [exact N|auto]].
    intros l Hl. induction Hl as [|x l Hx Hl IH]; intros Hin; [constructor|]. cbn [map]. constructor; [|apply IH; intros; apply Hin; now right].
    intros J. apply in_map_iff in J. destruct J as (y & E & Hy). apply Hx. replace x with y; [exact Hy|].
    pose proof (Hin x (or_introl eq_refl)) as Ix. pose proof (Hin y (or_intror Hy)) as Iy. apply I in Ix, Iy.
    destruct x as [[a b] c], y as [[a' b'] c']. unfold sh in E. injection E as E0 E1 E2. rewrite (INJ n0 d0 a' a), (INJ n1 d1 b' b), (INJ n2 d2 c' c) by (try assumption; try tauto; now symmetry). reflexivity.
  - rewrite map_length. lia.
  - intros k J. apply in_map_iff in J. destruct J as ([[a b] c] & <- & _). apply I. unfold sh. repeat split; apply Z.mod_pos_bound; lia.
Qed.
Print Assumptions C129_corner. Print Assumptions C129_cells.
(** never negative, zero where no cell reaches *)
Theorem C129_nonnegative : forall states numPoints energy, (0 < numPoints)%Z -> (forall s, In s states -> (0 <= snd s)%Z) -> 0 <= getDOS states numPoints energy.
Proof.
  intros states numPoints energy Hn Hs. unfold getDOS. apply Rmult_le_pos; [|left; apply Rinv_0_lt_compat, IZR_lt; lia]. apply rsum_nonneg. intros x Hx. apply in_map_iff in Hx. destruct Hx as (s & <- & Hin).
  apply Rmult_le_pos; [apply C43_weight_nonnegative|]. apply IZR_le. now apply Hs.
Qed.
Theorem C129_gap : forall states numPoints energy, (forall s, In s states -> (forall i, (0 <= i < 8)%Z -> energy < fst s i) \/ (forall i, (0 <= i < 8)%Z -> fst s i < energy)) -> getDOS states numPoints energy = 0.
Proof.
  intros states numPoints energy H. unfold getDOS. rewrite (rsum_const _ 0); [unfold Rdiv; ring|]. intros s Hs. rewrite (C43_weight_support _ _ (H s Hs)). ring.
Qed.
(** with symmetries: four points on a line with a band symmetric under inversion. The cells of k and -k are not images of each other; the
    density of the irreducible points is half of that of the mesh *)
Definition chain (k : Z * Z * Z) : R := let '(a, _, _) := k in if (a =? 0)%Z then 0 else if (a =? 2)%Z then 2 else 1.
Definition chainCell (a : Z) : Z -> R := cellEnergies 4 1 1 chain (a, 0, 0)%Z.
Ltac rdec := repeat match goal with
  | |- context [rleb ?a ?b] => first [rewrite (proj2 (rleb_le a b)) by lra | rewrite (proj2 (rleb_gt a b)) by lra]
  | |- context [rltb ?a ?b] => first [rewrite (proj2 (rltb_lt a b)) by lra | rewrite (proj2 (rltb_ge a b)) by lra]
  end.
Lemma reqb_neq a b : a <> b -> reqb a b = false.
Proof. intro H. apply Bool.not_true_iff_false. intro K. apply reqb_eq in K. contradiction. Qed.
Ltac rdec2 := repeat (rdec; match goal with |- context [reqb ?a ?b] => first [rewrite (proj2 (reqb_eq a b)) by lra | rewrite (reqb_neq a b) by lra] end); rdec.
Lemma weight_half en : (forall i, (0 <= i < 8)%Z -> en i = if Z.even i then 0 else 1) \/ (forall i, (0 <= i < 8)%Z -> en i = if Z.even i then 1 else 0) -> tetraSmearing en (1 / 2) = 1.
Proof.
  intros H. assert (K : rsum (map (tetraWeight en (1 / 2)) vertices) = 6).
  { unfold vertices. cbn [map rsum fold_right]. unfold tetraWeight, tetraEnergies, rsort. cbn [fold_right rinsert].
    destruct H as [H | H]; rewrite !H by lia; cbn [Z.even]; rdec; cbn [rinsert]; rdec; cbn [rinsert]; rdec; unfold cnE; rdec2; cbn [andb orb]; field. }
  unfold tetraSmearing. rewrite K. rewrite (proj2 (rltb_ge 6 _)) by lra. field.
Qed.
Theorem C129_irreducible_refuted :
  (forall a, (0 <= a < 4)%Z -> chain (a, 0, 0)%Z = chain ((- a) mod 4, 0, 0)%Z) /\
  getDOS (irreducible chainCell [(0, []); (1, [3]); (2, [])]%Z) 4 (1 / 2) = 1 / 4 /\ zoneDOS (map chainCell [0; 1; 2; 3]%Z) 4 (1 / 2) = 1 / 2.
Proof.
  assert (D : forall i, (0 <= i < 8)%Z -> (i = 0 \/ i = 1 \/ i = 2 \/ i = 3 \/ i = 4 \/ i = 5 \/ i = 6 \/ i = 7)%Z) by lia.
  assert (W0 : tetraSmearing (chainCell 0) (1 / 2) = 1). { apply weight_half. left. intros i Hi. destruct (D i Hi) as [-> | [-> | [-> | [-> | [-> | [-> | [-> | ->]]]]]]]; reflexivity. }
  assert (W3 : tetraSmearing (chainCell 3) (1 / 2) = 1). { apply weight_half. right. intros i Hi. destruct (D i Hi) as [-> | [-> | [-> | [-> | [-> | [-> | [-> | ->]]]]]]]; reflexivity. }
  assert (C12 : forall i, (0 <= i < 8)%Z -> (chainCell 1 i = 1 \/ chainCell 1 i = 2) /\ (chainCell 2 i = 1 \/ chainCell 2 i = 2)).
  { intros i Hi. destruct (D i Hi) as [-> | [-> | [-> | [-> | [-> | [-> | [-> | ->]]]]]]]; split; first [left; reflexivity | right; reflexivity]. }
  assert (W1 : tetraSmearing (chainCell 1) (1 / 2) = 0). { apply C43_weight_support. left. intros i Hi. destruct (C12 i Hi) as [[-> | ->] _]; lra. }
  assert (W2 : tetraSmearing (chainCell 2) (1 / 2) = 0). { apply C43_weight_support. left. intros i Hi. destruct (C12 i Hi) as [_ [-> | ->]]; lra. }
  split. { intros a Ha. assert ((a = 0 \/ a = 1 \/ a = 2 \/ a = 3)%Z) as [-> | [-> | [-> | ->]]] by lia; reflexivity. }
  unfold getDOS, zoneDOS, irreducible. cbn [map rsum fold_right fst snd]. rewrite W0, W1, W2, W3. unfold zlen. cbn [length Z.of_nat Z.add Pos.add Pos.of_succ_nat]. split; field.
Qed.
Example C129_ex : Permutation (members [(0, []); (1, [3]); (2, [])]%Z) [0; 1; 2; 3]%Z /\
  forall s k, In s [(0, []); (1, [3]); (2, [])]%Z -> In k (snd s) -> tetraSmearing (chainCell k) 5 = tetraSmearing (chainCell (fst s)) 5.
Proof.
  split; [unfold members; cbn [flat_map fst snd app]; apply perm_skip, perm_skip, perm_swap|].
  assert (W : forall a, tetraSmearing (chainCell a) 5 = 0). { intro a. apply C43_weight_support. right. intros i Hi. unfold chainCell, cellEnergies. destruct (cellCorner i) as [[d0 d1] d2]. unfold chain. destruct (_ =? 0)%Z; [lra|]. destruct (_ =? 2)%Z; lra. }
  intros. now rewrite !W.
Qed.

(** * C130: labels of the path *)
Theorem C130_labels_partial : forall delta segs, ((1 # 10000000) <= delta)%Q -> segs <> [] -> Forall (goodSegment delta) segs -> goodJoints segs ->
  exists pts l, pathPoints (coords segs) delta = map Some pts /\ highSymIndices segs pts = Ok l /\ labelled (extrema segs) pts l.
Proof. exact highSym_path. Qed.
(** a path that ends at a point with the label it started from *)
Theorem C130_same_label_refuted : forall delta p0 p1 lab, ((1 # 10000000) <= delta)%Q -> (delta * delta <= sqDist p1 p0)%Q ->
  exists pts, pathPoints (coords [((p0, lab), (p1, lab))]) delta = map Some pts /\ highSymIndices [((p0, lab), (p1, lab))] pts = UB.
Proof. exact same_label_UB. Qed.
Definition sG : str := list_ascii_of_string "G". Definition sX : str := list_ascii_of_string "X". Definition sM : str := list_ascii_of_string "M". Definition sA : str := list_ascii_of_string "A".
Definition exSegs : list ((v3 * str) * (v3 * str)) := [((V3 0 0 0, sG), (V3 (1 # 2) 0 0, sX)); ((V3 (1 # 2) 0 0, sX), (V3 (1 # 2) (1 # 2) 0, sM)); ((V3 0 0 (1 # 2), sA), (V3 0 0 0, sG))].
Example C130_ex : Forall (goodSegment (1 # 8)) exSegs /\ goodJoints exSegs /\
  highSymIndices exSegs (flat_map (fun o => match o with Some v => [v] | None => [] end) (pathPoints (coords exSegs) (1 # 8))) = Ok [0; 4; 4; 8; 9; 13]%Z.
Proof.
  split; [|split; [|vm_compute; reflexivity]].
  - unfold exSegs. repeat constructor; cbn [fst snd]; try (vm_compute; intro K; discriminate K).
  - unfold exSegs. cbn [goodJoints fst snd]. split; [right; left; reflexivity|]. split; [right; right; vm_compute; reflexivity|exact I].
Qed.
Print Assumptions C128_table. Print Assumptions C128_processes. Print Assumptions C128_units. Print Assumptions C129_stars_partial. Print Assumptions C129_no_symmetries. Print Assumptions C129_nonnegative.
Print Assumptions C129_gap. Print Assumptions C129_irreducible_refuted. Print Assumptions C130_labels_partial. Print Assumptions C130_same_label_refuted.
