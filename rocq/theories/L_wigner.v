(** Lemmas on Wigner-Seitz vectors. *)
From Coq Require Import QArith Qabs Permutation.
From Verif Require Import Base BaseLemmas M_utilities L_utilities L_matrix M_wigner S_wigner.
From Coq Require Import Lqa.
Open Scope Z_scope.

(** * Boxes *)
Lemma box_In m0 m1 m2 a b c : In (a, b, c) (box (m0, m1, m2)) <-> - m0 <= a <= m0 /\ - m1 <= b <= m1 /\ - m2 <= c <= m2.
Proof. unfold box. rewrite !in_prod_iff, !in_zrange. lia. Qed.
Lemma zrange_NoDup' a n : NoDup (zrange a n).
Proof. unfold zrange. apply FinFun.Injective_map_NoDup; [intros x y H; lia|apply seq_NoDup]. Qed.
Lemma box_NoDup m : NoDup (box m).
Proof. destruct m as [[m0 m1] m2]. unfold box. apply NoDup_list_prod; [apply NoDup_list_prod; apply zrange_NoDup'|apply zrange_NoDup']. Qed.
Lemma box_mid m : 0 <= m -> zget (box (m, m, m)) (Z.quot ((2 * m + 1) ^ 3) 2) = Some (0, 0, 0).
Proof.
  intro H. set (n := 2 * m + 1). assert (E : Z.quot (n ^ 3) 2 = (m * n + m) * n + m).
  { rewrite Z.quot_div_nonneg by (unfold n; nia). symmetry. apply (Z.div_unique _ _ _ 1); [lia|]. replace (n ^ 3) with (n * n * n) by ring. unfold n. nia. }
  rewrite E. assert (Hn : 0 < n) by (unfold n; lia). unfold zget, box. cbv beta iota. replace ((m * n + m) * n + m <? 0) with false by nia.
  replace (Z.to_nat ((m * n + m) * n + m)) with (Z.to_nat (m * n + m) * length (zrange (- m) (2 * m + 1)) + Z.to_nat m)%nat by (rewrite zrange_length; fold n; nia).
  unfold v3. rewrite nth_error_list_prod; [|rewrite prod_length, !zrange_length; fold n; nia|rewrite zrange_length; lia].
  replace (Z.to_nat (m * n + m)) with (Z.to_nat m * length (zrange (- m) (2 * m + 1)) + Z.to_nat m)%nat by (rewrite zrange_length; fold n; nia).
  rewrite nth_error_list_prod by (rewrite zrange_length; lia). rewrite !nth_error_zrange by lia. repeat f_equal; lia.
Qed.
Lemma zget_map' {A B} (f : A -> B) l i : zget (map f l) i = option_map f (zget l i).
Proof. unfold zget. destruct (i <? 0); [reflexivity|]. apply nth_error_map. Qed.

(** * Minimum *)
Lemma min_fold r : forall x, (fold_left (fun a y => if Qle_bool a y then a else y) r x <= x)%Q /\ (forall y, In y r -> (fold_left (fun a y => if Qle_bool a y then a else y) r x <= y)%Q) /\
  (fold_left (fun a y => if Qle_bool a y then a else y) r x = x \/ In (fold_left (fun a y => if Qle_bool a y then a else y) r x) r).
Proof.
  induction r as [|z r IH]; intro x; cbn [fold_left]; [split; [apply Qle_refl|split; [intros _ []|left; reflexivity]]|]. destruct (Qle_bool x z) eqn:E.
  - apply Qle_bool_iff in E. destruct (IH x) as (H1 & H2 & H3). split; [exact H1|]. split; [intros y [<-|Hy]; [eapply Qle_trans; [exact H1|exact E]|apply H2; exact Hy]|]. destruct H3 as [H3|H3]; [left; exact H3|right; right; exact H3].
  - assert (Hz : (z <= x)%Q). { destruct (Qlt_le_dec x z) as [F|F]; [|exact F]. apply Qlt_le_weak in F. apply Qle_bool_iff in F. congruence. }
    destruct (IH z) as (H1 & H2 & H3). split; [eapply Qle_trans; [exact H1|exact Hz]|]. split; [intros y [<-|Hy]; [exact H1|apply H2; exact Hy]|]. right. destruct H3 as [H3|H3]; [left; symmetry; exact H3|right; exact H3].
Qed.
Lemma minOf_spec l : l <> [] -> In (minOf l) l /\ forall y, In y l -> (minOf l <= y)%Q.
Proof.
  destruct l as [|x r]; [congruence|]. intros _. cbn [minOf]. destruct (min_fold r x) as (H1 & H2 & H3). split; [destruct H3 as [H3|H3]; [left; symmetry; exact H3|right; exact H3]|]. intros y [<-|Hy]; [exact H1|apply H2; exact Hy].
Qed.
Lemma near_iff x y : (y <= x)%Q -> (near x y = true <-> (x - y < 1 # 1000000)%Q).
Proof. change (1 # 1000000) with tol.
  intro H. unfold near. rewrite negb_true_iff. assert (E : (Qabs (x - y) == x - y)%Q) by (apply Qabs_pos; lra).
  split.
  - intro F. apply Qnot_le_lt. intro G. rewrite <- E in G. apply Qle_bool_iff in G. congruence.
  - intro F. destruct (Qle_bool tol (Qabs (x - y))) eqn:G; [|reflexivity]. apply Qle_bool_iff in G. rewrite E in G. lra.
Qed.

(** * Images *)
Lemma shift_zero g i : shiftBy g i (0, 0, 0) = i.
Proof. destruct g as [[g0 g1] g2], i as [[a b] c]. cbn [shiftBy]. f_equal; [f_equal|]; lia. Qed.
Lemma images_refl g v : images g v v.
Proof. exists (0, 0, 0). symmetry. apply shift_zero. Qed.
Lemma images_sym g v w : images g v w -> images g w v.
Proof. intros ([[j0 j1] j2] & ->). exists (- j0, - j1, - j2). destruct g as [[g0 g1] g2], v as [[a b] c]. cbn [shiftBy]. f_equal; [f_equal|]; ring. Qed.
Lemma images_trans g u v w : images g u v -> images g v w -> images g u w.
Proof. intros ([[j0 j1] j2] & ->) ([[k0 k1] k2] & ->). exists (j0 + k0, j1 + k1, j2 + k2). destruct g as [[g0 g1] g2], u as [[a b] c]. cbn [shiftBy]. f_equal; [f_equal|]; ring. Qed.
Lemma shift_inj g i j j' : positive g -> shiftBy g i j = shiftBy g i j' -> j = j'.
Proof. destruct g as [[g0 g1] g2], i as [[a b] c], j as [[j0 j1] j2], j' as [[k0 k1] k2]. cbn [shiftBy positive]. intros (H0 & H1 & H2) E. injection E as E0 E1 E2. f_equal; [f_equal|]; nia. Qed.
(** residues *)
Definition cls (g v : v3) : v3 := let '(g0, g1, g2) := g in let '(a, b, c) := v in (a mod g0, b mod g1, c mod g2).
Lemma cls_images g v w : positive g -> (images g v w <-> cls g v = cls g w).
Proof.
  destruct g as [[g0 g1] g2], v as [[a b] c], w as [[a' b'] c']. cbn [positive cls]. intros (H0 & H1 & H2). split.
  - intros ([[j0 j1] j2] & E). cbn [shiftBy] in E. injection E as -> -> ->. f_equal; [f_equal|]; symmetry.
    + replace (a - j0 * g0) with (a + (- j0) * g0) by ring. apply Z.mod_add. lia.
    + replace (b - j1 * g1) with (b + (- j1) * g1) by ring. apply Z.mod_add. lia.
    + replace (c - j2 * g2) with (c + (- j2) * g2) by ring. apply Z.mod_add. lia.
  - intro E. injection E as E0 E1 E2. exists (a / g0 - a' / g0, b / g1 - b' / g1, c / g2 - c' / g2). cbn [shiftBy].
    pose proof (Z.div_mod a g0). pose proof (Z.div_mod a' g0). pose proof (Z.div_mod b g1). pose proof (Z.div_mod b' g1). pose proof (Z.div_mod c g2). pose proof (Z.div_mod c' g2). f_equal; [f_equal|]; nia.
Qed.

Section WS.
Variables (g : v3) (nx : Z) (d : v3 -> Q).
Hypothesis (Hg : positive g) (Hnx : 1 <= nx) (Hc : compact g d).
Definition bigBox : v3 := let '(g0, g1, g2) := g in (nx * g0, nx * g1, nx * g2).
Lemma quot_bound a b k q : 0 < q -> - k * q <= a <= k * q -> - q <= b <= q -> a - b = 0 \/ True -> forall j, b = a - j * q -> - (k + 1) <= j <= k + 1.
Proof. intros Hq Ha Hb _ j E. nia. Qed.
Lemma reach i w : In i (box bigBox) -> inCell g w -> images g i w -> exists j, w = shiftBy g i j /\ In j (box (nx + 1, nx + 1, nx + 1)).
Proof.
  unfold bigBox. destruct g as [[g0 g1] g2] eqn:Eg, i as [[a b] c], w as [[a' b'] c']. cbn [positive] in Hg. destruct Hg as (H0 & H1 & H2). rewrite box_In. intros (I0 & I1 & I2) (C0 & C1 & C2) ([[j0 j1] j2] & E).
  exists (j0, j1, j2). split; [exact E|]. cbn [shiftBy] in E. injection E as E0 E1 E2. rewrite box_In.
  split; [apply (quot_bound a a' nx g0); try assumption; tauto || nia|]. split; [apply (quot_bound b b' nx g1); try assumption; tauto || nia|apply (quot_bound c c' nx g2); try assumption; tauto || nia].
Qed.
Lemma cell_box w : inCell g w -> In w (box bigBox).
Proof. unfold bigBox. destruct g as [[g0 g1] g2], w as [[a b] c]. cbn [positive inCell] in *. intros (C0 & C1 & C2). rewrite box_In. nia. Qed.
Definition dists (i : v3) : list Q := map (fun j => d (shiftBy g i j)) (box (nx + 1, nx + 1, nx + 1)).
Lemma dists_min i m : In i (box bigBox) -> images g i m -> (forall w, images g i w -> (d m <= d w)%Q) -> (forall w, images g i w -> (d w - d m < 1 # 1000000)%Q -> inCell g w) -> (minOf (dists i) == d m)%Q.
Proof.
  intros Hi Hm Hmin Hcell. assert (Cm : inCell g m) by (apply Hcell; [exact Hm|]; unfold tol; lra). destruct (reach i m Hi Cm Hm) as (j & Ej & Hj).
  assert (Nn : dists i <> []). { unfold dists. intro F. apply map_eq_nil in F. rewrite F in Hj. destruct Hj. }
  destruct (minOf_spec (dists i) Nn) as (S1 & S2). apply Qle_antisym.
  - apply S2. unfold dists. rewrite Ej. apply (in_map (fun j => d (shiftBy g i j))). exact Hj.
  - unfold dists in S1. apply in_map_iff in S1 as (j' & E' & _). unfold dists. rewrite <- E'. apply Hmin. exists j'. reflexivity.
Qed.
(** the criterion *)
Definition keptB (i : v3) : bool := near (d i) (minOf (dists i)).
Lemma degeneracy_eq i : wsDegeneracy g nx d i = Ok (if keptB i then Some (zlen (filter (fun y => near y (minOf (dists i))) (dists i))) else None).
Proof.
  unfold wsDegeneracy. fold (dists i). unfold dists at 1. rewrite zget_map', box_mid by lia. cbn [option_map]. rewrite shift_zero. reflexivity.
Qed.
Lemma kept_shortest i : In i (box bigBox) -> (keptB i = true <-> shortest g d i).
Proof.
  intro Hi. destruct (Hc i) as (m & Hm & Hmin & Hcell). pose proof (dists_min i m Hi Hm Hmin Hcell) as E. unfold keptB. assert (Hle : (minOf (dists i) <= d i)%Q) by (rewrite E; apply Hmin; apply images_refl).
  rewrite near_iff by exact Hle. split.
  - intros H w Hw. specialize (Hmin w Hw). lra.
  - intro H. specialize (H m Hm). lra.
Qed.
Lemma shortest_cell i : shortest g d i -> inCell g i.
Proof. intro H. destruct (Hc i) as (m & Hm & Hmin & Hcell). apply Hcell; [apply images_refl|]. apply H. exact Hm. Qed.
Lemma shortest_images i w : shortest g d i -> images g i w -> shortest g d w -> True.
Proof. trivial. Qed.
Definition degOf' (i : v3) : Z := zlen (filter (fun y => near y (minOf (dists i))) (dists i)).
Definition keptList : list v3 := filter keptB (box bigBox).
Lemma wsList_eq : wsList g nx d = Ok (map (fun i => (i, degOf' i)) keptList).
Proof.
  assert (E : wsList g nx d = (do l <- mapM (fun i => do o <- wsDegeneracy g nx d i ; Ok (match o with Some n => [(i, n)] | None => [] end)) (box bigBox) ; Ok (concat l))) by (unfold wsList, bigBox; destruct g as [[g0 g1] g2]; reflexivity).
  rewrite E. clear E. unfold keptList. induction (box bigBox) as [|i l IH]; [reflexivity|]. cbn [mapM filter map]. rewrite degeneracy_eq. cbn [bind]. destruct (mapM _ l) as [ls| |]; cbn [bind] in IH |- *; try discriminate.
  assert (IH' : concat ls = map (fun i => (i, degOf' i)) (filter keptB l)). { injection IH; auto. } unfold degOf' in *. destruct (keptB i); cbn [map concat app]; rewrite IH'; reflexivity.
Qed.
Lemma kept_In i : In i keptList <-> shortest g d i.
Proof.
  unfold keptList. rewrite filter_In. split.
  - intros (Hi & K). apply kept_shortest; assumption.
  - intro S. assert (Hi : In i (box bigBox)) by (apply cell_box, shortest_cell; exact S). split; [exact Hi|]. apply kept_shortest; assumption.
Qed.
Definition eq3 (v w : v3) : bool := let '(a, b, c) := v in let '(a', b', c') := w in (a =? a') && (b =? b') && (c =? c').
Lemma eq3_iff v w : eq3 v w = true <-> v = w.
Proof. destruct v as [[a b] c], w as [[a' b'] c']. cbn [eq3]. split; [intro H; f_equal; [f_equal|]; lia|intro H; injection H as -> -> ->; lia]. Qed.
(** the degeneracy counts the images in the list *)
Lemma degeneracy_count i : In i keptList -> degOf' i = zlen (filter (fun w => eq3 (cls g i) (cls g w)) keptList).
Proof.
  intro Hi. assert (S : shortest g d i) by (apply kept_In; exact Hi). assert (Hb : In i (box bigBox)) by (apply cell_box, shortest_cell; exact S).
  destruct (Hc i) as (m & Hm & Hmin & Hcell). pose proof (dists_min i m Hb Hm Hmin Hcell) as E.
  unfold degOf'. unfold dists at 2.
  assert (FM : forall (f : Q -> bool) (h : v3 -> Q) l, filter f (map h l) = map h (filter (fun x => f (h x)) l)). { intros f h l. induction l as [|x l IH]; [reflexivity|]. cbn [map filter]. destruct (f (h x)); cbn [map]; rewrite IH; reflexivity. }
  rewrite FM. unfold zlen. rewrite map_length. rewrite <- (map_length (shiftBy g i)). f_equal. apply Permutation_length. apply NoDup_Permutation.
  - apply FinFun.Injective_map_NoDup; [intros x y Exy; apply (shift_inj g i); assumption|]. apply NoDup_filter, box_NoDup.
  - apply NoDup_filter. apply NoDup_filter, box_NoDup.
  - intro w. rewrite in_map_iff, filter_In. split.
    + intros (j & <- & Hj). apply filter_In in Hj as (Hj & Nj). assert (Im : images g i (shiftBy g i j)) by (exists j; reflexivity).
      assert (Hle : (minOf (dists i) <= d (shiftBy g i j))%Q) by (rewrite E; apply Hmin; exact Im). apply near_iff in Nj; [|exact Hle].
      split; [|apply eq3_iff; apply cls_images; assumption]. apply kept_In. intros u Hu. assert (Hi' : images g i u) by (apply (images_trans g i (shiftBy g i j) u); assumption). specialize (Hmin u Hi'). lra.
    + intros (Kw & Ew). apply eq3_iff in Ew. apply cls_images in Ew; [|exact Hg]. assert (Sw : shortest g d w) by (apply kept_In; exact Kw).
      destruct (reach i w Hb (shortest_cell w Sw) Ew) as (j & Ej & Hj). exists j. split; [symmetry; exact Ej|]. apply filter_In. split; [exact Hj|].
      assert (Hle : (minOf (dists i) <= d (shiftBy g i j))%Q) by (rewrite E; apply Hmin; rewrite <- Ej; exact Ew). apply near_iff; [exact Hle|]. rewrite <- Ej in *.
      assert (F : (d w - d m < 1 # 1000000)%Q) by (apply Sw; apply (images_trans g w i m); [apply images_sym; exact Ew|exact Hm]). lra.
Qed.

(** * Sums *)
Lemma sumQ_const {A} (f : A -> Q) (c : Q) l : (forall x, In x l -> (f x == c)%Q) -> (sumQ (map f l) == inject_Z (zlen l) * c)%Q.
Proof.
  induction l as [|x l IH]; intro H; [unfold zlen; cbn [map sumQ fold_right length]; change (inject_Z (Z.of_nat 0)) with 0%Q; unfold sumQ; cbn [fold_right]; ring|]. cbn [map sumQ fold_right]. fold (sumQ (map f l)). rewrite IH by (intros y Hy; apply H; right; exact Hy). rewrite (H x (or_introl eq_refl)).
  unfold zlen. cbn [length]. rewrite Nat2Z.inj_succ, <- Z.add_1_l, inject_Z_plus. ring.
Qed.
Lemma sumQ_perm l l' : Permutation l l' -> (sumQ l == sumQ l')%Q.
Proof. unfold sumQ. induction 1; cbn [fold_right]; [reflexivity|rewrite IHPermutation; reflexivity|ring|rewrite IHPermutation1; exact IHPermutation2]. Qed.
Lemma sumQ_ext {A} (h h' : A -> Q) ks : (forall k, In k ks -> (h k == h' k)%Q) -> (sumQ (map h ks) == sumQ (map h' ks))%Q.
Proof. unfold sumQ. induction ks as [|k ks IH]; intro H; cbn [map fold_right]; [reflexivity|]. rewrite IH by (intros; apply H; right; assumption). rewrite (H k (or_introl eq_refl)). reflexivity. Qed.
Lemma sumQ_one {A} (h h' : A -> Q) kx (c : Q) ks : NoDup ks -> In kx ks -> (h kx == c + h' kx)%Q -> (forall k, In k ks -> k <> kx -> (h k == h' k)%Q) -> (sumQ (map h ks) == c + sumQ (map h' ks))%Q.
Proof.
  intros Nd Hk E O. induction Nd as [|k ks Hn Nd IH]; [destruct Hk|]. unfold sumQ in *. cbn [map fold_right]. destruct Hk as [->|Hk].
  - rewrite E. pose proof (sumQ_ext h h' ks) as X. unfold sumQ in X. rewrite X; [ring|]. intros k Hk. apply O; [right; exact Hk|]. intros ->. exact (Hn Hk).
  - rewrite IH; [|exact Hk|intros; apply O; [right; assumption|assumption]]. rewrite (O k); [ring|left; reflexivity|]. intros ->. exact (Hn Hk).
Qed.
Lemma sumQ_classes {A} (key : A -> v3) (f : A -> Q) (ks : list v3) l : NoDup ks -> (forall x, In x l -> In (key x) ks) ->
  (sumQ (map f l) == sumQ (map (fun k => sumQ (map f (filter (fun x => eq3 k (key x)) l))) ks))%Q.
Proof.
  intro Nd. induction l as [|x l IH]; intro H.
  - clear. unfold sumQ. cbn [filter map fold_right]. induction ks as [|k ks IH]; cbn [map fold_right]; [reflexivity|]. rewrite <- IH. reflexivity.
  - symmetry. rewrite (sumQ_one _ (fun k => sumQ (map f (filter (fun x => eq3 k (key x)) l))) (key x) (f x) ks Nd (H x (or_introl eq_refl))).
    + rewrite <- IH by (intros; apply H; right; assumption). reflexivity.
    + cbn [filter]. rewrite (proj2 (eq3_iff (key x) (key x)) eq_refl). reflexivity.
    + intros k _ Hne. cbn [filter]. destruct (eq3 k (key x)) eqn:E; [apply eq3_iff in E; congruence|reflexivity].
Qed.
Definition out : list (v3 * Z) := map (fun i => (i, degOf' i)) keptList.
Definition classes : list v3 := let '(g0, g1, g2) := g in list_prod (list_prod (zrange 0 g0) (zrange 0 g1)) (zrange 0 g2).
Lemma class_sum t : (sumQ (map weight (filter (fun x => eq3 (cls g t) (cls g (fst x))) out)) == 1)%Q.
Proof.
  set (N := zlen (filter (fun w => eq3 (cls g t) (cls g w)) keptList)).
  assert (E : filter (fun x => eq3 (cls g t) (cls g (fst x))) out = map (fun i => (i, degOf' i)) (filter (fun w => eq3 (cls g t) (cls g w)) keptList)).
  { unfold out. induction keptList as [|x l IH]; [reflexivity|]. cbn [map filter fst]. destruct (eq3 (cls g t) (cls g x)); cbn [map]; rewrite IH; reflexivity. }
  rewrite E, map_map. cbn [weight snd].
  assert (NP : 0 < N). { destruct (Hc t) as (m & Hm & Hmin & Hcell). assert (Sm : shortest g d m). { intros w Hw. specialize (Hmin w (images_trans g t m w Hm Hw)). unfold tol. lra. }
    apply kept_In in Sm. assert (F : In m (filter (fun w => eq3 (cls g t) (cls g w)) keptList)) by (apply filter_In; split; [exact Sm|]; apply eq3_iff, cls_images; assumption). unfold N, zlen. destruct (filter _ keptList); [destruct F|cbn [length]; lia]. }
  rewrite (sumQ_const _ (1 / inject_Z N)%Q).
  - fold N. field. intro F. unfold Qeq, inject_Z in F. cbn in F. lia.
  - intros x Hx. apply filter_In in Hx as (Kx & Ex). unfold weight. cbn [snd]. rewrite degeneracy_count by exact Kx. apply eq3_iff in Ex. rewrite <- Ex. fold N. reflexivity.
Qed.
Lemma total_sum : (sumQ (map weight out) == inject_Z (cells g))%Q.
Proof.
  rewrite (sumQ_classes (fun x => cls g (fst x)) weight classes).
  - rewrite (sumQ_const _ 1%Q).
    + assert (E : zlen classes = cells g). { unfold classes, cells, zlen. destruct g as [[g0 g1] g2]. cbn [positive] in Hg. unfold v3. rewrite !prod_length, !zrange_length. nia. } rewrite E. ring.
    + intros k Hk. rewrite <- (class_sum k). assert (Ek : cls g k = k). { unfold classes in Hk. destruct g as [[g0 g1] g2], k as [[a b] c]. unfold v3 in Hk. rewrite !in_prod_iff, !in_zrange in Hk. cbn [cls]. rewrite !Z.mod_small by lia. reflexivity. } rewrite Ek. reflexivity.
  - unfold classes. destruct g as [[g0 g1] g2]. apply NoDup_list_prod; [apply NoDup_list_prod; apply zrange_NoDup'|apply zrange_NoDup'].
  - intros x _. unfold classes. destruct g as [[g0 g1] g2]. destruct (fst x) as [[a b] c]. cbn [positive cls] in *. unfold v3. rewrite !in_prod_iff, !in_zrange. pose proof (Z.mod_pos_bound a g0). pose proof (Z.mod_pos_bound b g1). pose proof (Z.mod_pos_bound c g2). lia.
Qed.
End WS.

(** * The returned list *)
Lemma originIndex_none l : forall k acc, (forall x, In x l -> isOrigin (fst x) = false) -> originIndex k acc l = acc.
Proof. induction l as [|x l IH]; intros k acc H; [reflexivity|]. cbn [originIndex]. rewrite (H x (or_introl eq_refl)). apply IH. intros; apply H; right; assumption. Qed.
Lemma originIndex_some l : forall k acc, (exists x, In x l /\ isOrigin (fst x) = true) -> exists l1 x l2, l = l1 ++ x :: l2 /\ isOrigin (fst x) = true /\ originIndex k acc l = k + zlen l1.
Proof.
  induction l as [|y l IH]; intros k acc (x & Hx & Ox); [destruct Hx|]. cbn [originIndex].
  destruct (existsb (fun z => isOrigin (fst z)) l) eqn:E.
  - apply existsb_exists in E. destruct (IH (k + 1) (if isOrigin (fst y) then k else acc) E) as (l1 & z & l2 & -> & Oz & Ez). exists (y :: l1), z, l2. split; [reflexivity|]. split; [exact Oz|]. rewrite Ez. unfold zlen. cbn [length]. lia.
  - assert (N : forall z, In z l -> isOrigin (fst z) = false). { intros z Hz. destruct (isOrigin (fst z)) eqn:F; [|reflexivity]. assert (G : existsb (fun z => isOrigin (fst z)) l = true) by (apply existsb_exists; exists z; split; assumption). congruence. }
    destruct Hx as [->|Hx]; [|rewrite (N x Hx) in Ox; discriminate]. exists [], x, l. split; [reflexivity|]. split; [exact Ox|]. rewrite Ox, originIndex_none by exact N. unfold zlen. cbn [length]. lia.
Qed.
Lemma upd_mid {A} (l1 : list A) x l2 v : zupd (l1 ++ x :: l2) (zlen l1) v = l1 ++ v :: l2.
Proof. unfold zupd, zlen. replace (Z.of_nat (length l1) <? 0) with false by lia. rewrite Nat2Z.id. induction l1 as [|y l1 IH]; [reflexivity|]. cbn [app length upd_nat]. rewrite IH. reflexivity. Qed.
Lemma get_mid {A} (l1 : list A) x l2 : zget (l1 ++ x :: l2) (zlen l1) = Some x.
Proof. unfold zget, zlen. replace (Z.of_nat (length l1) <? 0) with false by lia. rewrite Nat2Z.id. induction l1 as [|y l1 IH]; [reflexivity|exact IH]. Qed.
Lemma swap_origin {A} (l1 : list A) x l2 : exists y r, zget (l1 ++ x :: l2) 0 = Some y /\ zget (l1 ++ x :: l2) (zlen l1) = Some x /\ zupd (zupd (l1 ++ x :: l2) 0 x) (zlen l1) y = x :: r /\ Permutation (x :: r) (l1 ++ x :: l2).
Proof.
  rewrite get_mid. destruct l1 as [|y l1].
  - exists x, l2. split; [reflexivity|]. split; [reflexivity|]. split; reflexivity.
  - exists y, (l1 ++ y :: l2). split; [reflexivity|]. split; [reflexivity|]. split.
    + change (zupd ((y :: l1) ++ x :: l2) 0 x) with ((x :: l1) ++ x :: l2). replace (zlen (y :: l1)) with (zlen (x :: l1)) by reflexivity. rewrite upd_mid. reflexivity.
    + cbn [app]. rewrite <- !Permutation_middle. apply perm_swap.
Qed.
Lemma isOrigin_iff v : isOrigin v = true <-> v = (0, 0, 0).
Proof. destruct v as [[a b] c]. cbn [isOrigin]. split; [intro H; f_equal; [f_equal|]; lia|intro H; injection H as -> -> ->; reflexivity]. Qed.

Lemma build_weights g nx d : positive g -> 1 <= nx -> compact g d -> (forall w, (d (0, 0, 0)%Z <= d w)%Q) ->
  exists n r, buildWignerSeitzVectors g nx d = Ok (((0, 0, 0), n) :: r) /\
    let out := ((0, 0, 0), n) :: r in
    NoDup (map fst out) /\ (forall v, In v (map fst out) <-> shortest g d v) /\
    (forall t, (exists v, In v (map fst out) /\ images g t v) /\
       forall sel, (forall v, sel v = true <-> images g t v) -> (sumQ (map weight (filter (fun x => sel (fst x)) out)) == 1)%Q) /\
    (sumQ (map weight out) == inject_Z (cells g))%Q.
Proof.
  intros Hg Hnx Hc Ho. set (o := out g nx d).
  assert (Ko : In (0, 0, 0) (keptList g nx d)). { apply kept_In; try assumption. intros w _. specialize (Ho w). unfold tol. lra. }
  assert (Xo : exists x, In x o /\ isOrigin (fst x) = true). { exists ((0, 0, 0), degOf' g nx d (0, 0, 0)). split; [|reflexivity]. unfold o, out. apply (in_map (fun i => (i, degOf' g nx d i))). exact Ko. }
  destruct (originIndex_some o 0 (-1) Xo) as (l1 & x & l2 & Eo & Ox & Ei). destruct (swap_origin l1 x l2) as (y & r & G0 & Gx & Sw & Pm). rewrite <- Eo in *.
  assert (Eb : buildWignerSeitzVectors g nx d = Ok (x :: r)).
  { assert (Ew : wsList g nx d = Ok o) by (apply wsList_eq; assumption).
    assert (T : Qle_bool (Qabs (sumQ (map weight o) - inject_Z (cells g))) tol = true). { apply Qle_bool_iff. unfold o. rewrite (total_sum g nx d Hg Hnx Hc). setoid_replace (inject_Z (cells g) - inject_Z (cells g))%Q with 0%Q by ring. unfold tol. discriminate. }
    clearbody o. clear - Ew T Ei Gx G0 Sw. unfold buildWignerSeitzVectors. destruct g as [[g0 g1] g2]. rewrite Ew. cbn [bind]. cbn [cells] in T.
    rewrite T. cbn [negb]. rewrite Ei. replace (0 + zlen l1 =? -1) with false by (unfold zlen; lia). rewrite Z.add_0_l, Gx, G0, Sw. reflexivity. }
  destruct x as [v n]. cbn [fst] in Ox. apply isOrigin_iff in Ox. subst v. exists n, r. split; [exact Eb|]. cbv zeta.
  assert (Mf : map fst o = keptList g nx d). { unfold o, out. rewrite map_map. cbn [fst]. apply map_id. }
  assert (In' : forall v, In v (map fst ((0, 0, 0, n) :: r)) <-> shortest g d v). { intro v. rewrite <- (kept_In g nx d Hg Hnx Hc v), <- Mf. split; apply Permutation_in; [|apply Permutation_sym]; apply Permutation_map; exact Pm. }
  split; [|split; [exact In'|split]].
  - apply (Permutation_NoDup (l := map fst o)); [apply Permutation_map, Permutation_sym; exact Pm|]. rewrite Mf. apply NoDup_filter, box_NoDup.
  - intro t. split.
    + destruct (Hc t) as (m & Hm & Hmin & _). exists m. split; [|exact Hm]. apply In'. intros w Hw. specialize (Hmin w (images_trans g t m w Hm Hw)). unfold tol. lra.
    + intros sel Hs. rewrite <- (class_sum g nx d Hg Hnx Hc t). fold o.
      assert (F : filter (fun x => eq3 (cls g t) (cls g (fst x))) o = filter (fun x => sel (fst x)) o). { apply filter_ext. intro x. destruct (sel (fst x)) eqn:E; [apply eq3_iff, cls_images; [exact Hg|apply Hs; exact E]|]. destruct (eq3 (cls g t) (cls g (fst x))) eqn:E'; [|reflexivity]. apply eq3_iff, cls_images in E'; [|exact Hg]. apply Hs in E'. congruence. }
      rewrite F. apply sumQ_perm, Permutation_map. clear - Pm. assert (FP : forall (f : v3 * Z -> bool) l l', Permutation l l' -> Permutation (filter f l) (filter f l')). { intros f l l'. induction 1; cbn [filter]; [constructor|destruct (f x); [constructor|]; assumption|destruct (f x), (f y); try reflexivity; apply perm_swap|etransitivity; eassumption]. } apply FP. exact Pm.
  - rewrite <- (total_sum g nx d Hg Hnx Hc). apply sumQ_perm, Permutation_map. exact Pm.
Qed.

(** * A line of two cells *)
Lemma d1_compact : compact (2, 1, 1) d1.
Proof.
  intros [[a b] c]. exists (a mod 2, 0, 0). split; [exists (a / 2, b, c); cbn [shiftBy]; f_equal; [f_equal|]; [|lia|lia]; pose proof (Z.div_mod a 2); lia|]. 
  assert (X : forall w0 w1 w2, images (2, 1, 1) (a, b, c) (w0, w1, w2) -> a mod 2 = w0 mod 2). { intros w0 w1 w2 ([[j0 j1] j2] & E). cbn [shiftBy] in E. injection E as -> _ _. replace (a - j0 * 2) with (a + (- j0) * 2) by ring. rewrite Z.mod_add by lia. reflexivity. }
  split; intros [[w0 w1] w2] Hw; pose proof (X w0 w1 w2 Hw) as Y; cbn [d1].
  - rewrite <- Zle_Qle. pose proof (Z.mod_pos_bound w0 2). pose proof (Z.div_mod w0 2). lia.
  - intro H. assert (Z.abs w0 + Z.abs w1 + Z.abs w2 - (Z.abs (a mod 2) + Z.abs 0 + Z.abs 0) < 1).
    { rewrite Zlt_Qlt. unfold Z.sub. rewrite inject_Z_plus, inject_Z_opp. unfold tol in H. change (inject_Z 1) with 1%Q. lra. }
    cbn [inCell]. pose proof (Z.mod_pos_bound a 2). lia.
Qed.
Lemma d1_origin w : (d1 (0, 0, 0)%Z <= d1 w)%Q.
Proof. destruct w as [[a b] c]. cbn [d1]. rewrite <- Zle_Qle. lia. Qed.
Lemma shift_err : buildWithShift (2, 1, 1) 1 1 (fun _ _ => d1) = Err.
Proof. vm_compute. reflexivity. Qed.
