(** Completeness of the Fourier sums on Wigner-Seitz vectors. *)
From Coq Require Import Reals QArith Qreals Permutation.
From Verif Require Import Base BaseLemmas L_matrix M_wigner S_wigner L_wigner M_complex L_complex L_dft M_interaction M_wannier S_wannier.
From Coq Require Import Lia Lra.
Open Scope Z_scope.

(** * Degeneracies are positive *)
Lemma wsDegeneracy_pos g nx d i n : wsDegeneracy g nx d i = Ok (Some n) -> 0 < n.
Proof.
  unfold wsDegeneracy. set (ds := map _ _). destruct (zget ds _) as [x|] eqn:E; [|discriminate]. destruct (near x (minOf ds)) eqn:N; [|discriminate]. intro H. injection H as <-.
  assert (I : In x (filter (fun y => near y (minOf ds)) ds)). { apply filter_In. split; [|exact N]. unfold zget in E. destruct (_ <? 0); [discriminate|]. eapply nth_error_In. exact E. }
  unfold zlen. destruct (filter _ ds); [destruct I|cbn [length]; lia].
Qed.
Lemma wsList_pos g nx d l x : wsList g nx d = Ok l -> In x l -> 0 < snd x.
Proof.
  unfold wsList. destruct g as [[g0 g1] g2]. set (g := (g0, g1, g2)). set (b := box _). set (f := fun i => _).
  destruct (mapM f b) as [ls| |] eqn:E; cbn [bind]; try discriminate. intro H. injection H as <-. clearbody b. revert ls E. induction b as [|i b IH]; intros ls E.
  - injection E as <-. intros [].
  - cbn [mapM] in E. unfold f at 1 in E. destruct (wsDegeneracy g nx d i) as [o| |] eqn:Eo; cbn [bind] in E; try discriminate. destruct (mapM f b) as [ls'| |] eqn:E'; cbn [bind] in E; try discriminate.
    injection E as <-. cbn [concat]. intro Hx. apply in_app_iff in Hx as [Hx|Hx]; [|exact (IH ls' eq_refl Hx)]. destruct o as [n|]; [|destruct Hx]. destruct Hx as [<-|[]]. cbn [snd]. exact (wsDegeneracy_pos _ _ _ _ _ Eo).
Qed.
Lemma zupd_In {A} (l : list A) i v x : In x (zupd l i v) -> x = v \/ In x l.
Proof.
  unfold zupd. destruct (i <? 0); [right; assumption|]. generalize (Z.to_nat i). induction l as [|y l IH]; intros n H; [destruct n; destruct H|].
  destruct n; cbn [upd_nat] in H; destruct H as [<-|H]; [left; reflexivity|right; right; exact H|right; left; reflexivity|]. destruct (IH n H) as [->|K]; [left; reflexivity|right; right; exact K].
Qed.
Lemma build_pos g nx d ws x : buildWignerSeitzVectors g nx d = Ok ws -> In x ws -> 0 < snd x.
Proof.
  unfold buildWignerSeitzVectors. destruct g as [[g0 g1] g2]. destruct (wsList (g0, g1, g2) nx d) as [l| |] eqn:E; cbn [bind]; try discriminate.
  assert (P : forall y, In y l -> 0 < snd y) by (intros y; apply (wsList_pos _ _ _ _ _ E)).
  assert (G : forall i y, zget l i = Some y -> In y l). { intros i y H. unfold zget in H. destruct (i <? 0); [discriminate|]. eapply nth_error_In. exact H. }
  destruct (negb _); [discriminate|]. cbv zeta. destruct (originIndex 0 (-1) l =? -1); [discriminate|].
  destruct (zget l (originIndex 0 (-1) l)) as [o|] eqn:Eo; try discriminate; destruct (zget l 0) as [f|] eqn:Ef; try discriminate.
  intro H. injection H as <-. intro Hx. apply zupd_In in Hx as [->|Hx]; [apply P, (G _ _ Ef)|]. apply zupd_In in Hx as [->|Hx]; [apply P, (G _ _ Eo)|apply P, Hx].
Qed.

(** * Grouping by classes *)
Lemma csum_group {A} (eqb : v3 -> v3 -> bool) (key : A -> v3) (f : A -> cplx) (ks : list v3) l : (forall x y, eqb x y = true <-> x = y) -> NoDup ks -> (forall x, In x l -> In (key x) ks) ->
  csum (map f l) = csum (map (fun k => csum (map f (filter (fun x => eqb k (key x)) l))) ks).
Proof.
  intros Heq Nd H. transitivity (csum (map (fun x => csum (map (fun k => if eqb k (key x) then f x else c0) ks)) l)).
  - apply csum_map_ext. intros x Hx. specialize (H x Hx). clear - Heq Nd H. induction Nd as [|k ks Hn Nd IH]; [destruct H|]. cbn [map]. rewrite csum_cons. destruct H as [->|H].
    + rewrite (proj2 (Heq (key x) (key x)) eq_refl). rewrite csum_zero; [ring|]. intros k Hk. destruct (eqb k (key x)) eqn:E; [|reflexivity]. apply Heq in E. congruence.
    + rewrite <- IH by exact H. destruct (eqb k (key x)) eqn:E; [apply Heq in E; congruence|ring].
  - rewrite csum_swap. apply csum_map_ext. intros k _. rewrite csum_filter. reflexivity.
Qed.
Definition phase3 (N m v : v3) : R := let '(n0, n1, n2) := N in let '(m0, m1, m2) := m in let '(a, b, c) := v in
  (2 * PI * (IZR m0 / IZR n0) * IZR a + 2 * PI * (IZR m1 / IZR n1) * IZR b + 2 * PI * (IZR m2 / IZR n2) * IZR c)%R.
Lemma phase3_cls N m v : positive N -> cexpi (phase3 N m v) = cexpi (phase3 N m (cls N v)).
Proof.
  destruct N as [[n0 n1] n2], m as [[m0 m1] m2], v as [[a b] c]. cbn [positive cls]. unfold phase3. intros (H0 & H1 & H2).
  replace (2 * PI * (IZR m0 / IZR n0) * IZR a + 2 * PI * (IZR m1 / IZR n1) * IZR b + 2 * PI * (IZR m2 / IZR n2) * IZR c)%R with
    ((2 * PI * (IZR m0 / IZR n0) * IZR (a mod n0) + 2 * PI * (IZR m1 / IZR n1) * IZR (b mod n1) + 2 * PI * (IZR m2 / IZR n2) * IZR (c mod n2)) + 2 * PI * IZR (m0 * (a / n0) + m1 * (b / n1) + m2 * (c / n2)))%R.
  - apply expi_period.
  - rewrite (Z.div_mod a n0) at 3 by lia. rewrite (Z.div_mod b n1) at 3 by lia. rewrite (Z.div_mod c n2) at 3 by lia. rewrite !plus_IZR, !mult_IZR. field. repeat split; apply not_0_IZR; lia.
Qed.
Lemma csumTo_prod3 n0 n1 n2 (f0 f1 f2 : Z -> cplx) :
  csum (map (fun v : v3 => let '(a, b, c) := v in cmul (cmul (f0 a) (f1 b)) (f2 c)) (list_prod (list_prod (zrange 0 n0) (zrange 0 n1)) (zrange 0 n2))) = cmul (cmul (csumTo n0 f0) (csumTo n1 f1)) (csumTo n2 f2).
Proof.
  unfold v3. rewrite (csum_list_prod (A := Z * Z) (B := Z)). rewrite (csum_list_prod (A := Z) (B := Z)). unfold csumTo.
  transitivity (csum (map (fun a => cmul (f0 a) (cmul (csum (map f1 (zrange 0 n1))) (csum (map f2 (zrange 0 n2))))) (zrange 0 n0))).
  - apply csum_map_ext. intros a _. cbv beta iota.
    transitivity (csum (map (fun b => cmul (f1 b) (cmul (f0 a) (csum (map f2 (zrange 0 n2))))) (zrange 0 n1))).
    + apply csum_map_ext. intros b _. rewrite csum_map_mul_l. ring.
    + rewrite csum_map_mul_r. ring.
  - rewrite csum_map_mul_r. ring.
Qed.

Definition classesOf (N : v3) : list v3 := let '(n0, n1, n2) := N in list_prod (list_prod (zrange 0 n0) (zrange 0 n1)) (zrange 0 n2).
Lemma phases_sum N m : positive N -> csum (map (fun t => cexpi (phase3 N m t)) (classesOf N)) =
  let '(n0, n1, n2) := N in let '(m0, m1, m2) := m in if (Z.rem m0 n0 =? 0) && (Z.rem m1 n1 =? 0) && (Z.rem m2 n2 =? 0) then (IZR (cells N), 0%R) else c0.
Proof.
  destruct N as [[n0 n1] n2], m as [[m0 m1] m2]. cbn [positive]. intros (H0 & H1 & H2). unfold classesOf.
  transitivity (cmul (cmul (csumTo n0 (fun t => cexpi (2 * PI * (IZR m0 / IZR n0) * IZR t))) (csumTo n1 (fun t => cexpi (2 * PI * (IZR m1 / IZR n1) * IZR t)))) (csumTo n2 (fun t => cexpi (2 * PI * (IZR m2 / IZR n2) * IZR t)))).
  - rewrite <- csumTo_prod3. apply csum_map_ext. intros [[a b] c] _. unfold phase3. rewrite !expi_add. reflexivity.
  - rewrite !dft1 by lia. cbn [cells]. rewrite !mult_IZR. destruct (Z.rem m0 n0 =? 0), (Z.rem m1 n1 =? 0), (Z.rem m2 n2 =? 0); cbn [andb]; cring.
Qed.
(** the weights of a class, as complex numbers *)
Definition wR (x : v3 * Z) : cplx := (/ IZR (snd x), 0)%R.
Lemma weights_real l : (forall x, In x l -> 0 < snd x) -> csum (map wR l) = (Q2R (sumQ (map weight l)), 0%R).
Proof.
  induction l as [|x l IH]; intro H; [unfold sumQ; cbn [map fold_right]; rewrite RMicromega.Q2R_0; reflexivity|]. cbn [map]. rewrite csum_cons, IH by (intros; apply H; right; assumption).
  unfold sumQ. cbn [map fold_right]. fold (sumQ (map weight l)). rewrite Q2R_plus. unfold weight, Qdiv. specialize (H x (or_introl eq_refl)).
  rewrite Q2R_mult, Q2R_inv by (unfold Qeq, inject_Z; cbn; lia). replace (Q2R 1) with 1%R by (unfold Q2R; cbn; field). replace (Q2R (inject_Z (snd x))) with (IZR (snd x)) by (unfold Q2R, inject_Z; cbn; field). unfold wR. cring.
Qed.

Lemma csum_zget {X} (f : X -> cplx) (l : list X) (h : Z -> cplx) : (forall i x, zget l i = Some x -> h i = f x) -> csumTo (zlen l) h = csum (map f l).
Proof.
  revert h. induction l as [|x l IH] using rev_ind; intros h H; [reflexivity|]. replace (zlen (l ++ [x])) with (zlen l + 1) by (unfold zlen; rewrite app_length; cbn [length]; lia).
  rewrite csumTo_S by (unfold zlen; lia). rewrite map_app, csum_app. cbn [map]. rewrite csum_cons, csum_nil. rewrite (H (zlen l) x) by apply get_mid.
  rewrite <- (IH h); [ring|]. intros i y Hi. apply H. unfold zget in *. destruct (i <? 0); [discriminate|]. rewrite nth_error_app1; [exact Hi|]. apply nth_error_Some. congruence.
Qed.
Section Complete.
Variables (N : v3) (nx : Z) (d : v3 -> Q) (ws : list (v3 * Z)).
Hypotheses (HN : positive N) (Hnx : 1 <= nx) (Hc : compact N d) (Ho : forall w, (d (0, 0, 0)%Z <= d w)%Q) (Hws : buildWignerSeitzVectors N nx d = Ok ws).
Lemma class_one t : csum (map wR (filter (fun x => eq3 (cls N t) (cls N (fst x))) ws)) = c1.
Proof.
  destruct (build_weights N nx d HN Hnx Hc Ho) as (n & r & E & P). cbv zeta in P. rewrite Hws in E. injection E as ->. destruct P as (_ & _ & P & _). destruct (P t) as (_ & S).
  rewrite weights_real by (intros x Hx; apply filter_In in Hx as (Hx & _); exact (build_pos _ _ _ _ _ Hws Hx)).
  specialize (S (fun v => eq3 (cls N t) (cls N v))). apply Qeq_eqR in S.
  - rewrite S. rewrite RMicromega.Q2R_1. reflexivity.
  - intro v. rewrite eq3_iff. symmetry. apply cls_images. exact HN.
Qed.
Lemma complete m : csum (map (fun x => cmul (wR x) (cexpi (phase3 N m (fst x)))) ws) =
  let '(n0, n1, n2) := N in let '(m0, m1, m2) := m in if (Z.rem m0 n0 =? 0) && (Z.rem m1 n1 =? 0) && (Z.rem m2 n2 =? 0) then (IZR (cells N), 0%R) else c0.
Proof.
  rewrite <- phases_sum by exact HN. rewrite (csum_group eq3 (fun x => cls N (fst x)) _ (classesOf N)).
  - apply csum_map_ext. intros t Ht. assert (Et : cls N t = t). { clear - Ht HN. unfold classesOf in Ht. destruct N as [[n0 n1] n2], t as [[a b] c]. unfold v3 in Ht. rewrite !in_prod_iff, !in_zrange in Ht. cbn [cls]. rewrite !Z.mod_small by lia. reflexivity. }
    transitivity (csum (map (fun x => cmul (wR x) (cexpi (phase3 N m t))) (filter (fun x => eq3 t (cls N (fst x))) ws))).
    + apply csum_map_ext. intros x Hx. apply filter_In in Hx as (_ & Hx). apply eq3_iff in Hx. f_equal. rewrite (phase3_cls N m (fst x) HN), <- Hx. reflexivity.
    + rewrite csum_map_mul_r. pose proof (class_one t) as Q1. rewrite Et in Q1. rewrite Q1. ring.
  - exact eq3_iff.
  - unfold classesOf. clear. destruct N as [[n0 n1] n2]. apply NoDup_list_prod; [apply NoDup_list_prod; apply zrange_NoDup'|apply zrange_NoDup'].
  - intros x _. clear - HN. unfold classesOf. destruct N as [[g0 g1] g2]. destruct (fst x) as [[a b] c]. cbn [positive cls] in *. unfold v3. rewrite !in_prod_iff, !in_zrange. pose proof (Z.mod_pos_bound a g0). pose proof (Z.mod_pos_bound b g1). pose proof (Z.mod_pos_bound c g2). lia.
Qed.

(** * Inverse transformation *)
Variables (A B : Z -> vec) (n : Z) (pts : Z -> vec).
Hypotheses (Hd : Dual A B) (Hm : FullMesh B N n pts).
Lemma dot_mesh v c x : (forall t, 0 <= t < 3 -> x t = meshPoint B N c t) -> dot3 x (cart A v) = phase3 N c v.
Proof.
  intro E. unfold dot3. rewrite !E by lia. clear E. destruct N as [[n0 n1] n2], c as [[c0 c1'] c2], v as [[a b] e]. unfold phase3, meshPoint, cart.
  pose proof (Hd 0 0) as D00. pose proof (Hd 0 1) as D01. pose proof (Hd 0 2) as D02. pose proof (Hd 1 0) as D10. pose proof (Hd 1 1) as D11. pose proof (Hd 1 2) as D12. pose proof (Hd 2 0) as D20. pose proof (Hd 2 1) as D21. pose proof (Hd 2 2) as D22.
  specialize (D00 ltac:(lia) ltac:(lia)). specialize (D01 ltac:(lia) ltac:(lia)). specialize (D02 ltac:(lia) ltac:(lia)). specialize (D10 ltac:(lia) ltac:(lia)). specialize (D11 ltac:(lia) ltac:(lia)). specialize (D12 ltac:(lia) ltac:(lia)). specialize (D20 ltac:(lia) ltac:(lia)). specialize (D21 ltac:(lia) ltac:(lia)). specialize (D22 ltac:(lia) ltac:(lia)).
  cbn [Z.eqb Pos.eqb] in *. unfold dot3 in *.
  set (p0 := (IZR c0 / IZR n0)%R). set (p1 := (IZR c1' / IZR n1)%R). set (p2 := (IZR c2 / IZR n2)%R).
  transitivity (p0 * IZR a * (A 0%Z 0%Z * B 0%Z 0%Z + A 0%Z 1%Z * B 0%Z 1%Z + A 0%Z 2%Z * B 0%Z 2%Z) + p1 * IZR a * (A 0%Z 0%Z * B 1%Z 0%Z + A 0%Z 1%Z * B 1%Z 1%Z + A 0%Z 2%Z * B 1%Z 2%Z) + p2 * IZR a * (A 0%Z 0%Z * B 2%Z 0%Z + A 0%Z 1%Z * B 2%Z 1%Z + A 0%Z 2%Z * B 2%Z 2%Z)
    + p0 * IZR b * (A 1%Z 0%Z * B 0%Z 0%Z + A 1%Z 1%Z * B 0%Z 1%Z + A 1%Z 2%Z * B 0%Z 2%Z) + p1 * IZR b * (A 1%Z 0%Z * B 1%Z 0%Z + A 1%Z 1%Z * B 1%Z 1%Z + A 1%Z 2%Z * B 1%Z 2%Z) + p2 * IZR b * (A 1%Z 0%Z * B 2%Z 0%Z + A 1%Z 1%Z * B 2%Z 1%Z + A 1%Z 2%Z * B 2%Z 2%Z)
    + p0 * IZR e * (A 2%Z 0%Z * B 0%Z 0%Z + A 2%Z 1%Z * B 0%Z 1%Z + A 2%Z 2%Z * B 0%Z 2%Z) + p1 * IZR e * (A 2%Z 0%Z * B 1%Z 0%Z + A 2%Z 1%Z * B 1%Z 1%Z + A 2%Z 2%Z * B 1%Z 2%Z) + p2 * IZR e * (A 2%Z 0%Z * B 2%Z 0%Z + A 2%Z 1%Z * B 2%Z 1%Z + A 2%Z 2%Z * B 2%Z 2%Z))%R; [ring|].
  rewrite D00, D01, D02, D10, D11, D12, D20, D21, D22. ring.
Qed.
Lemma phase3_sub c c' v : positive N -> (phase3 N c v - phase3 N c' v)%R = phase3 N (let '(a, b, e) := c in let '(a', b', e') := c' in (a - a', b - b', e - e')) v.
Proof.
  destruct N as [[n0 n1] n2], c as [[a b] e], c' as [[a' b'] e'], v as [[x y] z]. unfold phase3. cbn [positive]. intros (H0 & H1 & H2). rewrite !minus_IZR. field. repeat split; apply not_0_IZR; lia.
Qed.
Lemma orthogonal i j : 0 <= i < n -> 0 <= j < n ->
  csumTo (zlen ws) (fun r => cscale (/ latDeg ws r) (cexpi (dot3 (pts i) (latV A ws r) - dot3 (pts j) (latV A ws r)))) = if j =? i then (IZR n, 0%R) else c0.
Proof.
  intros Hi Hj. destruct Hm as (En & c & Hin & Hinj & Hp).
  rewrite (csum_zget (fun x => cmul (wR x) (cexpi (phase3 N (let '(a, b, e) := c i in let '(a', b', e') := c j in (a - a', b - b', e - e')) (fst x))))).
  - rewrite complete. specialize (Hinj j i Hj Hi). pose proof (Hin i Hi) as Ii. pose proof (Hin j Hj) as Ij. rewrite En. clear - Ii Ij Hinj HN.
    destruct (Z.eqb_spec j i) as [->|Ne].
    + destruct N as [[n0 n1] n2], (c i) as [[a b] e]. rewrite !Z.sub_diag. rewrite !Z.rem_0_l by (cbn [positive] in HN; lia). reflexivity.
    + destruct N as [[n0 n1] n2], (c i) as [[a b] e], (c j) as [[a' b'] e'].
      assert (Z0 : forall x y m, 0 <= x < m -> 0 <= y < m -> Z.rem (x - y) m = 0 -> x = y).
      { intros x y m Hx Hy E. apply Z.rem_divide in E as (k & E); [|lia]. assert (k = 0) by nia. subst. lia. }
      destruct (Z.eqb_spec (Z.rem (a - a') n0) 0) as [X|X]; cbn [andb]; [|reflexivity]. destruct (Z.eqb_spec (Z.rem (b - b') n1) 0) as [Y|Y]; cbn [andb]; [|reflexivity].
      destruct (Z.eqb_spec (Z.rem (e - e') n2) 0) as [W|W]; [|reflexivity]. exfalso. apply Ne, Hinj. apply Z0 in X; [|lia|lia]. apply Z0 in Y; [|lia|lia]. apply Z0 in W; [|lia|lia]. congruence.
  - intros r x Hr. unfold latDeg, latV. rewrite Hr. rewrite (dot_mesh (fst x) (c i) (pts i)) by (intros; apply Hp; assumption). rewrite (dot_mesh (fst x) (c j) (pts j)) by (intros; apply Hp; assumption).
    rewrite phase3_sub by exact HN. unfold wR. cring.
Qed.
(** a function on the mesh comes back *)
Lemma invert (F : Z -> cplx) i : 0 <= i < n ->
  csumTo (zlen ws) (fun r => cmul (cscale (/ latDeg ws r) (cexpi (dot3 (pts i) (latV A ws r)))) (csumTo n (fun j => cmul (F j) (phaseOf n (pts j) (latV A ws r))))) = F i.
Proof.
  intro Hi. transitivity (csumTo n (fun j => cmul (cscale (/ IZR n) (F j)) (csumTo (zlen ws) (fun r => cscale (/ latDeg ws r) (cexpi (dot3 (pts i) (latV A ws r) - dot3 (pts j) (latV A ws r))))))).
  - transitivity (csumTo (zlen ws) (fun r => csumTo n (fun j => cmul (cscale (/ IZR n) (F j)) (cscale (/ latDeg ws r) (cexpi (dot3 (pts i) (latV A ws r) - dot3 (pts j) (latV A ws r))))))).
    + apply csumTo_ext. intros r _. rewrite <- csumTo_mul_l. apply csumTo_ext. intros j _. unfold Rminus, phaseOf. rewrite expi_add. cring.
    + rewrite csumTo_swap. apply csumTo_ext. intros j _. apply csumTo_mul_l.
  - transitivity (csumTo n (fun j => if j =? i then F j else c0)); [|apply csumTo_single; exact Hi]. apply csumTo_ext. intros j Hj. rewrite orthogonal by assumption.
    assert (N0 : IZR n <> 0%R). { apply not_0_IZR. lia. } destruct (j =? i); [|cring]. unfold cmul, cscale. destruct (F j) as [x y]. cbn [fst snd]. f_equal; field; exact N0.
Qed.
End Complete.
