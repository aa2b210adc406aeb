(** Lemmas on the Fourier interpolation of bands. *)
From Coq Require Import Reals QArith Permutation.
From Verif Require Import Base BaseLemmas M_utilities L_utilities M_mpi S_mpi L_mpi M_wigner S_wigner L_wigner M_complex L_complex L_dft M_wannier S_wannier L_wannier M_fourier S_fourier.
From Coq Require Import Lia Lra.
Open Scope Z_scope.

Lemma fold_add_csum (f : Z -> cplx) l : forall a, fold_left (fun a m => (a + fst (f m))%R) l a = (a + fst (csum (map f l)))%R.
Proof. induction l as [|m l IH]; intro a; cbn [fold_left map]; [cbn; lra|]. rewrite IH, csum_cons. cbn. lra. Qed.
Lemma fold_sub_csum (f : Z -> cplx) l : forall a, fold_left (fun a m => csub a (f m)) l a = csub a (csum (map f l)).
Proof. induction l as [|m l IH]; intro a; cbn [fold_left map]; [cring|]. rewrite IH, csum_cons. ring. Qed.
Lemma csumTo_first n f : 0 < n -> csumTo n f = cadd (f 0) (csum (map f (zrange 1 (n - 1)))).
Proof.
  intro H. unfold csumTo. replace (zrange 0 n) with (0 :: zrange 1 (n - 1)); [reflexivity|].
  unfold zrange. replace (Z.to_nat n) with (S (Z.to_nat (n - 1))) by lia. cbn [seq map]. f_equal. rewrite <- seq_shift, map_map. apply map_ext. intro i. lia.
Qed.

Section Interp.
Variables (pos : Z -> vec) (deg : Z -> R) (nP : Z) (fn : R).
Notation rough := (roughness pos nP fn).
Lemma rough_pos v : (0 < rough v)%R.
Proof.
  unfold roughness, coefficient1, coefficient2. replace (0.75 * norm3 v / minDistance pos nP fn)%R with (0.75 * (norm3 v / minDistance pos nP fn))%R by (unfold Rdiv; ring).
  set (y := (norm3 v / minDistance pos nP fn)%R). assert (S1 := pow2_ge_0 (1 - 0.75 * y)). assert (S2 := pow2_ge_0 (y ^ 3)). replace (y ^ 6)%R with ((y ^ 3) ^ 2)%R by ring.
  destruct (Req_dec y 0) as [->|N]; [lra|]. assert (y ^ 3 <> 0)%R by (apply pow_nonzero; exact N). assert (0 < (y ^ 3) ^ 2)%R by (destruct (Rle_lt_or_eq_dec _ _ S2) as [L|L]; [exact L|]; exfalso; apply (pow_nonzero (y ^ 3) 2); [assumption|symmetry; exact L]). lra.
Qed.
Hypotheses (Hn : 0 < nP) (H0 : forall x, 0 <= x < 3 -> pos 0 x = 0%R) (Hd0 : deg 0 = 1%R).
Lemma star_0 k : star pos deg k 0 = c1.
Proof. unfold star. rewrite Hd0. unfold dot3. rewrite !H0 by lia. replace (k 0%Z * 0 + k 1%Z * 0 + k 2%Z * 0)%R with 0%R by ring. rewrite expi_0, Rinv_1. apply scale_1. Qed.
Variables (pts : Z -> vec) (nD : Z) (ldlt : cmat -> (Z -> cplx) -> Z -> cplx).
Notation h := (hMatrix pos deg nP fn pts).
Notation S := (star pos deg).
Lemma energy_complex c k : energyAt pos deg nP c k = fst (csumTo nP (fun m => cmul (c m) (S k m))).
Proof. unfold energyAt. rewrite fold_add_csum. unfold csumTo. lra. Qed.
Lemma total e k : csumTo nP (fun m => cmul (coefficients pos deg nP fn pts nD ldlt e m) (S k m)) =
  cadd (e 0, 0%R) (csumTo nP (fun m => cmul (coefficientOf pos deg nP fn pts nD (lagrangeMultipliers pos deg nP fn pts ldlt e) m) (csub (S k m) (S (pts 0) m)))).
Proof.
  set (lam := lagrangeMultipliers _ _ _ _ _ _ e). rewrite !csumTo_first by exact Hn. rewrite !star_0. replace (csub c1 c1) with c0 by ring.
  set (C := coefficientOf _ _ _ _ _ _ lam).
  unfold coefficients at 1. rewrite Z.eqb_refl. fold lam. rewrite fold_sub_csum. fold C.
  replace (csum (map (fun m => cmul (coefficients pos deg nP fn pts nD ldlt e m) (S k m)) (zrange 1 (nP - 1)))) with (csum (map (fun m => cmul (C m) (S k m)) (zrange 1 (nP - 1)))).
  2: { apply csum_map_ext. intros m Hm. apply in_zrange in Hm. unfold coefficients. fold lam. destruct (Z.eqb_spec m 0); [lia|]. reflexivity. }
  transitivity (cadd (e 0, 0%R) (csub (csum (map (fun m => cmul (C m) (S k m)) (zrange 1 (nP - 1)))) (csum (map (fun m => cmul (C m) (S (pts 0) m)) (zrange 1 (nP - 1)))))); [ring|]. f_equal.
  transitivity (csum (map (fun m => cmul (C m) (csub (S k m) (S (pts 0) m))) (zrange 1 (nP - 1)))); [|ring].
  generalize (zrange 1 (nP - 1)) as l. induction l as [|m l IH]; [cring|]. cbn [map]. rewrite !csum_cons, <- IH. ring.
Qed.
Lemma multiplier_sum lam i : csumTo nP (fun m => cmul (coefficientOf pos deg nP fn pts nD lam m) (csub (S (pts (i + 1)) m) (S (pts 0) m))) = csumTo (nD - 1) (fun j => cmul (h i j) (lam j)).
Proof.
  transitivity (csumTo nP (fun m => csumTo (nD - 1) (fun j => cmul (cscale (/ rough (pos m)) (cmul (csub (S (pts (i + 1)) m) (S (pts 0) m)) (cconj (csub (S (pts (j + 1)) m) (S (pts 0) m))))) (lam j)))).
  - apply csumTo_ext. intros m _. unfold coefficientOf. rewrite <- csumTo_scale, <- csumTo_mul_r. apply csumTo_ext. intros j _.
    generalize (cconj (csub (S (pts (j + 1)) m) (S (pts 0) m))) as u. generalize (csub (S (pts (i + 1)) m) (S (pts 0) m)) as v. intros u v. rewrite <- scale_mul_l, <- (scale_mul_l _ (cmul u v)). f_equal. ring.
  - rewrite csumTo_swap. apply csumTo_ext. intros j _. rewrite csumTo_mul_r. reflexivity.
Qed.
Lemma interpolates e : Solves (nD - 1) h (ldlt h (deltaEnergies e)) (deltaEnergies e) ->
  forall i, 0 <= i < nD -> energyAt pos deg nP (coefficients pos deg nP fn pts nD ldlt e) (pts i) = e i.
Proof.
  intros Hs i Hi. rewrite energy_complex, total. destruct (Z.eq_dec i 0) as [->|N].
  - rewrite csumTo_zero; [cbn; lra|]. intros m _. replace (csub (S (pts 0) m) (S (pts 0) m)) with c0 by ring. ring.
  - assert (E := multiplier_sum (lagrangeMultipliers pos deg nP fn pts ldlt e) (i - 1)). replace (i - 1 + 1) with i in E by lia. rewrite E. unfold lagrangeMultipliers. rewrite Hs by lia. unfold deltaEnergies. replace (i - 1 + 1) with i by lia. cbn. lra.
Qed.
(** * Definiteness *)
Lemma h_hermitian i j : h i j = cconj (h j i).
Proof. unfold hMatrix. rewrite csumTo_conj. apply csumTo_ext. intros m _. rewrite conj_scale, conj_mul, conj_conj. f_equal. ring. Qed.
Definition amp (x : Z -> cplx) (m : Z) : cplx := csumTo (nD - 1) (fun i => cmul (cconj (x i)) (csub (S (pts (i + 1)) m) (S (pts 0) m))).
Lemma quad_h x : quadratic (nD - 1) h x = csumTo nP (fun m => cscale (/ rough (pos m)) (cmul (amp x m) (cconj (amp x m)))).
Proof.
  unfold quadratic. transitivity (csumTo (nD - 1) (fun i => csumTo (nD - 1) (fun j => csumTo nP (fun m => cscale (/ rough (pos m)) (cmul (cmul (cconj (x i)) (csub (S (pts (i + 1)) m) (S (pts 0) m))) (cconj (cmul (cconj (x j)) (csub (S (pts (j + 1)) m) (S (pts 0) m))))))))).
  - apply csumTo_ext. intros i _. apply csumTo_ext. intros j _. unfold hMatrix. rewrite <- csumTo_mul_r, <- csumTo_mul_l. apply csumTo_ext. intros m _. rewrite conj_mul, conj_conj.
    generalize (csub (S (pts (i + 1)) m) (S (pts 0) m)) as u. generalize (cconj (csub (S (pts (j + 1)) m) (S (pts 0) m))) as v. intros. rewrite <- scale_mul_l, <- scale_mul_r. f_equal. ring.
  - transitivity (csumTo (nD - 1) (fun i => csumTo nP (fun m => csumTo (nD - 1) (fun j => cscale (/ rough (pos m)) (cmul (cmul (cconj (x i)) (csub (S (pts (i + 1)) m) (S (pts 0) m))) (cconj (cmul (cconj (x j)) (csub (S (pts (j + 1)) m) (S (pts 0) m))))))))).
    { apply csumTo_ext. intros i _. apply csumTo_swap. }
    rewrite csumTo_swap. apply csumTo_ext. intros m _.
    transitivity (csumTo (nD - 1) (fun i => cmul (cmul (cconj (x i)) (csub (S (pts (i + 1)) m) (S (pts 0) m))) (cscale (/ rough (pos m)) (cconj (amp x m))))).
    + apply csumTo_ext. intros i _. unfold amp. rewrite csumTo_conj. rewrite <- csumTo_scale, <- csumTo_mul_l. apply csumTo_ext. intros j _. apply scale_mul_r.
    + rewrite csumTo_mul_r. fold (amp x m). symmetry. apply scale_mul_r.
Qed.
Lemma nonneg_sum_zero (f : Z -> R) l : (forall m, In m l -> (0 <= f m)%R) -> fst (csum (map (fun m => (f m, 0%R)) l)) = 0%R -> forall m, In m l -> f m = 0%R.
Proof.
  assert (P : forall l, (forall m, In m l -> (0 <= f m)%R) -> (0 <= fst (csum (map (fun m => (f m, 0%R)) l)))%R). { induction l0 as [|m l0 IH]; intro H; cbn [map]; [cbn; lra|]. rewrite csum_cons. cbn [fst cadd]. assert (0 <= f m)%R by (apply H; left; reflexivity). assert (0 <= fst (csum (map (fun m => (f m, 0%R)) l0)))%R by (apply IH; intros; apply H; right; assumption). unfold cadd. cbn [fst]. lra. }
  induction l as [|m l IH]; intros H E k Hk; [destruct Hk|]. cbn [map] in E. rewrite csum_cons in E. unfold cadd in E. cbn [fst] in E.
  assert (0 <= f m)%R by (apply H; left; reflexivity). assert (0 <= fst (csum (map (fun m => (f m, 0%R)) l)))%R by (apply P; intros; apply H; right; assumption).
  destruct Hk as [<-|Hk]; [lra|]. apply IH; [intros; apply H; right; assumption|lra|exact Hk].
Qed.
Lemma quad_real x : quadratic (nD - 1) h x = csumTo nP (fun m => ((/ rough (pos m) * cnorm2 (amp x m))%R, 0%R)).
Proof. rewrite quad_h. apply csumTo_ext. intros m _. replace (cmul (amp x m) (cconj (amp x m))) with (cmul (cconj (amp x m)) (amp x m)) by ring. rewrite conj_mul_self. cring. Qed.
Lemma quad_nonneg x : snd (quadratic (nD - 1) h x) = 0%R /\ (0 <= fst (quadratic (nD - 1) h x))%R.
Proof.
  rewrite quad_real. split; [apply csum_snd_zero; reflexivity|]. unfold csumTo. generalize (zrange 0 nP) as l. induction l as [|m l IH]; cbn [map]; [cbn; lra|]. rewrite csum_cons. unfold cadd. cbn [fst].
  assert (0 < / rough (pos m))%R by (apply Rinv_0_lt_compat, rough_pos). pose proof (norm2_nonneg (amp x m)). nra.
Qed.
Lemma quad_zero x : fst (quadratic (nD - 1) h x) = 0%R -> forall m, 0 <= m < nP -> amp x m = c0.
Proof.
  rewrite quad_real. intros E m Hm. assert (Z0 := nonneg_sum_zero (fun m => (/ rough (pos m) * cnorm2 (amp x m))%R) (zrange 0 nP)).
  assert (K : (/ rough (pos m) * cnorm2 (amp x m))%R = 0%R). { apply Z0; [|exact E|apply in_zrange; lia]. intros k _. assert (0 < / rough (pos k))%R by (apply Rinv_0_lt_compat, rough_pos). pose proof (norm2_nonneg (amp x k)). nra. }
  apply Rmult_integral in K as [K|K]; [pose proof (Rinv_0_lt_compat _ (rough_pos (pos m))); lra|]. destruct (amp x m) as [u v]. unfold cnorm2 in K. cbn [fst snd] in K. assert (u = 0%R) by nra. assert (v = 0%R) by nra. subst. reflexivity.
Qed.
(** the stars of the points are orthogonal for the weights of the lattice vectors *)
Hypothesis Orth : forall i j, 0 <= i < nD -> 0 <= j < nD ->
  csumTo nP (fun m => cscale (/ deg m) (cexpi (dot3 (pts i) (pos m) - dot3 (pts j) (pos m)))) = if j =? i then (IZR nD, 0%R) else c0.
Lemma amp_zero x : (forall m, 0 <= m < nP -> amp x m = c0) -> forall j, 0 <= j < nD - 1 -> x j = c0.
Proof.
  intros Ha j Hj. assert (E : csumTo nP (fun m => cmul (amp x m) (cexpi (- dot3 (pts (j + 1)) (pos m)))) = c0) by (apply csumTo_zero; intros m Hm; rewrite Ha by exact Hm; ring).
  assert (F : csumTo nP (fun m => cmul (amp x m) (cexpi (- dot3 (pts (j + 1)) (pos m)))) = csumTo (nD - 1) (fun i => if i =? j then cmul (cconj (x i)) (IZR nD, 0%R) else c0)).
  { transitivity (csumTo nP (fun m => csumTo (nD - 1) (fun i => cmul (cconj (x i)) (csub (cscale (/ deg m) (cexpi (dot3 (pts (i + 1)) (pos m) - dot3 (pts (j + 1)) (pos m)))) (cscale (/ deg m) (cexpi (dot3 (pts 0) (pos m) - dot3 (pts (j + 1)) (pos m)))))))).
    - apply csumTo_ext. intros m _. unfold amp. rewrite <- csumTo_mul_r. apply csumTo_ext. intros i _. unfold star, Rminus. rewrite !expi_add. rewrite !scale_mul_l. ring.
    - rewrite csumTo_swap. apply csumTo_ext. intros i Hi. rewrite csumTo_mul_l.
      transitivity (cmul (cconj (x i)) (csub (csumTo nP (fun m => cscale (/ deg m) (cexpi (dot3 (pts (i + 1)) (pos m) - dot3 (pts (j + 1)) (pos m))))) (csumTo nP (fun m => cscale (/ deg m) (cexpi (dot3 (pts 0) (pos m) - dot3 (pts (j + 1)) (pos m))))))).
      { f_equal. unfold csumTo. generalize (zrange 0 nP) as l. induction l as [|m l IH]; [cring|]. cbn [map]. rewrite !csum_cons, IH. ring. }
      rewrite !Orth by lia. destruct (Z.eqb_spec (j + 1) 0); [lia|]. destruct (Z.eqb_spec i j), (Z.eqb_spec (j + 1) (i + 1)); try lia; ring. }
  rewrite F in E. rewrite (csumTo_single (nD - 1) (fun i => cmul (cconj (x i)) (IZR nD, 0%R)) j) in E by lia. apply cmul_zero in E as [E|E].
  - rewrite <- (conj_conj (x j)), E. apply conj_0.
  - exfalso. apply (f_equal fst) in E. cbn in E. apply eq_IZR in E. lia.
Qed.
Lemma h_definite : PositiveDefinite (nD - 1) h.
Proof.
  split; [exact h_hermitian|]. intros x (i & Hi & Nx). destruct (quad_nonneg x) as (S0 & P). split; [exact S0|].
  destruct (Rle_lt_or_eq_dec _ _ P) as [L|E]; [exact L|]. exfalso. apply Nx. apply (amp_zero x); [|exact Hi]. apply quad_zero. symmetry. exact E.
Qed.
End Interp.

(** * Lattice vectors *)
Lemma positions_ws g cutoff d ws : positive g -> (1 <= cutoff)%Q -> buildWignerSeitzVectors g (Qround.Qfloor cutoff) d = Ok ws -> setPositionVectors g cutoff d = Ok ws.
Proof.
  intros Hg Hc. unfold setPositionVectors, buildWignerSeitzVectors. replace (Qle_bool 1 cutoff) with true by (symmetry; apply Qle_bool_iff; exact Hc). cbn [negb].
  destruct g as [[g0 g1] g2]. destruct (wsList (g0, g1, g2) (Qround.Qfloor cutoff) d) as [l| |]; cbn [bind]; try discriminate. cbv zeta. destruct (negb _); [discriminate|].
  destruct (Z.eqb_spec (originIndex 0 (-1) l) (-1)) as [E|E]; [discriminate|].
  replace (originIndex 0 0 l) with (originIndex 0 (-1) l); [intro H; exact H|].
  revert E. assert (G : forall l k a b, originIndex k a l <> a -> 0 <= k -> a < 0 -> originIndex k a l = originIndex k b l).
  { clear. induction l as [|x l IH]; intros k a b N Hk Ha; cbn [originIndex] in *; [congruence|]. destruct (isOrigin (fst x)); [reflexivity|]. apply IH; [exact N|lia|lia]. }
  intro E. apply G; [exact E|lia|lia].
Qed.
Lemma floor_ge_1 c : (1 <= c)%Q -> 1 <= Qround.Qfloor c.
Proof. intro H. change 1 with (Qround.Qfloor 1). apply Qround.Qfloor_resp_le. exact H. Qed.
Lemma positions_weights g cutoff d : positive g -> (1 <= cutoff)%Q -> compact g d -> (forall w, (d (0, 0, 0)%Z <= d w)%Q) ->
  exists n r, setPositionVectors g cutoff d = Ok (((0, 0, 0), n) :: r) /\
    let out := ((0, 0, 0), n) :: r in
    NoDup (map fst out) /\ (forall v, In v (map fst out) <-> shortest g d v) /\
    (forall t, (exists v, In v (map fst out) /\ images g t v) /\
       forall sel, (forall v, sel v = true <-> images g t v) -> (sumQ (map weight (filter (fun x => sel (fst x)) out)) == 1)%Q) /\
    (sumQ (map weight out) == inject_Z (cells g))%Q.
Proof.
  intros Hg Hc Hd Ho. destruct (build_weights g (Qround.Qfloor cutoff) d Hg (floor_ge_1 _ Hc) Hd Ho) as (n & r & E & P). exists n, r. split; [apply positions_ws; assumption|exact P].
Qed.
Lemma positions_err g cutoff d : (cutoff < 1)%Q -> setPositionVectors g cutoff d = Err.
Proof. intro H. unfold setPositionVectors. destruct (Qle_bool 1 cutoff) eqn:E; [|reflexivity]. apply Qle_bool_iff in E. exfalso. apply (Qlt_not_le _ _ H E). Qed.
Lemma origin_single g cutoff d n r : positive g -> (1 <= cutoff)%Q -> compact g d -> (forall w, (d (0, 0, 0)%Z <= d w)%Q) -> separated g d ->
  setPositionVectors g cutoff d = Ok (((0, 0, 0), n) :: r) -> n = 1.
Proof.
  intros Hg Hc Hd Ho Hs E. destruct (positions_weights g cutoff d Hg Hc Hd Ho) as (n' & r' & E' & P). rewrite E in E'. injection E' as <- <-. cbv zeta in P. destruct P as (Nd & In' & Cl & _).
  destruct (build_weights g (Qround.Qfloor cutoff) d Hg (floor_ge_1 _ Hc) Hd Ho) as (n1 & r1 & E1 & _). assert (E2 := positions_ws g cutoff d _ Hg Hc E1). rewrite E in E2. injection E2 as -> ->.
  assert (Pn := build_pos _ _ _ _ (0, 0, 0, n1) E1 (or_introl eq_refl)). cbn [snd] in Pn.
  destruct (Cl (0, 0, 0)) as (_ & Sm). specialize (Sm (fun v => eq3 (cls g (0, 0, 0)) (cls g v))).
  assert (F : filter (fun x => eq3 (cls g (0, 0, 0)) (cls g (fst x))) (((0, 0, 0), n1) :: r1) = [((0, 0, 0), n1)]).
  { cbn [filter fst]. rewrite (proj2 (eq3_iff _ _) eq_refl). f_equal. cbn [map fst] in Nd. inversion Nd as [|? ? Nn Nd']; subst.
    assert (K : forall x, In x r1 -> eq3 (cls g (0, 0, 0)) (cls g (fst x)) = false). { intros x Hx. destruct (eq3 _ _) eqn:Q1; [|reflexivity]. exfalso. apply eq3_iff, cls_images in Q1; [|exact Hg].
      assert (Sx : shortest g d (fst x)) by (apply In'; right; apply in_map; exact Hx). assert (Nx : fst x <> (0, 0, 0)) by (intro Z0; apply Nn; rewrite <- Z0; apply in_map; exact Hx).
      specialize (Hs (fst x) Q1 Nx). specialize (Sx (0, 0, 0) (images_sym _ _ _ Q1)). apply (Qlt_not_le _ _ Sx Hs). }
    clear - K. induction r1 as [|x r1 IH]; [reflexivity|]. cbn [filter]. rewrite K by (left; reflexivity). apply IH. intros; apply K; right; assumption. }
  cbv beta in Sm. rewrite F in Sm. unfold sumQ in Sm. cbn [map fold_right] in Sm. unfold weight in Sm. cbn [snd] in Sm.
  assert (Sq : (1 / inject_Z n1 + 0 == 1)%Q) by (apply Sm; intro v; rewrite eq3_iff; symmetry; apply cls_images; exact Hg). clear - Sq Pn.
  assert (T : (inject_Z n1 == 1)%Q). { rewrite <- (Qmult_1_l (inject_Z n1)). rewrite <- Sq at 1. field. unfold Qeq, inject_Z; cbn; lia. }
  unfold Qeq, inject_Z in T. cbn in T. lia.
Qed.

(** * The complete mesh *)
Section Mesh.
Variables (g : v3) (cutoff : Q) (d : v3 -> Q) (ws : list (v3 * Z)) (A B : Z -> vec) (fn : R) (nD : Z) (pts : Z -> vec).
Hypotheses (Hg : positive g) (Hc : (1 <= cutoff)%Q) (Hd : compact g d) (Ho : forall w, (d (0, 0, 0)%Z <= d w)%Q) (Hs : separated g d)
  (Hw : setPositionVectors g cutoff d = Ok ws) (HAB : Dual A B) (Hm : FullMesh B g nD pts).
Lemma ws_origin : exists r, ws = ((0, 0, 0), 1) :: r.
Proof. destruct (positions_weights g cutoff d Hg Hc Hd Ho) as (n & r & E & _). exists r. assert (n = 1) by exact (origin_single g cutoff d n r Hg Hc Hd Ho Hs E). subst n. rewrite Hw in E. injection E as ->. reflexivity. Qed.
Lemma ws_build : buildWignerSeitzVectors g (Qround.Qfloor cutoff) d = Ok ws.
Proof. destruct (build_weights g (Qround.Qfloor cutoff) d Hg (floor_ge_1 _ Hc) Hd Ho) as (n & r & E & _). assert (E2 := positions_ws g cutoff d _ Hg Hc E). rewrite Hw in E2. injection E2 as ->. exact E. Qed.
Lemma mesh_definite : PositiveDefinite (nD - 1) (hMatrix (latV A ws) (latDeg ws) (zlen ws) fn pts).
Proof.
  destruct ws_origin as (r & Er). apply h_definite; try (intros x _; unfold latV; rewrite Er; cbn; ring); try (unfold latDeg; rewrite Er; reflexivity); try exact (fun _ b => b).
  exact (orthogonal g (Qround.Qfloor cutoff) d ws Hg (floor_ge_1 _ Hc) Hd Ho ws_build A B nD pts HAB Hm).
Qed.
Lemma mesh_interpolates ldlt e : Solves (nD - 1) (hMatrix (latV A ws) (latDeg ws) (zlen ws) fn pts) (ldlt (hMatrix (latV A ws) (latDeg ws) (zlen ws) fn pts) (deltaEnergies e)) (deltaEnergies e) ->
  forall i, 0 <= i < nD -> energyAt (latV A ws) (latDeg ws) (zlen ws) (coefficients (latV A ws) (latDeg ws) (zlen ws) fn pts nD ldlt e) (pts i) = e i.
Proof.
  destruct ws_origin as (r & ->). apply interpolates.
  - unfold zlen. cbn [length]. lia.
  - intros x _. unfold latV. cbn. ring.
  - unfold latDeg. cbn. reflexivity.
Qed.
End Mesh.

(** * Processes *)
Lemma share_rows (f : cplx) b : forall shares, NoDup (concat shares) -> csum (map (fun share : list Z => if existsb (Z.eqb b) share then f else c0) shares) = if existsb (Z.eqb b) (concat shares) then f else c0.
Proof.
  induction shares as [|s l IH]; [reflexivity|]. cbn [concat map]. intro N. rewrite csum_cons. apply L_reduce.NoDup_app_inv in N as (_ & N2 & D). rewrite IH by exact N2. rewrite existsb_app.
  destruct (existsb (Z.eqb b) s) eqn:E1, (existsb (Z.eqb b) (concat l)) eqn:E2; cbn [orb]; try ring. exfalso.
  apply existsb_exists in E1 as (x & I1 & X1). apply existsb_exists in E2 as (y & I2 & Y1). apply Z.eqb_eq in X1, Y1. subst. exact (D _ I1 I2).
Qed.
Lemma expansion_rows pos deg nP fn pts nD ldlt nB size e : fits nB size -> exists C, expansionCoefficients pos deg nP fn pts nD ldlt nB size e = Ok C /\
  forall b m, 0 <= b < nB -> C b m = coefficients pos deg nP fn pts nD ldlt (e b) m.
Proof.
  intro F. unfold expansionCoefficients. destruct (divideWorkIter_partition nB size F) as (shares & E & Ec). rewrite E. cbn [bind]. eexists. split; [reflexivity|].
  intros b m Hb. cbv beta. rewrite (share_rows (coefficients pos deg nP fn pts nD ldlt (e b) m) b shares) by (rewrite Ec; apply zrange_NoDup').
  rewrite Ec. replace (existsb (Z.eqb b) (zrange 0 nB)) with true; [reflexivity|]. symmetry. apply existsb_exists. exists b. split; [apply in_zrange; lia|apply Z.eqb_refl].
Qed.

(** * Derivative and period *)
Section Smooth.
Variables (pos : Z -> vec) (deg : Z -> R) (nP : Z) (c : Z -> cplx).
Lemma dot_along k i t v : 0 <= i < 3 -> dot3 (along k i t) v = (dot3 k v + t * v i)%R.
Proof. intro H. unfold dot3, along. assert (C : i = 0 \/ i = 1 \/ i = 2) by lia. destruct C as [-> | [-> | ->]]; cbn [Z.eqb Pos.eqb]; ring. Qed.
Lemma term_derivative m k i t : 0 <= i < 3 -> derivable_pt_lim (fun s => fst (cmul (c m) (star pos deg (along k i s) m))) t (fst (cmul (c m) (starDerivative pos deg (along k i t) m i))).
Proof.
  intro Hi. set (a := fst (c m)). set (b := snd (c m)). set (w := pos m i). set (th := dot3 k (pos m)). set (r := (/ deg m)%R).
  assert (D : derivable_pt_lim (fun s => (th + s * w)%R) t w).
  { assert (D := derivable_pt_lim_plus (fun _ => th) (fun s => (s * w)%R) t 0 (1 * w + t * 0) (derivable_pt_lim_const th t) (derivable_pt_lim_mult (fun s => s) (fun _ => w) t 1 0 (derivable_pt_lim_id t) (derivable_pt_lim_const w t))).
    replace (0 + (1 * w + t * 0))%R with w in D by ring. exact D. }
  assert (Dc := derivable_pt_lim_comp _ cos t _ _ D (derivable_pt_lim_cos (th + t * w)%R)). assert (Ds := derivable_pt_lim_comp _ sin t _ _ D (derivable_pt_lim_sin (th + t * w)%R)).
  assert (T := derivable_pt_lim_minus _ _ t _ _ (derivable_pt_lim_scal _ (a * r)%R t _ Dc) (derivable_pt_lim_scal _ (b * r)%R t _ Ds)).
  match type of T with derivable_pt_lim ?f _ ?l => replace (fst (cmul (c m) (starDerivative pos deg (along k i t) m i))) with l end.
  - intros eps He. destruct (T eps He) as (dl & Hdl). exists dl. intros hh Hn Hh. specialize (Hdl hh Hn Hh).
    assert (Ev : forall s, fst (cmul (c m) (star pos deg (along k i s) m)) = (mult_real_fct (a * r) (comp cos (fun s => (th + s * w)%R)) - mult_real_fct (b * r) (comp sin (fun s => (th + s * w)%R)))%F s).
    { intro s. unfold star, minus_fct, mult_real_fct, comp. rewrite dot_along by exact Hi. fold th w r. unfold cmul, cscale, cexpi. cbn [fst snd]. fold a b. ring. }
    rewrite !Ev. exact Hdl.
  - unfold starDerivative. rewrite dot_along by exact Hi. fold th w. unfold cmul, cscale, cexpi, cI. cbn [fst snd]. fold a b. unfold Rdiv. fold r. ring.
Qed.
Lemma sum_derivative k i t l : 0 <= i < 3 -> derivable_pt_lim (fun s => fst (csum (map (fun m => cmul (c m) (star pos deg (along k i s) m)) l))) t (fst (csum (map (fun m => cmul (c m) (starDerivative pos deg (along k i t) m i)) l))).
Proof.
  intro Hi. induction l as [|m l IH]; [apply (derivable_pt_lim_const 0)|]. cbn [map]. rewrite csum_cons.
  apply (derivable_pt_lim_plus _ _ t _ _ (term_derivative m k i t Hi) IH).
Qed.
Lemma gradient k i t : 0 <= i < 3 -> derivable_pt_lim (fun s => energyAt pos deg nP c (along k i s)) t (velocityAt pos deg nP c (along k i t) i).
Proof.
  intro Hi. unfold velocityAt. rewrite fold_add_csum, Rplus_0_l. intros eps He. destruct (sum_derivative k i t (zrange 0 nP) Hi eps He) as (dl & H). exists dl. intros hh Hn Hh. specialize (H hh Hn Hh).
  rewrite !energy_complex. exact H.
Qed.
Lemma periodic k G : (forall m, 0 <= m < nP -> exists z, dot3 G (pos m) = (2 * PI * IZR z)%R) ->
  energyAt pos deg nP c (vadd k G) = energyAt pos deg nP c k /\ forall i, velocityAt pos deg nP c (vadd k G) i = velocityAt pos deg nP c k i.
Proof.
  intro H. assert (E : forall m, 0 <= m < nP -> cexpi (dot3 (vadd k G) (pos m)) = cexpi (dot3 k (pos m))).
  { intros m Hm. destruct (H m Hm) as (z & Ez). replace (dot3 (vadd k G) (pos m)) with (dot3 k (pos m) + 2 * PI * IZR z)%R by (rewrite <- Ez; unfold dot3, vadd; ring). apply expi_period. }
  split; [rewrite !energy_complex; f_equal; apply csumTo_ext; intros m Hm; unfold star; rewrite E by exact Hm; reflexivity|].
  intro i. unfold velocityAt. rewrite !fold_add_csum. do 2 f_equal. apply csum_map_ext. intros m Hm. apply in_zrange in Hm. unfold starDerivative. rewrite E by lia. reflexivity.
Qed.
End Smooth.
