(** Proofs about the velocities. *)
From Coq Require Import Reals Permutation.
From Verif Require Import Base BaseLemmas M_complex L_complex M_electron S_electron L_electron.
From Coq Require Import Lia Lra.
Open Scope Z_scope.

Lemma hostDer_hermitian delta Hp Hm n : Hermitian n (hostDer delta Hp Hm).
Proof. intros i j _ _. unfold hostDer. cring. Qed.
Lemma deviceDer_host delta Hp Hm : delta <> 0%R -> forall m n, deviceDer delta Hp Hm m n = hostDer delta Hp Hm m n.
Proof.
  intros h m n. unfold deviceDer, hostDer. cbv beta zeta. rewrite conj_scale, <- scale_add, scale_scale. rewrite conj_sub. replace (/ 2 * / (2 * delta))%R with (/ 4 / delta)%R by (field; exact h). reflexivity.
Qed.
Lemma rotateV_hermitian n U A : Hermitian n A -> Hermitian n (rotateV n U A).
Proof.
  intros h i j hi hj. unfold rotateV. change (cconj (matMul n (matMul n (adjoint U) A) U j i)) with (adjoint (matMul n (matMul n (adjoint U) A) U) i j).
  rewrite adjoint_mul. rewrite matMul_assoc. apply matMul_ext; [reflexivity|].
  intros k hk. rewrite adjoint_mul. apply matMul_ext; [|].
  - intros l hl. unfold adjoint. apply h; assumption.
  - intros l hl. unfold adjoint. symmetry. apply conj_conj.
Qed.
Lemma rotateV_ext n U A B : SameMat n A B -> forall i j, rotateV n U A i j = rotateV n U B i j.
Proof.
  intros h i j. unfold rotateV. apply matMul_ext; [|reflexivity]. intros k hk. apply matMul_ext; [reflexivity|]. intros l hl. apply h; assumption.
Qed.

Lemma host_velocity_hermitian nb delta k U Hp Hm : Hermitian nb (hostVelocity nb delta k U Hp Hm).
Proof.
  unfold hostVelocity. destruct (hostGamma k); [intros i j _ _; unfold zeroMat; now rewrite conj_0|]. apply rotateV_hermitian, hostDer_hermitian.
Qed.
Lemma device_velocity_hermitian nb delta k U Hp Hm : delta <> 0%R -> Hermitian nb (deviceVelocity nb delta k U Hp Hm).
Proof.
  intro h. unfold deviceVelocity. destruct (deviceGamma k); [intros i j _ _; unfold zeroMat; now rewrite conj_0|]. apply rotateV_hermitian.
  intros i j hi hj. rewrite !deviceDer_host by exact h. apply (hostDer_hermitian delta Hp Hm nb i j hi hj).
Qed.
Lemma hostGamma_false k : (/ 1000000 < dot3 k k)%R -> hostGamma k = false.
Proof.
  intro h. unfold hostGamma. destruct (Rlt_dec _ _) as [G|G]; [|reflexivity]. exfalso.
  assert (H : (sqrt (dot3 k k) * sqrt (dot3 k k) = dot3 k k)%R) by (apply sqrt_sqrt; lra). pose proof (sqrt_pos (dot3 k k)). nra.
Qed.
Lemma hostGamma_true k : (dot3 k k < / 1000000000000)%R -> hostGamma k = true.
Proof.
  intro h. unfold hostGamma. destruct (Rlt_dec _ _) as [G|G]; [reflexivity|]. exfalso.
  assert (P : (0 <= dot3 k k)%R) by (unfold dot3; nra).
  assert (H : (sqrt (dot3 k k) * sqrt (dot3 k k) = dot3 k k)%R) by (apply sqrt_sqrt; exact P). pose proof (sqrt_pos (dot3 k k)). nra.
Qed.
Lemma velocity_host_device nb delta k U Hp Hm : delta <> 0%R -> (/ 1000000 < dot3 k k \/ dot3 k k < / 1000000000000)%R ->
  SameMat nb (deviceVelocity nb delta k U Hp Hm) (hostVelocity nb delta k U Hp Hm).
Proof.
  intros hd [h|h] i j _ _; unfold deviceVelocity, hostVelocity, deviceGamma.
  - rewrite hostGamma_false by exact h. destruct (Rlt_dec _ _); [|lra]. apply rotateV_ext. intros a b _ _. apply deviceDer_host, hd.
  - rewrite hostGamma_true by exact h. destruct (Rlt_dec _ _); [lra|reflexivity].
Qed.

(** phases of the eigenvectors *)
Lemma rotateV_phase n U A (ph : Z -> cplx) i j : rotateV n (fun a b => cmul (U a b) (ph b)) A i j = cmul (cmul (cconj (ph i)) (ph j)) (rotateV n U A i j).
Proof.
  unfold rotateV, matMul. rewrite <- csumTo_mul_l. apply csumTo_ext. intros l hl. unfold adjoint.
  assert (E : csumTo n (fun k => cmul (cconj (cmul (U k i) (ph i))) (A k l)) = cmul (cconj (ph i)) (csumTo n (fun k => cmul (cconj (U k i)) (A k l)))).
  { rewrite <- csumTo_mul_l. apply csumTo_ext. intros k _. rewrite conj_mul. ring. }
  rewrite E. ring.
Qed.

(** the seven wavevectors *)
Lemma zget_concat7 {A} (d : list (list A)) : (forall l, In l d -> zlen l = 7) -> forall q l r, zget d q = Some l -> 0 <= r < 7 -> zget (concat d) (q * 7 + r) = zget l r.
Proof.
  induction d as [|l0 d IH]; intros h q l r hq hr; [apply zget_Some in hq; rewrite zlen_nil_ in hq || (cbn in hq; lia)|].
  pose proof (zget_Some _ _ _ hq) as (hb & _). cbn [concat]. pose proof (h l0 (or_introl eq_refl)) as e. destruct (Z.eq_dec q 0) as [->|hn].
  - rewrite zget_cons0 in hq. injection hq as ->. rewrite zget_app1 by lia. reflexivity.
  - rewrite zget_consS in hq by lia. rewrite zget_app2 by lia. rewrite <- (IH (fun l hl => h l (or_intror hl)) (q - 1) l r hq hr). f_equal. lia.
Qed.
Lemma seven_len delta k : zlen (sevenVectors delta k) = 7.
Proof. reflexivity. Qed.
Lemma allVectors_get delta ks q k r : zget ks q = Some k -> 0 <= r < 7 -> zget (allVectors delta ks) (q * 7 + r) = zget (sevenVectors delta k) r.
Proof.
  intros h hr. unfold allVectors. apply zget_concat7.
  - intros l hl. apply in_map_iff in hl as (x & <- & _). apply seven_len.
  - rewrite zget_map, h. reflexivity.
  - exact hr.
Qed.

(** * Error of the finite difference *)
Lemma expi_diff a x : csub (cexpi (a + x)) (cexpi (a - x)) = cscale (2 * sin x) (cmul cI (cexpi a)).
Proof. apply cplx_eq; cbn; rewrite ?cos_plus, ?cos_minus, ?sin_plus, ?sin_minus; ring. Qed.
Lemma dot3_axpy k a v w : dot3 (vaxpy k a v) w = (dot3 k w + a * dot3 v w)%R.
Proof. unfold dot3, vaxpy. ring. Qed.
Lemma dot3_unit i w : 0 <= i < 3 -> dot3 (unitVec i) w = w i.
Proof. intro h. assert (i = 0 \/ i = 1 \/ i = 2) as [ -> | [ -> | -> ]] by lia; unfold dot3, unitVec; cbn; ring. Qed.
Definition diffTerm (W : wannier) (delta : R) (i : Z) (k : vec) : cmat := fun m n =>
  csumTo (nR W) (fun iR => cmul (cscale (sin (delta * brav W iR i) / delta / degR W iR) (cmul cI (cexpi (dot3 k (brav W iR))))) (h0R W iR m n)).
Lemma central_difference W delta i k m n : 0 <= i < 3 -> delta <> 0%R ->
  cscale (/ (2 * delta)) (csub (hostH W (vaxpy k delta (unitVec i)) m n) (hostH W (vaxpy k (- delta) (unitVec i)) m n)) = diffTerm W delta i k m n.
Proof.
  intros hi hd. unfold hostH, diffTerm.
  assert (E : forall a b, csub (csumTo (nR W) a) (csumTo (nR W) b) = csumTo (nR W) (fun x => csub (a x) (b x))).
  { intros a b. rewrite (csumTo_ext _ (fun x => csub (a x) (b x)) (fun x => cadd (a x) (cscale (-1) (b x)))) by (intros; cring). rewrite csumTo_add, csumTo_scale. generalize (csumTo (nR W) a) (csumTo (nR W) b). intros; cring. }
  rewrite E, <- csumTo_scale. apply csumTo_ext. intros r _. unfold phaseR. rewrite !dot3_axpy, dot3_unit by exact hi.
  replace (dot3 k (brav W r) + - delta * brav W r i)%R with (dot3 k (brav W r) - delta * brav W r i)%R by ring.
  set (x := (delta * brav W r i)%R). set (a := dot3 k (brav W r)). pose proof (expi_diff a x) as D.
  transitivity (cmul (cscale (/ (2 * delta)) (cscale (/ degR W r) (csub (cexpi (a + x)) (cexpi (a - x))))) (h0R W r m n)); [cring|].
  rewrite D, !scale_scale. f_equal. f_equal. unfold Rdiv. generalize (/ degR W r)%R. intro y. field. exact hd.
Qed.
Lemma hostDer_central W neg delta i k m n : HermitianHoppings W neg -> 0 <= i < 3 -> delta <> 0%R -> 0 <= m < nW W -> 0 <= n < nW W ->
  hostDer delta (hostH W (vaxpy k delta (unitVec i))) (hostH W (vaxpy k (- delta) (unitVec i))) m n = diffTerm W delta i k m n.
Proof.
  intros h hi hd hm hn. rewrite <- central_difference by assumption. unfold hostDer. cbv beta zeta.
  pose proof (host_hermitian W neg (vaxpy k delta (unitVec i)) h n m hn hm) as e1.
  pose proof (host_hermitian W neg (vaxpy k (- delta) (unitVec i)) h n m hn hm) as e2. rewrite e1, e2.
  generalize (hostH W (vaxpy k delta (unitVec i)) m n) (hostH W (vaxpy k (- delta) (unitVec i)) m n). intros a b.
  apply cplx_eq; cbn; field; exact hd.
Qed.
Lemma sin_cubic_pos x : (0 <= x)%R -> (x - x * x * x / 6 <= sin x <= x)%R.
Proof.
  intros h. assert (S : (sin x <= x)%R). { destruct (Rle_lt_or_eq_dec _ _ h) as [G|<-]; [left; apply sin_lt_x; exact G|rewrite sin_0; lra]. }
  split; [|exact S]. destruct (Rle_dec x 4) as [G|G].
  - destruct (pre_sin_bound x 0 h G) as (A & _). replace (x - x * x * x / 6)%R with (sin_approx x (2 * 0 + 1)); [exact A|]. unfold sin_approx, sin_term. cbn. field.
  - pose proof (SIN_bound x). assert (4 < x)%R by lra. assert (16 < x * x)%R by nra. assert (x * 16 <= x * x * x)%R by nra. lra.
Qed.
Lemma sin_cubic x : (Rabs (sin x - x) <= Rabs x * Rabs x * Rabs x / 6)%R.
Proof.
  destruct (Rle_dec 0 x) as [h|h].
  - rewrite (Rabs_right x) by lra. pose proof (sin_cubic_pos x h). rewrite Rabs_left1 by lra. lra.
  - rewrite (Rabs_left x) by lra. pose proof (sin_cubic_pos (- x) ltac:(lra)) as G. rewrite sin_neg in G. rewrite Rabs_right by lra. lra.
Qed.

Lemma cabs_nonneg a : (0 <= cabs a)%R. Proof. apply sqrt_pos. Qed.
Lemma cabs_mul a b : cabs (cmul a b) = (cabs a * cabs b)%R.
Proof. unfold cabs. rewrite norm2_mul. apply sqrt_mult; apply norm2_nonneg. Qed.
Lemma cabs_scale r a : cabs (cscale r a) = (Rabs r * cabs a)%R.
Proof.
  unfold cabs. replace (cnorm2 (cscale r a)) with (Rsqr r * cnorm2 a)%R by (unfold cnorm2, cscale, Rsqr; cbn; ring).
  rewrite sqrt_mult by (try apply norm2_nonneg; apply Rle_0_sqr). now rewrite sqrt_Rsqr_abs.
Qed.
Lemma cabs_sq a : (cabs a * cabs a = cnorm2 a)%R. Proof. apply sqrt_sqrt, norm2_nonneg. Qed.
Lemma cabs_triangle a b : (cabs (cadd a b) <= cabs a + cabs b)%R.
Proof.
  pose proof (cabs_sq a) as ha. pose proof (cabs_sq b) as hb. pose proof (cabs_sq (cadd a b)) as hc.
  pose proof (cabs_nonneg a). pose proof (cabs_nonneg b). pose proof (cabs_nonneg (cadd a b)).
  assert (D : (fst a * fst b + snd a * snd b <= cabs a * cabs b)%R).
  { destruct (Rle_dec (fst a * fst b + snd a * snd b) 0) as [G|G]; [nra|]. apply Rsqr_incr_0_var; [|nra]. unfold Rsqr.
    replace (cabs a * cabs b * (cabs a * cabs b))%R with (cnorm2 a * cnorm2 b)%R by (rewrite <- ha, <- hb; ring). unfold cnorm2.
    pose proof (Rle_0_sqr (fst a * snd b - snd a * fst b)) as Q. unfold Rsqr in Q. nra. }
  apply Rsqr_incr_0_var; [|nra]. unfold Rsqr. rewrite hc. unfold cnorm2 in *. cbn [cadd fst snd]. nra.
Qed.
Lemma cabs_expi x : cabs (cexpi x) = 1%R.
Proof. unfold cabs. rewrite norm2_expi. apply sqrt_1. Qed.
Lemma cabs_I : cabs cI = 1%R.
Proof. unfold cabs, cnorm2, cI. cbn. replace (0 * 0 + 1 * 1)%R with 1%R by ring. apply sqrt_1. Qed.
Lemma cabs_0 : cabs c0 = 0%R.
Proof. unfold cabs, cnorm2, c0. cbn. replace (0 * 0 + 0 * 0)%R with 0%R by ring. apply sqrt_0. Qed.
Lemma cabs_sum n f g : (forall i, 0 <= i < n -> (cabs (f i) <= g i)%R) -> (cabs (csumTo n f) <= rsumTo n g)%R.
Proof.
  intro h. unfold csumTo, rsumTo. assert (h' : forall i, In i (zrange 0 n) -> (cabs (f i) <= g i)%R) by (intros i hi; apply in_zrange in hi; apply h; lia).
  revert h'. induction (zrange 0 n) as [|a l IH]; intro h'; cbn [map fold_right]; [rewrite csum_nil, cabs_0; lra|]. rewrite csum_cons.
  pose proof (cabs_triangle (f a) (csum (map f l))). pose proof (h' a (or_introl eq_refl)). pose proof (IH (fun i hi => h' i (or_intror hi))). lra.
Qed.
Lemma csub_csumTo n f g : csub (csumTo n f) (csumTo n g) = csumTo n (fun x => csub (f x) (g x)).
Proof.
  rewrite (csumTo_ext _ (fun x => csub (f x) (g x)) (fun x => cadd (f x) (cscale (-1) (g x)))) by (intros; cring).
  rewrite csumTo_add, csumTo_scale. generalize (csumTo n f) (csumTo n g). intros; cring.
Qed.
Lemma derivative_error W neg delta i k m n : HermitianHoppings W neg -> 0 <= i < 3 -> delta <> 0%R -> 0 <= m < nW W -> 0 <= n < nW W ->
  (cabs (csub (hostDer delta (hostH W (vaxpy k delta (unitVec i))) (hostH W (vaxpy k (- delta) (unitVec i))) m n) (gradH W i k m n))
   <= rsumTo (nR W) (fun iR => delta * delta / 6 * (Rabs (brav W iR i) * Rabs (brav W iR i) * Rabs (brav W iR i)) * Rabs (/ degR W iR) * cabs (h0R W iR m n)))%R.
Proof.
  intros h hi hd hm hn. rewrite (hostDer_central W neg) by assumption. unfold diffTerm, gradH. rewrite csub_csumTo. apply cabs_sum. intros r _.
  set (y := (/ degR W r)%R). set (R_ := brav W r i). set (e := cmul cI (cexpi (dot3 k (brav W r)))). set (q := h0R W r m n). unfold Rdiv. fold y.
  replace (csub (cmul (cscale (sin (delta * R_) * / delta * y) e) q) (cmul (cscale (R_ * y) e) q)) with (cscale ((sin (delta * R_) - delta * R_) * / delta * y) (cmul e q)).
  2:{ apply cplx_eq; cbn; field; exact hd. }
  rewrite cabs_scale, cabs_mul. unfold e. rewrite cabs_mul, cabs_I, cabs_expi, Rmult_1_l, Rmult_1_l. apply Rmult_le_compat_r; [apply cabs_nonneg|].
  rewrite !Rabs_mult. apply Rmult_le_compat_r; [apply Rabs_pos|]. rewrite Rabs_inv.
  pose proof (sin_cubic (delta * R_)) as B. rewrite !Rabs_mult in B. assert (P : (0 < Rabs delta)%R) by (apply Rabs_pos_lt; exact hd).
  apply (Rmult_le_reg_r (Rabs delta)); [exact P|]. rewrite Rmult_assoc, Rinv_l, Rmult_1_r by lra.
  assert (Q : (delta * delta = Rabs delta * Rabs delta)%R) by (rewrite <- Rabs_mult; rewrite Rabs_right; [reflexivity|nra]).
  rewrite Q. eapply Rle_trans; [exact B|]. apply Req_le. field.
Qed.

(** the spec of the gradient is the derivative *)
Lemma deriv_sum n (f : Z -> R -> R) (d : Z -> R) t : (forall i, 0 <= i < n -> derivable_pt_lim (f i) t (d i)) ->
  derivable_pt_lim (fun x => rsumTo n (fun i => f i x)) t (rsumTo n d).
Proof.
  intro h. unfold rsumTo. assert (h' : forall i, In i (zrange 0 n) -> derivable_pt_lim (f i) t (d i)) by (intros i hi; apply in_zrange in hi; apply h; lia).
  revert h'. induction (zrange 0 n) as [|a l IH]; intro h'; cbn [map fold_right].
  - apply derivable_pt_lim_const.
  - apply (derivable_pt_lim_plus (f a) (fun x => fold_right Rplus 0%R (map (fun i => f i x) l))); [apply h'; now left|]. apply IH. intros i hi. apply h'. now right.
Qed.
Lemma csumTo_snd n f : snd (csumTo n f) = rsumTo n (fun i => snd (f i)).
Proof. unfold csumTo, rsumTo. induction (zrange 0 n) as [|a l IH]; cbn; [reflexivity|]. now rewrite <- IH. Qed.
Lemma deriv_lin a b t : derivable_pt_lim (fun x => (a + x * b)%R) t b.
Proof.
  intros eps he. exists (mkposreal 1 Rlt_0_1). intros h hh _. replace ((a + (t + h) * b - (a + t * b)) / h - b)%R with 0%R by (field; exact hh). rewrite Rabs_R0. exact he.
Qed.
Lemma deriv_cos a b t : derivable_pt_lim (fun x => cos (a + x * b)) t (- sin (a + t * b) * b)%R.
Proof.
  apply (derivable_pt_lim_comp (fun x => (a + x * b)%R) cos).
  - apply deriv_lin.
  - apply derivable_pt_lim_cos.
Qed.
Lemma deriv_sin a b t : derivable_pt_lim (fun x => sin (a + x * b)) t (cos (a + t * b) * b)%R.
Proof.
  apply (derivable_pt_lim_comp (fun x => (a + x * b)%R) sin).
  - apply deriv_lin.
  - apply derivable_pt_lim_sin.
Qed.
Lemma deriv_ext f g t l : (forall x, f x = g x) -> derivable_pt_lim g t l -> derivable_pt_lim f t l.
Proof. intros h d eps he. destruct (d eps he) as (del & D). exists del. intros x hx hl. rewrite !h. apply D; assumption. Qed.
Lemma gradH_re W i k m n : 0 <= i < 3 -> derivable_pt_lim (fun t => fst (hostH W (vaxpy k t (unitVec i)) m n)) 0 (fst (gradH W i k m n)).
Proof.
  intro hi. unfold gradH. rewrite csumTo_fst. apply (deriv_ext _ (fun t => rsumTo (nR W) (fun iR =>
    / degR W iR * fst (h0R W iR m n) * cos (dot3 k (brav W iR) + t * brav W iR i) + - / degR W iR * snd (h0R W iR m n) * sin (dot3 k (brav W iR) + t * brav W iR i)))%R).
  - intro t. unfold hostH. rewrite csumTo_fst. unfold rsumTo. f_equal. apply map_ext. intro r. unfold phaseR. rewrite dot3_axpy, dot3_unit by exact hi. cbn. ring.
  - apply deriv_sum. intros r _.
    match goal with |- derivable_pt_lim _ _ ?d => replace d with
      (/ degR W r * fst (h0R W r m n) * (- sin (dot3 k (brav W r) + 0 * brav W r i) * brav W r i) + - / degR W r * snd (h0R W r m n) * (cos (dot3 k (brav W r) + 0 * brav W r i) * brav W r i))%R end.
    + apply (derivable_pt_lim_plus (fun t => / degR W r * fst (h0R W r m n) * cos (dot3 k (brav W r) + t * brav W r i))%R (fun t => - / degR W r * snd (h0R W r m n) * sin (dot3 k (brav W r) + t * brav W r i))%R).
      * apply (derivable_pt_lim_scal (fun t => cos (dot3 k (brav W r) + t * brav W r i))). apply deriv_cos.
      * apply (derivable_pt_lim_scal (fun t => sin (dot3 k (brav W r) + t * brav W r i))). apply deriv_sin.
    + rewrite Rmult_0_l, Rplus_0_r. cbn. unfold Rdiv. ring.
Qed.
Lemma gradH_im W i k m n : 0 <= i < 3 -> derivable_pt_lim (fun t => snd (hostH W (vaxpy k t (unitVec i)) m n)) 0 (snd (gradH W i k m n)).
Proof.
  intro hi. unfold gradH. rewrite csumTo_snd. apply (deriv_ext _ (fun t => rsumTo (nR W) (fun iR =>
    / degR W iR * snd (h0R W iR m n) * cos (dot3 k (brav W iR) + t * brav W iR i) + / degR W iR * fst (h0R W iR m n) * sin (dot3 k (brav W iR) + t * brav W iR i)))%R).
  - intro t. unfold hostH. rewrite csumTo_snd. unfold rsumTo. f_equal. apply map_ext. intro r. unfold phaseR. rewrite dot3_axpy, dot3_unit by exact hi. cbn. ring.
  - apply deriv_sum. intros r _.
    match goal with |- derivable_pt_lim _ _ ?d => replace d with
      (/ degR W r * snd (h0R W r m n) * (- sin (dot3 k (brav W r) + 0 * brav W r i) * brav W r i) + / degR W r * fst (h0R W r m n) * (cos (dot3 k (brav W r) + 0 * brav W r i) * brav W r i))%R end.
    + apply (derivable_pt_lim_plus (fun t => / degR W r * snd (h0R W r m n) * cos (dot3 k (brav W r) + t * brav W r i))%R (fun t => / degR W r * fst (h0R W r m n) * sin (dot3 k (brav W r) + t * brav W r i))%R).
      * apply (derivable_pt_lim_scal (fun t => cos (dot3 k (brav W r) + t * brav W r i))). apply deriv_cos.
      * apply (derivable_pt_lim_scal (fun t => sin (dot3 k (brav W r) + t * brav W r i))). apply deriv_sin.
    + rewrite Rmult_0_l, Rplus_0_r. cbn. unfold Rdiv. ring.
Qed.
