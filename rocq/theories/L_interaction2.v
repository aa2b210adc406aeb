(** Changes of the eigenvectors and of the wavevectors in the three-phonon couplings. *)
From Coq Require Import Reals QArith Qreals Permutation.
From Verif Require Import Base BaseLemmas M_utilities M_complex L_complex M_electron S_electron L_electron M_phonon S_phonon L_phonon L_phonon2 L_phonon3 M_interaction S_interaction L_interaction.
From Coq Require Import Lia Lra.
Open Scope Z_scope.

Lemma bandSum_shift s n f : bandSum s n f = bandSum 0 n (fun k => f (s + k)).
Proof. unfold bandSum. f_equal. unfold zrange. rewrite !map_map. apply map_ext. intro k. f_equal. Qed.
Lemma unitary_norm n U v : Unitary n U -> bandSum 0 n (fun k => cnorm2 (csumTo n (fun c => cmul (v c) (U c k)))) = bandSum 0 n (fun c => cnorm2 (v c)).
Proof.
  intros [_ HU].
  assert (C : forall f : Z -> cplx, csumTo n (fun k => cmul (cconj (f k)) (f k)) = (bandSum 0 n (fun k => cnorm2 (f k)), 0%R)).
  { intro f. unfold bandSum, csumTo. rewrite <- csum_real. apply csum_map_ext. intros k _. apply conj_mul_self. }
  enough (E : csumTo n (fun k => cmul (cconj (csumTo n (fun c => cmul (v c) (U c k)))) (csumTo n (fun c => cmul (v c) (U c k)))) = csumTo n (fun c => cmul (cconj (v c)) (v c))).
  { rewrite !C in E. exact (f_equal fst E). }
  transitivity (csumTo n (fun k => csumTo n (fun c => csumTo n (fun d => cmul (cmul (cconj (v c)) (v d)) (cmul (U d k) (cconj (U c k))))))).
  { apply csumTo_ext. intros k _. rewrite csumTo_conj. rewrite <- csumTo_mul_r. apply csumTo_ext. intros c _. rewrite <- csumTo_mul_l. apply csumTo_ext. intros d _. rewrite conj_mul. ring. }
  rewrite csumTo_swap. apply csumTo_ext. intros c Hc. rewrite csumTo_swap.
  transitivity (csumTo n (fun d => if d =? c then cmul (cconj (v c)) (v d) else c0)).
  { apply csumTo_ext. intros d Hd. rewrite csumTo_mul_l. assert (E := HU d c Hd Hc). unfold matMul, adjoint, idMat in E. rewrite E. destruct (d =? c); [ring|]. ring. }
  apply (csumTo_single n (fun d => cmul (cconj (v c)) (v d)) c Hc).
Qed.

Section Legs.
Variables (T : ifc3) (w : Z -> Z -> Z -> R) (s : R) (q1 q2 : vec).
Definition kernel (i1 i2 i3 : Z) : cplx :=
  csumTo (nr3 T) (fun r3 => csumTo (nr2 T) (fun r2 => cscale (wt2 T r2 (i1 / 3) (i2 / 3) * w r3 (i1 / 3) (i3 / 3) * d3 T i1 i2 i3 r3 r2)
      (cexpi (s * dot3 q2 (pos2 T r2) - dot3 (fun i => (q1 i + s * q2 i)%R) (pos3 T r3))))).
Notation N := (3 * cAt T).
Lemma amp_kernel e1 e2 e3 : amplitude T w s q1 q2 e1 e2 e3 =
  csumTo N (fun i3 => csumTo N (fun i2 => csumTo N (fun i1 => cmul (kernel i1 i2 i3) (cmul (cmul (e1 i1) (e2 i2)) (cconj (e3 i3)))))).
Proof.
  unfold amplitude, kernel. apply csumTo_ext. intros i3 _. apply csumTo_ext. intros i2 _. apply csumTo_ext. intros i1 _. rewrite <- csumTo_mul_r. apply csumTo_ext. intros r3 _. rewrite <- csumTo_mul_r. reflexivity.
Qed.
Lemma leg1 e2 e3 : exists B, forall e1, amplitude T w s q1 q2 e1 e2 e3 = csumTo N (fun i => cmul (e1 i) (B i)).
Proof.
  exists (fun i1 => csumTo N (fun i3 => csumTo N (fun i2 => cmul (kernel i1 i2 i3) (cmul (e2 i2) (cconj (e3 i3)))))). intro e1. rewrite amp_kernel.
  transitivity (csumTo N (fun i3 => csumTo N (fun i1 => csumTo N (fun i2 => cmul (e1 i1) (cmul (kernel i1 i2 i3) (cmul (e2 i2) (cconj (e3 i3)))))))).
  - apply csumTo_ext. intros i3 _. rewrite csumTo_swap. apply csumTo_ext. intros i1 _. apply csumTo_ext. intros i2 _. ring.
  - rewrite csumTo_swap. apply csumTo_ext. intros i1 _. rewrite <- csumTo_mul_l. apply csumTo_ext. intros i3 _. rewrite <- csumTo_mul_l. reflexivity.
Qed.
Lemma leg2 e1 e3 : exists B, forall e2, amplitude T w s q1 q2 e1 e2 e3 = csumTo N (fun i => cmul (e2 i) (B i)).
Proof.
  exists (fun i2 => csumTo N (fun i3 => csumTo N (fun i1 => cmul (kernel i1 i2 i3) (cmul (e1 i1) (cconj (e3 i3)))))). intro e2. rewrite amp_kernel. rewrite csumTo_swap.
  apply csumTo_ext. intros i2 _. rewrite <- csumTo_mul_l. apply csumTo_ext. intros i3 _. rewrite <- csumTo_mul_l. apply csumTo_ext. intros i1 _. ring.
Qed.
Lemma leg3 e1 e2 : exists B, forall e3, amplitude T w s q1 q2 e1 e2 e3 = cconj (csumTo N (fun i => cmul (e3 i) (B i))).
Proof.
  exists (fun i3 => cconj (csumTo N (fun i2 => csumTo N (fun i1 => cmul (kernel i1 i2 i3) (cmul (e1 i1) (e2 i2)))))). intro e3. rewrite amp_kernel. rewrite csumTo_conj.
  apply csumTo_ext. intros i3 _. rewrite conj_mul, conj_conj, <- csumTo_mul_l. apply csumTo_ext. intros i2 _. rewrite <- csumTo_mul_l. apply csumTo_ext. intros i1 _. ring.
Qed.
End Legs.

(** bands s, ..., s+n-1 replaced by combinations: the sum of the squares does not change *)
Lemma mixed_column m n U ev k : 0 <= k < n -> forall i, column (mixed m n U ev) (m + k) i = csumTo n (fun c => cmul (column ev (m + c) i) (U c k)).
Proof. intros Hk i. unfold column, mixed. replace ((m <=? m + k) && (m + k <? m + n)) with true by lia. replace (m + k - m) with k by lia. reflexivity. Qed.
Lemma linear_mixed N B m n U ev : Unitary n U ->
  bandSum m n (fun b => cnorm2 (csumTo N (fun i => cmul (column (mixed m n U ev) b i) (B i)))) = bandSum m n (fun b => cnorm2 (csumTo N (fun i => cmul (column ev b i) (B i)))).
Proof.
  intro HU. rewrite !(bandSum_shift m n). rewrite <- (unitary_norm n U (fun c => csumTo N (fun i => cmul (column ev (m + c) i) (B i))) HU).
  unfold bandSum. f_equal. apply map_ext_in. intros k Hk. apply in_zrange in Hk. f_equal.
  transitivity (csumTo N (fun i => csumTo n (fun c => cmul (cmul (column ev (m + c) i) (B i)) (U c k)))).
  - apply csumTo_ext. intros i _. rewrite (mixed_column m n U ev k) by lia. rewrite <- csumTo_mul_r. apply csumTo_ext. intros c _. ring.
  - rewrite csumTo_swap. apply csumTo_ext. intros c _. rewrite <- csumTo_mul_r. reflexivity.
Qed.
(** phases *)
Lemma linear_phase N B u e : cnorm2 u = 1%R -> cnorm2 (csumTo N (fun i => cmul (cmul u (e i)) (B i))) = cnorm2 (csumTo N (fun i => cmul (e i) (B i))).
Proof.
  intro Hu. transitivity (cnorm2 (cmul u (csumTo N (fun i => cmul (e i) (B i))))); [|rewrite norm2_mul, Hu; ring]. f_equal. rewrite <- csumTo_mul_l. apply csumTo_ext. intros i _. ring.
Qed.

(** * Wavevectors *)
Lemma amp_conj T w s q1 q2 e1 e2 e3 : cconj (amplitude T w s q1 q2 e1 e2 e3) = amplitude T w s (vopp q1) (vopp q2) (conjOf e1) (conjOf e2) (conjOf e3).
Proof.
  unfold amplitude. rewrite csumTo_conj. apply csumTo_ext. intros i3 _. rewrite csumTo_conj. apply csumTo_ext. intros i2 _. rewrite csumTo_conj. apply csumTo_ext. intros i1 _.
  rewrite csumTo_conj. apply csumTo_ext. intros r3 _. rewrite csumTo_conj. apply csumTo_ext. intros r2 _. rewrite !conj_mul, conj_scale, conj_expi. unfold conjOf.
  replace (- (s * dot3 q2 (pos2 T r2) - dot3 (fun i => (q1 i + s * q2 i)%R) (pos3 T r3)))%R with (s * dot3 (vopp q2) (pos2 T r2) - dot3 (fun i => (vopp q1 i + s * vopp q2 i)%R) (pos3 T r3))%R by (unfold dot3, vopp; ring).
  reflexivity.
Qed.
Lemma amp_opposite T w q1 q2 e1 e2 e3 : amplitude T w (-1) q1 q2 e1 e2 e3 = amplitude T w 1 q1 (vopp q2) e1 e2 e3.
Proof.
  unfold amplitude. apply csumTo_ext. intros i3 _. apply csumTo_ext. intros i2 _. apply csumTo_ext. intros i1 _. apply csumTo_ext. intros r3 _. apply csumTo_ext. intros r2 _.
  replace (1 * dot3 (vopp q2) (pos2 T r2) - dot3 (fun i => (q1 i + 1 * vopp q2 i)%R) (pos3 T r3))%R with (-1 * dot3 q2 (pos2 T r2) - dot3 (fun i => (q1 i + -1 * q2 i)%R) (pos3 T r3))%R by (unfold dot3, vopp; ring). reflexivity.
Qed.
Lemma amp_periodic T w q1 q2 G1 G2 e1 e2 e3 (n1 : Z -> Z) (n2 n3 : Z -> Z) :
  (forall r, 0 <= r < nr3 T -> dot3 G1 (pos3 T r) = (2 * PI * IZR (n1 r))%R) -> (forall r, 0 <= r < nr2 T -> dot3 G2 (pos2 T r) = (2 * PI * IZR (n2 r))%R) ->
  (forall r, 0 <= r < nr3 T -> dot3 G2 (pos3 T r) = (2 * PI * IZR (n3 r))%R) ->
  amplitude T w 1 (vadd q1 G1) (vadd q2 G2) e1 e2 e3 = amplitude T w 1 q1 q2 e1 e2 e3.
Proof.
  intros H1 H2 H3. unfold amplitude. apply csumTo_ext. intros i3 _. apply csumTo_ext. intros i2 _. apply csumTo_ext. intros i1 _. apply csumTo_ext. intros r3 Hr3. apply csumTo_ext. intros r2 Hr2.
  replace (1 * dot3 (vadd q2 G2) (pos2 T r2) - dot3 (fun i => (vadd q1 G1 i + 1 * vadd q2 G2 i)%R) (pos3 T r3))%R with
    ((1 * dot3 q2 (pos2 T r2) - dot3 (fun i => (q1 i + 1 * q2 i)%R) (pos3 T r3)) + 2 * PI * IZR (n2 r2 - n1 r3 - n3 r3))%R.
  - rewrite expi_period. reflexivity.
  - rewrite !minus_IZR. transitivity (1 * dot3 q2 (pos2 T r2) - dot3 (fun i => (q1 i + 1 * q2 i)%R) (pos3 T r3) + (dot3 G2 (pos2 T r2) - dot3 G1 (pos3 T r3) - dot3 G2 (pos3 T r3)))%R.
    + rewrite (H1 r3 Hr3), (H2 r2 Hr2), (H3 r3 Hr3). ring.
    + unfold dot3, vadd. ring.
Qed.
(** a uniform translation of the second phonon at Gamma does not couple *)
Lemma amp_translation T w s q1 e1 e3 t : 0 <= cAt T -> TranslationInvariant2 T -> amplitude T w s q1 vzero e1 (uniform t) e3 = c0.
Proof.
  intros HA Ht. unfold amplitude. apply csumTo_zero. intros i3 H3. rewrite csumTo_swap. apply csumTo_zero. intros i1 H1. rewrite csumTo_swap. apply csumTo_zero. intros r3 Hr3.
  rewrite csumTo_3 by exact HA. 
  set (F := fun j => fun b => csumTo (nr2 T) (fun r2 => cmul (cscale (wt2 T r2 (i1 / 3) b * w r3 (i1 / 3) (i3 / 3) * d3 T i1 (3 * b + j) i3 r3 r2) (cexpi (- dot3 q1 (pos3 T r3)))) (cmul (cmul (e1 i1) (t j)) (cconj (e3 i3))))).
  transitivity (csumTo (cAt T) (fun b => cadd (cadd (F 0 b) (F 1 b)) (F 2 b))).
  { apply csumTo_ext. intros b Hb. unfold F, uniform.
    assert (K : forall j, 0 <= j < 3 -> csumTo (nr2 T) (fun r2 => cmul (cscale (wt2 T r2 (i1 / 3) ((3 * b + j) / 3) * w r3 (i1 / 3) (i3 / 3) * d3 T i1 (3 * b + j) i3 r3 r2)
        (cexpi (s * dot3 vzero (pos2 T r2) - dot3 (fun i => (q1 i + s * vzero i)%R) (pos3 T r3)))) (cmul (cmul (e1 i1) (t ((3 * b + j) mod 3))) (cconj (e3 i3)))) =
      csumTo (nr2 T) (fun r2 => cmul (cscale (wt2 T r2 (i1 / 3) b * w r3 (i1 / 3) (i3 / 3) * d3 T i1 (3 * b + j) i3 r3 r2) (cexpi (- dot3 q1 (pos3 T r3)))) (cmul (cmul (e1 i1) (t j)) (cconj (e3 i3))))).
    { intros j Hj. apply csumTo_ext. intros r2 _. destruct (split3 b j Hj) as [-> ->]. replace (s * dot3 vzero (pos2 T r2) - dot3 (fun i => (q1 i + s * vzero i)%R) (pos3 T r3))%R with (- dot3 q1 (pos3 T r3))%R by (unfold dot3, vzero; ring). reflexivity. }
    rewrite <- (K 0), <- (K 1), <- (K 2) by lia. replace (3 * b + 0) with (3 * b) by lia. reflexivity. }
  rewrite !csumTo_add.
  assert (Z0 : forall j, 0 <= j < 3 -> csumTo (cAt T) (F j) = c0).
  { intros j Hj. unfold F.
    transitivity (cmul (csumTo (cAt T) (fun b => csumTo (nr2 T) (fun r2 => (wt2 T r2 (i1 / 3) b * d3 T i1 (3 * b + j) i3 r3 r2, 0)%R)))
      (cmul (cscale (w r3 (i1 / 3) (i3 / 3)) (cexpi (- dot3 q1 (pos3 T r3)))) (cmul (cmul (e1 i1) (t j)) (cconj (e3 i3))))).
    - rewrite <- csumTo_mul_r. apply csumTo_ext. intros b _. rewrite <- csumTo_mul_r. apply csumTo_ext. intros r2 _. generalize (cmul (cmul (e1 i1) (t j)) (cconj (e3 i3))), (cexpi (- dot3 q1 (pos3 T r3))). intros. cring.
    - replace (csumTo (cAt T) (fun b => csumTo (nr2 T) (fun r2 => (wt2 T r2 (i1 / 3) b * d3 T i1 (3 * b + j) i3 r3 r2, 0)%R))) with c0; [ring|].
      unfold csumTo. symmetry. transitivity (csum (map (fun b => (rsum (map (fun r2 => wt2 T r2 (i1 / 3) b * d3 T i1 (3 * b + j) i3 r3 r2)%R (zrange 0 (nr2 T))), 0%R)) (zrange 0 (cAt T)))).
      + apply csum_map_ext. intros b _. apply csum_real.
      + rewrite (csum_real (fun b => rsum (map (fun r2 => wt2 T r2 (i1 / 3) b * d3 T i1 (3 * b + j) i3 r3 r2)%R (zrange 0 (nr2 T))))). rewrite (Ht i1 i3 r3 j H1 H3 Hr3 Hj). reflexivity. }
  rewrite !Z0 by lia. ring.
Qed.
