(** Proofs about the interpolated Hamiltonian. *)
From Coq Require Import Reals Permutation.
From Verif Require Import Base BaseLemmas M_complex L_complex M_electron S_electron.
From Coq Require Import Lia Lra.
Open Scope Z_scope.

Lemma dot3_ext a b c d : (forall i, 0 <= i < 3 -> a i = c i) -> (forall i, 0 <= i < 3 -> b i = d i) -> dot3 a b = dot3 c d.
Proof. intros h g. unfold dot3. rewrite !h, !g by lia. reflexivity. Qed.
Lemma dot3_opp_r a b : dot3 a (fun i => (- b i)%R) = (- dot3 a b)%R.
Proof. unfold dot3. ring. Qed.
Lemma dot3_opp_l a b : dot3 (vopp a) b = (- dot3 a b)%R.
Proof. unfold dot3, vopp. ring. Qed.
Lemma dot3_add_l a b c : dot3 (vadd a b) c = (dot3 a c + dot3 b c)%R.
Proof. unfold dot3, vadd. ring. Qed.

Lemma host_hermitian W neg k : HermitianHoppings W neg -> Hermitian (nW W) (hostH W k).
Proof.
  intros h i j hi hj. unfold hostH. rewrite csumTo_conj.
  rewrite <- (csumTo_reindex _ (fun iR => cmul (phaseR W k iR) (h0R W iR i j)) neg); [|intros r hr; apply h; exact hr..].
  apply csumTo_ext. intros r hr. destruct (h r hr) as (h1 & h2 & h3 & h4 & h5). rewrite conj_mul. rewrite h5 by assumption. f_equal.
  unfold phaseR. rewrite h4, conj_scale, conj_expi. do 2 f_equal. rewrite <- dot3_opp_r. apply dot3_ext; [reflexivity|exact h3].
Qed.

Lemma csum_list_perm {A} (f : A -> cplx) l l' : Permutation l l' -> csum (map f l) = csum (map f l').
Proof. intro h. apply csum_perm, Permutation_map, h. Qed.
Lemma shift_sum W S k m n iR :
  csumTo (degS S m n iR) (fun d => cexpi (dot3 k (shifted W S d m n iR))) =
  csum (map (fun v : R * R * R => cexpi (k 0 * fst (fst v) + k 1 * snd (fst v) + k 2 * snd v)) (shiftList W S m n iR)).
Proof. unfold shiftList. rewrite map_map. reflexivity. Qed.
Lemma hostShift_alt W S k m n : hostShiftH W S k m n =
  csumTo (nR W) (fun iR => cmul (cscale (/ (degR W iR * IZR (degS S m n iR))) (csumTo (degS S m n iR) (fun d => cexpi (dot3 k (shifted W S d m n iR))))) (h0R W iR m n)).
Proof.
  unfold hostShiftH. apply csumTo_ext. intros iR _. rewrite csumTo_mul_r. f_equal. apply csumTo_scale.
Qed.
Lemma hostShift_hermitian W S neg k : HermitianHoppings W neg -> HermitianShifts W S neg -> Hermitian (nW W) (hostShiftH W S k).
Proof.
  intros h hs i j hi hj. rewrite !hostShift_alt. rewrite csumTo_conj.
  match goal with |- csumTo _ ?f = _ => rewrite <- (csumTo_reindex _ f neg) end; [|intros r hr; apply h; exact hr..].
  apply csumTo_ext. intros r hr. destruct (h r hr) as (h1 & h2 & h3 & h4 & h5). destruct (hs r j i hr hj hi) as (g1 & g2).
  rewrite conj_mul. rewrite h5 by assumption. f_equal. rewrite h4, g1, conj_scale. f_equal. pose proof (shift_sum W S k i j (neg r)) as e. rewrite g1 in e. rewrite e, shift_sum.
  rewrite (csum_list_perm _ _ _ g2), map_map, csum_conj. apply csum_map_ext. intros v _. rewrite conj_expi. f_equal.
  unfold opp3. cbn [fst snd]. ring.
Qed.

Lemma host_periodic W G k : ReciprocalVector W G -> SameMat (nW W) (hostH W (vadd k G)) (hostH W k).
Proof.
  intros h m n _ _. unfold hostH. apply csumTo_ext. intros r hr. f_equal. unfold phaseR. f_equal. rewrite dot3_add_l.
  destruct (h r hr) as (z & ->). apply expi_period.
Qed.
Lemma hostShift_periodic W S G k : ReciprocalVector W G -> ReciprocalOfShifts W S G ->
  SameMat (nW W) (hostShiftH W S (vadd k G)) (hostShiftH W S k).
Proof.
  intros h hs m n hm hn. unfold hostShiftH. apply csumTo_ext. intros r hr. apply csumTo_ext. intros d hd. do 2 f_equal. rewrite dot3_add_l.
  destruct (h r hr) as (z & e). destruct (hs r m n d hr hm hn hd) as (z' & e').
  replace (dot3 G (shifted W S d m n r)) with (2 * PI * IZR (z' + z))%R; [apply expi_period|].
  rewrite plus_IZR, Rmult_plus_distr_l, <- e, <- e'. unfold dot3, shifted. ring.
Qed.
Lemma host_reversal W k : (forall iR m n, 0 <= iR < nR W -> 0 <= m < nW W -> 0 <= n < nW W -> snd (h0R W iR m n) = 0%R) ->
  forall m n, 0 <= m < nW W -> 0 <= n < nW W -> hostH W (vopp k) m n = cconj (hostH W k m n).
Proof.
  intros h m n hm hn. unfold hostH. rewrite csumTo_conj. apply csumTo_ext. intros r hr. rewrite conj_mul. f_equal.
  - unfold phaseR. rewrite conj_scale, conj_expi, dot3_opp_l. reflexivity.
  - specialize (h r m n hr hm hn). destruct (h0R W r m n) as [x y]. unfold cconj. cbn in *. subst y. f_equal. ring.
Qed.
Lemma hostShift_reversal W S k : (forall iR m n, 0 <= iR < nR W -> 0 <= m < nW W -> 0 <= n < nW W -> snd (h0R W iR m n) = 0%R) ->
  forall m n, 0 <= m < nW W -> 0 <= n < nW W -> hostShiftH W S (vopp k) m n = cconj (hostShiftH W S k m n).
Proof.
  intros h m n hm hn. unfold hostShiftH. rewrite csumTo_conj. apply csumTo_ext. intros r hr. rewrite csumTo_conj. apply csumTo_ext. intros d hd. rewrite conj_mul. f_equal.
  - rewrite conj_scale, conj_expi, dot3_opp_l. reflexivity.
  - specialize (h r m n hr hm hn). destruct (h0R W r m n) as [x y]. unfold cconj. cbn in *. subst y. f_equal. ring.
Qed.
(** no shift is the special case of one null shift per pair of orbitals *)
Lemma hostShift_one W S k : (forall m n iR, degS S m n iR = 1) -> (forall i d m n iR, vecS S i d m n iR = 0%R) ->
  forall m n, hostShiftH W S k m n = hostH W k m n.
Proof.
  intros h1 h2 m n. unfold hostShiftH, hostH. apply csumTo_ext. intros r _. rewrite h1. unfold csumTo. change (zrange 0 1) with [0]. cbn [map]. rewrite csum_cons, csum_nil.
  unfold phaseR. replace (degR W r * 1)%R with (degR W r) by ring. rewrite (dot3_ext k (shifted W S 0 m n r) k (brav W r)); [ring|reflexivity|].
  intros i _. unfold shifted. rewrite h2. ring.
Qed.

(** * Device *)
Lemma foldM_sum {A} (f : A -> cplx) (g : A -> res cplx) (cm : A -> cplx -> cplx) l : (forall a, In a l -> exists h, g a = Ok h /\ cm a h = f a) ->
  forall t, foldM (fun tmp a => do h <- g a ; Ok (cadd tmp (cm a h))) l t = Ok (cadd t (csum (map f l))).
Proof.
  induction l as [|a l IH]; intros h t; cbn [foldM map]; [rewrite csum_nil; do 2 f_equal; ring|].
  destruct (h a (or_introl eq_refl)) as (x & -> & <-). cbn [bind]. rewrite IH by (intros b hb; apply h; now right). rewrite csum_cons. f_equal. ring.
Qed.
Lemma inb_true i n : 0 <= i < n -> inb i n = true.
Proof. intro h. unfold inb. lia. Qed.
Lemma device_host W k m n : 0 <= m < nW W -> 0 <= n < nW W -> deviceH W k m n = Ok (hostH W k m n).
Proof.
  intros hm hn. unfold deviceH, hostH, csumTo. rewrite (foldM_sum (fun iR => cmul (phaseR W k iR) (h0R W iR m n))).
  - f_equal. ring.
  - intros r hr. apply in_zrange in hr. exists (h0R W r m n). split; [|reflexivity]. unfold h0d. rewrite !inb_true by lia. reflexivity.
Qed.

Lemma foldM_UB {A S} (f : S -> A -> res S) l : (forall s a, In a l -> f s a <> Err) -> (exists a, In a l /\ forall s, f s a = UB) -> forall s, foldM f l s = UB.
Proof.
  induction l as [|b l IH]; intros h (a & ha & e) s; [easy|]. cbn [foldM]. destruct ha as [->|ha].
  - rewrite e. reflexivity.
  - destruct (f s b) eqn:E; cbn [bind]; [|exfalso; apply (h s b); [now left|exact E]|reflexivity].
    apply IH; [intros s' x hx; apply h; now right|]. exists a. split; assumption.
Qed.
Lemma deviceShift_UB W S k m n : nW W < nR W -> 0 <= nW W -> (forall iR, 0 <= iR < nR W -> 1 <= degS S m n iR) -> deviceShiftH W S k m n = UB.
Proof.
  intros h h0 hs. unfold deviceShiftH. apply foldM_UB.
  - intros t r _. generalize t. induction (zrange 0 (degS S m n r)) as [|a l IH]; intro s; cbn [foldM]; [discriminate|].
    unfold h0d at 1. destruct (_ && _); cbn [bind]; [apply IH|discriminate].
  - exists (nW W). split; [apply in_zrange; lia|]. intro t. apply foldM_UB.
    + intros s a _. unfold h0d. destruct (_ && _); discriminate.
    + exists 0. split; [apply in_zrange; specialize (hs (nW W)); lia|]. intro s. unfold h0d. replace (inb (nW W) (nW W)) with false by (unfold inb; lia). reflexivity.
Qed.
Lemma berry_UB W k i m n : 3 < nR W -> berryW W k i m n = UB.
Proof.
  intros h. unfold berryW. apply foldM_UB.
  - intros t r _. unfold rRead. destruct (_ && _); discriminate.
  - exists 3. split; [apply in_zrange; lia|]. intro t. unfold rRead. reflexivity.
Qed.
