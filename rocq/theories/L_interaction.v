(** Three-phonon couplings: the loops compute the direct sum. *)
From Coq Require Import Reals QArith Qreals Permutation.
From Verif Require Import Base BaseLemmas M_utilities M_complex L_complex M_electron S_electron L_electron M_phonon S_phonon L_phonon L_phonon2 L_phonon3 M_interaction S_interaction.
From Coq Require Import Lia Lra.
Open Scope Z_scope.

Lemma amplitude_ext T w w' s q1 q2 e1 e2 e3 e1' e2' e3' :
  (forall r a b, 0 <= r < nr3 T -> w r a b = w' r a b) ->
  (forall i, 0 <= i < 3 * cAt T -> e1 i = e1' i /\ e2 i = e2' i /\ e3 i = e3' i) ->
  amplitude T w s q1 q2 e1 e2 e3 = amplitude T w' s q1 q2 e1' e2' e3'.
Proof.
  intros Hw He. unfold amplitude. apply csumTo_ext. intros i3 H3. apply csumTo_ext. intros i2 H2. apply csumTo_ext. intros i1 H1. apply csumTo_ext. intros r3 Hr. apply csumTo_ext. intros r2 _.
  rewrite (Hw r3 _ _ Hr). destruct (He i1 H1) as (-> & _). destruct (He i2 H2) as (_ & -> & _). destruct (He i3 H3) as (_ & _ & ->). reflexivity.
Qed.
(** the nested loops are the direct sum with the square of the third weight *)
Definition nested (T : ifc3) (cache : Z -> Z -> Z -> Z -> cplx) (q1 : vec) (e1 e2 e3 : Z -> cplx) : cplx :=
  csumTo (3 * cAt T) (fun i3 => cmul (csumTo (3 * cAt T) (fun i2 => cmul (csumTo (3 * cAt T) (fun i1 => cmul
    (csumTo (nr3 T) (fun r3 => cscale (wt3 T r3 (i1 / 3) (i3 / 3)) (cmul (cache i1 i2 i3 r3) (cexpi (dot3 (vopp q1) (pos3 T r3))))))
    (e1 i1))) (e2 i2))) (cconj (e3 i3))).
Lemma nested_amplitude T s q1 q2 e1 e2 e3 cache :
  (forall i1 i2 i3 r3, cache i1 i2 i3 r3 = csumTo (nr2 T) (fun r2 => cscale (wt3 T r3 (i1 / 3) (i3 / 3)) (cscale (wt2 T r2 (i1 / 3) (i2 / 3))
    (cmul (cscale (d3 T i1 i2 i3 r3 r2) (cexpi (s * dot3 q2 (pos2 T r2)))) (cexpi (- s * dot3 q2 (pos3 T r3))))))) ->
  nested T cache q1 e1 e2 e3 = amplitude T (fun r a b => (wt3 T r a b * wt3 T r a b)%R) s q1 q2 e1 e2 e3.
Proof.
  intro Hc. unfold nested, amplitude. apply csumTo_ext. intros i3 H3. rewrite <- csumTo_mul_r. apply csumTo_ext. intros i2 H2. rewrite <- !csumTo_mul_r. apply csumTo_ext. intros i1 H1.
  rewrite <- !csumTo_mul_r. apply csumTo_ext. intros r3 _. rewrite Hc. rewrite <- csumTo_mul_r, <- csumTo_scale, <- !csumTo_mul_r. apply csumTo_ext. intros r2 _.
  replace (s * dot3 q2 (pos2 T r2) - dot3 (fun i => (q1 i + s * q2 i)%R) (pos3 T r3))%R with (s * dot3 q2 (pos2 T r2) + (- s * dot3 q2 (pos3 T r3) + dot3 (vopp q1) (pos3 T r3)))%R by (unfold dot3, vopp; ring).
  rewrite !expi_add. generalize (cexpi (s * dot3 q2 (pos2 T r2))), (cexpi (- s * dot3 q2 (pos3 T r3))), (cexpi (dot3 (vopp q1) (pos3 T r3))). intros x y z.
  generalize (d3 T i1 i2 i3 r3 r2), (wt3 T r3 (i1 / 3) (i3 / 3)), (wt2 T r2 (i1 / 3) (i2 / 3)), (e1 i1), (e2 i2), (e3 i3). intros. cring.
Qed.
Lemma vertex_nested T cache e2 nb3 ev3 p b1 b2 b3 : b1 < pNb1 p -> b3 < nb3 ->
  vertex T cache e2 nb3 ev3 p b1 b2 b3 = nested T cache (pQ p) (column (pEv1 p) b1) (e2 b2) (column ev3 b3).
Proof.
  intros H1 H3. unfold vertex. replace (b1 <? pNb1 p) with true by lia. replace (b3 <? nb3) with true by lia. cbn [andb masked].
  unfold nested. apply csumTo_ext. intros i3 _. unfold padded. replace (b3 <? nb3) with true by lia. f_equal. unfold tmp2. replace (b1 <? pNb1 p) with true by lia. cbn [masked].
  apply csumTo_ext. intros i2 _. f_equal. unfold tmp1. replace (b1 <? pNb1 p) with true by lia. cbn [masked]. apply csumTo_ext. intros i1 _. unfold padded. replace (b1 <? pNb1 p) with true by lia. reflexivity.
Qed.
Definition sq3 (T : ifc3) (r a b : Z) : R := (wt3 T r a b * wt3 T r a b)%R.
Lemma plus_value T q2 ev2 nb2 p b1 b2 b3 : b1 < pNb1 p -> b3 < pNbP p ->
  tVal (couplingPlus T q2 ev2 nb2 p) b1 b2 b3 = cnorm2 (amplitude T (sq3 T) 1 (pQ p) q2 (column (pEv1 p) b1) (column ev2 b2) (column (pEvP p) b3)).
Proof.
  intros H1 H3. unfold couplingPlus. cbn [tVal]. rewrite vertex_nested by assumption. f_equal. apply nested_amplitude. intros i1 i2 i3 r3. unfold cachedPlus. apply csumTo_ext. intros r2 _.
  replace (dot3 (vopp q2) (pos3 T r3)) with (- (1) * dot3 q2 (pos3 T r3))%R by (unfold dot3, vopp; ring). rewrite Rmult_1_l. reflexivity.
Qed.
Lemma mins_value T q2 ev2 nb2 p b1 b2 b3 : b1 < pNb1 p -> b3 < pNbM p ->
  tVal (couplingMins T q2 ev2 nb2 p) b1 b2 b3 = cnorm2 (amplitude T (sq3 T) (-1) (pQ p) q2 (column (pEv1 p) b1) (conjOf (column ev2 b2)) (column (pEvM p) b3)).
Proof.
  intros H1 H3. unfold couplingMins. cbn [tVal]. rewrite vertex_nested by assumption. f_equal. apply nested_amplitude. intros i1 i2 i3 r3. unfold cachedMins. apply csumTo_ext. intros r2 _.
  replace (dot3 (vopp q2) (pos2 T r2)) with (-1 * dot3 q2 (pos2 T r2))%R by (unfold dot3, vopp; ring). replace (- -1 * dot3 q2 (pos3 T r3))%R with (dot3 q2 (pos3 T r3)) by ring. reflexivity.
Qed.
Lemma sq3_one T r a b : WeightsOneOrZero T -> sq3 T r a b = wt3 T r a b.
Proof. intro H. unfold sq3. destruct (H r a b) as [-> | ->]; ring. Qed.
