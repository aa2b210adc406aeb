(** Electron-phonon couplings: the distributed tensor, the sums, changes of eigenvectors. *)
From Coq Require Import Reals QArith Qreals Permutation.
From Verif Require Import Base BaseLemmas M_utilities M_complex L_complex M_electron S_electron M_phonon S_phonon L_phonon3 M_interaction S_interaction L_interaction2.
From Coq Require Import Lia Lra.
Open Scope Z_scope.

Section ElPh.
Variable E : elph.
Lemma g1_app p1 p2 k irP nu w1 w2 : g1 (p1 ++ p2) k irP nu w1 w2 = cadd (g1 p1 k irP nu w1 w2) (g1 p2 k irP nu w1 w2).
Proof. unfold g1. rewrite map_app, csum_app. reflexivity. Qed.
Lemma local_app p1 p2 k ev irP nu b w : localCached E (p1 ++ p2) k ev irP nu b w = cadd (localCached E p1 k ev irP nu b w) (localCached E p2 k ev irP nu b w).
Proof. unfold localCached. rewrite <- csumTo_add. apply csumTo_ext. intros i _. rewrite g1_app. ring. Qed.
Lemma local_nil k ev irP nu b w : localCached E [] k ev irP nu b w = c0.
Proof. unfold localCached. apply csumTo_zero. intros i _. unfold g1. cbn [map]. rewrite csum_nil. ring. Qed.
Lemma local_concat ps k ev irP nu b w : csum (map (fun part => localCached E part k ev irP nu b w) ps) = localCached E (concat ps) k ev irP nu b w.
Proof.
  induction ps as [|p ps IH]; [symmetry; apply local_nil|]. cbn [map concat]. rewrite csum_cons, local_app, IH. reflexivity.
Qed.
Lemma cached_whole k ev irP nu b w : cached E k ev irP nu b w = localCached E (concat (parts E)) k ev irP nu b w.
Proof.
  unfold cached. destruct (parts E) as [|p [|p' ps]]; [symmetry; apply local_nil| |apply local_concat].
  cbn [concat]. rewrite app_nil_r. reflexivity.
Qed.
Lemma local_perm p1 p2 k ev irP nu b w : Permutation p1 p2 -> localCached E p1 k ev irP nu b w = localCached E p2 k ev irP nu b w.
Proof. intro P. unfold localCached. apply csumTo_ext. intros i _. f_equal. unfold g1. apply csum_perm, Permutation_map, P. Qed.
Lemma final_amplitude k q ev1 ev2 ev3 nu b1 b2 : gFinal E (cached E k ev1) q ev2 ev3 nu b1 b2 =
  elphAmplitude (nW E) (nPh E) (nrP E) (rP E) (degP E) (concat (parts E)) k q (column ev1 b1) (column ev2 b2) (column ev3 nu).
Proof.
  unfold gFinal, elphAmplitude. apply csumTo_ext. intros w2 _. unfold g4. rewrite <- csumTo_mul_l. apply csumTo_ext. intros m _.
  unfold g3. rewrite <- csumTo_mul_r, <- csumTo_mul_l. apply csumTo_ext. intros p _. rewrite cached_whole. unfold localCached.
  rewrite <- csumTo_mul_l, <- csumTo_mul_r, <- csumTo_mul_l. apply csumTo_ext. intros w1 _. unfold g1.
  rewrite <- csum_map_mul_r, <- csum_map_mul_l, <- csum_map_mul_r, <- csum_map_mul_l. apply csum_map_ext. intros v _. unfold column. rewrite expi_add.
  generalize (cexpi (dot3 k (eR v))) (cexpi (dot3 q (rP E p))) (/ eDeg v)%R (/ degP E p)%R (eG v p m w1 w2) (ev1 w1 b1) (ev2 w2 b2) (ev3 m nu). intros. cring.
Qed.
End ElPh.

(** the amplitude as a function of one displacement *)
Section Legs.
Variables (nw nph np : Z) (Rp : Z -> vec) (dp : Z -> R) (t : list elVector) (k q : vec).
Notation amp := (elphAmplitude nw nph np Rp dp t k q).
Definition ker (w1 w2 nu : Z) : cplx := csumTo np (fun p => csum (map (fun v => cmul (cscale (/ eDeg v * / dp p) (cexpi (dot3 k (eR v) + dot3 q (Rp p)))) (eG v p nu w1 w2)) t)).
Lemma amp_ker e1 e2 e3 : amp e1 e2 e3 = csumTo nw (fun w2 => csumTo nph (fun nu => csumTo nw (fun w1 => cmul (ker w1 w2 nu) (cmul (cmul (e1 w1) (cconj (e2 w2))) (e3 nu))))).
Proof.
  unfold elphAmplitude, ker. apply csumTo_ext. intros w2 _. apply csumTo_ext. intros nu _. rewrite csumTo_swap. apply csumTo_ext. intros w1 _. rewrite <- csumTo_mul_r.
  apply csumTo_ext. intros p _. rewrite <- csum_map_mul_r. apply csum_map_ext. intros v _. ring.
Qed.
Lemma eleg1 e2 e3 x : exists B, forall e1, cadd (amp e1 e2 e3) (cmul x (overlap nw e2 e1)) = csumTo nw (fun i => cmul (e1 i) (B i)).
Proof.
  exists (fun w1 => cadd (csumTo nw (fun w2 => csumTo nph (fun nu => cmul (ker w1 w2 nu) (cmul (cconj (e2 w2)) (e3 nu))))) (cmul x (cconj (e2 w1)))).
  intro e1. rewrite amp_ker. unfold overlap. rewrite <- csumTo_mul_l.
  transitivity (cadd (csumTo nw (fun w1 => cmul (e1 w1) (csumTo nw (fun w2 => csumTo nph (fun nu => cmul (ker w1 w2 nu) (cmul (cconj (e2 w2)) (e3 nu))))))) (csumTo nw (fun i => cmul x (cmul (cconj (e2 i)) (e1 i))))).
  - f_equal. transitivity (csumTo nw (fun w2 => csumTo nw (fun w1 => csumTo nph (fun nu => cmul (e1 w1) (cmul (ker w1 w2 nu) (cmul (cconj (e2 w2)) (e3 nu))))))).
    + apply csumTo_ext. intros w2 _. rewrite csumTo_swap. apply csumTo_ext. intros w1 _. apply csumTo_ext. intros nu _. ring.
    + rewrite csumTo_swap. apply csumTo_ext. intros w1 _. rewrite <- csumTo_mul_l. apply csumTo_ext. intros w2 _. rewrite <- csumTo_mul_l. reflexivity.
  - rewrite <- csumTo_add. apply csumTo_ext. intros i _. ring.
Qed.
Lemma eleg2 e1 e3 x : exists B, forall e2, cadd (amp e1 e2 e3) (cmul x (overlap nw e2 e1)) = cconj (csumTo nw (fun i => cmul (e2 i) (B i))).
Proof.
  exists (fun w2 => cconj (cadd (csumTo nph (fun nu => csumTo nw (fun w1 => cmul (ker w1 w2 nu) (cmul (e1 w1) (e3 nu))))) (cmul x (e1 w2)))).
  intro e2. rewrite amp_ker. unfold overlap. rewrite <- csumTo_mul_l, <- csumTo_add, csumTo_conj. apply csumTo_ext. intros w2 _. rewrite conj_mul, conj_conj.
  transitivity (cadd (cmul (cconj (e2 w2)) (csumTo nph (fun nu => csumTo nw (fun w1 => cmul (ker w1 w2 nu) (cmul (e1 w1) (e3 nu)))))) (cmul x (cmul (cconj (e2 w2)) (e1 w2)))); [f_equal|ring].
  rewrite <- csumTo_mul_l. apply csumTo_ext. intros nu _. rewrite <- csumTo_mul_l. apply csumTo_ext. intros w1 _. ring.
Qed.
(** the long range part is linear in the displacement *)
Lemma eleg3 e1 e2 (F : (Z -> cplx) -> cplx) C : (forall e, F e = csumTo nph (fun i => cmul (e i) (C i))) ->
  exists B, forall e3, cadd (amp e1 e2 e3) (cmul (F e3) (overlap nw e2 e1)) = csumTo nph (fun i => cmul (e3 i) (B i)).
Proof.
  intro HF. exists (fun nu => cadd (csumTo nw (fun w2 => csumTo nw (fun w1 => cmul (ker w1 w2 nu) (cmul (e1 w1) (cconj (e2 w2)))))) (cmul (C nu) (overlap nw e2 e1))).
  intro e3. rewrite amp_ker, HF, csumTo_swap, <- csumTo_mul_r, <- csumTo_add. apply csumTo_ext. intros nu _.
  transitivity (cadd (cmul (e3 nu) (csumTo nw (fun w2 => csumTo nw (fun w1 => cmul (ker w1 w2 nu) (cmul (e1 w1) (cconj (e2 w2))))))) (cmul (cmul (e3 nu) (C nu)) (overlap nw e2 e1))); [f_equal|ring].
  rewrite <- csumTo_mul_l. apply csumTo_ext. intros w2 _. rewrite <- csumTo_mul_l. apply csumTo_ext. intros w1 _. ring.
Qed.
End Legs.

(** * The long range part *)
Lemma csumTo_3at n (f : Z -> cplx) : 0 <= n -> csumTo (3 * n) f = csumTo n (fun a => csumTo 3 (fun p => f (3 * a + p))).
Proof.
  intro Hn. rewrite csumTo_3 by exact Hn. apply csumTo_ext. intros a _. change (csumTo 3 (fun p => f (3 * a + p))) with (cadd (f (3 * a + 0)) (cadd (f (3 * a + 1)) (cadd (f (3 * a + 2)) c0))).
  rewrite Z.add_0_r. ring.
Qed.
Lemma polar_linear H q : 0 <= nAt H -> exists C, forall ev b, polarPart1 H q ev b = csumTo (3 * nAt H) (fun i => cmul (column ev b i) (C i)).
Proof.
  intro HA.
  set (c := fun (g : vec) (i : Z) => if Rlt_dec 0 (quad (eps H) g) then if Rlt_dec (quad (eps H) g / 4) 14 then
    cscale (gZ H g (i mod 3) (i / 3)) (cmul (cscale (exp (- quad (eps H) g / 4) / quad (eps H) g) (cscale (cppE2 * cppFourPi / vol H) cI)) (cexpi (- dot3 g (toR (tau H (i / 3)))))) else c0 else c0).
  exists (fun i => csum (map (fun g => c g i) (gPolar H q))). intros ev b.
  transitivity (csumTo (3 * nAt H) (fun i => csum (map (fun g => cmul (column ev b i) (c g i)) (gPolar H q)))); [|apply csumTo_ext; intros i _; apply csum_map_mul_l].
  unfold csumTo. rewrite csum_swap. unfold polarPart1. apply csum_map_ext. intros g _. cbv zeta. fold (csumTo (3 * nAt H) (fun i => cmul (column ev b i) (c g i))).
  rewrite csumTo_3at by exact HA. unfold c, column. destruct (Rlt_dec 0 _) as [L|L]; [destruct (Rlt_dec _ 14) as [M|M]|].
  - apply csumTo_ext. intros a Ha. apply csumTo_ext. intros p Hp. replace ((3 * a + p) mod 3) with p by (apply (Z.mod_unique _ _ a); lia). replace ((3 * a + p) / 3) with a by (apply (Z.div_unique _ _ _ p); lia). ring.
  - symmetry. apply csumTo_zero. intros a _. apply csumTo_zero. intros p _. ring.
  - symmetry. apply csumTo_zero. intros a _. apply csumTo_zero. intros p _. ring.
Qed.
Lemma polar_half H q ev b : polarPart1 H q ev b = cscale (/ 2) (froehlich H q (column ev b)).
Proof.
  unfold polarPart1, froehlich. rewrite <- csum_map_scale. apply csum_map_ext. intros g _. cbv zeta. destruct (Rlt_dec 0 _); [destruct (Rlt_dec _ 14)|]; try (symmetry; apply scale_0).
  rewrite <- csumTo_scale. apply csumTo_ext. intros a _. rewrite <- csumTo_scale. apply csumTo_ext. intros p _. unfold column, cppE2, cppFourPi.
  generalize (exp (- quad (eps H) g / 4)) (gZ H g p a) (cexpi (- dot3 g (toR (tau H a)))) (ev (3 * a + p) b). intros x y z t. unfold Rdiv.
  replace (4 * PI * 2 * / vol H * (x * / quad (eps H) g) * y)%R with (2 * (2 * (2 * PI) * / vol H * (x * / quad (eps H) g) * y))%R by ring.
  generalize (2 * (2 * PI) * / vol H)%R (x * / quad (eps H) g)%R. intros u v. unfold cI. destruct z as [z1 z2], t as [t1 t2]. unfold cmul, cscale. cbn [fst snd]. f_equal; field.
Qed.
(** unit displacements *)
Lemma amp_unit T w s q1 q2 b1 b2 b3 : 0 <= b1 < 3 * cAt T -> 0 <= b2 < 3 * cAt T -> 0 <= b3 < 3 * cAt T ->
  amplitude T w s q1 q2 (column idMat b1) (column idMat b2) (column idMat b3) = csumTo (nr3 T) (fun r3 => csumTo (nr2 T) (fun r2 =>
    cscale (wt2 T r2 (b1 / 3) (b2 / 3) * w r3 (b1 / 3) (b3 / 3) * d3 T b1 b2 b3 r3 r2) (cexpi (s * dot3 q2 (pos2 T r2) - dot3 (fun i => (q1 i + s * q2 i)%R) (pos3 T r3))))).
Proof.
  intros H1 H2 H3. rewrite amp_kernel.
  transitivity (csumTo (3 * cAt T) (fun i3 => if i3 =? b3 then kernel T w s q1 q2 b1 b2 b3 else c0)).
  - apply csumTo_ext. intros i3 _.
    transitivity (csumTo (3 * cAt T) (fun i2 => if i2 =? b2 then (if i3 =? b3 then kernel T w s q1 q2 b1 b2 b3 else c0) else c0)); [|apply (csumTo_single _ (fun _ => if i3 =? b3 then kernel T w s q1 q2 b1 b2 b3 else c0)); exact H2].
    apply csumTo_ext. intros i2 _.
    transitivity (csumTo (3 * cAt T) (fun i1 => if i1 =? b1 then (if i2 =? b2 then if i3 =? b3 then kernel T w s q1 q2 b1 b2 b3 else c0 else c0) else c0)); [|apply (csumTo_single _ (fun _ => if i2 =? b2 then if i3 =? b3 then kernel T w s q1 q2 b1 b2 b3 else c0 else c0)); exact H1].
    apply csumTo_ext. intros i1 _. unfold column, idMat. destruct (Z.eqb_spec i1 b1) as [-> |]; [|ring]. destruct (Z.eqb_spec i2 b2) as [-> |]; [|ring]. destruct (Z.eqb_spec i3 b3) as [-> |]; [|rewrite conj_0; ring].
    replace (cconj c1) with c1 by cring. ring.
  - rewrite (csumTo_single _ (fun _ => kernel T w s q1 q2 b1 b2 b3)) by exact H3. reflexivity.
Qed.
