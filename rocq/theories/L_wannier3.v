(** Round trip of the transformation to the Wannier representation. *)
From Coq Require Import Reals QArith Permutation.
From Verif Require Import Base BaseLemmas M_utilities M_mpi S_mpi M_wigner S_wigner M_complex L_complex L_dft M_electron M_interaction S_interaction M_wannier S_wannier L_wannier L_wannier2.
From Coq Require Import Lia Lra.
Open Scope Z_scope.

Lemma csumTo_delta n f a : 0 <= a < n -> csumTo n (fun i => cmul (f i) (if i =? a then c1 else c0)) = f a.
Proof. intro H. rewrite <- (csumTo_single n f a H). apply csumTo_ext. intros i _. destruct (i =? a); ring. Qed.
Lemma rotated_back nB uKq uK g b1 b2 nu : 0 <= b1 < nB -> 0 <= b2 < nB -> RowsOrthonormal nB nB uKq -> RowsOrthonormal nB nB uK ->
  csumTo nB (fun w2 => csumTo nB (fun w1 => cmul (rotated nB uKq uK g w2 w1 nu) (cmul (uK b1 w1) (cconj (uKq b2 w2))))) = g b2 b1 nu.
Proof.
  intros H1 H2 Oq Ok'. unfold rotated.
  transitivity (csumTo nB (fun l => csumTo nB (fun l' => cmul (g l' l nu) (cmul (csumTo nB (fun w2 => cmul (uKq l' w2) (cconj (uKq b2 w2)))) (csumTo nB (fun w1 => cmul (uK b1 w1) (cconj (uK l w1)))))))).
  - transitivity (csumTo nB (fun w2 => csumTo nB (fun w1 => csumTo nB (fun l => csumTo nB (fun l' => cmul (g l' l nu) (cmul (cmul (uKq l' w2) (cconj (uKq b2 w2))) (cmul (uK b1 w1) (cconj (uK l w1))))))))).
    { apply csumTo_ext; intros w2 _. apply csumTo_ext; intros w1 _. rewrite <- csumTo_mul_r. apply csumTo_ext; intros l _. rewrite <- csumTo_mul_r. apply csumTo_ext; intros l' _. ring. }
    transitivity (csumTo nB (fun l => csumTo nB (fun l' => csumTo nB (fun w2 => csumTo nB (fun w1 => cmul (g l' l nu) (cmul (cmul (uKq l' w2) (cconj (uKq b2 w2))) (cmul (uK b1 w1) (cconj (uK l w1))))))))).
    { transitivity (csumTo nB (fun w2 => csumTo nB (fun l => csumTo nB (fun w1 => csumTo nB (fun l' => cmul (g l' l nu) (cmul (cmul (uKq l' w2) (cconj (uKq b2 w2))) (cmul (uK b1 w1) (cconj (uK l w1))))))))).
      { apply csumTo_ext; intros w2 _. rewrite csumTo_swap. reflexivity. }
      rewrite csumTo_swap. apply csumTo_ext; intros l _. transitivity (csumTo nB (fun w2 => csumTo nB (fun l' => csumTo nB (fun w1 => cmul (g l' l nu) (cmul (cmul (uKq l' w2) (cconj (uKq b2 w2))) (cmul (uK b1 w1) (cconj (uK l w1)))))))).
      { apply csumTo_ext; intros w2 _. apply csumTo_swap. }
      apply csumTo_swap. }
    apply csumTo_ext; intros l _. apply csumTo_ext; intros l' _. rewrite <- csumTo_mul_r, <- csumTo_mul_l. apply csumTo_ext; intros w2 _. rewrite <- csumTo_mul_l, <- csumTo_mul_l. reflexivity.
  - transitivity (csumTo nB (fun l => cmul (g b2 l nu) (if l =? b1 then c1 else c0))); [|rewrite csumTo_delta by exact H1; reflexivity].
    apply csumTo_ext; intros l Hl. rewrite (Ok' b1 l H1 Hl). rewrite (Z.eqb_sym b1 l).
    transitivity (csumTo nB (fun l' => cmul (cmul (g l' l nu) (if l =? b1 then c1 else c0)) (if l' =? b2 then c1 else c0))).
    { apply csumTo_ext; intros l' Hl'. rewrite (Oq l' b2 Hl' H2). ring. }
    rewrite (csumTo_delta nB (fun l' => cmul (g l' l nu) (if l =? b1 then c1 else c0)) b2 H2). reflexivity.
Qed.

Section Back.
Variables (D : bloch) (g : tensor5) (A B : Z -> vec) (kMesh qMesh : v3) (nx : Z) (d : v3 -> Q) (wsK wsQ : list (v3 * Z)).
Hypothesis (HG : CoarseGrids D A B kMesh qMesh nx d wsK wsQ).
(** F(k, q) comes back from its double Fourier transform *)
Lemma invert2 (F : Z -> Z -> cplx) ik iq : 0 <= ik < bK D -> 0 <= iq < bQ D ->
  csumTo (nP D) (fun p => csumTo (nE D) (fun e => cmul (cscale (/ latDeg wsK e * / latDeg wsQ p) (cexpi (dot3 (kC D ik) (elV D e) + dot3 (qC D iq) (phV D p))))
    (csumTo (bQ D) (fun iq' => csumTo (bK D) (fun ik' => cmul (cscale (/ IZR (bK D) * / IZR (bQ D)) (cexpi (- dot3 (kC D ik') (elV D e) - dot3 (qC D iq') (phV D p)))) (F ik' iq')))))) = F ik iq.
Proof.
  destruct HG as (Pk & Pq & Hx & Ck & Cq & Ho & Ek & Eq & Du & Mk & Mq & NE & VE & NP & VP). intros Hk Hq. rewrite NE, NP, VE, VP.
  rewrite <- (invert qMesh nx d wsQ Pq Hx Cq Ho Eq A B (bQ D) (qC D) Du Mq (F ik) iq Hq). apply csumTo_ext. intros p _.
  transitivity (cmul (cscale (/ latDeg wsQ p) (cexpi (dot3 (qC D iq) (latV A wsQ p))))
    (csumTo (zlen wsK) (fun e => cmul (cscale (/ latDeg wsK e) (cexpi (dot3 (kC D ik) (latV A wsK e)))) (csumTo (bK D) (fun ik' => cmul (csumTo (bQ D) (fun iq' => cmul (F ik' iq') (phaseOf (bQ D) (qC D iq') (latV A wsQ p)))) (phaseOf (bK D) (kC D ik') (latV A wsK e))))))).
  - rewrite <- csumTo_mul_l. apply csumTo_ext. intros e _. rewrite expi_add. rewrite csumTo_swap.
    transitivity (cmul (cmul (cscale (/ latDeg wsQ p) (cexpi (dot3 (qC D iq) (latV A wsQ p)))) (cscale (/ latDeg wsK e) (cexpi (dot3 (kC D ik) (latV A wsK e)))))
      (csumTo (bK D) (fun ik' => cmul (csumTo (bQ D) (fun iq' => cmul (F ik' iq') (phaseOf (bQ D) (qC D iq') (latV A wsQ p)))) (phaseOf (bK D) (kC D ik') (latV A wsK e))))); [|ring].
    f_equal; [cring|]. apply csumTo_ext. intros ik' _. rewrite <- csumTo_mul_r. apply csumTo_ext. intros iq' _. unfold phaseOf, Rminus. rewrite expi_add. cring.
  - f_equal. rewrite (invert kMesh nx d wsK Pk Hx Ck Ho Ek A B (bK D) (kC D) Du Mk (fun ik' => csumTo (bQ D) (fun iq' => cmul (F ik' iq') (phaseOf (bQ D) (qC D iq') (latV A wsQ p)))) ik Hk). reflexivity.
Qed.
(** amplitude of any tensor that is the Wannier tensor of rotated couplings [rot] *)
Lemma amplitude_back T (rot : Z -> Z -> Z -> Z -> Z -> cplx) ik iq e1 e2 e3 : 0 <= ik < bK D -> 0 <= iq < bQ D ->
  (forall i j nu irP irE, 0 <= i < bW D -> 0 <= j < bW D -> 0 <= nu < bM D -> 0 <= irP < nP D -> 0 <= irE < nE D -> T i j nu irP irE =
     csumTo (bQ D) (fun iq => csumTo (bM D) (fun nu2 => csumTo (bK D) (fun ik =>
       cmul (cscale (/ IZR (bK D) * / IZR (bQ D)) (cexpi (- dot3 (kC D ik) (elV D irE) - dot3 (qC D iq) (phV D irP)))) (cmul (rot ik iq i j nu2) (phI D iq nu2 nu)))))) ->
  elphAmplitude (bW D) (bM D) (nP D) (phV D) (latDeg wsQ) (asStored D (latDeg wsK) T) (kC D ik) (qC D iq) e1 e2 e3 =
  csumTo (bW D) (fun w2 => csumTo (bW D) (fun w1 => csumTo (bM D) (fun nu2 => cmul (cmul (rot ik iq w2 w1 nu2) (cmul (e1 w1) (cconj (e2 w2)))) (csumTo (bM D) (fun nu => cmul (phI D iq nu2 nu) (e3 nu)))))).
Proof.
  intros Hk Hq HT. unfold elphAmplitude, asStored. apply csumTo_ext. intros w2 Hw2.
  transitivity (csumTo (bM D) (fun nu => csumTo (bW D) (fun w1 => cmul (csumTo (bM D) (fun nu2 => cmul (rot ik iq w2 w1 nu2) (phI D iq nu2 nu))) (cmul (cmul (e1 w1) (cconj (e2 w2))) (e3 nu))))).
  - apply csumTo_ext. intros nu Hnu. rewrite csumTo_swap. apply csumTo_ext. intros w1 Hw1.
    rewrite <- (invert2 (fun ik' iq' => csumTo (bM D) (fun nu2 => cmul (rot ik' iq' w2 w1 nu2) (phI D iq' nu2 nu))) ik iq Hk Hq).
    rewrite <- csumTo_mul_r. apply csumTo_ext. intros p Hp. rewrite map_map. transitivity (csumTo (nE D) (fun e => cmul (cscale (/ latDeg wsK e * / latDeg wsQ p) (cexpi (dot3 (kC D ik) (elV D e) + dot3 (qC D iq) (phV D p)))) (cmul (T w2 w1 nu p e) (cmul (cmul (e1 w1) (cconj (e2 w2))) (e3 nu))))); [reflexivity|].
    rewrite <- csumTo_mul_r. apply csumTo_ext. intros e He. rewrite HT by assumption.
    transitivity (cmul (cmul (cscale (/ latDeg wsK e * / latDeg wsQ p) (cexpi (dot3 (kC D ik) (elV D e) + dot3 (qC D iq) (phV D p))))
      (csumTo (bQ D) (fun iq' => csumTo (bM D) (fun nu2 => csumTo (bK D) (fun ik' => cmul (cscale (/ IZR (bK D) * / IZR (bQ D)) (cexpi (- dot3 (kC D ik') (elV D e) - dot3 (qC D iq') (phV D p)))) (cmul (rot ik' iq' w2 w1 nu2) (phI D iq' nu2 nu))))))) (cmul (cmul (e1 w1) (cconj (e2 w2))) (e3 nu))); [ring|].
    f_equal. f_equal. apply csumTo_ext. intros iq' _. rewrite csumTo_swap. apply csumTo_ext. intros ik' _. rewrite <- csumTo_mul_l. reflexivity.
  - rewrite csumTo_swap. apply csumTo_ext. intros w1 _.
    transitivity (csumTo (bM D) (fun nu => csumTo (bM D) (fun nu2 => cmul (cmul (rot ik iq w2 w1 nu2) (cmul (e1 w1) (cconj (e2 w2)))) (cmul (phI D iq nu2 nu) (e3 nu))))).
    { apply csumTo_ext. intros nu _. rewrite <- csumTo_mul_r. apply csumTo_ext. intros nu2 _. ring. }
    rewrite csumTo_swap. apply csumTo_ext. intros nu2 _. rewrite csumTo_mul_l. reflexivity.
Qed.
Lemma back_tensor T ik iq b1 b2 nu : GoodGauge D -> 0 <= ik < bK D -> 0 <= iq < bQ D -> 0 <= b1 < bB D -> 0 <= b2 < bB D -> 0 <= nu < bM D ->
  (forall i j nu irP irE, 0 <= i < bW D -> 0 <= j < bW D -> 0 <= nu < bM D -> 0 <= irP < nP D -> 0 <= irE < nE D -> T i j nu irP irE = wannierTensor D g i j nu irP irE) ->
  interpolated D (latDeg wsK) (latDeg wsQ) T ik iq b1 b2 nu = g b2 b1 nu ik iq.
Proof.
  intros (EB & Or & Kq & Inv) Hk Hq H1 H2 Hnu HT. unfold interpolated.
  rewrite (amplitude_back T (rotOf D g) ik iq _ _ _ Hk Hq HT).
  rewrite <- (rotated_back (bB D) (uM D (kqI D ik iq)) (uM D ik) (fun a b m => g a b m ik iq) b1 b2 nu H1 H2); [|rewrite EB at 2; apply Or, Kq; assumption|rewrite EB at 2; apply Or; assumption].
  rewrite EB. apply csumTo_ext. intros w2 _. apply csumTo_ext. intros w1 _.
  transitivity (csumTo (bM D) (fun nu2 => cmul (cmul (rotOf D g ik iq w2 w1 nu2) (cmul (stateOf D ik b1 w1) (cconj (stateOf D (kqI D ik iq) b2 w2)))) (if nu2 =? nu then c1 else c0))).
  - apply csumTo_ext. intros nu2 Hn2. f_equal. exact (Inv iq Hq nu2 nu Hn2 Hnu).
  - rewrite (csumTo_delta (bM D) (fun nu2 => cmul (rotOf D g ik iq w2 w1 nu2) (cmul (stateOf D ik b1 w1) (cconj (stateOf D (kqI D ik iq) b2 w2)))) nu Hnu). unfold rotOf, stateOf. rewrite EB. reflexivity.
Qed.
Lemma round_trip sched size : GoodGauge D -> Sizes D size -> GoodThreads D sched -> exists T, blochToWannier D sched size g = Ok T /\
  forall ik iq b1 b2 nu, 0 <= ik < bK D -> 0 <= iq < bQ D -> 0 <= b1 < bB D -> 0 <= b2 < bB D -> 0 <= nu < bM D -> interpolated D (latDeg wsK) (latDeg wsQ) T ik iq b1 b2 nu = g b2 b1 nu ik iq.
Proof.
  intros HGg (Fq & Fk & Fe) Ht. destruct (btw_ok D g sched size Fq Fk Fe Ht) as (T & ET & HT). exists T. split; [exact ET|]. intros. apply back_tensor; try assumption. intros; apply HT; assumption.
Qed.
End Back.
