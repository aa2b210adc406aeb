(** Long-range correction: scalar charges, and a counterexample with tensor charges. *)
From Coq Require Import Reals QArith Qreals Permutation.
From Verif Require Import Base BaseLemmas M_complex L_complex M_electron S_electron M_phonon S_phonon L_phonon L_phonon2 L_phonon3 L_phonon4.
From Coq Require Import Lia Lra.
Open Scope Z_scope.

Lemma scalar_lr1 P (z : Z -> R) i j a : (forall b k l, 0 <= k < 3 -> 0 <= l < 3 -> born P b k l = if k =? l then z b else 0%R) -> 0 <= i < 3 -> 0 <= j < 3 ->
  lr1 P i j a = lr1 P j i a.
Proof.
  intros h hi hj.
  assert (Z : forall g i b, 0 <= i < 3 -> gZ P g i b = (g i * z b)%R).
  { intros g k b hk. unfold gZ. rewrite !h by lia. assert (k = 0 \/ k = 1 \/ k = 2) as [-> | [-> | ->]] by lia; cbn; ring. }
  unfold lr1. apply rsum_ext. intros g _. destruct (inCut P (gegHost P g)); [|reflexivity]. rewrite !Z by assumption.
  assert (F : forall i, 0 <= i < 3 -> fnAt P g a i = (g i * rsum (map (fun b => z b * cos (dot3 (tauDiff P a b) g)) (zrange 0 (nAt P))))%R).
  { intros k hk. unfold fnAt. rewrite <- rsum_mul_l. apply rsum_ext. intros b _. rewrite Z by assumption. ring. }
  rewrite !F by assumption. ring.
Qed.

(** three atoms in a cubic cell, neutral charge tensors *)
Definition exBad : phonon :=
  {| nAt := 3; cell := fun c i => if c =? i then 7%Q else 0%Q; recip := fun c i => if c =? i then (2 * PI / 7)%R else 0%R; grid := fun c => if c =? 0 then 2 else 1;
     tau := fun a i => if (a =? 1) && (i =? 1) then 1%Q else if (a =? 2) && (i =? 0) then (7 # 2)%Q else 0%Q; mass := fun _ => 1%R; force := fun _ _ _ _ _ _ _ => 0%R;
     hasDiel := true; lr2d := false; eps := fun i j => if i =? j then 1%R else 0%R;
     born := fun a k i => if k =? 0 then (if (a =? 0) && (i =? 0) then 1 else if (a =? 1) && (i =? 1) then 1 else if (a =? 2) && ((i =? 0) || (i =? 1)) then -1 else 0)%R else 0%R;
     vol := 343%R; gMax := 14%R |}.
Lemma rsum_neg {A} (f : A -> R) l x : In x l -> (forall y, In y l -> (f y <= 0)%R) -> (f x < 0)%R -> (rsum (map f l) < 0)%R.
Proof.
  induction l as [|y l IH]; [easy|]. intros hi h hx. cbn [map]. rewrite rsum_cons.
  assert (Hl : (rsum (map f l) <= 0)%R).
  { assert (H : forall y, In y l -> (f y <= 0)%R) by (intros; apply h; now right). clear - H. induction l as [|y l IH]; cbn [map]; [cbn; lra|]. rewrite rsum_cons. pose proof (H y (or_introl eq_refl)). specialize (IH (fun z hz => H z (or_intror hz))). lra. }
  destruct hi as [->|hi].
  - lra.
  - specialize (IH hi (fun z hz => h z (or_intror hz)) hx). pose proof (h y (or_introl eq_refl)). lra.
Qed.
Lemma nrx_bad : 1 <= nrx exBad 0 /\ nrx exBad 1 = 0 /\ nrx exBad 2 = 0.
Proof.
  split; [|split; reflexivity]. unfold nrx. change (grid exBad 0) with 2. change (1 <? 2) with true. cbv iota.
  set (x := (sqrt (gMax exBad * 4) / sqrt (dot3 (recip exBad 0) (recip exBad 0)))%R).
  assert (hx : (0 <= x)%R).
  { unfold x, Rdiv. apply Rmult_le_pos; [apply sqrt_pos|]. apply Rlt_le, Rinv_0_lt_compat, sqrt_lt_R0. unfold dot3. cbn. pose proof PI_RGT_0. assert (0 < 2 * PI / 7)%R by lra. nra. }
  destruct (base_Int_part x) as [_ h2]. assert (-1 < IZR (Int_part x))%R by lra. apply lt_IZR in H. lia.
Qed.
Lemma bad_terms g m : (forall i, g i = if i =? 0 then (IZR m * (2 * PI / 7))%R else 0%R) ->
  gZ exBad g 0 0 = g 0 /\ gZ exBad g 1 0 = 0%R /\ fnAt exBad g 0 1 = (g 0%Z * (1 - cos (IZR m * PI)))%R /\ quad (eps exBad) g = (g 0%Z * g 0%Z)%R.
Proof.
  intros h. pose proof (h 1) as h1. pose proof (h 2) as h2. pose proof (h 0) as h0. cbn in h0, h1, h2.
  split; [unfold gZ; cbn; rewrite h1, h2; ring|]. split; [unfold gZ; cbn; rewrite h1, h2; ring|]. split.
  - unfold fnAt. change (zrange 0 (nAt exBad)) with [0; 1; 2]. cbn [map rsum fold_right].
    assert (E1 : dot3 (tauDiff exBad 0 1) g = 0%R) by (unfold dot3, tauDiff; cbn; unfold Q2R; cbn; rewrite h1, h2; field).
    assert (E2 : dot3 (tauDiff exBad 0 2) g = (- (IZR m * PI))%R) by (unfold dot3, tauDiff; cbn; unfold Q2R; cbn; rewrite h0, h1, h2; field).
    rewrite E1, E2, cos_neg, cos_0. unfold gZ. cbn. rewrite h1, h2. ring.
  - unfold quad, dot3. cbn. rewrite h1, h2. ring.
Qed.
Lemma bad_lr1 : (lr1 exBad 0 1 0 < 0)%R /\ lr1 exBad 1 0 0 = 0%R.
Proof.
  destruct nrx_bad as (n0 & n1 & n2).
  assert (G : forall g, In g (gVectors exBad) -> exists m, forall i, g i = if i =? 0 then (IZR m * (2 * PI / 7))%R else 0%R).
  { intros g hg. rewrite gVectors_box in hg. apply in_map_iff in hg. destruct hg as ([[m1 m2] m3] & <- & hm). apply in_symBox in hm. rewrite n1, n2 in hm.
    assert (m2 = 0) as -> by lia. assert (m3 = 0) as -> by lia. exists m1. intros i. cbn. destruct i as [|p|p]; cbn; ring. }
  split.
  - unfold lr1. set (g1 := fun i : Z => (IZR 1 * recip exBad 0 i + IZR 0 * recip exBad 1 i + IZR 0 * recip exBad 2 i)%R).
    assert (h1 : forall i, g1 i = if i =? 0 then (IZR 1 * (2 * PI / 7))%R else 0%R) by (intros i; unfold g1; cbn; destruct i as [|p|p]; cbn; ring).
    assert (NN : forall g, (0 < quad (eps exBad) g)%R -> (0 < normHost exBad g)%R).
    { intros g hg. unfold normHost, gegHost, lrNorm, cppE2, cppFourPi. cbn [lr2d exBad vol]. unfold Rdiv. pose proof PI_RGT_0. pose proof (exp_pos (- quad (eps exBad) g * / 4)).
      apply Rmult_lt_0_compat; [apply Rmult_lt_0_compat; [|assumption]|now apply Rinv_0_lt_compat]. nra. }
    apply (rsum_neg _ _ g1).
    + rewrite gVectors_box. apply in_map_iff. exists (1, 0, 0). split; [reflexivity|]. apply in_symBox. lia.
    + intros g hg. destruct (G g hg) as [m hm]. destruct (bad_terms g m hm) as (e1 & e2 & e3 & e4). rewrite e1, e3.
      destruct (inCut exBad (gegHost exBad g)) eqn:C; [|lra]. unfold gegHost in C. cbn [lr2d exBad] in C. unfold inCut in C.
      destruct (Rlt_dec 0 (quad (eps exBad) g)) as [p|]; [|easy]. specialize (NN g p). pose proof (COS_bound (IZR m * PI)) as cb.
      assert (0 <= g 0%Z * g 0%Z)%R by nra. assert (0 <= (g 0%Z * g 0%Z) * (1 - cos (IZR m * PI)))%R by nra. nra.
    + destruct (bad_terms g1 1 h1) as (e1 & e2 & e3 & e4). rewrite e1, e3. replace (1 * PI)%R with PI by ring. rewrite cos_PI.
      pose proof (h1 0) as h0. cbn in h0. pose proof PI_RGT_0. pose proof PI_4.
      assert (Q : quad (eps exBad) g1 = (2 * PI / 7 * (2 * PI / 7))%R) by (rewrite e4, h0; ring).
      assert (B : (0 < 2 * PI / 7 < 2)%R) by lra. assert (P : (0 < quad (eps exBad) g1)%R) by (rewrite Q; nra).
      assert (C : inCut exBad (gegHost exBad g1) = true).
      { unfold gegHost. cbn [lr2d exBad]. unfold inCut. destruct (Rlt_dec 0 (quad (eps exBad) g1)); [|easy].
        destruct (Rlt_dec (quad (eps exBad) g1) (4 * gMax exBad)) as [|nl]; [reflexivity|]. exfalso. apply nl. rewrite Q. cbn. nra. }
      rewrite C. specialize (NN g1 P). rewrite e4 in P. nra.
  - unfold lr1. apply rsum_zero. intros g hg. destruct (G g hg) as [m hm]. destruct (bad_terms g m hm) as (e1 & e2 & e3 & e4). rewrite e2. destruct (inCut _ _); ring.
Qed.
