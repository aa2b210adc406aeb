(** The interpolated band is the smoothest that goes through the points. *)
From Coq Require Import Reals QArith.
From Verif Require Import Base BaseLemmas M_complex L_complex L_dft M_wannier M_fourier S_fourier L_fourier.
From Coq Require Import Lia Lra.
Open Scope Z_scope.

Section Smooth.
Variables (pos : Z -> vec) (deg : Z -> R) (nP : Z) (fn : R).
Hypotheses (Hn : 0 < nP) (H0 : forall x, 0 <= x < 3 -> pos 0 x = 0%R) (Hd0 : deg 0 = 1%R).
Variables (pts : Z -> vec) (nD : Z) (ldlt : cmat -> (Z -> cplx) -> Z -> cplx) (e : Z -> R).
Notation h := (hMatrix pos deg nP fn pts).
Notation S := (star pos deg).
Notation rough := (roughness pos nP fn).
Notation C := (coefficients pos deg nP fn pts nD ldlt e).
Notation lam := (lagrangeMultipliers pos deg nP fn pts ldlt e).
Hypothesis Hs : Solves (nD - 1) h (ldlt h (deltaEnergies e)) (deltaEnergies e).

Lemma passes : passesThrough pos deg nP C pts nD e.
Proof.
  intros i Hi. change (csumTo nP (fun m => cmul (C m) (S (pts i) m)) = (e i, 0%R)). rewrite (total pos deg nP fn Hn H0 Hd0). destruct (Z.eq_dec i 0) as [->|N].
  - rewrite csumTo_zero; [cring|]. intros m _. ring.
  - assert (E := multiplier_sum pos deg nP fn pts nD lam (i - 1)). replace (i - 1 + 1) with i in E by lia. rewrite E. unfold lagrangeMultipliers. rewrite Hs by lia. unfold deltaEnergies. replace (i - 1 + 1) with i by lia. apply cplx_eq; cbn; ring.
Qed.

Definition inner (a b : Z -> cplx) (l : list Z) : R := fst (csum (map (fun m => cscale (rough (pos m)) (cmul (a m) (cconj (b m)))) l)).
Lemma rough_inner c : roughnessOf (fun m => rough (pos m)) nP c = inner c c (zrange 1 (nP - 1)).
Proof.
  unfold roughnessOf, inner. induction (zrange 1 (nP - 1)) as [|m l IH]; [reflexivity|]. cbn [map fold_right]. rewrite csum_cons, IH. unfold cadd, cscale, cmul, cconj. cbn [fst snd]. ring.
Qed.
Lemma inner_split a b l : inner b b l = (inner a a l + 2 * inner a (fun m => csub (b m) (a m)) l + inner (fun m => csub (b m) (a m)) (fun m => csub (b m) (a m)) l)%R.
Proof.
  unfold inner. induction l as [|m l IH]; [cbn; lra|]. cbn [map]. rewrite !csum_cons. unfold cadd at 1 2 3 4. cbn [fst]. rewrite IH. unfold cscale, cmul, cconj, csub. cbn [fst snd]. ring.
Qed.
Lemma term m (a : Z -> cplx) : fst (cscale (rough (pos m)) (cmul (a m) (cconj (a m)))) = (rough (pos m) * (fst (a m) * fst (a m) + snd (a m) * snd (a m)))%R.
Proof. unfold cscale, cmul, cconj. cbn [fst snd]. ring. Qed.
Lemma term_nonneg m (a : Z -> cplx) : (0 <= rough (pos m) * (fst (a m) * fst (a m) + snd (a m) * snd (a m)))%R.
Proof. assert (P := rough_pos pos nP fn (pos m)). apply Rmult_le_pos; [lra|nra]. Qed.
Lemma inner_cons a m l : inner a a (m :: l) = (rough (pos m) * (fst (a m) * fst (a m) + snd (a m) * snd (a m)) + inner a a l)%R.
Proof. unfold inner at 1. cbn [map]. rewrite csum_cons. rewrite <- term. reflexivity. Qed.
Lemma inner_nonneg a l : (0 <= inner a a l)%R.
Proof. induction l as [|m l IH]; [cbn; lra|]. rewrite inner_cons. assert (T := term_nonneg m a). lra. Qed.
Lemma inner_zero a l : inner a a l = 0%R -> forall m, In m l -> a m = c0.
Proof.
  induction l as [|m l IH]; intros E k Hk; [destruct Hk|]. assert (N := inner_nonneg a l). rewrite inner_cons in E. assert (T := term_nonneg m a).
  destruct Hk as [<- | Hk]; [|apply IH; [lra|exact Hk]]. assert (P := rough_pos pos nP fn (pos m)).
  assert (Z : (rough (pos m) * (fst (a m) * fst (a m) + snd (a m) * snd (a m)) = 0)%R) by lra.
  apply Rmult_integral in Z as [Z|Z]; [lra|]. apply cplx_eq; cbn; nra.
Qed.

(** a difference of functions through the same points is orthogonal to the coefficients *)
Lemma orthogonal_difference c : passesThrough pos deg nP c pts nD e -> inner C (fun m => csub (c m) (C m)) (zrange 1 (nP - 1)) = 0%R.
Proof.
  intros Hc. set (D := fun m => csub (c m) (C m)).
  assert (K : forall i, 0 <= i < nD -> csumTo nP (fun m => cmul (D m) (S (pts i) m)) = c0).
  { intros i Hi. transitivity (csub (csumTo nP (fun m => cmul (c m) (S (pts i) m))) (csumTo nP (fun m => cmul (C m) (S (pts i) m)))).
    - unfold csumTo, D. induction (zrange 0 nP) as [|m l IH]; [cring|]. cbn [map]. rewrite !csum_cons, IH. ring.
    - assert (A1 := Hc i Hi). assert (A2 := passes i Hi). change (csumTo nP (fun m => cmul (c m) (S (pts i) m)) = (e i, 0%R)) in A1. change (csumTo nP (fun m => cmul (C m) (S (pts i) m)) = (e i, 0%R)) in A2. rewrite A1, A2. ring. }
  assert (K2 : forall j, 0 <= j < nD - 1 -> csumTo nP (fun m => cmul (D m) (csub (S (pts (j + 1)) m) (S (pts 0) m))) = c0).
  { intros j Hj. transitivity (csub (csumTo nP (fun m => cmul (D m) (S (pts (j + 1)) m))) (csumTo nP (fun m => cmul (D m) (S (pts 0) m)))).
    - unfold csumTo. induction (zrange 0 nP) as [|m l IH]; [cring|]. cbn [map]. rewrite !csum_cons, IH. ring.
    - rewrite !K by lia. ring. }
  unfold inner.
  assert (E : csum (map (fun m => cscale (rough (pos m)) (cmul (C m) (cconj (D m)))) (zrange 1 (nP - 1))) =
    csumTo nP (fun m => cscale (rough (pos m)) (cmul (coefficientOf pos deg nP fn pts nD lam m) (cconj (D m))))).
  { rewrite (csumTo_first nP) by exact Hn. replace (coefficientOf pos deg nP fn pts nD lam 0) with c0.
    - replace (cscale (rough (pos 0)) (cmul c0 (cconj (D 0)))) with c0 by (apply cplx_eq; cbn; ring).
      rewrite (csum_map_ext _ (fun m => cscale (rough (pos m)) (cmul (coefficientOf pos deg nP fn pts nD lam m) (cconj (D m))))); [ring|].
      intros m Hm. apply in_zrange in Hm. unfold coefficients. destruct (Z.eqb_spec m 0); [lia|]. reflexivity.
    - unfold coefficientOf. rewrite csumTo_zero; [apply cplx_eq; cbn; ring|]. intros i _. rewrite !(star_0 pos deg nP H0 Hd0). apply cplx_eq; cbn; ring. }
  rewrite E.
  transitivity (fst (csumTo nP (fun m => csumTo (nD - 1) (fun j => cmul (lam j) (cconj (cmul (D m) (csub (S (pts (j + 1)) m) (S (pts 0) m)))))))).
  - f_equal. apply csumTo_ext. intros m _. unfold coefficientOf. assert (P := rough_pos pos nP fn (pos m)).
    set (s := csumTo (nD - 1) (fun i => cmul (lam i) (cconj (csub (S (pts (i + 1)) m) (S (pts 0) m))))).
    transitivity (cmul s (cconj (D m))); [apply cplx_eq; cbn; field; lra|]. unfold s. rewrite <- csumTo_mul_r. apply csumTo_ext. intros j _. rewrite conj_mul. ring.
  - rewrite csumTo_swap. rewrite csumTo_zero; [reflexivity|]. intros j Hj. rewrite csumTo_mul_l, <- csumTo_conj, K2 by lia. rewrite conj_0. ring.
Qed.

Lemma smoothest c : passesThrough pos deg nP c pts nD e ->
  (roughnessOf (fun m => rough (pos m)) nP C <= roughnessOf (fun m => rough (pos m)) nP c)%R /\
  (0 < nD -> roughnessOf (fun m => rough (pos m)) nP C = roughnessOf (fun m => rough (pos m)) nP c -> forall m, 0 <= m < nP -> c m = C m).
Proof.
  intros Hc. rewrite !rough_inner. rewrite (inner_split C c), (orthogonal_difference c Hc).
  assert (N := inner_nonneg (fun m => csub (c m) (C m)) (zrange 1 (nP - 1))). split; [lra|]. intros HD E.
  assert (Z : forall m, 1 <= m < nP -> c m = C m).
  { intros m Hm. assert (E2 : csub (c m) (C m) = c0).
    { apply (inner_zero (fun m => csub (c m) (C m)) (zrange 1 (nP - 1))); [lra|]. apply in_zrange. lia. }
    apply cplx_eq; [apply (f_equal fst) in E2|apply (f_equal snd) in E2]; cbn in E2; lra. }
  intros m Hm. destruct (Z.eq_dec m 0) as [->|]; [|apply Z; lia].
  assert (A1 := Hc 0 ltac:(lia)). assert (A2 := passes 0 ltac:(lia)). rewrite <- A2 in A1. rewrite !csumTo_first in A1 by exact Hn.
  change (cscale (/ deg 0) (cexpi (dot3 (pts 0) (pos 0)))) with (S (pts 0) 0) in A1. rewrite (star_0 pos deg nP H0 Hd0) in A1.
  rewrite (csum_map_ext (fun m => cmul (c m) _) (fun m => cmul (C m) (cscale (/ deg m) (cexpi (dot3 (pts 0) (pos m)))))) in A1.
  2:{ intros m' Hm'. apply in_zrange in Hm'. rewrite Z by lia. reflexivity. }
  set (r := csum _) in A1. apply cplx_eq; [apply (f_equal fst) in A1|apply (f_equal snd) in A1]; unfold cadd, cmul, c1 in A1; cbn [fst snd] in A1; lra.
Qed.
End Smooth.

Lemma minDistance_le pos nP fn m : 1 <= m < nP -> (minDistance pos nP fn <= norm3 (pos m))%R /\ (minDistance pos nP fn <= fn)%R.
Proof.
  intros Hm. unfold minDistance.
  assert (G : forall l a, (fold_left (fun a iR => if Rlt_dec (norm3 (pos iR)) a then norm3 (pos iR) else a) l a <= a)%R /\
    forall k, In k l -> (fold_left (fun a iR => if Rlt_dec (norm3 (pos iR)) a then norm3 (pos iR) else a) l a <= norm3 (pos k))%R).
  { induction l as [|x l IH]; intros a; cbn [fold_left]; [split; [lra|intros k []]|]. destruct (Rlt_dec (norm3 (pos x)) a) as [L|L].
    - destruct (IH (norm3 (pos x))) as [I1 I2]. split; [lra|]. intros k [<- | Hk]; [exact I1|apply I2; exact Hk].
    - destruct (IH a) as [I1 I2]. split; [exact I1|]. intros k [<- | Hk]; [lra|apply I2; exact Hk]. }
  destruct (G (zrange 1 (nP - 1)) fn) as [G1 G2]. split; [apply G2; apply in_zrange; lia|exact G1].
Qed.

Lemma minDistance_attained pos nP fn : minDistance pos nP fn = fn \/ exists m, 1 <= m < nP /\ minDistance pos nP fn = norm3 (pos m).
Proof.
  unfold minDistance.
  assert (G : forall l a, let r := fold_left (fun a iR => if Rlt_dec (norm3 (pos iR)) a then norm3 (pos iR) else a) l a in r = a \/ exists k, In k l /\ r = norm3 (pos k)).
  { induction l as [|x l IH]; intros a; cbn [fold_left]; [left; reflexivity|]. cbv zeta in *. destruct (Rlt_dec (norm3 (pos x)) a) as [L|L].
    - right. destruct (IH (norm3 (pos x))) as [E|(k & Hk & E)]; [exists x; split; [left; reflexivity|exact E]|exists k; split; [right; exact Hk|exact E]].
    - destruct (IH a) as [E|(k & Hk & E)]; [left; exact E|right; exists k; split; [right; exact Hk|exact E]]. }
  destruct (G (zrange 1 (nP - 1)) fn) as [E|(k & Hk & E)]; [left; exact E|right]. exists k. apply in_zrange in Hk. split; [lia|exact E].
Qed.
Lemma norm3_length v : norm3 v = lengthOf v.
Proof. reflexivity. Qed.
Lemma minDistance_bound pos nP fn : (minDistance pos nP fn <= fn)%R.
Proof.
  unfold minDistance. generalize (zrange 1 (nP - 1)) as l. intro l. revert fn. induction l as [|x l IH]; intros a; cbn [fold_left]; [lra|].
  destruct (Rlt_dec (norm3 (pos x)) a) as [L|L]; [specialize (IH (norm3 (pos x))); lra|apply IH].
Qed.
