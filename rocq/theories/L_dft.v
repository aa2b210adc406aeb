(** Discrete Fourier sums on a mesh. *)
From Coq Require Import Reals.
From Verif Require Import Base BaseLemmas M_complex L_complex.
From Coq Require Import Lia Lra.
Open Scope Z_scope.

Lemma cmul_zero a b : cmul a b = c0 -> a = c0 \/ b = c0.
Proof.
  intro H. assert (N : (cnorm2 a * cnorm2 b = 0)%R) by (rewrite <- norm2_mul, H; unfold cnorm2, c0; cbn; ring).
  assert (K : forall x, cnorm2 x = 0%R -> x = c0). { intros [u v] E. unfold cnorm2 in E. cbn in E. assert (u = 0%R) by nra. assert (v = 0%R) by nra. subst. reflexivity. }
  apply Rmult_integral in N as [N|N]; [left|right]; apply K, N.
Qed.
Lemma expi_one x : cexpi x = c1 -> exists k : Z, x = (2 * PI * IZR k)%R.
Proof.
  intro H. apply (f_equal fst) in H. cbn in H. replace x with (2 * (x / 2))%R in H by field. rewrite cos_2a_sin in H.
  assert (S : sin (x / 2) = 0%R) by nra. apply sin_eq_0_0 in S as (k & E). exists k. lra.
Qed.
Lemma csumTo_S n f : 0 <= n -> csumTo (n + 1) f = cadd (csumTo n f) (f n).
Proof. intro H. unfold csumTo. rewrite zrange_S by exact H. rewrite map_app, csum_app. cbn [map]. rewrite csum_cons, csum_nil. rewrite Z.add_0_l. ring. Qed.
Lemma geometric (a : R) n : 0 <= n -> cmul (csub (cexpi a) c1) (csumTo n (fun t => cexpi (a * IZR t))) = csub (cexpi (a * IZR n)) c1.
Proof.
  revert n. apply natlike_ind.
  - change (csumTo 0 _) with c0. rewrite Rmult_0_r, expi_0. ring.
  - intros n Hn IH. replace (Z.succ n) with (n + 1) by lia. rewrite csumTo_S by exact Hn.
    transitivity (cadd (cmul (csub (cexpi a) c1) (csumTo n (fun t => cexpi (a * IZR t)))) (cmul (csub (cexpi a) c1) (cexpi (a * IZR n)))); [ring|]. rewrite IH.
    rewrite plus_IZR. replace (a * (IZR n + 1))%R with (a + a * IZR n)%R by ring. rewrite expi_add. ring.
Qed.
Lemma csumTo_const n : 0 <= n -> csumTo n (fun _ => c1) = (IZR n, 0%R).
Proof.
  revert n. apply natlike_ind; [reflexivity|]. intros n Hn IH. replace (Z.succ n) with (n + 1) by lia. rewrite csumTo_S, IH, plus_IZR by exact Hn. cring.
Qed.
(** sum of the powers of a root of unity *)
Lemma dft1 n m : 0 < n -> csumTo n (fun t => cexpi (2 * PI * (IZR m / IZR n) * IZR t)) = if Z.rem m n =? 0 then (IZR n, 0%R) else c0.
Proof.
  intro Hn. assert (N0 : IZR n <> 0%R) by (apply not_0_IZR; lia). destruct (Z.eqb_spec (Z.rem m n) 0) as [E|E].
  - apply Z.rem_divide in E as (k & ->); [|lia]. rewrite <- csumTo_const by lia. apply csumTo_ext. intros t _. rewrite mult_IZR.
    replace (2 * PI * (IZR k * IZR n / IZR n) * IZR t)%R with (0 + 2 * PI * IZR (k * t))%R by (rewrite mult_IZR; field; exact N0). rewrite expi_period. apply expi_0.
  - set (a := (2 * PI * (IZR m / IZR n))%R). assert (G := geometric a n ltac:(lia)).
    replace (cexpi (a * IZR n)) with c1 in G by (unfold a; replace (2 * PI * (IZR m / IZR n) * IZR n)%R with (0 + 2 * PI * IZR m)%R by (field; exact N0); rewrite expi_period; symmetry; apply expi_0).
    replace (csub c1 c1) with c0 in G by ring. apply cmul_zero in G as [G|G]; [|exact G]. exfalso.
    assert (C : cexpi a = c1) by (transitivity (cadd (csub (cexpi a) c1) c1); [ring|rewrite G; ring]). apply expi_one in C as (k & C). unfold a in C.
    assert (M : IZR m = IZR (k * n)). { rewrite mult_IZR. pose proof PI_RGT_0. assert (D : (IZR m / IZR n = IZR k)%R) by nra. rewrite <- D. field. exact N0. }
    apply eq_IZR in M. apply E. rewrite M. apply Z.rem_mul. lia.
Qed.
