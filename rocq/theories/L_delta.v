(** Proofs about smearing functions. *)
From Coq Require Import Reals Permutation.
From Verif Require Import Base BaseLemmas M_particle L_particle M_delta S_delta.
From Coq Require Import Lra.
Open Scope R_scope.

(** * sorting *)
Lemma rinsert_perm x l : Permutation (rinsert x l) (x :: l).
Proof.
  induction l as [|y l IH]; cbn; [reflexivity|]. destruct (rleb x y); [reflexivity|]. rewrite IH. apply perm_swap.
Qed.
Lemma rsort_perm l : Permutation (rsort l) l.
Proof. induction l as [|x l IH]; cbn; [reflexivity|]. rewrite rinsert_perm, IH. reflexivity. Qed.
Fixpoint rsorted (l : list R) : Prop := match l with [] => True | x :: r => (forall y, In y r -> x <= y) /\ rsorted r end.
Lemma rinsert_sorted x l : rsorted l -> rsorted (rinsert x l).
Proof.
  induction l as [|y l IH]; cbn. { split; [intros z []|exact I]. }
  intros [H1 H2]. destruct (rleb x y) eqn:E.
  - apply rleb_le in E. cbn. split; [|split; assumption]. intros z [->|Hz]; [exact E|]. specialize (H1 z Hz). lra.
  - apply rleb_gt in E. cbn. split; [|apply IH, H2]. intros z Hz. apply (Permutation_in _ (rinsert_perm x l)) in Hz. destruct Hz as [->|Hz]; [lra|apply H1, Hz].
Qed.
Lemma rsort_sorted l : rsorted (rsort l).
Proof. induction l as [|x l IH]; cbn; [exact I|apply rinsert_sorted, IH]. Qed.

Lemma tetra_sorted en a b c d : exists e1 e2 e3 e4, tetraEnergies en (a, b, c, d) = [e1; e2; e3; e4] /\ e1 <= e2 /\ e2 <= e3 /\ e3 <= e4 /\
  Permutation [e1; e2; e3; e4] [en a; en b; en c; en d].
Proof.
  unfold tetraEnergies. pose proof (rsort_perm [en a; en b; en c; en d]) as P. pose proof (rsort_sorted [en a; en b; en c; en d]) as S.
  pose proof (Permutation_length P) as Len. destruct (rsort [en a; en b; en c; en d]) as [|e1 [|e2 [|e3 [|e4 [|? ?]]]]]; try discriminate Len.
  exists e1, e2, e3, e4. split; [reflexivity|]. cbn in S. destruct S as (S1 & S2 & S3 & _).
  split; [apply S1; left; reflexivity|]. split; [apply S2; left; reflexivity|]. split; [apply S3; left; reflexivity|exact P].
Qed.

(** * sign *)
Lemma div_nonneg a b : 0 <= a -> 0 <= b -> 0 <= a / b.
Proof. intros Ha Hb. unfold Rdiv. destruct (Req_dec b 0) as [->|N]; [rewrite Rinv_0; lra|]. apply Rmult_le_pos; [exact Ha|left; apply Rinv_0_lt_compat; lra]. Qed.
Ltac nonneg := repeat first [lra | apply div_nonneg | apply Rmult_le_pos | apply Rplus_le_le_0_compat].
Lemma cnE_nonneg e1 e2 e3 e4 e : e1 <= e2 -> e2 <= e3 -> e3 <= e4 -> 0 <= cnE e1 e2 e3 e4 e.
Proof.
  intros H1 H2 H3. unfold cnE. destruct (_ && _ && _ && _); [lra|].
  destruct (rleb e1 e && rleb e e2) eqn:A.
  { apply andb_true_iff in A as [A B]. apply rleb_le in A. apply rleb_le in B. destruct (_ || _ || _); [lra|]. nonneg. }
  destruct (rleb e2 e && rleb e e3) eqn:A2.
  { apply andb_true_iff in A2 as [A2 B2]. apply rleb_le in A2. apply rleb_le in B2.
    destruct (reqb e4 e2 || _ || _); destruct (reqb e4 e1 || _ || _); nonneg. }
  destruct (rleb e3 e && rleb e e4) eqn:A3; [|lra].
  apply andb_true_iff in A3 as [A3 B3]. apply rleb_le in A3. apply rleb_le in B3. destruct (_ || _ || _); [lra|]. nonneg.
Qed.
Lemma tetraWeight_nonneg en e t : 0 <= tetraWeight en e t.
Proof.
  destruct t as [[[a b] c] d]. unfold tetraWeight. destruct (tetra_sorted en a b c d) as (e1 & e2 & e3 & e4 & -> & H1 & H2 & H3 & _).
  apply cnE_nonneg; assumption.
Qed.
Lemma rsum_nonneg l : (forall x, In x l -> 0 <= x) -> 0 <= rsum l.
Proof. induction l as [|x l IH]; intro H; [cbn; lra|]. change (rsum (x :: l)) with (x + rsum l). pose proof (H x (or_introl eq_refl)). pose proof (IH (fun y Hy => H y (or_intror Hy))). lra. Qed.
Lemma weights_nonneg en e : 0 <= rsum (map (tetraWeight en e) vertices).
Proof. apply rsum_nonneg. intros x Hx. apply in_map_iff in Hx as (t & <- & _). apply tetraWeight_nonneg. Qed.

(** * the integrated density of states of one tetrahedron *)
Definition clamp (a b x : R) : R := Rmax a (Rmin x b).
Lemma clamp_lo a b x : a <= b -> x <= a -> clamp a b x = a.
Proof. intros H Hx. unfold clamp. rewrite Rmin_left by lra. apply Rmax_left. exact Hx. Qed.
Lemma clamp_hi a b x : a <= b -> b <= x -> clamp a b x = b.
Proof. intros H Hx. unfold clamp. rewrite Rmin_right by lra. apply Rmax_right. exact H. Qed.
Lemma clamp_mid a b x : a <= x -> x <= b -> clamp a b x = x.
Proof. intros H Hx. unfold clamp. rewrite Rmin_left by lra. apply Rmax_right. exact H. Qed.
Lemma clamp_lip a b x y : a <= b -> Rabs (clamp a b x - clamp a b y) <= Rabs (x - y).
Proof.
  intro H.
  assert (K : forall z, clamp a b z = a /\ z <= a \/ clamp a b z = b /\ b <= z \/ clamp a b z = z /\ a <= z <= b).
  { intro z. destruct (Rle_dec z a); [left; split; [apply clamp_lo; lra|lra]|]. destruct (Rle_dec b z); [right; left; split; [apply clamp_hi; lra|lra]|].
    right; right. split; [apply clamp_mid; lra|lra]. }
  destruct (K x) as [[-> ?]|[[-> ?]|[-> ?]]]; destruct (K y) as [[-> ?]|[[-> ?]|[-> ?]]]; unfold Rabs;
    repeat match goal with |- context[Rcase_abs ?u] => destruct (Rcase_abs u) end; lra.
Qed.
Lemma clamp_cont a b x : a <= b -> continuity_pt (clamp a b) x.
Proof.
  intros H eps He. exists eps. split; [exact He|]. intros y [_ D]. cbn in *. unfold R_dist in *. pose proof (clamp_lip a b y x H). lra.
Qed.
Lemma deriv_local f g x l d : 0 < d -> (forall y, Rabs (y - x) < d -> f y = g y) -> derivable_pt_lim g x l -> derivable_pt_lim f x l.
Proof.
  intros Hd Hfg Hg eps He. destruct (Hg eps He) as [d2 H2]. assert (P : 0 < Rmin d d2) by (apply Rmin_glb_lt; [exact Hd|apply cond_pos]).
  exists (mkposreal _ P). intros h Hh Hh2. cbn in Hh2. pose proof (Rmin_l d d2). pose proof (Rmin_r d d2).
  rewrite !Hfg; [apply H2; [exact Hh|lra]| |]. { replace (x - x) with 0 by ring. rewrite Rabs_R0. exact Hd. } { replace (x + h - x) with h by ring. lra. }
Qed.

(** increments over the three intervals *)
Definition q1 (e1 e2 e3 e4 x : R) : R := (x - e1) * (x - e1) * (x - e1) * / ((e2 - e1) * (e3 - e1) * (e4 - e1)).
Definition q2 (e1 e2 e3 e4 x : R) : R :=
  (3 * (e2 - e1) * (x - e2) + 3 * (x - e2) * (x - e2) - (e3 - e1 + e4 - e2) * / ((e3 - e2) * (e4 - e2)) * ((x - e2) * (x - e2) * (x - e2))) * / ((e3 - e1) * (e4 - e1)).
Definition q3 (e1 e2 e3 e4 x : R) : R :=
  ((e4 - e3) * (e4 - e3) * (e4 - e3) - (e4 - x) * (e4 - x) * (e4 - x)) * / ((e4 - e1) * (e4 - e2) * (e4 - e3)).
Definition dosN (e1 e2 e3 e4 x : R) : R :=
  q1 e1 e2 e3 e4 (clamp e1 e2 x) + q2 e1 e2 e3 e4 (clamp e2 e3 x) + q3 e1 e2 e3 e4 (clamp e3 e4 x).

Lemma q1_deriv e1 e2 e3 e4 x : derivable_pt_lim (q1 e1 e2 e3 e4) x (3 * (x - e1) * (x - e1) * / ((e2 - e1) * (e3 - e1) * (e4 - e1))).
Proof.
  set (k := / _). assert (D : derivable_pt_lim (fun y => (y - e1) * (y - e1) * (y - e1) * k) x
    ((((1 - 0) * (x - e1) + (x - e1) * (1 - 0)) * (x - e1) + (x - e1) * (x - e1) * (1 - 0)) * k + (x - e1) * (x - e1) * (x - e1) * 0)).
  { apply (derivable_pt_lim_mult (fun y => (y - e1) * (y - e1) * (y - e1)) (fun _ => k)); [|apply derivable_pt_lim_const].
    apply (derivable_pt_lim_mult (fun y => (y - e1) * (y - e1)) (fun y => y - e1)); [apply (derivable_pt_lim_mult (fun y => y - e1) (fun y => y - e1))|];
    apply (derivable_pt_lim_minus (fun y => y) (fun _ => e1)); first [apply derivable_pt_lim_id|apply derivable_pt_lim_const]. }
  match type of D with derivable_pt_lim _ _ ?r => replace (3 * (x - e1) * (x - e1) * k) with r by ring end. exact D.
Qed.
Lemma q3_deriv e1 e2 e3 e4 x : derivable_pt_lim (q3 e1 e2 e3 e4) x (3 * (e4 - x) * (e4 - x) * / ((e4 - e1) * (e4 - e2) * (e4 - e3))).
Proof.
  set (k := / _). assert (D : derivable_pt_lim (fun y => ((e4 - e3) * (e4 - e3) * (e4 - e3) - (e4 - y) * (e4 - y) * (e4 - y)) * k) x
    ((0 - ((((0 - 1) * (e4 - x) + (e4 - x) * (0 - 1)) * (e4 - x) + (e4 - x) * (e4 - x) * (0 - 1)))) * k + ((e4 - e3) * (e4 - e3) * (e4 - e3) - (e4 - x) * (e4 - x) * (e4 - x)) * 0)).
  { apply (derivable_pt_lim_mult (fun y => (e4 - e3) * (e4 - e3) * (e4 - e3) - (e4 - y) * (e4 - y) * (e4 - y)) (fun _ => k)); [|apply derivable_pt_lim_const].
    apply (derivable_pt_lim_minus (fun _ => (e4 - e3) * (e4 - e3) * (e4 - e3)) (fun y => (e4 - y) * (e4 - y) * (e4 - y))); [apply derivable_pt_lim_const|].
    apply (derivable_pt_lim_mult (fun y => (e4 - y) * (e4 - y)) (fun y => e4 - y)); [apply (derivable_pt_lim_mult (fun y => e4 - y) (fun y => e4 - y))|];
    apply (derivable_pt_lim_minus (fun _ => e4) (fun y => y)); first [apply derivable_pt_lim_const|apply derivable_pt_lim_id]. }
  match type of D with derivable_pt_lim _ _ ?r => replace (3 * (e4 - x) * (e4 - x) * k) with r by ring end. exact D.
Qed.
Lemma q2_deriv e1 e2 e3 e4 x : derivable_pt_lim (q2 e1 e2 e3 e4) x
  ((3 * (e2 - e1) + 6 * (x - e2) - (e3 - e1 + e4 - e2) * / ((e3 - e2) * (e4 - e2)) * (3 * (x - e2) * (x - e2))) * / ((e3 - e1) * (e4 - e1))).
Proof.
  set (k := / ((e3 - e1) * (e4 - e1))). set (m := (e3 - e1 + e4 - e2) * / _).
  assert (I : derivable_pt_lim (fun y => y - e2) x (1 - 0)).
  { apply (derivable_pt_lim_minus (fun y => y) (fun _ => e2)); [apply derivable_pt_lim_id|apply derivable_pt_lim_const]. }
  assert (D : derivable_pt_lim (fun y => (3 * (e2 - e1) * (y - e2) + 3 * (y - e2) * (y - e2) - m * ((y - e2) * (y - e2) * (y - e2))) * k) x
    ((3 * (e2 - e1) * (1 - 0) + (3 * (1 - 0) * (x - e2) + 3 * (x - e2) * (1 - 0)) - m * (((1 - 0) * (x - e2) + (x - e2) * (1 - 0)) * (x - e2) + (x - e2) * (x - e2) * (1 - 0))) * k
     + (3 * (e2 - e1) * (x - e2) + 3 * (x - e2) * (x - e2) - m * ((x - e2) * (x - e2) * (x - e2))) * 0)).
  { apply (derivable_pt_lim_mult (fun y => 3 * (e2 - e1) * (y - e2) + 3 * (y - e2) * (y - e2) - m * ((y - e2) * (y - e2) * (y - e2))) (fun _ => k)); [|apply derivable_pt_lim_const].
    apply (derivable_pt_lim_minus (fun y => 3 * (e2 - e1) * (y - e2) + 3 * (y - e2) * (y - e2)) (fun y => m * ((y - e2) * (y - e2) * (y - e2)))).
    - apply (derivable_pt_lim_plus (fun y => 3 * (e2 - e1) * (y - e2)) (fun y => 3 * (y - e2) * (y - e2))).
      + apply (derivable_pt_lim_scal (fun y => y - e2)). exact I.
      + apply (derivable_pt_lim_mult (fun y => 3 * (y - e2)) (fun y => y - e2)); [apply (derivable_pt_lim_scal (fun y => y - e2)); exact I|exact I].
    - apply (derivable_pt_lim_scal (fun y => (y - e2) * (y - e2) * (y - e2))).
      apply (derivable_pt_lim_mult (fun y => (y - e2) * (y - e2)) (fun y => y - e2)); [apply (derivable_pt_lim_mult (fun y => y - e2) (fun y => y - e2)); exact I|exact I]. }
  match type of D with derivable_pt_lim _ _ ?r => match goal with |- derivable_pt_lim _ _ ?s => replace s with r by ring end end. exact D.
Qed.
Lemma deriv_cont f x l : derivable_pt_lim f x l -> continuity_pt f x.
Proof. intro H. apply derivable_continuous_pt. exists l. exact H. Qed.

Lemma dosN_total e1 e2 e3 e4 : e1 <= e2 -> e2 <= e3 -> e3 <= e4 -> e1 < e4 -> q1 e1 e2 e3 e4 e2 + q2 e1 e2 e3 e4 e3 + q3 e1 e2 e3 e4 e4 = 1.
Proof.
  intros H12 H23 H34 H14.
  assert (Z1 : e1 = e2 -> q1 e1 e2 e3 e4 e2 = 0) by (intros <-; unfold q1; ring).
  assert (Z2 : e2 = e3 -> q2 e1 e2 e3 e4 e3 = 0) by (intros <-; unfold q2; ring).
  assert (Z3 : e3 = e4 -> q3 e1 e2 e3 e4 e4 = 0) by (intros <-; unfold q3; ring).
  destruct (Req_dec e1 e2) as [E1|N1]; destruct (Req_dec e2 e3) as [E2|N2]; destruct (Req_dec e3 e4) as [E3|N3];
    try rewrite (Z1 E1); try rewrite (Z2 E2); try rewrite (Z3 E3); clear Z1 Z2 Z3; unfold q1, q2, q3.
  - lra.
  - subst. field. lra.
  - subst. field. lra.
  - subst. field. repeat split; lra.
  - subst. field. lra.
  - subst. field. repeat split; lra.
  - subst. field. repeat split; lra.
  - field. repeat split; lra.
Qed.

Section Tetra.
Variables e1 e2 e3 e4 : R.
Hypothesis H12 : e1 <= e2.
Hypothesis H23 : e2 <= e3.
Hypothesis H34 : e3 <= e4.
Hypothesis H14 : e1 < e4.

Lemma dosN_cont x : continuity_pt (dosN e1 e2 e3 e4) x.
Proof.
  unfold dosN.
  apply (continuity_pt_plus (fun x => q1 e1 e2 e3 e4 (clamp e1 e2 x) + q2 e1 e2 e3 e4 (clamp e2 e3 x)) (fun x => q3 e1 e2 e3 e4 (clamp e3 e4 x))).
  - apply (continuity_pt_plus (fun x => q1 e1 e2 e3 e4 (clamp e1 e2 x)) (fun x => q2 e1 e2 e3 e4 (clamp e2 e3 x))).
    + apply (continuity_pt_comp (clamp e1 e2) (q1 e1 e2 e3 e4)); [apply clamp_cont, H12|]. eapply deriv_cont, q1_deriv.
    + apply (continuity_pt_comp (clamp e2 e3) (q2 e1 e2 e3 e4)); [apply clamp_cont, H23|]. eapply deriv_cont, q2_deriv.
  - apply (continuity_pt_comp (clamp e3 e4) (q3 e1 e2 e3 e4)); [apply clamp_cont, H34|]. eapply deriv_cont, q3_deriv.
Qed.
Lemma q1_0 : q1 e1 e2 e3 e4 e1 = 0. Proof. unfold q1. ring. Qed.
Lemma q2_0 : q2 e1 e2 e3 e4 e2 = 0. Proof. unfold q2. ring. Qed.
Lemma q3_0 : q3 e1 e2 e3 e4 e3 = 0. Proof. unfold q3. ring. Qed.
Lemma dosN_lo x : x <= e1 -> dosN e1 e2 e3 e4 x = 0.
Proof. intro H. unfold dosN. rewrite !clamp_lo by lra. rewrite q1_0, q2_0, q3_0. ring. Qed.
Lemma dosN_hi x : e4 <= x -> dosN e1 e2 e3 e4 x = 1.
Proof. intro H. unfold dosN. rewrite !clamp_hi by lra. apply dosN_total; assumption. Qed.

Lemma not_flat e : reqb e1 e2 && reqb e1 e3 && reqb e1 e4 && reqb e e1 = false.
Proof. rewrite (proj2 (reqb_ne e1 e4)) by lra. rewrite andb_false_r. reflexivity. Qed.
Lemma dosN_deriv e : e <> e1 -> e <> e2 -> e <> e3 -> e <> e4 -> derivable_pt_lim (dosN e1 e2 e3 e4) e (cnE e1 e2 e3 e4 e).
Proof.
  intros N1 N2 N3 N4. unfold cnE. rewrite not_flat.
  destruct (Rlt_dec e e1) as [L1|L1].
  { rewrite (proj2 (rleb_gt e1 e)), (proj2 (rleb_gt e2 e)), (proj2 (rleb_gt e3 e)) by lra. cbn [andb].
    apply (deriv_local _ (fun _ => 0) e 0 (e1 - e)); [lra| |apply derivable_pt_lim_const]. intros y Hy. apply dosN_lo. apply Rabs_def2 in Hy. lra. }
  rewrite (proj2 (rleb_le e1 e)) by lra. destruct (Rlt_dec e e2) as [L2|L2].
  { rewrite (proj2 (rleb_le e e2)) by lra. cbn [andb].
    rewrite (proj2 (reqb_ne e2 e1)), (proj2 (reqb_ne e3 e1)), (proj2 (reqb_ne e4 e1)) by lra. cbn [orb].
    replace (3 * (e - e1) * (e - e1) / (e2 - e1) / (e3 - e1) / (e4 - e1)) with (3 * (e - e1) * (e - e1) * / ((e2 - e1) * (e3 - e1) * (e4 - e1))) by (field; repeat split; lra).
    apply (deriv_local _ (q1 e1 e2 e3 e4) e _ (Rmin (e - e1) (e2 - e))); [apply Rmin_glb_lt; lra| |apply q1_deriv].
    intros y Hy. pose proof (Rmin_l (e - e1) (e2 - e)). pose proof (Rmin_r (e - e1) (e2 - e)). apply Rabs_def2 in Hy.
    unfold dosN. rewrite clamp_mid by lra. rewrite !clamp_lo by lra. rewrite q2_0, q3_0. ring. }
  rewrite (proj2 (rleb_gt e e2)) by lra. cbn [andb]. rewrite (proj2 (rleb_le e2 e)) by lra. destruct (Rlt_dec e e3) as [L3|L3].
  { rewrite (proj2 (rleb_le e e3)) by lra. cbn [andb].
    rewrite (proj2 (reqb_ne e4 e2)), (proj2 (reqb_ne e3 e2)), (proj2 (reqb_ne e3 e1)), (proj2 (reqb_ne e4 e1)) by lra. cbn [orb].
    match goal with |- derivable_pt_lim _ _ ?s => replace s with
      ((3 * (e2 - e1) + 6 * (e - e2) - (e3 - e1 + e4 - e2) * / ((e3 - e2) * (e4 - e2)) * (3 * (e - e2) * (e - e2))) * / ((e3 - e1) * (e4 - e1))) by (field; repeat split; lra) end.
    apply (deriv_local _ (fun y => q1 e1 e2 e3 e4 e2 + q2 e1 e2 e3 e4 y) e _ (Rmin (e - e2) (e3 - e))); [apply Rmin_glb_lt; lra| |].
    - intros y Hy. pose proof (Rmin_l (e - e2) (e3 - e)). pose proof (Rmin_r (e - e2) (e3 - e)). apply Rabs_def2 in Hy.
      unfold dosN. rewrite (clamp_hi e1 e2), (clamp_mid e2 e3), (clamp_lo e3 e4) by lra. rewrite q3_0. ring.
    - match goal with |- derivable_pt_lim _ _ ?s => replace s with (0 + s) by ring end.
      apply (derivable_pt_lim_plus (fun _ => q1 e1 e2 e3 e4 e2) (q2 e1 e2 e3 e4)); [apply derivable_pt_lim_const|apply q2_deriv]. }
  rewrite (proj2 (rleb_gt e e3)) by lra. cbn [andb]. rewrite (proj2 (rleb_le e3 e)) by lra. destruct (Rlt_dec e e4) as [L4|L4].
  { rewrite (proj2 (rleb_le e e4)) by lra. cbn [andb].
    rewrite (proj2 (reqb_ne e4 e1)), (proj2 (reqb_ne e4 e2)), (proj2 (reqb_ne e4 e3)) by lra. cbn [orb].
    replace (3 * (e4 - e) * (e4 - e) / (e4 - e1) / (e4 - e2) / (e4 - e3)) with (3 * (e4 - e) * (e4 - e) * / ((e4 - e1) * (e4 - e2) * (e4 - e3))) by (field; repeat split; lra).
    apply (deriv_local _ (fun y => q1 e1 e2 e3 e4 e2 + q2 e1 e2 e3 e4 e3 + q3 e1 e2 e3 e4 y) e _ (Rmin (e - e3) (e4 - e))); [apply Rmin_glb_lt; lra| |].
    - intros y Hy. pose proof (Rmin_l (e - e3) (e4 - e)). pose proof (Rmin_r (e - e3) (e4 - e)). apply Rabs_def2 in Hy.
      unfold dosN. rewrite (clamp_hi e1 e2), (clamp_hi e2 e3), (clamp_mid e3 e4) by lra. reflexivity.
    - match goal with |- derivable_pt_lim _ _ ?s => replace s with (0 + s) by ring end.
      apply (derivable_pt_lim_plus (fun _ => q1 e1 e2 e3 e4 e2 + q2 e1 e2 e3 e4 e3) (q3 e1 e2 e3 e4)); [apply derivable_pt_lim_const|apply q3_deriv]. }
  rewrite (proj2 (rleb_gt e e4)) by lra. cbn [andb].
  apply (deriv_local _ (fun _ => 1) e 0 (e - e4)); [lra| |apply derivable_pt_lim_const]. intros y Hy. apply dosN_hi. apply Rabs_def2 in Hy. lra.
Qed.
Lemma tetra_dos : integratedDos (cnE e1 e2 e3 e4) e1 e4 (dosN e1 e2 e3 e4).
Proof.
  split; [exact dosN_lo|]. split; [exact dosN_hi|]. split; [exact dosN_cont|]. exists [e1; e2; e3; e4].
  intros e H. apply dosN_deriv; intro C; apply H; rewrite C; cbn; tauto.
Qed.
End Tetra.

(** average of integrated densities of states *)
Lemma dos_weaken w lo hi lo' hi' N : lo' <= lo -> hi <= hi' -> integratedDos w lo hi N -> integratedDos w lo' hi' N.
Proof. intros A B (H1 & H2 & H3 & H4). split; [intros e He; apply H1; lra|]. split; [intros e He; apply H2; lra|]. split; assumption. Qed.
Lemma dos_sum {T} (l : list T) (w : T -> R -> R) lo hi :
  (forall t, In t l -> exists N, integratedDos (w t) lo hi N) -> l <> [] ->
  exists N, integratedDos (fun e => rsum (map (fun t => w t e) l) / INR (length l)) lo hi N.
Proof.
  intros H Hne.
  assert (K : exists S, (forall e, e <= lo -> S e = 0) /\ (forall e, hi <= e -> S e = INR (length l)) /\ (forall e, continuity_pt S e) /\
    exists ex : list R, forall e, ~ In e ex -> derivable_pt_lim S e (rsum (map (fun t => w t e) l))).
  { clear Hne. induction l as [|t l IH].
    - exists (fun _ => 0). split; [reflexivity|]. split; [reflexivity|]. split; [intro e; apply continuity_pt_const; intros ? ?; reflexivity|].
      exists []. intros e _. apply derivable_pt_lim_const.
    - destruct IH as (S & S1 & S2 & S3 & ex & S4); [intros; apply H; right; assumption|].
      destruct (H t (or_introl eq_refl)) as (N & N1 & N2 & N3 & ex' & N4). exists (fun e => N e + S e).
      split; [intros e He; rewrite N1, S1 by assumption; ring|].
      split; [intros e He; rewrite N2, S2 by assumption; change (length (t :: l)) with (Datatypes.S (length l)); rewrite S_INR; ring|].
      split; [intro e; apply (continuity_pt_plus N S); [apply N3|apply S3]|].
      exists (ex' ++ ex). intros e He. cbn [map rsum fold_right]. apply (derivable_pt_lim_plus N S).
      + apply N4. intro C. apply He, in_or_app. left. exact C.
      + apply S4. intro C. apply He, in_or_app. right. exact C. }
  destruct K as (S & S1 & S2 & S3 & ex & S4). assert (P : 0 < INR (length l)). { apply lt_0_INR. destruct l; [congruence|cbn; apply Nat.lt_0_succ]. }
  exists (fun e => / INR (length l) * S e). split; [intros e He; rewrite S1 by assumption; ring|].
  split; [intros e He; rewrite S2 by assumption; field; lra|].
  split; [intro e; apply (continuity_pt_scal S (/ INR (length l))); apply S3|].
  exists ex. intros e He. unfold Rdiv. rewrite Rmult_comm. apply (derivable_pt_lim_scal S). apply S4, He.
Qed.

(** * tiling: barycentric coordinates with respect to the diagonal 2-5 *)
Lemma triple_eq (a b c a' b' c' : R) : a = a' -> b = b' -> c = c' -> (a, b, c) = (a', b', c').
Proof. intros -> -> ->. reflexivity. Qed.
Lemma tetra_tile x y z : 0 <= x <= 1 -> 0 <= y <= 1 -> 0 <= z <= 1 -> exists t, In t vertices /\ inTetra t (x, y, z).
Proof.
  intros Hx Hy Hz.
  assert (G : forall a b c d l0 l1 l2 l3, In (a, b, c, d) vertices -> 0 <= l0 -> 0 <= l1 -> 0 <= l2 -> 0 <= l3 -> l0 + l1 + l2 + l3 = 1 ->
     (x, y, z) = combo l0 l1 l2 l3 (corner a) (corner b) (corner c) (corner d) -> exists t, In t vertices /\ inTetra t (x, y, z)).
  { intros a b c d l0 l1 l2 l3 Hv P0 P1 P2 P3 S E. exists (a, b, c, d). split; [exact Hv|]. exists l0, l1, l2, l3. repeat split; assumption. }
  (* with Y = 1 - y: vertices 2 -> (0,0,0), 5 -> (1,1,1); order of x, Y, z selects the tetrahedron *)
  destruct (Rle_dec z x) as [A|A]; destruct (Rle_dec (1 - y) x) as [B|B]; destruct (Rle_dec (1 - y) z) as [C|C]; try lra.
  - (* x >= z >= Y : 2,3,7,5 *)
    apply (G 2%Z 3%Z 5%Z 7%Z (1 - x) (x - z) (1 - y) (z - (1 - y))); [cbn; tauto|lra..|]. unfold combo, corner, cellCorner; cbn; apply triple_eq; lra.
  - (* x >= Y > z : 2,3,1,5 *)
    apply (G 1%Z 2%Z 3%Z 5%Z ((1 - y) - z) (1 - x) (x - (1 - y)) z); [cbn; tauto|lra..|]. unfold combo, corner, cellCorner; cbn; apply triple_eq; lra.
  - (* Y > x >= z : 2,0,1,5 *)
    apply (G 0%Z 1%Z 2%Z 5%Z ((1 - y) - x) (x - z) y z); [cbn; tauto|lra..|]. unfold combo, corner, cellCorner; cbn; apply triple_eq; lra.
  - (* z > x >= Y : 2,6,7,5 *)
    apply (G 2%Z 5%Z 6%Z 7%Z (1 - z) (1 - y) (z - x) (x - (1 - y))); [cbn; tauto|lra..|]. unfold combo, corner, cellCorner; cbn; apply triple_eq; lra.
  - (* z >= Y > x : 2,6,4,5 *)
    apply (G 2%Z 4%Z 5%Z 6%Z (1 - z) ((1 - y) - x) x (z - (1 - y))); [cbn; tauto|lra..|]. unfold combo, corner, cellCorner; cbn; apply triple_eq; lra.
  - (* Y > z > x : 2,0,4,5 *)
    apply (G 0%Z 2%Z 4%Z 5%Z ((1 - y) - z) y (z - x) x); [cbn; tauto|lra..|]. unfold combo, corner, cellCorner; cbn; apply triple_eq; lra.
Qed.
Lemma tetra_disjoint t u p : In t vertices -> In u vertices -> insideTetra t p -> inTetra u p -> t = u.
Proof.
  intros Ht Hu. cbn in Ht, Hu.
  destruct Ht as [<-|[<-|[<-|[<-|[<-|[<-|[]]]]]]]; destruct Hu as [<-|[<-|[<-|[<-|[<-|[<-|[]]]]]]]; intros (a0 & a1 & a2 & a3 & P0 & P1 & P2 & P3 & S & E) (b0 & b1 & b2 & b3 & Q0 & Q1 & Q2 & Q3 & S' & E');
    try reflexivity; exfalso; rewrite E in E'; unfold combo, corner, cellCorner in E'; cbn in E'; injection E' as X Y Z; lra.
Qed.
