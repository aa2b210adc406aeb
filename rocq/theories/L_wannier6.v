(** The offset between the bands of the ab initio code and those of Wannier90. *)
From Coq Require Import Reals QArith.
From Verif Require Import Base BaseLemmas M_complex M_interaction M_wannier S_wannier.
From Coq Require Import Lia Lqa.
Open Scope Z_scope.

Lemma sum_lt {A} (f g : A -> Q) l : l <> [] -> (forall x, In x l -> (f x < g x)%Q) -> (fold_right Qplus 0 (map f l) < fold_right Qplus 0 (map g l))%Q.
Proof.
  induction l as [|x l IH]; intros Hl H; [contradiction|]. cbn [map fold_right]. specialize (H x (or_introl eq_refl)) as Hx. destruct l as [|y l]; [cbn [map fold_right]; lra|].
  assert (Hr := IH ltac:(discriminate) (fun z Hz => H z (or_intror Hz))). lra.
Qed.
Lemma least_fold r : forall x, (In (fold_left (fun a y => if Qle_bool a y then a else y) r x) (x :: r)) /\ (forall y, In y (x :: r) -> (fold_left (fun a y => if Qle_bool a y then a else y) r x <= y)%Q).
Proof.
  induction r as [|z r IH]; intros x; cbn [fold_left]; [split; [left; reflexivity|intros y [<-|[]]; lra]|].
  destruct (Qle_bool x z) eqn:E.
  - apply Qle_bool_iff in E. destruct (IH x) as (I1 & L1). split; [destruct I1 as [<-|I1]; [left; reflexivity|right; right; exact I1]|]. intros y [<-|[<-|Hy]]; [apply L1; left; reflexivity| |apply L1; right; exact Hy].
    specialize (L1 x (or_introl eq_refl)). lra.
  - assert (Hz : (z < x)%Q). { apply Qnot_le_lt. intro H. apply Qle_bool_iff in H. congruence. } destruct (IH z) as (I1 & L1). split; [right; exact I1|]. intros y [<-|Hy]; [|apply L1; exact Hy].
    specialize (L1 z (or_introl eq_refl)). lra.
Qed.
Lemma find_first (f : Z -> bool) n k : 0 <= k < n -> f k = true -> (forall i, 0 <= i < k -> f i = false) -> find f (zrange 0 n) = Some k.
Proof.
  intros Hk Ht Hf. assert (G : forall m : nat, forall a, 0 <= a -> a <= k -> Z.of_nat m = k - a -> find f (zrange a (n - a)) = Some k).
  { induction m as [|m IH]; intros a H0 H1 Em; rewrite zrange_cons by lia; cbn [find].
    - replace a with k by lia. rewrite Ht. reflexivity.
    - rewrite Hf by lia. replace (n - a - 1) with (n - (a + 1)) by ring. apply IH; lia. }
  specialize (G (Z.to_nat k) 0 ltac:(lia) ltac:(lia) ltac:(lia)). rewrite Z.sub_0_r in G. exact G.
Qed.
Section Offset.
Variables (eQE eW : list Q) (o : Z).
Hypotheses (Hinc : increasing eQE) (HW : windowAt eQE eW o) (Hne : 0 < zlen eW).
Let e (i : Z) : Q := nth (Z.to_nat i) eQE 0%Q.
Lemma window_e i : 0 <= i < zlen eW -> (nth (Z.to_nat i) eW 0 == e (i + o))%Q.
Proof. intro H. destruct HW as (_ & _ & E). unfold e. symmetry. apply E, H. Qed.
Lemma e_lt i j : 0 <= i -> i < j -> j < zlen eQE -> (e i < e j)%Q. Proof. exact (Hinc i j). Qed.
Lemma nonempty_range : zrange 0 (zlen eW) <> []. Proof. rewrite zrange_cons by lia. discriminate. Qed.
(** the difference grows on both sides of the right offset *)
Lemma below i j : 0 <= i -> i < j -> j <= o -> (difference eQE eW j < difference eQE eW i)%Q.
Proof.
  intros Hi Hij Hj. destruct HW as (W0 & W1 & _). apply sum_lt; [exact nonempty_range|]. intros b Hb. apply in_zrange in Hb. pose proof (window_e b ltac:(lia)) as Ew. fold (e (b + j)). fold (e (b + i)).
  pose proof (e_lt (b + i) (b + j) ltac:(lia) ltac:(lia) ltac:(lia)) as L1. assert (L2 : (e (b + j) <= e (b + o))%Q). { destruct (Z.eq_dec j o) as [->|]; [lra|]. apply Qlt_le_weak, e_lt; lia. }
  rewrite Ew. nra.
Qed.
Lemma above j : o < j -> j + zlen eW <= zlen eQE -> (difference eQE eW o < difference eQE eW j)%Q.
Proof.
  intros Hij Hj. destruct HW as (W0 & W1 & _). apply sum_lt; [exact nonempty_range|]. intros b Hb. apply in_zrange in Hb. pose proof (window_e b ltac:(lia)) as Ew. fold (e (b + j)). fold (e (b + o)).
  pose proof (e_lt (b + o) (b + j) ltac:(lia) ltac:(lia) ltac:(lia)) as L1. rewrite Ew. nra.
Qed.
Lemma offset_value : computeOffset eQE eW = Ok (if o + zlen eW =? zlen eQE then o else o + 1).
Proof.
  pose proof HW as (W0 & W1 & _). unfold computeOffset. set (P := zlen eQE - zlen eW). replace (P <? 0) with false by lia.
  destruct (Z.eqb_spec P 0) as [E0|N0].
  - replace (o + zlen eW =? zlen eQE) with true by lia. cbn [Z.eqb]. do 2 f_equal. lia.
  - set (m := if o =? P then o - 1 else o). assert (Hm : 0 <= m < P) by (unfold m; destruct (Z.eqb_spec o P); lia).
    assert (Best : forall i, 0 <= i < P -> i <> m -> (difference eQE eW m < difference eQE eW i)%Q).
    { intros i Hi Ni. unfold m in *. destruct (Z.eqb_spec o P) as [Eo|No]; [apply below; lia|]. destruct (Z_lt_ge_dec i o); [apply below; lia|apply above; lia]. }
    assert (El : (leastOf (map (difference eQE eW) (zrange 0 P)) == difference eQE eW m)%Q).
    { unfold leastOf. destruct (map (difference eQE eW) (zrange 0 P)) as [|x r] eqn:Ex; [rewrite zrange_cons in Ex by lia; discriminate|]. destruct (least_fold r x) as (I1 & L1). rewrite <- Ex in I1, L1.
      apply in_map_iff in I1 as (i & Ei & Hi). apply in_zrange in Hi. specialize (L1 (difference eQE eW m) ltac:(apply in_map, in_zrange; lia)). rewrite <- Ei in L1 |- *. destruct (Z.eq_dec i m) as [->|Ni]; [reflexivity|]. specialize (Best i ltac:(lia) Ni). lra. }
    rewrite (find_first _ P m Hm).
    + replace (m + 1 =? -1) with false by lia. do 2 f_equal. unfold m, P. destruct (Z.eqb_spec o (zlen eQE - zlen eW)); destruct (Z.eqb_spec (o + zlen eW) (zlen eQE)); lia.
    + apply Qeq_bool_iff. symmetry. exact El.
    + intros i Hi. destruct (Qeq_bool _ _) eqn:Eb; [|reflexivity]. apply Qeq_bool_iff in Eb. specialize (Best i ltac:(lia) ltac:(lia)). rewrite El in Eb. lra.
Qed.
End Offset.
