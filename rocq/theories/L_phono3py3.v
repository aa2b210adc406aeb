From Coq Require Import Reals QArith Qabs Permutation Sorted.
From Verif Require Import Base BaseLemmas M_utilities L_utilities M_points L_points M_phonon L_matrix M_phono3py S_phono3py L_phono3py.
From Coq Require Import Lia Lqa.
Open Scope Z_scope.

(** * lists of updates *)
Section Updates.
Context {K V : Type} (eqb : K -> K -> bool) (op : V -> V -> V).
Hypothesis eqb_spec : forall a b, eqb a b = true <-> a = b.
Definition applyU (m : K -> V) (U : list (K * V)) : K -> V := fold_left (fun m u => put eqb op m (fst u) (snd u)) U m.
Lemma applyU_app m U U' : applyU m (U ++ U') = applyU (applyU m U) U'.
Proof. unfold applyU. now rewrite fold_left_app. Qed.
Lemma applyU_out U : forall m k, ~ In k (map fst U) -> applyU m U k = m k.
Proof.
  induction U as [|u U IH]; intros m k H; [reflexivity|]. cbn [map] in H. unfold applyU. cbn [fold_left]. fold (applyU (put eqb op m (fst u) (snd u)) U). rewrite IH by (intro; apply H; now right).
  unfold put. destruct (eqb (fst u) k) eqn:E; [|reflexivity]. apply eqb_spec in E. exfalso. apply H. now left.
Qed.
Lemma applyU_in U : forall m k v, NoDup (map fst U) -> In (k, v) U -> applyU m U k = op (m k) v.
Proof.
  induction U as [|u U IH]; intros m k v HN Hin; [contradiction|]. inversion HN; subst. unfold applyU. cbn [fold_left]. fold (applyU (put eqb op m (fst u) (snd u)) U). destruct Hin as [-> | Hin].
  - rewrite applyU_out by assumption. unfold put. cbn [fst snd]. now rewrite (proj2 (eqb_spec k k) eq_refl).
  - rewrite (IH _ k v) by assumption. unfold put. destruct (eqb (fst u) k) eqn:E; [|reflexivity]. apply eqb_spec in E. subst k. exfalso. apply H1. apply in_map_iff. exists (fst u, v). now split.
Qed.
Lemma foldM_apply {X} (f : (K -> V) -> X -> res (K -> V)) (u : X -> list (K * V)) l : (forall x m, In x l -> f m x = Ok (applyU m (u x))) -> forall m, foldM f l m = Ok (applyU m (flat_map u l)).
Proof.
  induction l as [|x l IH]; intros H m; [reflexivity|]. cbn [foldM flat_map]. rewrite H by now left. cbn [bind]. rewrite applyU_app. apply IH. intros; apply H; now right.
Qed.
End Updates.
Lemma wkeyb_spec a b : wkeyb a b = true <-> a = b.
Proof. destruct a as [[a0 a1] a2], b as [[b0 b1] b2]. unfold wkeyb. rewrite !Bool.andb_true_iff, !Z.eqb_eq. split; [intros [[-> ->] ->]; reflexivity|intro E; injection E as -> -> ->; auto]. Qed.
Lemma mkeyb_spec a b : mkeyb a b = true <-> a = b.
Proof. destruct a as [[[[a0 a1] a2] a3] a4], b as [[[[b0 b1] b2] b3] b4]. unfold mkeyb. rewrite !Bool.andb_true_iff, !Z.eqb_eq. split; [intros [[[[-> ->] ->] ->] ->]; reflexivity|intro E; injection E as -> -> -> -> ->; auto]. Qed.
Lemma map_fst_flat {X K V} (u : X -> list (K * V)) l : map fst (flat_map u l) = flat_map (fun x => map fst (u x)) l.
Proof. induction l; cbn; [reflexivity|]. now rewrite map_app, IHl. Qed.
Lemma NoDup_keys {X K V} (u : X -> list (K * V)) l : NoDup l -> (forall x, In x l -> NoDup (map fst (u x))) ->
  (forall x y k v v', In x l -> In y l -> In (k, v) (u x) -> In (k, v') (u y) -> x = y) -> NoDup (map fst (flat_map u l)).
Proof.
  intros HN H1 H2. rewrite map_fst_flat. apply NoDup_flat_map; [exact HN|exact H1|]. intros x y k Hx Hy Ix Iy. apply in_map_iff in Ix, Iy. destruct Ix as ([k1 v1] & E1 & I1), Iy as ([k2 v2] & E2 & I2). cbn [fst] in *. subst. eapply H2; eassumption.
Qed.

(** * vectors *)
Notation vsame := sameVec.
Lemma vecEq_spec a b : vecEq a b = true <-> vsame a b.
Proof. unfold vecEq, sameVec. rewrite !Bool.andb_true_iff, !Qeq_bool_iff. tauto. Qed.
Lemma vsame_sym a b : vsame a b -> vsame b a. Proof. unfold sameVec. intuition. Qed.
Lemma vsame_trans a b c : vsame a b -> vsame b c -> vsame a c. Proof. unfold sameVec. intros (H & H1 & H2) (K & K1 & K2). rewrite H, H1, H2. auto. Qed.
Lemma vsame_refl a : vsame a a. Proof. unfold sameVec. intuition reflexivity. Qed.
Definition vltP (a b : qvec) : Prop := (a 0%Z < b 0%Z \/ (a 0%Z == b 0%Z /\ (a 1%Z < b 1%Z \/ (a 1%Z == b 1%Z /\ a 2%Z < b 2%Z))))%Q.
Lemma Qltb_iff a b : Qltb a b = true <-> (a < b)%Q.
Proof. split; [|apply Qltb_true]. intro H. destruct (Qlt_le_dec a b) as [L | L]; [exact L|]. rewrite Qltb_false in H by exact L. discriminate. Qed.
Lemma Qltb_niff a b : Qltb a b = false <-> (b <= a)%Q.
Proof. split; [|apply Qltb_false]. intro H. destruct (Qlt_le_dec a b) as [L | L]; [|exact L]. rewrite Qltb_true in H by exact L. discriminate. Qed.
Lemma vlt_spec a b : vlt a b = true <-> vltP a b.
Proof.
  unfold vlt, vltP. destruct (Qltb (a 0) (b 0)) eqn:E0; [apply Qltb_iff in E0; tauto|]. apply Qltb_niff in E0. destruct (Qltb (b 0) (a 0)) eqn:E1; [apply Qltb_iff in E1; split; [discriminate|intros [H | [H _]]; exfalso; lra]|]. apply Qltb_niff in E1.
  destruct (Qltb (a 1) (b 1)) eqn:E2; [apply Qltb_iff in E2; split; [intros _; right; split; [lra|now left]|reflexivity]|]. apply Qltb_niff in E2.
  destruct (Qltb (b 1) (a 1)) eqn:E3; [apply Qltb_iff in E3; split; [discriminate|intros [H | [_ [H | [H _]]]]; exfalso; lra]|]. apply Qltb_niff in E3.
  rewrite Qltb_iff. split; [intro H; right; split; [lra|right; split; [lra|exact H]]|intros [H | [_ [H | [_ H]]]]; [exfalso; lra|exfalso; lra|exact H]].
Qed.
Lemma vltP_trans a b c : vltP a b -> vltP b c -> vltP a c.
Proof.
  unfold vltP. intros [H | [H [H1 | [H1 H2]]]] [K | [K [K1 | [K1 K2]]]].
  - left; lra.
  - left; lra.
  - left; lra.
  - left; lra.
  - right; split; [lra|left; lra].
  - right; split; [lra|left; lra].
  - left; lra.
  - right; split; [lra|left; lra].
  - right; split; [lra|right; split; lra].
Qed.
Lemma vltP_irr a b : vltP a b -> ~ vsame a b.
Proof. unfold vltP, sameVec. intros [H | [H [H1 | [H1 H2]]]] (K & K1 & K2); lra. Qed.
Lemma vlt_total a b : vlt a b = false -> vlt b a = false -> vsame a b.
Proof.
  intros H K. assert (~ vltP a b) by (rewrite <- vlt_spec; congruence). assert (~ vltP b a) by (rewrite <- vlt_spec; congruence). unfold vltP, sameVec in *.
  destruct (Q_dec (a 0) (b 0)) as [[L | L] | L]; [tauto|tauto|]. destruct (Q_dec (a 1) (b 1)) as [[L1 | L1] | L1]; [tauto|exfalso; apply H1; right; split; [lra|now left]|].
  destruct (Q_dec (a 2) (b 2)) as [[L2 | L2] | L2]; [tauto|exfalso; apply H1; right; split; [lra|right; split; [lra|exact L2]]|]. tauto.
Qed.
Definition ordered (l : list qvec) : Prop := StronglySorted vltP l.
Lemma setInsert_in v l x : In x (setInsert v l) -> x = v \/ In x l.
Proof. induction l as [|y l IH]; cbn [setInsert]; [intros [-> | []]; now left|]. destruct (vlt v y); [intros [-> | H]; [now left|now right]|]. destruct (vlt y v); [|now right]. intros [-> | H]; [right; now left|]. destruct (IH H); [now left|right; now right]. Qed.
Lemma setInsert_old v l x : In x l -> In x (setInsert v l).
Proof. induction l as [|y l IH]; cbn [setInsert]; [contradiction|]. intros H. destruct (vlt v y); [now right|]. destruct (vlt y v); [|exact H]. destruct H as [-> | H]; [now left|right; now apply IH]. Qed.
Lemma setInsert_new v l : exists x, In x (setInsert v l) /\ vsame x v.
Proof.
  induction l as [|y l (x & Hx & E)]; cbn [setInsert]; [exists v; split; [now left|apply vsame_refl]|]. destruct (vlt v y) eqn:E1; [exists v; split; [now left|apply vsame_refl]|]. destruct (vlt y v) eqn:E2; [exists x; split; [now right|exact E]|].
  exists y. split; [now left|now apply vlt_total].
Qed.
Lemma setInsert_ordered v l : ordered l -> ordered (setInsert v l).
Proof.
  induction l as [|y l IH]; intro H; cbn [setInsert]; [constructor; constructor|]. inversion H; subst. destruct (vlt v y) eqn:E1; [|destruct (vlt y v) eqn:E2; [|exact H]].
  - apply vlt_spec in E1. constructor; [exact H|]. constructor; [exact E1|]. eapply Forall_impl; [|exact H3]. intros z Hz. now apply vltP_trans with y.
  - apply vlt_spec in E2. constructor; [now apply IH|]. apply Forall_forall. intros z Hz. apply setInsert_in in Hz. destruct Hz as [-> | Hz]; [exact E2|]. rewrite Forall_forall in H3. now apply H3.
Qed.
Lemma ordered_unique l : ordered l -> forall i j a b, zget l i = Some a -> zget l j = Some b -> vsame a b -> i = j.
Proof.
  induction 1 as [|y l HS IH HF]; intros i j a b Hi Hj E; [apply zget_Some in Hi; unfold zlen in Hi; cbn in Hi; lia|]. rewrite Forall_forall in HF.
  pose proof (proj1 (zget_Some _ _ _ Hi)) as Bi. pose proof (proj1 (zget_Some _ _ _ Hj)) as Bj.
  destruct (Z.eq_dec i 0) as [-> | Ni], (Z.eq_dec j 0) as [-> | Nj]; [reflexivity| | |].
  - exfalso. rewrite zget_consS in Hj by lia. cbn in Hi. injection Hi as <-. apply (vltP_irr y b); [|exact E]. apply HF. apply zget_Some in Hj. apply Hj.
  - exfalso. rewrite zget_consS in Hi by lia. cbn in Hj. injection Hj as <-. apply (vltP_irr y a); [|now apply vsame_sym]. apply HF. apply zget_Some in Hi. apply Hi.
  - rewrite zget_consS in Hi, Hj by lia. assert (i - 1 = j - 1) by (eapply IH; eassumption). lia.
Qed.
Lemma findVec_some l v i : findVec l v = Some i -> exists x, zget l i = Some x /\ vsame x v.
Proof.
  revert i. induction l as [|y l IH]; intros i H; cbn [findVec] in H; [discriminate|]. destruct (vecEq y v) eqn:E; [injection H as <-; exists y; split; [reflexivity|now apply vecEq_spec]|].
  destruct (findVec l v) as [k|]; [|discriminate]. assert (Ei : i = 1 + k) by (unfold option_map in H; congruence). subst i. destruct (IH k eq_refl) as (x & Hx & Ex). exists x. split; [|exact Ex]. pose proof (proj1 (zget_Some _ _ _ Hx)). rewrite zget_consS by lia. replace (1 + k - 1) with k by lia. exact Hx.
Qed.
Lemma findVec_none l v x : findVec l v = None -> In x l -> ~ vsame x v.
Proof.
  induction l as [|y l IH]; cbn [findVec]; intros H Hin; [contradiction|]. destruct (vecEq y v) eqn:E; [discriminate|]. destruct (findVec l v); [discriminate|]. destruct Hin as [-> | Hin]; [|now apply IH]. rewrite <- vecEq_spec. congruence.
Qed.
Lemma findVec_at l v i x : ordered l -> zget l i = Some x -> vsame x v -> findVec l v = Some i.
Proof.
  intros HO Hx E. destruct (findVec l v) as [j|] eqn:Ef.
  - destruct (findVec_some l v j Ef) as (y & Hy & Ey). f_equal. apply (ordered_unique l HO j i y x Hy Hx). apply vsame_trans with v; [exact Ey|now apply vsame_sym].
  - exfalso. apply (findVec_none l v x Ef); [|exact E]. apply zget_Some in Hx. apply Hx.
Qed.
