(** Storage of the triplets of a ShengBTE file. *)
From Coq Require Import Reals QArith Qreals Permutation.
From Verif Require Import Base BaseLemmas M_utilities M_complex M_electron S_electron M_phonon S_phonon M_interaction S_interaction.
From Coq Require Import Lia Lqa.
Open Scope Z_scope.

Lemma q3eqb_spec a b : q3eqb a b = true <-> (fst (fst a) == fst (fst b))%Q /\ (snd (fst a) == snd (fst b))%Q /\ (snd a == snd b)%Q.
Proof. unfold q3eqb. rewrite !Bool.andb_true_iff, !Qeq_bool_iff. tauto. Qed.
Lemma q3eqb_refl a : q3eqb a a = true. Proof. apply q3eqb_spec. repeat split; reflexivity. Qed.
Lemma q3eqb_sym a b : q3eqb a b = q3eqb b a.
Proof. apply Bool.eq_iff_eq_true. rewrite !q3eqb_spec. split; intros (H1 & H2 & H3); repeat split; symmetry; assumption. Qed.
Lemma q3eqb_trans a b c : q3eqb a b = true -> q3eqb b c = true -> q3eqb a c = true.
Proof. rewrite !q3eqb_spec. intros (H1 & H2 & H3) (K1 & K2 & K3). repeat split; [rewrite H1|rewrite H2|rewrite H3]; assumption. Qed.
Lemma q3vec_eq a b i : q3eqb a b = true -> q3vec a i = q3vec b i.
Proof. rewrite q3eqb_spec. intros (H1 & H2 & H3). unfold q3vec. apply Qeq_eqR. destruct (i =? 0); [exact H1|]. destruct (i =? 1); assumption. Qed.
Lemma close_eq a b : q3eqb a b = true -> closeTo a b = true.
Proof.
  rewrite q3eqb_spec. intros (H1 & H2 & H3). unfold closeTo. cbv zeta. apply Bool.negb_true_iff. apply Bool.not_true_iff_false. rewrite Qle_bool_iff. intro K.
  assert (E : ((fst (fst a) - fst (fst b)) * (fst (fst a) - fst (fst b)) + (snd (fst a) - snd (fst b)) * (snd (fst a) - snd (fst b)) + (snd a - snd b) * (snd a - snd b) == 0)%Q) by (rewrite H1, H2, H3; ring).
  rewrite E in K. apply K. reflexivity.
Qed.

Lemma positions_inv ps : forall l0, (forall i j x y, zget l0 i = Some x -> zget l0 j = Some y -> q3eqb x y = true -> i = j) ->
  let l := fold_left addPosition ps l0 in
  (forall x, In x l -> In x l0 \/ In x ps) /\ (forall x, In x l0 -> In x l) /\ (forall x, In x ps -> exists y, In y l /\ q3eqb x y = true) /\
  (forall i j x y, zget l i = Some x -> zget l j = Some y -> q3eqb x y = true -> i = j).
Proof.
  induction ps as [|p ps IH]; intros l0 D; cbn [fold_left]; cbv zeta.
  - split; [auto|]. split; [auto|]. split; [intros x []|exact D].
  - assert (D' : forall i j x y, zget (addPosition l0 p) i = Some x -> zget (addPosition l0 p) j = Some y -> q3eqb x y = true -> i = j).
    { unfold addPosition. destruct (existsb _ l0) eqn:X; [exact D|]. intros i j x y Hi Hj E.
      assert (NX : forall z k, zget l0 k = Some z -> q3eqb z p = true -> False).
      { intros z k Hk Hz. rewrite <- Bool.not_true_iff_false, existsb_exists in X. apply X. exists z. split; [|exact Hz]. unfold zget in Hk. destruct (k <? 0); [discriminate|]. apply nth_error_In in Hk. exact Hk. }
      assert (C : forall k z, zget (l0 ++ [p]) k = Some z -> zget l0 k = Some z \/ (k = zlen l0 /\ z = p)).
      { intros k z Hk. unfold zget in *. destruct (k <? 0) eqn:N; [discriminate|]. destruct (Nat.lt_ge_cases (Z.to_nat k) (length l0)) as [Q|Q].
        - rewrite nth_error_app1 in Hk by exact Q. left. exact Hk.
        - rewrite nth_error_app2 in Hk by exact Q. right. destruct (Z.to_nat k - length l0)%nat as [|m] eqn:M; [|destruct m; discriminate]. cbn in Hk. injection Hk as ->. unfold zlen. split; [lia|reflexivity]. }
      destruct (C i x Hi) as [A|[A ->]], (C j y Hj) as [B|[B ->]]; try lia.
      - exact (D i j x y A B E).
      - exfalso. exact (NX x i A E).
      - exfalso. rewrite q3eqb_sym in E. exact (NX y j B E). }
    destruct (IH (addPosition l0 p) D') as (I1 & I2 & I3 & I4). split; [|split; [|split]].
    + intros x Hx. destruct (I1 x Hx) as [A|A]; [|right; right; exact A]. unfold addPosition in A. destruct (existsb _ l0); [left; exact A|]. apply in_app_or in A as [A|[<-|[]]]; [left; exact A|right; left; reflexivity].
    + intros x Hx. apply I2. unfold addPosition. destruct (existsb _ l0); [exact Hx|]. apply in_or_app. left. exact Hx.
    + intros x [<-|Hx]; [|apply I3; exact Hx].
      assert (Y : exists y, In y (addPosition l0 p) /\ q3eqb p y = true).
      { unfold addPosition. destruct (existsb _ l0) eqn:X; [apply existsb_exists in X as (y & Hy & Ey); exists y; rewrite q3eqb_sym; auto|]. exists p. split; [apply in_or_app; right; left; reflexivity|apply q3eqb_refl]. }
      destruct Y as (y & Hy & Ey). exists y. split; [apply I2; exact Hy|exact Ey].
    + exact I4.
Qed.
Lemma positions_distinct ps : distinctOf ps (positions ps).
Proof.
  destruct (positions_inv ps []) as (I1 & _ & I3 & I4).
  { intros i j x y H. unfold zget in H. destruct (i <? 0); [discriminate|]. destruct (Z.to_nat i); discriminate. }
  split; [intros x Hx; destruct (I1 x Hx) as [[]|A]; exact A|]. split; assumption.
Qed.

(** * The index of a position *)
Lemma findFrom_ok l p : (exists y, In y l /\ closeTo p y = true) -> forall i, exists k x, findFrom i l p = Ok (i + k) /\ zget l k = Some x /\ closeTo p x = true.
Proof.
  induction l as [|a l IH]; intros (y & Hy & Cy) i; [destruct Hy|]. cbn [findFrom]. destruct (closeTo p a) eqn:C.
  - exists 0, a. split; [f_equal; lia|]. split; [reflexivity|exact C].
  - destruct Hy as [->|Hy]; [congruence|]. destruct (IH (ex_intro _ y (conj Hy Cy)) (i + 1)) as (k & x & E & G & Cx). exists (k + 1), x. split; [rewrite E; f_equal; lia|]. split; [|exact Cx].
    unfold zget in *. destruct (k <? 0) eqn:N; [discriminate|]. replace (k + 1 <? 0) with false by lia. replace (Z.to_nat (k + 1)) with (S (Z.to_nat k)) by lia. exact G.
Qed.
Lemma zget_range {A} (l : list A) k x : zget l k = Some x -> 0 <= k < zlen l.
Proof. unfold zget, zlen. destruct (k <? 0) eqn:N; [discriminate|]. intro H. assert (Z.to_nat k < length l)%nat by (apply nth_error_Some; congruence). lia. Qed.
Lemma zget_in {A} (l : list A) k x : zget l k = Some x -> In x l.
Proof. unfold zget. destruct (k <? 0); [discriminate|]. apply nth_error_In. Qed.
Lemma index_ok ps p : Separated ps -> In p ps -> exists k x, findIndexRow (positions ps) p = Ok k /\ zget (positions ps) k = Some x /\ q3eqb p x = true /\
  forall r y, zget (positions ps) r = Some y -> (k =? r) = q3eqb p y.
Proof.
  intros S Hp. destruct (positions_distinct ps) as (D1 & D2 & D3). destruct (D2 p Hp) as (y & Hy & Ey).
  destruct (findFrom_ok (positions ps) p (ex_intro _ y (conj Hy (close_eq _ _ Ey))) 0) as (k & x & E & G & C). exists k, x. split; [exact E|]. split; [exact G|].
  assert (EX : q3eqb p x = true) by (apply S; [exact Hp|apply D1; exact (zget_in _ _ _ G)|exact C]). split; [exact EX|].
  intros r z Hr. apply Bool.eq_iff_eq_true. split.
  - intro H. assert (k = r) by lia. subst r. rewrite G in Hr. injection Hr as <-. exact EX.
  - intro H. apply Z.eqb_eq. apply (D3 k r x z G Hr). apply (q3eqb_trans x p z); [rewrite q3eqb_sym; exact EX|exact H].
Qed.
Lemma index_exists ps p : In p ps -> exists k, findIndexRow (positions ps) p = Ok k.
Proof.
  intro Hp. destruct (positions_distinct ps) as (_ & D2 & _). destruct (D2 p Hp) as (y & Hy & Ey).
  destruct (findFrom_ok (positions ps) p (ex_intro _ y (conj Hy (close_eq _ _ Ey))) 0) as (k & x & E & _). exists k. exact E.
Qed.

(** * Writes *)
Lemma foldM_app {A S} (f : S -> A -> res S) l l' s : foldM f (l ++ l') s = (do s' <- foldM f l s; foldM f l' s').
Proof. revert s. induction l as [|a l IH]; intro s; [reflexivity|]. cbn [app foldM bind]. destruct (f s a); cbn [bind]; [apply IH|reflexivity|reflexivity]. Qed.
Definition memAfter {A} (off : A -> Z) (val : A -> R) (l : list A) (m : Z -> R) (o : Z) : R := match find (fun w => off w =? o) (rev l) with Some w => val w | None => m o end.
Lemma find_app {A} (f : A -> bool) l l' : find f (l ++ l') = match find f l with Some x => Some x | None => find f l' end.
Proof. induction l as [|a l IH]; [reflexivity|]. cbn [app find]. destruct (f a); [reflexivity|exact IH]. Qed.
Lemma writes_ok {A} size (off : A -> Z) (val : A -> R) l : (forall w, In w l -> 0 <= off w < size) -> forall m,
  exists m', foldM (fun m w => writeAt size m (off w) (val w)) l m = Ok m' /\ forall o, m' o = memAfter off val l m o.
Proof.
  intros H. induction l as [|a l IH]; intro m; [exists m; split; reflexivity|]. cbn [foldM]. unfold writeAt at 1.
  assert (Ha := H a (or_introl eq_refl)). replace (0 <=? off a) with true by lia. replace (off a <? size) with true by lia. cbn [andb bind].
  destruct (IH (fun w Hw => H w (or_intror Hw)) (fun k => if k =? off a then val a else m k)) as (m' & E & V). exists m'. split; [exact E|].
  intro o. rewrite V. unfold memAfter. cbn [rev]. rewrite find_app. destruct (find _ (rev l)); [reflexivity|]. cbn [find]. rewrite (Z.eqb_sym (off a)). destruct (o =? off a); reflexivity.
Qed.

(** * Offsets *)
Lemma offset_range nb n i1 i2 i3 a b : 0 <= i1 < nb -> 0 <= i2 < nb -> 0 <= i3 < nb -> 0 <= a < n -> 0 <= b < n -> 0 <= offset5 nb n i1 i2 i3 a b < size5 nb n n.
Proof.
  intros. unfold offset5, size5.
  assert (B : forall x m y k, 0 <= x < m -> 0 <= y < k -> 0 <= x + m * y < m * k) by (intros; nia).
  apply B; [assumption|]. apply B; [assumption|]. apply B; [assumption|]. apply B; assumption.
Qed.
Lemma mix_inj m x y x' y' : 0 <= x < m -> 0 <= x' < m -> x + m * y = x' + m * y' -> x = x' /\ y = y'.
Proof. intros H H' E. assert (y = y') by nia. subst. lia. Qed.
Lemma offset_inj nb n i1 i2 i3 a b j1 j2 j3 c d : 0 <= i1 < nb -> 0 <= i2 < nb -> 0 <= i3 < nb -> 0 <= a < n -> 0 <= j1 < nb -> 0 <= j2 < nb -> 0 <= j3 < nb -> 0 <= c < n ->
  offset5 nb n i1 i2 i3 a b = offset5 nb n j1 j2 j3 c d -> i1 = j1 /\ i2 = j2 /\ i3 = j3 /\ a = c /\ b = d.
Proof.
  intros H1 H2 H3 H4 K1 K2 K3 K4 E. unfold offset5 in E. apply mix_inj in E as [E1 E]; [|assumption..]. apply mix_inj in E as [E2 E]; [|assumption..]. apply mix_inj in E as [E3 E]; [|assumption..]. apply mix_inj in E as [E4 E]; [|assumption..]. auto.
Qed.
Lemma in_components c : In c components <-> 0 <= fst (fst c) < 3 /\ 0 <= snd (fst c) < 3 /\ 0 <= snd c < 3.
Proof. destruct c as [[x y] z]. unfold components. rewrite !in_prod_iff, !in_zrange. cbn [fst snd]. lia. Qed.
