(** Acoustic sum rules. *)
From Coq Require Import QArith Qcanon Permutation.
From Verif Require Import Base BaseLemmas M_utilities M_matrix M_sumrule S_onsager S_sumrule L_utilities L_matrix L_matrix2 L_scattering L_scattering2 L_solver L_onsager.
From Coq Require Import Lia.
Open Scope Z_scope.

Lemma fidxb_spec x y : fidxb x y = true <-> x = y.
Proof.
  destruct x as ((((((n1 & n2) & n3) & i) & j) & na) & nb), y as ((((((m1 & m2) & m3) & k) & l) & ma) & mb). unfold fidxb.
  rewrite !andb_true_iff, !Z.eqb_eq. split; [intros ((((((-> & ->) & ->) & ->) & ->) & ->) & ->); reflexivity |].
  intros E. injection E as -> -> -> -> -> -> ->. repeat split.
Qed.
Lemma fidxb_refl x : fidxb x x = true. Proof. now apply fidxb_spec. Qed.
Lemma fidxb_neq x y : x <> y -> fidxb x y = false.
Proof. intros N. destruct (fidxb x y) eqn:E; [| reflexivity]. apply fidxb_spec in E. contradiction. Qed.
Lemma fidx_dec : forall x y : fidx, {x = y} + {x <> y}.
Proof. intros x y. destruct (fidxb x y) eqn:E; [left; now apply fidxb_spec | right; intros ->; rewrite fidxb_refl in E; discriminate]. Qed.
Lemma fset_same f x v : fset f x v x = v. Proof. unfold fset. now rewrite fidxb_refl. Qed.
Lemma fset_other f x v y : x <> y -> fset f x v y = f y. Proof. intros N. unfold fset. now rewrite fidxb_neq. Qed.

(** * Simple rule *)
Lemma nz_inject n : 0 < n -> Q2Qc (inject_Z n) <> 0%Qc.
Proof. intros H E. apply (f_equal this) in E. assert (K : (inject_Z n == 0)%Q) by (rewrite <- (Qred_correct (inject_Z n)); change (Qred (inject_Z n)) with (this (Q2Qc (inject_Z n))); rewrite E; reflexivity).
  unfold Qeq in K. cbn in K. lia. Qed.
Lemma sum_const n (c : Qc) : 0 <= n -> qsum (map (fun _ => c) (zrange 0 n)) = (Q2Qc (inject_Z n) * c)%Qc.
Proof.
  intros H. rewrite (qsum_ext _ (fun _ => c * 1)%Qc) by (intros; ring). rewrite (qsum_map_scale c (fun _ => 1%Qc)), qsum_ones, zrange_length, Z2Nat.id by lia. ring.
Qed.
Lemma simpleCharges_sum n z i j : 0 < n -> netCharge n (simpleCharges n z) i j = 0%Qc.
Proof.
  intros H. unfold netCharge, sumTo, simpleCharges. rewrite (qsum_map_sub (fun na => z na i j)), sum_const by lia. field. now apply nz_inject.
Qed.
Section Force.
Variables (nr1 nr2 nr3 nAt : Z).
Lemma rowSum_net f i j na : rowSum nr1 nr2 nr3 nAt f i j na = netForce nr1 nr2 nr3 nAt f i j na.
Proof.
  unfold rowSum, netForce, sumTo. rewrite qsum_list_prod. apply qsum_ext. intros nb _. unfold cells. rewrite qsum_list_prod, qsum_list_prod. reflexivity.
Qed.
Lemma in_cells c : In c (cells nr1 nr2 nr3) <-> 0 <= fst (fst c) < nr1 /\ 0 <= snd (fst c) < nr2 /\ 0 <= snd c < nr3.
Proof.
  destruct c as ((n1 & n2) & n3). unfold cells. rewrite !in_prod_iff, !in_zrange. cbn [fst snd]. lia.
Qed.
Lemma NoDup_cells : NoDup (cells nr1 nr2 nr3).
Proof. unfold cells. repeat apply NoDup_list_prod; apply NoDup_zrange. Qed.
Lemma rowSum_ext f g i j na : (forall n1 n2 n3 nb, f (n1, n2, n3, i, j, na, nb) = g (n1, n2, n3, i, j, na, nb)) -> rowSum nr1 nr2 nr3 nAt f i j na = rowSum nr1 nr2 nr3 nAt g i j na.
Proof. intros H. unfold rowSum. apply qsum_ext. intros (nb & ((n1 & n2) & n3)) _. apply H. Qed.
Definition tdec : forall a b : Z * Z * Z, {a = b} + {a <> b}.
Proof. intros. repeat decide equality. Defined.
Lemma onSite_inj p q : (let '(i, j, na) := p in onSite i j na) = (let '(i, j, na) := q in onSite i j na) -> p = q.
Proof. destruct p as ((i & j) & na), q as ((k & l) & ma). unfold onSite. intros E. injection E as -> -> ->. reflexivity. Qed.
Lemma simple_fold l : NoDup l -> forall f x,
  let F := fold_left (fun f p => let '(i, j, na) := p in fset f (onSite i j na) (f (onSite i j na) - rowSum nr1 nr2 nr3 nAt f i j na)%Qc) l f in
  ((exists i j na, In (i, j, na) l /\ x = onSite i j na /\ F x = (f x - rowSum nr1 nr2 nr3 nAt f i j na)%Qc) \/
   ((forall i j na, In (i, j, na) l -> x <> onSite i j na) /\ F x = f x)).
Proof.
  induction l as [|((i & j) & na) l IH]; intros N f x F.
  - right. split; [intros ? ? ? [] | reflexivity].
  - inversion N as [|? ? N1 N2]; subst. unfold F. cbn [fold_left]. set (f1 := fset f (onSite i j na) (f (onSite i j na) - rowSum nr1 nr2 nr3 nAt f i j na)%Qc).
    destruct (IH N2 f1 x) as [(k & l' & ma & I & E & V) | (O & V)]; cbv zeta in V.
    + left. exists k, l', ma. split; [now right |]. split; [exact E |]. rewrite V.
      assert (D : (i, j, na) <> (k, l', ma)) by (intros Q; apply N1; rewrite Q; exact I).
      assert (D' : onSite i j na <> onSite k l' ma) by (intros Q; apply D; exact (onSite_inj (i, j, na) (k, l', ma) Q)).
      rewrite E. unfold f1 at 1. rewrite fset_other by exact D'. rewrite (rowSum_ext f1 f k l' ma); [reflexivity |]. intros n1 n2 n3 nb. unfold f1. apply fset_other.
      intros Q. apply D. unfold onSite in Q. injection Q. congruence.
    + destruct (fidx_dec (onSite i j na) x) as [<- | D].
      * left. exists i, j, na. split; [now left |]. split; [reflexivity |]. rewrite V. unfold f1. now rewrite fset_same.
      * right. split; [| rewrite V; unfold f1; now rewrite fset_other].
        intros k l' ma [Q | I]; [injection Q as -> -> ->; congruence | now apply O].
Qed.
Lemma in_rows i j na : In (i, j, na) (list_prod (list_prod (zrange 0 3) (zrange 0 3)) (zrange 0 nAt)) <-> 0 <= i < 3 /\ 0 <= j < 3 /\ 0 <= na < nAt.
Proof. rewrite !in_prod_iff, !in_zrange. lia. Qed.
Lemma NoDup_rows : NoDup (list_prod (list_prod (zrange 0 3) (zrange 0 3)) (zrange 0 nAt)).
Proof. repeat apply NoDup_list_prod; apply NoDup_zrange. Qed.
Lemma simple_zero f i j na : 0 < nr1 -> 0 < nr2 -> 0 < nr3 -> 0 <= i < 3 -> 0 <= j < 3 -> 0 <= na < nAt ->
  netForce nr1 nr2 nr3 nAt (simpleForces nr1 nr2 nr3 nAt f) i j na = 0%Qc.
Proof.
  intros H1 H2 H3 Hi Hj Hn. rewrite <- rowSum_net. unfold rowSum at 1.
  set (R := rowSum nr1 nr2 nr3 nAt f i j na).
  rewrite (qsum_ext _ (fun p => (let '(nb, (n1, n2, n3)) := p in f (n1, n2, n3, i, j, na, nb)) - (let '(nb, (n1, n2, n3)) := p in if fidxb (onSite i j na) (n1, n2, n3, i, j, na, nb) then R else 0))%Qc).
  - rewrite qsum_map_sub. change (qsum (map _ _)) with R at 1. rewrite (qsum_one _ _ (na, (0, 0, 0))).
    + change (fidxb (onSite i j na) (0, 0, 0, i, j, na, na)) with (fidxb (onSite i j na) (onSite i j na)). rewrite fidxb_refl. ring.
    + intros. repeat decide equality.
    + apply NoDup_list_prod; [apply NoDup_zrange | apply NoDup_cells].
    + apply in_prod_iff. rewrite in_zrange, in_cells. cbn [fst snd]. lia.
    + intros (nb & ((n1 & n2) & n3)) _ D. rewrite fidxb_neq; [reflexivity |]. unfold onSite. intros Q. injection Q as <- <- <- <-. now apply D.
  - intros (nb & ((n1 & n2) & n3)) _. unfold simpleForces.
    destruct (simple_fold _ NoDup_rows f (n1, n2, n3, i, j, na, nb)) as [(k & l & ma & I & E & V) | (O & V)]; cbv zeta in V; rewrite V.
    + rewrite E at 2. unfold onSite in E. injection E as -> -> -> -> -> -> ->. change (0, 0, 0, k, l, ma, ma) with (onSite k l ma). rewrite fidxb_refl. reflexivity.
    + rewrite fidxb_neq; [ring |]. apply not_eq_sym, O. now apply in_rows.
Qed.
Lemma simple_others f x : (forall i j na, 0 <= i < 3 -> 0 <= j < 3 -> 0 <= na < nAt -> x <> (0, 0, 0, i, j, na, na)) -> simpleForces nr1 nr2 nr3 nAt f x = f x.
Proof.
  intros H. unfold simpleForces. destruct (simple_fold _ NoDup_rows f x) as [(k & l & ma & I & E & V) | (O & V)]; [| exact V].
  apply in_rows in I as (I1 & I2 & I3). exfalso. now apply (H k l ma I1 I2 I3).
Qed.
Lemma simple_fixed f : (forall i j na, 0 <= i < 3 -> 0 <= j < 3 -> 0 <= na < nAt -> netForce nr1 nr2 nr3 nAt f i j na = 0%Qc) -> forall x, simpleForces nr1 nr2 nr3 nAt f x = f x.
Proof.
  intros H x. unfold simpleForces. destruct (simple_fold _ NoDup_rows f x) as [(k & l & ma & I & E & V) | (O & V)]; [| exact V].
  apply in_rows in I as (I1 & I2 & I3). cbv zeta in V. rewrite V, rowSum_net, H by assumption. ring.
Qed.
End Force.

(** * Crystal rule on charges *)
Section Charges.
Variable nAt : Z.
Hypothesis PA : 0 < nAt.
Definition isVector (p : Z * Z) (u : option (cvec * Qc)) : Prop :=
  exists w, u = Some (w, Q2Qc (inject_Z nAt)) /\ forall a, w a = chargeVector (fst p) (snd p) a.
Lemma spZeu_ext u v u' v' : (forall a, u a = u' a) -> (forall a, v a = v' a) -> spZeu nAt u v = spZeu nAt u' v'.
Proof. intros A B. unfold spZeu. apply qsum_ext. intros a _. now rewrite A, B. Qed.
Lemma spZeu_sum i j v : 0 <= i < 3 -> 0 <= j < 3 -> spZeu nAt (chargeVector i j) v = qsum (map (fun na => v (i, j, na)) (zrange 0 nAt)).
Proof.
  intros Hi Hj. unfold spZeu, chargeIdx. rewrite qsum_list_prod. rewrite (qsum_one _ _ (i, j)).
  - apply qsum_ext. intros na _. unfold chargeVector. rewrite !Z.eqb_refl. cbn [andb]. ring.
  - apply pdec.
  - apply NoDup_list_prod; apply NoDup_zrange.
  - apply in_prod_iff. rewrite !in_zrange. lia.
  - intros (i' & j') _ D. rewrite (qsum_ext _ (fun _ => 0%Qc)); [apply qsum_zero |]. intros na _. unfold chargeVector.
    destruct (Z.eqb_spec i' i) as [-> | ]; [| cbn [andb]; ring]. destruct (Z.eqb_spec j' j) as [-> | ]; [congruence | cbn [andb]; ring].
Qed.
Lemma spZeu_two i j k l : 0 <= i < 3 -> 0 <= j < 3 -> spZeu nAt (chargeVector i j) (chargeVector k l) = if (i =? k) && (j =? l) then Q2Qc (inject_Z nAt) else 0%Qc.
Proof.
  intros Hi Hj. rewrite spZeu_sum by assumption. unfold chargeVector. destruct ((i =? k) && (j =? l)); rewrite sum_const by lia; ring.
Qed.
Lemma subProj_fold p l us : 0 <= fst p < 3 -> 0 <= snd p < 3 -> Forall2 isVector l us -> ~ In p l -> (forall q, In q l -> 0 <= fst q < 3 /\ 0 <= snd q < 3) ->
  forall w a, fold_left (subProj (spZeu nAt) (chargeVector (fst p) (snd p))) us w a = w a.
Proof.
  intros Hi Hj F. induction F as [|q u l us V F IH]; intros N R w a; [reflexivity |]. cbn [fold_left]. rewrite IH; [| intros C; apply N; now right | intros; apply R; now right].
  destruct V as (wq & -> & E). cbn [subProj]. rewrite (spZeu_ext _ wq (chargeVector (fst p) (snd p)) (chargeVector (fst q) (snd q))) by (intros; reflexivity || apply E).
  rewrite spZeu_two by assumption. destruct (Z.eqb_spec (fst p) (fst q)) as [E1 | ]; [destruct (Z.eqb_spec (snd p) (snd q)) as [E2 | ] |]; cbn [andb].
  - exfalso. apply N. left. destruct p, q; cbn in *; congruence.
  - unfold Qcdiv. ring.
  - unfold Qcdiv. ring.
Qed.
Lemma tiny_lt : (tiny < Q2Qc (inject_Z nAt))%Qc.
Proof.
  unfold Qclt, tiny. change (this (Q2Qc ?x)) with (Qred x). rewrite !Qred_correct. unfold Qlt, inject_Z. cbn [Qnum Qden]. lia.
Qed.
Lemma Forall2_firstn {A B} (R : A -> B -> Prop) n : forall l l', Forall2 R l l' -> Forall2 R (firstn n l) (firstn n l').
Proof. induction n as [|n IH]; intros l l' F; [constructor |]. destruct F; cbn; constructor; auto. Qed.
Lemma In_firstn {A} n (x : A) : forall l, In x (firstn n l) -> In x l.
Proof. induction n as [|n IH]; intros [|y l] I; cbn in I; try easy. destruct I as [-> | I]; [now left | right; auto]. Qed.
Lemma chargeBasis_fold l : forall done us, NoDup (done ++ l) -> (forall q, In q (done ++ l) -> 0 <= fst q < 3 /\ 0 <= snd q < 3) -> Forall2 isVector done us ->
  Forall2 isVector (done ++ l) (fold_left (chargeStep nAt) l us).
Proof.
  induction l as [|p l IH]; intros done us N R F; [now rewrite app_nil_r |]. cbn [fold_left].
  replace (done ++ p :: l) with ((done ++ [p]) ++ l) in * by (now rewrite <- app_assoc). apply IH; [exact N | exact R |].
  unfold chargeStep. apply Forall2_app; [exact F |]. constructor; [| constructor].
  assert (Rp : 0 <= fst p < 3 /\ 0 <= snd p < 3) by (apply R; rewrite !in_app_iff; left; right; now left).
  set (w := fold_left _ _ _). assert (W : forall a, w a = chargeVector (fst p) (snd p) a).
  { intros a. unfold w. rewrite (subProj_fold p (firstn (length us - 1) done)); [reflexivity | apply Rp | apply Rp | now apply Forall2_firstn | |].
    - intros I. apply In_firstn in I. rewrite <- app_assoc in N. cbn in N. apply NoDup_remove_2 in N. apply N. apply in_app_iff. now left.
    - intros q I. apply In_firstn in I. apply R. rewrite !in_app_iff. left. now left. }
  assert (E : spZeu nAt w w = Q2Qc (inject_Z nAt)).
  { rewrite (spZeu_ext w w _ _ W W), spZeu_two by apply Rp. now rewrite !Z.eqb_refl. }
  unfold keep. rewrite E. destruct (Qclt_le_dec tiny (Q2Qc (inject_Z nAt))) as [L | L]; [| exfalso; apply (Qclt_not_le _ _ tiny_lt); exact L].
  exists w. split; [reflexivity | exact W].
Qed.
Lemma chargeBasis_ok : Forall2 isVector (list_prod (zrange 0 3) (zrange 0 3)) (chargeBasis nAt).
Proof.
  unfold chargeBasis. apply (chargeBasis_fold (list_prod (zrange 0 3) (zrange 0 3)) [] []); cbn [app]; [apply NoDup_list_prod; apply NoDup_zrange | | constructor].
  intros (i & j) I. apply in_prod_iff in I. rewrite !in_zrange in I. cbn. lia.
Qed.
Lemma addProj_fold f l us : Forall2 isVector l us -> (forall q, In q l -> 0 <= fst q < 3 /\ 0 <= snd q < 3) -> forall w i j na,
  fold_left (addProj (spZeu nAt) f) us w (i, j, na) =
  (w (i, j, na) + qsum (map (fun q => if (i =? fst q) && (j =? snd q) then qsum (map (fun nb => f (fst q, snd q, nb)) (zrange 0 nAt)) / Q2Qc (inject_Z nAt) else 0) l))%Qc.
Proof.
  intros F. induction F as [|q u l us V F IH]; intros R w i j na; [cbn; ring |]. cbn [fold_left map]. rewrite IH by (intros; apply R; now right).
  change (qsum (?x :: ?m)) with (x + qsum m)%Qc. destruct V as (wq & -> & E). cbn [addProj]. rewrite (spZeu_ext wq f _ f E) by reflexivity.
  rewrite spZeu_sum by (apply R; now left). rewrite E. unfold chargeVector. destruct ((i =? fst q) && (j =? snd q)); ring.
Qed.
Lemma crystal_simple z na i j : 0 <= i < 3 -> 0 <= j < 3 -> crystalCharges nAt z na i j = simpleCharges nAt z na i j.
Proof.
  intros Hi Hj. unfold crystalCharges, simpleCharges. rewrite (addProj_fold _ _ _ chargeBasis_ok).
  - rewrite (qsum_one _ _ (i, j) pdec).
    + cbn [fst snd]. rewrite !Z.eqb_refl. cbn [andb]. ring.
    + apply NoDup_list_prod; apply NoDup_zrange.
    + apply in_prod_iff. rewrite !in_zrange. lia.
    + intros (k & l) _ D. cbn [fst snd]. destruct (Z.eqb_spec i k) as [-> | ]; [| reflexivity]. destruct (Z.eqb_spec j l) as [-> | ]; [congruence | reflexivity].
  - intros (k & l) I. apply in_prod_iff in I. rewrite !in_zrange in I. cbn. lia.
Qed.
Lemma crystalCharges_sum z i j : 0 <= i < 3 -> 0 <= j < 3 -> netCharge nAt (crystalCharges nAt z) i j = 0%Qc.
Proof.
  intros Hi Hj. rewrite <- (simpleCharges_sum nAt z i j PA). unfold netCharge, sumTo. apply qsum_ext. intros na _. now apply crystal_simple.
Qed.
End Charges.
