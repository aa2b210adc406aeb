(** Lemmas on the collision operator. *)
From Coq Require Import QArith Qcanon Permutation.
From Verif Require Import Base BaseLemmas M_mpi M_points S_points M_irreducible M_matrix S_matrix L_fill L_irreducible L_matrix L_matrix2 L_matrix3 M_vbte S_vbte L_vbte M_scattering S_scattering.
Open Scope Z_scope.

(** * accumulation *)
Definition ite (b : bool) (x : Qc) : Qc := if b then x else 0%Qc.
Lemma add1_eq f a x b : add1 f a x b = (f b + ite (b =? a) x)%Qc.
Proof. unfold add1, ite. destruct (b =? a); ring. Qed.
Lemma add2_eq f a b x r c : add2 f a b x r c = (f r c + ite ((r =? a) && (c =? b)) x)%Qc.
Proof. unfold add2, ite. destruct ((r =? a) && (c =? b)); ring. Qed.
Lemma ite_and a b x : ite (a && b) x = ite a (ite b x).
Proof. destruct a, b; reflexivity. Qed.
Lemma qsum_ite {A} (c : bool) (f : A -> Qc) l : qsum (map (fun a => ite c (f a)) l) = ite c (qsum (map f l)).
Proof. destruct c; [reflexivity|apply qsum_zero]. Qed.
Lemma qsum_ext {A} (f g : A -> Qc) l : (forall a, In a l -> f a = g a) -> qsum (map f l) = qsum (map g l).
Proof. intro H. f_equal. apply map_ext_in. exact H. Qed.
Lemma qsum_filter {A} (p : A -> bool) (f : A -> Qc) l : qsum (map f (filter p l)) = qsum (map (fun a => ite (p a) (f a)) l).
Proof. induction l as [|a l IH]; [reflexivity|]. cbn [filter]. destruct (p a) eqn:E; cbn [map qsum fold_right]; unfold ite at 1; rewrite E; fold qsum; fold (qsum (map f (filter p l))); rewrite ?IH; unfold qsum; cbn [map fold_right]; ring. Qed.
Lemma qsum_flat_map {A B} (f : B -> Qc) (g : A -> list B) l : qsum (map f (flat_map g l)) = qsum (map (fun a => qsum (map f (g a))) l).
Proof. induction l as [|a l IH]; [reflexivity|]. cbn [flat_map]. rewrite map_app, qsum_app, IH. reflexivity. Qed.
Lemma qsum_incl {A} (f : A -> Qc) (l l' : list A) : (forall a b : A, {a = b} + {a <> b}) -> NoDup l -> NoDup l' -> incl l l' ->
  (forall a, In a l' -> ~ In a l -> f a = 0%Qc) -> qsum (map f l) = qsum (map f l').
Proof.
  intros D. revert l. induction l' as [|a l' IH]; intros l N N' I Z0.
  - destruct l as [|x l]; [reflexivity|]. destruct (I x (or_introl eq_refl)).
  - inversion N' as [|? ? Na N'' ]; subst. destruct (in_dec D a l) as [Ha|Ha].
    + destruct (in_split _ _ Ha) as (u & v & ->). assert (P : Permutation (u ++ a :: v) (a :: u ++ v)) by (symmetry; apply Permutation_middle).
      rewrite (qsum_perm _ _ (Permutation_map f P)). cbn [map qsum fold_right]. f_equal.
      assert (Nuv : NoDup (a :: u ++ v)) by (eapply Permutation_NoDup; eassumption). inversion Nuv as [|? ? Q1 Q2]; subst.
      apply IH; [exact Q2|exact N''| |].
      * intros x Hx. assert (In x (a :: l')) as [->|?] by (apply I; apply Permutation_in with (1 := Permutation_sym P); right; exact Hx); [contradiction|assumption].
      * intros x Hx Hn. apply Z0; [right; exact Hx|]. intro Hc. apply (Permutation_in _ P) in Hc. destruct Hc as [->|Hc]; [contradiction|contradiction].
    + cbn [map qsum fold_right]. rewrite (Z0 a (or_introl eq_refl) Ha). fold (qsum (map f l')). rewrite Qcplus_0_l. apply IH; [exact N|exact N''| |].
      * intros x Hx. destruct (I x Hx) as [->|?]; [contradiction|assumption].
      * intros x Hx Hn. apply Z0; [right; exact Hx|exact Hn].
Qed.
(** sum over indices of a term that is zero everywhere but at one of them *)
Lemma qsum_one {A} (f : A -> Qc) (l : list A) a : (forall a b : A, {a = b} + {a <> b}) -> NoDup l -> In a l ->
  (forall x, In x l -> x <> a -> f x = 0%Qc) -> qsum (map f l) = f a.
Proof.
  intros D N I Z0. rewrite <- (qsum_incl f [a] l D); [cbn; ring|constructor; [intros []|constructor]|exact N| |].
  - intros x [<-|[]]; exact I.
  - intros x Hx Hn. apply Z0; [exact Hx|]. intro. apply Hn. left. congruence.
Qed.

(** * std::set of pairs *)
Definition pdec : forall a b : Z * Z, {a = b} + {a <> b}.
Proof. decide equality; apply Z.eq_dec. Defined.
Lemma pairLtb_spec a b : pairLtb a b = true <-> fst a < fst b \/ (fst a = fst b /\ snd a < snd b).
Proof. unfold pairLtb. lia. Qed.
Fixpoint psorted (l : list (Z * Z)) : Prop :=
  match l with [] => True | x :: r => Forall (fun y => pairLtb x y = true) r /\ psorted r end.
Lemma insertPair_In x l y : In y (insertPair x l) <-> y = x \/ In y l.
Proof.
  induction l as [|z l IH]; cbn [insertPair]. { cbn. intuition. }
  destruct (pairLtb x z) eqn:E; [cbn; intuition|]. destruct (pairLtb z x) eqn:F.
  - cbn [In]. rewrite IH. intuition.
  - assert (z = x) as ->. { destruct x as [x1 x2], z as [z1 z2]. unfold pairLtb in *. cbn [fst snd] in *. f_equal; lia. } cbn. intuition.
Qed.
Lemma insertPair_sorted x l : psorted l -> psorted (insertPair x l).
Proof.
  induction l as [|z l IH]; intro H; cbn [insertPair]; [split; constructor|]. destruct H as [F S].
  destruct (pairLtb x z) eqn:E; [split; [constructor; [exact E|]|split; assumption]|destruct (pairLtb z x) eqn:E2; [|split; assumption]].
  - rewrite Forall_forall in *. intros y Hy. specialize (F y Hy). apply pairLtb_spec in E, F. apply pairLtb_spec. lia.
  - split; [|apply IH; exact S]. rewrite Forall_forall in *. intros y Hy. apply insertPair_In in Hy as [->|Hy]; [exact E2|apply F; exact Hy].
Qed.
Lemma psorted_NoDup l : psorted l -> NoDup l.
Proof.
  induction l as [|x l IH]; intro H; constructor; destruct H as [F S]; [|apply IH; exact S].
  intro Hx. rewrite Forall_forall in F. specialize (F x Hx). apply pairLtb_spec in F. lia.
Qed.
Lemma pairSet_gen l : forall s, psorted s -> psorted (fold_left (fun s x => insertPair x s) l s) /\
  forall y, In y (fold_left (fun s x => insertPair x s) l s) <-> In y s \/ In y l.
Proof.
  induction l as [|x l IH]; intros s H; cbn [fold_left]; [split; [exact H|cbn; intuition]|].
  destruct (IH (insertPair x s) (insertPair_sorted x s H)) as [A B]. split; [exact A|]. intro y. rewrite B, insertPair_In. cbn. intuition.
Qed.
Lemma pairSet_In l y : In y (pairSet l) <-> In y l.
Proof. unfold pairSet. rewrite (proj2 (pairSet_gen l [] I)). cbn. intuition. Qed.
Lemma pairSet_sorted l : psorted (pairSet l).
Proof. exact (proj1 (pairSet_gen l [] I)). Qed.
Lemma psorted_ext l : forall l', psorted l -> psorted l' -> (forall x, In x l <-> In x l') -> l = l'.
Proof.
  induction l as [|a l IH]; intros [|b l'] H H' E; [reflexivity|destruct (proj2 (E b) (or_introl eq_refl))|destruct (proj1 (E a) (or_introl eq_refl))|].
  destruct H as [F S], H' as [F' S']. rewrite Forall_forall in F, F'.
  assert (a = b) as ->.
  { destruct (proj1 (E a) (or_introl eq_refl)) as [->|Ha]; [reflexivity|]. destruct (proj2 (E b) (or_introl eq_refl)) as [->|Hb]; [reflexivity|].
    specialize (F b Hb). specialize (F' a Ha). apply pairLtb_spec in F, F'. lia. }
  f_equal. apply IH; [exact S|exact S'|]. intro x. split; intro Hx.
  - destruct (proj1 (E x) (or_intror Hx)) as [<-|?]; [|assumption]. specialize (F b Hx). apply pairLtb_spec in F. lia.
  - destruct (proj2 (E x) (or_intror Hx)) as [<-|?]; [|assumption]. specialize (F' b Hx). apply pairLtb_spec in F'. lia.
Qed.

(** * pairs of one process *)
Lemma localPairs_In G sym chunks k1 k2 : In (k1, k2) (localPairs G sym chunks) <->
  exists t, In t (concat chunks) /\ k1 = gPoint G (gB2S G (fst (ofMat sym (fst t)))) /\ In k2 (gStar G (gPoint G (gB2S G (fst (ofMat sym (snd t)))))).
Proof.
  unfold localPairs. rewrite pairSet_In. rewrite in_concat. split.
  - intros (x & Hx & Hk). apply in_map_iff in Hx as (c & <- & Hc). apply in_flat_map in Hk as (t & Ht & Hk). unfold elementPairs in Hk.
    apply in_map_iff in Hk as (k & E & Hk). injection E as <- <-. exists t. split; [apply in_concat; eauto|]. split; [reflexivity|exact Hk].
  - intros (t & Ht & -> & Hk). apply in_concat in Ht as (c & Hc & Ht). eexists. split; [apply in_map; exact Hc|]. apply in_flat_map. exists t. split; [exact Ht|].
    unfold elementPairs. apply in_map_iff. exists k2. split; [reflexivity|exact Hk].
Qed.
Lemma localPairs_NoDup G sym chunks : NoDup (localPairs G sym chunks).
Proof. apply psorted_NoDup, pairSet_sorted. Qed.
Lemma localPairs_perm G sym chunks chunks' : Permutation (concat chunks) (concat chunks') -> localPairs G sym chunks = localPairs G sym chunks'.
Proof.
  intro P. apply psorted_ext; try apply pairSet_sorted. intros [k1 k2].
  pose proof (localPairs_In G sym chunks k1 k2) as A. pose proof (localPairs_In G sym chunks' k1 k2) as B. rewrite A, B.
  split; intros (t & Ht & H); exists t; (split; [|exact H]); eapply Permutation_in; try eassumption. apply Permutation_sym; exact P.
Qed.

Lemma keysOf_gen l : forall s, increasing s -> increasing (fold_left (fun s x => insertSet x s) l s) /\
  forall y, In y (fold_left (fun s x => insertSet x s) l s) <-> In y s \/ In y l.
Proof.
  induction l as [|x l IH]; intros s H; cbn [fold_left]; [split; [exact H|cbn; intuition]|].
  destruct (IH (insertSet x s) (insertSet_increasing x s H)) as [A B]. split; [exact A|]. intro y. rewrite B, insertSet_In. cbn. intuition.
Qed.
Lemma keysOf_In l y : In y (keysOf l) <-> In y l.
Proof. unfold keysOf. rewrite (proj2 (keysOf_gen l [] I)). cbn. intuition. Qed.
Lemma increasing_NoDup l : increasing l -> NoDup l.
Proof.
  induction l as [|x l IH]; intro H; constructor; apply increasing_cons in H as [F S]; [|apply IH; exact S].
  intro Hx. specialize (F x Hx). lia.
Qed.
Lemma keysOf_NoDup l : NoDup (keysOf l).
Proof. apply increasing_NoDup. exact (proj1 (keysOf_gen l [] I)). Qed.
Lemma flatPairs_matrix pairs : NoDup pairs -> Permutation (pairsOf (matrixPairs pairs)) pairs.
Proof.
  intro N. apply NoDup_Permutation; [|exact N|].
  - unfold pairsOf, matrixPairs. rewrite flat_map_concat_map, map_map, <- flat_map_concat_map. cbn [fst snd]. apply NoDup_flat_map; [apply keysOf_NoDup| |].
    + intros k _. rewrite map_map. assert (NF : NoDup (filter (fun p => snd p =? k) pairs)) by (apply NoDup_filter; exact N).
      erewrite map_ext_in; [rewrite map_id; exact NF|]. intros [a b] Hp. apply filter_In in Hp as [_ Hb]. cbn [fst snd] in *. f_equal. lia.
    + intros k k' x _ _ H H'. apply in_map_iff in H as (? & <- & _). apply in_map_iff in H' as (? & E & _). injection E. intros. congruence.
  - intros [a b]. unfold pairsOf, matrixPairs. rewrite in_flat_map. split.
    + intros (p & Hp & H). apply in_map_iff in Hp as (k & <- & Hk). cbn [fst snd] in H. apply in_map_iff in H as (k1 & E & H). injection E as -> ->.
      apply in_map_iff in H as ([u v] & E & H). apply filter_In in H as [H Hv]. cbn [fst snd] in *. subst u. replace b with v by lia. exact H.
    + intro H. eexists. split; [apply in_map_iff; exists b; split; [reflexivity|]|].
      * apply keysOf_In. apply in_map_iff. exists (a, b). split; [reflexivity|exact H].
      * cbn [fst snd]. apply in_map_iff. exists a. split; [reflexivity|]. apply in_map_iff. exists (a, b). split; [reflexivity|]. apply filter_In. split; [exact H|]. cbn. lia.
Qed.
Lemma flatPairsRow_matrix pairs : NoDup pairs -> Permutation (pairsOfRow (matrixPairsRow pairs)) pairs.
Proof.
  intro N. apply NoDup_Permutation; [|exact N|].
  - unfold pairsOfRow, matrixPairsRow. rewrite flat_map_concat_map, map_map, <- flat_map_concat_map. cbn [fst snd]. apply NoDup_flat_map; [apply keysOf_NoDup| |].
    + intros k _. rewrite map_map. assert (NF : NoDup (filter (fun p => fst p =? k) pairs)) by (apply NoDup_filter; exact N).
      erewrite map_ext_in; [rewrite map_id; exact NF|]. intros [a b] Hp. apply filter_In in Hp as [_ Hb]. cbn [fst snd] in *. f_equal. lia.
    + intros k k' x _ _ H H'. apply in_map_iff in H as (? & <- & _). apply in_map_iff in H' as (? & E & _). injection E. intros. congruence.
  - intros [a b]. unfold pairsOfRow, matrixPairsRow. rewrite in_flat_map. split.
    + intros (p & Hp & H). apply in_map_iff in Hp as (k & <- & Hk). cbn [fst snd] in H. apply in_map_iff in H as (k1 & E & H). injection E as -> ->.
      apply in_map_iff in H as ([u v] & E & H). apply filter_In in H as [H Hv]. cbn [fst snd] in *. subst v. replace a with u by lia. exact H.
    + intro H. eexists. split; [apply in_map_iff; exists a; split; [reflexivity|]|].
      * apply keysOf_In. apply in_map_iff. exists (a, b). split; [reflexivity|exact H].
      * cbn [fst snd]. apply in_map_iff. exists b. split; [reflexivity|]. apply in_map_iff. exists (a, b). split; [reflexivity|]. apply filter_In. split; [exact H|]. cbn. lia.
Qed.
Lemma rankEvents_flat ev l : rankEvents ev l = flat_map (fun p => ev (fst p) (snd p)) (pairsOf l).
Proof.
  unfold rankEvents, pairsOf. induction l as [|[q1s q2] l IH]; [reflexivity|]. cbn [flat_map fst snd]. rewrite flat_map_app, <- IH. f_equal.
  induction q1s as [|a r IHr]; [reflexivity|]. cbn [map flat_map fst snd]. rewrite IHr. reflexivity.
Qed.
Lemma rankEventsRow_flat ev l : (forall p, In p l -> snd p <> -1) -> rankEventsRow ev l = flat_map (fun p => ev (fst p) (snd p)) (pairsOfRow l).
Proof.
  unfold rankEventsRow, pairsOfRow. induction l as [|[q2s q1] l IH]; intro H; [reflexivity|]. cbn [flat_map fst snd]. rewrite flat_map_app, <- IH by (intros p Hp; apply H; right; exact Hp).
  pose proof (H _ (or_introl eq_refl)) as H1. cbn [snd] in H1. replace (q1 =? -1) with false by lia. f_equal.
  clear. induction q2s as [|a r IHr]; [reflexivity|]. cbn [map flat_map fst snd]. rewrite IHr. reflexivity.
Qed.

(** * steps add contributions *)
Lemma fold_add_gen {S E : Type} (step : S -> E -> S) (view : S -> Qc) (g : E -> Qc) es : (forall s e, In e es -> view (step s e) = (view s + g e)%Qc) ->
  forall s, view (fold_left step es s) = (view s + qsum (map g es))%Qc.
Proof.
  induction es as [|e es IH]; intros H s; cbn [fold_left map]; [change (qsum []) with 0%Qc; ring|].
  rewrite IH by (intros s' e' I; apply H; right; exact I). rewrite H by (left; reflexivity). unfold qsum. cbn [fold_right]. ring.
Qed.
Lemma rankDot_sum x es i b : 0 <= i < 3 -> rankDot x es i b =
  qsum (map (fun e => ite (b =? evBte1 e) (ite (negb (evIs1 e =? evIs2Irr e)) (evOff e * rotate (evRot e) (fun j => x j (evBte2 e)) i) + evDiag e * x i (evBte1 e)))%Qc es).
Proof.
  intro Hi. unfold rankDot. rewrite (fold_add_gen (dotStep x) (fun f => f i b) (fun e => ite (b =? evBte1 e) (ite (negb (evIs1 e =? evIs2Irr e)) (evOff e * rotate (evRot e) (fun j => x j (evBte2 e)) i) + evDiag e * x i (evBte1 e)))%Qc).
  - cbv beta. ring.
  - intros s e _. unfold dotStep, three.
    assert (C : i = 0 \/ i = 1 \/ i = 2) by lia. cbn [fold_left].
    destruct (evIs1 e =? evIs2Irr e); cbn [negb]; rewrite !add2_eq; destruct C as [->|[->| ->]]; cbn [Z.eqb Pos.eqb andb ite]; destruct (b =? evBte1 e); cbn [andb ite]; ring.
Qed.
Lemma rankLinewidths_sum es b : rankLinewidths es b = qsum (map (fun e => ite (b =? evBte1 e) (evDiag e)) es).
Proof.
  unfold rankLinewidths. rewrite (fold_add_gen lwStep (fun f => f b) (fun e => ite (b =? evBte1 e) (evDiag e))); [cbv beta; ring|].
  intros s e _. apply add1_eq.
Qed.
(** contribution of an event to an element of the matrix before the diagonal is replaced *)
Definition elemOf (sym : bool) (e : event) (r c : Z) : Qc :=
  if sym then qsum (map (fun ij => ite ((r =? toMat sym (evBte1 e) (fst ij)) && (c =? toMat sym (evBte2 e) (snd ij))) (ite (negb (evIs1 e =? evIs2Irr e)) (evRot e (fst ij) (snd ij) * evOff e))%Qc) (list_prod three three))
  else ite ((r =? evBte1 e) && (c =? evBte2 e)) (evOff e).
Lemma matrix_lw sym own es b : fst (rankMatrix sym own es) b =
  qsum (map (fun e => ite (b =? evBte1 e) (ite (own (toMat sym (evBte1 e) 0) (toMat sym (evBte2 e) 0)) (evDiag e))) es).
Proof.
  unfold rankMatrix. rewrite (fold_add_gen (matrixStep sym own) (fun st => fst st b) (fun e => ite (b =? evBte1 e) (ite (own (toMat sym (evBte1 e) 0) (toMat sym (evBte2 e) 0)) (evDiag e)))); [cbn [fst]; ring|].
  intros s e _. unfold matrixStep. destruct sym.
  - rewrite (fold_add_gen _ (fun st => fst st b) (fun ij => ite ((fst ij =? 0) && (snd ij =? 0)) (ite (b =? evBte1 e) (ite (own (toMat true (evBte1 e) (fst ij)) (toMat true (evBte2 e) (snd ij))) (evDiag e))))).
    + unfold three. cbn [list_prod app map fst snd Z.eqb andb ite]. unfold qsum. cbn [fold_right]. ring.
    + intros [lw M] [i j] _. cbn [fst snd]. destruct (own _ _); cbn [fst]; [|destruct ((i =? 0) && (j =? 0)), (b =? evBte1 e); cbn [ite]; ring].
      destruct (i =? 0) eqn:Ei, (j =? 0) eqn:Ej; cbn [andb ite]; rewrite ?add1_eq; try ring.
  - destruct s as [lw M]. cbn [fst toMat]. destruct (own _ _); cbn [fst]; [apply add1_eq|destruct (b =? evBte1 e); cbn [ite]; ring].
Qed.
Lemma matrix_elem sym own es r c : snd (rankMatrix sym own es) r c = qsum (map (fun e => ite (own r c) (elemOf sym e r c)) es).
Proof.
  unfold rankMatrix. rewrite (fold_add_gen (matrixStep sym own) (fun st => snd st r c) (fun e => ite (own r c) (elemOf sym e r c))); [cbn [snd]; ring|].
  intros s e _. unfold matrixStep, elemOf. destruct sym.
  - rewrite (fold_add_gen _ (fun st => snd st r c) (fun ij => ite (own r c) (ite ((r =? toMat true (evBte1 e) (fst ij)) && (c =? toMat true (evBte2 e) (snd ij))) (ite (negb (evIs1 e =? evIs2Irr e)) (evRot e (fst ij) (snd ij) * evOff e))%Qc))).
    + rewrite qsum_ite. reflexivity.
    + intros [lw M] [i j] _. cbn [fst snd]. destruct ((r =? toMat true (evBte1 e) i) && (c =? toMat true (evBte2 e) j)) eqn:E.
      * assert (r = toMat true (evBte1 e) i) as <- by lia. assert (c = toMat true (evBte2 e) j) as <- by lia.
        destruct (own r c); cbn [snd ite]; [|ring]. destruct (evIs1 e =? evIs2Irr e); cbn [negb ite]; [ring|]. rewrite add2_eq. rewrite !Z.eqb_refl. reflexivity.
      * cbn [ite]. assert (Z0 : forall q : bool, ite q 0%Qc = 0%Qc) by (intros []; reflexivity). rewrite Z0. destruct (own _ _); cbn [snd]; [|ring]. destruct (evIs1 e =? evIs2Irr e); cbn [negb]; [ring|]. rewrite add2_eq, E. cbn [ite]. ring.
  - destruct s as [lw M]. cbn [snd]. destruct ((r =? evBte1 e) && (c =? evBte2 e)) eqn:E.
    + assert (r = evBte1 e) as <- by lia. assert (c = evBte2 e) as <- by lia. destruct (own r c); cbn [snd ite]; [rewrite add2_eq, !Z.eqb_refl; reflexivity|ring].
    + cbn [ite]. assert (Z0 : forall q : bool, ite q 0%Qc = 0%Qc) by (intros []; reflexivity). rewrite Z0. destruct (own (evBte1 e) (evBte2 e)); cbn [snd]; [rewrite add2_eq, E; cbn [ite]; ring|ring].
Qed.
