(** Sums of the Onsager coefficients and linear response. *)
From Coq Require Import QArith Qcanon Qcabs Lqa.
From Verif Require Import Base BaseLemmas M_matrix M_vbte M_onsager S_onsager L_matrix2 L_vbte L_scattering L_solver.
From Coq Require Import Lia.
Open Scope Z_scope.

(** * Sums *)
Definition term4 (norm mu : Qc) (p : irrState * mat) (i j : Z) : Qc * Qc * Qc * Qc :=
  let '(s, r) := p in
  let nE := rotated r (oNE s) in let nT := rotated r (oNT s) in let v := rotated r (oVel s) in
  ((nE i * v j * norm)%Qc, (nT i * v j * norm)%Qc, (nE i * v j * (oEn s - mu) * norm)%Qc, (nT i * v j * (oEn s - mu) * norm)%Qc).
Definition pEE norm mu p i j := fst (fst (fst (term4 norm mu p i j))).
Definition pET norm mu p i j := snd (fst (fst (term4 norm mu p i j))).
Definition pTE norm mu p i j := snd (fst (term4 norm mu p i j)).
Definition pTT norm mu p i j := snd (term4 norm mu p i j).
(** [t] has the four sums of the list [l] added to those of [z] *)
Definition holds4 (norm mu : Qc) (z t : onsager) (l : list (irrState * mat)) : Prop := forall i j,
  LEE t i j = (LEE z i j + qsum (map (fun p => pEE norm mu p i j) l))%Qc /\ LET t i j = (LET z i j + qsum (map (fun p => pET norm mu p i j) l))%Qc /\
  LTE t i j = (LTE z i j + qsum (map (fun p => pTE norm mu p i j) l))%Qc /\ LTT t i j = (LTT z i j + qsum (map (fun p => pTT norm mu p i j) l))%Qc.
Lemma holds4_nil norm mu z : holds4 norm mu z z [].
Proof. intros i j. cbn [map]. change (qsum []) with 0%Qc. repeat split; ring. Qed.
Lemma holds4_trans norm mu z t u l l' : holds4 norm mu z t l -> holds4 norm mu t u l' -> holds4 norm mu z u (l ++ l').
Proof.
  intros H K i j. destruct (H i j) as (H1 & H2 & H3 & H4), (K i j) as (K1 & K2 & K3 & K4). rewrite !map_app, !qsum_app, K1, K2, K3, K4, H1, H2, H3, H4.
  repeat split; ring.
Qed.
Lemma addRot_holds norm mu s z r : holds4 norm mu z (addRot norm mu s z r) [(s, r)].
Proof. intros i j. cbn [map qsum fold_right]. unfold pEE, pET, pTE, pTT, term4. cbn [fst snd addRot LEE LET LTE LTT]. repeat split; unfold rotate, rotated; ring. Qed.
Lemma fold_rots norm mu s rots : forall z, holds4 norm mu z (fold_left (addRot norm mu s) rots z) (map (fun r => (s, r)) rots).
Proof.
  induction rots as [|r rots IH]; intros z; cbn [fold_left map]; [apply holds4_nil |].
  apply (holds4_trans norm mu z (addRot norm mu s z r) _ [(s, r)]); [apply addRot_holds | apply IH].
Qed.
Definition starList (l : list irrState) : list (irrState * mat) := flat_map (fun s => map (fun r => (s, r)) (oRots s)) l.
Lemma threadSum_holds norm mu chunk : holds4 norm mu zeroOnsager (threadSum norm mu chunk) (starList chunk).
Proof.
  unfold threadSum. generalize zeroOnsager. induction chunk as [|s chunk IH]; intros z; cbn [fold_left starList flat_map]; [apply holds4_nil |].
  eapply holds4_trans; [apply fold_rots | apply IH].
Qed.
Lemma fold_add norm mu (ts : list onsager) ls : Forall2 (fun t l => holds4 norm mu zeroOnsager t l) ts ls ->
  forall z, holds4 norm mu z (fold_left addOnsager ts z) (concat ls).
Proof.
  intros H. induction H as [| t l ts ls H1 H IH]; intros z; cbn [fold_left concat]; [apply holds4_nil |].
  eapply holds4_trans; [| apply IH]. intros i j. destruct (H1 i j) as (A & B & C & D). cbn [LEE LET LTE LTT addOnsager zeroOnsager] in *.
  rewrite A, B, C, D. repeat split; ring.
Qed.
Lemma forall2_map {A B C} (f : A -> B) (g : A -> C) (R : B -> C -> Prop) l : (forall a, In a l -> R (f a) (g a)) -> Forall2 R (map f l) (map g l).
Proof. induction l as [|a l IH]; intros H; constructor; [apply H; now left | apply IH; intros; apply H; now right]. Qed.
Lemma starList_app l l' : starList (l ++ l') = starList l ++ starList l'.
Proof. unfold starList. apply flat_map_app. Qed.
Lemma starList_concat ll : starList (concat ll) = concat (map starList ll).
Proof. induction ll as [|l ll IH]; [reflexivity |]. cbn [concat map]. now rewrite starList_app, IH. Qed.
Lemma fromPopulations_holds norm mu ranks : holds4 norm mu zeroOnsager (fromPopulations norm mu ranks) (fullStates ranks).
Proof.
  unfold fromPopulations, fullStates. change (flat_map _ (concat (concat ranks))) with (starList (concat (concat ranks))).
  rewrite starList_concat.
  replace (concat (map starList (concat ranks))) with (concat (map (fun chunks => starList (concat chunks)) ranks)).
  2: { induction ranks as [|c ranks IH]; [reflexivity |]. cbn [map concat]. rewrite map_app, concat_app, <- IH, starList_concat. reflexivity. }
  apply fold_add. apply forall2_map. intros chunks _. unfold processSum. rewrite starList_concat. apply fold_add. apply forall2_map. intros chunk _. apply threadSum_holds.
Qed.
Lemma fromPopulations_sums norm mu ranks i j : let F := fullStates ranks in let o := fromPopulations norm mu ranks in
  LEE o i j = qsum (map (fun p => rotated (snd p) (oNE (fst p)) i * rotated (snd p) (oVel (fst p)) j * norm)%Qc F) /\
  LET o i j = qsum (map (fun p => rotated (snd p) (oNT (fst p)) i * rotated (snd p) (oVel (fst p)) j * norm)%Qc F) /\
  LTE o i j = qsum (map (fun p => rotated (snd p) (oNE (fst p)) i * rotated (snd p) (oVel (fst p)) j * (oEn (fst p) - mu) * norm)%Qc F) /\
  LTT o i j = qsum (map (fun p => rotated (snd p) (oNT (fst p)) i * rotated (snd p) (oVel (fst p)) j * (oEn (fst p) - mu) * norm)%Qc F).
Proof.
  cbv zeta. destruct (fromPopulations_holds norm mu ranks i j) as (A & B & C & D). rewrite A, B, C, D.
  cbn [zeroOnsager LEE LET LTE LTT].
  assert (G : forall f g : irrState * mat -> Qc, (forall p, f p = g p) -> (0 + qsum (map f (fullStates ranks)))%Qc = qsum (map g (fullStates ranks))).
  { intros f g E. rewrite (qsum_ext f g) by (intros; apply E). ring. }
  repeat split; apply G; intros [s r]; reflexivity.
Qed.

(** * Finite sums over directions *)
Lemma sumTo_ext d f g : (forall i, 0 <= i < d -> f i = g i) -> sumTo d f = sumTo d g.
Proof. intros H. apply qsum_ext. intros i I. apply in_zrange in I. apply H. lia. Qed.
Lemma sumTo_add d f g : sumTo d (fun i => f i + g i)%Qc = (sumTo d f + sumTo d g)%Qc.
Proof. apply qsum_map_add. Qed.
Lemma sumTo_scale d k f : sumTo d (fun i => k * f i)%Qc = (k * sumTo d f)%Qc.
Proof. apply qsum_map_scale. Qed.
Lemma sumTo_scale_r d k f : sumTo d (fun i => f i * k)%Qc = (sumTo d f * k)%Qc.
Proof. rewrite Qcmult_comm, <- sumTo_scale. apply sumTo_ext. intros. ring. Qed.
Lemma sumTo_neg d f : sumTo d (fun i => - f i)%Qc = (- sumTo d f)%Qc.
Proof. transitivity (sumTo d (fun i => (- (1)) * f i)%Qc); [apply sumTo_ext; intros; ring | rewrite sumTo_scale; ring]. Qed.
Lemma sumTo_swap d d' f : sumTo d (fun i => sumTo d' (fun j => f i j)) = sumTo d' (fun j => sumTo d (fun i => f i j)).
Proof. apply qsum_swap. Qed.
Lemma sumTo_qsum {A} d (f : Z -> A -> Qc) l : sumTo d (fun i => qsum (map (f i) l)) = qsum (map (fun a => sumTo d (fun i => f i a)) l).
Proof. unfold sumTo. apply qsum_swap. Qed.
Lemma sumTo_delta d i f : 0 <= i < d -> sumTo d (fun k => (if i =? k then 1 else 0) * f k)%Qc = f i.
Proof.
  intros H. unfold sumTo. rewrite (qsum_one _ _ i Z.eq_dec (NoDup_zrange 0 d)). { rewrite Z.eqb_refl. ring. } { apply in_zrange. lia. }
  intros k _ N. replace (i =? k) with false by (symmetry; apply Z.eqb_neq; congruence). ring.
Qed.

(** * Open circuit *)
Lemma seebeck_eq d inv o i j : seebeckOf d inv o i j = sumTo d (fun k => inv i k * LET o k j)%Qc.
Proof. unfold seebeckOf, mneg, mmul. fold (sumTo d (fun k => - inv i k * LET o k j)%Qc). rewrite <- sumTo_neg. apply sumTo_ext. intros. ring. Qed.
Lemma kappa_eq d inv o i j : kappaOf d inv o i j = (sumTo d (fun k => LTE o i k * seebeckOf d inv o k j) - LTT o i j)%Qc.
Proof.
  unfold kappaOf, mneg, msub, mmul. fold (sumTo d (fun k => qsum (map (fun k0 => LTE o i k0 * inv k0 k) (zrange 0 d)) * LET o k j)%Qc).
  replace (sumTo d (fun k => LTE o i k * seebeckOf d inv o k j)%Qc) with (sumTo d (fun k => qsum (map (fun k0 => LTE o i k0 * inv k0 k) (zrange 0 d)) * LET o k j)%Qc); [ring |].
  transitivity (sumTo d (fun k => sumTo d (fun k0 => LTE o i k0 * inv k0 k * LET o k j)%Qc)).
  { apply sumTo_ext. intros k _. rewrite sumTo_scale_r. reflexivity. }
  rewrite sumTo_swap. apply sumTo_ext. intros k _. rewrite seebeck_eq, <- sumTo_scale. apply sumTo_ext. intros. ring.
Qed.
Lemma open_circuit d o X : isInverse d (LEE o) X -> isSymmetric d (LEE o) -> isSymmetric d (LET o) -> isSymmetric d (LTE o) -> isSymmetric d (LTT o) ->
  forall g j, 0 <= j < d ->
  current d o (counterForce d (seebeckOf d X o) g) g j = 0%Qc /\
  heat d o (counterForce d (seebeckOf d X o) g) g j = (- sumTo d (fun k => kappaOf d X o j k * g k))%Qc.
Proof.
  intros INV S1 S2 S3 S4 g j Hj.
  assert (G : forall M : mat, isSymmetric d M -> sumTo d (fun i => counterForce d (seebeckOf d X o) g i * M i j)%Qc = (- sumTo d (fun k => sumTo d (fun i => M j i * seebeckOf d X o i k) * g k))%Qc).
  { intros M SM. unfold counterForce. rewrite <- sumTo_neg. transitivity (sumTo d (fun i => sumTo d (fun k => - (M j i * seebeckOf d X o i k * g k))%Qc)).
    - apply sumTo_ext. intros i Hi. rewrite (SM i j Hi Hj).
      transitivity (sumTo d (fun k => seebeckOf d X o i k * g k)%Qc * (- M j i))%Qc; [ring |]. rewrite <- sumTo_scale_r. apply sumTo_ext. intros. ring.
    - rewrite sumTo_swap. apply sumTo_ext. intros k _. rewrite <- sumTo_scale_r, <- sumTo_neg. apply sumTo_ext. intros. ring. }
  assert (E : forall k, 0 <= k < d -> sumTo d (fun i => LEE o j i * seebeckOf d X o i k)%Qc = LET o j k).
  { intros k Hk. transitivity (sumTo d (fun i => sumTo d (fun l => LEE o j i * X i l * LET o l k)%Qc)).
    { apply sumTo_ext. intros i _. rewrite seebeck_eq, <- sumTo_scale. apply sumTo_ext. intros. ring. }
    rewrite sumTo_swap. transitivity (sumTo d (fun l => (if j =? l then 1 else 0) * LET o l k)%Qc); [| exact (sumTo_delta d j (fun l => LET o l k) Hj)].
    apply sumTo_ext. intros l Hl. rewrite sumTo_scale_r. now rewrite (proj1 (INV j l Hj Hl)). }
  unfold current, heat. rewrite (G (LEE o) S1), (G (LTE o) S3). split.
  - rewrite (sumTo_ext d _ (fun k => g k * LET o k j)%Qc); [ring |]. intros k Hk. rewrite (E k Hk), (S2 j k Hj Hk). ring.
  - rewrite <- !sumTo_neg, <- sumTo_add. apply sumTo_ext. intros k Hk. rewrite kappa_eq, (S4 j k Hj Hk). ring.
Qed.

(** * Second law in the relaxation time approximation *)
Lemma rotated_lin r (a : Qc) v w i : (forall k, 0 <= k < 3 -> w k = (a * v k)%Qc) -> rotated r w i = (a * rotated r v i)%Qc.
Proof. intros H. unfold rotated. rewrite (H 0), (H 1), (H 2) by lia. ring. Qed.
Section RTA.
Variables (norm mu T : Qc) (ranks : list (list (list irrState))) (weight : irrState -> Qc).
Hypothesis RTA : forall s, In s (concat (concat ranks)) -> rtaPopulations T mu weight s.
Let F := fullStates ranks.
Let o := fromPopulations norm mu ranks.
Lemma full_in p : In p F -> In (fst p) (concat (concat ranks)).
Proof. unfold F, fullStates. intros I. apply in_flat_map in I as (s & I & K). apply in_map_iff in K as (r & <- & _). exact I. Qed.
Definition vOf (p : irrState * mat) (i : Z) : Qc := rotated (snd p) (oVel (fst p)) i.
Definition wOf (p : irrState * mat) : Qc := (weight (fst p) * norm)%Qc.
Definition eOf (p : irrState * mat) : Qc := (oEn (fst p) - mu)%Qc.
Lemma rotE p i : In p F -> rotated (snd p) (oNE (fst p)) i = (weight (fst p) * vOf p i)%Qc.
Proof. intros I. apply rotated_lin. intros k Hk. apply (RTA _ (full_in p I) k Hk). Qed.
Lemma rotT p i : In p F -> rotated (snd p) (oNT (fst p)) i = (- (weight (fst p) * (eOf p / T)) * vOf p i)%Qc.
Proof. intros I. apply rotated_lin. intros k Hk. rewrite (proj2 (RTA _ (full_in p I) k Hk)). unfold eOf. ring. Qed.
Lemma rta_tensors i j :
  LEE o i j = qsum (map (fun p => wOf p * (vOf p i * vOf p j))%Qc F) /\
  LET o i j = qsum (map (fun p => - (wOf p * (eOf p / T)) * (vOf p i * vOf p j))%Qc F) /\
  LTE o i j = qsum (map (fun p => wOf p * eOf p * (vOf p i * vOf p j))%Qc F) /\
  LTT o i j = qsum (map (fun p => - (wOf p * eOf p * (eOf p / T)) * (vOf p i * vOf p j))%Qc F).
Proof.
  destruct (fromPopulations_sums norm mu ranks i j) as (A & B & C & D). fold o F in A, B, C, D. rewrite A, B, C, D.
  repeat split; apply qsum_ext; intros p I; rewrite ?(rotE p i I), ?(rotT p i I); unfold wOf, vOf, eOf; ring.
Qed.
Lemma rta_symmetric d : isSymmetric d (LEE o) /\ isSymmetric d (LET o) /\ isSymmetric d (LTE o) /\ isSymmetric d (LTT o).
Proof.
  repeat split; intros i j _ _; destruct (rta_tensors i j) as (A & B & C & D), (rta_tensors j i) as (A' & B' & C' & D');
    rewrite ?A, ?B, ?C, ?D, ?A', ?B', ?C', ?D'; apply qsum_ext; intros; ring.
Qed.
Lemma rta_reciprocity i j : T <> 0%Qc -> LTE o i j = (- (T * LET o j i))%Qc.
Proof.
  intros NT. destruct (rta_tensors i j) as (_ & _ & C & _), (rta_tensors j i) as (_ & B & _ & _). rewrite C, B.
  transitivity ((- T) * qsum (map (fun p => - (wOf p * (eOf p / T)) * (vOf p j * vOf p i))%Qc F))%Qc; [| ring].
  rewrite <- qsum_map_scale. apply qsum_ext. intros. field. exact NT.
Qed.
Hypothesis W : forall s, In s (concat (concat ranks)) -> (0 <= weight s)%Qc.
Hypothesis NN : (0 <= norm)%Qc.
Lemma w_nonneg p : In p F -> (0 <= wOf p)%Qc.
Proof. intros I. apply Qcmult_nonneg; [apply W, full_in, I | exact NN]. Qed.
Lemma quadratic (c : irrState * mat -> Qc) (M : mat) d e : (forall i j, M i j = qsum (map (fun p => c p * (vOf p i * vOf p j))%Qc F)) ->
  sumTo d (fun i => sumTo d (fun j => e i * M i j * e j)%Qc) = qsum (map (fun p => c p * (sumTo d (fun i => e i * vOf p i) * sumTo d (fun j => e j * vOf p j)))%Qc F).
Proof.
  intros H. transitivity (sumTo d (fun i => qsum (map (fun p => c p * (e i * vOf p i) * sumTo d (fun j => e j * vOf p j))%Qc F))).
  - apply sumTo_ext. intros i _. transitivity (sumTo d (fun j => qsum (map (fun p => c p * (e i * vOf p i) * (e j * vOf p j))%Qc F))).
    + apply sumTo_ext. intros j _. rewrite H. rewrite (Qcmult_comm (e i)), <- Qcmult_assoc, (Qcmult_comm (qsum _)), <- qsum_map_scale. apply qsum_ext. intros. ring.
    + rewrite sumTo_qsum. apply qsum_ext. intros p _. now rewrite sumTo_scale.
  - rewrite sumTo_qsum. apply qsum_ext. intros p _.
    transitivity (sumTo d (fun i => (c p * sumTo d (fun j => e j * vOf p j)) * (e i * vOf p i))%Qc); [apply sumTo_ext; intros; ring |]. rewrite sumTo_scale. ring.
Qed.
Lemma sigma_psd d e : (0 <= sumTo d (fun i => sumTo d (fun j => e i * sigmaOf o i j * e j)))%Qc.
Proof.
  unfold sigmaOf. rewrite (quadratic wOf (LEE o)) by (intros; apply rta_tensors). apply qsum_nonneg. intros p I. apply Qcmult_nonneg; [now apply w_nonneg | apply sq_nonneg].
Qed.
(** response amplitude of a state *)
Lemma current_rta d e g j : current d o e g j = qsum (map (fun p => wOf p * (sumTo d (fun i => e i * vOf p i) - eOf p / T * sumTo d (fun i => g i * vOf p i)) * vOf p j)%Qc F).
Proof.
  unfold current. rewrite <- sumTo_add.
  transitivity (sumTo d (fun i => qsum (map (fun p => wOf p * vOf p j * (e i * vOf p i - eOf p / T * (g i * vOf p i)))%Qc F))).
  { apply sumTo_ext. intros i _. destruct (rta_tensors i j) as (A & B & _ & _). rewrite A, B, <- !qsum_map_scale, <- qsum_map_add. apply qsum_ext. intros. ring. }
  rewrite sumTo_qsum. apply qsum_ext. intros p _. rewrite sumTo_scale.
  rewrite (sumTo_ext d (fun i => e i * vOf p i - eOf p / T * (g i * vOf p i))%Qc (fun i => e i * vOf p i + (- (eOf p / T)) * (g i * vOf p i))%Qc) by (intros; ring).
  rewrite sumTo_add, sumTo_scale. ring.
Qed.
Lemma heat_rta d e g j : heat d o e g j = qsum (map (fun p => wOf p * eOf p * (sumTo d (fun i => e i * vOf p i) - eOf p / T * sumTo d (fun i => g i * vOf p i)) * vOf p j)%Qc F).
Proof.
  unfold heat. rewrite <- sumTo_add.
  transitivity (sumTo d (fun i => qsum (map (fun p => wOf p * eOf p * vOf p j * (e i * vOf p i - eOf p / T * (g i * vOf p i)))%Qc F))).
  { apply sumTo_ext. intros i _. destruct (rta_tensors i j) as (_ & _ & A & B). rewrite A, B, <- !qsum_map_scale, <- qsum_map_add. apply qsum_ext. intros. ring. }
  rewrite sumTo_qsum. apply qsum_ext. intros p _. rewrite sumTo_scale.
  rewrite (sumTo_ext d (fun i => e i * vOf p i - eOf p / T * (g i * vOf p i))%Qc (fun i => e i * vOf p i + (- (eOf p / T)) * (g i * vOf p i))%Qc) by (intros; ring).
  rewrite sumTo_add, sumTo_scale. ring.
Qed.
Lemma dissipation d e g : T <> 0%Qc ->
  (T * sumTo d (fun j => e j * current d o e g j) - sumTo d (fun j => g j * heat d o e g j) =
   T * qsum (map (fun p => wOf p * ((sumTo d (fun i => e i * vOf p i) - eOf p / T * sumTo d (fun i => g i * vOf p i)) * (sumTo d (fun i => e i * vOf p i) - eOf p / T * sumTo d (fun i => g i * vOf p i)))) F))%Qc.
Proof.
  intros NT. set (a := fun p => (sumTo d (fun i => e i * vOf p i) - eOf p / T * sumTo d (fun i => g i * vOf p i))%Qc).
  assert (J : sumTo d (fun j => e j * current d o e g j)%Qc = qsum (map (fun p => wOf p * a p * sumTo d (fun i => e i * vOf p i))%Qc F)).
  { transitivity (sumTo d (fun j => qsum (map (fun p => wOf p * a p * (e j * vOf p j))%Qc F))).
    { apply sumTo_ext. intros j _. rewrite current_rta, <- qsum_map_scale. apply qsum_ext. intros. unfold a. ring. }
    rewrite sumTo_qsum. apply qsum_ext. intros. now rewrite sumTo_scale. }
  assert (Q : sumTo d (fun j => g j * heat d o e g j)%Qc = qsum (map (fun p => wOf p * eOf p * a p * sumTo d (fun i => g i * vOf p i))%Qc F)).
  { transitivity (sumTo d (fun j => qsum (map (fun p => wOf p * eOf p * a p * (g j * vOf p j))%Qc F))).
    { apply sumTo_ext. intros j _. rewrite heat_rta, <- qsum_map_scale. apply qsum_ext. intros. unfold a. ring. }
    rewrite sumTo_qsum. apply qsum_ext. intros. now rewrite sumTo_scale. }
  rewrite J, Q, <- !qsum_map_scale. rewrite <- qsum_map_sub. apply qsum_ext. intros p _. unfold a. field. exact NT.
Qed.
Lemma kappa_psd d X g : (0 < T)%Qc -> isInverse d (LEE o) X -> (0 <= sumTo d (fun i => sumTo d (fun j => g i * kappaOf d X o i j * g j)))%Qc.
Proof.
  intros PT INV. pose proof (Qcpos_neq T PT) as NT. destruct (rta_symmetric d) as (S1 & S2 & S3 & S4).
  pose proof (fun j Hj => open_circuit d o X INV S1 S2 S3 S4 g j Hj) as OC.
  set (e := counterForce d (seebeckOf d X o) g) in *. pose proof (dissipation d e g NT) as D.
  assert (J : sumTo d (fun j => e j * current d o e g j)%Qc = 0%Qc).
  { transitivity (sumTo d (fun j => 0 * e j)%Qc); [apply sumTo_ext; intros j Hj; rewrite (proj1 (OC j Hj)); ring | rewrite sumTo_scale; ring]. }
  assert (Q : sumTo d (fun j => g j * heat d o e g j)%Qc = (- sumTo d (fun i => sumTo d (fun j => g i * kappaOf d X o i j * g j)))%Qc).
  { rewrite <- sumTo_neg. apply sumTo_ext. intros i Hi. rewrite (proj2 (OC i Hi)). transitivity ((- g i) * sumTo d (fun k => kappaOf d X o i k * g k))%Qc; [ring |].
    rewrite <- sumTo_scale, <- sumTo_neg. apply sumTo_ext. intros. ring. }
  rewrite J, Q in D.
  match type of D with (?l = ?r)%Qc => assert (G : (0 <= r)%Qc) end.
  { apply Qcmult_nonneg; [now apply Qclt_le_weak |]. apply qsum_nonneg. intros p I. apply Qcmult_nonneg; [now apply w_nonneg | apply sq_nonneg]. }
  rewrite <- D in G. match type of G with (0 <= ?l)%Qc => match goal with |- (0 <= ?k)%Qc => replace k with l by ring end end. exact G.
Qed.
End RTA.
