(** Crystal sum rule on force constants. *)
From Coq Require Import QArith Qcanon Permutation.
From Verif Require Import Base BaseLemmas M_utilities M_matrix M_sumrule S_onsager S_sumrule L_utilities L_matrix L_matrix2 L_scattering L_scattering2 L_solver L_onsager L_sumrule.
From Coq Require Import Lia.
Open Scope Z_scope.

Ltac fld := rewrite ?two_eq; field; vm_compute; discriminate.
Lemma half a : ((a + a) / Q2Qc 2 = a)%Qc.
Proof. fld. Qed.
Section Force.
Variables (nr1 nr2 nr3 nAt : Z).
Hypothesis (P1 : 0 < nr1) (P2 : 0 < nr2) (P3 : 0 < nr3).
Notation inR := (inRange nr1 nr2 nr3 nAt).
Notation part := (partner nr1 nr2 nr3).
Notation all := (allIdx nr1 nr2 nr3 nAt).
Lemma modZ_neg n a : 0 < n -> modZ (n - a) n = (- a) mod n.
Proof. intros H. rewrite modZ_pos by lia. replace (n - a) with (- a + 1 * n) by lia. apply Z.mod_add. lia. Qed.
Lemma partner_mirror x : part x = mirror nr1 nr2 nr3 x.
Proof. destruct x as ((((((n1 & n2) & n3) & i) & j) & na) & nb). unfold partner, mirror. now rewrite !modZ_neg by assumption. Qed.
Lemma partner_in x : inR x -> inR (part x).
Proof.
  destruct x as ((((((n1 & n2) & n3) & i) & j) & na) & nb). unfold inRange, partner. intros (? & ? & ? & ? & ? & ? & ?).
  pose proof (modZ_range (nr1 - n1) nr1 P1). pose proof (modZ_range (nr2 - n2) nr2 P2). pose proof (modZ_range (nr3 - n3) nr3 P3). repeat split; lia.
Qed.
Lemma neg_neg a n : 0 < n -> 0 <= a < n -> modZ (n - modZ (n - a) n) n = a.
Proof.
  intros Hn Ha. rewrite !modZ_pos by lia. destruct (Z.eq_dec a 0) as [-> | N].
  - rewrite Z.sub_0_r, Z_mod_same_full, Z.sub_0_r. apply Z_mod_same_full.
  - rewrite (Z.mod_small (n - a)) by lia. replace (n - (n - a)) with a by lia. apply Z.mod_small. lia.
Qed.
Lemma partner_partner x : inR x -> part (part x) = x.
Proof.
  destruct x as ((((((n1 & n2) & n3) & i) & j) & na) & nb). unfold inRange. intros (? & ? & ? & ? & ? & ? & ?). unfold partner.
  rewrite !neg_neg by assumption. reflexivity.
Qed.
Lemma in_all x : In x all <-> inR x.
Proof.
  destruct x as ((((((n1 & n2) & n3) & i) & j) & na) & nb). unfold allIdx, inRange. split.
  - intros I. apply in_flat_map in I as (i' & I1 & I). apply in_flat_map in I as (j' & I2 & I). apply in_flat_map in I as (a' & I3 & I). apply in_flat_map in I as (b' & I4 & I).
    apply in_map_iff in I as (((m1 & m2) & m3) & E & I). injection E as -> -> -> -> -> -> ->. apply in_cells in I. cbn [fst snd] in I. rewrite !in_zrange in *. lia.
  - intros (H1 & H2 & H3 & Hi & Hj & Ha & Hb). apply in_flat_map. exists i. split; [apply in_zrange; lia |]. apply in_flat_map. exists j. split; [apply in_zrange; lia |].
    apply in_flat_map. exists na. split; [apply in_zrange; lia |]. apply in_flat_map. exists nb. split; [apply in_zrange; lia |].
    apply in_map_iff. exists (n1, n2, n3). split; [reflexivity |]. apply in_cells. cbn [fst snd]. lia.
Qed.
Lemma NoDup_all : NoDup all.
Proof.
  unfold allIdx. repeat (apply NoDup_flat_map; [apply NoDup_zrange | intros ? _ |]).
  - apply FinFun.Injective_map_NoDup; [| apply NoDup_cells]. intros ((x & y) & z) ((x' & y') & z') E. injection E as -> -> ->. reflexivity.
  - intros q q' x _ _ I I'. apply in_map_iff in I as (((? & ?) & ?) & <- & _). apply in_map_iff in I' as (((? & ?) & ?) & E & _). congruence.
  - intros q q' x _ _ I I'. apply in_flat_map in I as (? & _ & I). apply in_flat_map in I' as (? & _ & I').
    apply in_map_iff in I as (((? & ?) & ?) & <- & _). apply in_map_iff in I' as (((? & ?) & ?) & E & _). congruence.
  - intros q q' x _ _ I I'. do 2 (apply in_flat_map in I as (? & _ & I)). do 2 (apply in_flat_map in I' as (? & _ & I')).
    apply in_map_iff in I as (((? & ?) & ?) & <- & _). apply in_map_iff in I' as (((? & ?) & ?) & E & _). congruence.
  - intros q q' x _ _ I I'. do 3 (apply in_flat_map in I as (? & _ & I)). do 3 (apply in_flat_map in I' as (? & _ & I')).
    apply in_map_iff in I as (((? & ?) & ?) & <- & _). apply in_map_iff in I' as (((? & ?) & ?) & E & _). congruence.
Qed.
Lemma perm_partner : Permutation (map part all) all.
Proof.
  apply NoDup_Permutation_bis.
  - assert (G : forall l, NoDup l -> (forall x, In x l -> inR x) -> NoDup (map part l)).
    { intros l N. induction N as [|x l I N IH]; intros R; [constructor |]. cbn. constructor; [| apply IH; intros; apply R; now right].
      intros C. apply in_map_iff in C as (y & E & J). apply I. rewrite <- (partner_partner x), <- E, partner_partner; [exact J | apply R; now right | apply R; now left]. }
    apply G; [apply NoDup_all | intros x I; now apply in_all].
  - now rewrite map_length.
  - intros y I. apply in_map_iff in I as (x & <- & I). apply in_all, partner_in, in_all, I.
Qed.
Lemma sum_partner (f : fvec) : qsum (map (fun x => f (part x)) all) = qsum (map f all).
Proof. rewrite <- (map_map part f). apply qsum_perm, Permutation_map, perm_partner. Qed.

(** ** pairs *)
Definition flat (l : list (fidx * fidx)) : list fidx := flat_map (fun p => [fst p; snd p]) l.
Definition goodPairs (l : list (fidx * fidx)) : Prop := NoDup (flat l) /\ forall p, In p l -> snd p = part (fst p) /\ inR (fst p).
Lemma in_flat l x : In x (flat l) <-> exists p, In p l /\ (fst p = x \/ snd p = x).
Proof.
  unfold flat. rewrite in_flat_map. split; intros (p & I & C); exists p; (split; [exact I |]); cbn in *; tauto.
Qed.
Lemma flat_app l l' : flat (l ++ l') = flat l ++ flat l'.
Proof. unfold flat. apply flat_map_app. Qed.
Lemma flat_closed l x : goodPairs l -> In x (flat l) -> In (part x) (flat l).
Proof.
  intros (_ & G) I. apply in_flat in I as (p & I & C). destruct (G p I) as (E & R). apply in_flat. exists p. split; [exact I |].
  destruct C as [<- | <-]; [right; exact E | left; rewrite E; symmetry; now apply partner_partner].
Qed.
Lemma pairs_ok : goodPairs (pairs nr1 nr2 nr3 nAt) /\ forall x, inR x -> part x = x \/ In x (flat (pairs nr1 nr2 nr3 nAt)).
Proof.
  unfold pairs. assert (G : forall l acc, (forall x, In x l -> inR x) -> goodPairs acc ->
    goodPairs (fold_left (addPair nr1 nr2 nr3) l acc) /\ (forall x, In x (flat acc) -> In x (flat (fold_left (addPair nr1 nr2 nr3) l acc))) /\
    forall x, In x l -> part x = x \/ In x (flat (fold_left (addPair nr1 nr2 nr3) l acc))).
  { induction l as [|x l IH]; intros acc R G; [split; [exact G | split; [auto | intros ? []]] |]. cbn [fold_left].
    assert (K : goodPairs (addPair nr1 nr2 nr3 acc x) /\ (forall y, In y (flat acc) -> In y (flat (addPair nr1 nr2 nr3 acc x))) /\ (part x = x \/ In x (flat (addPair nr1 nr2 nr3 acc x)))).
    { unfold addPair. destruct (existsb _ acc) eqn:E.
      - split; [exact G | split; [auto |]]. right. apply existsb_exists in E as (p & I & E). apply in_flat. exists p. split; [exact I |]. apply orb_true_iff in E as [E | E]; apply fidxb_spec in E; auto.
      - destruct (fidxb x (part x)) eqn:S; [split; [exact G | split; [auto | left; apply fidxb_spec in S; congruence]] |].
        assert (NS : x <> part x) by (intros Q; apply fidxb_spec in Q; congruence).
        assert (NI : ~ In x (flat acc)).
        { intros C. apply in_flat in C as (p & I & C). assert (T : existsb (fun p => fidxb (fst p) x || fidxb (snd p) x) acc = true); [| congruence].
          apply existsb_exists. exists p. split; [exact I |]. apply orb_true_iff. destruct C as [C | C]; apply fidxb_spec in C; auto. }
        assert (Rx : inR x) by (apply R; now left).
        split; [split |].
        + rewrite flat_app. cbn. apply Permutation_NoDup with (x :: part x :: flat acc); [rewrite Permutation_app_comm; reflexivity |].
          constructor; [intros [C | C]; [congruence | contradiction] |]. constructor; [| apply G]. intros C. apply NI. rewrite <- (partner_partner x Rx). now apply flat_closed.
        + intros p I. apply in_app_iff in I as [I | [<- | []]]; [now apply G |]. cbn. split; [reflexivity | exact Rx].
        + split; [intros y I; rewrite flat_app; apply in_app_iff; now left |]. right. rewrite flat_app. apply in_app_iff. right. now left. }
    destruct K as (K1 & K2 & K3). destruct (IH (addPair nr1 nr2 nr3 acc x)) as (J1 & J2 & J3); [intros; apply R; now right | exact K1 |].
    split; [exact J1 |]. split; [auto |]. intros y [<- | I]; [destruct K3; auto | auto]. }
  destruct (G all [] (fun x => proj1 (in_all x))) as (A & _ & B); [split; [constructor | intros ? []] |].
  split; [exact A |]. intros x R. apply B. now apply in_all.
Qed.

(** ** projections on pairs *)
Lemma remove_fold l : goodPairs l -> forall w x, inR x ->
  fold_left removePair l w x = if in_dec fidx_dec x (flat l) then ((w x + w (part x)) / Q2Qc 2)%Qc else w x.
Proof.
  induction l as [|p l IH]; intros (N & G) w x R; [reflexivity |]. cbn [fold_left].
  destruct (G p (or_introl eq_refl)) as (E & Rp). assert (Gl : goodPairs l).
  { split; [cbn in N; inversion N as [|? ? _ N']; now inversion N' | intros; apply G; now right]. }
  assert (N2 : fst p <> snd p) by (cbn in N; inversion N as [|? ? C _]; intros Q; apply C; left; congruence).
  assert (Nf : ~ In (fst p) (flat l)) by (cbn in N; inversion N as [|? ? C _]; intros Q; apply C; now right).
  assert (Ns : ~ In (snd p) (flat l)) by (cbn in N; inversion N as [|? ? _ N']; inversion N' as [|? ? C _]; exact C).
  rewrite IH by assumption. set (w1 := removePair w p).
  assert (V1 : w1 (fst p) = ((w (fst p) + w (snd p)) / Q2Qc 2)%Qc).
  { unfold w1, removePair. rewrite fset_other by congruence. rewrite fset_same. fld. }
  assert (V2 : w1 (snd p) = ((w (fst p) + w (snd p)) / Q2Qc 2)%Qc).
  { unfold w1, removePair. rewrite fset_same. rewrite fset_other by congruence. fld. }
  assert (V3 : forall y, y <> fst p -> y <> snd p -> w1 y = w y).
  { intros y A B. unfold w1, removePair. rewrite !fset_other by congruence. reflexivity. }
  assert (PS : part (snd p) = fst p) by (rewrite E; now apply partner_partner).
  destruct (fidx_dec x (fst p)) as [-> | D1]; [| destruct (fidx_dec x (snd p)) as [-> | D2]].
  - destruct (in_dec fidx_dec (fst p) (flat l)) as [C | _]; [contradiction |]. destruct (in_dec fidx_dec (fst p) (flat (p :: l))) as [_ | C]; [| exfalso; apply C; now left].
    rewrite V1, <- E. reflexivity.
  - destruct (in_dec fidx_dec (snd p) (flat l)) as [C | _]; [contradiction |]. destruct (in_dec fidx_dec (snd p) (flat (p :: l))) as [_ | C]; [| exfalso; apply C; right; now left].
    rewrite V2, PS. fld.
  - assert (D3 : part x <> fst p) by (intros Q; apply D2; rewrite E, <- Q; symmetry; now apply partner_partner).
    assert (D4 : part x <> snd p) by (intros Q; apply D1; rewrite <- PS, <- Q; symmetry; now apply partner_partner).
    rewrite !V3 by assumption. destruct (in_dec fidx_dec x (flat l)) as [C | C], (in_dec fidx_dec x (flat (p :: l))) as [C' | C']; try reflexivity.
    + exfalso. apply C'. right. now right.
    + exfalso. cbn in C'. destruct C' as [Q | [Q | Q]]; [congruence | congruence | contradiction].
Qed.
Lemma add_fold f l : goodPairs l -> forall w x, inR x ->
  fold_left (addPairProj f) l w x = if in_dec fidx_dec x (flat l) then (w x + (f x - f (part x)) / Q2Qc 2)%Qc else w x.
Proof.
  induction l as [|p l IH]; intros (N & G) w x R; [reflexivity |]. cbn [fold_left].
  destruct (G p (or_introl eq_refl)) as (E & Rp). assert (Gl : goodPairs l).
  { split; [cbn in N; inversion N as [|? ? _ N']; now inversion N' | intros; apply G; now right]. }
  assert (N2 : fst p <> snd p) by (cbn in N; inversion N as [|? ? C _]; intros Q; apply C; left; congruence).
  assert (Nf : ~ In (fst p) (flat l)) by (cbn in N; inversion N as [|? ? C _]; intros Q; apply C; now right).
  assert (Ns : ~ In (snd p) (flat l)) by (cbn in N; inversion N as [|? ? _ N']; inversion N' as [|? ? C _]; exact C).
  rewrite IH by assumption. set (w1 := addPairProj f w p).
  assert (V1 : w1 (fst p) = (w (fst p) + (f (fst p) - f (snd p)) / Q2Qc 2)%Qc).
  { unfold w1, addPairProj. rewrite fset_other by congruence. now rewrite fset_same. }
  assert (V2 : w1 (snd p) = (w (snd p) + (f (snd p) - f (fst p)) / Q2Qc 2)%Qc).
  { unfold w1, addPairProj. rewrite fset_same. rewrite fset_other by congruence. fld. }
  assert (V3 : forall y, y <> fst p -> y <> snd p -> w1 y = w y).
  { intros y A B. unfold w1, addPairProj. rewrite !fset_other by congruence. reflexivity. }
  assert (PS : part (snd p) = fst p) by (rewrite E; now apply partner_partner).
  destruct (fidx_dec x (fst p)) as [-> | D1]; [| destruct (fidx_dec x (snd p)) as [-> | D2]].
  - destruct (in_dec fidx_dec (fst p) (flat l)) as [C | _]; [contradiction |]. destruct (in_dec fidx_dec (fst p) (flat (p :: l))) as [_ | C]; [| exfalso; apply C; now left].
    rewrite V1, <- E. reflexivity.
  - destruct (in_dec fidx_dec (snd p) (flat l)) as [C | _]; [contradiction |]. destruct (in_dec fidx_dec (snd p) (flat (p :: l))) as [_ | C]; [| exfalso; apply C; right; now left].
    rewrite V2, PS. reflexivity.
  - rewrite V3 by assumption. destruct (in_dec fidx_dec x (flat l)) as [C | C], (in_dec fidx_dec x (flat (p :: l))) as [C' | C']; try reflexivity.
    + exfalso. apply C'. right. now right.
    + exfalso. cbn in C'. destruct C' as [Q | [Q | Q]]; [congruence | congruence | contradiction].
Qed.
Notation prs := (pairs nr1 nr2 nr3 nAt).
Lemma remove_all w x : inR x -> fold_left removePair prs w x = ((w x + w (part x)) / Q2Qc 2)%Qc.
Proof.
  intros R. destruct pairs_ok as (G & C). rewrite remove_fold by assumption. destruct (in_dec fidx_dec x (flat prs)) as [_ | N]; [reflexivity |].
  destruct (C x R) as [E | I]; [rewrite E; symmetry; apply half | contradiction].
Qed.
Lemma add_all f x : inR x -> fold_left (addPairProj f) prs (fun _ => 0%Qc) x = ((f x - f (part x)) / Q2Qc 2)%Qc.
Proof.
  intros R. destruct pairs_ok as (G & C). rewrite add_fold by assumption. destruct (in_dec fidx_dec x (flat prs)) as [_ | N]; [ring |].
  destruct (C x R) as [E | I]; [rewrite E; fld | contradiction].
Qed.

(** ** the vectors kept *)
Section Invariant.
Variable Q : fvec -> Prop.
Hypothesis Qext : forall u v, (forall x, inR x -> u x = v x) -> Q u -> Q v.
Hypothesis Qsub : forall u v c, Q u -> Q v -> Q (fun x => u x - c * v x)%Qc.
Hypothesis Qsum : forall i j na, 0 <= i < 3 -> 0 <= j < 3 -> 0 <= na < nAt -> Q (fun x => (sumVector i j na x + sumVector i j na (part x)) / Q2Qc 2)%Qc.
Definition keptQ (u : option (fvec * Qc)) : Prop := match u with Some (w, _) => Q w | None => True end.
Lemma subProj_Q ip x us : Forall keptQ us -> forall w, Q w -> Q (fold_left (subProj ip x) us w).
Proof.
  intros F. induction F as [|u us H F IH]; intros w Qw; [exact Qw |]. cbn [fold_left]. apply IH. destruct u as [(wq & n2) |]; [| exact Qw]. cbn [subProj]. apply Qsub; assumption.
Qed.
Lemma forceStep_Q us p : 0 <= fst (fst p) < 3 -> 0 <= snd (fst p) < 3 -> 0 <= snd p < nAt -> Forall keptQ us -> Forall keptQ (forceStep nr1 nr2 nr3 nAt us p).
Proof.
  destruct p as ((i & j) & na). cbn [fst snd]. intros Hi Hj Ha F. unfold forceStep. destruct (decodeVector nAt (Z.of_nat (length us) + 1)) as (i1 & na1).
  apply Forall_app. split; [exact F |]. constructor; [| constructor]. unfold keep. destruct (Qclt_le_dec _ _); [| exact I]. cbn [keptQ]. apply subProj_Q; [exact F |].
  apply (Qext (fun x => (sumVector i j na x + sumVector i j na (part x)) / Q2Qc 2)%Qc); [| now apply Qsum]. intros x R. symmetry. now apply remove_all.
Qed.
Lemma forceBasis_Q : Forall keptQ (forceBasis nr1 nr2 nr3 nAt).
Proof.
  unfold forceBasis. assert (R : forall p, In p (sumVectors nAt) -> 0 <= fst (fst p) < 3 /\ 0 <= snd (fst p) < 3 /\ 0 <= snd p < nAt).
  { intros p I. unfold sumVectors in I. apply in_flat_map in I as (na & I1 & I). apply in_flat_map in I as (j & I2 & I). apply in_map_iff in I as (i & <- & I3). rewrite !in_zrange in *. cbn. lia. }
  revert R. generalize (sumVectors nAt). intros l. assert (G : forall us, Forall keptQ us -> (forall p, In p l -> 0 <= fst (fst p) < 3 /\ 0 <= snd (fst p) < 3 /\ 0 <= snd p < nAt) -> Forall keptQ (fold_left (forceStep nr1 nr2 nr3 nAt) l us)).
  { induction l as [|p l IH]; intros us F R; [exact F |]. cbn [fold_left]. destruct (R p (or_introl eq_refl)) as (A & B & C). apply IH; [now apply forceStep_Q | intros; apply R; now right]. }
  intros R. apply G; [constructor | exact R].
Qed.
End Invariant.

Lemma sumVector_sum i j na f : 0 <= i < 3 -> 0 <= j < 3 -> 0 <= na < nAt -> qsum (map (fun x => sumVector i j na x * f x)%Qc all) = netForce nr1 nr2 nr3 nAt f i j na.
Proof.
  intros Hi Hj Ha. rewrite <- rowSum_net. unfold allIdx, rowSum. rewrite qsum_flat_map, (qsum_one _ _ i Z.eq_dec (NoDup_zrange 0 3)); [| apply in_zrange; lia |].
  2: { intros i' _ D. rewrite (qsum_ext _ (fun _ => 0%Qc)); [apply qsum_zero |]. intros x I. apply in_flat_map in I as (? & _ & I). apply in_flat_map in I as (? & _ & I). apply in_flat_map in I as (? & _ & I).
    apply in_map_iff in I as (((? & ?) & ?) & <- & _). unfold sumVector. destruct (Z.eqb_spec i' i); [contradiction | cbn [andb]; ring]. }
  rewrite qsum_flat_map, (qsum_one _ _ j Z.eq_dec (NoDup_zrange 0 3)); [| apply in_zrange; lia |].
  2: { intros j' _ D. rewrite (qsum_ext _ (fun _ => 0%Qc)); [apply qsum_zero |]. intros x I. apply in_flat_map in I as (? & _ & I). apply in_flat_map in I as (? & _ & I).
    apply in_map_iff in I as (((? & ?) & ?) & <- & _). unfold sumVector. destruct (Z.eqb_spec j' j); [contradiction | rewrite andb_false_r; cbn [andb]; ring]. }
  rewrite qsum_flat_map, (qsum_one _ _ na Z.eq_dec (NoDup_zrange 0 nAt)); [| apply in_zrange; lia |].
  2: { intros a' _ D. rewrite (qsum_ext _ (fun _ => 0%Qc)); [apply qsum_zero |]. intros x I. apply in_flat_map in I as (? & _ & I).
    apply in_map_iff in I as (((? & ?) & ?) & <- & _). unfold sumVector. destruct (Z.eqb_spec a' na); [contradiction | rewrite andb_false_r; ring]. }
  rewrite qsum_flat_map, qsum_list_prod. apply qsum_ext. intros nb _. rewrite map_map. apply qsum_ext. intros ((n1 & n2) & n3) _. unfold sumVector. rewrite !Z.eqb_refl. cbn [andb]. ring.
Qed.

Definition symOn (u : fvec) : Prop := forall x, inR x -> u x = u (part x).
Lemma basis_symmetric : Forall (keptQ symOn) (forceBasis nr1 nr2 nr3 nAt).
Proof.
  apply forceBasis_Q.
  - intros u v E S x R. rewrite <- !E by (try apply partner_in; assumption). now apply S.
  - intros u v c Su Sv x R. rewrite <- Su, <- Sv by assumption. reflexivity.
  - intros i j na _ _ _ x R. rewrite partner_partner by assumption. rewrite Qcplus_comm. reflexivity.
Qed.
Lemma addProj_sym f us : Forall (keptQ symOn) us -> forall w x, inR x ->
  (fold_left (addProj (ipF nr1 nr2 nr3 nAt) f) us w x - fold_left (addProj (ipF nr1 nr2 nr3 nAt) f) us w (part x) = w x - w (part x))%Qc.
Proof.
  intros F. induction F as [|u us S F IH]; intros w x R; [reflexivity |]. cbn [fold_left]. rewrite IH by exact R. destruct u as [(wq & n2) |]; [| reflexivity].
  cbn [addProj]. rewrite <- (S x R). ring.
Qed.
Lemma crystal_symmetric f : symmetricForces nr1 nr2 nr3 nAt (crystalForces nr1 nr2 nr3 nAt f).
Proof.
  intros x R. rewrite <- partner_mirror. unfold crystalForces. set (w := fold_left (addProj _ f) _ _).
  assert (E : (w x - w (part x) = f x - f (part x))%Qc).
  { unfold w. rewrite addProj_sym by (exact R || exact basis_symmetric). rewrite !add_all by (try apply partner_in; exact R). rewrite partner_partner by exact R. fld. }
  replace (w x) with (w x - w (part x) + w (part x))%Qc by ring. rewrite E. ring.
Qed.

Section Kept.
Variable f : fvec.
Hypothesis Fsym : symmetricForces nr1 nr2 nr3 nAt f.
Hypothesis Fzero : forall i j na, 0 <= i < 3 -> 0 <= j < 3 -> 0 <= na < nAt -> netForce nr1 nr2 nr3 nAt f i j na = 0%Qc.
Definition orth (u : fvec) : Prop := ipF nr1 nr2 nr3 nAt u f = 0%Qc.
Lemma basis_orth : Forall (keptQ orth) (forceBasis nr1 nr2 nr3 nAt).
Proof.
  apply forceBasis_Q.
  - intros u v E H. unfold orth, ipF in *. rewrite <- H. apply qsum_ext. intros x I. apply in_all in I. now rewrite E.
  - intros u v c Hu Hv. unfold orth, ipF in *. rewrite (qsum_ext _ (fun x => u x * f x - c * (v x * f x))%Qc) by (intros; ring).
    rewrite qsum_map_sub, (qsum_map_scale c (fun x => v x * f x)%Qc), Hu, Hv. ring.
  - intros i j na Hi Hj Ha. unfold orth, ipF. rewrite (qsum_ext _ (fun x => (/ Q2Qc 2) * (sumVector i j na x * f x + sumVector i j na (part x) * f (part x)))%Qc).
    + rewrite qsum_map_scale, qsum_map_add, (sum_partner (fun x => sumVector i j na x * f x)%Qc), sumVector_sum, Fzero by assumption. ring.
    + intros x I. apply in_all in I. rewrite (partner_mirror x), <- (Fsym x I). unfold Qcdiv. ring.
Qed.
Lemma addProj_orth us : Forall (keptQ orth) us -> forall w x, fold_left (addProj (ipF nr1 nr2 nr3 nAt) f) us w x = w x.
Proof.
  intros F. induction F as [|u us S F IH]; intros w x; [reflexivity |]. cbn [fold_left]. rewrite IH. destruct u as [(wq & n2) |]; [| reflexivity].
  cbn [addProj]. rewrite S. unfold Qcdiv. ring.
Qed.
Lemma crystal_kept x : inR x -> crystalForces nr1 nr2 nr3 nAt f x = f x.
Proof.
  intros R. unfold crystalForces. rewrite (addProj_orth _ basis_orth), add_all by exact R. rewrite partner_mirror, <- (Fsym x R). unfold Qcdiv. ring.
Qed.
End Kept.
End Force.
