From Coq Require Import Reals Permutation List Lia ZArith Lra.
From Verif Require Import Base BaseLemmas M_mpi S_mpi L_mpi M_bands S_bands L_bands2 M_particle S_particle M_drift S_drift P_particle P_bands.
Import ListNotations.
Open Scope Z_scope.

Lemma zrange_NoDup a n : NoDup (zrange a n).
Proof. unfold zrange. apply FinFun.Injective_map_NoDup; [intros x y; lia|apply seq_NoDup]. Qed.
Section D.
Context (k : driftKind) (s : particle) (sym : bool) (calcs : list (R * R)) (energy : Z -> R) (vel : Z -> Z -> R) (s2b : Z -> res Z) (b : Z -> Z).
Definition entry (is iCalc i : Z) : dbl := match zget calcs iCalc with Some c => dmul (driftFactor k s (energy is) c sym) (vel is i) | None => Nan end.

Lemma set3 d iCalc c x0 x1 x2 : forall r q, 
  setAt (setAt (setAt d iCalc 0 c x0) iCalc 1 c x1) iCalc 2 c x2 r q =
  if (q =? c) then (if r =? iCalc * 3 + 2 then x2 else if r =? iCalc * 3 + 1 then x1 else if r =? iCalc * 3 + 0 then x0 else d r q) else d r q.
Proof.
  intros r q. unfold setAt. destruct (q =? c); rewrite ?andb_true_r, ?andb_false_r; reflexivity.
Qed.

Lemma calcs_fold is c l : (forall j, In j l -> 0 <= j < zlen calcs) -> NoDup l -> forall d, exists d',
  foldM (fun d iCalc => match zget calcs iCalc with None => UB | Some calc =>
      Ok (fold_left (fun d i => setAt d iCalc i c (dmul (driftFactor k s (energy is) calc sym) (vel is i))) (zrange 0 3) d) end) l d = Ok d' /\
  (forall j i, In j l -> 0 <= i < 3 -> d' (j * 3 + i) c = entry is j i) /\
  (forall r q, q <> c -> d' r q = d r q) /\
  (forall j i q, ~ In j l -> 0 <= i < 3 -> d' (j * 3 + i) q = d (j * 3 + i) q).
Proof.
  induction l as [|j l IH]; intros H N d.
  - exists d. cbn. repeat split; intros; contradiction.
  - inversion N as [|? ? N1 N2]; subst. destruct (zget_inrange calcs j (H j (or_introl eq_refl))) as (calc & E). cbn [foldM]. rewrite E. cbn [bind].
    set (d1 := fold_left _ _ d). destruct (IH (fun x X => H x (or_intror X)) N2 d1) as (d' & F & A & B & C).
    assert (D1 : forall r q, d1 r q = if q =? c then (if r =? j * 3 + 2 then entry is j 2 else if r =? j * 3 + 1 then entry is j 1 else if r =? j * 3 + 0 then entry is j 0 else d r q) else d r q).
    { intros r q. unfold d1. change (zrange 0 3) with [0; 1; 2]. cbn [fold_left]. rewrite set3. unfold entry. rewrite E. reflexivity. }
    exists d'. split; [exact F|]. split; [|split].
    + intros j' i [<-|I] Hi; [|apply A; assumption]. rewrite C by assumption. rewrite D1, Z.eqb_refl.
      assert (Ci : i = 0 \/ i = 1 \/ i = 2) by lia. destruct Ci as [-> | [-> | ->]].
      * destruct (Z.eqb_spec (j * 3 + 0) (j * 3 + 2)); [lia|]. destruct (Z.eqb_spec (j * 3 + 0) (j * 3 + 1)); [lia|]. rewrite Z.eqb_refl. reflexivity.
      * destruct (Z.eqb_spec (j * 3 + 1) (j * 3 + 2)); [lia|]. rewrite Z.eqb_refl. reflexivity.
      * rewrite Z.eqb_refl. reflexivity.
    + intros r q Q. rewrite B by exact Q. rewrite D1. destruct (Z.eqb_spec q c); [contradiction|reflexivity].
    + intros j' i q Nj Hi. rewrite C by (try assumption; intros X; apply Nj; right; exact X). rewrite D1.
      assert (j' <> j) by (intros ->; apply Nj; left; reflexivity). destruct (q =? c); [|reflexivity].
      destruct (Z.eqb_spec (j' * 3 + i) (j * 3 + 2)); [lia|]. destruct (Z.eqb_spec (j' * 3 + i) (j * 3 + 1)); [lia|]. destruct (Z.eqb_spec (j' * 3 + i) (j * 3 + 0)); [lia|]. reflexivity.
Qed.

Lemma state_ok is c d : s2b is = Ok c -> exists d', driftState k s sym calcs energy vel s2b d is = Ok d' /\
  (forall j i, 0 <= j < zlen calcs -> 0 <= i < 3 -> d' (j * 3 + i) c = entry is j i) /\ (forall r q, q <> c -> d' r q = d r q).
Proof.
  intros E. unfold driftState. rewrite E. cbn [bind]. destruct (calcs_fold is c (zrange 0 (zlen calcs))) with (d := d) as (d' & F & A & B & _).
  - intros j I. apply in_zrange in I. lia.
  - apply zrange_NoDup.
  - exists d'. split; [exact F|]. split; [|exact B]. intros j i J I. apply A; [apply in_zrange; lia|exact I].
Qed.

Lemma rank_ok states : (forall is, In is states -> s2b is = Ok (b is)) -> NoDup (map b states) -> forall d, exists d',
  foldM (driftState k s sym calcs energy vel s2b) states d = Ok d' /\
  (forall is j i, In is states -> 0 <= j < zlen calcs -> 0 <= i < 3 -> d' (j * 3 + i) (b is) = entry is j i) /\
  (forall r q, ~ In q (map b states) -> d' r q = d r q).
Proof.
  induction states as [|is l IH]; intros H N d.
  - exists d. cbn. repeat split; intros; contradiction.
  - cbn [map] in N. inversion N as [|? ? N1 N2]; subst. destruct (state_ok is (b is) d (H is (or_introl eq_refl))) as (d1 & F1 & A1 & B1).
    destruct (IH (fun x X => H x (or_intror X)) N2 d1) as (d' & F & A & B). exists d'. split; [|split].
    + cbn [foldM]. rewrite F1. cbn [bind]. exact F.
    + intros is' j i [<-|I] Hj Hi; [|apply A; assumption]. rewrite B by exact N1. apply A1; assumption.
    + intros r q Q. cbn [map] in Q. rewrite B by (intros X; apply Q; right; exact X). apply B1. intros ->. apply Q. left. reflexivity.
Qed.

Definition good (states : list Z) (d : vdata) : Prop :=
  (forall is j i, In is states -> 0 <= j < zlen calcs -> 0 <= i < 3 -> d (j * 3 + i) (b is) = entry is j i) /\
  (forall r q, ~ In q (map b states) -> d r q = Fin 0%R).
Lemma entry_cases is j i : (exists x, entry is j i = Fin x) \/ entry is j i = Nan.
Proof using. unfold entry. destruct (zget calcs j) as [c|]; [|right; reflexivity]. unfold dmul. destruct (driftFactor k s (energy is) c sym); eauto. Qed.
Lemma dadd_0r a : (exists x, a = Fin x) \/ a = Nan -> dadd a (Fin 0%R) = a.
Proof using. intros [(x & ->)| ->]; cbn; [rewrite Rplus_0_r|]; reflexivity. Qed.
Lemma dadd_0l a : (exists x, a = Fin x) \/ a = Nan -> dadd (Fin 0%R) a = a.
Proof using. intros [(x & ->)| ->]; cbn; [rewrite Rplus_0_l|]; reflexivity. Qed.

Lemma sum_out ranks ds : Forall2 good ranks ds -> forall r q a, ~ In q (map b (concat ranks)) -> (exists x, a = Fin x) \/ a = Nan ->
  fold_left (fun acc d => dadd acc (d r q)) ds a = a.
Proof.
  induction 1 as [|st d ranks ds G F IH]; intros r q a Q Ha; [reflexivity|]. cbn [fold_left concat] in *. rewrite map_app, in_app_iff in Q.
  rewrite (proj2 G) by tauto. rewrite dadd_0r by exact Ha. apply IH; tauto.
Qed.
Lemma sum_in ranks ds : Forall2 good ranks ds -> NoDup (map b (concat ranks)) -> forall is j i, In is (concat ranks) -> 0 <= j < zlen calcs -> 0 <= i < 3 ->
  fold_left (fun acc d => dadd acc (d (j * 3 + i) (b is))) ds (Fin 0%R) = entry is j i.
Proof.
  induction 1 as [|st d ranks ds G F IH]; intros N is j i I Hj Hi; [destruct I|]. cbn [fold_left concat] in *. rewrite map_app in N.
  apply in_app_iff in I. destruct I as [I|I].
  - rewrite (proj1 G) by assumption. rewrite dadd_0l by apply entry_cases. apply (sum_out ranks ds F); [|apply entry_cases].
    intros X. apply (in_map b) in I. revert N I X. generalize (map b st) (map b (concat ranks)) (b is). clear. induction l as [|x l IH]; intros m y N I X; [destruct I|].
    cbn in N. inversion N as [|? ? N1 N2]; subst. destruct I as [->|I]; [apply N1, in_or_app; right; exact X|]. exact (IH m y N2 I X).
  - assert (Q : ~ In (b is) (map b st)).
    { intros X. apply (in_map b) in I. revert N I X. generalize (map b st) (map b (concat ranks)) (b is). clear. induction l as [|x l IH]; intros m y N I X; [destruct X|].
      cbn in N. inversion N as [|? ? N1 N2]; subst. destruct X as [->|X]; [apply N1, in_or_app; right; exact I|]. exact (IH m y N2 I X). }
    rewrite (proj2 G) by exact Q. rewrite dadd_0l by (left; eexists; reflexivity). apply IH; try assumption.
    clear -N. induction (map b st) as [|x l IH]; [exact N|]. cbn in N. inversion N; subst. apply IH. assumption.
Qed.

Lemma mapM_Forall2 {A B} (f : A -> res B) (P : A -> B -> Prop) l : (forall a, In a l -> exists x, f a = Ok x /\ P a x) -> exists xs, mapM f l = Ok xs /\ Forall2 P l xs.
Proof using.
  induction l as [|a l IH]; intros H; [exists []; split; [reflexivity|constructor]|].
  destruct (H a (or_introl eq_refl)) as (x & E & Px). destruct IH as (xs & Es & F); [intros y Y; apply H; right; exact Y|].
  exists (x :: xs). cbn [mapM]. rewrite E. cbn [bind]. rewrite Es. split; [reflexivity|constructor; assumption].
Qed.

Lemma drift_ok ranks : (forall is, In is (concat ranks) -> s2b is = Ok (b is)) -> NoDup (map b (concat ranks)) ->
  exists d, bulkDrift k s sym calcs energy vel s2b ranks = Ok d /\
  (forall is j i, In is (concat ranks) -> 0 <= j < zlen calcs -> 0 <= i < 3 -> d (j * 3 + i) (b is) = entry is j i) /\
  (forall r q, ~ In q (map b (concat ranks)) -> d r q = Fin 0%R).
Proof.
  intros H N. destruct (mapM_Forall2 (driftRank k s sym calcs energy vel s2b) good ranks) as (ds & E & F).
  - intros st I. assert (Sub : incl st (concat ranks)) by (intros x X; apply in_concat; exists st; split; assumption).
    assert (Nst : NoDup (map b st)).
    { clear -I N. induction ranks as [|t ranks IH]; [destruct I|]. cbn [concat] in N. rewrite map_app in N. destruct I as [->|I].
      - clear -N. induction (map b st) as [|x l IHl]; [constructor|]. cbn in N. inversion N as [|? ? N1 N2]; subst. constructor; [intros X; apply N1, in_or_app; left; exact X|apply IHl, N2].
      - apply IH; [|exact I]. clear -N. induction (map b t) as [|x l IHl]; [exact N|]. cbn in N. inversion N; subst. apply IHl. assumption. }
    destruct (rank_ok st (fun x X => H x (Sub x X)) Nst zeroData) as (d & E & A & B). exists d. split; [exact E|]. split; [exact A|]. intros r q Q. rewrite B by exact Q. reflexivity.
  - unfold bulkDrift. rewrite E. cbn [bind]. eexists. split; [reflexivity|]. cbn beta. split.
    + intros is j i I Hj Hi. apply (sum_in ranks ds F N); assumption.
    + intros r q Q. apply (sum_out ranks ds F r q); [exact Q|left; eexists; reflexivity].
Qed.
End D.

Lemma schedules_perm iter size ranks : fits (zlen iter) size -> schedules iter size ranks -> Permutation (concat ranks) iter.
Proof.
  intros F H. transitivity (concat (map (fun r => parallelSlice iter r size) (zrange 0 size))).
  - clear F. induction H as [|r st l ls P F IH]; [constructor|]. cbn [concat map]. apply Permutation_app; assumption.
  - rewrite parallelSlice_join by exact F. reflexivity.
Qed.

Lemma slope_ok k s e T mu : regular s e T mu -> exists d, slope k s e T mu d /\ driftFactor k s e (T, mu) false = Fin d.
Proof.
  intros (HT & HP). destruct k, s; cbn [driftFactor fst snd slope].
  - destruct (C41_dndt_is_derivative_phonons e T mu HT (HP eq_refl)) as (f & d & A & B & C). eauto.
  - destruct (C41_dndt_is_derivative_electrons e T mu HT) as (f & d & A & B & C). eauto.
  - destruct (C41_dnde_is_derivative_phonons e T mu HT (HP eq_refl)) as (f & d & A & B & C). eauto.
  - destruct (C41_dnde_is_derivative_electrons e T mu HT) as (f & d & A & B & C). eauto.
Qed.
