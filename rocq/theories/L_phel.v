(** Lemmas on the linewidths of phonons due to electrons. *)
From Coq Require Import QArith Qcanon Permutation.
From Verif Require Import Base BaseLemmas M_mpi S_mpi L_mpi M_matrix L_matrix2 M_irreducible L_irreducible2 M_vbte M_scattering S_scattering L_scattering L_scattering2 L_scattering5 M_helper L_helper L_helper2 M_phel S_phel L_solver.
From Coq Require Import Lia.
Open Scope Z_scope.

Lemma accumulate_eq us : forall f b, fold_left (fun f u => add1 f (fst u) (snd u)) us f b = (f b + qsum (map (fun u => ite (b =? fst u)%Z (snd u)) us))%Qc.
Proof. induction us as [|u us IH]; intros f b; cbn [fold_left map qsum fold_right]; [ring|]. rewrite IH, add1_eq. fold (qsum (map (fun u => ite (b =? fst u)%Z (snd u)) us)). ring. Qed.
Lemma irrShare_join X size : fits (zlen (kIrr X)) size -> concat (map (fun r => irrShare X r size) (zrange 0 size)) = kIrr X.
Proof.
  intro F. pose proof F as (Hn & Hs & _).
  rewrite map_ext_in with (g := fun r => firstn (Z.to_nat (cut (zlen (kIrr X)) size (r + 1) - cut (zlen (kIrr X)) size r)) (skipn (Z.to_nat (cut (zlen (kIrr X)) size r)) (kIrr X))).
  - pose proof (concat_slices (kIrr X) size (Z.to_nat size) F ltac:(lia)) as H. rewrite Z2Nat.id in H by lia. rewrite H.
    rewrite cut_size by assumption. unfold zlen. rewrite Nat2Z.id. apply firstn_all.
  - intros r I. apply in_zrange in I. unfold irrShare. rewrite divideWork_cut by (try assumption; lia). reflexivity.
Qed.
Lemma fermi_table X shares c ik ib : NoDup (concat shares) -> In ik (concat shares) -> fermiTable X shares c ik ib = ffTerm X c ik ib.
Proof.
  unfold fermiTable. intros N I. 
  assert (Z0 : forall l, ~ In ik (concat l) -> qsum (map (fun mine => if isIn mine ik then ffTerm X c ik ib else 0%Qc) l) = 0%Qc).
  { induction l as [|m l IH]; intros NI; [reflexivity|]. cbn [map concat] in *. change (qsum (?y :: ?r)) with (y + qsum r)%Qc. rewrite IH by (intros J; apply NI, in_or_app; now right).
    destruct (isIn m ik) eqn:E; [|ring]. exfalso. apply NI, in_or_app. left. now apply isIn_In. }
  induction shares as [|m l IH]; [destruct I|]. cbn [map concat] in *. change (qsum (?y :: ?r)) with (y + qsum r)%Qc. apply L_reduce.NoDup_app_inv in N as (_ & N2 & D).
  destruct (isIn m ik) eqn:E.
  - apply isIn_In in E. rewrite Z0 by (apply D; exact E). ring.
  - apply in_app_or in I as [I|I]; [apply isIn_In in I; congruence|]. rewrite IH by assumption. ring.
Qed.
Lemma process_ok X batches table c (g : Z * Qc -> Qc) mine : (forall k, 0 < batches k /\ zlen (qIrr X) * batches k <= INT_MAX) ->
  exists us, processUpdates X batches table c mine = Ok us /\
    qsum (map g us) = qsum (map (fun k => qsum (map (fun q => qsum (map g (pairUpdates X table c k q))) (qIrr X))) mine).
Proof.
  intros HB. unfold processUpdates, phelPairs. induction mine as [|k mine (us & E & S)]; [exists []; split; reflexivity|].
  destruct (batches_ok (qIrr X) (batches k)) as (bs & EB & CB & _); [apply HB..|].
  cbn [map mapM]. rewrite EB. cbn [bind]. destruct (mapM _ _) as [per| |]; try discriminate. cbn [bind] in *. injection E as <-.
  eexists. split; [reflexivity|]. cbn [concat map]. rewrite map_app, qsum_app, S. change (qsum (?y :: ?r)) with (y + qsum r)%Qc. f_equal.
  rewrite <- CB. clear. induction bs as [|b bs IH]; [reflexivity|]. cbn [flat_map concat]. rewrite !map_app, !qsum_app, IH. f_equal. apply qsum_flat_map.
Qed.
Lemma sums_ok X size batches c : fits (numK X) size -> fits (zlen (kIrr X)) size -> (forall k, 0 < batches k /\ zlen (qIrr X) * batches k <= INT_MAX) ->
  exists lw table, phelSums X size batches c = Ok lw /\ (forall k ib, 0 <= k < numK X -> table c k ib = ffTerm X c k ib) /\
    forall b, lw b = qsum (map (fun k => qsum (map (fun q => qsum (map (fun u => ite (b =? fst u)%Z (snd u)) (pairUpdates X table c k q))) (qIrr X))) (kIrr X)).
Proof.
  intros F F2 HB. destruct (divideWorkIter_partition _ _ F) as (shares & ES & CS). unfold phelSums. rewrite ES. cbn [bind].
  set (table := fermiTable X shares).
  assert (G : forall rs, exists ups, mapM (fun r => processUpdates X batches table c (irrShare X r size)) rs = Ok ups /\
    forall b, total1 (map accumulate ups) b = qsum (map (fun k => qsum (map (fun q => qsum (map (fun u => ite (b =? fst u)%Z (snd u)) (pairUpdates X table c k q))) (qIrr X))) (concat (map (fun r => irrShare X r size) rs)))).
  { induction rs as [|r rs (ups & E & T)]; [exists []; split; reflexivity|]. destruct (process_ok X batches table c (fun _ => 0%Qc) (irrShare X r size) HB) as (us & EU & _).
    exists (us :: ups). cbn [mapM]. rewrite EU, E. split; [reflexivity|]. intros b. cbn [map concat]. rewrite map_app, qsum_app, <- T.
    unfold total1. cbn [map]. change (qsum (?y :: ?r)) with (y + qsum r)%Qc. f_equal. unfold accumulate at 1. rewrite accumulate_eq.
    destruct (process_ok X batches table c (fun u => ite (b =? fst u)%Z (snd u)) (irrShare X r size) HB) as (us' & EU' & S). rewrite EU in EU'. injection EU' as <-. rewrite S. ring. }
  destruct (G (zrange 0 size)) as (ups & E & T). rewrite E. exists (total1 (map accumulate ups)), table. split; [reflexivity|]. split.
  - intros k ib Hk. apply fermi_table; rewrite CS; [apply NoDup_zrange | apply in_zrange; lia].
  - intros b. rewrite T, irrShare_join by exact F2. reflexivity.
Qed.
Lemma pair_sum X table c k q b : qsum (map (fun u => ite (b =? fst u)%Z (snd u)) (pairUpdates X table c k q)) =
  qsum (map (fun ib3 => ite (b =? bteOf X q ib3)%Z (qsum (map (fun t => rate X table c k q (fst t) (snd t) ib3) (list_prod (zrange 0 (zlen (enEl X k))) (zrange 0 (zlen (enSum X k q))))))) (zrange 0 (zlen (enPh X q)))).
Proof.
  unfold pairUpdates. rewrite qsum_flat_map. apply qsum_ext. intros ib3 _. rewrite qsum_flat_map, qsum_list_prod, <- qsum_ite. apply qsum_ext. intros ib1 _. rewrite map_map. cbn [fst snd]. apply qsum_ite.
Qed.
Lemma rate_absorbed X table c k q ib3 e3 : zget (enPh X q) ib3 = Some e3 -> (forall ib, table c k ib = ffTerm X c k ib) ->
  qsum (map (fun t => rate X table c k q (fst t) (snd t) ib3) (list_prod (zrange 0 (zlen (enEl X k))) (zrange 0 (zlen (enSum X k q))))) =
  (if qltb e3 (cutoff X) then 0 else 1 / Q2Qc (inject_Z (meshSize X)) / temp X c * piQ X * (Q2Qc (inject_Z (zlen (stars X k))) * absorbed X c q ib3 k))%Qc.
Proof.
  intros E HT. unfold absorbed, rate, smearingValue. rewrite E. destruct (qltb e3 (cutoff X)).
  - rewrite (qsum_ext _ (fun _ => 0%Qc)); [apply qsum_zero|]. intros t _. unfold Qcdiv. ring.
  - rewrite <- !qsum_map_scale. apply qsum_ext. intros t _. rewrite HT. unfold positivePart, qltb. destruct (Qclt_le_dec 0 _); unfold Qcdiv; ring.
Qed.
Lemma sums_formula X size batches c : fits (numK X) size -> fits (zlen (kIrr X)) size -> (forall k, 0 < batches k /\ zlen (qIrr X) * batches k <= INT_MAX) ->
  (forall k, In k (kIrr X) -> 0 <= k < numK X) -> distinctStates (qIrr X) (enPh X) (bteOf X) ->
  exists lw, phelSums X size batches c = Ok lw /\ forall q ib3 e3, In q (qIrr X) -> zget (enPh X q) ib3 = Some e3 ->
    lw (bteOf X q ib3) = (if qltb e3 (cutoff X) then 0 else 1 / Q2Qc (inject_Z (meshSize X)) / temp X c * piQ X * qsum (map (fun t => snd t * absorbed X c q ib3 (fst t)) (bySize X)))%Qc.
Proof.
  intros F F2 HB HK (ND & INJ). destruct (sums_ok X size batches c F F2 HB) as (lw & table & E & HT & HL). exists lw. split; [exact E|]. intros q ib3 e3 Hq E3.
  assert (R3 : 0 <= ib3 < zlen (enPh X q)) by (apply zget_Some in E3; apply E3).
  rewrite HL. transitivity (qsum (map (fun k => (if qltb e3 (cutoff X) then 0 else 1 / Q2Qc (inject_Z (meshSize X)) / temp X c * piQ X * (Q2Qc (inject_Z (zlen (stars X k))) * absorbed X c q ib3 k))%Qc) (kIrr X))).
  - apply qsum_ext. intros k Hk. rewrite (qsum_one _ _ q Z.eq_dec ND Hq).
    + rewrite pair_sum, (qsum_one _ _ ib3 Z.eq_dec (NoDup_zrange _ _)); [|apply in_zrange; lia|].
      * rewrite Z.eqb_refl. unfold ite. apply rate_absorbed; [exact E3|]. intros ib. apply HT, HK, Hk.
      * intros ib Hib Nib. apply in_zrange in Hib. destruct (Z.eqb_spec (bteOf X q ib3) (bteOf X q ib)) as [EB|]; [|reflexivity]. exfalso. apply Nib. destruct (INJ q ib3 q ib Hq Hq R3 ltac:(lia) EB) as [_ H]. now symmetry.
    + intros q' Hq' Nq. rewrite pair_sum. rewrite (qsum_ext _ (fun _ => 0%Qc)); [apply qsum_zero|]. intros ib Hib. apply in_zrange in Hib.
      destruct (Z.eqb_spec (bteOf X q ib3) (bteOf X q' ib)) as [EB|]; [|reflexivity]. exfalso. apply Nq. destruct (INJ q ib3 q' ib Hq Hq' R3 ltac:(lia) EB) as [H _]. now symmetry.
  - destruct (qltb e3 (cutoff X)); [apply qsum_zero|]. rewrite qsum_map_scale. unfold bySize. rewrite map_map. reflexivity.
Qed.
(** averages of couplings are not negative *)
Lemma Q2Qc_pos d : (0 < d)%Z -> (0 < Q2Qc (inject_Z d))%Qc.
Proof. intros H. change (Qlt (inject_Z 0) (Qred (inject_Z d))). rewrite Qred_correct. rewrite <- Zlt_Qlt. exact H. Qed.
Lemma Q2Qc_nonneg d : (0 <= d)%Z -> (0 <= Q2Qc (inject_Z d))%Qc.
Proof. intros H. change (Qle (inject_Z 0) (Qred (inject_Z d))). rewrite Qred_correct. rewrite <- Zle_Qle. exact H. Qed.
Lemma Qcdiv_nonneg x y : (0 <= x -> 0 < y -> 0 <= x / y)%Qc.
Proof. intros H K. unfold Qcdiv. apply Qcmult_nonneg; [exact H|]. apply Qclt_le_weak, Qcinv_pos, K. Qed.
Lemma averageRun_nonneg f run : (forall b, (0 <= f b)%Qc) -> forall b, (0 <= averageRun f run b)%Qc.
Proof.
  intros H b. unfold averageRun. destruct run as [s d]. destruct (_ && _) eqn:E; [|apply H]. apply andb_prop in E as [E1 E2]. apply Z.leb_le in E1. apply Z.ltb_lt in E2.
  apply qsum_nonneg. intros i _. apply Qcdiv_nonneg; [apply H|]. apply Q2Qc_pos. lia.
Qed.
Lemma averageAxis_nonneg es f : (forall b, (0 <= f b)%Qc) -> forall b, (0 <= averageAxis es f b)%Qc.
Proof. unfold averageAxis. generalize (runs (length es) 0 es). intros l. revert f. induction l as [|r l IH]; intros f H b; [apply H|]. cbn [fold_left]. apply IH. now apply averageRun_nonneg. Qed.
Lemma symmetrize_nonneg e1 e2 e3 g : (forall a b c, (0 <= g a b c)%Qc) -> forall a b c, (0 <= symmetrizeCoupling e1 e2 e3 g a b c)%Qc.
Proof. intros H a b c. unfold symmetrizeCoupling. apply averageAxis_nonneg. intro. apply averageAxis_nonneg. intro. apply averageAxis_nonneg. intro. apply H. Qed.
Lemma absorbed_nonneg X c q ib3 k : (forall a b d, (0 <= gsq X k q a b d)%Qc) -> (forall ib, (0 <= ffTerm X c k ib)%Qc) -> (0 <= absorbed X c q ib3 k)%Qc.
Proof.
  intros H F. unfold absorbed. apply qsum_nonneg. intros t _. apply Qcmult_nonneg; [apply Qcmult_nonneg; [apply symmetrize_nonneg, H | apply F]|].
  unfold positivePart. destruct (Qclt_le_dec 0 _); [now apply Qclt_le_weak | apply Qcle_refl].
Qed.
