(** Lemmas on vectors of populations. *)
From Coq Require Import QArith Qcanon Permutation.
From Verif Require Import Base BaseLemmas M_utilities L_utilities M_matrix S_matrix L_matrix L_matrix2 L_matrix3 L_matrix4 M_vbte S_vbte.
Open Scope Z_scope.

Lemma isExcluded_In v s : isExcluded v s = true <-> excluded v s.
Proof.
  unfold isExcluded, excluded. rewrite existsb_exists. split; [intros (x & H & E); apply Z.eqb_eq in E; subst; exact H|intro H; exists s; split; [exact H|apply Z.eqb_refl]].
Qed.
Lemma nth_zrange_rows n r d : 0 <= r < n -> nth (Z.to_nat r) (zrange 0 n) d = r.
Proof. intro H. apply nth_error_nth. rewrite nth_error_zrange by lia. f_equal. lia. Qed.
Lemma mapM_nth_some {A B} (f : A -> res B) (g : A -> B) l : (forall x, In x l -> f x = Ok (g x)) -> mapM f l = Ok (map g l).
Proof.
  induction l as [|x l IH]; intro H; [reflexivity|]. cbn [mapM map]. rewrite (H x (or_introl eq_refl)). cbn [bind]. rewrite IH by (intros y Hy; apply H; right; exact Hy). reflexivity.
Qed.
Lemma nth_map_zrange {B} (g : Z -> B) n r d : 0 <= r < n -> nth (Z.to_nat r) (map g (zrange 0 n)) d = g r.
Proof.
  intro H. apply nth_error_nth. rewrite nth_error_map, nth_error_zrange by lia. cbn. f_equal. f_equal. lia.
Qed.
Lemma broadcast_ok v w r : consistent v -> vMu w = vMu v -> vTemp w = vTemp v -> vDim w = 1 -> vCalc w = vCalc v -> 0 <= r < vRows v ->
  broadcastRow v w r = Ok (r / vDim v).
Proof.
  intros (Hm & Ht & Hd & _ & Hc & HM) Em Et Ed Ec Hr. unfold broadcastRow, loc2Glob, glob2Loc, vRows in *. rewrite Hc in *.
  rewrite decompress3_ok by (lia || nia). cbn [bind]. rewrite Em, Et, Ed.
  assert (Q : r / vDim v < vMu v * vTemp v) by (apply Z.div_lt_upper_bound; nia).
  assert (P : 0 <= r / vDim v) by (apply Z.div_pos; lia).
  set (q := r / vDim v) in *.
  assert (E1 : r / (vTemp v * vDim v) = q / vTemp v). { unfold q. rewrite Z.div_div by lia. f_equal. lia. }
  assert (E2 : r mod (vTemp v * vDim v) / vDim v = q mod vTemp v).
  { rewrite (Z.mul_comm (vTemp v)), Z.rem_mul_r by lia. fold q. rewrite (Z.mul_comm (vDim v)), Z.div_add by lia. rewrite Z.div_small by (apply Z.mod_pos_bound; lia). lia. }
  rewrite E1, E2.
  rewrite compress3_ok; [|split; [apply Z.div_pos; nia|apply Z.div_lt_upper_bound; nia]|apply Z.mod_pos_bound; lia|lia|nia].
  cbn [bind]. rewrite Ec. unfold c3.
  replace ((q / vTemp v * vTemp v + q mod vTemp v) * 1 + 0) with q by (pose proof (Z.div_mod q (vTemp v) ltac:(lia)); lia).
  destruct (_ && _) eqn:E; [reflexivity|]. lia.
Qed.

Lemma base_same o v w : sameShape v w -> baseOperator o v w = Ok (withData v (fun r s => if isExcluded v s then 0%Qc else applyOp o (vData v r s) (vData w (nth (Z.to_nat r) (zrange 0 (vRows v)) 0) s))).
Proof. intros (A & B & C & D & E & F). unfold baseOperator. rewrite E, A, D, !Z.eqb_refl. cbn [negb bind]. reflexivity. Qed.
Lemma base_broadcast o v w : consistent v -> vMu w = vMu v -> vTemp w = vTemp v -> vDim w = 1 -> vCalc w = vCalc v -> vN w = vN v ->
  exists v', baseOperator o v w = Ok v' /\ sameShape v' v /\  forall r s, 0 <= r < vRows v -> vData v' r s = if isExcluded v s then 0%Qc else applyOp o (vData v r s) (vData w (r / vDim v) s).
Proof.
  intros H Em Et Ed Ec En. unfold baseOperator. rewrite En, Ec, !Z.eqb_refl. cbn [negb]. destruct (Z.eqb_spec (vDim v) (vDim w)) as [D|D].
  - cbn [bind]. eexists. split; [reflexivity|]. split; [repeat split|]. intros r s Hr. cbn [vData withData]. rewrite nth_zrange_rows by exact Hr.
    rewrite D, Ed, Z.div_1_r. reflexivity.
  - rewrite Ed. cbn [Z.eqb]. change (1 =? 1) with true. cbn match. rewrite (mapM_nth_some _ (fun r => r / vDim v)).
    + cbn [bind]. eexists. split; [reflexivity|]. split; [repeat split|]. intros r s Hr. cbn [vData withData]. rewrite nth_map_zrange by exact Hr. reflexivity.
    + intros r Hr. apply in_zrange in Hr. apply broadcast_ok; try assumption.
Qed.

(** * sums *)
Lemma qsum_concat {A} (g : A -> Qc) ll : qsum (map (fun l => qsum (map g l)) ll) = qsum (map g (concat ll)).
Proof. induction ll as [|l ll IH]; [reflexivity|]. cbn [map concat]. rewrite map_app, qsum_app, <- IH. reflexivity. Qed.
Lemma qsum_concat2 {A} (g : A -> Qc) lll : qsum (map (fun ll => qsum (map (fun l => qsum (map g l)) ll)) lll) = qsum (map g (concat (concat lll))).
Proof. rewrite <- qsum_concat. rewrite <- (qsum_concat (fun l => qsum (map g l)) lll). reflexivity. Qed.
Lemma rotate_dot R x y : orthogonal R -> (rotate R x 0 * rotate R y 0 + rotate R x 1 * rotate R y 1 + rotate R x 2 * rotate R y 2 = dot3 x y)%Qc.
Proof.
  intro H. unfold rotate, dot3.
  pose proof (H 0 0 ltac:(lia) ltac:(lia)) as H00. pose proof (H 0 1 ltac:(lia) ltac:(lia)) as H01. pose proof (H 0 2 ltac:(lia) ltac:(lia)) as H02.
  pose proof (H 1 1 ltac:(lia) ltac:(lia)) as H11. pose proof (H 1 2 ltac:(lia) ltac:(lia)) as H12. pose proof (H 2 2 ltac:(lia) ltac:(lia)) as H22.
  cbn [Z.eqb Pos.eqb] in *.
  transitivity ((R 0%Z 0%Z * R 0%Z 0%Z + R 1%Z 0%Z * R 1%Z 0%Z + R 2%Z 0%Z * R 2%Z 0%Z) * (x 0%Z * y 0%Z) +
    (R 0%Z 1%Z * R 0%Z 1%Z + R 1%Z 1%Z * R 1%Z 1%Z + R 2%Z 1%Z * R 2%Z 1%Z) * (x 1%Z * y 1%Z) +
    (R 0%Z 2%Z * R 0%Z 2%Z + R 1%Z 2%Z * R 1%Z 2%Z + R 2%Z 2%Z * R 2%Z 2%Z) * (x 2%Z * y 2%Z) +
    (R 0%Z 0%Z * R 0%Z 1%Z + R 1%Z 0%Z * R 1%Z 1%Z + R 2%Z 0%Z * R 2%Z 1%Z) * (x 0%Z * y 1%Z + x 1%Z * y 0%Z) +
    (R 0%Z 0%Z * R 0%Z 2%Z + R 1%Z 0%Z * R 1%Z 2%Z + R 2%Z 0%Z * R 2%Z 2%Z) * (x 0%Z * y 2%Z + x 2%Z * y 0%Z) +
    (R 0%Z 1%Z * R 0%Z 2%Z + R 1%Z 1%Z * R 1%Z 2%Z + R 2%Z 1%Z * R 2%Z 2%Z) * (x 1%Z * y 2%Z + x 2%Z * y 1%Z))%Qc; [ring|].
  rewrite H00, H01, H02, H11, H12, H22. ring.
Qed.
Lemma qsum_add3 {A} (f g h : A -> Qc) l : (qsum (map f l) + qsum (map g l) + qsum (map h l) = qsum (map (fun x => f x + g x + h x) l))%Qc.
Proof. rewrite !qsum_map_add. reflexivity. Qed.
Lemma qsum_const {A} (f : A -> Qc) x l : (forall a, In a l -> f a = x) -> qsum (map f l) = times (length l) x.
Proof.
  unfold times. induction l as [|a l IH]; intro H; [reflexivity|]. cbn [map length repeat]. unfold qsum. cbn [fold_right]. fold (qsum (map f l)). fold (qsum (repeat x (length l))).
  rewrite IH by (intros b Hb; apply H; right; exact Hb). rewrite (H a (or_introl eq_refl)). reflexivity.
Qed.

(** * matrix product *)
Lemma pget_local (F : Z -> Z -> Qc) L p i j : validLayout L -> isProcess L p -> In (i, j) (getAllLocalStates L p) ->
  pget 0%Qc L p (map (fun t => F (fst t) (snd t)) (getAllLocalStates L p)) i j = Ok (F i j).
Proof.
  intros HL Hp H. unfold getAllLocalStates in H. apply in_map_iff in H as (k & E & Hk). apply in_zrange in Hk.
  assert (Hk' : 0 <= k < numLocalElements L p) by lia. destruct (local_back L HL p Hp k Hk') as [A B]. rewrite E in B. cbn [fst snd] in B.
  unfold pget. rewrite B. destruct (Z.eqb_spec k (-1)); [lia|]. unfold getAllLocalStates. rewrite !zget_map, zget_zrange by exact Hk'. cbn [option_map Z.add]. rewrite E. reflexivity.
Qed.
Definition colSum (x : Z -> Qc) (F : Z -> Z -> Qc) (l : list (Z * Z)) (j : Z) : Qc :=
  qsum (map (fun t => if j =? snd t then (x (fst t) * F (fst t) (snd t))%Qc else 0%Qc) l).
Lemma thread_ok (F : Z -> Z -> Qc) L p x chunk : validLayout L -> isProcess L p -> incl chunk (getAllLocalStates L p) -> forall acc,
  exists f, foldM (fun acc t => do m <- pget 0%Qc L p (map (fun t => F (fst t) (snd t)) (getAllLocalStates L p)) (fst t) (snd t) ; Ok (addAt acc (snd t) (x (fst t) * m)%Qc)) chunk acc = Ok f /\  forall j, f j = (acc j + colSum x F chunk j)%Qc.
Proof.
  intros HL Hp. induction chunk as [|[i k] chunk IH]; intros Hin acc.
  - exists acc. split; [reflexivity|]. intro j. unfold colSum, qsum. cbn. ring.
  - cbn [foldM fst snd]. rewrite (pget_local F L p i k HL Hp) by (apply Hin; left; reflexivity). cbn [bind].
    destruct (IH (fun t Ht => Hin t (or_intror Ht)) (addAt acc k (x i * F i k)%Qc)) as (f & E & Hf). exists f. split; [exact E|].
    intro j. rewrite Hf. unfold addAt, colSum. cbn [map fst snd]. unfold qsum. cbn [fold_right]. destruct (j =? k); ring.
Qed.
Lemma colSum_app x F l l' j : colSum x F (l ++ l') j = (colSum x F l j + colSum x F l' j)%Qc.
Proof. unfold colSum. rewrite map_app, qsum_app. reflexivity. Qed.
Lemma rank_ok (F : Z -> Z -> Qc) L p x chunks : validLayout L -> isProcess L p -> incl (concat chunks) (getAllLocalStates L p) ->
  exists f, rankProduct L x (p, map (fun t => F (fst t) (snd t)) (getAllLocalStates L p), chunks) = Ok f /\ forall j, f j = colSum x F (concat chunks) j.
Proof.
  intros HL Hp Hin. unfold rankProduct.
  assert (G : forall acc, exists f, foldM (fun acc chunk => do part <- threadProduct L p (map (fun t => F (fst t) (snd t)) (getAllLocalStates L p)) x chunk ; Ok (fun j => acc j + part j)%Qc) chunks acc = Ok f /\     forall j, f j = (acc j + colSum x F (concat chunks) j)%Qc).
  { induction chunks as [|c cs IH]; intro acc.
    - exists acc. split; [reflexivity|]. intro j. unfold colSum, qsum. cbn. ring.
    - cbn [foldM concat] in *. unfold threadProduct at 1.
      destruct (thread_ok F L p x c HL Hp (fun t Ht => Hin t (in_or_app _ _ _ (or_introl Ht))) (fun _ => 0%Qc)) as (f & E & Hf). rewrite E. cbn [bind].
      destruct (IH (fun t Ht => Hin t (in_or_app _ _ _ (or_intror Ht))) (fun j => acc j + f j)%Qc) as (g & E' & Hg). exists g. split; [exact E'|].
      intro j. rewrite Hg, Hf, colSum_app. ring. }
  destruct (G (fun _ => 0%Qc)) as (f & E & Hf). exists f. split; [exact E|]. intro j. rewrite Hf. ring.
Qed.
Lemma colSum_perm x F l l' j : Permutation l l' -> colSum x F l j = colSum x F l' j.
Proof. intro H. apply qsum_perm, Permutation_map, H. Qed.
Lemma colSum_full x F n m j : 0 <= j < m -> colSum x F (list_prod (zrange 0 n) (zrange 0 m)) j = sumTo n (fun i => x i * F i j)%Qc.
Proof.
  intro Hj. unfold sumTo. change (fold_right Qcplus 0%Qc) with qsum. generalize (zrange 0 n) as l. induction l as [|i l IH]; [reflexivity|].
  cbn [list_prod map]. rewrite colSum_app, IH. unfold qsum at 2. cbn [fold_right]. fold (qsum (map (fun i => x i * F i j)%Qc l)). f_equal.
  unfold colSum. rewrite map_map. cbn [fst snd].
  assert (G : forall ks, NoDup ks -> qsum (map (fun k => if j =? k then (x i * F i k)%Qc else 0%Qc) ks) = if in_dec Z.eq_dec j ks then (x i * F i j)%Qc else 0%Qc).
  { induction ks as [|k ks IH']; intro ND; [reflexivity|]. inversion ND as [|? ? Nk ND']; subst. unfold qsum in *. cbn [map fold_right]. rewrite IH' by exact ND'.
    destruct (in_dec Z.eq_dec j (k :: ks)) as [I|I]; destruct (in_dec Z.eq_dec j ks) as [I'|I']; destruct (Z.eqb_spec j k) as [->|N]; try ring.
    - contradiction.
    - exfalso. destruct I as [I|I]; [congruence|contradiction].
    - exfalso. apply I. right. exact I'.
    - exfalso. apply I. right. exact I'.
    - exfalso. apply I. left. reflexivity. }
  rewrite G by apply NoDup_zrange. destruct (in_dec Z.eq_dec j (zrange 0 m)) as [_|N]; [reflexivity|]. exfalso. apply N. apply in_zrange. lia.
Qed.
Lemma isProcess_in L p : In p (processes L) -> isProcess L p.
Proof. intro H. unfold processes in H. destruct p as [a b]. apply in_prod_iff in H as [A B]. apply in_zrange in A. apply in_zrange in B. unfold isProcess. cbn. lia. Qed.
Lemma timesMatrix_ok L (F : Z -> Z -> Qc) v split : validLayout L -> vCalc v = 1 -> 0 <= vDim v -> lRows L = vN v -> lCols L = vN v ->
  (forall p, In p (processes L) -> Permutation (concat (split p)) (getAllLocalStates L p)) ->
  exists v', timesMatrix L (map (fun p => (p, map (fun t => F (fst t) (snd t)) (getAllLocalStates L p), split p)) (processes L)) v = Ok v' /\ sameShape v' v /\  forall r j, 0 <= r < vRows v -> 0 <= j < vN v -> vData v' r j = sumTo (vN v) (fun i => vData v r i * F i j)%Qc.
Proof.
  intros HL Hc Hd Hr Hcol Hs. unfold timesMatrix. assert (Ev : vRows v = vDim v) by (unfold vRows; rewrite Hc; ring).
  rewrite Ev, Hr, Hcol, !Z.eqb_refl. cbn [negb].
  assert (G : forall x, exists parts, mapM (rankProduct L x) (map (fun p => (p, map (fun t => F (fst t) (snd t)) (getAllLocalStates L p), split p)) (processes L)) = Ok parts /\     forall j, qsum (map (fun f => f j) parts) = colSum x F (flat_map (getAllLocalStates L) (processes L)) j).
  { intro x. assert (Hp : forall p, In p (processes L) -> isProcess L p) by apply isProcess_in. revert Hs Hp.
    generalize (processes L) as l. induction l as [|p l IH]; intros Hs Hp; [exists []; split; reflexivity|].
    cbn [map mapM flat_map]. destruct (rank_ok F L p x (split p) HL (Hp p (or_introl eq_refl))) as (f & E & Hf).
    { intros t Ht. apply (Permutation_in _ (Hs p (or_introl eq_refl))). exact Ht. }
    rewrite E. cbn [bind]. destruct (IH (fun q Hq => Hs q (or_intror Hq)) (fun q Hq => Hp q (or_intror Hq))) as (parts & E' & Hparts). rewrite E'. cbn [bind].
    eexists. split; [reflexivity|]. intro j. cbn [map]. unfold qsum. cbn [fold_right]. fold (qsum (map (fun g => g j) parts)). rewrite Hparts, colSum_app, Hf.
    f_equal. apply colSum_perm, Hs. left. reflexivity. }
  assert (K : exists rows, mapM (fun r => do parts <- mapM (rankProduct L (vData v r)) (map (fun p => (p, map (fun t => F (fst t) (snd t)) (getAllLocalStates L p), split p)) (processes L)) ;
      Ok (fun j => qsum (map (fun f => f j) parts))) (zrange 0 (vDim v)) = Ok rows /\      forall r j, 0 <= r < vDim v -> nth (Z.to_nat r) rows (fun _ => 0%Qc) j = colSum (vData v r) F (flat_map (getAllLocalStates L) (processes L)) j).
  { assert (K' : forall l, exists rows, mapM (fun r => do parts <- mapM (rankProduct L (vData v r)) (map (fun p => (p, map (fun t => F (fst t) (snd t)) (getAllLocalStates L p), split p)) (processes L)) ;
      Ok (fun j => qsum (map (fun f => f j) parts))) l = Ok rows /\      forall k r j, nth_error l k = Some r -> nth k rows (fun _ => 0%Qc) j = colSum (vData v r) F (flat_map (getAllLocalStates L) (processes L)) j).
    { induction l as [|r l IH]; [exists []; split; [reflexivity|]; intros [|k] r j H; discriminate|].
      cbn [mapM]. destruct (G (vData v r)) as (parts & E & Hp). rewrite E. cbn [bind]. destruct IH as (rows & E' & Hrows). rewrite E'. cbn [bind].
      eexists. split; [reflexivity|]. intros [|k] r' j H; cbn in H; [injection H as <-; cbn [nth]; apply Hp|cbn [nth]; apply Hrows; exact H]. }
    destruct (K' (zrange 0 (vDim v))) as (rows & E & Hrows). exists rows. split; [exact E|]. intros r j Hr'. apply Hrows. rewrite nth_error_zrange by lia. f_equal. lia. }
  destruct K as (rows & E & Hrows). rewrite E. cbn [bind]. eexists. split; [reflexivity|]. split; [repeat split|].
  intros r j Hr' Hj. cbn [vData withData]. rewrite Hrows by lia. rewrite (colSum_perm _ _ _ _ _ (states_partition L HL)). rewrite Hr, Hcol. apply colSum_full. exact Hj.
Qed.
