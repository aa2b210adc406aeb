From Coq Require Import QArith Permutation.
From Verif Require Import Base BaseLemmas M_utilities M_mpi M_reduce M_points M_irreducible M_bands S_mpi S_points S_irreducible S_bands
  L_utilities L_mpi L_fill L_reduce L_irreducible L_irreducible2 L_bands L_bands2.
Open Scope Z_scope.

Lemma increasing_get l : increasing l -> forall p q x y, p < q -> zget l p = Some x -> zget l q = Some y -> x < y.
Proof.
  induction l as [|a l IH]; intros H p q x y L Gp Gq; [destruct (zget_Some _ _ _ Gp) as [R _]; cbn in R; lia|].
  apply increasing_cons in H. destruct H as [H1 H2]. destruct (zget_Some _ _ _ Gp) as [Rp _]. rewrite (zget_consS a l q) in Gq by lia.
  destruct (Z.eq_dec p 0) as [->|N].
  - rewrite zget_cons0 in Gp. injection Gp as <-. apply H1. apply (zget_Some _ _ _ Gq).
  - rewrite zget_consS in Gp by lia. eapply (IH H2 (p - 1) (q - 1)); [lia|eassumption|eassumption].
Qed.

(** * windows *)
Section W.
Context {E : Type}.
Variable keep : E -> bool.

Definition keptIdx (a : Z) (l : list E) : list Z := map fst (filter (fun p => keep (snd p)) (combine (zrange a (zlen l)) l)).

Lemma windowLoop_acc (l : list (Z * E)) ens idx :
  fold_left (windowStep keep) l (ens, idx) =
  (ens ++ map snd (filter (fun p => keep (snd p)) l), idx ++ map fst (filter (fun p => keep (snd p)) l)).
Proof.
  revert ens idx. induction l as [|[i e] l IH]; intros ens idx; cbn; [rewrite !app_nil_r; reflexivity|].
  unfold windowStep at 2. cbn. destruct (keep e); rewrite IH; cbn; rewrite <- ?app_assoc; reflexivity.
Qed.

Lemma combine_zrange_In (l : list E) a i e : In (i, e) (combine (zrange a (zlen l)) l) <-> zget l (i - a) = Some e.
Proof.
  revert a. induction l as [|x l IH]; intro a.
  - cbn. split; [intros []|]. unfold zget. destruct (i - a <? 0); [discriminate|]. destruct (Z.to_nat (i - a)); discriminate.
  - rewrite zrange_cons by (rewrite zlen_cons; pose proof (zlen_nonneg l); lia). rewrite zlen_cons. replace (1 + zlen l - 1) with (zlen l) by lia.
    cbn [combine In]. rewrite IH. destruct (Z.eq_dec i a) as [->|Ne].
    + rewrite Z.sub_diag, zget_cons0. split; [intros [Eq|K]; [congruence|]|intro Eq; left; congruence].
      destruct (zget_Some _ _ _ K) as [R _]. lia.
    + destruct (Z_lt_ge_dec i a) as [L|G].
      * rewrite !zget_None by lia. split; [intros [Eq|K]; [congruence|discriminate]|discriminate].
      * rewrite zget_consS by lia. replace (i - (a + 1)) with (i - a - 1) by lia. split; [intros [Eq|K]; [congruence|exact K]|intro; right; assumption].
Qed.

Lemma keptIdx_In l a i : In i (keptIdx a l) <-> exists e, zget l (i - a) = Some e /\ keep e = true.
Proof.
  unfold keptIdx. rewrite in_map_iff. split.
  - intros ([i' e] & Ei & I). cbn in Ei. subst i'. apply filter_In in I. destruct I as [I K]. apply combine_zrange_In in I. exists e. split; assumption.
  - intros (e & G & K). exists (i, e). split; [reflexivity|]. apply filter_In. split; [apply combine_zrange_In; assumption|assumption].
Qed.

Lemma keptIdx_increasing l a : increasing (keptIdx a l).
Proof.
  revert a. induction l as [|x l IH]; intro a; [exact I|].
  unfold keptIdx. rewrite zrange_cons by (rewrite zlen_cons; pose proof (zlen_nonneg l); lia). rewrite zlen_cons. replace (1 + zlen l - 1) with (zlen l) by lia.
  cbn [combine filter snd]. destruct (keep x); [|apply IH]. cbn [map fst]. apply increasing_cons. split; [|apply IH].
  intros y I. fold (keptIdx (a + 1) l) in I. apply keptIdx_In in I. destruct I as (e & G & _). destruct (zget_Some _ _ _ G) as [R _]. lia.
Qed.

Lemma kept_energies l : map (@Some E) (map snd (filter (fun p => keep (snd p)) (combine (zrange 0 (zlen l)) l))) = map (zget l) (keptIdx 0 l).
Proof.
  unfold keptIdx. rewrite !map_map. apply map_ext_in. intros [i e] I. apply filter_In in I. destruct I as [I _].
  apply combine_zrange_In in I. rewrite Z.sub_0_r in I. cbn. symmetry. exact I.
Qed.

Lemma windowFilter_spec energies : windowResult (fun e => keep e = true) energies (windowFilter keep energies).
Proof.
  unfold windowFilter, windowLoop. rewrite windowLoop_acc. cbn [app].
  set (fl := filter (fun p => keep (snd p)) (combine (zrange 0 (zlen energies)) energies)).
  assert (Ki : forall i, In i (map fst fl) <-> exists e, zget energies i = Some e /\ keep e = true).
  { intro i. pose proof (keptIdx_In energies 0 i) as K. rewrite Z.sub_0_r in K. exact K. }
  pose proof (keptIdx_increasing energies 0) as Inc. unfold keptIdx in Inc. fold fl in Inc.
  pose proof (kept_energies energies) as KE. unfold keptIdx in KE. fold fl in KE.
  unfold windowResult. cbn [fst snd]. split; [|split; [|split]].
  - split.
    + intros H i e G K. assert (I : In i (map fst fl)) by (apply Ki; exists e; split; assumption).
      destruct fl; [destruct I|discriminate].
    + intro H. destruct fl as [|[i e] fl']; [reflexivity|]. exfalso. destruct (Ki i) as [K _]. destruct K as (e' & G & Ke); [left; reflexivity|].
      exact (H i e' G Ke).
  - destruct fl; [reflexivity|discriminate].
  - intro Hne. destruct (map fst fl) as [|i r] eqn:Ef; [destruct fl; [contradiction|discriminate]|].
    assert (Il : In (last (i :: r) 0) (i :: r)).
    { destruct (exists_last (l := i :: r) ltac:(discriminate)) as (l' & x & Ex). rewrite Ex, last_last. apply in_or_app; right; left; reflexivity. }
    destruct (proj1 (Ki i) (or_introl eq_refl)) as (ea & Ga & Ka).
    destruct (proj1 (Ki (last (i :: r) 0)) Il) as (eb & Gb & Kb).
    exists i, (last (i :: r) 0), ea, eb. split; [reflexivity|]. split; [assumption|]. split; [assumption|]. split; [assumption|]. split; [assumption|].
    intros j e G K. assert (Ij : In j (i :: r)) by (apply Ki; exists e; split; assumption).
    apply In_nth_error in Ij. destruct Ij as (p & Ep).
    assert (Gp : zget (i :: r) (Z.of_nat p) = Some j) by (unfold zget; destruct (Z.ltb_spec (Z.of_nat p) 0); [lia|]; rewrite Nat2Z.id; exact Ep).
    assert (Gl : zget (i :: r) (zlen (i :: r) - 1) = Some (last (i :: r) 0)).
    { destruct (exists_last (l := i :: r) ltac:(discriminate)) as (l' & x & Ex). rewrite Ex, last_last, zlen_app. change (zlen [x]) with 1.
      replace (zlen l' + 1 - 1) with (zlen l') by lia. rewrite zget_app2, Z.sub_diag by lia. reflexivity. }
    destruct (zget_Some _ _ _ Gp) as [Rp _]. split.
    + destruct (Z.eq_dec (Z.of_nat p) 0) as [E0|N0]; [rewrite E0, zget_cons0 in Gp; injection Gp as ->; lia|].
      pose proof (increasing_get _ Inc 0 (Z.of_nat p) i j ltac:(lia) (zget_cons0 i r) Gp). lia.
    + destruct (Z.eq_dec (Z.of_nat p) (zlen (i :: r) - 1)) as [E0|N0]; [rewrite E0, Gl in Gp; assert (Eq : last (i :: r) 0 = j) by congruence; rewrite Eq; lia|].
      pose proof (increasing_get _ Inc (Z.of_nat p) (zlen (i :: r) - 1) j _ ltac:(lia) Gp Gl). lia.
  - exists (map fst fl). split; [exact Ki|]. split; [exact Inc|exact KE].
Qed.
End W.

(** * choice of points over ranks and threads *)
Section G.
Context {E : Type}.
Variable apply : Z -> list E * list Z.
Variable n : Z.
Hypothesis Hn : 0 <= n.
(** what a window returns: nothing, or two band indices *)
Hypothesis Hap : forall ik, 0 <= ik < n -> fst (apply ik) = [] \/ exists a b, snd (apply ik) = [a; b].

Definition pickOf (ik : Z) : list (Z * Z * Z) := if keeps apply ik then [(ik, firstBand apply ik, lastBand apply ik)] else [].

Lemma pick_ok ik : 0 <= ik < n -> pickPoint apply ik = Ok (pickOf ik).
Proof.
  intro H. unfold pickPoint, pickOf, keeps, firstBand, lastBand. pose proof (Hap ik H) as K. destruct (apply ik) as [ens ext]. cbn [fst snd] in *.
  destruct ens; [reflexivity|]. destruct K as [K|(a & b & ->)]; [discriminate|]. reflexivity.
Qed.
Lemma rank_ok threads : (forall ik, In ik (concat threads) -> 0 <= ik < n) ->
  rankPoints apply threads = Ok (concat (map pickOf (concat threads))).
Proof.
  intro H. unfold rankPoints. rewrite (mapM_ok _ (fun l => concat (map pickOf l))).
  - cbn [bind]. f_equal. clear. induction threads as [|t ts IH]; [reflexivity|]. cbn [map concat]. rewrite map_app, concat_app, IH. reflexivity.
  - intros t It. unfold threadPoints. rewrite (mapM_ok _ pickOf); [reflexivity|]. intros ik I. apply pick_ok, H, in_concat. exists t. split; assumption.
Qed.
End G.

Lemma divide_ones size : fits size size -> mapM (fun r => divideWorkIter size r size) (zrange 0 size) = Ok (map (fun r => [r]) (zrange 0 size)).
Proof.
  intro F. pose proof F as (F1 & F2 & F3). apply mapM_ok. intros r I. apply in_zrange in I. rewrite divideWorkIter_cut by (assumption || lia).
  unfold cut. rewrite (Z.mul_comm size r), (Z.mul_comm size (r + 1)). rewrite (Z.div_mul r size), (Z.div_mul (r + 1) size) by lia.
  replace (r + 1 - r) with 1 by lia. change (zrange r 1) with [r + 0]. rewrite Z.add_0_r. reflexivity.
Qed.

Lemma gather_counts {A} (ls : list (list A)) : fits (zlen ls) (zlen ls) -> zlen ls <= INT_MAX ->
  allGatherv (map (fun l => [zlen l]) ls) (repeat 0 (length ls)) = Ok (map zlen ls).
Proof.
  intros F HI. set (g := fun r => match zget ls r with Some l => zlen l | None => 0 end).
  assert (El : map g (zrange 0 (zlen ls)) = map zlen ls).
  { apply zget_ext; [rewrite !zlen_map, zlen_zrange by (apply zlen_nonneg); reflexivity|].
    rewrite zlen_map, zlen_zrange by (apply zlen_nonneg). intros i Hi. rewrite !zget_map, zget_zrange by lia. cbn [option_map]. rewrite Z.add_0_l.
    unfold g. destruct (zget_inrange ls i Hi) as (x & Ex). rewrite Ex. reflexivity. }
  pose proof (allGatherv_serial g (zlen ls) (zlen ls) (map (fun r => [r]) (zrange 0 (zlen ls))) (repeat 0 (length ls)) F HI) as S.
  assert (Hr : zlen (repeat 0 (length ls)) = zlen ls) by (unfold zlen; rewrite repeat_length; reflexivity).
  destruct (S Hr (divide_ones _ F)) as [S1 _]. rewrite map_map in S1. cbn [map] in S1.
  rewrite El in S1. rewrite <- S1. f_equal. 
  transitivity (map (fun x => [x]) (map zlen ls)); [rewrite map_map; reflexivity|]. rewrite <- El, map_map. reflexivity.
Qed.

Lemma placeFrom_app {A} d (l1 l2 : list A) : placeFrom d (l1 ++ l2) = placeFrom d l1 ++ placeFrom (d + zlen l1) l2.
Proof.
  revert d. induction l1 as [|x l1 IH]; intro d; cbn [app placeFrom]; [cbn; f_equal; lia|].
  rewrite IH. do 3 f_equal. rewrite zlen_cons. lia.
Qed.
Lemma placeFrom_fst {A} d (l : list A) : map fst (placeFrom d l) = zrange d (zlen l).
Proof.
  revert d. induction l as [|x l IH]; intro d; [reflexivity|]. rewrite zlen_cons. rewrite zrange_cons by (pose proof (zlen_nonneg l); lia).
  cbn [placeFrom map fst]. rewrite IH. do 2 f_equal. lia.
Qed.
Lemma placeFrom_In {A} d (l : list A) i v : In (i, v) (placeFrom d l) -> zget l (i - d) = Some v.
Proof.
  revert d. induction l as [|x l IH]; intros d I; [destruct I|]. destruct I as [Eq|I].
  - injection Eq as <- <-. rewrite Z.sub_diag. reflexivity.
  - pose proof (IH _ I) as G. destruct (zget_Some _ _ _ G) as [R _]. rewrite zget_consS by lia. rewrite <- G. f_equal. lia.
Qed.
Lemma place_concat {A} (ls : list (list A)) acc :
  concat (map (fun p => placeFrom (fst p) (snd p)) (combine (cumulative (fun c => c) acc (map zlen ls)) ls)) = placeFrom acc (concat ls).
Proof.
  revert acc. induction ls as [|l ls IH]; intro acc; [reflexivity|]. cbn [map cumulative combine concat fst snd]. rewrite IH, placeFrom_app. reflexivity.
Qed.

Lemma gatherVector_ok (ls : list (list Z)) : ls <> [] ->
  exists out, gatherVector (zlen (concat ls)) (cumulative (fun c => c) 0 (map zlen ls)) ls = Ok out /\
    zlen out = zlen ls /\ Forall (fun o => o = concat ls) out.
Proof.
  intro Hne. set (N := zlen (concat ls)). set (f := fun i => match zget (concat ls) i with Some x => x | None => 0 end).
  set (ws := map (fun p => placeFrom (fst p) (snd p)) (combine (cumulative (fun c => c) 0 (map zlen ls)) ls)).
  assert (Ec : concat ws = placeFrom 0 (concat ls)) by apply place_concat.
  destruct (scatter_reduce 0 Z.add Z.add_0_l Z.add_0_r N ws f) as (bufs & EM & HL & HF).
  - apply zlen_nonneg.
  - unfold ws. destruct ls; [contradiction|]. discriminate.
  - rewrite Ec, placeFrom_fst. apply NoDup_zrange.
  - intros i v I. rewrite Ec in I. apply placeFrom_In in I. rewrite Z.sub_0_r in I. destruct (zget_Some _ _ _ I) as [R _].
    split; [exact R|]. unfold f. rewrite I. reflexivity.
  - intros i Hi. rewrite Ec, placeFrom_fst. apply in_zrange. fold N. lia.
  - exists (allReduceG Z.add 0 bufs). unfold gatherVector.
    assert (MM : forall (l : list (Z * list Z)), mapM (fun p => scatter 0 N (placeFrom (fst p) (snd p))) l = mapM (scatter 0 N) (map (fun p => placeFrom (fst p) (snd p)) l)).
    { clear. induction l as [|p l IH]; [reflexivity|]. cbn [mapM map]. rewrite IH. reflexivity. }
    rewrite MM. fold ws. rewrite EM. cbn [bind]. split; [reflexivity|]. split.
    + rewrite HL. unfold ws. rewrite zlen_map. unfold zlen. rewrite combine_length.
      pose proof (cumulative_len (fun c => c) 0 (map zlen ls)) as CL. rewrite zlen_map in CL. unfold zlen in CL. lia.
    + eapply Forall_impl; [|exact HF]. cbn beta. intros o ->. apply zget_ext; [rewrite zlen_map, zlen_zrange by apply zlen_nonneg; reflexivity|].
      rewrite zlen_map, zlen_zrange by apply zlen_nonneg. intros i Hi. rewrite zget_map, zget_zrange by assumption. cbn [option_map]. rewrite Z.add_0_l.
      unfold f. fold N in Hi. destruct (zget_inrange (concat ls) i Hi) as (x & Ex). rewrite Ex. reflexivity.
Qed.

Lemma concat_map_pick {E} (apply : Z -> list E * list Z) (g : Z * Z * Z -> Z) (h : Z -> Z) l :
  (forall ik, g (ik, firstBand apply ik, lastBand apply ik) = h ik) ->
  map g (concat (map (pickOf apply) l)) = map h (filter (keeps apply) l).
Proof.
  intro H. induction l as [|ik l IH]; [reflexivity|]. cbn [map concat filter]. rewrite map_app, IH. unfold pickOf at 1.
  destruct (keeps apply ik); cbn; [f_equal; apply H|reflexivity].
Qed.

Lemma gatherPoints_spec {E} (apply : Z -> list E * list Z) n (chunks : list (list (list Z))) :
  0 <= n -> (forall ik, 0 <= ik < n -> fst (apply ik) = [] \/ exists a b, snd (apply ik) = [a; b]) ->
  fits (zlen chunks) (zlen chunks) -> zlen chunks <= INT_MAX ->
  concat (map (@concat Z) chunks) = zrange 0 n ->
  exists f lo hi, gatherPoints apply chunks = Ok (f, lo, hi) /\
    zlen f = zlen chunks /\ zlen lo = zlen chunks /\ zlen hi = zlen chunks /\
    Forall (fun o => o = filter (keeps apply) (zrange 0 n)) f /\
    Forall (fun o => o = map (firstBand apply) (filter (keeps apply) (zrange 0 n))) lo /\
    Forall (fun o => o = map (lastBand apply) (filter (keeps apply) (zrange 0 n))) hi.
Proof.
  intros Hn Hap F HI HC. pose proof F as (_ & F2 & _). unfold gatherPoints.
  rewrite (mapM_ok _ (fun th => concat (map (pickOf apply) (concat th)))).
  2:{ intros th It. apply (rank_ok apply n Hap). intros ik I. assert (I' : In ik (zrange 0 n)).
      { rewrite <- HC. apply in_concat. exists (concat th). split; [apply in_map; assumption|assumption]. }
      apply in_zrange in I'. lia. }
  cbn [bind]. set (mine := map (fun th => concat (map (pickOf apply) (concat th))) chunks).
  assert (Elm : length mine = length chunks) by (unfold mine; apply map_length).
  assert (Ezm : zlen mine = zlen chunks) by (unfold mine; apply zlen_map).
  rewrite <- Elm. rewrite gather_counts by (rewrite Ezm; assumption). cbn [bind].
  assert (Em : concat mine = concat (map (pickOf apply) (zrange 0 n))).
  { rewrite <- HC. unfold mine. clear. induction chunks as [|c cs IH]; [reflexivity|]. cbn [map concat]. rewrite map_app, concat_app, IH. reflexivity. }
  assert (Hne : forall g : Z * Z * Z -> Z, map (map g) mine <> []).
  { intros g. destruct mine; [|discriminate]. cbn in Ezm. lia. }
  assert (Sz : forall g : Z * Z * Z -> Z, zsum (map zlen mine) = zlen (concat (map (map g) mine)) /\ map zlen mine = map zlen (map (map g) mine)).
  { intro g. rewrite map_map. split; [|apply map_ext; intro; rewrite zlen_map; reflexivity].
    rewrite <- map_concat, zlen_map. apply zsum_concat_len. }
  assert (GV : forall (g : Z * Z * Z -> Z) h, (forall ik, g (ik, firstBand apply ik, lastBand apply ik) = h ik) ->
     exists out, gatherVector (zsum (map zlen mine)) (cumulative (fun c => c) 0 (map zlen mine)) (map (map g) mine) = Ok out /\
       zlen out = zlen chunks /\ Forall (fun o => o = map h (filter (keeps apply) (zrange 0 n))) out).
  { intros g h Hg. destruct (Sz g) as [S1 S2]. destruct (gatherVector_ok (map (map g) mine) (Hne g)) as (out & E1 & E2 & E3).
    exists out. rewrite S1, S2. split; [exact E1|]. split; [rewrite E2, zlen_map; exact Ezm|].
    eapply Forall_impl; [|exact E3]. cbn beta. intros o ->. rewrite <- map_concat, Em. apply concat_map_pick. exact Hg. }
  destruct (GV (fun t => fst (fst t)) (fun ik => ik)) as (f & Ef & Lf & Ff); [reflexivity|].
  destruct (GV (fun t => snd (fst t)) (firstBand apply)) as (lo & El & Ll & Fl); [reflexivity|].
  destruct (GV snd (lastBand apply)) as (hi & Eh & Lh & Fh); [reflexivity|].
  exists f, lo, hi. rewrite Ef. cbn [bind]. rewrite El. cbn [bind]. rewrite Eh. cbn [bind].
  split; [reflexivity|]. split; [assumption|]. split; [assumption|]. split; [assumption|]. split; [|split; assumption].
  eapply Forall_impl; [|exact Ff]. cbn beta. intros o ->. apply map_id.
Qed.

(** * distributed filling of the per-point buffers *)
Section F.
Context {V : Type}.
Variable zero : V.
Variable add : V -> V -> V.
Hypothesis add_0_l : forall v, add zero v = v.
Hypothesis add_0_r : forall v, add v zero = v.

Lemma perm_concat_map {A B} (g : A -> list B) l l' : Permutation l l' -> Permutation (concat (map g l)) (concat (map g l')).
Proof.
  induction 1; cbn [map concat]; [constructor|apply Permutation_app_head; assumption| |etransitivity; eassumption].
  rewrite !app_assoc. apply Permutation_app_tail. apply Permutation_app_comm.
Qed.

Lemma fillPoints_spec n size (writes : Z -> res (list (Z * V))) (W : Z -> list (Z * V)) (iks : list (list Z)) :
  0 <= size -> iks <> [] -> Permutation (concat iks) (zrange 0 n) ->
  (forall ik, 0 <= ik < n -> writes ik = Ok (W ik)) ->
  concat (map (fun ik => map fst (W ik)) (zrange 0 n)) = zrange 0 size ->
  exists outs, fillPoints add zero size writes iks = Ok outs /\ zlen outs = zlen iks /\
    Forall (fun o => zlen o = size /\ forall ik i v, 0 <= ik < n -> In (i, v) (W ik) -> zget o i = Some v) outs.
Proof.
  intros Hs Hne HP HW HS.
  assert (Hin : forall l ik, In l iks -> In ik l -> 0 <= ik < n).
  { intros l ik Il I. assert (In ik (zrange 0 n)) by (eapply Permutation_in; [exact HP|]; apply in_concat; exists l; split; assumption).
    apply in_zrange in H. lia. }
  set (ws := map (fun l => concat (map W l)) iks).
  assert (Ews : concat ws = concat (map W (concat iks))).
  { unfold ws. clear. induction iks as [|l ls IH]; [reflexivity|]. cbn [map concat]. rewrite map_app, concat_app, IH. reflexivity. }
  assert (Pw : Permutation (concat ws) (concat (map W (zrange 0 n)))) by (rewrite Ews; apply perm_concat_map; assumption).
  assert (Eidx : map fst (concat (map W (zrange 0 n))) = zrange 0 size) by (rewrite map_concat, map_map; exact HS).
  assert (Pidx : Permutation (map fst (concat ws)) (zrange 0 size)) by (rewrite <- Eidx; apply Permutation_map; assumption).
  set (all := concat (map W (zrange 0 n))) in *.
  set (f := fun i => match zget (map snd all) i with Some v => v | None => zero end).
  assert (Hall : forall i v, In (i, v) all -> 0 <= i < size /\ v = f i).
  { intros i v I. apply In_nth_error in I. destruct I as (p & Ep).
    assert (G1 : nth_error (map fst all) p = Some i) by (rewrite nth_error_map, Ep; reflexivity).
    assert (G2 : nth_error (map snd all) p = Some v) by (rewrite nth_error_map, Ep; reflexivity).
    assert (Lp : (p < length (map fst all))%nat) by (apply nth_error_Some; congruence).
    rewrite Eidx in G1, Lp. rewrite zrange_length in Lp. rewrite nth_error_zrange in G1 by assumption. rewrite Z.add_0_l in G1. injection G1 as <-.
    split; [lia|]. unfold f, zget. destruct (Z.ltb_spec (Z.of_nat p) 0); [lia|]. rewrite Nat2Z.id, G2. reflexivity. }
  destruct (scatter_reduce zero add add_0_l add_0_r size ws f) as (bufs & EM & HL & HF).
  - assumption.
  - unfold ws. destruct iks; [contradiction|discriminate].
  - eapply Permutation_NoDup; [symmetry; exact Pidx|apply NoDup_zrange].
  - intros i v I. apply Hall. eapply Permutation_in; eassumption.
  - intros i Hi. eapply Permutation_in; [symmetry; exact Pidx|]. apply in_zrange. lia.
  - exists (allReduceG add zero bufs). unfold fillPoints.
    assert (MM : mapM (fun l => do w <- mapM writes l; scatter zero size (concat w)) iks = mapM (scatter zero size) ws).
    { unfold ws. clear - Hin HW. induction iks as [|l ls IH]; [reflexivity|]. cbn [mapM map].
      rewrite (mapM_ok writes W) by (intros ik I; apply HW; apply (Hin l ik); [left; reflexivity|assumption]). cbn [bind].
      rewrite IH by (intros; eapply Hin; [right; eassumption|eassumption]). reflexivity. }
    rewrite MM, EM. cbn [bind]. split; [reflexivity|]. split; [rewrite HL; unfold ws; apply zlen_map|].
    eapply Forall_impl; [|exact HF]. cbn beta. intros o ->. split; [rewrite zlen_map, zlen_zrange by assumption; reflexivity|].
    intros ik i v Hik I. destruct (Hall i v) as [Hi ->].
    { unfold all. apply in_concat. exists (W ik). split; [apply in_map, in_zrange; lia|assumption]. }
    rewrite zget_map, zget_zrange by assumption. reflexivity.
Qed.
End F.

(** nested loops with row-major slots write consecutive slots *)
Lemma rowmajor_range b m n : 0 <= m -> 0 <= n ->
  concat (map (fun a => zrange (b + a * m) m) (zrange 0 n)) = zrange b (n * m).
Proof.
  intros Hm Hn. assert (K : forall k : nat, concat (map (fun a => zrange (b + a * m) m) (zrange 0 (Z.of_nat k))) = zrange b (Z.of_nat k * m)).
  { induction k as [|k IH]; [reflexivity|]. replace (Z.of_nat (S k)) with (Z.of_nat k + 1) by lia. rewrite zrange_S by lia.
    rewrite map_app, concat_app, IH. cbn [map concat]. rewrite app_nil_r. rewrite ?Z.add_0_l. rewrite zrange_app by nia. f_equal. lia. }
  specialize (K (Z.to_nat n)). rewrite Z2Nat.id in K by assumption. exact K.
Qed.
Lemma map_list_prod {A B C} (g : A -> B -> C) (l : list A) (l' : list B) :
  map (fun p => g (fst p) (snd p)) (list_prod l l') = concat (map (fun a => map (g a) l') l).
Proof.
  induction l as [|a l IH]; [reflexivity|]. cbn [list_prod map concat]. rewrite map_app, IH. f_equal. rewrite map_map. reflexivity.
Qed.
