From Coq Require Import QArith Qabs Qround.
From Verif Require Import Base BaseLemmas M_points S_points L_points L_points2 M_context L_context M_apps S_apps L_apps.
From Coq Require Import Lia Lqa.
Open Scope Z_scope.

Definition reached (ext : list (v3 * str)) (vs : list v3) (count : Z) : Prop := exists l, scan ext vs 0 0 = Ok (l, count) /\ okUpto ext vs l count.
Lemma reached_quiet ext vs more count e lab : reached ext vs count -> zget ext count = Some (e, lab) -> Forall (fun c => atExtremum c e = false) more -> reached ext (vs ++ more) count.
Proof.
  intros (l & E & O) He HF. exists l. split; [|now apply okUpto_more]. rewrite (scan_app ext more _ _ _ _ _ E), (scan_quiet ext e lab count He more _ HF). cbn [bind fst snd]. now rewrite app_nil_r.
Qed.
Lemma reached_push ext vs c count e lab e' lab' : reached ext vs count -> zget ext count = Some (e, lab) -> veq c e -> zget ext (count + 1) = Some (e', lab') -> sameCoords e e' || streq lab lab' = false ->
  reached ext (vs ++ [c]) (count + 1).
Proof.
  intros (l & E & O) He Hc He' Hm. exists (l ++ [zlen vs]). split; [|now apply (okUpto_push ext vs l count c e lab)].
  rewrite (scan_app ext [c] _ _ _ _ _ E). cbn [scan]. rewrite He, (atExtremum_veq c e Hc), He', Hm. cbn [bind fst snd]. reflexivity.
Qed.
Lemma reached_push2 ext vs c count e lab e' lab' : reached ext vs count -> zget ext count = Some (e, lab) -> veq c e -> zget ext (count + 1) = Some (e', lab') -> sameCoords e e' || streq lab lab' = true ->
  reached ext (vs ++ [c]) (count + 2).
Proof.
  intros (l & E & O) He Hc He' Hm. exists (l ++ [zlen vs; zlen vs]). split.
  - rewrite (scan_app ext [c] _ _ _ _ _ E). cbn [scan]. rewrite He, (atExtremum_veq c e Hc), He', Hm. cbn [bind fst snd]. reflexivity.
  - apply (okUpto_push2 ext vs l count c e lab e' lab'); try assumption. apply Bool.orb_prop in Hm. destruct Hm as [Hm | Hm]; [left; now apply sameCoords_veq|right; now apply streq_eq].
Qed.
Lemma reached_end ext vs c count e lab : reached ext vs count -> zget ext count = Some (e, lab) -> veq c e -> zget ext (count + 1) = None -> zlen ext = count + 1 ->
  exists l, highSym ext (vs ++ [c]) 0 0 = Ok l /\ okUpto ext (vs ++ [c]) l (zlen ext).
Proof.
  intros (l & E & O) He Hc Hn Hz. exists (l ++ [zlen vs]). split; [|rewrite Hz; now apply (okUpto_push ext vs l count c e lab)].
  rewrite highSym_scan, (scan_app ext [c] _ _ _ _ _ E). cbn [scan]. rewrite He, (atExtremum_veq c e Hc), Hn. cbn [bind fst snd]. reflexivity.
Qed.
Lemma path_labels ext delta : ((1 # 10000000) <= delta)%Q -> forall segs pre vs, vs <> [] -> ext = pre ++ extrema segs -> Forall (goodSegment delta) segs -> goodJoints segs ->
  match segs with [] => False | s :: _ => reached ext vs (zlen pre + 1) \/ (reached ext vs (zlen pre) /\ (eps8 * eps8 < sqDist (fst (fst s)) (last vs (fst (fst s))))%Q) end ->
  exists vs' l, fold_left (pathSegment delta) (coords segs) (map Some vs) = map Some vs' /\ highSym ext vs' 0 0 = Ok l /\ okUpto ext vs' l (zlen ext).
Proof.
  intro Hd. assert (Hd0 : (0 < delta)%Q) by lra. assert (Hdd : ((3 # 10000000000000000) <= delta * delta)%Q) by nra.
  induction segs as [|[[p0 l0] [p1 l1]] rest IH]; intros pre vs Hvs Hext HG HJ Hst; [contradiction|].
  inversion HG as [|? ? [Hlen Hlab] HG']; subst x l. cbn [fst snd] in *.
  pose proof (pathNk_pos p0 p1 delta Hd0 Hlen) as Hn. cbn [coords map fst snd fold_left]. fold (coords rest). rewrite (pathSegment_vs delta vs p0 p0 p1 Hvs Hn). set (n := pathNk p0 p1 delta) in *.
  assert (E0 : zget ext (zlen pre) = Some (p0, l0)). { rewrite Hext, zget_app2 by lia. rewrite Z.sub_diag. reflexivity. }
  assert (E1 : zget ext (zlen pre + 1) = Some (p1, l1)). { rewrite Hext, zget_app2 by lia. replace (zlen pre + 1 - zlen pre) with 1 by lia. reflexivity. }
  assert (Hfar : forall j, 0 <= j < n -> atExtremum (sp p0 p1 n j) p1 = false).
  { intros j Hj. apply atExtremum_far. eapply Qle_trans; [exact Hdd|]. apply sp_far; assumption. }
  assert (Hne : sameCoords p0 p1 || streq l0 l1 = false).
  { apply Bool.orb_false_iff. split; [|now apply streq_neq]. apply Bool.not_true_iff_false. intro K. apply sameCoords_veq in K. pose proof (sqDist_comp p1 p1 p0 p1 (veq_refl _) K) as Q1.
    assert (Q2 : (sqDist p1 p1 == 0)%Q) by (unfold sqDist, sqNorm, vsub; cbn [c0 c1 c2]; ring). lra. }
  assert (R1 : reached ext (vs ++ firstPoint p0 p1 n (last vs p0)) (zlen pre + 1)).
  { unfold firstPoint. destruct Hst as [Hst | [Hst Hlast]].
    - apply (reached_quiet ext vs _ _ p1 l1 Hst E1). destruct (Qltb _ _); [constructor; [apply Hfar; lia|constructor]|constructor].
    - rewrite Qltb_true.
      + apply (reached_push ext vs _ _ p0 l0 p1 l1 Hst E0 (sp_0 p0 p1 n Hn) E1 Hne).
      + fold (sqDist (sp p0 p1 n 0) (last vs p0)). rewrite (sqDist_comp _ p0 _ (last vs p0) (sp_0 p0 p1 n Hn) (veq_refl _)). exact Hlast. }
  set (first := firstPoint p0 p1 n (last vs p0)) in *. set (mid := map (sp p0 p1 n) (zrange 1 (n - 1))).
  assert (R2 : reached ext ((vs ++ first) ++ mid) (zlen pre + 1)).
  { apply (reached_quiet ext _ _ _ p1 l1 R1 E1). unfold mid. apply Forall_map, Forall_forall. intros j Hj. apply in_zrange in Hj. apply Hfar. lia. }
  replace (vs ++ first ++ mid ++ [sp p0 p1 n n]) with (((vs ++ first) ++ mid) ++ [sp p0 p1 n n]) by (rewrite <- !app_assoc; reflexivity).
  set (vs2 := (vs ++ first) ++ mid) in *. clearbody first mid.
  pose proof (sp_n p0 p1 n Hn) as Vn. destruct rest as [|[[q0 m0] [q1 m1]] rest'].
  - cbn [coords map fold_left]. assert (Zl : zlen ext = zlen pre + 1 + 1). { rewrite Hext. unfold zlen. rewrite app_length. cbn [extrema flat_map app length]. lia. }
    destruct (reached_end ext vs2 (sp p0 p1 n n) (zlen pre + 1) p1 l1 R2 E1 Vn) as (l & El & Ol); [apply zget_None; lia|exact Zl|]. exists (vs2 ++ [sp p0 p1 n n]), l. repeat split; try assumption; apply Ol.
  - assert (E2 : zget ext (zlen pre + 1 + 1) = Some (q0, m0)). { rewrite Hext, zget_app2 by lia. replace (zlen pre + 1 + 1 - zlen pre) with 2 by lia. reflexivity. }
    assert (Zp : zlen (pre ++ [(p0, l0); (p1, l1)]) = zlen pre + 2) by (unfold zlen; rewrite app_length; cbn [length]; lia).
    destruct HJ as [HJ1 HJ2]. apply (IH (pre ++ [(p0, l0); (p1, l1)])); try assumption.
    + intro K. apply app_eq_nil in K. destruct K as [_ K]. discriminate.
    + rewrite Hext. rewrite <- app_assoc. reflexivity.
    + rewrite Zp. cbn [fst snd] in *. destruct (sameCoords p1 q0 || streq l1 m0) eqn:Em.
      * left. replace (zlen pre + 2 + 1) with (zlen pre + 1 + 2) by lia. now apply (reached_push2 ext vs2 _ _ p1 l1 q0 m0).
      * right. split; [replace (zlen pre + 2) with (zlen pre + 1 + 1) by lia; now apply (reached_push ext vs2 _ _ p1 l1 q0 m0)|].
        apply Bool.orb_false_iff in Em. destruct Em as [Em1 Em2]. rewrite last_last. rewrite (sqDist_comp q0 q0 _ p1 (veq_refl _) Vn).
        destruct HJ1 as [V | [Lb | Fr]]; [apply sameCoords_veq in V; congruence|apply streq_neq in Em2; contradiction|exact Fr].
Qed.
Lemma highSym_path delta segs : ((1 # 10000000) <= delta)%Q -> segs <> [] -> Forall (goodSegment delta) segs -> goodJoints segs ->
  exists pts l, pathPoints (coords segs) delta = map Some pts /\ highSymIndices segs pts = Ok l /\ labelled (extrema segs) pts l.
Proof.
  intros Hd Hne HG HJ. destruct segs as [|[[p0 l0] [p1 l1]] rest]; [contradiction|].
  destruct (path_labels (extrema (((p0, l0), (p1, l1)) :: rest)) delta Hd (((p0, l0), (p1, l1)) :: rest) [] [p0]) as (vs & l & E & El & O); try assumption; try reflexivity; [discriminate| |].
  - left. change (zlen [] + 1) with 1. inversion HG as [|? ? [Hlen Hlab] _]; subst. cbn [fst snd] in *.
    assert (R0 : reached (extrema (((p0, l0), (p1, l1)) :: rest)) [] 0). { exists []. split; [reflexivity|]. split; [reflexivity|]. intros k e lab i _ Hi. apply zget_Some in Hi. unfold zlen in Hi. cbn in Hi. lia. }
    apply (reached_push _ [] p0 0 p0 l0 p1 l1 R0); try reflexivity; [apply veq_refl|]. apply Bool.orb_false_iff. split; [|now apply streq_neq]. apply Bool.not_true_iff_false. intro K.
    apply sameCoords_veq in K. pose proof (sqDist_comp p1 p1 p0 p1 (veq_refl _) K) as Q1. assert (Q2 : (sqDist p1 p1 == 0)%Q) by (unfold sqDist, sqNorm, vsub; cbn [c0 c1 c2]; ring). assert (0 < delta)%Q by lra. nra.
  - exists vs, l. split; [exact E|]. split; [exact El|exact O].
Qed.
(** a segment whose ends have the same label *)
Lemma same_label_UB delta p0 p1 lab : ((1 # 10000000) <= delta)%Q -> (delta * delta <= sqDist p1 p0)%Q ->
  exists pts, pathPoints (coords [((p0, lab), (p1, lab))]) delta = map Some pts /\ highSymIndices [((p0, lab), (p1, lab))] pts = UB.
Proof.
  intros Hd Hl. assert (Hd0 : (0 < delta)%Q) by lra. pose proof (pathNk_pos p0 p1 delta Hd0 Hl) as Hn. eexists. split.
  - cbn [coords map fst snd pathPoints fold_left]. change [Some p0] with (map Some [p0]). apply (pathSegment_vs delta [p0] p0); [discriminate|exact Hn].
  - unfold highSymIndices. cbn [extrema flat_map app fst snd last highSym]. change (zget [(p0, lab); (p1, lab)] 0) with (Some (p0, lab)). cbn [Z.add]. change (zget [(p0, lab); (p1, lab)] 1) with (Some (p1, lab)).
    rewrite (atExtremum_veq p0 p0 (veq_refl _)), streq_refl, Bool.orb_true_r. set (tl := firstPoint _ _ _ _ ++ _). 
    assert (tl <> []). { unfold tl. intro K. apply app_eq_nil in K. destruct K as [_ K]. apply app_eq_nil in K. destruct K as [_ K]. discriminate. }
    destruct tl as [|c tl]; [contradiction|]. reflexivity.
Qed.
