From Coq Require Import QArith Qabs Qround Qfield.
From Verif Require Import Base BaseLemmas M_points S_points L_points L_points2 M_context L_context M_apps S_apps.
From Coq Require Import Lia Lqa.
Open Scope Z_scope.

(** * the scan, with the final value of the counter *)
Fixpoint scan (ext : list (v3 * str)) (pts : list v3) (ik count : Z) : res (list Z * Z) :=
  match pts with
  | [] => Ok ([], count)
  | c :: rest =>
    match zget ext count with
    | None => UB
    | Some (e, lab) =>
      if atExtremum c e then
        match zget ext (count + 1) with
        | None => do t <- scan ext rest (ik + 1) count ; Ok (ik :: fst t, snd t)
        | Some (e', lab') =>
          if sameCoords e e' || streq lab lab' then do t <- scan ext rest (ik + 1) (count + 2) ; Ok (ik :: ik :: fst t, snd t)
          else do t <- scan ext rest (ik + 1) (count + 1) ; Ok (ik :: fst t, snd t)
        end
      else scan ext rest (ik + 1) count
    end
  end.
Lemma highSym_scan ext : forall pts ik count, highSym ext pts ik count = do t <- scan ext pts ik count ; Ok (fst t).
Proof.
  induction pts as [|c pts IH]; intros ik count; [reflexivity|]. cbn [highSym scan]. destruct (zget ext count) as [[e lab]|]; [|reflexivity].
  destruct (atExtremum c e); [|apply IH]. destruct (zget ext (count + 1)) as [[e' lab']|].
  - destruct (_ || _); rewrite IH; destruct (scan ext pts (ik + 1) _); reflexivity.
  - rewrite IH. destruct (scan ext pts (ik + 1) count); reflexivity.
Qed.
Lemma scan_app ext b : forall a ik count l c', scan ext a ik count = Ok (l, c') ->
  scan ext (a ++ b) ik count = do t <- scan ext b (ik + zlen a) c' ; Ok (l ++ fst t, snd t).
Proof.
  induction a as [|c a IH]; intros ik count l c' H.
  - injection H as <- <-. change (zlen []) with 0. rewrite Z.add_0_r. cbn [app]. destruct (scan ext b ik count) as [[l' c'']| |]; reflexivity.
  - rewrite zlen_cons. replace (ik + (1 + zlen a)) with (ik + 1 + zlen a) by lia. cbn [app scan] in *. destruct (zget ext count) as [[e lab]|]; [|discriminate].
    destruct (atExtremum c e); [|now apply IH]. destruct (zget ext (count + 1)) as [[e' lab']|].
    + destruct (sameCoords e e' || streq lab lab').
      * destruct (scan ext a (ik + 1) (count + 2)) as [[l1 c1]| |] eqn:E; try discriminate. cbn [bind fst snd] in H. injection H as <- <-. rewrite (IH _ _ _ _ E). destruct (scan ext b (ik + 1 + zlen a) c1) as [[l2 c2]| |]; reflexivity.
      * destruct (scan ext a (ik + 1) (count + 1)) as [[l1 c1]| |] eqn:E; try discriminate. cbn [bind fst snd] in H. injection H as <- <-. rewrite (IH _ _ _ _ E). destruct (scan ext b (ik + 1 + zlen a) c1) as [[l2 c2]| |]; reflexivity.
    + destruct (scan ext a (ik + 1) count) as [[l1 c1]| |] eqn:E; try discriminate. cbn [bind fst snd] in H. injection H as <- <-. rewrite (IH _ _ _ _ E). destruct (scan ext b (ik + 1 + zlen a) c1) as [[l2 c2]| |]; reflexivity.
Qed.
Lemma scan_quiet ext e lab count : zget ext count = Some (e, lab) -> forall pts ik, Forall (fun c => atExtremum c e = false) pts -> scan ext pts ik count = Ok ([], count).
Proof.
  intros He. induction pts as [|c pts IH]; intros ik H; [reflexivity|]. inversion H; subst. cbn [scan]. rewrite He. replace (atExtremum c e) with false by (symmetry; assumption). now apply IH.
Qed.

(** * comparisons *)
Lemma atExtremum_veq c e : veq c e -> atExtremum c e = true.
Proof.
  intros (A & B & C). unfold atExtremum, closeQ. rewrite !Qltb_true; [reflexivity| | |].
  - rewrite C. setoid_replace (c2 e - c2 e)%Q with 0%Q by ring. reflexivity.
  - rewrite B. setoid_replace (c1 e - c1 e)%Q with 0%Q by ring. reflexivity.
  - rewrite A. setoid_replace (c0 e - c0 e)%Q with 0%Q by ring. reflexivity.
Qed.
Lemma abs_sq x y : (Qabs x < y)%Q -> (x * x < y * y)%Q.
Proof.
  intro H. assert (A : (x * x == Qabs x * Qabs x)%Q). { rewrite <- Qabs_Qmult. symmetry. apply Qabs_pos. nra. } rewrite A. pose proof (Qabs_nonneg x). nra.
Qed.
Lemma atExtremum_far c e : ((3 # 10000000000000000) <= sqDist c e)%Q -> atExtremum c e = false.
Proof.
  intro H. apply Bool.not_true_iff_false. intro K. unfold atExtremum, closeQ in K. rewrite !Bool.andb_true_iff in K. destruct K as [[A B] C].
  destruct (Qltb_spec (Qabs (c0 c - c0 e)) eps8) as [A'|]; [|discriminate]. destruct (Qltb_spec (Qabs (c1 c - c1 e)) eps8) as [B'|]; [|discriminate].
  destruct (Qltb_spec (Qabs (c2 c - c2 e)) eps8) as [C'|]; [|discriminate]. apply abs_sq in A', B', C'.
  unfold sqDist, sqNorm, vsub, eps8 in *. cbn [c0 c1 c2] in *. lra.
Qed.
Lemma sameCoords_veq a b : sameCoords a b = true <-> veq a b.
Proof. unfold sameCoords, veq. rewrite !Bool.andb_true_iff, !Qeq_bool_iff. tauto. Qed.
Lemma sqDist_comp a a' b b' : veq a a' -> veq b b' -> (sqDist a b == sqDist a' b')%Q.
Proof. intros (A & B & C) (D & E & F). unfold sqDist, sqNorm, vsub. cbn [c0 c1 c2]. rewrite A, B, C, D, E, F. reflexivity. Qed.
Lemma veq_refl a : veq a a. Proof. repeat split; reflexivity. Qed.

(** * points of a segment *)
Definition sp (p0 p1 : v3) (nk j : Z) : v3 :=
  V3 ((c0 p1 - c0 p0) / inject_Z nk * inject_Z j + c0 p0) ((c1 p1 - c1 p0) / inject_Z nk * inject_Z j + c1 p0) ((c2 p1 - c2 p0) / inject_Z nk * inject_Z j + c2 p0).
Lemma segmentPoint_sp p0 p1 nk j : nk <> 0 -> segmentPoint p0 p1 nk j = Some (sp p0 p1 nk j).
Proof. intro H. unfold segmentPoint. destruct (Z.eqb_spec nk 0); [contradiction|reflexivity]. Qed.
Lemma inject_neq nk : 1 <= nk -> ~ (inject_Z nk == 0)%Q.
Proof. intros H E. unfold Qeq, inject_Z in E. cbn in E. lia. Qed.
Lemma sp_0 p0 p1 nk : 1 <= nk -> veq (sp p0 p1 nk 0) p0.
Proof. intro H. pose proof (inject_neq nk H). unfold sp, veq. cbn [c0 c1 c2]. change (inject_Z 0) with 0%Q. repeat split; field; assumption. Qed.
Lemma sp_n p0 p1 nk : 1 <= nk -> veq (sp p0 p1 nk nk) p1.
Proof. intro H. pose proof (inject_neq nk H). unfold sp, veq. cbn [c0 c1 c2]. repeat split; field; assumption. Qed.
Lemma pathNk_sq p0 p1 delta : (0 < delta)%Q -> (delta * delta * (inject_Z (pathNk p0 p1 delta) * inject_Z (pathNk p0 p1 delta)) <= sqDist p1 p0)%Q.
Proof.
  intro Hd. unfold pathNk, sqDist. set (x := (sqNorm (vsub p1 p0) / (delta * delta))%Q). assert (Hdd : (0 < delta * delta)%Q) by nra.
  assert (Hx : (0 <= x)%Q). { unfold x. apply Qle_shift_div_l; [assumption|]. unfold sqNorm. nra. }
  assert (F : 0 <= Qfloor x). { change 0 with (Qfloor 0). now apply Qfloor_resp_le. }
  pose proof (Z.sqrt_spec (Qfloor x) F) as [S _]. cbn zeta in S. rewrite <- inject_Z_mult.
  assert (K : (inject_Z (Z.sqrt (Qfloor x) * Z.sqrt (Qfloor x)) <= x)%Q). { eapply Qle_trans; [rewrite <- Zle_Qle; exact S|apply Qfloor_le]. }
  assert (E : (sqNorm (vsub p1 p0) == delta * delta * x)%Q). { unfold x. field. intro. lra. } rewrite E. apply Qmult_le_l; assumption.
Qed.
Lemma sp_far p0 p1 delta j : (0 < delta)%Q -> (delta * delta <= sqDist p1 p0)%Q -> 0 <= j < pathNk p0 p1 delta -> (delta * delta <= sqDist (sp p0 p1 (pathNk p0 p1 delta) j) p1)%Q.
Proof.
  intros Hd Hl Hj. pose proof (pathNk_sq p0 p1 delta Hd) as S. set (n := pathNk p0 p1 delta) in *. assert (Hn : 1 <= n) by lia.
  pose proof (inject_neq n Hn) as N. set (k := n - j). assert (Hk : 1 <= k) by (unfold k; lia).
  assert (Ej : (inject_Z j == inject_Z n - inject_Z k)%Q). { unfold k, Z.sub. rewrite inject_Z_plus, inject_Z_opp. ring. }
  assert (E : (sqDist (sp p0 p1 n j) p1 * (inject_Z n * inject_Z n) == sqDist p1 p0 * (inject_Z k * inject_Z k))%Q).
  { unfold sqDist, sqNorm, vsub, sp. cbn [c0 c1 c2]. rewrite Ej. field. exact N. }
  assert (N1 : (1 <= inject_Z n)%Q) by (change 1%Q with (inject_Z 1); rewrite <- Zle_Qle; exact Hn).
  assert (K1 : (1 <= inject_Z k)%Q) by (change 1%Q with (inject_Z 1); rewrite <- Zle_Qle; exact Hk).
  set (a := inject_Z n) in *. set (b := inject_Z k) in *. set (X := sqDist (sp p0 p1 n j) p1) in *. set (D := sqDist p1 p0) in *. clearbody a b X D.
  assert (A : (delta * delta * (a * a) <= X * (a * a))%Q). { rewrite E. assert ((D <= D * (b * b))%Q). { assert (0 <= D)%Q by nra. assert (1 <= b * b)%Q by nra. nra. } lra. }
  apply (Qmult_le_r _ _ (a * a)); [nra|exact A].
Qed.

(** * segments appended to the path *)
Lemma last_map_some (vs : list v3) d : vs <> [] -> last (map Some vs) None = Some (last vs d).
Proof. induction vs as [|v vs IH]; intro H; [contradiction|]. destruct vs as [|w vs]; [reflexivity|]. change (last (map Some (w :: vs)) None = Some (last (w :: vs) d)). apply IH. discriminate. Qed.
Definition firstPoint (p0 p1 : v3) (nk : Z) (w : v3) : list v3 := if Qltb (eps8 * eps8) (sqNorm (vsub (sp p0 p1 nk 0) w)) then [sp p0 p1 nk 0] else [].
Lemma pathSegment_vs delta vs d p0 p1 : vs <> [] -> 1 <= pathNk p0 p1 delta ->
  pathSegment delta (map Some vs) (p0, p1) = map Some (vs ++ firstPoint p0 p1 (pathNk p0 p1 delta) (last vs d) ++ map (sp p0 p1 (pathNk p0 p1 delta)) (zrange 1 (pathNk p0 p1 delta - 1)) ++ [sp p0 p1 (pathNk p0 p1 delta) (pathNk p0 p1 delta)]).
Proof.
  intros Hv Hn. unfold pathSegment. set (n := pathNk p0 p1 delta) in *. rewrite zrange_cons by lia. cbn [map]. rewrite (last_map_some vs d) by assumption.
  rewrite segmentPoint_sp by lia. cbn [farEnough]. unfold firstPoint.
  replace (0 + 1) with 1 by lia. replace (n + 1 - 1) with ((n - 1) + 1) by lia. rewrite zrange_S by lia. replace (1 + (n - 1)) with n by lia.
  rewrite map_app. cbn [map]. rewrite segmentPoint_sp by lia. rewrite (map_ext (segmentPoint p0 p1 n) (fun j => Some (sp p0 p1 n j))) by (intro; apply segmentPoint_sp; lia).
  destruct (Qltb _ _); rewrite !map_app, !map_map; cbn [map app]; rewrite <- ?app_assoc; reflexivity.
Qed.

(** * the labels of a path *)
Definition okUpto (ext : list (v3 * str)) (pts : list v3) (l : list Z) (count : Z) : Prop := zlen l = count /\
  forall k e lab i, zget ext k = Some (e, lab) -> zget l k = Some i -> exists c, zget pts i = Some c /\ (veq c e \/ exists e', zget ext (k - 1) = Some (e', lab) /\ zget l (k - 1) = Some i /\ veq c e').
Lemma okUpto_more ext pts more l count : okUpto ext pts l count -> okUpto ext (pts ++ more) l count.
Proof.
  intros [H1 H2]. split; [exact H1|]. intros k e lab i Hk Hi. destruct (H2 k e lab i Hk Hi) as (c & Hc & H). exists c. split; [|exact H]. rewrite zget_app1; [exact Hc|]. apply zget_Some in Hc. lia.
Qed.
Lemma zget_snoc {A} (l : list A) x k y : zget (l ++ [x]) k = Some y -> zget l k = Some y \/ (k = zlen l /\ x = y).
Proof.
  intro H. destruct (Z_lt_le_dec k (zlen l)) as [L|L]; [left; rewrite zget_app1 in H by assumption; exact H|]. right.
  pose proof (zget_Some _ _ _ H) as [B _]. unfold zlen in B. rewrite app_length in B. cbn [length] in B. fold (zlen l) in B. assert (k = zlen l) by (unfold zlen in *; lia). subst k.
  rewrite zget_app2 in H by lia. rewrite Z.sub_diag in H. cbn in H. injection H as ->. split; reflexivity.
Qed.
Lemma okUpto_push ext pts l count c e lab : okUpto ext pts l count -> zget ext count = Some (e, lab) -> veq c e -> okUpto ext (pts ++ [c]) (l ++ [zlen pts]) (count + 1).
Proof.
  intros H He Hc. pose proof (okUpto_more ext pts [c] l count H) as [_ H2]. destruct H as [H1 _]. split; [unfold zlen in *; rewrite app_length; cbn [length]; lia|].
  intros k e' lab' i Hk Hi. apply zget_snoc in Hi. destruct Hi as [Hi | [-> <-]].
  - destruct (H2 k e' lab' i Hk Hi) as (c' & Hc' & [G | (e'' & G1 & G2 & G3)]); exists c'; (split; [exact Hc'|]); [now left|right].
    exists e''. split; [exact G1|]. split; [|exact G3]. rewrite zget_app1; [exact G2|]. apply zget_Some in G2. lia.
  - exists c. split; [rewrite zget_app2 by lia; rewrite Z.sub_diag; reflexivity|]. left. rewrite H1 in Hk. rewrite He in Hk. injection Hk as <- <-. exact Hc.
Qed.
Lemma okUpto_push2 ext pts l count c e lab e' lab' : okUpto ext pts l count -> zget ext count = Some (e, lab) -> zget ext (count + 1) = Some (e', lab') -> veq c e -> (veq e e' \/ lab = lab') ->
  okUpto ext (pts ++ [c]) (l ++ [zlen pts; zlen pts]) (count + 2).
Proof.
  intros H He He' Hc HL. pose proof (okUpto_push ext pts l count c e lab H He Hc) as [P1 P2]. destruct H as [H1 _].
  replace (l ++ [zlen pts; zlen pts]) with ((l ++ [zlen pts]) ++ [zlen pts]) by (rewrite <- app_assoc; reflexivity).
  split; [unfold zlen in *; rewrite !app_length in *; cbn [length] in *; lia|]. intros k e1 lab1 i Hk Hi. apply zget_snoc in Hi. destruct Hi as [Hi | [-> <-]].
  - destruct (P2 k e1 lab1 i Hk Hi) as (c' & Hc' & [G | (e'' & G1 & G2 & G3)]); exists c'; (split; [exact Hc'|]); [now left|right].
    exists e''. split; [exact G1|]. split; [|exact G3]. rewrite zget_app1; [exact G2|]. apply zget_Some in G2. lia.
  - exists c. split; [rewrite zget_app2 by lia; rewrite Z.sub_diag; reflexivity|]. rewrite P1 in Hk. rewrite He' in Hk. injection Hk as <- <-.
    destruct HL as [V | ->]; [left; destruct Hc as (A & B & C), V as (A' & B' & C'); repeat split; etransitivity; eassumption|]. right. exists e. rewrite P1. replace (count + 1 - 1) with count by lia.
    split; [exact He|]. split; [|exact Hc]. rewrite zget_app1 by lia. rewrite zget_app2 by lia. rewrite H1, Z.sub_diag. reflexivity.
Qed.
