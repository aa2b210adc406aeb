From Coq Require Import Reals Permutation.
From Verif Require Import Base BaseLemmas M_complex L_complex M_phonon L_phonon L_phonon3 M_particle P_particle M_electron S_electron L_electron5 M_wte S_wte.
From Coq Require Import Lia Lra.
Open Scope Z_scope.

(** * sums of results that may not be numbers *)
Lemma osum_some {A} (f : A -> option R) g l : (forall x, In x l -> f x = Some (g x)) -> osum (map f l) = Some (rsum (map g l)).
Proof. induction l as [|a l IH]; intro H; [reflexivity|]. cbn [map osum fold_right]. rewrite (H a (or_introl eq_refl)). fold (osum (map f l)).
  rewrite IH by (intros; apply H; now right). reflexivity. Qed.
Lemma osum_none l : In None l -> osum l = None.
Proof. induction l as [|a l IH]; [intros []|]. intros [-> | H]; [reflexivity|]. change (osum (a :: l)) with (oadd a (osum l)). rewrite (IH H). now destruct a. Qed.
Lemma osum_inv {A} (f : A -> option R) l y : osum (map f l) = Some y -> forall x, In x l -> exists z, f x = Some z.
Proof. intros H x Hx. destruct (f x) as [z|] eqn:E; [now exists z|]. rewrite osum_none in H; [discriminate|]. apply in_map_iff. now exists x. Qed.
Lemma osum_app l m : osum (l ++ m) = oadd (osum l) (osum m).
Proof. induction l as [|a l IH]; [cbn [app]; change (osum []) with (Some 0%R); destruct (osum m); cbn; [f_equal; ring|reflexivity]|].
  change (osum ((a :: l) ++ m)) with (oadd a (osum (l ++ m))). change (osum (a :: l)) with (oadd a (osum l)). rewrite IH.
  destruct a, (osum l), (osum m); cbn; try reflexivity. f_equal; ring. Qed.
Lemma osum_concat {A} (f : A -> option R) ll : osum (map (fun l => osum (map f l)) ll) = osum (map f (concat ll)).
Proof. induction ll as [|l ll IH]; [reflexivity|]. cbn [concat map]. rewrite map_app, osum_app, <- IH. reflexivity. Qed.
Lemma osum_perm l m : Permutation l m -> osum l = osum m.
Proof. induction 1; [reflexivity| | |congruence].
  - change (oadd x (osum l) = oadd x (osum l')). now rewrite IHPermutation.
  - change (oadd y (oadd x (osum l)) = oadd x (oadd y (osum l))). destruct x, y, (osum l); cbn; try reflexivity. f_equal; ring. Qed.
Lemma osum_ext {A} (f g : A -> option R) l : (forall x, In x l -> f x = g x) -> osum (map f l) = osum (map g l).
Proof. intro H. f_equal. now apply map_ext_in. Qed.

Lemma reqb_true a b : reqb a b = true <-> a = b.
Proof. unfold reqb. destruct (Req_EM_T a b); split; intro H; congruence. Qed.
Lemma reqb_false a b : reqb a b = false <-> a <> b.
Proof. unfold reqb. destruct (Req_EM_T a b); split; intro H; congruence. Qed.

(** * pairs *)
Lemma bandPairs_In p b1 b2 : In (b1, b2) (bandPairs p) <-> 0 <= b1 < wNb p /\ 0 <= b2 < wNb p /\ b1 <> b2.
Proof. unfold bandPairs. rewrite filter_In, in_prod_iff, !in_zrange. cbn [fst snd]. rewrite negb_true_iff, Z.eqb_neq. lia. Qed.
Lemma rsum_app l m : rsum (l ++ m) = (rsum l + rsum m)%R.
Proof. induction l as [|a l IH]; [cbn [app]; change (rsum []) with 0%R; ring|]. cbn [app]. rewrite !rsum_cons, IH. ring. Qed.
Lemma rsum_list_prod {A B} (f : A * B -> R) l m : rsum (map f (list_prod l m)) = rsum (map (fun a => rsum (map (fun b => f (a, b)) m)) l).
Proof. induction l as [|a l IH]; [reflexivity|]. cbn [list_prod map]. rewrite map_app, rsum_app, map_map, IH. reflexivity. Qed.
Lemma rsum_concat {A} (f : A -> R) ll : rsum (map (fun l => rsum (map f l)) ll) = rsum (map f (concat ll)).
Proof. induction ll as [|l ll IH]; [reflexivity|]. cbn [concat map]. rewrite map_app, rsum_app, <- IH. reflexivity. Qed.
Lemma bandPairs_sum p f : rsum (map (fun b => f (fst b) (snd b)) (bandPairs p)) = overPairs (wNb p) f.
Proof. unfold bandPairs. rewrite rsum_filter, rsum_list_prod. unfold overPairs. apply rsum_ext. intros a _. apply rsum_ext. intros b _. cbn [fst snd]. now destruct (a =? b). Qed.
Lemma rsum_nonneg {A} (f : A -> R) l : (forall x, In x l -> (0 <= f x)%R) -> (0 <= rsum (map f l))%R.
Proof. induction l as [|a l IH]; intro H; [cbn; lra|]. cbn [map]. rewrite rsum_cons. pose proof (H a (or_introl eq_refl)). pose proof (IH (fun y Hy => H y (or_intror Hy))). lra. Qed.
Lemma overPairs_ext n f g : (forall a b, 0 <= a < n -> 0 <= b < n -> a <> b -> f a b = g a b) -> overPairs n f = overPairs n g.
Proof. intro H. unfold overPairs. apply rsum_ext. intros a Ha. apply in_zrange in Ha. apply rsum_ext. intros b Hb. apply in_zrange in Hb.
  destruct (a =? b) eqn:E; [reflexivity|]. apply Z.eqb_neq in E. apply H; lia. Qed.
Lemma overPairs_swap n f : overPairs n (fun a b => f b a) = overPairs n f.
Proof. unfold overPairs. rewrite rsum_swap. apply rsum_ext. intros a _. apply rsum_ext. intros b _. now rewrite Z.eqb_sym. Qed.
Lemma overPairs_add n f g : overPairs n (fun a b => f a b + g a b)%R = (overPairs n f + overPairs n g)%R.
Proof. unfold overPairs. rewrite <- rsum_add. apply rsum_ext. intros a _. rewrite <- rsum_add. apply rsum_ext. intros b _. destruct (a =? b); ring. Qed.
Lemma overPairs_mul n c f : overPairs n (fun a b => c * f a b)%R = (c * overPairs n f)%R.
Proof. unfold overPairs. rewrite <- rsum_mul_l. apply rsum_ext. intros a _. rewrite <- rsum_mul_l. apply rsum_ext. intros b _. destruct (a =? b); ring. Qed.
Lemma overPairs_nonneg n f : (forall a b, 0 <= a < n -> 0 <= b < n -> a <> b -> (0 <= f a b)%R) -> (0 <= overPairs n f)%R.
Proof. intro H. apply rsum_nonneg. intros a Ha. apply in_zrange in Ha. apply rsum_nonneg. intros b Hb. apply in_zrange in Hb.
  destruct (a =? b) eqn:E; [lra|]. apply Z.eqb_neq in E. apply H; lia. Qed.

(** * form2 of sums *)
Lemma form2_sum {A} (t : A -> Z -> Z -> R) l x : form2 (fun i j => rsum (map (fun a => t a i j) l)) x = rsum (map (fun a => form2 (t a) x) l).
Proof. induction l as [|a l IH]; [unfold form2, over3; cbn; ring|]. cbn [map]. rewrite rsum_cons, <- IH. unfold form2, over3. rewrite !rsum_cons. ring. Qed.
Lemma form2_ext t t' x : (forall i j, 0 <= i < 3 -> 0 <= j < 3 -> t i j = t' i j) -> form2 t x = form2 t' x.
Proof. intro H. unfold form2, over3. rewrite !H by lia. reflexivity. Qed.
Lemma form2_scale c t x : form2 (fun i j => c * t i j)%R x = (c * form2 t x)%R.
Proof. unfold form2, over3. ring. Qed.
Lemma form2_pairs n (t : Z -> Z -> Z -> Z -> R) x : form2 (fun i j => overPairs n (fun a b => t a b i j)) x = overPairs n (fun a b => form2 (t a b) x).
Proof. unfold overPairs. rewrite (form2_sum (fun b1 i j => rsum (map (fun b2 => if b1 =? b2 then 0%R else t b1 b2 i j) (zrange 0 n)))).
  apply rsum_ext. intros a _. rewrite (form2_sum (fun b2 i j => if a =? b2 then 0%R else t a b2 i j)). apply rsum_ext. intros b _.
  destruct (a =? b); [unfold form2, over3; ring|reflexivity]. Qed.

(** * phonons *)
Lemma velProduct_rot r p c1 c2 b1 b2 : fst (cmul (velRot r (wVel p) b1 b2 c1) (velRot r (wVel p) b2 b1 c2)) = velProduct r p c1 c2 b1 b2.
Proof. unfold velRot, velProduct, over3, cmul, cadd, cscale. cbn [fst snd]. ring. Qed.
Lemma boseOf_heat cut temp e : (0 < cut)%R -> (0 < temp)%R -> (e * boseOf cut temp e * (boseOf cut temp e + 1))%R = heatOf cut temp e.
Proof. intros Hc Ht. unfold boseOf, heatOf, rltb. destruct (Rlt_dec e cut) as [|H]; [ring|]. rewrite C41_bose_einstein by lra. now rewrite Rminus_0_r. Qed.
Lemma sq_nonneg x : (0 <= x * x)%R. Proof. apply Rle_0_sqr. Qed.
Lemma den_zero d g : (4 * (d * d) + g * g)%R = 0%R -> d = 0%R /\ g = 0%R.
Proof. intro H. pose proof (sq_nonneg d). pose proof (sq_nonneg g). split; apply Rsqr_0_uniq; unfold Rsqr; lra. Qed.
Lemma phTerm_value cut temp norm p r c1 c2 b1 b2 : (0 < cut)%R -> (0 < temp)%R ->
  ~ (wEn p b1 = wEn p b2 /\ (wRate p b1 + wRate p b2)%R = 0%R) ->
  phTerm cut temp norm p r c1 c2 (b1, b2) = Some (heatTerm cut temp norm p r c1 c2 b1 b2).
Proof. intros Hc Ht Hd. unfold phTerm, fdiv. rewrite velProduct_rot.
  set (den := (4 * _ + _)%R). assert (D : den <> 0%R). { intro H. apply den_zero in H as [H1 H2]. apply Hd. split; [lra|exact H2]. }
  apply reqb_false in D as D'. rewrite D'. cbn [omap]. f_equal. unfold heatTerm, lorentz. rewrite <- !boseOf_heat by assumption. unfold den in *. field. exact D. Qed.
Lemma phTerm_none cut temp norm p r c1 c2 b1 b2 : wEn p b1 = wEn p b2 -> (wRate p b1 + wRate p b2)%R = 0%R -> phTerm cut temp norm p r c1 c2 (b1, b2) = None.
Proof. intros He Hg. unfold phTerm, fdiv. rewrite Hg, He. replace (reqb _ 0) with true; [reflexivity|]. symmetry. apply reqb_true. ring. Qed.
Lemma phCorrection_flat cut temp N V ranks c1 c2 : phCorrection cut temp N V ranks c1 c2 = osum (map (phPoint cut temp (phNorm N V temp) c1 c2) (concat ranks)).
Proof. unfold phCorrection. apply osum_concat. Qed.
Lemma phCorrection_value cut temp N V ranks c1 c2 : (0 < cut)%R -> (0 < temp)%R -> (forall p, In p (concat ranks) -> ~ undamped p) ->
  phCorrection cut temp N V ranks c1 c2 = Some (interbandHeat cut temp (phNorm N V temp) (concat ranks) c1 c2).
Proof. intros Hc Ht Hu. rewrite phCorrection_flat. apply osum_some. intros p Hp. unfold phPoint. apply osum_some. intros r _.
  rewrite <- bandPairs_sum. apply osum_some. intros [b1 b2] Hb. apply bandPairs_In in Hb as (H1 & H2 & H3). cbn [fst snd].
  apply phTerm_value; try assumption. intros [E G]. apply (Hu p Hp). exists b1, b2. tauto. Qed.
Lemma phCorrection_none cut temp N V ranks c1 c2 p : In p (concat ranks) -> wRots p <> [] -> undamped p -> phCorrection cut temp N V ranks c1 c2 = None.
Proof. intros Hp Hr (b1 & b2 & H1 & H2 & H3 & E & G). rewrite phCorrection_flat. apply osum_none. apply in_map_iff. exists p. split; [|exact Hp].
  unfold phPoint. destruct (wRots p) as [|r rs]; [congruence|]. apply osum_none. cbn [map]. left. apply osum_none. apply in_map_iff. exists (b1, b2). split; [now apply phTerm_none|].
  apply bandPairs_In. tauto. Qed.
Lemma velProduct_sym r p c1 c2 b1 b2 : HermitianVelocity p -> 0 <= b1 < wNb p -> 0 <= b2 < wNb p -> velProduct r p c1 c2 b1 b2 = velProduct r p c2 c1 b1 b2.
Proof. intros H H1 H2. unfold velProduct, over3. rewrite !(H b1 b2) by lia. unfold cmul, cconj. cbn [fst snd]. ring. Qed.
Lemma velProduct_psd r p b1 b2 x : HermitianVelocity p -> 0 <= b1 < wNb p -> 0 <= b2 < wNb p -> (0 <= form2 (fun c1 c2 => velProduct r p c1 c2 b1 b2) x)%R.
Proof. intros H H1 H2. unfold velProduct. set (y := fun i => (x 0%Z * r 0%Z i + x 1%Z * r 1%Z i + x 2%Z * r 2%Z i)%R).
  set (re := (y 0%Z * fst (wVel p b1 b2 0) + y 1%Z * fst (wVel p b1 b2 1) + y 2%Z * fst (wVel p b1 b2 2))%R).
  set (im := (y 0%Z * snd (wVel p b1 b2 0) + y 1%Z * snd (wVel p b1 b2 1) + y 2%Z * snd (wVel p b1 b2 2))%R).
  replace (form2 _ x) with (re * re + im * im)%R; [pose proof (sq_nonneg re); pose proof (sq_nonneg im); lra|].
  unfold form2, over3. rewrite !(H b1 b2) by lia. unfold re, im, y, cmul, cconj. cbn [fst snd]. ring. Qed.
Lemma heatOf_nonneg cut temp e : (0 < cut)%R -> (0 < temp)%R -> (0 <= heatOf cut temp e)%R.
Proof. intros Hc Ht. unfold heatOf. destruct (Rlt_dec e cut) as [|H]; [lra|]. assert (E : (0 < e / temp)%R) by (apply Rdiv_lt_0_compat; lra).
  assert (X : (0 < exp (e / temp) - 1)%R) by (pose proof (exp_increasing 0 _ E); rewrite exp_0 in *; lra). apply Rinv_0_lt_compat in X.
  apply Rmult_le_pos; [apply Rmult_le_pos|]; lra. Qed.
Lemma lorentz_nonneg p b1 b2 : (0 <= wRate p b1)%R -> (0 <= wRate p b2)%R -> (0 <= lorentz p b1 b2)%R.
Proof. intros H1 H2. unfold lorentz. set (g := (wRate p b1 + wRate p b2)%R). assert (0 <= g)%R by (unfold g; lra). set (d := (wEn p b1 - wEn p b2)%R).
  destruct (Req_dec (4 * (d * d) + g * g) 0) as [E|E]; [unfold Rdiv; rewrite E, Rinv_0; lra|]. pose proof (sq_nonneg g). pose proof (sq_nonneg d).
  unfold Rdiv. apply Rmult_le_pos; [assumption|]. apply Rlt_le, Rinv_0_lt_compat. lra. Qed.
Lemma interbandHeat_sym cut temp norm points c1 c2 : (forall p, In p points -> HermitianVelocity p) -> interbandHeat cut temp norm points c1 c2 = interbandHeat cut temp norm points c2 c1.
Proof. intro H. unfold interbandHeat. apply rsum_ext. intros p Hp. apply rsum_ext. intros r _. apply overPairs_ext. intros a b Ha Hb _. unfold heatTerm. rewrite velProduct_sym by auto. reflexivity. Qed.
Lemma interbandHeat_psd cut temp norm points x : (0 < cut)%R -> (0 < temp)%R -> (0 <= norm)%R -> (forall p, In p points -> HermitianVelocity p) ->
  (forall p b, In p points -> 0 <= b < wNb p -> (0 <= wEn p b)%R /\ (0 <= wRate p b)%R) -> (0 <= form2 (interbandHeat cut temp norm points) x)%R.
Proof. intros Hc Ht Hn H Hpos. unfold interbandHeat.
  rewrite (form2_sum (fun p c1 c2 => rsum (map (fun r => overPairs (wNb p) (heatTerm cut temp norm p r c1 c2)) (wRots p)))). apply rsum_nonneg. intros p Hp.
  rewrite (form2_sum (fun r c1 c2 => overPairs (wNb p) (heatTerm cut temp norm p r c1 c2))). apply rsum_nonneg. intros r _.
  rewrite (form2_pairs _ (fun a b c1 c2 => heatTerm cut temp norm p r c1 c2 a b)). apply overPairs_nonneg. intros a b Ha Hb _.
  replace (form2 _ x) with (norm * (wEn p a + wEn p b) * (heatOf cut temp (wEn p a) + heatOf cut temp (wEn p b)) * lorentz p a b * form2 (fun c1 c2 => velProduct r p c1 c2 a b) x)%R
    by (unfold heatTerm, form2, over3; ring).
  destruct (Hpos p a Hp Ha), (Hpos p b Hp Hb). pose proof (heatOf_nonneg cut temp (wEn p a) Hc Ht). pose proof (heatOf_nonneg cut temp (wEn p b) Hc Ht).
  pose proof (lorentz_nonneg p a b ltac:(assumption) ltac:(assumption)) as HL. pose proof (velProduct_psd r p a b x (H p Hp) Ha Hb) as HV.
  apply Rmult_le_pos; [|exact HV]. apply Rmult_le_pos; [|exact HL]. apply Rmult_le_pos; [|lra]. apply Rmult_le_pos; lra. Qed.
Lemma velProduct_phase u r p c1 c2 b1 b2 : (forall b, 0 <= b < wNb p -> cnorm2 (u b) = 1%R) -> 0 <= b1 < wNb p -> 0 <= b2 < wNb p ->
  velProduct r (rephased u p) c1 c2 b1 b2 = velProduct r p c1 c2 b1 b2.
Proof. intros Hu H1 H2. assert (E : forall i j, cmul (wVel (rephased u p) b1 b2 i) (wVel (rephased u p) b2 b1 j) = cmul (wVel p b1 b2 i) (wVel p b2 b1 j)).
  { intros i j. cbn [rephased wVel]. transitivity (cmul (cmul (cmul (cconj (u b1)) (u b1)) (cmul (cconj (u b2)) (u b2))) (cmul (wVel p b1 b2 i) (wVel p b2 b1 j))); [cring|].
    rewrite !conj_mul_self, !Hu by lia. cring. }
  unfold velProduct, over3. rewrite !E. reflexivity. Qed.

(** * electrons *)
Lemma fermiOf_eq temp mu e : (0 < temp)%R -> fermiOf temp mu e = fermi temp mu e.
Proof. intro H. unfold fermiOf. now rewrite C41_fermi_dirac by exact H. Qed.
Lemma dfdtOf_eq temp mu e : (0 < temp)%R -> dfdtOf temp mu e = fermiT temp mu e.
Proof. intro H. unfold dfdtOf, getDndt. destruct (C41_fluctuations_electrons e temp mu H) as (x & Hx & ->). rewrite C41_fermi_dirac in Hx by exact H. injection Hx as <-. unfold fermiT, fermi. pose proof (exp_pos ((e - mu) / temp)). field. repeat split; lra. Qed.
Lemma xC_norm p b1 b2 : cnorm2 (xC p b1 b2) = (4 * ((wEn p b1 - wEn p b2) * (wEn p b1 - wEn p b2)) + (wRate p b1 + wRate p b2) * (wRate p b1 + wRate p b2))%R.
Proof. unfold cnorm2, xC. cbn [fst snd]. ring. Qed.
Lemma antiE temp mu p c1 c2 b1 b2 : (0 < temp)%R -> HermitianVelocity p -> 0 <= c1 < 3 -> 0 <= c2 < 3 -> 0 <= b1 < wNb p -> 0 <= b2 < wNb p -> wEn p b1 <> wEn p b2 ->
  anti (fE temp mu) p c1 c2 (b1, b2) = Some (-4 * slope temp mu p b1 b2 * response p c1 c2 b1 b2)%R.
Proof. intros Ht Hh H1 H2 H3 H4 He. unfold anti, fE, cdiv. rewrite !xC_norm.
  set (n1 := (4 * _ + _)%R). set (n2 := (4 * _ + _)%R). assert (N : n1 = n2) by (unfold n1, n2; ring). rewrite <- N.
  assert (D : n1 <> 0%R) by (intro D; apply den_zero in D as [D _]; lra). apply reqb_false in D as D'. rewrite D'.
  replace (reqb (wEn p b2 - wEn p b1) 0) with false by (symmetry; apply reqb_false; lra). replace (reqb (wEn p b1 - wEn p b2) 0) with false by (symmetry; apply reqb_false; lra).
  rewrite !fermiOf_eq by exact Ht. f_equal. unfold slope, response. rewrite !(Hh b1 b2) by lia. unfold cmul, cadd, cscale, cconj, xC. cbn [fst snd].
  unfold n1 in *. field. split; [|split; [lra|lra]]. intro X. apply D. rewrite <- X. ring. Qed.
Lemma antiE_none temp mu p c1 c2 b1 b2 : wEn p b1 = wEn p b2 -> anti (fE temp mu) p c1 c2 (b1, b2) = None.
Proof. intro He. unfold anti, fE. replace (reqb (wEn p b2 - wEn p b1) 0) with true by (symmetry; apply reqb_true; lra). now destruct (cdiv _ _). Qed.
Lemma antiT temp mu p c1 c2 b1 b2 : (0 < temp)%R -> HermitianVelocity p -> 0 <= c1 < 3 -> 0 <= c2 < 3 -> 0 <= b1 < wNb p -> 0 <= b2 < wNb p ->
  ~ (wEn p b1 = wEn p b2 /\ (wRate p b1 + wRate p b2)%R = 0%R) ->
  anti (fT temp mu) p c1 c2 (b1, b2) = Some (4 * (fermiT temp mu (wEn p b1) + fermiT temp mu (wEn p b2)) * response p c1 c2 b1 b2)%R.
Proof. intros Ht Hh H1 H2 H3 H4 He. unfold anti, fT, cdiv. rewrite !xC_norm.
  set (n1 := (4 * _ + _)%R). set (n2 := (4 * _ + _)%R). assert (N : n1 = n2) by (unfold n1, n2; ring). rewrite <- N.
  assert (D : n1 <> 0%R) by (intro D; apply den_zero in D as [D D2]; apply He; split; lra). apply reqb_false in D as D'. rewrite D'.
  rewrite !dfdtOf_eq by exact Ht. f_equal. unfold response. rewrite !(Hh b1 b2) by lia. unfold cmul, cadd, cscale, cconj, xC. cbn [fst snd].
  unfold n1 in *. field. intro X. apply D. rewrite <- X. ring. Qed.

Lemma elSum_flat f w ranks c1 c2 : elSum f w ranks c1 c2 = osum (map (fun p => osum (map (fun b => omap (fun x => w p b * x)%R (anti f p c1 c2 b)) (bandPairs p))) (concat ranks)).
Proof. unfold elSum. apply osum_concat. Qed.
Lemma elSum_value f w v ranks c1 c2 : (forall p b1 b2, In p (concat ranks) -> 0 <= b1 < wNb p -> 0 <= b2 < wNb p -> b1 <> b2 ->
  anti f p c1 c2 (b1, b2) = Some (v p b1 b2 * response p c1 c2 b1 b2)%R) ->
  elSum f w ranks c1 c2 = Some (interband (fun p b1 b2 => w p (b1, b2) * v p b1 b2)%R (concat ranks) c1 c2).
Proof. intro H. rewrite elSum_flat. apply osum_some. intros p Hp. rewrite <- bandPairs_sum. apply osum_some. intros [b1 b2] Hb. apply bandPairs_In in Hb as (H1 & H2 & H3).
  rewrite H by assumption. cbn [omap fst snd]. f_equal. ring. Qed.
Lemma elSum_none f w ranks c1 c2 p b1 b2 : In p (concat ranks) -> 0 <= b1 < wNb p -> 0 <= b2 < wNb p -> b1 <> b2 -> anti f p c1 c2 (b1, b2) = None -> elSum f w ranks c1 c2 = None.
Proof. intros Hp H1 H2 H3 H. rewrite elSum_flat. apply osum_none. apply in_map_iff. exists p. split; [|exact Hp]. apply osum_none. apply in_map_iff. exists (b1, b2).
  split; [now rewrite H|]. apply bandPairs_In. tauto. Qed.
Lemma response_swap p c1 c2 b1 b2 : HermitianVelocity p -> 0 <= c1 < 3 -> 0 <= c2 < 3 -> 0 <= b1 < wNb p -> 0 <= b2 < wNb p -> response p c1 c2 b2 b1 = response p c1 c2 b1 b2.
Proof. intros Hh H1 H2 H3 H4. unfold response. rewrite !(Hh b1 b2) by lia. unfold cmul, cconj. cbn [fst snd]. f_equal; ring. Qed.
Lemma slope_swap temp mu p b1 b2 : slope temp mu p b2 b1 = slope temp mu p b1 b2.
Proof. unfold slope. destruct (Req_dec (wEn p b1) (wEn p b2)) as [E|E]; [rewrite E; reflexivity|]. field. split; lra. Qed.
Lemma overPairs_half n f : overPairs n f = overPairs n (fun a b => (f a b + f b a) / 2)%R.
Proof. transitivity (overPairs n (fun a b => / 2 * (f a b + f b a))%R); [|apply overPairs_ext; intros; lra]. rewrite overPairs_mul, overPairs_add, (overPairs_swap n f). lra. Qed.
(** LTE, LTT: the weight of the energy of the first band is that of the mean energy *)
Lemma interband_mean mu norm v points c1 c2 : (forall p, In p points -> HermitianVelocity p) -> 0 <= c1 < 3 -> 0 <= c2 < 3 -> (forall p b1 b2, v p b1 b2 = v p b2 b1) ->
  interband (fun p b1 b2 => - (norm * (wEn p b1 - mu)) * v p b1 b2)%R points c1 c2 =
  interband (fun p b1 b2 => - (norm * ((wEn p b1 + wEn p b2) / 2 - mu)) * v p b1 b2)%R points c1 c2.
Proof. intros Hh H1 H2 Hv. unfold interband. apply rsum_ext. intros p Hp. rewrite overPairs_half. apply overPairs_ext. intros a b Ha Hb _.
  rewrite (response_swap p c1 c2 a b), (Hv p b a) by auto. field. Qed.
Lemma fermi_slope temp mu e1 e2 : (0 < temp)%R -> (e1 < e2)%R -> (fermi temp mu e2 < fermi temp mu e1)%R.
Proof. intros Ht He. unfold fermi. assert (X : (exp ((e1 - mu) / temp) < exp ((e2 - mu) / temp))%R) by (apply exp_increasing; apply Rmult_lt_compat_r; [apply Rinv_0_lt_compat|]; lra).
  apply Rinv_lt_contravar; [|lra]. apply Rmult_lt_0_compat; pose proof (exp_pos ((e1 - mu) / temp)); lra. Qed.
Lemma div_neg a b : (0 < a)%R -> (b < 0)%R -> (a / b < 0)%R.
Proof. intros Ha Hb. replace (a / b)%R with (- (a / - b))%R by (field; lra). assert (0 < a / - b)%R by (apply Rdiv_lt_0_compat; lra). lra. Qed.
Lemma slope_neg temp mu p b1 b2 : (0 < temp)%R -> wEn p b1 <> wEn p b2 -> (slope temp mu p b1 b2 < 0)%R.
Proof. intros Ht He. destruct (Rlt_dec (wEn p b1) (wEn p b2)) as [L|L].
  - unfold slope. pose proof (fermi_slope temp mu _ _ Ht L). apply div_neg; lra.
  - rewrite <- slope_swap. assert (L' : (wEn p b2 < wEn p b1)%R) by lra. unfold slope. pose proof (fermi_slope temp mu _ _ Ht L'). apply div_neg; lra. Qed.
Lemma response_form p b1 b2 x : HermitianVelocity p -> 0 <= b1 < wNb p -> 0 <= b2 < wNb p -> (0 <= wRate p b1)%R -> (0 <= wRate p b2)%R ->
  (0 <= form2 (fun c1 c2 => response p c1 c2 b1 b2) x)%R.
Proof. intros H H1 H2 G1 G2. unfold response. set (g := (wRate p b1 + wRate p b2)%R). set (d := (2 * (wEn p b1 - wEn p b2))%R). assert (Hg : (0 <= g)%R) by (unfold g; lra).
  set (re := (x 0%Z * fst (wVel p b1 b2 0) + x 1%Z * fst (wVel p b1 b2 1) + x 2%Z * fst (wVel p b1 b2 2))%R).
  set (im := (x 0%Z * snd (wVel p b1 b2 0) + x 1%Z * snd (wVel p b1 b2 1) + x 2%Z * snd (wVel p b1 b2 2))%R).
  replace (form2 _ x) with (g * (re * re + im * im) * / (g * g + d * d))%R.
  - destruct (Req_dec (g * g + d * d) 0) as [E|E]; [rewrite E, Rinv_0; lra|]. pose proof (sq_nonneg g). pose proof (sq_nonneg d). pose proof (sq_nonneg re). pose proof (sq_nonneg im).
    apply Rmult_le_pos; [apply Rmult_le_pos; lra|]. apply Rlt_le, Rinv_0_lt_compat. lra.
  - unfold form2, over3. rewrite !(H b1 b2) by lia. unfold re, im, cmul, cconj. cbn [fst snd]. unfold Rdiv. ring. Qed.
Lemma interband_form w points x : (forall p, In p points -> HermitianVelocity p) -> (forall p b, In p points -> 0 <= b < wNb p -> (0 <= wRate p b)%R) ->
  (forall p b1 b2, In p points -> 0 <= b1 < wNb p -> 0 <= b2 < wNb p -> b1 <> b2 -> (0 <= w p b1 b2)%R) -> (0 <= form2 (interband w points) x)%R.
Proof. intros Hh Hr Hw. unfold interband. rewrite (form2_sum (fun p c1 c2 => overPairs (wNb p) (fun b1 b2 => w p b1 b2 * response p c1 c2 b1 b2)%R)). apply rsum_nonneg. intros p Hp.
  rewrite (form2_pairs _ (fun a b c1 c2 => w p a b * response p c1 c2 a b)%R). apply overPairs_nonneg. intros a b Ha Hb Hab. rewrite form2_scale. apply Rmult_le_pos; [auto|]. apply response_form; auto. Qed.
Lemma response_reversed p c1 c2 b1 b2 : HermitianVelocity p -> 0 <= c1 < 3 -> 0 <= c2 < 3 -> 0 <= b1 < wNb p -> 0 <= b2 < wNb p ->
  response (reversed p) c1 c2 b1 b2 = response p c2 c1 b1 b2.
Proof. intros H H1 H2 H3 H4. unfold response. cbn [reversed wRate wEn wVel]. rewrite !(H b1 b2) by lia. unfold cmul, copp, cconj. cbn [fst snd]. f_equal. ring. Qed.
Lemma response_phase u p c1 c2 b1 b2 : (forall b, 0 <= b < wNb p -> cnorm2 (u b) = 1%R) -> 0 <= b1 < wNb p -> 0 <= b2 < wNb p ->
  response (rephased u p) c1 c2 b1 b2 = response p c1 c2 b1 b2.
Proof. intros Hu H1 H2. assert (E : cmul (wVel (rephased u p) b1 b2 c1) (wVel (rephased u p) b2 b1 c2) = cmul (wVel p b1 b2 c1) (wVel p b2 b1 c2)).
  { cbn [rephased wVel]. transitivity (cmul (cmul (cmul (cconj (u b1)) (u b1)) (cmul (cconj (u b2)) (u b2))) (cmul (wVel p b1 b2 c1) (wVel p b2 b1 c2))); [cring|].
    rewrite !conj_mul_self, !Hu by lia. cring. }
  unfold response. rewrite E. reflexivity. Qed.
Lemma rephased_hermitian u p : HermitianVelocity p -> HermitianVelocity (rephased u p).
Proof. intros H b1 b2 c H1 H2 H3. cbn [rephased wNb wVel] in *. rewrite (H b1 b2 c H1 H2 H3). cring. Qed.
Lemma reversed_hermitian p : HermitianVelocity p -> HermitianVelocity (reversed p).
Proof. intros H b1 b2 c H1 H2 H3. cbn [reversed wNb wVel] in *. rewrite (H b1 b2 c H1 H2 H3). cring. Qed.

Lemma split_diag n f : rsum (map (fun b1 => rsum (map (fun b2 => f b1 b2) (zrange 0 n))) (zrange 0 n)) = (rsum (map (fun b => f b b) (zrange 0 n)) + overPairs n f)%R.
Proof. unfold overPairs. rewrite <- rsum_add. apply rsum_ext. intros a Ha.
  transitivity (rsum (map (fun b => if b =? a then f a a else 0%R) (zrange 0 n)) + rsum (map (fun b2 => if a =? b2 then 0%R else f a b2) (zrange 0 n)))%R.
  - rewrite <- rsum_add. apply rsum_ext. intros b _. rewrite (Z.eqb_sym a b). destruct (b =? a) eqn:E; [apply Z.eqb_eq in E as ->; ring|ring].
  - f_equal. apply (rsum_single Z.eqb (fun _ => f a a) (zrange 0 n) a); [apply Z.eqb_eq|apply NoDup_zrange|assumption]. Qed.
Lemma total_heat cut temp norm p r c1 c2 e g : (0 < g)%R -> (forall b, 0 <= b < wNb p -> wEn p b = e /\ wRate p b = g) ->
  (intrabandHeat cut temp norm p r c1 c2 + overPairs (wNb p) (heatTerm cut temp (norm / 2) p r c1 c2) = norm * (e * heatOf cut temp e / g) * velTrace r p c1 c2)%R.
Proof. intros Hg H. unfold velTrace. rewrite split_diag, Rmult_plus_distr_l. f_equal.
  - unfold intrabandHeat. rewrite <- rsum_mul_l. apply rsum_ext. intros b Hb. apply in_zrange in Hb. destruct (H b) as [-> ->]; [lia|]. ring.
  - rewrite <- overPairs_mul. apply overPairs_ext. intros a b Ha Hb _. unfold heatTerm, lorentz. destruct (H a Ha) as [-> ->], (H b Hb) as [-> ->].
    replace (4 * ((e - e) * (e - e)) + (g + g) * (g + g))%R with (4 * (g * g))%R by ring. field. lra. Qed.

(** * another basis of the bands *)
Lemma rotate_product n U A B : Unitary n U -> SameMat n (matMul n (rotateV n U A) (rotateV n U B)) (rotateV n U (matMul n A B)).
Proof. intros [_ HU] i j Hi Hj. unfold rotateV.
  rewrite (matMul_assoc n (matMul n (adjoint U) A) U (matMul n (matMul n (adjoint U) B) U) i j).
  transitivity (matMul n (matMul n (adjoint U) A) (matMul n B U) i j).
  - apply matMul_ext; [reflexivity|]. intros k Hk. rewrite <- (matMul_assoc n U (matMul n (adjoint U) B) U k j).
    transitivity (matMul n B U k j); [|reflexivity]. apply matMul_ext; [|reflexivity]. intros l Hl. rewrite <- (matMul_assoc n U (adjoint U) B k l).
    transitivity (matMul n idMat B k l); [apply matMul_ext; [intros m Hm; apply HU; lia|reflexivity]|]. apply matMul_id_l. lia.
  - rewrite <- (matMul_assoc n (matMul n (adjoint U) A) B U i j). apply matMul_ext; [|reflexivity]. intros k Hk. apply matMul_assoc. Qed.
Definition velMat (r : Z -> Z -> R) (p : wPoint) (c : Z) : cmat := fun i j => velRot r (wVel p) i j c.
Lemma velTrace_trace r p c1 c2 : velTrace r p c1 c2 = fst (trace (wNb p) (matMul (wNb p) (velMat r p c1) (velMat r p c2))).
Proof. unfold velTrace, trace, matMul, csumTo. rewrite csum_fst. apply rsum_ext. intros a _. rewrite csum_fst. apply rsum_ext. intros b _. symmetry. apply velProduct_rot. Qed.
Lemma velMat_basis U r p c i j : velMat r (inBasis U p) c i j = rotateV (wNb p) U (velMat r p c) i j.
Proof. unfold velMat, velRot, rotateV. cbn [inBasis wVel]. unfold matMul at 1 3 5. rewrite <- !csumTo_scale, <- !csumTo_add. unfold matMul at 4. apply csumTo_ext. intros k Hk.
  transitivity (cmul (cadd (cadd (cscale (r c 0) (matMul (wNb p) (adjoint U) (fun i j => wVel p i j 0) i k)) (cscale (r c 1) (matMul (wNb p) (adjoint U) (fun i j => wVel p i j 1) i k)))
    (cscale (r c 2) (matMul (wNb p) (adjoint U) (fun i j => wVel p i j 2) i k))) (U k j)); [cring|].
  f_equal. unfold matMul. rewrite <- !csumTo_scale, <- !csumTo_add. apply csumTo_ext. intros l Hl. cring. Qed.
Lemma velTrace_basis U r p c1 c2 : Unitary (wNb p) U -> velTrace r (inBasis U p) c1 c2 = velTrace r p c1 c2.
Proof. intro HU. rewrite !velTrace_trace. f_equal. cbn [inBasis wNb]. rewrite <- (trace_rotate (wNb p) U (matMul (wNb p) (velMat r p c1) (velMat r p c2)) HU).
  apply trace_same. intros i j Hi Hj. rewrite <- rotate_product by assumption. apply matMul_ext; intros; apply velMat_basis. Qed.
(** * phases *)
Lemma phase_product u p c1 c2 b1 b2 : (forall b, 0 <= b < wNb p -> cnorm2 (u b) = 1%R) -> 0 <= b1 < wNb p -> 0 <= b2 < wNb p ->
  cmul (wVel (rephased u p) b1 b2 c1) (wVel (rephased u p) b2 b1 c2) = cmul (wVel p b1 b2 c1) (wVel p b2 b1 c2).
Proof. intros Hu H1 H2. cbn [rephased wVel]. transitivity (cmul (cmul (cmul (cconj (u b1)) (u b1)) (cmul (cconj (u b2)) (u b2))) (cmul (wVel p b1 b2 c1) (wVel p b2 b1 c2))); [cring|].
  rewrite !conj_mul_self, !Hu by lia. cring. Qed.
Lemma phTerm_phase u cut temp norm p r c1 c2 b : (forall b, 0 <= b < wNb p -> cnorm2 (u b) = 1%R) -> In b (bandPairs p) ->
  phTerm cut temp norm (rephased u p) r c1 c2 b = phTerm cut temp norm p r c1 c2 b.
Proof. destruct b as [b1 b2]. intros Hu Hb. apply bandPairs_In in Hb as (H1 & H2 & _). unfold phTerm. rewrite !velProduct_rot, velProduct_phase by assumption. reflexivity. Qed.
Lemma antiE_phase u temp mu p c1 c2 b : (forall b, 0 <= b < wNb p -> cnorm2 (u b) = 1%R) -> In b (bandPairs p) -> anti (fE temp mu) (rephased u p) c1 c2 b = anti (fE temp mu) p c1 c2 b.
Proof. destruct b as [b1 b2]. intros Hu Hb. apply bandPairs_In in Hb as (H1 & H2 & _). unfold anti, fE, cdiv. change (xC (rephased u p)) with (xC p). change (wEn (rephased u p)) with (wEn p).
  destruct (reqb (cnorm2 (xC p b2 b1)) 0); [reflexivity|]. destruct (reqb (wEn p b2 - wEn p b1) 0); [reflexivity|]. destruct (reqb (cnorm2 (xC p b1 b2)) 0); [reflexivity|].
  destruct (reqb (wEn p b1 - wEn p b2) 0); [reflexivity|]. f_equal. f_equal.
  pose proof (phase_product u p c1 c2 b1 b2 Hu H1 H2) as E1. pose proof (phase_product u p c1 c2 b2 b1 Hu H2 H1) as E2.
  assert (X : forall a b k v w, cmul v (cscale a (cscale b (cscale k (cmul (cscale (-2) w) (cconj (xC p b2 b1)))))) = cscale a (cscale b (cscale k (cscale (-2) (cmul (cmul v w) (cconj (xC p b2 b1))))))) by (intros; cring).
  assert (Y : forall a b k v w, cmul v (cscale a (cscale b (cscale k (cmul (cscale (-2) w) (cconj (xC p b1 b2)))))) = cscale a (cscale b (cscale k (cscale (-2) (cmul (cmul v w) (cconj (xC p b1 b2))))))) by (intros; cring).
  rewrite !X, !Y, E1, E2. reflexivity. Qed.
Lemma antiT_phase u temp mu p c1 c2 b : (forall b, 0 <= b < wNb p -> cnorm2 (u b) = 1%R) -> In b (bandPairs p) -> anti (fT temp mu) (rephased u p) c1 c2 b = anti (fT temp mu) p c1 c2 b.
Proof. destruct b as [b1 b2]. intros Hu Hb. apply bandPairs_In in Hb as (H1 & H2 & _). unfold anti, fT, cdiv. change (xC (rephased u p)) with (xC p). change (wEn (rephased u p)) with (wEn p).
  destruct (reqb (cnorm2 (xC p b2 b1)) 0); [reflexivity|]. destruct (reqb (cnorm2 (xC p b1 b2)) 0); [reflexivity|]. f_equal. f_equal.
  pose proof (phase_product u p c1 c2 b1 b2 Hu H1 H2) as E1. pose proof (phase_product u p c1 c2 b2 b1 Hu H2 H1) as E2.
  assert (X : forall b k v w, cmul v (cscale b (cscale k (cmul (cscale 2 w) (cconj (xC p b2 b1))))) = cscale b (cscale k (cscale 2 (cmul (cmul v w) (cconj (xC p b2 b1)))))) by (intros; cring).
  assert (Y : forall b k v w, cmul v (cscale b (cscale k (cmul (cscale 2 w) (cconj (xC p b1 b2))))) = cscale b (cscale k (cscale 2 (cmul (cmul v w) (cconj (xC p b1 b2)))))) by (intros; cring).
  rewrite !X, !Y, E1, E2. reflexivity. Qed.
Lemma phCorrection_phase u cut temp N V ranks c1 c2 : (forall p b, In p (concat ranks) -> 0 <= b < wNb p -> cnorm2 (u p b) = 1%R) ->
  phCorrection cut temp N V (map (map (fun p => rephased (u p) p)) ranks) c1 c2 = phCorrection cut temp N V ranks c1 c2.
Proof. intro Hu. rewrite !phCorrection_flat, <- concat_map, map_map. apply osum_ext. intros p Hp. unfold phPoint. cbn [rephased wRots]. apply osum_ext. intros r _.
  change (bandPairs (rephased (u p) p)) with (bandPairs p). apply osum_ext. intros b Hb. apply phTerm_phase; [intros; now apply Hu|exact Hb]. Qed.
Lemma elSum_phase f w u ranks c1 c2 : (forall p b, In p (concat ranks) -> 0 <= b < wNb p -> cnorm2 (u p b) = 1%R) -> (forall p b, w (rephased (u p) p) b = w p b) ->
  (forall v p b, (forall b, 0 <= b < wNb p -> cnorm2 (v b) = 1%R) -> In b (bandPairs p) -> anti f (rephased v p) c1 c2 b = anti f p c1 c2 b) ->
  elSum f w (map (map (fun p => rephased (u p) p)) ranks) c1 c2 = elSum f w ranks c1 c2.
Proof. intros Hu Hw Hf. rewrite !elSum_flat, <- concat_map, map_map. apply osum_ext. intros p Hp. change (bandPairs (rephased (u p) p)) with (bandPairs p). apply osum_ext. intros b Hb.
  rewrite Hw, Hf; [reflexivity|intros; now apply Hu|exact Hb]. Qed.
