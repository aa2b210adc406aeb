From Coq Require Import Reals Permutation.
From Verif Require Import Base BaseLemmas M_complex M_phonon L_phonon M_particle L_particle M_wte S_wte L_wte M_visc S_visc.
From Coq Require Import Lia Lra.
Open Scope Z_scope.

(** * sums *)
Lemma rsum_mul_r {A} c (f : A -> R) l : rsum (map (fun x => f x * c)%R l) = (rsum (map f l) * c)%R.
Proof. rewrite Rmult_comm, <- rsum_mul_l. apply rsum_ext. intros. ring. Qed.
Lemma rsum_flat_map {A B} (f : B -> R) (g : A -> list B) l : rsum (map f (flat_map g l)) = rsum (map (fun a => rsum (map f (g a))) l).
Proof. induction l as [|a l IH]; [reflexivity|]. cbn [flat_map map]. rewrite map_app, rsum_app, IH. reflexivity. Qed.
Lemma rsum_perm_map {A} (f : A -> R) l m : Permutation l m -> rsum (map f l) = rsum (map f m).
Proof. intro H. apply rsum_perm, Permutation_map, H. Qed.
Lemma rsum_forall2 {A B} (R0 : A -> B -> Prop) (f : A -> R) (g : B -> R) l m : Forall2 R0 l m -> (forall a b, R0 a b -> f a = g b) -> rsum (map f l) = rsum (map g m).
Proof. intros H K. induction H; [reflexivity|]. cbn [map]. rewrite !rsum_cons, IHForall2. now rewrite (K _ _ H). Qed.
Lemma rsum_concat2 {A} (f : A -> R) lll : rsum (map (fun ll => rsum (map (fun l => rsum (map f l)) ll)) lll) = rsum (map f (concat (concat lll))).
Proof. rewrite <- rsum_concat. apply (rsum_concat (fun l => rsum (map f l))). Qed.
Lemma over3_rsum {A} (f : A -> Z -> R) l : over3 (fun i => rsum (map (fun a => f a i) l)) = rsum (map (fun a => over3 (f a)) l).
Proof. unfold over3. now rewrite !rsum_add. Qed.
Lemma over3_ext f g : (forall i, 0 <= i < 3 -> f i = g i) -> over3 f = over3 g.
Proof. intro H. unfold over3. now rewrite !H by lia. Qed.
Lemma over3_mul_l c f : over3 (fun i => c * f i)%R = (c * over3 f)%R.
Proof. unfold over3. ring. Qed.
Lemma over3_mul_r c f : over3 (fun i => f i * c)%R = (over3 f * c)%R.
Proof. unfold over3. ring. Qed.

(** * calcRTA *)
Section RTA.
Variables (ws : vec -> vec) (skip : vState -> bool) (kBT norm : R).
Definition wgt (sr : vState * (Z -> Z -> R)) : R := (sPop (fst sr) * sTau (fst sr) / kBT * norm)%R.
Lemma rta_formula ranks i j k l : rtaTensor ws skip kBT norm ranks i j k l =
  rsum (map (fun sr => flux ws sr i j * flux ws sr k l * (sPop (fst sr) * sTau (fst sr) / kBT * norm))%R (zoneStates (fun s => negb (skip s)) ranks)).
Proof.
  unfold rtaTensor, zoneStates. rewrite rsum_flat_map, rsum_filter.
  rewrite (rsum_concat2 (fun s => rtaState ws skip kBT norm s i j k l)). apply rsum_ext. intros s _. unfold rtaState. destruct (skip s); cbn [negb]; [reflexivity|].
  rewrite map_map. apply rsum_ext. intros r _. unfold flux. change image with rotR. cbn [fst snd]. unfold Rdiv. ring.
Qed.
Lemma rta_sym ranks i j k l : let t := rtaTensor ws skip kBT norm ranks in t i j k l = t k l i j /\ t i j k l = t k j i l /\ t i j k l = t i l k j.
Proof. cbv zeta. rewrite !rta_formula. repeat split; apply rsum_ext; intros sr _; unfold flux; ring. Qed.
Lemma rta_form4 ranks x : form4 (rtaTensor ws skip kBT norm ranks) x =
  rsum (map (fun sr => (over3 (fun i => over3 (fun j => x i j * flux ws sr i j)) * over3 (fun i => over3 (fun j => x i j * flux ws sr i j))) * (sPop (fst sr) * sTau (fst sr) / kBT * norm))%R (zoneStates (fun s => negb (skip s)) ranks)).
Proof.
  unfold form4. set (zs := zoneStates _ _).
  transitivity (over3 (fun i => over3 (fun j => over3 (fun k => over3 (fun l => rsum (map (fun sr => x i j * (flux ws sr i j * flux ws sr k l * (sPop (fst sr) * sTau (fst sr) / kBT * norm)) * x k l)%R zs)))))).
  { repeat (apply over3_ext; intros). rewrite rta_formula. fold zs. rewrite <- rsum_mul_l. rewrite <- rsum_mul_r. reflexivity. }
  transitivity (rsum (map (fun sr => over3 (fun i => over3 (fun j => over3 (fun k => over3 (fun l => x i j * (flux ws sr i j * flux ws sr k l * (sPop (fst sr) * sTau (fst sr) / kBT * norm)) * x k l)%R))))  zs)).
  { rewrite <- over3_rsum. apply over3_ext; intros i _. rewrite <- over3_rsum. apply over3_ext; intros j _. rewrite <- over3_rsum. apply over3_ext; intros k _.
    rewrite <- over3_rsum. reflexivity. }
  apply rsum_ext. intros sr _. unfold over3. ring.
Qed.
Lemma rta_nonneg ranks x : (forall s, In s (concat (concat ranks)) -> skip s = false -> 0 <= sPop s * sTau s / kBT * norm)%R -> (0 <= form4 (rtaTensor ws skip kBT norm ranks) x)%R.
Proof.
  intro H. rewrite rta_form4. apply rsum_nonneg. intros sr Hin. unfold zoneStates in Hin. apply in_flat_map in Hin. destruct Hin as (s & Hs & Hr).
  apply filter_In in Hs. destruct Hs as [Hs Hk]. apply in_map_iff in Hr. destruct Hr as (r & <- & _). cbn [fst].
  apply Rmult_le_pos; [apply sq_nonneg|]. apply H; [exact Hs|]. now destruct (skip s).
Qed.
Lemma rta_frame ranks P zone' : Permutation (zoneStates (fun s => negb (skip s)) ranks) zone' ->
  Forall2 (Rotated ws P) (zoneStates (fun s => negb (skip s)) ranks) zone' ->
  forall i j k l, 0 <= i < 3 -> 0 <= j < 3 -> 0 <= k < 3 -> 0 <= l < 3 ->
  frame4 P (rtaTensor ws skip kBT norm ranks) i j k l = rtaTensor ws skip kBT norm ranks i j k l.
Proof.
  intros HP HF i j k l Hi Hj Hk Hl. rewrite (rta_formula ranks i j k l). rewrite (rsum_perm_map _ _ _ HP).
  rewrite <- (rsum_forall2 _ (fun sr => over3 (fun a => over3 (fun b => over3 (fun c => over3 (fun d => P i a * P j b * P k c * P l d *
    (flux ws sr a b * flux ws sr c d * (sPop (fst sr) * sTau (fst sr) / kBT * norm)))))))%R _ _ _ HF).
  2:{ intros a b [Hw Hc]. unfold flux. destruct (Hc i Hi) as [-> _], (Hc j Hj) as [_ ->], (Hc k Hk) as [-> _], (Hc l Hl) as [_ ->].
      unfold Rdiv. rewrite <- Hw. unfold over3. ring. }
  unfold frame4. rewrite <- over3_rsum. apply over3_ext; intros a _. rewrite <- over3_rsum. apply over3_ext; intros b _. rewrite <- over3_rsum. apply over3_ext; intros c _.
  rewrite <- over3_rsum. apply over3_ext; intros d _. rewrite rta_formula, <- rsum_mul_l. reflexivity.
Qed.
Lemma rta_processes ranks ranks' : Permutation (concat (concat ranks)) (concat (concat ranks')) -> forall i j k l, rtaTensor ws skip kBT norm ranks i j k l = rtaTensor ws skip kBT norm ranks' i j k l.
Proof.
  intros H i j k l. unfold rtaTensor.
  rewrite !(rsum_concat2 (fun s => rtaState ws skip kBT norm s i j k l)). now apply rsum_perm_map.
Qed.
End RTA.

(** * special eigenvectors *)
Lemma reduce_total ranks n f : Permutation (concat ranks) (zrange 0 n) -> reduce ranks f = total n f.
Proof. intro H. unfold reduce, total. rewrite rsum_concat. now apply rsum_perm_map. Qed.
Lemma gather_in ranks n f is : Permutation (concat ranks) (zrange 0 n) -> 0 <= is < n -> gather ranks f is = f is.
Proof.
  intros H Hi. unfold gather. rewrite rsum_concat, (rsum_perm_map _ _ _ H). apply (rsum_single Z.eqb f).
  - intros; apply Z.eqb_eq. - apply NoDup_zrange. - apply in_zrange. lia.
Qed.
Lemma total_ext n f g : (forall is, 0 <= is < n -> f is = g is) -> total n f = total n g.
Proof. intro H. apply rsum_ext. intros x Hx. apply in_zrange in Hx. apply H. lia. Qed.
Lemma total_nonneg n f : (forall is, 0 <= is < n -> (0 <= f is)%R) -> (0 <= total n f)%R.
Proof. intro H. apply rsum_nonneg. intros x Hx. apply in_zrange in Hx. apply H. lia. Qed.
Lemma total_mul_l n c f : total n (fun x => c * f x)%R = (c * total n f)%R. Proof. apply rsum_mul_l. Qed.
Lemma total_mul_r n c f : total n (fun x => f x * c)%R = (total n f * c)%R. Proof. apply rsum_mul_r. Qed.

(** a vector u sqrt(d) / sqrt(K X), X = total(u^2) d / K, has norm one *)
Lemma unit_vector n (u : Z -> R) (d K : R) : (0 < d)%R -> (0 < K)%R -> (0 < total n (fun is => u is * u is))%R ->
  let X := (total n (fun is => u is * u is) * (d / K))%R in
  (0 < sqrt (K * X))%R /\ total n (fun is => (u is * sqrt d * (1 / sqrt (K * X))) * (u is * sqrt d * (1 / sqrt (K * X))))%R = 1%R.
Proof.
  intros Hd HK HT X. set (T := total n (fun is => u is * u is)%R) in *.
  assert (HX : (K * X = T * d)%R) by (unfold X; field; lra).
  assert (Hp : (0 < K * X)%R) by (rewrite HX; now apply Rmult_lt_0_compat).
  assert (Hs : (0 < sqrt (K * X))%R) by now apply sqrt_lt_R0.
  split; [exact Hs|].
  rewrite (total_ext n _ (fun is => (u is * u is) * (sqrt d * sqrt d * (1 / (sqrt (K * X) * sqrt (K * X)))))%R) by (intros; field; lra).
  rewrite total_mul_r. fold T. rewrite !sqrt_sqrt by lra. rewrite HX. field. lra.
Qed.
Lemma omap_fdiv_some f a b : b <> 0%R -> omap f (fdiv a b) = Some (f (a / b)%R).
Proof. intro H. unfold fdiv. destruct (reqb b 0) eqn:E; [apply reqb_eq in E; contradiction|reflexivity]. Qed.
Lemma omap_fdiv_none f a : omap f (fdiv a 0) = None.
Proof. unfold fdiv. destruct (reqb 0 0) eqn:E; [reflexivity|]. unfold reqb in E. destruct (Req_EM_T 0 0); [discriminate|contradiction]. Qed.

Definition zeroAc (g : setting) (S : system) (f : Z -> R) (is : Z) : R := if acoustic g S is then 0%R else f is.
Definition unitK (K X : R) (w : R) : R := (w * (1 / sqrt (K * X)))%R.

Section Special.
Variables (g : setting) (S : system) (ranks : list (list Z)).
Hypothesis Hpart : Permutation (concat ranks) (zrange 0 (vn S)).
Hypothesis Hpop : forall is, 0 <= is < vn S -> (0 <= vPop S is)%R.
Hypothesis Hspin : (0 < gSpin g)%R.
Hypothesis HkBT : (0 < gkBT g)%R.
Hypothesis HT : (0 < gT g)%R.
Hypothesis HV : (0 < gVol g)%R.
Hypothesis HN : (0 < gN g)%R.

Lemma special_generic (f : Z -> R) (K : R) : (0 < K)%R -> (0 < total (vn S) (fun is => if acoustic g S is then 0 else vPop S is * f is * f is))%R ->
  let X := (reduce ranks (fun is => if acoustic g S is then 0 else vPop S is * f is * f is)%R * (gSpin g / K))%R in
  exists th, (forall is, 0 <= is < vn S -> omap (fun s => gather ranks (fun is => if acoustic g S is then 0 else sqrt (vPop S is) * f is * sqrt (gSpin g))%R is * s)%R (fdiv 1 (sqrt (K * X))) = Some (th is)) /\
    total (vn S) (fun is => th is * th is)%R = 1%R /\
    exists c, (0 < c)%R /\ forall is, 0 <= is < vn S -> th is = (if acoustic g S is then 0 else c * (sqrt (vPop S is) * f is))%R.
Proof.
  intros HK Hpos X. set (u := fun is => if acoustic g S is then 0%R else (sqrt (vPop S is) * f is)%R).
  assert (Hu : forall is, 0 <= is < vn S -> (u is * u is = if acoustic g S is then 0 else vPop S is * f is * f is)%R).
  { intros is His. unfold u. destruct (acoustic g S is); [ring|]. transitivity (sqrt (vPop S is) * sqrt (vPop S is) * f is * f is)%R; [ring|]. rewrite sqrt_sqrt; [ring|]. now apply Hpop. }
  assert (HX : X = (total (vn S) (fun is => u is * u is) * (gSpin g / K))%R).
  { unfold X. rewrite (reduce_total ranks (vn S)) by assumption. f_equal. apply total_ext. intros. now rewrite Hu. }
  assert (Hpos' : (0 < total (vn S) (fun is => u is * u is))%R) by (rewrite (total_ext _ _ _ Hu); exact Hpos).
  destruct (unit_vector (vn S) u (gSpin g) K Hspin HK Hpos') as [Hs H1]. cbv zeta in Hs, H1. rewrite <- HX in Hs, H1.
  exists (fun is => u is * sqrt (gSpin g) * (1 / sqrt (K * X)))%R. split; [|split; [exact H1|]].
  - intros is His. rewrite omap_fdiv_some by lra. f_equal. f_equal. rewrite (gather_in ranks (vn S)) by assumption. unfold u. destruct (acoustic g S is); ring.
  - exists (sqrt (gSpin g) * (1 / sqrt (K * X)))%R. split.
    + apply Rmult_lt_0_compat; [now apply sqrt_lt_R0|]. unfold Rdiv. apply Rmult_lt_0_compat; [lra|]. now apply Rinv_0_lt_compat.
    + intros is His. unfold u. destruct (acoustic g S is); ring.
Qed.

Lemma theta0_unit : (0 < total (vn S) (fun is => if acoustic g S is then 0 else vPop S is * (vEn S is - gMu g) * (vEn S is - gMu g)))%R ->
  exists th, (forall is, 0 <= is < vn S -> theta0 g S ranks is = Some (th is)) /\ total (vn S) (fun is => th is * th is)%R = 1%R /\
    exists c, (0 < c)%R /\ forall is, 0 <= is < vn S -> th is = (if acoustic g S is then 0 else c * (sqrt (vPop S is) * (vEn S is - gMu g)))%R.
Proof.
  intro Hpos. assert (HK : (0 < gkBT g * gT g * gVol g * gN g)%R) by (repeat apply Rmult_lt_0_compat; lra).
  destruct (special_generic (fun is => vEn S is - gMu g)%R _ HK Hpos) as (th & H1 & H2). exists th. split; [|exact H2].
  intros is His. rewrite <- (H1 is His). unfold theta0, specialC. replace (gVol g * gN g * gkBT g * gT g)%R with (gkBT g * gT g * gVol g * gN g)%R by ring. reflexivity.
Qed.
Lemma phi_unit i : (0 < total (vn S) (fun is => if acoustic g S is then 0 else vPop S is * vK S is i * vK S is i))%R ->
  exists th, (forall is, 0 <= is < vn S -> phi g S ranks i is = Some (th is)) /\ total (vn S) (fun is => th is * th is)%R = 1%R /\
    exists c, (0 < c)%R /\ forall is, 0 <= is < vn S -> th is = (if acoustic g S is then 0 else c * (sqrt (vPop S is) * vK S is i))%R.
Proof.
  intro Hpos. assert (HK : (0 < gkBT g * gVol g * gN g)%R) by (repeat apply Rmult_lt_0_compat; lra).
  destruct (special_generic (fun is => vK S is i)%R _ HK Hpos) as (th & H1 & H2). exists th. split; [|exact H2].
  intros is His. rewrite <- (H1 is His). unfold phi, specialA. replace (gkBT g * gN g * gVol g)%R with (gkBT g * gVol g * gN g)%R by ring. unfold omap, fdiv.
  destruct (reqb _ 0); [reflexivity|]. f_equal. f_equal. rewrite !(gather_in ranks (vn S)) by assumption. destruct (acoustic g S is); ring.
Qed.
Lemma thetaE_unit : gPh g = false -> (0 < total (vn S) (vPop S))%R ->
  exists th, (forall is, 0 <= is < vn S -> thetaE g S ranks is = Some (th is)) /\ total (vn S) (fun is => th is * th is)%R = 1%R /\
    exists c, (0 < c)%R /\ forall is, 0 <= is < vn S -> th is = (c * sqrt (vPop S is))%R.
Proof.
  intros Hel Hpos. assert (HK : (0 < gkBT g * gN g * gVol g)%R) by (repeat apply Rmult_lt_0_compat; lra).
  assert (Hac : forall is, acoustic g S is = false) by (intro; unfold acoustic; now rewrite Hel).
  assert (Hpos' : (0 < total (vn S) (fun is => if acoustic g S is then 0 else vPop S is * 1 * 1))%R).
  { rewrite (total_ext _ _ (vPop S)); [exact Hpos|]. intros. rewrite Hac. ring. }
  destruct (special_generic (fun is => 1)%R _ HK Hpos') as (th & H1 & H2 & c & Hc & H3). exists th. split; [|split; [exact H2|]].
  - intros is His. rewrite <- (H1 is His). unfold thetaE, specialU. rewrite Hel.
    replace (reduce ranks (fun is0 => if acoustic g S is0 then 0 else vPop S is0 * 1 * 1)%R) with (reduce ranks (vPop S)).
    2:{ rewrite !(reduce_total ranks (vn S)) by assumption. apply total_ext. intros. rewrite Hac. ring. }
    replace (gkBT g * (reduce ranks (vPop S) * (gSpin g / (gVol g * gN g * gkBT g))) * gN g * gVol g)%R
      with (gkBT g * gN g * gVol g * (reduce ranks (vPop S) * (gSpin g / (gkBT g * gN g * gVol g))))%R by (field; lra).
    unfold omap, fdiv. destruct (reqb _ 0); [reflexivity|]. f_equal. f_equal. rewrite !(gather_in ranks (vn S)) by assumption. rewrite Hac. ring.
  - exists c. split; [exact Hc|]. intros is His. rewrite H3, Hac by assumption. ring.
Qed.
End Special.
Section Special2.
Variables (g : setting) (S : system) (ranks : list (list Z)).
Hypothesis Hpart : Permutation (concat ranks) (zrange 0 (vn S)).
(** no spread of the wavevectors along a direction *)
Lemma phi_flat i : (forall is, 0 <= is < vn S -> acoustic g S is = true \/ vK S is i = 0%R) -> forall is, phi g S ranks i is = None.
Proof.
  intros H is. unfold phi, specialA. rewrite (reduce_total ranks (vn S)) by assumption.
  rewrite (total_ext _ _ (fun _ => 0%R)). 2:{ intros k Hk. destruct (H k Hk) as [-> | ->]; [reflexivity|]. destruct (acoustic g S k); ring. }
  unfold total at 1. rewrite rsum_zero by reflexivity. rewrite Rmult_0_l, Rmult_0_r, sqrt_0. apply omap_fdiv_none.
Qed.
(** time reversal *)
Lemma odd_total (f : Z -> R) (tr : Z -> Z) : Permutation (map tr (zrange 0 (vn S))) (zrange 0 (vn S)) -> (forall is, 0 <= is < vn S -> f (tr is) = (- f is)%R) -> total (vn S) f = 0%R.
Proof.
  intros HP Ho. assert (E : total (vn S) f = (- total (vn S) f)%R); [|lra].
  unfold total at 1. rewrite <- (rsum_perm_map f _ _ HP), map_map. rewrite (rsum_ext _ (fun is => -1 * f is)%R). rewrite rsum_mul_l. unfold total. ring.
  intros x Hx. apply in_zrange in Hx. rewrite Ho by lia. ring.
Qed.
Lemma theta0_phi_orthogonal i tr t p :
  Permutation (map tr (zrange 0 (vn S))) (zrange 0 (vn S)) ->
  (forall is, 0 <= is < vn S -> vEn S (tr is) = vEn S is /\ vPop S (tr is) = vPop S is /\ vK S (tr is) i = (- vK S is i)%R) ->
  (forall is, 0 <= is < vn S -> theta0 g S ranks is = Some (t is)) -> (forall is, 0 <= is < vn S -> phi g S ranks i is = Some (p is)) ->
  total (vn S) (fun is => t is * p is)%R = 0%R.
Proof.
  intros HP Htr Ht Hp. apply (odd_total _ tr HP). intros is His.
  assert (Htis : 0 <= tr is < vn S). { assert (In (tr is) (zrange 0 (vn S))) as K. { apply (Permutation_in _ HP), in_map, in_zrange. lia. } apply in_zrange in K. lia. }
  destruct (Htr is His) as (He & Hq & Hk).
  assert (Hac : acoustic g S (tr is) = acoustic g S is) by (unfold acoustic; now rewrite He).
  assert (A : t (tr is) = t is).
  { pose proof (Ht _ His) as H1. pose proof (Ht _ Htis) as H2. unfold theta0, omap, fdiv in H1, H2. destruct (reqb _ 0); [discriminate|]. injection H1 as <-. injection H2 as <-.
    f_equal. rewrite !(gather_in ranks (vn S)) by assumption. now rewrite Hac, He, Hq. }
  assert (B : p (tr is) = (- p is)%R).
  { pose proof (Hp _ His) as H1. pose proof (Hp _ Htis) as H2. unfold phi, omap, fdiv in H1, H2. destruct (reqb _ 0); [discriminate|]. injection H1 as <-. injection H2 as <-.
    rewrite !(gather_in ranks (vn S)) by assumption. rewrite Hac, Hk, Hq. destruct (acoustic g S is); ring. }
  rewrite A, B. ring.
Qed.
End Special2.
