(** Proofs about populations. *)
From Coq Require Import Reals.
From Verif Require Import Base BaseLemmas M_bands S_bands L_bands3 M_particle S_particle.
From Coq Require Import Lra.
Open Scope R_scope.

Lemma rltb_lt a b : rltb a b = true <-> a < b.
Proof. unfold rltb. destruct (Rlt_dec a b); split; intro; try assumption; try reflexivity; try discriminate; contradiction. Qed.
Lemma rltb_ge a b : rltb a b = false <-> b <= a.
Proof. unfold rltb. destruct (Rlt_dec a b); split; intro; try discriminate; try reflexivity; lra. Qed.
Lemma rleb_le a b : rleb a b = true <-> a <= b.
Proof. unfold rleb. destruct (Rle_dec a b); split; intro; try assumption; try reflexivity; try discriminate; contradiction. Qed.
Lemma rleb_gt a b : rleb a b = false <-> b < a.
Proof. unfold rleb. destruct (Rle_dec a b); split; intro; try discriminate; try reflexivity; lra. Qed.
Lemma reqb_eq a b : reqb a b = true <-> a = b.
Proof. unfold reqb. destruct (Req_EM_T a b); split; intro; try assumption; try reflexivity; try discriminate; contradiction. Qed.
Lemma reqb_ne a b : reqb a b = false <-> a <> b.
Proof. unfold reqb. destruct (Req_EM_T a b); split; intro; try discriminate; try reflexivity; try contradiction; assumption. Qed.

Lemma exp_gt1 y : 0 < y -> 1 < exp y.
Proof. intro H. rewrite <- exp_0. apply exp_increasing. exact H. Qed.
Lemma exp_lt1 y : y < 0 -> exp y < 1.
Proof. intro H. rewrite <- exp_0. apply exp_increasing. exact H. Qed.

Lemma fermi_value e T mu : 0 < T -> getPopulation electron e T mu = Fin (fermiDirac ((e - mu) / T)).
Proof.
  intro HT. unfold getPopulation. rewrite (proj2 (rleb_gt T 0)) by lra. unfold fermiDirac. set (y := (e - mu) / T).
  pose proof (exp_pos y). assert (A : 1 / (exp y + 1) = / (exp y + 1)) by (unfold Rdiv; lra). rewrite A.
  assert (0 < / (exp y + 1)) by (apply Rinv_0_lt_compat; lra).
  assert (/ (exp y + 1) <= 1) by (rewrite <- Rinv_1; apply Rinv_le_contravar; lra).
  rewrite (proj2 (rltb_ge _ 0)) by lra. rewrite (proj2 (rltb_ge 1 _)) by lra. reflexivity.
Qed.
Lemma fermi_T0 s e T mu : T <= 0 -> getPopulation s e T mu = Fin (if rleb e mu then 1 else 0).
Proof. intro HT. unfold getPopulation. rewrite (proj2 (rleb_le T 0)) by lra. reflexivity. Qed.
Lemma y_pos e T mu : 0 < T -> mu < e -> 0 < (e - mu) / T.
Proof. intros. apply Rdiv_lt_0_compat; lra. Qed.
Lemma bose_value e T mu : 0 < T -> mu < e -> getPopulation phonon e T mu = Fin (boseEinstein ((e - mu) / T)).
Proof.
  intros HT He. unfold getPopulation. rewrite (proj2 (rleb_gt T 0)) by lra. unfold boseEinstein.
  pose proof (exp_gt1 _ (y_pos e T mu HT He)) as H. set (y := (e - mu) / T) in *.
  rewrite (proj2 (reqb_ne _ _)) by lra. assert (A : 1 / (exp y - 1) = / (exp y - 1)) by (unfold Rdiv; lra). rewrite A.
  assert (0 < / (exp y - 1)) by (apply Rinv_0_lt_compat; lra). rewrite (proj2 (rltb_ge _ 0)) by lra. reflexivity.
Qed.
Lemma bose_below e T mu : 0 < T -> e < mu -> getPopulation phonon e T mu = Fin 0.
Proof.
  intros HT He. unfold getPopulation. rewrite (proj2 (rleb_gt T 0)) by lra.
  assert (H : (e - mu) / T < 0). { apply Rmult_lt_reg_r with T; [lra|]. unfold Rdiv. rewrite Rmult_assoc, Rinv_l by lra. lra. }
  pose proof (exp_lt1 _ H) as E. set (y := (e - mu) / T) in *. pose proof (exp_pos y). rewrite (proj2 (reqb_ne _ _)) by lra.
  assert (A : 1 / (exp y - 1) < 0). { unfold Rdiv. rewrite Rmult_1_l. apply Rinv_lt_0_compat. lra. }
  rewrite (proj2 (rltb_lt _ 0)) by exact A. reflexivity.
Qed.
Lemma bose_at e T : 0 < T -> getPopulation phonon e T e = Inf.
Proof.
  intro HT. unfold getPopulation. rewrite (proj2 (rleb_gt T 0)) by lra. replace ((e - e) / T) with 0 by (unfold Rdiv; lra).
  rewrite exp_0. rewrite (proj2 (reqb_eq _ _)) by lra. reflexivity.
Qed.

(** half-angle forms *)
Lemma exp_half y : exp y = exp (y / 2) * exp (y / 2).
Proof. rewrite <- exp_plus. f_equal. lra. Qed.
Lemma cosh_form y : 25 / 100 / cosh (y / 2) / cosh (y / 2) = fermiDirac y * (1 - fermiDirac y).
Proof.
  unfold cosh, fermiDirac. rewrite (exp_half y), exp_Ropp. pose proof (exp_pos (y / 2)). set (E := exp (y / 2)) in *. field. repeat split; apply Rgt_not_eq; nra.
Qed.
Lemma sinh_form y : y <> 0 -> sinh (y / 2) <> 0 /\ 25 / 100 / sinh (y / 2) / sinh (y / 2) = boseEinstein y * (boseEinstein y + 1).
Proof.
  intro Hy. unfold sinh, boseEinstein. rewrite (exp_half y), exp_Ropp.
  assert (N : exp (y / 2) <> 1). { rewrite <- exp_0. intro C. apply exp_inv in C. lra. }
  pose proof (exp_pos (y / 2)). set (E := exp (y / 2)) in *.
  assert (N2 : E * E - 1 <> 0) by (intro C; assert ((E - 1) * (E + 1) = 0) by lra; apply Rmult_integral in H0 as [?|?]; lra).
  split.
  - intro C. apply N2. apply Rmult_eq_reg_r with (/ E); [|apply Rinv_neq_0_compat; lra].
    replace ((E * E - 1) * / E) with (E - / E) by (field; lra). lra.
  - field. repeat split; try lra. 
Qed.
Lemma cosh_pos x : 1 <= cosh x.
Proof.
  unfold cosh. rewrite exp_Ropp. pose proof (exp_pos x) as H. set (E := exp x) in *.
  assert (/ E * E = 1) by (field; lra). assert (0 < / E) by (apply Rinv_0_lt_compat; lra).
  assert (E + / E - 2 = / E * ((E - 1) * (E - 1))) by (field; lra). pose proof (Rle_0_sqr (E - 1)) as Sq. unfold Rsqr in Sq. nra.
Qed.
Lemma fermi_ppm e T mu : 0 < T -> getPopPopPm1 electron e T mu = Fin (fermiDirac ((e - mu) / T) * (1 - fermiDirac ((e - mu) / T))).
Proof.
  intro HT. unfold getPopPopPm1. rewrite (proj2 (reqb_ne T 0)) by lra.
  replace ((e - mu) / 2 / T) with ((e - mu) / T / 2) by (field; lra). pose proof (cosh_pos ((e - mu) / T / 2)).
  rewrite (proj2 (reqb_ne _ 0)) by lra. rewrite cosh_form. reflexivity.
Qed.
Lemma bose_ppm e T mu : 0 < T -> e <> mu -> getPopPopPm1 phonon e T mu = Fin (boseEinstein ((e - mu) / T) * (boseEinstein ((e - mu) / T) + 1)).
Proof.
  intros HT He. unfold getPopPopPm1. rewrite (proj2 (reqb_ne T 0)) by lra.
  replace ((e - mu) / 2 / T) with ((e - mu) / T / 2) by (field; lra).
  assert (N : (e - mu) / T <> 0). { intro C. apply He. apply Rmult_eq_compat_r with (r := T) in C. unfold Rdiv in C. rewrite Rmult_assoc, Rinv_l in C by lra. lra. }
  destruct (sinh_form _ N) as [A B]. rewrite (proj2 (reqb_ne _ 0)) by exact A. rewrite B. reflexivity.
Qed.
Lemma bose_ppm_at e T : 0 < T -> getPopPopPm1 phonon e T e = Inf.
Proof.
  intro HT. unfold getPopPopPm1. rewrite (proj2 (reqb_ne T 0)) by lra. replace ((e - e) / 2 / T) with 0 by (field; lra).
  rewrite sinh_0. rewrite (proj2 (reqb_eq _ _)) by reflexivity. reflexivity.
Qed.

(** derivatives *)
Lemma fermi_deriv y : derivable_pt_lim fermiDirac y (- (fermiDirac y * (1 - fermiDirac y))).
Proof.
  pose proof (exp_pos y). assert (D : derivable_pt_lim (fun x => exp x + 1) y (exp y + 0)).
  { apply derivable_pt_lim_plus; [apply derivable_pt_lim_exp|apply derivable_pt_lim_const]. }
  assert (F : derivable_pt_lim (fun x => 1 / (exp x + 1)) y ((0 * (exp y + 1) - (exp y + 0) * 1) / (exp y + 1)²)).
  { apply (derivable_pt_lim_div (fun _ => 1) (fun x => exp x + 1)); [apply derivable_pt_lim_const|exact D|lra]. }
  replace (- (fermiDirac y * (1 - fermiDirac y))) with ((0 * (exp y + 1) - (exp y + 0) * 1) / (exp y + 1)²).
  - intros eps He. destruct (F eps He) as [d Hd]. exists d. intros h Hh Hd'. specialize (Hd h Hh Hd').
    unfold fermiDirac. unfold Rdiv in Hd at 2 3. rewrite !Rmult_1_l in Hd. exact Hd.
  - unfold fermiDirac, Rsqr. field. lra.
Qed.
Lemma bose_deriv y : y <> 0 -> derivable_pt_lim boseEinstein y (- (boseEinstein y * (boseEinstein y + 1))).
Proof.
  intro Hy. assert (N : exp y - 1 <> 0). { intro C. apply Hy. apply exp_inv. rewrite exp_0. lra. }
  assert (D : derivable_pt_lim (fun x => exp x - 1) y (exp y - 0)).
  { apply derivable_pt_lim_minus; [apply derivable_pt_lim_exp|apply derivable_pt_lim_const]. }
  assert (F : derivable_pt_lim (fun x => 1 / (exp x - 1)) y ((0 * (exp y - 1) - (exp y - 0) * 1) / (exp y - 1)²)).
  { apply (derivable_pt_lim_div (fun _ => 1) (fun x => exp x - 1)); [apply derivable_pt_lim_const|exact D|exact N]. }
  replace (- (boseEinstein y * (boseEinstein y + 1))) with ((0 * (exp y - 1) - (exp y - 0) * 1) / (exp y - 1)²).
  - intros eps He. destruct (F eps He) as [d Hd]. exists d. intros h Hh Hd'. specialize (Hd h Hh Hd').
    unfold boseEinstein. unfold Rdiv in Hd at 2 3. rewrite !Rmult_1_l in Hd. exact Hd.
  - unfold boseEinstein, Rsqr. field. exact N.
Qed.
(** y as a function of the energy and of the temperature *)
Lemma y_deriv_e T mu e : T <> 0 -> derivable_pt_lim (fun x => (x - mu) / T) e (/ T).
Proof.
  intro HT. assert (D : derivable_pt_lim (fun x => / T * (x - mu)) e (/ T * (1 - 0))).
  { apply derivable_pt_lim_scal. apply derivable_pt_lim_minus; [apply derivable_pt_lim_id|apply derivable_pt_lim_const]. }
  replace (/ T * (1 - 0)) with (/ T) in D by ring.
  intros eps He. destruct (D eps He) as [d Hd]. exists d. intros h Hh Hd'. specialize (Hd h Hh Hd'). unfold Rdiv at 2 3. rewrite (Rmult_comm (e + h - mu)), (Rmult_comm (e - mu)). exact Hd.
Qed.
Lemma y_deriv_T T mu e : T <> 0 -> derivable_pt_lim (fun x => (e - mu) / x) T (- (e - mu) / T / T).
Proof.
  intro HT. assert (D : derivable_pt_lim (fun x => (e - mu) / x) T ((0 * T - 1 * (e - mu)) / T²)).
  { apply (derivable_pt_lim_div (fun _ => e - mu) (fun x => x)); [apply derivable_pt_lim_const|apply derivable_pt_lim_id|exact HT]. }
  replace (- (e - mu) / T / T) with ((0 * T - 1 * (e - mu)) / T²) by (unfold Rsqr; field; exact HT). exact D.
Qed.
Lemma comp_deriv f g x l m : derivable_pt_lim g x l -> derivable_pt_lim f (g x) m -> derivable_pt_lim (fun t => f (g t)) x (m * l).
Proof. intros A B. exact (derivable_pt_lim_comp g f x l m A B). Qed.

Lemma dnde_fermi e T mu : 0 < T ->
  exists f d, populationOfEnergy electron T mu e f /\ derivable_pt_lim f e d /\ getDnde electron e T mu false = Fin d.
Proof.
  intro HT. exists (fun x => fermiDirac ((x - mu) / T)).
  exists (- (fermiDirac ((e - mu) / T) * (1 - fermiDirac ((e - mu) / T))) / T). split; [|split].
  - exists 1. split; [lra|]. intros x _. apply fermi_value. exact HT.
  - apply (comp_deriv fermiDirac (fun x => (x - mu) / T)); [apply y_deriv_e; lra|apply fermi_deriv].
  - unfold getDnde. rewrite fermi_ppm by exact HT. reflexivity.
Qed.
Lemma dnde_bose e T mu : 0 < T -> mu < e ->
  exists f d, populationOfEnergy phonon T mu e f /\ derivable_pt_lim f e d /\ getDnde phonon e T mu false = Fin d.
Proof.
  intros HT He. exists (fun x => boseEinstein ((x - mu) / T)).
  exists (- (boseEinstein ((e - mu) / T) * (boseEinstein ((e - mu) / T) + 1)) / T). split; [|split].
  - exists (e - mu). split; [lra|]. intros x Hx. apply bose_value; [exact HT|]. apply Rabs_def2 in Hx. lra.
  - apply (comp_deriv boseEinstein (fun x => (x - mu) / T)); [apply y_deriv_e; lra|apply bose_deriv].
    pose proof (y_pos e T mu HT He). cbv beta. lra.
  - unfold getDnde. rewrite bose_ppm by lra. reflexivity.
Qed.
Lemma dndt_fermi e T mu : 0 < T ->
  exists f d, populationOfTemperature electron T mu e f /\ derivable_pt_lim f T d /\ getDndt electron e T mu false = Fin d.
Proof.
  intro HT. set (y := (e - mu) / T). exists (fun x => fermiDirac ((e - mu) / x)).
  exists (- (fermiDirac y * (1 - fermiDirac y)) * (- (e - mu) / T / T)). split; [|split].
  - exists T. split; [lra|]. intros x Hx. apply fermi_value. apply Rabs_def2 in Hx. lra.
  - apply (comp_deriv fermiDirac (fun x => (e - mu) / x)); [apply y_deriv_T; lra|apply fermi_deriv].
  - unfold getDndt. rewrite fermi_ppm by exact HT. fold y. f_equal. field. lra.
Qed.
Lemma dndt_bose e T mu : 0 < T -> mu < e ->
  exists f d, populationOfTemperature phonon T mu e f /\ derivable_pt_lim f T d /\ getDndt phonon e T mu false = Fin d.
Proof.
  intros HT He. set (y := (e - mu) / T). exists (fun x => boseEinstein ((e - mu) / x)).
  exists (- (boseEinstein y * (boseEinstein y + 1)) * (- (e - mu) / T / T)). split; [|split].
  - exists T. split; [lra|]. intros x Hx. apply bose_value; [|exact He]. apply Rabs_def2 in Hx. lra.
  - apply (comp_deriv boseEinstein (fun x => (e - mu) / x)); [apply y_deriv_T; lra|apply bose_deriv].
    pose proof (y_pos e T mu HT He) as P. fold y in P |- *. lra.
  - unfold getDndt. rewrite bose_ppm by lra. fold y. f_equal. field. lra.
Qed.

Lemma fermi_range y : 0 < fermiDirac y < 1.
Proof.
  unfold fermiDirac. pose proof (exp_pos y). split; [apply Rinv_0_lt_compat; lra|].
  rewrite <- Rinv_1 at 2. apply Rinv_lt_contravar; lra.
Qed.
Lemma fermi_decr y z : y < z -> fermiDirac z < fermiDirac y.
Proof. intro H. unfold fermiDirac. pose proof (exp_pos y). pose proof (exp_increasing y z H). apply Rinv_lt_contravar; [nra|lra]. Qed.
Lemma bose_pos y : 0 < y -> 0 < boseEinstein y.
Proof. intro H. unfold boseEinstein. pose proof (exp_gt1 y H). apply Rinv_0_lt_compat. lra. Qed.
Lemma bose_decr y z : 0 < y -> y < z -> boseEinstein z < boseEinstein y.
Proof. intros H0 H. unfold boseEinstein. pose proof (exp_gt1 y H0). pose proof (exp_increasing y z H). apply Rinv_lt_contravar; [nra|lra]. Qed.

Lemma div_le a b T : 0 < T -> a <= b -> a / T <= b / T.
Proof. intros HT H. unfold Rdiv. apply Rmult_le_compat_r; [left; apply Rinv_0_lt_compat; exact HT|exact H]. Qed.
Lemma div_lt a b T : 0 < T -> a < b -> a / T < b / T.
Proof. intros HT H. unfold Rdiv. apply Rmult_lt_compat_r; [apply Rinv_0_lt_compat; exact HT|exact H]. Qed.

(** the window function does not decrease with temperature *)
Lemma cosh_even x : cosh (- x) = cosh x.
Proof. unfold cosh. rewrite Ropp_involutive. lra. Qed.
Lemma cosh_mono0 x y : 0 <= x -> x <= y -> cosh x <= cosh y.
Proof.
  intros Hx Hy. unfold cosh. rewrite !exp_Ropp. destruct (Req_dec x y) as [->|N]; [lra|].
  assert (E1 : 1 <= exp x). { destruct (Req_dec x 0) as [->|N0]; [rewrite exp_0; lra|left; apply exp_gt1; lra]. }
  assert (E2 : exp x < exp y) by (apply exp_increasing; lra). set (a := exp x) in *. set (b := exp y) in *.
  assert (G : / a - / b = (b - a) * / (a * b)) by (field; lra).
  assert (/ (a * b) <= 1) by (rewrite <- Rinv_1; apply Rinv_le_contravar; [lra|]; assert (1 * 1 <= a * b) by (apply Rmult_le_compat; lra); lra). 
  assert (0 < / (a * b)) by (apply Rinv_0_lt_compat; nra).
  assert ((b - a) * / (a * b) <= (b - a) * 1) by (apply Rmult_le_compat_l; lra). lra.
Qed.
Lemma cosh_mono x y : Rabs x <= Rabs y -> cosh x <= cosh y.
Proof.
  intro H. assert (C : forall z, cosh (Rabs z) = cosh z). { intro z. unfold Rabs. destruct (Rcase_abs z); [apply cosh_even|reflexivity]. }
  rewrite <- (C x), <- (C y). apply cosh_mono0; [apply Rabs_pos|exact H].
Qed.
Lemma sinh2 x : sinh x * sinh x = cosh x * cosh x - 1.
Proof. unfold sinh, cosh. rewrite exp_Ropp. pose proof (exp_pos x). field. lra. Qed.

Lemma arg_mono x T1 T2 : 0 < T1 -> T1 <= T2 -> Rabs (x / 2 / T2) <= Rabs (x / 2 / T1).
Proof.
  intros H1 H2. unfold Rdiv at 1 3. rewrite !Rabs_mult. apply Rmult_le_compat_l; [apply Rabs_pos|].
  assert (0 < / T1) by (apply Rinv_0_lt_compat; lra). assert (0 < / T2) by (apply Rinv_0_lt_compat; lra).
  rewrite !Rabs_right by lra. apply Rinv_le_contravar; lra.
Qed.
Lemma quarter_over x : 25 / 100 / x / x = 25 / 100 * / (x * x) \/ x = 0.
Proof. destruct (Req_dec x 0) as [->|N]; [right; reflexivity|left]. field. exact N. Qed.
Lemma exceeds_mono s thr e T1 T2 mu : 0 <= thr -> 0 < T1 -> T1 <= T2 ->
  exceeds thr (getPopPopPm1 s e T1 mu) = true -> exceeds thr (getPopPopPm1 s e T2 mu) = true.
Proof.
  intros Ht H1 H2. unfold getPopPopPm1. rewrite (proj2 (reqb_ne T1 0)), (proj2 (reqb_ne T2 0)) by lra.
  set (a1 := (e - mu) / 2 / T1). set (a2 := (e - mu) / 2 / T2).
  assert (A : Rabs a2 <= Rabs a1) by (apply arg_mono; assumption). pose proof (cosh_mono _ _ A) as C.
  pose proof (cosh_pos a2) as P2. set (x1 := match s with phonon => sinh a1 | electron => cosh a1 end).
  set (x2 := match s with phonon => sinh a2 | electron => cosh a2 end).
  assert (Sq : x2 * x2 <= x1 * x1). { unfold x1, x2. destruct s; [rewrite !sinh2|]; nra. }
  destruct (reqb x2 0) eqn:E2; [reflexivity|]. apply reqb_ne in E2.
  assert (P : 0 < x2 * x2) by nra. destruct (reqb x1 0) eqn:E1; [apply reqb_eq in E1; rewrite E1 in Sq; nra|]. apply reqb_ne in E1.
  cbn [exceeds]. rewrite !rltb_lt. destruct (quarter_over x1) as [->|]; [|contradiction]. destruct (quarter_over x2) as [->|]; [|contradiction].
  assert (I : / (x1 * x1) <= / (x2 * x2)) by (apply Rinv_le_contravar; lra).
  assert (0 < / (x1 * x1)) by (apply Rinv_0_lt_compat; lra). rewrite !Rabs_right by lra. lra.
Qed.

(** extremes *)
Lemma fold_max l : forall a, a <= fold_left Rmax l a /\ (forall x, In x l -> x <= fold_left Rmax l a) /\ (fold_left Rmax l a = a \/ In (fold_left Rmax l a) l).
Proof.
  induction l as [|y l IH]; intro a; cbn. { split; [lra|]. split; [intros x []|left; reflexivity]. }
  destruct (IH (Rmax a y)) as (A & B & C). pose proof (Rmax_l a y). pose proof (Rmax_r a y). split; [lra|]. split.
  - intros x [->|Hx]; [lra|apply B, Hx].
  - destruct C as [C|C]; [|right; right; exact C]. rewrite C. unfold Rmax. destruct (Rle_dec a y); [right; left; reflexivity|left; reflexivity].
Qed.
Lemma fold_min l : forall a, fold_left Rmin l a <= a /\ (forall x, In x l -> fold_left Rmin l a <= x) /\ (fold_left Rmin l a = a \/ In (fold_left Rmin l a) l).
Proof.
  induction l as [|y l IH]; intro a; cbn. { split; [lra|]. split; [intros x []|left; reflexivity]. }
  destruct (IH (Rmin a y)) as (A & B & C). pose proof (Rmin_l a y). pose proof (Rmin_r a y). split; [lra|]. split.
  - intros x [->|Hx]; [lra|apply B, Hx].
  - destruct C as [C|C]; [|right; right; exact C]. rewrite C. unfold Rmin. destruct (Rle_dec a y); [left; reflexivity|right; left; reflexivity].
Qed.
Lemma rmaxl_ge l x : In x l -> x <= rmaxl l.
Proof. destruct l as [|a l]; [intros []|]. cbn. destruct (fold_max l a) as (A & B & _). intros [->|H]; [exact A|apply B, H]. Qed.
Lemma rmaxl_in l : l <> [] -> In (rmaxl l) l.
Proof. destruct l as [|a l]; [congruence|intros _]. cbn. destruct (fold_max l a) as (_ & _ & [C|C]); [left; symmetry; exact C|right; exact C]. Qed.
Lemma rminl_le l x : In x l -> rminl l <= x.
Proof. destruct l as [|a l]; [intros []|]. cbn. destruct (fold_min l a) as (A & B & _). intros [->|H]; [exact A|apply B, H]. Qed.
