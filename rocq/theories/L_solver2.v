(** The solvers of M_solver in terms of L_solver. *)
From Coq Require Import QArith Qcanon Qcabs Lqa.
From Verif Require Import Base BaseLemmas M_utilities M_points M_matrix M_vbte M_scattering M_solver S_solver L_matrix2 L_mpi L_scattering L_scattering2 L_solver.
From Coq Require Import Lia.
Open Scope Z_scope.

Lemma in_states P s : In s (activeStates P) <-> active P s.
Proof.
  unfold activeStates, active. rewrite filter_In, in_zrange. rewrite negb_true_iff. rewrite <- not_true_iff_false, isIn_In. tauto.
Qed.
Lemma nodup_states P : NoDup (activeStates P).
Proof. apply NoDup_filter, NoDup_zrange. Qed.
Lemma not_excluded P s : active P s -> excluded P s = false.
Proof. intros (_ & H). unfold excluded. apply not_true_iff_false. now rewrite isIn_In. Qed.
Lemma lift2_active P o u v c i s : active P s -> lift2 P o u v c i s = o (u c i s) (v c i s).
Proof. intros H. unfold lift2. now rewrite not_excluded. Qed.
Lemma adot_active P u c i s : active P s -> adot P u c i s = product P c (u c i) s.
Proof. intros H. unfold adot. now rewrite not_excluded. Qed.

Section Run.
Variables (P : problem) (c i : Z) (b guess : field).
Let st k := cgIterate P k (cgStart P b guess).
Let L := activeStates P.
Let F k := cgF (st k) c i.
Let R k := cgR (st k) c i.
Let D k := cgD (st k) c i.
Lemma st_S k : st (S k) = cgStep P (st k).
Proof. reflexivity. Qed.
Lemma fdot_D k : fdot P (cgD (st k)) (adot P (cgD (st k))) c i = ip L (D k) (op L (pM P c) (D k)).
Proof. apply qsum_ext. intros s I. apply in_states in I. rewrite adot_active by exact I. reflexivity. Qed.
Lemma alpha_eq k : ratio (fdot P (cgR (st k)) (cgR (st k))) (fdot P (cgD (st k)) (adot P (cgD (st k)))) c i = al L (pM P c) R D k.
Proof. unfold ratio, al. rewrite fdot_D. reflexivity. Qed.
Lemma F_rec k : eqL L (F (S k)) (fun s => al L (pM P c) R D k * D k s + 1 * F k s)%Qc.
Proof.
  intros s I. apply in_states in I. rewrite <- alpha_eq. unfold F, D. rewrite st_S. cbn [cgF cgStep]. rewrite lift2_active by exact I. unfold scaled. ring.
Qed.
Lemma R_rec k : eqL L (R (S k)) (fun s => 1 * R k s + (- al L (pM P c) R D k) * op L (pM P c) (D k) s)%Qc.
Proof.
  intros s I. apply in_states in I. rewrite <- alpha_eq. unfold R, D. rewrite st_S. cbn [cgR cgStep]. rewrite lift2_active by exact I.
  unfold scaled. rewrite adot_active by exact I. change (product P c) with (op L (pM P c)). ring.
Qed.
Lemma D_rec k : eqL L (D (S k)) (fun s => be L R k * D k s + 1 * R (S k) s)%Qc.
Proof.
  intros s I. apply in_states in I. unfold D at 1. rewrite st_S. cbn [cgD cgStep]. rewrite lift2_active by exact I. unfold scaled.
  match goal with |- (_ * ?x + ?y)%Qc = _ => change y with (R (S k) s); change x with (be L R k) end. unfold D. ring.
Qed.
Lemma D_start : eqL L (D 0) (R 0).
Proof. intros s _. reflexivity. Qed.
Lemma R_start : eqL L (R 0) (fun s => 1 * b c i s + (- (1)) * op L (pM P c) (F 0) s)%Qc.
Proof.
  intros s I. apply in_states in I. unfold R, F. cbn. rewrite lift2_active by exact I. rewrite adot_active by exact I.
  change (product P c) with (op L (pM P c)). ring.
Qed.
Lemma run_residual k s : active P s -> cgR (cgIterate P k (cgStart P b guess)) c i s = (b c i s - product P c (cgF (cgIterate P k (cgStart P b guess)) c i) s)%Qc.
Proof.
  intros H. pose proof (residual L (pM P c) F R D F_rec R_rec (b c i) R_start k s (proj2 (in_states P s) H)) as E.
  change (R k s = b c i s - op L (pM P c) (F k) s)%Qc. rewrite E. ring.
Qed.
Hypothesis SYM : symmetric P c.
Hypothesis PD : positiveDefinite P c.
Lemma sym' : forall s s', In s L -> In s' L -> pM P c s s' = pM P c s' s.
Proof. intros s s' I I'. apply SYM; now apply in_states. Qed.
Lemma pd' : forall u, (exists s, In s L /\ u s <> 0%Qc) -> (0 < ip L u (op L (pM P c) u))%Qc.
Proof. intros u (s & I & N). apply PD. exists s. split; [now apply in_states | exact N]. Qed.
Lemma run_exact k : (length (activeStates P) <= k)%nat -> solves P c (cgF (cgIterate P k (cgStart P b guess)) c i) (b c i).
Proof.
  intros H s I. apply in_states in I.
  exact (cg_exact L (nodup_states P) (pM P c) sym' pd' F R D F_rec R_rec D_rec D_start (b c i) R_start k H s I).
Qed.
Lemma run_monotone k : (functional P c (b c i) (cgF (cgIterate P k (cgStart P b guess)) c i) <= functional P c (b c i) (cgF (cgIterate P (S k) (cgStart P b guess)) c i))%Qc.
Proof. exact (fun_monotone L (pM P c) sym' pd' F R D F_rec R_rec D_rec D_start (b c i) R_start k). Qed.
Lemma run_strict k : ~ solves P c (cgF (cgIterate P k (cgStart P b guess)) c i) (b c i) ->
  (functional P c (b c i) (cgF (cgIterate P k (cgStart P b guess)) c i) < functional P c (b c i) (cgF (cgIterate P (S k) (cgStart P b guess)) c i))%Qc.
Proof.
  intros N. apply (fun_strict L (pM P c) sym' pd' F R D F_rec R_rec D_rec D_start (b c i) R_start k).
  intros E. apply N. intros s I. apply E. now apply in_states.
Qed.
Lemma functional_bound x u : solves P c x (b c i) -> (functional P c (b c i) u <= functional P c (b c i) x)%Qc.
Proof.
  intros E. apply (fun_bound L (pM P c) sym' pd' (b c i) x u). intros s I. apply E. now apply in_states.
Qed.
Lemma unique x y : solves P c x (b c i) -> solves P c y (b c i) -> forall s, active P s -> x s = y s.
Proof.
  intros X Y s H. set (e := fun s => (1 * x s + (- (1)) * y s)%Qc).
  assert (Z : eqL L e (fun _ => 0%Qc)).
  { apply (pd_zero L (pM P c) pd'). rewrite ip_comm. apply zero_ip. intros s' I. unfold e. rewrite op_lin. apply in_states in I.
    specialize (X s' I). specialize (Y s' I). change (product P c) with (op L (pM P c)) in X, Y. rewrite X, Y. ring. }
  specialize (Z s (proj2 (in_states P s) H)). unfold e in Z. transitivity (1 * x s + - (1) * y s + y s)%Qc; [ring | rewrite Z; ring].
Qed.
(** once solved, nothing moves *)
Lemma run_stays k : solves P c (cgF (cgIterate P k (cgStart P b guess)) c i) (b c i) -> forall s, active P s ->
  cgF (cgIterate P (S k) (cgStart P b guess)) c i s = cgF (cgIterate P k (cgStart P b guess)) c i s.
Proof.
  intros H s I. pose proof (F_rec k s (proj2 (in_states P s) I)) as E. change (F (S k) s = F k s). rewrite E.
  assert (Z : eqL L (R k) (fun _ => 0%Qc)).
  { intros s' I'. apply in_states in I'. change (cgR (cgIterate P k (cgStart P b guess)) c i s' = 0%Qc). rewrite run_residual by exact I'. rewrite (H s' I'). ring. }
  rewrite (R_zero_D_zero L R D D_rec D_start k Z s (proj2 (in_states P s) I)). ring.
Qed.
End Run.

(** * Iterative solver *)
Lemma offDiagonal_split P u c i s : active P s -> (forall s', 0 <= s' < pN P -> ~ active P s' -> u c i s' = 0%Qc) ->
  (pM P c s s * u c i s + offDiagonal P u c i s = product P c (u c i) s)%Qc.
Proof.
  intros H Z. unfold offDiagonal, product.
  assert (E : qsum (map (fun s' => pM P c s s' * u c i s')%Qc (activeStates P)) = qsum (map (fun s' => pM P c s s' * u c i s')%Qc (zrange 0 (pN P)))).
  { apply (qsum_incl _ _ _ Z.eq_dec); [apply nodup_states | apply NoDup_zrange | intros x I; apply filter_In in I; tauto |].
    intros x I N. rewrite Z; [ring | apply in_zrange in I; lia | now rewrite <- in_states]. }
  rewrite E. clear E. assert (I : In s (zrange 0 (pN P))) by (apply in_zrange; destruct H; lia).
  pose proof (NoDup_zrange 0 (pN P)) as ND. induction (zrange 0 (pN P)) as [|x l IH]; [destruct I |].
  apply NoDup_cons_iff in ND as (NI & ND). cbn [filter]. destruct (Z.eqb_spec x s) as [-> | Nx]; cbn [negb].
  - cbn [map]. rewrite (filter_all (fun s' => negb (s' =? s)) l). { change (qsum (?a :: ?m)) with (a + qsum m)%Qc. reflexivity. }
    intros y Iy. apply negb_true_iff, Z.eqb_neq. intros ->. contradiction.
  - destruct I as [-> | I]; [contradiction |]. specialize (IH I ND). cbn [map]. change (qsum (?a :: ?m)) with (a + qsum m)%Qc. rewrite <- IH. ring.
Qed.

Lemma div_as (a d : Qc) : d <> 0%Qc -> (d * (a / d) = a)%Qc.
Proof. intros. field. assumption. Qed.
Lemma omini_residual P (f : field) c i s : active P s -> (forall s', 0 <= s' < pN P -> ~ active P s' -> f c i s' = 0%Qc) ->
  pM P c s s <> 0%Qc -> pPop P c s <> 0%Qc ->
  (pM P c s s * (ominiNext P f c i s - f c i s) = pDrift P c i s - product P c (f c i) s)%Qc.
Proof.
  intros H Z N NP. rewrite <- (offDiagonal_split P f c i s H Z). unfold ominiNext, fRTA, toCanonical, popRTA. rewrite !lift2_active by exact H.
  unfold times, diag. field. split; assumption.
Qed.
Lemma omini_residual_omega P b (f : field) c i s : active P s -> (forall s', 0 <= s' < pN P -> ~ active P s' -> f c i s' = 0%Qc) ->
  pM P c s s <> 0%Qc ->
  (pM P c s s * (ominiNextOmega P b f c i s - f c i s) = b c i s - product P c (f c i) s)%Qc.
Proof.
  intros H Z N. rewrite <- (offDiagonal_split P f c i s H Z). unfold ominiNextOmega. rewrite !lift2_active by exact H.
  unfold timesOmega, diag. field. assumption.
Qed.
Lemma mult_zero (d x : Qc) : d <> 0%Qc -> (d * x = 0)%Qc -> x = 0%Qc.
Proof. intros N E. apply Qcmult_integral in E as [E | E]; [contradiction | exact E]. Qed.
Lemma sub_zero (x y : Qc) : (x - y = 0)%Qc -> x = y.
Proof. intros E. transitivity (x - y + y)%Qc; [ring | rewrite E; ring]. Qed.

(** ** Convergence *)
Lemma abs_qsum {A} (f g : A -> Qc) l : (forall a, In a l -> (Qcabs (f a) <= g a)%Qc) -> (Qcabs (qsum (map f l)) <= qsum (map g l))%Qc.
Proof.
  induction l as [|a l IH]; intros H; [cbn; rewrite Qcabs_pos; apply Qcle_refl |]. cbn [map]. change (qsum (?x :: ?m)) with (x + qsum m)%Qc.
  eapply Qcle_trans; [apply Qcabs_triangle |]. apply Qcplus_le_compat; [apply H; now left | apply IH; intros; apply H; now right].
Qed.
Lemma contraction P c i q B (f : field) x : (0 <= B)%Qc -> dominant P c q -> (forall s, active P s -> pM P c s s <> 0%Qc /\ pPop P c s <> 0%Qc) ->
  solves P c x (pDrift P c i) -> (forall s', 0 <= s' < pN P -> ~ active P s' -> f c i s' = 0%Qc) ->
  (forall s, active P s -> (Qcabs (f c i s - x s) <= B)%Qc) ->
  forall s, active P s -> (Qcabs (ominiNext P f c i s - x s) <= q * B)%Qc.
Proof.
  intros HB DOM NZ SOL Z E s H. destruct (NZ s H) as (N & NP).
  set (M := pM P c) in *. set (e := fun s' => ((if s' =? s then 0%Qc else M s s') * (f c i s' - x s'))%Qc).
  assert (X : (M s s * (ominiNext P f c i s - x s) = - qsum (map e (activeStates P)))%Qc).
  { pose proof (omini_residual P f c i s H Z N NP) as R. fold M in R.
    transitivity (M s s * (ominiNext P f c i s - f c i s) + M s s * (f c i s - x s))%Qc; [ring |]. rewrite R. rewrite <- (SOL s H).
    unfold product. fold M. transitivity (M s s * (f c i s - x s) - qsum (map (fun s' => M s s' * (f c i s' - x s'))%Qc (activeStates P)))%Qc.
    { rewrite (qsum_ext (fun s' => M s s' * (f c i s' - x s'))%Qc (fun s' => M s s' * f c i s' - M s s' * x s')%Qc) by (intros; ring). rewrite qsum_map_sub. ring. }
    rewrite (qsum_ext (fun s' => M s s' * (f c i s' - x s'))%Qc (fun s' => e s' + (if s' =? s then M s s' * (f c i s' - x s') else 0))%Qc).
    2: { intros s' _. unfold e. destruct (s' =? s); ring. }
    rewrite qsum_map_add. rewrite (qsum_one (fun s' => if s' =? s then M s s' * (f c i s' - x s') else 0)%Qc _ s Z.eq_dec (nodup_states P) (proj2 (in_states P s) H)).
    - rewrite Z.eqb_refl. ring.
    - intros b _ Nb. replace (b =? s) with false by (symmetry; now apply Z.eqb_neq). reflexivity. }
  assert (Y : (Qcabs (M s s) * Qcabs (ominiNext P f c i s - x s) <= Qcabs (M s s) * (q * B))%Qc).
  { rewrite <- Qcabs_Qcmult, X, Qcabs_opp.
    eapply Qcle_trans; [apply (abs_qsum e (fun s' => B * (if s' =? s then 0 else Qcabs (M s s')))%Qc) |].
    - intros s' I. apply in_states in I. unfold e. destruct (s' =? s).
      + replace (0 * (f c i s' - x s'))%Qc with 0%Qc by ring. rewrite Qcabs_pos by apply Qcle_refl. replace (B * 0)%Qc with 0%Qc by ring. apply Qcle_refl.
      + rewrite Qcabs_Qcmult, (Qcmult_comm B). apply Qcle_sub. replace (_ - _)%Qc with (Qcabs (M s s') * (B - Qcabs (f c i s' - x s')))%Qc by ring.
        apply Qcmult_nonneg; [apply Qcabs_nonneg |]. specialize (E s' I). revert E. qcq. lra.
    - rewrite qsum_map_scale. specialize (DOM s H). fold M in DOM. apply Qcle_sub.
      replace (_ - _)%Qc with (B * (q * Qcabs (M s s) - qsum (map (fun s' => if s' =? s then 0 else Qcabs (M s s')) (activeStates P))))%Qc by ring.
      apply Qcmult_nonneg; [exact HB |]. revert DOM. qcq. lra. }
  assert (PM : (0 < Qcabs (M s s))%Qc).
  { pose proof (Qcabs_nonneg (M s s)) as G. apply Qcle_lt_or_eq in G as [G | G]; [exact G |]. exfalso. apply N. unfold M.
    now apply Qcabs_null. }
  pose proof (Qcinv_pos _ PM) as PI. apply Qcle_sub.
  replace (q * B - Qcabs (ominiNext P f c i s - x s))%Qc with (/ Qcabs (M s s) * (Qcabs (M s s) * (q * B) - Qcabs (M s s) * Qcabs (ominiNext P f c i s - x s)))%Qc by (field; now apply Qcpos_neq).
  apply Qcmult_nonneg; [now apply Qclt_le_weak |]. revert Y. qcq. lra.
Qed.
