(** Conjugate gradient over a finite list of states, one right-hand side. *)
From Coq Require Import QArith Qcanon Lqa.
From Verif Require Import Base BaseLemmas M_matrix L_matrix2 L_scattering.
From Coq Require Import Lia.
Open Scope Z_scope.

Ltac qcq := unfold Qcle, Qclt, Qcminus; cbn [this Qcmult Qcplus Qcopp Q2Qc]; rewrite ?Qred_correct.
Lemma sq_nonneg (x : Qc) : (0 <= x * x)%Qc.
Proof. qcq. nra. Qed.
Lemma Qcplus_nonneg (x y : Qc) : (0 <= x -> 0 <= y -> 0 <= x + y)%Qc.
Proof. qcq. lra. Qed.
Lemma Qcplus_pos (x y : Qc) : (0 < x -> 0 <= y -> 0 < x + y)%Qc.
Proof. qcq. lra. Qed.
Lemma Qcmult_nonneg (x y : Qc) : (0 <= x -> 0 <= y -> 0 <= x * y)%Qc.
Proof. qcq. nra. Qed.
Lemma Qcmult_pos (x y : Qc) : (0 < x -> 0 < y -> 0 < x * y)%Qc.
Proof. qcq. nra. Qed.
Lemma sq_pos (x : Qc) : x <> 0%Qc -> (0 < x * x)%Qc.
Proof.
  intros H. destruct (Qc_dec x 0) as [[K | K] | K].
  - assert (0 < - x)%Qc by (revert K; qcq; lra).
    replace (x * x)%Qc with (- x * - x)%Qc by ring. now apply Qcmult_pos.
  - now apply Qcmult_pos.
  - contradiction.
Qed.
Lemma Qcpos_neq (x : Qc) : (0 < x)%Qc -> x <> 0%Qc.
Proof. intros H K. subst x. now apply (Qclt_not_eq 0 0). Qed.
Lemma Qcinv_pos (x : Qc) : (0 < x -> 0 < / x)%Qc.
Proof.
  intros H. pose proof (Qcpos_neq _ H) as N. destruct (Qc_dec 0 (/ x)) as [[K | K] | K]; [exact K | |].
  - exfalso. assert (K' : (0 < - / x)%Qc) by (revert K; generalize (/ x)%Qc; intros y; qcq; lra).
    pose proof (Qcmult_pos _ _ H K') as L. replace (x * - / x)%Qc with (0 - 1)%Qc in L by (field; exact N).
    revert L. qcq. lra.
  - exfalso. assert (x * / x = 1)%Qc by (field; exact N). rewrite <- K in H0. replace (x * 0)%Qc with 0%Qc in H0 by ring. discriminate.
Qed.
Lemma Qcle_sub (x y : Qc) : (0 <= y - x)%Qc -> (x <= y)%Qc.
Proof. qcq. lra. Qed.
Lemma Qclt_sub (x y : Qc) : (0 < y - x)%Qc -> (x < y)%Qc.
Proof. qcq. lra. Qed.
Lemma qsum_nonneg {A} (f : A -> Qc) l : (forall a, In a l -> (0 <= f a)%Qc) -> (0 <= qsum (map f l))%Qc.
Proof.
  induction l as [|a l IH]; intros H; [apply Qcle_refl |]. cbn. apply Qcplus_nonneg; [apply H; now left | apply IH; intros; apply H; now right].
Qed.
Lemma qsum_pos {A} (f : A -> Qc) l a : (forall a, In a l -> (0 <= f a)%Qc) -> In a l -> (0 < f a)%Qc -> (0 < qsum (map f l))%Qc.
Proof.
  induction l as [|x l IH]; intros H I K; [destruct I |]. cbn. destruct I as [-> | I].
  - apply Qcplus_pos; [exact K | apply qsum_nonneg; intros; apply H; now right].
  - rewrite Qcplus_comm. apply Qcplus_pos; [apply IH; trivial; intros; apply H; now right | apply H; now left].
Qed.
Lemma qsum_map_sub {A} (f g : A -> Qc) l : qsum (map (fun x => (f x - g x)%Qc) l) = (qsum (map f l) - qsum (map g l))%Qc.
Proof. induction l as [|x l IH]; cbn; [ring |]. cbn in IH. unfold qsum in *. rewrite IH. ring. Qed.
Lemma qsum_le {A} (f g : A -> Qc) l : (forall a, In a l -> (f a <= g a)%Qc) -> (qsum (map f l) <= qsum (map g l))%Qc.
Proof.
  intros H. apply Qcle_sub. rewrite <- qsum_map_sub. apply qsum_nonneg. intros a I. specialize (H a I). revert H.
  qcq. lra.
Qed.

Section CG.
Variable L : list Z.
Hypothesis ND : NoDup L.
Variable A : Z -> Z -> Qc.
Definition ip (u v : Z -> Qc) : Qc := qsum (map (fun s => u s * v s)%Qc L).
Definition op (u : Z -> Qc) (s : Z) : Qc := qsum (map (fun s' => A s s' * u s')%Qc L).
Definition eqL (u v : Z -> Qc) : Prop := forall s, In s L -> u s = v s.
Hypothesis SYM : forall s s', In s L -> In s' L -> A s s' = A s' s.
Hypothesis PD : forall u, (exists s, In s L /\ u s <> 0%Qc) -> (0 < ip u (op u))%Qc.

Lemma ip_ext u u' v v' : eqL u u' -> eqL v v' -> ip u v = ip u' v'.
Proof. intros H K. apply qsum_ext. intros s I. now rewrite (H s I), (K s I). Qed.
Lemma op_ext u u' : eqL u u' -> forall s, op u s = op u' s.
Proof. intros H s. apply qsum_ext. intros s' I. now rewrite (H s' I). Qed.
Lemma ip_comm u v : ip u v = ip v u.
Proof. apply qsum_ext. intros. ring. Qed.
Lemma ip_lin a u b v w : ip (fun s => a * u s + b * v s)%Qc w = (a * ip u w + b * ip v w)%Qc.
Proof. unfold ip. rewrite <- !qsum_map_scale, <- qsum_map_add. apply qsum_ext. intros. ring. Qed.
Lemma ip_lin_r a u b v w : ip w (fun s => a * u s + b * v s)%Qc = (a * ip w u + b * ip w v)%Qc.
Proof. rewrite ip_comm, ip_lin, (ip_comm u), (ip_comm v). reflexivity. Qed.
Lemma op_lin a u b v s : op (fun s => a * u s + b * v s)%Qc s = (a * op u s + b * op v s)%Qc.
Proof. unfold op. rewrite <- !qsum_map_scale, <- qsum_map_add. apply qsum_ext. intros. ring. Qed.
Lemma ip_op_sym u v : ip u (op v) = ip v (op u).
Proof.
  unfold ip, op.
  transitivity (qsum (map (fun s => qsum (map (fun s' => u s * (A s s' * v s'))%Qc L)) L)).
  { apply qsum_ext. intros s _. now rewrite <- qsum_map_scale. }
  rewrite qsum_swap. apply qsum_ext. intros s I. rewrite <- qsum_map_scale. apply qsum_ext. intros s' I'. rewrite (SYM s' s I' I). ring.
Qed.
Lemma ip_nonneg u : (0 <= ip u u)%Qc.
Proof. apply qsum_nonneg. intros. apply sq_nonneg. Qed.
Lemma ip_zero u : ip u u = 0%Qc -> eqL u (fun _ => 0%Qc).
Proof.
  intros H s I. destruct (Qc_eq_dec (u s) 0) as [E | N]; [exact E | exfalso].
  apply (Qcpos_neq (ip u u)); [| exact H]. apply qsum_pos with (a := s); [intros; apply sq_nonneg | exact I | now apply sq_pos].
Qed.
Lemma zero_ip u v : eqL u (fun _ => 0%Qc) -> ip u v = 0%Qc.
Proof. intros H. unfold ip. rewrite <- (qsum_zero L). apply qsum_ext. intros s I. rewrite (H s I). ring. Qed.
Lemma zero_op u s : eqL u (fun _ => 0%Qc) -> op u s = 0%Qc.
Proof. intros H. unfold op. rewrite <- (qsum_zero L). apply qsum_ext. intros s' I. rewrite (H s' I). ring. Qed.
Lemma pd_zero u : ip u (op u) = 0%Qc -> eqL u (fun _ => 0%Qc).
Proof.
  intros H s I. destruct (Qc_eq_dec (u s) 0) as [E | N]; [exact E | exfalso]. apply (Qcpos_neq (ip u (op u))); [| exact H]. apply PD. eauto.
Qed.
Lemma pd_nonneg u : (0 <= ip u (op u))%Qc.
Proof.
  destruct (Qc_eq_dec (ip u (op u)) 0) as [E | N]; [rewrite E; apply Qcle_refl |].
  apply Qclt_le_weak, PD. assert (K : ~ eqL u (fun _ => 0%Qc)) by (intros Z; apply N; now apply zero_ip).
  assert (X : exists s, In s L /\ u s <> 0%Qc); [| exact X].
  clear - K. unfold eqL in K. induction L as [|s l IH]; [exfalso; apply K; intros ? [] |].
  destruct (Qc_eq_dec (u s) 0) as [E | N]; [| exists s; split; [now left | exact N]].
  destruct IH as (s' & I & H); [| exists s'; split; [now right | exact H]]. intros H. apply K. intros s' [<- | I]; auto.
Qed.

(** ** Bessel's inequality and the number of orthogonal vectors *)
Lemma bessel (rs : list (Z -> Qc)) : (forall r, In r rs -> ip r r <> 0%Qc) -> ForallOrdPairs (fun r r' => ip r r' = 0%Qc) rs ->
  forall u, (qsum (map (fun r => ip u r * ip u r / ip r r)%Qc rs) <= ip u u)%Qc.
Proof.
  intros N O. induction O as [| r rs OR O IH]; intros u; [apply ip_nonneg |].
  assert (Nr : ip r r <> 0%Qc) by (apply N; now left). assert (N' : forall r, In r rs -> ip r r <> 0%Qc) by (intros; apply N; now right).
  set (c := (ip u r / ip r r)%Qc). set (u' := fun s => (1 * u s + (- c) * r s)%Qc).
  specialize (IH N' u'). cbn [map]. rewrite Forall_forall in OR.
  assert (E : qsum (map (fun r => ip u' r * ip u' r / ip r r)%Qc rs) = qsum (map (fun r => ip u r * ip u r / ip r r)%Qc rs)).
  { apply qsum_ext. intros x I. unfold u'. rewrite ip_lin, (OR x I). f_equal. ring. }
  rewrite E in IH.
  assert (F : ip u' u' = (ip u u - ip u r * ip u r / ip r r)%Qc).
  { unfold u'. rewrite ip_lin, !ip_lin_r, (ip_comm r u). unfold c. field. exact Nr. }
  rewrite F in IH. revert IH. change (qsum (ip u r * ip u r / ip r r :: ?l)%Qc) with (ip u r * ip u r / ip r r + qsum l)%Qc.
  generalize (ip u r * ip u r / ip r r)%Qc (ip u u) (qsum (map (fun r => ip u r * ip u r / ip r r)%Qc rs)). clear. intros x y z.
  qcq. lra.
Qed.
Definition unit_ (s s' : Z) : Qc := if s' =? s then 1%Qc else 0%Qc.
Lemma ip_unit s u : In s L -> ip (unit_ s) u = u s.
Proof.
  intros I. unfold ip. rewrite (qsum_one _ L s Z.eq_dec ND I). { unfold unit_. rewrite Z.eqb_refl. ring. }
  intros b Hb N. unfold unit_. replace (b =? s) with false by (symmetry; now apply Z.eqb_neq). ring.
Qed.

Lemma qsum_ones {X} (l : list X) : qsum (map (fun _ => 1%Qc) l) = Q2Qc (inject_Z (Z.of_nat (length l))).
Proof.
  induction l as [|x l IH]; [reflexivity |]. cbn [map length]. change (qsum (1%Qc :: ?m)) with (1 + qsum m)%Qc. rewrite IH.
  apply Qc_is_canon. cbn [this Qcplus Q2Qc]. rewrite !Qred_correct. rewrite Nat2Z.inj_succ. unfold Z.succ. rewrite inject_Z_plus. change (inject_Z 1) with 1%Q. lra.
Qed.
Lemma dimension_bound (rs : list (Z -> Qc)) : (forall r, In r rs -> ip r r <> 0%Qc) -> ForallOrdPairs (fun r r' => ip r r' = 0%Qc) rs ->
  (length rs <= length L)%nat.
Proof.
  intros N O.
  assert (B : (qsum (map (fun s => qsum (map (fun r => ip (unit_ s) r * ip (unit_ s) r / ip r r)%Qc rs)) L) <= qsum (map (fun s => ip (unit_ s) (unit_ s)) L))%Qc).
  { apply qsum_le. intros s _. now apply bessel. }
  rewrite qsum_swap in B.
  rewrite (qsum_ext (fun s => ip (unit_ s) (unit_ s)) (fun _ => 1%Qc)) in B.
  2: { intros s I. rewrite ip_unit by exact I. unfold unit_. now rewrite Z.eqb_refl. }
  rewrite (qsum_ext _ (fun _ => 1%Qc) rs) in B.
  2: { intros r I. specialize (N r I). transitivity (qsum (map (fun s => / ip r r * (r s * r s))%Qc L)).
    { apply qsum_ext. intros s Is. rewrite ip_unit by exact Is. field. exact N. }
    rewrite qsum_map_scale. fold (ip r r). field. exact N. }
  rewrite !qsum_ones in B. unfold Qcle in B. cbn [this Q2Qc] in B. rewrite !Qred_correct in B. rewrite <- Zle_Qle in B. lia.
Qed.

(** ** The iteration *)
Variables F R D : nat -> Z -> Qc.
Definition al (k : nat) : Qc := if Qc_eq_dec (ip (D k) (op (D k))) 0 then 0%Qc else (ip (R k) (R k) / ip (D k) (op (D k)))%Qc.
Definition be (k : nat) : Qc := if Qc_eq_dec (ip (R k) (R k)) 0 then 0%Qc else (ip (R (S k)) (R (S k)) / ip (R k) (R k))%Qc.
Hypothesis F_S : forall k, eqL (F (S k)) (fun s => al k * D k s + 1 * F k s)%Qc.
Hypothesis R_S : forall k, eqL (R (S k)) (fun s => 1 * R k s + (- al k) * op (D k) s)%Qc.
Hypothesis D_S : forall k, eqL (D (S k)) (fun s => be k * D k s + 1 * R (S k) s)%Qc.
Hypothesis D_0 : eqL (D 0) (R 0).

Lemma eqL_refl u : eqL u u.
Proof. intros s _. reflexivity. Qed.
Lemma eqL_trans u v w : eqL u v -> eqL v w -> eqL u w.
Proof. intros H K s I. now rewrite (H s I), (K s I). Qed.
Lemma R_zero_D_zero k : eqL (R k) (fun _ => 0%Qc) -> eqL (D k) (fun _ => 0%Qc).
Proof.
  intros Z. destruct k as [|k]; [eapply eqL_trans; eauto |]. intros s I. rewrite (D_S k s I), (Z s I). unfold be.
  rewrite (zero_ip _ (R (S k)) Z). destruct (Qc_eq_dec _ _); [ring |]. unfold Qcdiv. ring.
Qed.
Lemma R_zero_next k : eqL (R k) (fun _ => 0%Qc) -> eqL (R (S k)) (fun _ => 0%Qc).
Proof. intros Z s I. rewrite (R_S k s I), (Z s I), (zero_op (D k) s (R_zero_D_zero k Z)). ring. Qed.
Lemma R_zero_later k j : eqL (R k) (fun _ => 0%Qc) -> (k <= j)%nat -> eqL (R j) (fun _ => 0%Qc).
Proof. intros Z H. induction H as [| j H IH]; [exact Z | now apply R_zero_next]. Qed.

(** [r.d = r.r] gives [al dAd = rr] *)
Lemma al_spec k : ip (R k) (D k) = ip (R k) (R k) -> (al k * ip (D k) (op (D k)) = ip (R k) (R k))%Qc.
Proof.
  intros H. unfold al. destruct (Qc_eq_dec (ip (D k) (op (D k))) 0) as [E | N]; [| field; exact N].
  apply pd_zero in E. rewrite <- H, (ip_comm (R k)), (zero_ip (D k) (R k) E). ring.
Qed.
Lemma al_zero k : ip (R k) (D k) = ip (R k) (R k) -> al k = 0%Qc -> eqL (D k) (fun _ => 0%Qc).
Proof.
  intros H E. pose proof (al_spec k H) as S. rewrite E in S. apply R_zero_D_zero, ip_zero. rewrite <- S. ring.
Qed.
Definition orth (k : nat) : Prop :=
  ip (R k) (D k) = ip (R k) (R k) /\
  (forall j, (j < k)%nat -> ip (R k) (D j) = 0%Qc /\ ip (R k) (R j) = 0%Qc /\ ip (D k) (op (D j)) = 0%Qc).
Lemma orth_step k : (forall j, (j <= k)%nat -> orth j) -> orth (S k).
Proof.
  intros O. destruct (O k (le_n k)) as (RDk & Ok).
  assert (RD : forall j, (j <= k)%nat -> ip (R (S k)) (D j) = 0%Qc).
  { intros j H. rewrite (ip_ext _ _ _ _ (R_S k) (eqL_refl (D j))), ip_lin.
    rewrite (ip_comm (op (D k)) (D j)), ip_op_sym.
    destruct (Nat.eq_dec j k) as [-> | Nj].
    - pose proof (al_spec k RDk) as A0. rewrite RDk, <- A0. ring.
    - destruct (Ok j ltac:(lia)) as (E1 & _ & E3). rewrite E1, E3. ring. }
  assert (RR : forall j, (j <= k)%nat -> ip (R (S k)) (R j) = 0%Qc).
  { intros j H. destruct j as [|j].
    - rewrite <- (ip_ext _ _ _ _ (eqL_refl (R (S k))) D_0). apply RD. lia.
    - assert (E : eqL (R (S j)) (fun s => 1 * D (S j) s + (- be j) * D j s)%Qc) by (intros s I; rewrite (D_S j s I); ring).
      rewrite (ip_ext _ _ _ _ (eqL_refl (R (S k))) E), ip_lin_r, (RD (S j) H), (RD j) by lia. ring. }
  assert (RS : ip (R (S k)) (D (S k)) = ip (R (S k)) (R (S k))).
  { rewrite (ip_ext _ _ _ _ (eqL_refl (R (S k))) (D_S k)), ip_lin_r, (RD k) by lia. ring. }
  split; [exact RS |]. intros j H. split; [apply RD; lia | split; [apply RR; lia |]].
  rewrite (ip_ext _ _ _ _ (D_S k) (eqL_refl (op (D j)))), ip_lin.
  assert (Hj : (j <= k)%nat) by lia. destruct (O j Hj) as (RDj & _).
  destruct (Qc_eq_dec (al j) 0) as [E | N].
  { rewrite !(ip_comm _ (op (D j))). rewrite !(zero_ip (op (D j))); [ring | | ]; intros s _; apply zero_op, (al_zero j RDj E). }
  assert (X : (al j * ip (R (S k)) (op (D j)) = ip (R (S k)) (R j) - ip (R (S k)) (R (S j)))%Qc).
  { rewrite (ip_ext _ _ _ _ (eqL_refl (R (S k))) (R_S j)), ip_lin_r. ring. }
  destruct (Nat.eq_dec j k) as [-> | Nj].
  - rewrite (RR k) in X by lia. pose proof (al_spec k RDk) as A0.
    assert (Nd : ip (D k) (op (D k)) <> 0%Qc) by (intros E; unfold al in N; destruct (Qc_eq_dec (ip (D k) (op (D k))) 0); [apply N; reflexivity | contradiction]).
    assert (Nr : ip (R k) (R k) <> 0%Qc).
    { rewrite <- A0. intros E. apply Qcmult_integral in E as [E | E]; contradiction. }
    assert (Y : ip (R (S k)) (op (D k)) = (- (ip (R (S k)) (R (S k)) / al k))%Qc).
    { transitivity (al k * ip (R (S k)) (op (D k)) / al k)%Qc; [field; exact N | rewrite X; field; exact N]. }
    rewrite Y. unfold be. destruct (Qc_eq_dec (ip (R k) (R k)) 0) as [C | _]; [contradiction |].
    assert (W : ip (D k) (op (D k)) = (ip (R k) (R k) / al k)%Qc) by (rewrite <- A0; field; exact N).
    rewrite W. field. split; assumption.
  - destruct (Ok j ltac:(lia)) as (_ & _ & E3). rewrite E3. rewrite (RR j), (RR (S j)) in X by lia.
    assert (ip (R (S k)) (op (D j)) = 0%Qc) as ->; [| ring].
    transitivity (al j * ip (R (S k)) (op (D j)) / al j)%Qc; [field; exact N | rewrite X; field; exact N].
Qed.
Lemma orth_all k : orth k.
Proof.
  enough (H : forall j, (j <= k)%nat -> orth j) by (apply H; lia). induction k as [|k IH]; intros j H.
  - replace j with 0%nat by lia. split; [| intros; lia]. apply ip_ext; [apply eqL_refl | exact D_0].
  - destruct (Nat.eq_dec j (S k)) as [-> | N]; [now apply orth_step | apply IH; lia].
Qed.
Lemma orth_list m : ForallOrdPairs (fun r r' => ip r r' = 0%Qc) (map R (seq 0 m)).
Proof.
  assert (G : forall a, ForallOrdPairs (fun r r' => ip r r' = 0%Qc) (map R (seq a m))); [| apply G].
  induction m as [|m IH]; intros a; [constructor |]. cbn [seq map]. constructor; [| apply IH]. apply Forall_forall. intros x I.
  apply in_map_iff in I as (b & <- & I). apply in_seq in I. rewrite ip_comm. now apply (proj2 (orth_all b)).
Qed.
Lemma eqL_dec u v : {eqL u v} + {~ eqL u v}.
Proof.
  unfold eqL. clear. induction L as [|s l [IH | IH]]; [left; intros ? [] | |].
  - destruct (Qc_eq_dec (u s) (v s)) as [E | E]; [left; intros s' [<- | I]; auto | right; intros H; apply E, H; now left].
  - right. intros H. apply IH. intros. apply H. now right.
Qed.
Lemma cg_terminates k : (length L <= k)%nat -> eqL (R k) (fun _ => 0%Qc).
Proof.
  intros H. destruct (eqL_dec (R k) (fun _ => 0%Qc)) as [E | N]; [exact E | exfalso].
  pose proof (dimension_bound (map R (seq 0 (S k)))) as B. rewrite map_length, seq_length in B.
  enough (S k <= length L)%nat by lia. apply B; [| apply orth_list]. intros r I E. apply in_map_iff in I as (j & <- & I). apply in_seq in I.
  apply N. apply (R_zero_later j); [now apply ip_zero | lia].
Qed.
Variable b : Z -> Qc.
Hypothesis R_0 : eqL (R 0) (fun s => 1 * b s + (- (1)) * op (F 0) s)%Qc.
Lemma residual k : eqL (R k) (fun s => 1 * b s + (- (1)) * op (F k) s)%Qc.
Proof.
  induction k as [|k IH]; [exact R_0 |]. intros s I. rewrite (R_S k s I), (IH s I), (op_ext _ _ (F_S k) s), op_lin. ring.
Qed.
Lemma cg_exact k : (length L <= k)%nat -> eqL (op (F k)) b.
Proof. intros H s I. pose proof (residual k s I) as E. rewrite (cg_terminates k H s I) in E. transitivity (b s - 0)%Qc; [rewrite E |]; ring. Qed.
Definition fun_ (u : Z -> Qc) : Qc := (Q2Qc 2 * ip u b - ip u (op u))%Qc.
Lemma two_eq : Q2Qc 2 = (1 + 1)%Qc.
Proof. apply Qc_is_canon. reflexivity. Qed.
Lemma fun_step k : fun_ (F (S k)) = (fun_ (F k) + al k * ip (R k) (R k))%Qc.
Proof.
  unfold fun_. destruct (orth_all k) as (RD & _). pose proof (al_spec k RD) as A0.
  pose proof (residual k) as E. 
  assert (X : ip (D k) b = (ip (R k) (R k) + ip (D k) (op (F k)))%Qc).
  { rewrite <- RD, (ip_comm (R k)), (ip_ext _ _ _ _ (eqL_refl (D k)) E), ip_lin_r. ring. }
  rewrite (ip_ext _ _ _ _ (F_S k) (eqL_refl b)), ip_lin, X.
  rewrite (ip_ext (F (S k)) _ (op (F (S k))) _ (F_S k) (fun s _ => eq_trans (op_ext _ _ (F_S k) s) (op_lin _ _ _ _ s))).
  rewrite ip_lin, !ip_lin_r, (ip_op_sym (F k) (D k)), two_eq, <- A0. ring.
Qed.
Lemma al_nonneg k : (0 <= al k)%Qc.
Proof.
  unfold al. destruct (Qc_eq_dec (ip (D k) (op (D k))) 0) as [E | N]; [apply Qcle_refl |].
  apply Qcmult_nonneg; [apply ip_nonneg |]. apply Qclt_le_weak, Qcinv_pos. pose proof (pd_nonneg (D k)) as P. apply Qcle_lt_or_eq in P as [P | P]; [exact P | congruence].
Qed.
Lemma fun_monotone k : (fun_ (F k) <= fun_ (F (S k)))%Qc.
Proof. rewrite fun_step. apply Qcle_sub. replace (_ - _)%Qc with (al k * ip (R k) (R k))%Qc by ring. apply Qcmult_nonneg; [apply al_nonneg | apply ip_nonneg]. Qed.
Lemma fun_strict k : ~ eqL (op (F k)) b -> (fun_ (F k) < fun_ (F (S k)))%Qc.
Proof.
  intros N. rewrite fun_step. apply Qclt_sub. replace (_ - _)%Qc with (al k * ip (R k) (R k))%Qc by ring.
  assert (NR : ~ eqL (R k) (fun _ => 0%Qc)).
  { intros Z. apply N. intros s I. pose proof (residual k s I) as E. rewrite (Z s I) in E. transitivity (b s - 0)%Qc; [rewrite E |]; ring. }
  assert (P : (0 < ip (R k) (R k))%Qc).
  { pose proof (ip_nonneg (R k)) as P. apply Qcle_lt_or_eq in P as [P | P]; [exact P |]. exfalso. apply NR, ip_zero. congruence. }
  apply Qcmult_pos; [| exact P]. pose proof (al_nonneg k) as Q. apply Qcle_lt_or_eq in Q as [Q | Q]; [exact Q |].
  exfalso. destruct (orth_all k) as (RD & _). pose proof (al_spec k RD) as A0. rewrite <- Q in A0. apply (Qcpos_neq _ P). rewrite <- A0. ring.
Qed.
End CG.

(** the maximum of the functional *)
Section Bound.
Variable L : list Z.
Variable A : Z -> Z -> Qc.
Hypothesis SYM : forall s s', In s L -> In s' L -> A s s' = A s' s.
Hypothesis PD : forall u, (exists s, In s L /\ u s <> 0%Qc) -> (0 < ip L u (op L A u))%Qc.
Lemma fun_bound b x u : eqL L (op L A x) b -> (fun_ L A b u <= fun_ L A b x)%Qc.
Proof.
  intros E. apply Qcle_sub. set (e := fun s => (1 * x s + (- (1)) * u s)%Qc). pose proof (pd_nonneg L A PD e) as P.
  replace (fun_ L A b x - fun_ L A b u)%Qc with (ip L e (op L A e)); [exact P |].
  unfold fun_. rewrite !(ip_ext L _ _ b (op L A x) (fun s _ => eq_refl) (fun s I => eq_sym (E s I))).
  unfold e at 1. rewrite ip_lin. rewrite !(ip_ext L _ _ (op L A e) _ (fun s _ => eq_refl) (fun s _ => op_lin L A 1 x (- (1)) u s)).
  rewrite !ip_lin_r, (ip_op_sym L A SYM x u), two_eq. ring.
Qed.
End Bound.
