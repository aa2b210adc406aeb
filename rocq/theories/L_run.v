(** Lemmas about runs. *)
From Coq Require Import String Ascii QArith Sorting.Sorted.
From Verif Require Import Base BaseLemmas M_points M_context L_context M_run S_run.
From Coq Require Import Lia.
Open Scope Z_scope.

(** [r] completes exactly when [C] holds, then writes the files [F]; otherwise it writes the first of them *)
Definition does (r : run) (F : list str) (C : Prop) : Prop :=
  (snd r = true <-> C) /\ prefix (filesOf (fst r)) F /\ (snd r = true -> filesOf (fst r) = F).
Lemma files_app t u : filesOf (t ++ u) = filesOf t ++ filesOf u.
Proof. unfold filesOf. apply flat_map_app. Qed.
Lemma does_then r s F G C D : does r F C -> does s G D -> does (andThen r s) (F ++ G) (C /\ D).
Proof.
  intros (R1 & (p & R2) & R3) (S1 & (q & S2) & S3). unfold andThen, does. destruct (snd r) eqn:E; cbn [fst snd].
  - rewrite files_app, (R3 eq_refl). split; [tauto|]. split; [exists q; rewrite S2, app_assoc; reflexivity | intros H; rewrite (S3 H); reflexivity].
  - rewrite E. split; [split; [discriminate | intros (H & _); apply R1 in H; discriminate]|]. split; [exists (p ++ G); rewrite R2, app_assoc; reflexivity | discriminate].
Qed.
Lemma does_skip : does skip [] True.
Proof. split; [cbn; tauto|]. split; [exists []; reflexivity | reflexivity]. Qed.
Lemma does_stop b : does (stopIf b) [] (b = false).
Proof. unfold does, stopIf. cbn [fst snd]. split; [destruct b; cbn; intuition discriminate|]. split; [exists []; reflexivity | reflexivity]. Qed.
Lemma does_wrote f : does (act (Wrote f)) [f] True.
Proof. split; [cbn; tauto|]. split; [exists []; reflexivity | reflexivity]. Qed.
Lemma does_act a : stage a <> [] -> does (act a) [] True.
Proof. intros N. destruct a; try (split; [cbn; tauto|]; split; [exists []; reflexivity | reflexivity]). exfalso. apply N. reflexivity. Qed.
Lemma does_when b r F C : does r F C -> does (whenRun b r) (if b then F else []) (b = true -> C).
Proof. intros H. destruct b; cbn [whenRun]; [destruct H as (H1 & H2); split; [rewrite H1; intuition | exact H2]|]. destruct does_skip as (H1 & H2). split; [cbn; intuition discriminate | exact H2]. Qed.
Lemma does_weaken r F G C D : does r F C -> F = G -> (C <-> D) -> does r G D.
Proof. intros (H1 & H2) <- E. split; [rewrite H1; exact E | exact H2]. Qed.

Lemma does_loop body test : does body [] True -> forall left iter,
  does (loop body test iter left) [] (left = O \/ exists k, iter <= k < iter + Z.of_nat left /\ test k = true).
Proof.
  intros B. induction left as [|k IH]; intros iter; cbn [loop].
  - eapply does_weaken; [exact does_skip | reflexivity | tauto].
  - destruct (test iter) eqn:T.
    + eapply does_weaken; [exact (does_then _ _ _ _ _ _ B does_skip) | reflexivity |]. split; [intros _; right; exists iter; split; [lia | exact T] | tauto].
    + eapply does_weaken; [exact (does_then _ _ _ _ _ _ B (does_then _ _ _ _ _ _ (does_stop _) (IH (iter + 1)))) | reflexivity |].
      destruct k as [|k]; cbn [Z.of_nat].
      * split; [intros (_ & H & _); discriminate | intros [H | (j & J & JT)]; [discriminate|]; assert (j = iter) by lia; subst; congruence].
      * split.
        -- intros (_ & _ & [H | (j & J & JT)]); [discriminate|]. right. exists j. split; [lia | exact JT].
        -- intros [H | (j & J & JT)]; [discriminate|]. split; [exact I|]. split; [reflexivity|]. right. exists j. split; [|exact JT].
           assert (j <> iter) by (intros ->; congruence). lia.
Qed.
Lemma does_iterations x s body : does body [] True -> does (iterations x s body) [] (reaches x s).
Proof.
  intros B. eapply does_weaken; [exact (does_loop _ (conv x s) B (Z.to_nat (maxIterations x)) 0) | reflexivity |]. unfold reaches. split.
  - intros [H | (k & K & T)]; [left; lia | right; exists k; split; [lia | exact T]].
  - intros [H | (k & K & T)]; [left; lia | right; exists k; split; [lia | exact T]].
Qed.

Lemma wanted_asks x s : wanted x s = true <-> asks x s.
Proof.
  unfold wanted, asks. rewrite existsb_exists. split.
  - intros (n & I & E). apply streq_eq in E. subst n. exact I.
  - intros I. exists (nameOf s). split; [exact I | apply streq_refl].
Qed.
Lemma ifAsked_wanted x s F : ifAsked x s F = if wanted x s then F else [].
Proof. unfold ifAsked. destruct (in_dec _ _ _) as [I|I]; destruct (wanted x s) eqn:E; try reflexivity; exfalso; [apply wanted_asks in I; congruence | apply I, wanted_asks, E]. Qed.
Lemma constant_time x : constantRTA x = true <-> positiveTime x.
Proof.
  unfold constantRTA, positiveTime. destruct (crt x) as [t|].
  - unfold Qltb. rewrite negb_true_iff. split.
    + intros H. exists t. split; [reflexivity|]. apply Qnot_le_lt. intros L. apply Qle_bool_iff in L. congruence.
    + intros (u & E & L). injection E as <-. destruct (Qle_bool t 0) eqn:B; [|reflexivity]. apply Qle_bool_iff in B. exfalso. exact (Qlt_not_le _ _ L B).
  - split; [discriminate | intros (u & E & _); discriminate].
Qed.

(** * Stages *)
Definition within (lo hi : Z) (t : list action) : Prop := StronglySorted Z.le (stages t) /\ Forall (fun z => lo <= z <= hi) (stages t).
Lemma stages_app t u : stages (t ++ u) = stages t ++ stages u.
Proof. unfold stages. apply flat_map_app. Qed.
Lemma sorted_app l m b : StronglySorted Z.le l -> StronglySorted Z.le m -> Forall (fun z => z <= b) l -> Forall (fun z => b <= z) m -> StronglySorted Z.le (l ++ m).
Proof.
  intros L M A B. induction L as [|a l L IH F]; [exact M|]. cbn [app]. inversion A as [|? ? Aa Al]; subst. constructor; [exact (IH Al)|].
  apply Forall_app. split; [exact F|]. revert B. apply Forall_impl. intros; lia.
Qed.
Lemma within_then lo mid hi r s : lo <= mid <= hi -> within lo mid (fst r) -> within mid hi (fst s) -> within lo hi (fst (andThen r s)).
Proof.
  intros O (R1 & R2) (S1 & S2). unfold andThen. destruct (snd r); cbn [fst]; unfold within.
  - rewrite stages_app. split.
    + apply (sorted_app _ _ mid); try assumption; [revert R2 | revert S2]; apply Forall_impl; intros; lia.
    + apply Forall_app. split; [revert R2 | revert S2]; apply Forall_impl; intros; lia.
  - split; [exact R1|]. revert R2. apply Forall_impl. intros; lia.
Qed.
Lemma within_nil lo hi t : stages t = [] -> within lo hi t.
Proof. intros E. unfold within. rewrite E. split; constructor. Qed.
Lemma within_skip lo hi : within lo hi (fst skip). Proof. now apply within_nil. Qed.
Lemma within_stop lo hi b : within lo hi (fst (stopIf b)). Proof. now apply within_nil. Qed.
Lemma within_wrote lo hi f : within lo hi (fst (act (Wrote f))). Proof. now apply within_nil. Qed.
Lemma within_act lo hi a z : stage a = [z] -> lo <= z <= hi -> within lo hi (fst (act a)).
Proof. intros E B. unfold within, stages. cbn [act fst flat_map]. rewrite E. cbn [app]. split; repeat constructor; lia. Qed.
Lemma within_when lo hi b r : within lo hi (fst r) -> within lo hi (fst (whenRun b r)).
Proof. destruct b; [auto | intros _; apply within_skip]. Qed.
Lemma within_same z r s : within z z (fst r) -> within z z (fst s) -> within z z (fst (andThen r s)).
Proof. apply within_then. lia. Qed.
Lemma within_loop z body test : within z z (fst body) -> forall left iter, within z z (fst (loop body test iter left)).
Proof.
  intros B. induction left as [|k IH]; intros iter; cbn [loop]; [apply within_skip|]. apply within_same; [exact B|]. destruct (test iter); [apply within_skip|].
  apply within_same; [apply within_stop | apply IH].
Qed.
Lemma within_weaken lo hi lo' hi' t : lo' <= lo -> hi <= hi' -> within lo hi t -> within lo' hi' t.
Proof. intros A B (H & K). split; [exact H|]. revert K. apply Forall_impl. intros; lia. Qed.

(** * Membership *)
Lemma in_then a r s : In a (fst (andThen r s)) -> In a (fst r) \/ (snd r = true /\ In a (fst s)).
Proof. unfold andThen. destruct (snd r) eqn:E; cbn [fst]; [rewrite in_app_iff; tauto | tauto]. Qed.
Lemma in_then_l a r s : In a (fst r) -> In a (fst (andThen r s)).
Proof. unfold andThen. destruct (snd r) eqn:E; cbn [fst]; [rewrite in_app_iff; tauto | tauto]. Qed.
Lemma snd_then r s : snd (andThen r s) = true -> snd r = true.
Proof. unfold andThen. destruct (snd r) eqn:E; [auto | rewrite E; discriminate]. Qed.
Lemma does_weaken' r F G C D : does r F C -> prefix F G -> (C -> F = G) -> (C <-> D) -> does r G D.
Proof.
  intros (H1 & (p & H2) & H3) (q & Q) FG E. split; [rewrite H1; exact E|]. split; [exists (p ++ q); rewrite Q, H2, app_assoc; reflexivity|].
  intros H. rewrite (H3 H). apply FG, H1, H.
Qed.
Lemma prefix_refl {A} (l : list A) : prefix l l. Proof. exists []. now rewrite app_nil_r. Qed.
Lemma prefix_app {A} (l m n : list A) : prefix m n -> prefix (l ++ m) (l ++ n).
Proof. intros (r & ->). exists r. apply app_assoc. Qed.
Ltac doT := lazymatch goal with
  | |- does (andThen _ _) _ _ => eapply does_then; [doT | doT]
  | |- does (whenRun _ _) _ _ => eapply does_when; doT
  | |- does skip _ _ => exact does_skip
  | |- does (stopIf _) _ _ => apply does_stop
  | |- does (act (Wrote _)) _ _ => apply does_wrote
  | |- does (act _) _ _ => apply does_act; discriminate
  | |- does (iterations _ _ _) _ _ => apply does_iterations; eapply does_weaken; [doT | reflexivity | tauto]
  end.
Ltac stT := lazymatch goal with
  | |- within _ _ (fst (act (Wrote _))) => apply within_wrote
  | |- within _ _ (fst (stopIf _)) => apply within_stop
  | |- within _ _ (fst skip) => apply within_skip
  | |- within _ _ (fst (whenRun _ _)) => apply within_when; stT
  | |- within ?z ?z (fst (andThen _ _)) => apply within_same; stT
  | |- within ?z ?z (fst (iterations _ _ _)) => apply within_loop; stT
  | |- within _ _ (fst (act _)) => eapply within_act; [reflexivity | lia]
  end.
