(** Lemmas for C156. *)
From Coq Require Import QArith String Ascii.
From Verif Require Import Base BaseLemmas M_context L_context M_startup S_startup.
Open Scope Z_scope.

Lemma step_nonempty s t : step s t -> fst s <> [] -> fst t <> [].
Proof. intros H. destruct H; cbn [fst]; intros N E; [now destruct before|congruence]. Qed.
Lemma step_calls_back s t cs : step s t -> (forall p, In p (fst t) -> calls p = cs) -> exists cs', forall p, In p (fst s) -> calls p = cs'.
Proof.
  intros H. destruct H as [b l r a out|c rests out N]; cbn [fst]; intro G.
  - exists cs. intros p Hp. rewrite in_app_iff in Hp. destruct Hp as [Hp|[<- |Hp]].
    + apply G. apply in_or_app. now left.
    + cbn [calls]. apply G. apply in_or_app. right. now left.
    + apply G. apply in_or_app. right. now right.
  - exists (c :: cs). intros p Hp. apply in_map_iff in Hp as (q & <- & Hq). cbn [calls]. f_equal. now apply G.
Qed.
Lemma ended_agree n s t : steps n s t -> ended t -> exists cs, forall p, In p (fst s) -> calls p = cs.
Proof.
  intros H E. induction H as [s|n s t u H H' IH].
  - exists []. intros p Hp. rewrite (E p Hp). reflexivity.
  - destruct (IH E) as (cs & G). exact (step_calls_back s t cs H G).
Qed.
Definition agree (s : system) : Prop := exists cs, forall p, In p (fst s) -> calls p = cs.
Lemma agree_step s t : step s t -> agree s -> agree t.
Proof.
  intros H (cs & G). destruct H as [b l r a out|c rests out N]; cbn [fst] in *.
  - exists cs. intros p Hp. cbn [fst] in Hp. rewrite in_app_iff in Hp. destruct Hp as [Hp|[<- |Hp]].
    + apply G. apply in_or_app. now left.
    + apply (G (Print l :: r)). apply in_or_app. right. now left.
    + apply G. apply in_or_app. right. now right.
  - exists (tl cs). intros p Hp. cbn [fst] in Hp. rewrite <- (G (Collective c :: p)); [reflexivity|]. now apply in_map.
Qed.
Lemma progress s : agree s -> ended s \/ exists t, step s t.
Proof.
  intros (cs & G). destruct s as [ps out]. cbn [fst] in G.
  assert (D : (exists p, In p ps /\ exists l r, p = Print l :: r) \/ forall p, In p ps -> p = [] \/ exists c r, p = Collective c :: r).
  { clear G. induction ps as [|p ps IH]; [right; intros q []|]. destruct IH as [(q & Hq & E)|IH]; [left; exists q; split; [now right|exact E]|].
    destruct p as [|[l|c] r]; [right|left|right].
    - intros q [<- |Hq]; [now left|now apply IH].
    - exists (Print l :: r). split; [now left|now exists l, r].
    - intros q [<- |Hq]; [right; now exists c, r|now apply IH]. }
  destruct D as [(p & Hp & l & r & ->)|D].
  - right. apply in_split in Hp as (b & a & ->). eexists. apply step_print.
  - destruct cs as [|c cs].
    + left. intros p Hp. cbn [fst] in Hp. destruct (D p Hp) as [E|(c & r & ->)]; [exact E|]. specialize (G _ Hp). discriminate G.
    + destruct ps as [|p ps]; [left; intros q []|]. right.
      assert (E : map (cons (Collective c)) (map (@tl event) (p :: ps)) = p :: ps).
      { rewrite map_map. rewrite <- (map_id (p :: ps)) at 2. apply map_ext_in. intros q Hq. specialize (G q Hq). destruct (D q Hq) as [-> |(c' & r & ->)]; [discriminate|]. cbn [calls] in G. injection G as -> _. reflexivity. }
      exists (map (@tl event) (p :: ps), out). rewrite <- E at 1. apply step_coll. discriminate.
Qed.
Lemma left_app l l' : list_sum (map (@length event) (l ++ l')) = (list_sum (map (@length event) l) + list_sum (map (@length event) l'))%nat.
Proof. rewrite map_app. apply list_sum_app. Qed.
Lemma left_step s t : step s t -> (S (left t) <= left s)%nat.
Proof.
  intros H. destruct H as [b l r a out|c rests out N]; unfold left; cbn [fst].
  - rewrite !left_app. cbn. lia.
  - destruct rests as [|r rs]; [congruence|]. clear N.
    assert (Q : (list_sum (map (@length event) rs) <= list_sum (map (@length event) (map (cons (Collective c)) rs)))%nat).
    { induction rs as [|q rs IH]; [apply Nat.le_refl|]. change (length q + list_sum (map (@length event) rs) <= S (length q) + list_sum (map (@length event) (map (cons (Collective c)) rs)))%nat. lia. }
    change (S (length r + list_sum (map (@length event) rs)) <= S (length r) + list_sum (map (@length event) (map (cons (Collective c)) rs)))%nat. lia.
Qed.
Lemma agree_always s : agree s -> alwaysEnds s.
Proof.
  intros A n t H. assert (B : (n + left t <= left s)%nat /\ agree t).
  { induction H as [s|n s t u H H' IH]; [split; [lia|exact A]|]. destruct (IH (agree_step _ _ H A)) as [L G]. split; [pose proof (left_step _ _ H); lia|exact G]. }
  destruct B as [L G]. split; [lia|]. now apply progress.
Qed.

(** lines *)
Definition times (m : str) (l : list str) : nat := count_occ str_dec l m.
Definition allLines (m : str) (ps : list (list event)) : nat := list_sum (map (fun p => times m (lines p)) ps).
Lemma allLines_app m l l' : allLines m (l ++ l') = (allLines m l + allLines m l')%nat.
Proof. unfold allLines. rewrite map_app. apply list_sum_app. Qed.
Lemma lines_step m s t : step s t -> (times m (snd t) + allLines m (fst t) = times m (snd s) + allLines m (fst s))%nat.
Proof.
  intros H. destruct H as [b l r a out|c rests out N]; cbn [fst snd].
  - change ((Print l :: r) :: a) with ([Print l :: r] ++ a). change (r :: a) with ([r] ++ a). rewrite !allLines_app.
    assert (Q : allLines m [Print l :: r] = ((if str_dec l m then 1 else 0) + allLines m [r])%nat).
    { unfold allLines. cbn [map list_sum fold_right lines]. unfold times. cbn [count_occ]. destruct (str_dec l m); lia. }
    rewrite Q. unfold times. rewrite count_occ_app. cbn [count_occ]. destruct (str_dec l m); lia.
  - f_equal. unfold allLines. rewrite map_map. cbn [lines]. reflexivity.
Qed.
Lemma lines_steps m n s t : steps n s t -> (times m (snd t) + allLines m (fst t) = times m (snd s) + allLines m (fst s))%nat.
Proof. induction 1 as [s|n s t u H H' IH]; [reflexivity|]. rewrite IH. now apply lines_step. Qed.
Lemma lines_ended m n s t : steps n s t -> ended t -> snd s = [] -> times m (snd t) = allLines m (fst s).
Proof.
  intros H E Q. pose proof (lines_steps m n s t H) as L. rewrite Q in L. change (times m []) with 0%nat in L.
  assert (Z0 : allLines m (fst t) = 0%nat).
  { clear L H. unfold allLines. revert E. unfold ended. induction (fst t) as [|p l IH]; intro E; [reflexivity|]. specialize (IH (fun q Hq => E q (or_intror Hq))). rewrite (E p (or_introl eq_refl)). exact IH. }
  lia.
Qed.
Lemma lines_app l l' : lines (l ++ l') = lines l ++ lines l'.
Proof. induction l as [|[m|c] l IH]; cbn [lines app]; [reflexivity| |]; now rewrite IH. Qed.
Lemma calls_app l l' : calls (l ++ l') = calls l ++ calls l'.
Proof. induction l as [|[m|c] l IH]; cbn [calls app]; [reflexivity| |]; now rewrite IH. Qed.
Lemma calls_headPrint r m : calls (headPrint r m) = []. Proof. unfold headPrint. now destruct (r =? 0). Qed.
Lemma calls_finalize r : calls (finalize r) = [Barrier; Finalize].
Proof. unfold finalize. rewrite !calls_app, !calls_headPrint. reflexivity. Qed.
Lemma calls_error r m : calls (error r m) = [Barrier; Barrier; Finalize].
Proof. unfold error. rewrite !calls_app, calls_headPrint, calls_finalize. reflexivity. Qed.

(** the check of the input *)
Lemma andThen_none a b : snd a = None -> andThen a b = (fst a ++ fst b, snd b).
Proof. destruct a as [e [c|]]; [discriminate|reflexivity]. Qed.
Lemma andThen_some a b c : snd a = Some c -> andThen a b = a.
Proof. destruct a as [e [c'|]]; [reflexivity|discriminate]. Qed.
Definition bad (i : input) (s : str) : bool := (streq s (str! "variational") || streq s (str! "relaxons")) && useSymmetries i.
Lemma checkSolver_code r i s : snd (checkSolver r i s) = (if bad i s then Some 1 else None).
Proof. unfold checkSolver. fold (bad i s). destruct (bad i s); cbn [andThen skip fst snd]; [reflexivity|]. now destruct (streq s (str! "relaxons")). Qed.
Lemma checkSolver_calls r i s : calls (fst (checkSolver r i s)) = (if bad i s then [Barrier; Barrier; Finalize] else []).
Proof.
  unfold checkSolver. fold (bad i s). destruct (bad i s); cbn [andThen skip fst snd]; [apply calls_error|]. destruct (streq s (str! "relaxons")); [|reflexivity].
  cbn [fst app]. unfold warning. rewrite calls_app. destruct (evenMesh (qMeshOf i) || evenMesh (kMeshOf i)), (smearing i =? 1); rewrite ?calls_headPrint; reflexivity.
Qed.
Definition anyBad (i : input) : bool := existsb (bad i) (solverBTE i).
Lemma anyBad_refused i : anyBad i = true <-> refused i.
Proof.
  unfold anyBad, refused. rewrite existsb_exists. unfold bad. split.
  - intros (s & Hs & E). apply andb_true_iff in E as [E1 E2]. split; [exact E2|]. apply orb_true_iff in E1 as [E1|E1]; apply streq_eq in E1; subst; tauto.
  - intros [E [H|H]]; (eexists; split; [exact H|]); rewrite E, streq_refl; cbn [orb andb]; [reflexivity|]. now rewrite orb_true_r.
Qed.
Lemma sanity_code r i : snd (inputSanityCheck r i) = (if anyBad i then Some 1 else None).
Proof.
  unfold inputSanityCheck, anyBad. assert (Q : snd (fold_right (fun s o => andThen (checkSolver r i s) o) skip (solverBTE i)) = (if existsb (bad i) (solverBTE i) then Some 1 else None)).
  { induction (solverBTE i) as [|s l IH]; [reflexivity|]. cbn [fold_right existsb]. pose proof (checkSolver_code r i s) as C. destruct (bad i s); cbn [orb].
    - rewrite (andThen_some _ _ 1 C). exact C.
    - rewrite (andThen_none _ _ C). exact IH. }
  destruct (existsb (bad i) (solverBTE i)); [rewrite (andThen_some _ _ 1 Q); exact Q|rewrite (andThen_none _ _ Q); reflexivity].
Qed.
Lemma sanity_calls r i : calls (fst (inputSanityCheck r i)) = (if anyBad i then [Barrier; Barrier; Finalize] else []).
Proof.
  unfold inputSanityCheck, anyBad. set (o := fold_right _ _ _).
  assert (Q : snd o = (if existsb (bad i) (solverBTE i) then Some 1 else None) /\ calls (fst o) = (if existsb (bad i) (solverBTE i) then [Barrier; Barrier; Finalize] else [])).
  { unfold o. induction (solverBTE i) as [|s l IH]; [split; reflexivity|]. cbn [fold_right existsb]. pose proof (checkSolver_code r i s) as C. pose proof (checkSolver_calls r i s) as K. destruct (bad i s); cbn [orb].
    - rewrite (andThen_some _ _ 1 C). split; assumption.
    - rewrite (andThen_none _ _ C). cbn [fst snd]. rewrite calls_app, K. exact IH. }
  destruct Q as [Q1 Q2]. destruct (existsb (bad i) (solverBTE i)); [rewrite (andThen_some _ _ 1 Q1); exact Q2|rewrite (andThen_none _ _ Q1)]. cbn [fst]. rewrite calls_app, Q2.
  destruct ((dimension i =? 2) && thicknessUnset i); [unfold warning; now rewrite calls_headPrint|reflexivity].
Qed.

(** warnings *)
Lemma evenMesh_points m : evenMesh m = true <-> evenPoints m.
Proof.
  destruct m as [[a b] c]. unfold evenMesh, evenPoints, prod3. rewrite andb_true_iff, negb_true_iff, Z.eqb_neq, Z.eqb_eq. rewrite Z.rem_divide by lia. split.
  - intros [(k & E) N]. split; [exact N|]. exists k. lia.
  - intros [N (k & E)]. split; [exists k; lia|exact N].
Qed.
Lemma checkSolver_lines i s m : bad i s = false -> In m (lines (fst (checkSolver 0 i s))) <->
  s = str! "relaxons" /\ ((m = oddMessage /\ (evenPoints (qMeshOf i) \/ evenPoints (kMeshOf i))) \/ (m = adaptiveMessage /\ smearing i = 1)).
Proof.
  intros B. unfold checkSolver. fold (bad i s). rewrite B. cbn [andThen skip fst snd app]. destruct (streq s (str! "relaxons")) eqn:E.
  - apply streq_eq in E. rewrite <- !evenMesh_points, <- orb_true_iff, <- Z.eqb_eq. unfold warning, headPrint. cbn [Z.eqb fst].
    destruct (evenMesh (qMeshOf i) || evenMesh (kMeshOf i)), (smearing i =? 1); cbn [app lines In]; intuition (congruence || discriminate).
  - split; [intros []|]. intros [H _]. rewrite H, streq_refl in E. discriminate.
Qed.
Lemma lines_app' a b : lines (a ++ b) = lines a ++ lines b.
Proof. induction a as [|[m|c] a IH]; cbn [lines app]; [reflexivity| |]; now rewrite IH. Qed.
Lemma sanity_lines i m : anyBad i = false -> In m (lines (fst (inputSanityCheck 0 i))) <-> warned i m.
Proof.
  intros A. unfold inputSanityCheck.
  assert (G : forall l, existsb (bad i) l = false -> let o := fold_right (fun s r => andThen (checkSolver 0 i s) r) skip l in
    snd o = None /\ (In m (lines (fst o)) <-> In (str! "relaxons") l /\ ((m = oddMessage /\ (evenPoints (qMeshOf i) \/ evenPoints (kMeshOf i))) \/ (m = adaptiveMessage /\ smearing i = 1)))).
  { induction l as [|s l IH]; intros B; cbv zeta in *; [cbn; tauto|]. cbn [existsb] in B. apply orb_false_iff in B as [B1 B2]. destruct (IH B2) as [I1 I2].
    cbn [fold_right]. pose proof (checkSolver_code 0 i s) as C. rewrite B1 in C. rewrite (andThen_none _ _ C). cbn [fst snd]. split; [exact I1|].
    rewrite lines_app', in_app_iff, (checkSolver_lines i s m B1), I2. cbn [In]. tauto. }
  destruct (G (solverBTE i) A) as [G1 G2]. rewrite (andThen_none _ _ G1). cbn [fst]. rewrite lines_app', in_app_iff, G2. unfold warned. change (0 =? 0) with true.
  assert (T : In m (lines (if (dimension i =? 2) && thicknessUnset i then warning 0 thicknessMessage else [])) <-> m = thicknessMessage /\ dimension i = 2 /\ thicknessUnset i = true).
  { rewrite <- (Z.eqb_eq (dimension i)), <- andb_true_iff. destruct ((dimension i =? 2) && thicknessUnset i); cbn [warning headPrint Z.eqb lines In]; intuition (congruence || discriminate). }
  rewrite T. unfold oddMessage, adaptiveMessage, thicknessMessage. tauto.
Qed.
Lemma sanity_silent r i : anyBad i = false -> r <> 0 -> fst (inputSanityCheck r i) = [].
Proof.
  intros A N. apply Z.eqb_neq in N. assert (H : forall m, headPrint r m = []) by (intro m; unfold headPrint; now rewrite N).
  assert (G : forall l, existsb (bad i) l = false -> fold_right (fun s o => andThen (checkSolver r i s) o) skip l = skip).
  { induction l as [|s l IH]; intros B; [reflexivity|]. cbn [existsb] in B. apply orb_false_iff in B as [B1 B2]. cbn [fold_right]. rewrite (IH B2). unfold checkSolver. fold (bad i s). rewrite B1.
    cbn [andThen skip fst snd app]. destruct (streq s (str! "relaxons")); [|reflexivity]. unfold warning. rewrite !H. destruct (evenMesh (qMeshOf i) || evenMesh (kMeshOf i)), (smearing i =? 1); reflexivity. }
  unfold inputSanityCheck. rewrite (G _ A). cbn [andThen skip fst app]. unfold warning. rewrite H. destruct ((dimension i =? 2) && thicknessUnset i); reflexivity.
Qed.
