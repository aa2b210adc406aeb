(** C156: refused inputs stop all processes. *)
From Coq Require Import QArith String Ascii.
From Verif Require Import Base BaseLemmas M_context L_context M_startup S_startup L_startup.
Open Scope Z_scope.

Lemma launch_calls size program cs : (forall r, 0 <= r < size -> calls (fst (program r)) = cs) -> agree (launch size program).
Proof. intro H. exists cs. intros p Hp. cbn [launch fst] in Hp. apply in_map_iff in Hp as (r & <- & Hr). apply in_zrange in Hr. apply H. lia. Qed.

(** Processes that make the same calls always end, whatever lines they print and whatever the schedule. *)
Theorem C156_same_calls : forall size program cs, (forall r, 0 <= r < size -> calls (fst (program r)) = cs) -> alwaysEnds (launch size program).
Proof. intros size program cs H. apply agree_always. now apply (launch_calls size program cs). Qed.
Print Assumptions C156_same_calls.
(** And only those can. *)
Theorem C156_only_same_calls : forall size program n t, steps n (launch size program) t -> ended t -> exists cs, forall r, 0 <= r < size -> calls (fst (program r)) = cs.
Proof.
  intros size program n t H E. destruct (ended_agree n _ t H E) as (cs & G). exists cs. intros r Hr. apply G. cbn [launch fst]. apply in_map_iff. exists r. split; [reflexivity|]. apply in_zrange. lia.
Qed.
Print Assumptions C156_only_same_calls.

(** An Error on all processes, after any common history: all end, and the message is printed once. *)
Theorem C156_error_everywhere : forall size history cs message, 1 <= size -> (forall r, 0 <= r < size -> calls (history r) = cs) -> (forall r, 0 <= r < size -> ~ In message (lines (history r))) ->
  message <> str! "Finished on" -> message <> str! "Run time" ->
  let s := launch size (fun r => (history r ++ error r message, Some 1)) in
  alwaysEnds s /\ forall n t, steps n s t -> ended t -> count_occ str_dec (snd t) message = 1%nat.
Proof.
  intros size history cs message HS HC HL N1 N2 s. split.
  - apply (C156_same_calls size _ (cs ++ [Barrier; Barrier; Finalize])). intros r Hr. cbn [fst]. rewrite calls_app, calls_error, HC by exact Hr. reflexivity.
  - intros n t H E. fold (times message (snd t)). rewrite (lines_ended message n s t H E eq_refl). unfold s, launch. cbn [fst].
    assert (V : forall r, 0 <= r < size -> times message (lines (history r ++ error r message)) = if r =? 0 then 1%nat else 0%nat).
    { intros r Hr. rewrite lines_app. unfold times. rewrite count_occ_app, (proj1 (count_occ_not_In str_dec _ _) (HL r Hr)). cbn [Nat.add]. unfold error, finalize, headPrint. destruct (r =? 0); [|reflexivity].
      cbn [List.app lines count_occ]. destruct (str_dec message message) as [_|N]; [|congruence]. destruct (str_dec (str! "Finished on") message) as [Q|_]; [congruence|]. destruct (str_dec (str! "Run time") message) as [Q|_]; [congruence|]. reflexivity. }
    unfold allLines. rewrite map_map. rewrite zrange_cons by lia.
    change (times message (lines (history 0%Z ++ error 0%Z message)) + list_sum (map (fun r => times message (lines (history r ++ error r message))) (zrange (0 + 1)%Z (size - 1)%Z)) = 1)%nat.
    rewrite (V 0 ltac:(lia)). change (0 =? 0) with true. cbv iota. apply (f_equal S).
    assert (W : forall l, (forall r, In r l -> 0 < r < size) -> list_sum (map (fun r => times message (lines (history r ++ error r message))) l) = 0%nat).
    { induction l as [|r l IH]; intro W; [reflexivity|]. pose proof (W r (or_introl eq_refl)) as B. change (times message (lines (history r ++ error r message)) + list_sum (map (fun r => times message (lines (history r ++ error r message))) l) = 0)%nat.
      rewrite (V r) by lia. replace (r =? 0) with false by lia. rewrite IH; [reflexivity|]. intros q Hq. apply W. now right. }
    apply W. intros r Hr. apply in_zrange in Hr. lia.
Qed.
Print Assumptions C156_error_everywhere.

(** The check refuses exactly the runs of the variational and relaxons solvers with symmetries. *)
Theorem C156_check : forall rank i, (snd (inputSanityCheck rank i) = Some 1 <-> refused i) /\ (snd (inputSanityCheck rank i) = None <-> ~ refused i).
Proof.
  intros rank i. rewrite <- anyBad_refused, sanity_code. destruct (anyBad i); split; split; try discriminate; try reflexivity; try congruence; intros H; exfalso; apply H; reflexivity.
Qed.
Print Assumptions C156_check.

(** An accepted input gets the warnings it deserves, from the first process. *)
Theorem C156_warnings : forall i, ~ refused i -> (forall message, In message (lines (fst (inputSanityCheck 0 i))) <-> warned i message) /\ forall r, r <> 0 -> fst (inputSanityCheck r i) = [].
Proof.
  intros i HR. assert (NB : anyBad i = false) by (destruct (anyBad i) eqn:E; [exfalso; now apply HR, anyBad_refused|reflexivity]).
  split; [intro m; now apply sanity_lines|intros r N; now apply sanity_silent].
Qed.
Print Assumptions C156_warnings.

(** With an accepted input, every process goes through the whole application and ends with 0. *)
Theorem C156_accepted : forall size app i cs, ~ refused i -> (forall r, 0 <= r < size -> calls (app r) = cs) ->
  alwaysEnds (launch size (mainProgram app i)) /\ forall r, 0 <= r < size -> snd (mainProgram app i r) = Some 0 /\ exists before, fst (mainProgram app i r) = before ++ app r ++ finalize r /\ calls before = [] /\ (r <> 0 -> before = []).
Proof.
  intros size app i cs HR HC. assert (NB : anyBad i = false) by (destruct (anyBad i) eqn:E; [exfalso; now apply HR, anyBad_refused|reflexivity]).
  assert (F : forall r, snd (mainProgram app i r) = Some 0 /\ exists before, fst (mainProgram app i r) = before ++ app r ++ finalize r /\ calls before = [] /\ (r <> 0 -> before = [])).
  { intro r. unfold mainProgram, printInputSummary. destruct (Z.eqb_spec r 0) as [-> |N]; cbn [negb].
    - pose proof (sanity_code 0 i) as C. pose proof (sanity_calls 0 i) as K. rewrite NB in C, K. rewrite (andThen_none ([Print _], None)) by reflexivity. rewrite andThen_none by exact C. cbn [fst snd]. split; [reflexivity|].
      eexists. split; [reflexivity|]. split; [|congruence]. cbn [List.app calls]. exact K.
    - cbn [andThen skip fst snd List.app]. split; [reflexivity|]. exists []. split; [reflexivity|]. split; reflexivity. }
  split; [|intros r _; apply F]. apply (C156_same_calls size _ (cs ++ [Barrier; Finalize])). intros r Hr. destruct (F r) as (_ & before & E & K & _). rewrite E, !calls_app, K, calls_finalize, HC by exact Hr. reflexivity.
Qed.
Print Assumptions C156_accepted.

(** On one process a refused input stops the run before the application. *)
Theorem C156_one_process : forall app i, refused i ->
  alwaysEnds (launch 1 (mainProgram app i)) /\ snd (mainProgram app i 0) = Some 1 /\ forall app', mainProgram app' i 0 = mainProgram app i 0.
Proof.
  intros app i HR. apply anyBad_refused in HR. assert (P : exists e, printInputSummary 0 i = (e, Some 1)).
  { unfold printInputSummary. change (negb (0 =? 0)) with false. cbv iota. rewrite andThen_none by reflexivity. pose proof (sanity_code 0 i) as C. rewrite HR in C. rewrite C. eexists. reflexivity. }
  destruct P as (e & P). split; [|split].
  - apply (C156_same_calls 1 _ (calls (fst (mainProgram app i 0)))). intros r Hr. now replace r with 0 by lia.
  - unfold mainProgram. rewrite P. reflexivity.
  - intro app'. unfold mainProgram. rewrite P. reflexivity.
Qed.
Print Assumptions C156_one_process.

(** On several it does not: the check is made by the first process only, the others start the application. Unless the application makes exactly one call, a
    barrier, no schedule ever ends: every run blocks. And then only the first process reports the failure. *)
Theorem C156_several_processes_refuted : forall size app i cs, 2 <= size -> refused i -> (forall r, 0 <= r < size -> calls (app r) = cs) ->
  let s := launch size (mainProgram app i) in
  ((exists n t, steps n s t /\ ended t) <-> cs = [Barrier]) /\
  (cs <> [Barrier] -> forall n t, steps n s t -> (forall u, ~ step t u) -> blocked t) /\
  snd (mainProgram app i 0) = Some 1 /\ forall r, 0 < r < size -> mainProgram app i r = (app r ++ finalize r, Some 0).
Proof.
  intros size app i cs HS HR HC s. apply anyBad_refused in HR. pose proof (sanity_code 0 i) as C. pose proof (sanity_calls 0 i) as K. rewrite HR in C, K.
  assert (P0 : mainProgram app i 0 = (Print (str! "Input read from file") :: fst (inputSanityCheck 0 i), Some 1)).
  { unfold mainProgram, printInputSummary. change (negb (0 =? 0)) with false. cbv iota. rewrite (andThen_none ([Print _], None)) by reflexivity. rewrite C. cbn [fst List.app andThen]. reflexivity. }
  assert (PR : forall r, r <> 0 -> mainProgram app i r = (app r ++ finalize r, Some 0)).
  { intros r N. unfold mainProgram, printInputSummary. replace (r =? 0) with false by lia. reflexivity. }
  assert (C0 : calls (fst (mainProgram app i 0)) = [Barrier; Barrier; Finalize]) by (rewrite P0; exact K).
  assert (CR : forall r, 0 < r < size -> calls (fst (mainProgram app i r)) = cs ++ [Barrier; Finalize]) by (intros r Hr; rewrite PR by lia; cbn [fst]; rewrite calls_app, calls_finalize, HC by lia; reflexivity).
  assert (I : (exists n t, steps n s t /\ ended t) <-> cs = [Barrier]).
  { split.
    - intros (n & t & H & E). destruct (C156_only_same_calls size _ n t H E) as (ds & G). pose proof (G 0 ltac:(lia)) as G0. pose proof (G 1 ltac:(lia)) as G1. rewrite C0 in G0. rewrite (CR 1 ltac:(lia)) in G1. rewrite <- G0 in G1.
      change [Barrier; Barrier; Finalize] with ([Barrier] ++ [Barrier; Finalize]) in G1. now apply app_inv_tail in G1.
    - intros ->. assert (A : agree s).
      { apply (launch_calls size _ [Barrier; Barrier; Finalize]). intros r Hr. destruct (Z.eq_dec r 0) as [-> |N]; [exact C0|]. apply CR. lia. }
      assert (T : forall k u, (left u <= k)%nat -> agree u -> exists n t, steps n u t /\ ended t).
      { induction k as [|k IH]; intros u L AU; destruct (progress u AU) as [E|(v & Hv)]; try (exists 0%nat, u; split; [constructor|exact E]); pose proof (left_step _ _ Hv); [lia|].
        destruct (IH v ltac:(lia) (agree_step _ _ Hv AU)) as (n & t & H' & E). exists (S n), t. split; [now apply (steps_S n u v t)|exact E]. }
      exact (T (left s) s (le_n _) A). }
  split; [exact I|]. split; [|split; [now rewrite P0|intros r Hr; apply PR; lia]]. intros N n t H ST. split; [|exact ST]. intro E. apply N, I. now exists n, t.
Qed.
Print Assumptions C156_several_processes_refuted.

(** Had every process made the check, all would stop. *)
Theorem C156_check_by_all : forall size app i, refused i -> let program r := andThen (inputSanityCheck r i) (app r, Some 0) in
  alwaysEnds (launch size program) /\ forall r, snd (program r) = Some 1.
Proof.
  intros size app i HR program. apply anyBad_refused in HR. assert (E : forall r, program r = inputSanityCheck r i) by (intro r; pose proof (sanity_code r i) as C; rewrite HR in C; exact (andThen_some _ _ 1 C)). split.
  - apply (C156_same_calls size _ [Barrier; Barrier; Finalize]). intros r _. rewrite E. pose proof (sanity_calls r i) as K. rewrite HR in K. exact K.
  - intro r. rewrite E. pose proof (sanity_code r i) as C. rewrite HR in C. exact C.
Qed.
Print Assumptions C156_check_by_all.

(** Two processes, the relaxons solver with symmetries, an application that begins with a reduction. *)
Definition exInput : input := {| solverBTE := [str! "iterative"; str! "relaxons"]; useSymmetries := true; qMeshOf := (4, 4, 4); kMeshOf := (0, 0, 0); smearing := 1; dimension := 3; thicknessUnset := true |}.
Definition exApp (r : Z) : list event := headPrint r (str! "Computing") ++ [Collective (Other 7)].
Example C156_ex : refused exInput /\ (forall r, 0 <= r < 2 -> calls (exApp r) = [Other 7]) /\ (exists n t, steps n (launch 2 (mainProgram exApp exInput)) t /\ blocked t) /\
  ~ refused {| solverBTE := [str! "relaxons"]; useSymmetries := false; qMeshOf := (4, 4, 4); kMeshOf := (0, 0, 0); smearing := 1; dimension := 2; thicknessUnset := true |}.
Proof.
  assert (R : refused exInput) by (split; [reflexivity|right; right; now left]).
  assert (CA : forall r, 0 <= r < 2 -> calls (exApp r) = [Other 7]) by (intros r _; unfold exApp; rewrite calls_app, calls_headPrint; reflexivity).
  split; [exact R|]. split; [exact CA|]. split; [|intros [H _]; discriminate].
  eexists _, _. split.
  - eapply steps_S; [|eapply steps_S; [|apply steps_0]].
    + apply (step_print [] (str! "Input read from file")).
    + apply (step_print [] symmetryMessage).
  - split.
    + intro E. specialize (E _ (or_introl eq_refl)). discriminate.
    + intros t H. inversion H as [b l r a out E1 E2|c rests out N E1 E2].
      * destruct b as [|x [|y b]]; cbn in E1; [discriminate|discriminate|]. apply (f_equal (@length _)) in E1. cbn in E1. rewrite app_length in E1. cbn in E1. lia.
      * destruct rests as [|x [|y [|z rests]]]; cbn in E1; try discriminate. apply (f_equal (map (fun p => match p with e :: _ => e | [] => Collective Finalize end))) in E1. cbn in E1. injection E1 as -> E1. discriminate.
Qed.
