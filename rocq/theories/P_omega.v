(** Property theorems for the representations of the collision matrix: C39, C40. Real numbers. *)
From Coq Require Import Reals Permutation.
From Verif Require Import Base BaseLemmas M_matrix S_matrix L_matrix M_scattering L_scattering2 M_omega S_omega L_omega.
From Coq Require Import Lra.
Open Scope Z_scope.

(** * C39 *)
(** an element between states that take part in the calculation is divided by sqrt(t1 t2); other elements stay as they are *)
Theorem C39_elements : forall sym excl pop L elems, validLayout L -> ownElements L elems ->
  forall S p r c, smOmega S = false -> isProcess L p -> inMatrix L r c -> indicesAreLocal L p r c = true ->
  let b1 := fst (ofMat sym r) in let b2 := fst (ofMat sym c) in let after := a2Omega sym excl pop elems S in
  smOmega after = true /\
  (~ In b1 excl -> ~ In b2 excl -> smPart after p r c = (smPart S p r c / sqrt (pop b1 * pop b2))%R) /\
  (In b1 excl \/ In b2 excl -> smPart after p r c = smPart S p r c).
Proof.
  intros sym excl pop L elems HL He S p r c HS Hp Hin E b1 b2 after. unfold after. split; [unfold a2Omega; rewrite HS; reflexivity|].
  rewrite (a2Omega_elem sym excl pop L HL elems He S p r c HS Hp Hin), E. fold b1 b2. cbn [andb]. split.
  - intros N1 N2. destruct (isIn excl b1) eqn:X1; [apply isIn_In in X1; tauto|]. destruct (isIn excl b2) eqn:X2; [apply isIn_In in X2; tauto|]. reflexivity.
  - intros [N|N]; apply isIn_In in N; rewrite N; cbn [negb andb]; [|rewrite andb_false_r]; reflexivity.
Qed.
Print Assumptions C39_elements.
(** asking again changes nothing, also if the threads go through the elements in another order *)
Theorem C39_twice : forall sym excl pop elems elems' S, a2Omega sym excl pop elems' (a2Omega sym excl pop elems S) = a2Omega sym excl pop elems S.
Proof. intros. unfold a2Omega at 1. replace (smOmega (a2Omega sym excl pop elems S)) with true; [reflexivity|]. unfold a2Omega. destruct (smOmega S) eqn:E; [congruence|reflexivity]. Qed.
Print Assumptions C39_twice.
(** a matrix symmetric between its processes stays symmetric *)
Theorem C39_symmetric : forall sym excl pop L elems, validLayout L -> ownElements L elems -> forall S p p' r c, smOmega S = false ->
  isProcess L p -> isProcess L p' -> inMatrix L r c -> inMatrix L c r -> indicesAreLocal L p r c = true -> indicesAreLocal L p' c r = true ->
  smPart S p r c = smPart S p' c r -> smPart (a2Omega sym excl pop elems S) p r c = smPart (a2Omega sym excl pop elems S) p' c r.
Proof.
  intros sym excl pop L elems HL He S p p' r c HS Hp Hp' H1 H2 E1 E2 E. rewrite (a2Omega_elem sym excl pop L HL elems He S p r c HS Hp H1), (a2Omega_elem sym excl pop L HL elems He S p' c r HS Hp' H2), E1, E2, E. cbn [andb].
  rewrite Rmult_comm. destruct (isIn excl (fst (ofMat sym r))), (isIn excl (fst (ofMat sym c))); reflexivity.
Qed.
Print Assumptions C39_symmetric.
(** phonon linewidths without symmetries: unchanged on the process that owns the diagonal element; with one process, on that process *)
Theorem C39_linewidths_partial : forall excl pop L elems, validLayout L -> ownElements L elems -> forall S p b f g, smOmega S = false ->
  isProcess L p -> inMatrix L b b -> indicesAreLocal L p b b = true -> (In b excl -> smDiag S p b = 0%R) -> (~ In b excl -> pop b <> 0%R) ->
  getLinewidths pop false None S p = Ok f -> getLinewidths pop false None (a2Omega false excl pop elems S) p = Ok g -> g b = f b.
Proof.
  intros excl pop L elems HL He S p b f g HS Hp Hin E Hx Hn Hf Hg. unfold getLinewidths in Hf, Hg. rewrite HS in Hf. injection Hf as <-.
  assert (Ho : smOmega (a2Omega false excl pop elems S) = true) by (unfold a2Omega; rewrite HS; reflexivity). rewrite Ho in Hg. injection Hg as <-.
  destruct (isIn excl b) eqn:X.
  - rewrite a2Omega_diag_excluded by exact X. apply isIn_In in X. rewrite (Hx X). unfold Rdiv. ring.
  - rewrite (a2Omega_diag false excl pop L elems He) by assumption. rewrite (blockElements_owner L p b) by assumption. rewrite pow_1. reflexivity.
Qed.
Print Assumptions C39_linewidths_partial.
Definition own1 (L : layout) (p : Z * Z) : list (Z * Z) := getAllLocalStates L p.
(** missing: on the other processes the stored diagonal is not rescaled *)
Theorem C39_other_processes_refuted : exists L pop S p f g, mkLayout 4 4 4 0 0 0 0 = Ok L /\ validLayout L /\ ownElements L (own1 L) /\ isProcess L p /\
  getLinewidths pop false None S p = Ok f /\ getLinewidths pop false None (a2Omega false [] pop (own1 L) S) p = Ok g /\ f 3 = 1%R /\ g 3 = 2%R.
Proof.
  exists {| lRows := 4; lCols := 4; bsRows := 2; bsCols := 2; npRows := 2; npCols := 2 |}, (fun _ => 2%R), {| smDiag := fun _ _ => 2%R; smPart := fun _ _ _ => 2%R; smOmega := false |}, (0, 0). eexists _, _. split; [reflexivity|].
  split; [unfold validLayout; cbn [lRows lCols bsRows bsCols npRows npCols]; repeat split; lia|]. split; [intros p _; apply Permutation_refl|]. split; [unfold isProcess; cbn [npRows npCols fst snd]; lia|].
  split; [reflexivity|]. split; [reflexivity|]. split; [cbn; lra|].
  cbn [smDiag a2Omega smOmega]. match goal with |- context[own1 ?l] => set (L := l) end.
  replace (own1 L (0, 0)) with [(0, 0); (1, 0); (0, 1); (1, 1)] by (vm_compute; reflexivity).
  cbn [fold_left omegaStep fst snd ofMat isIn existsb]. cbn -[Rdiv]. lra.
Qed.
Print Assumptions C39_other_processes_refuted.
(** and with symmetries it is rescaled by each of the nine elements of the block *)
Theorem C39_symmetries_refuted : exists L pop S f g, mkLayout 1 3 3 0 0 0 0 = Ok L /\ validLayout L /\ ownElements L (own1 L) /\
  getLinewidths pop false None S (0, 0) = Ok f /\ getLinewidths pop false None (a2Omega true [] pop (own1 L) S) (0, 0) = Ok g /\ f 0 = 256%R /\ g 0 = 1%R.
Proof.
  exists {| lRows := 3; lCols := 3; bsRows := 3; bsCols := 3; npRows := 1; npCols := 1 |}, (fun _ => 2%R), {| smDiag := fun _ _ => 512%R; smPart := fun _ _ _ => 2%R; smOmega := false |}. eexists _, _. split; [reflexivity|].
  split; [unfold validLayout; cbn [lRows lCols bsRows bsCols npRows npCols]; repeat split; lia|]. split; [intros p _; apply Permutation_refl|].
  split; [reflexivity|]. split; [reflexivity|]. split; [cbn; lra|].
  match goal with |- context[own1 ?l] => set (L := l) end.
  rewrite (a2Omega_diag true [] (fun _ => 2%R) L (own1 L)); [|intros p _; apply Permutation_refl|reflexivity|unfold isProcess; cbn; lia|reflexivity].
  replace (blockElements true L (0, 0) 0) with 9%nat by (vm_compute; reflexivity). cbn [smDiag]. simpl pow. lra.
Qed.
Print Assumptions C39_symmetries_refuted.
(** electrons: before the rescaling the linewidths cannot be read *)
Theorem C39_electrons_refuted : forall pop S p, smOmega S = false -> getLinewidths pop true None S p = Err.
Proof. intros pop S p H. unfold getLinewidths. rewrite H. reflexivity. Qed.
Print Assumptions C39_electrons_refuted.
Example C39_ex : exists L, mkLayout 4 4 4 0 0 0 0 = Ok L /\ validLayout L /\ ownElements L (own1 L) /\ isProcess L (0, 1) /\ inMatrix L 1 2 /\ indicesAreLocal L (0, 1) 1 2 = true /\
  smPart (a2Omega false [] (fun b => IZR (b + 2)) (own1 L) {| smDiag := fun _ _ => 2%R; smPart := fun _ _ _ => 2%R; smOmega := false |}) (0, 1) 1 2 = (2 / sqrt (3 * 4))%R.
Proof.
  assert (exists L, mkLayout 4 4 4 0 0 0 0 = Ok L) as (L & E) by (eexists; reflexivity). exists L. split; [exact E|]. vm_compute in E. injection E as <-.
  assert (V : validLayout {| lRows := 4; lCols := 4; bsRows := 2; bsCols := 2; npRows := 2; npCols := 2 |}) by (unfold validLayout; cbn [lRows lCols bsRows bsCols npRows npCols]; repeat split; lia).
  split; [exact V|]. assert (O : ownElements {| lRows := 4; lCols := 4; bsRows := 2; bsCols := 2; npRows := 2; npCols := 2 |} (own1 {| lRows := 4; lCols := 4; bsRows := 2; bsCols := 2; npRows := 2; npCols := 2 |})) by (intros p _; apply Permutation_refl).
  split; [exact O|]. assert (P : isProcess {| lRows := 4; lCols := 4; bsRows := 2; bsCols := 2; npRows := 2; npCols := 2 |} (0, 1)) by (unfold isProcess; cbn; lia). split; [exact P|].
  assert (I : inMatrix {| lRows := 4; lCols := 4; bsRows := 2; bsCols := 2; npRows := 2; npCols := 2 |} 1 2) by (unfold inMatrix; cbn; lia). split; [exact I|].
  split; [reflexivity|]. match goal with |- smPart (a2Omega _ _ ?f _ ?S) _ _ _ = _ => rewrite (proj1 (proj2 (C39_elements false [] f _ _ V O S _ _ _ eq_refl P I eq_refl))); [reflexivity|intros []|intros []] end.
Qed.

(** * C40 *)
Theorem C40_get_after_set_partial : forall sym pop n L high calcs states lw S p, (smOmega S = false -> forall b, 0 <= b < n -> pop b <> 0%R) ->
  exists S', setLinewidths sym pop n L high calcs calcs states states lw S = Ok S' /\ smOmega S' = smOmega S /\
  exists f, getLinewidths pop false None S' p = Ok f /\ forall b, 0 <= b < n -> f b = lw b.
Proof.
  intros sym pop n L high calcs states lw S p H. unfold setLinewidths. rewrite !Z.eqb_refl. cbn [negb]. eexists. split; [reflexivity|]. split; [reflexivity|].
  unfold getLinewidths. cbn [smOmega smDiag]. destruct (smOmega S); eexists; (split; [reflexivity|]); intros b Hb; cbv beta; [reflexivity|]. field. apply H; auto.
Qed.
Print Assumptions C40_get_after_set_partial.
(** electrons in the Omega representation *)
Theorem C40_get_after_set_electrons : forall sym pop n L high calcs states lw S p, smOmega S = true ->
  exists S', setLinewidths sym pop n L high calcs calcs states states lw S = Ok S' /\ getLinewidths pop true None S' p = Ok lw.
Proof. intros sym pop n L high calcs states lw S p H. unfold setLinewidths. rewrite !Z.eqb_refl, H. cbn [negb]. eexists. split; [reflexivity|]. unfold getLinewidths. cbn [smOmega smDiag]. reflexivity. Qed.
Print Assumptions C40_get_after_set_electrons.
(** the relaxation times are the inverse linewidths *)
Theorem C40_times_after_set : forall sym pop n L high calcs states lw S p, (smOmega S = false -> forall b, 0 <= b < n -> pop b <> 0%R) ->
  exists S', setLinewidths sym pop n L high calcs calcs states states lw S = Ok S' /\ forall b, 0 <= b < n -> lw b <> 0%R -> getSingleModeTimes pop None S' p b = (1 / lw b)%R.
Proof.
  intros sym pop n L high calcs states lw S p H. unfold setLinewidths. rewrite !Z.eqb_refl. cbn [negb]. eexists. split; [reflexivity|].
  intros b Hb Hl. unfold getSingleModeTimes. cbn [smOmega smDiag]. destruct (smOmega S); [reflexivity|]. field. split; [exact Hl|]. apply H; auto.
Qed.
Print Assumptions C40_times_after_set.
(** stored matrix: the diagonal block of each state becomes (its diagonal) x identity, every other element stays *)
Theorem C40_matrix_after_set : forall sym pop n L calcs states lw S S' p r c, 0 <= r < matSize sym n -> 0 <= c < matSize sym n -> indicesAreLocal L p r c = true ->
  setLinewidths sym pop n L true calcs calcs states states lw S = Ok S' ->
  let b1 := fst (ofMat sym r) in let b2 := fst (ofMat sym c) in
  (b1 <> b2 -> smPart S' p r c = smPart S p r c) /\
  (r = c -> smPart S' p r c = smDiag S' p b1) /\
  (b1 = b2 -> r <> c -> smPart S' p r c = 0%R).
Proof.
  intros sym pop n L calcs states lw S S' p r c Hr Hc E H b1 b2. unfold setLinewidths in H. rewrite !Z.eqb_refl in H. cbn [negb] in H. injection H as <-. cbn [smPart smDiag].
  rewrite replace_elem by assumption. fold b1 b2. rewrite E. cbn [andb]. split; [|split].
  - intro N. replace (b1 =? b2) with false by lia. reflexivity.
  - intros <-. rewrite !Z.eqb_refl. reflexivity.
  - intros Eb N. rewrite Eb, Z.eqb_refl. destruct (snd (ofMat sym r) =? snd (ofMat sym c)) eqn:F; [exfalso|reflexivity].
    apply N. unfold b1, b2 in Eb. destruct sym; cbn [ofMat fst snd matSize] in *; [|exact Eb].
    rewrite (Z.div_mod r 3), (Z.div_mod c 3) by lia. lia.
Qed.
Print Assumptions C40_matrix_after_set.
Theorem C40_wrong_shape : forall sym pop n L high calcs calcs' states states' lw S, calcs <> calcs' \/ states <> states' -> setLinewidths sym pop n L high calcs calcs' states states' lw S = Err.
Proof. intros. unfold setLinewidths. destruct (calcs' =? calcs) eqn:E1; [|reflexivity]. destruct (states' =? states) eqn:E2; [|reflexivity]. lia. Qed.
Print Assumptions C40_wrong_shape.
(** missing: a constant relaxation time hides what was set *)
Theorem C40_constant_time_refuted : forall pop electron c S p, getLinewidths pop electron (Some c) S p = Ok (fun _ => c).
Proof. reflexivity. Qed.
Print Assumptions C40_constant_time_refuted.
(** missing: electrons outside the Omega representation can be set and not read *)
Theorem C40_electrons_refuted : forall sym pop n L high calcs states lw S p, smOmega S = false ->
  exists S', setLinewidths sym pop n L high calcs calcs states states lw S = Ok S' /\ getLinewidths pop true None S' p = Err.
Proof. intros sym pop n L high calcs states lw S p H. unfold setLinewidths. rewrite !Z.eqb_refl. cbn [negb]. eexists. split; [reflexivity|]. unfold getLinewidths. cbn [smOmega]. rewrite H. reflexivity. Qed.
Print Assumptions C40_electrons_refuted.
Example C40_ex : exists L S', mkLayout 1 3 3 0 0 0 0 = Ok L /\
  setLinewidths true (fun _ => 2%R) 1 L true 1 1 1 1 (fun _ => 5%R) {| smDiag := fun _ _ => 512%R; smPart := fun _ _ _ => 7%R; smOmega := false |} = Ok S' /\
  indicesAreLocal L (0, 0) 1 2 = true /\ smPart S' (0, 0) 1 2 = 0%R /\ smPart S' (0, 0) 2 2 = 10%R.
Proof.
  exists {| lRows := 3; lCols := 3; bsRows := 3; bsCols := 3; npRows := 1; npCols := 1 |}. eexists. split; [reflexivity|]. split; [reflexivity|]. split; [reflexivity|]. cbn [smPart smOmega]. rewrite !replace_elem by (cbn; lia).
  match goal with |- context[indicesAreLocal ?l ?p 1 2] => replace (indicesAreLocal l p 1 2) with true by (vm_compute; reflexivity); replace (indicesAreLocal l p 2 2) with true by (vm_compute; reflexivity) end.
  cbn [andb ofMat fst snd]. change (1 / 3) with 0. change (2 / 3) with 0. change (1 mod 3) with 1. change (2 mod 3) with 2. cbn [Z.eqb Pos.eqb]. split; [reflexivity|lra].
Qed.
