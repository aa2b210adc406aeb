(** Property theorems for the course of a transport run: C150. *)
From Coq Require Import String Ascii QArith Sorting.Sorted.
From Verif Require Import Base BaseLemmas M_points M_context L_context M_run S_run L_run.
From Coq Require Import Lia.
Open Scope Z_scope.

Lemma and_false a b : a && b = false <-> (a = true -> b = false).
Proof. destruct a, b; cbn; intuition discriminate. Qed.
Lemma nan_iff x : isNaN x = true <-> crt x = None.
Proof. unfold isNaN. destruct (crt x); intuition discriminate. Qed.
Lemma interaction_iff x : negb (fc3 x) && negb (elph x) && negb (isNaN x) = false <-> fc3 x = true \/ elph x = true \/ crt x = None.
Proof. rewrite <- nan_iff. destruct (fc3 x), (elph x), (isNaN x); cbn; intuition discriminate. Qed.
Ltac atoms := rewrite ?and_false, ?orb_false_iff, ?negb_false_iff, ?Z.eqb_eq, ?Z.eqb_neq, ?Z.ltb_ge, ?wanted_asks, ?nan_iff.
Lemma phonon_does : forall x, does (phononTransport x) (phononFiles x) (phononAccepted x).
Proof.
  intros x. unfold phononTransport, setup, phononElectron, phononRTA, phononChecks, symmetrization, ominiRun, variationalRun, phononRelaxons, a2Omega, diagonalize.
  destruct (constantRTA x) eqn:K.
  all: eapply does_weaken'; [doT | | |].
  1, 4: unfold phononFiles; rewrite ?ifAsked_wanted; destruct (_ && _ && _ && _); destruct (elph x), (wanted x Iterative), (wanted x Variational), (wanted x Relaxons), (useSymmetries x);
    first [exists []; reflexivity | exists [str! "relaxons_phonon_viscosity.json"]; reflexivity].
  1, 3: intros H; unfold phononFiles; rewrite ?ifAsked_wanted; destruct (_ && _ && _ && symmetrizeMatrix x); destruct (elph x), (wanted x Iterative), (wanted x Variational), (wanted x Relaxons), (useSymmetries x); try reflexivity;
    exfalso; cbn [andb negb] in H; intuition discriminate.
  all: rewrite interaction_iff; atoms.
  all: assert (KP : ~ positiveTime x \/ positiveTime x) by (rewrite <- constant_time, K; first [right; reflexivity | left; discriminate]).
  all: rewrite <- constant_time, K in KP.
  - split.
    + intros H. constructor; try tauto. intros A. exfalso. destruct H as (_ & H). apply H in A. destruct A as ((((((((_ & A & _) & _) & _) & _) & _) & _) & _) & _). discriminate.
    + intros []. assert (NR : ~ asks x Relaxons). { intros A. destruct (pa_relaxons A) as (_ & _ & N & _). apply N. apply constant_time. exact K. } tauto.
  - assert (C1 : (inMemory x = true -> (1 <? calcs x) = false) <-> (inMemory x = true -> calcs x <= 1)) by (rewrite Z.ltb_ge; tauto).
    assert (NP : ~ positiveTime x) by (rewrite <- constant_time, K; discriminate).
    split.
    + intros H. constructor; tauto.
    + intros []. assert (inMemory x = true -> calcs x <= 1) by (intros M; rewrite (pa_memory M); lia). tauto.
Qed.
Lemma electron_does : forall x, does (electronTransport x) (electronFiles x) (electronAccepted x).
Proof.
  intros x. unfold electronTransport, setup, electronRTA, electronChecks, symmetrization, ominiRun, variationalRun, electronRelaxons, diagonalize.
  assert (KN : constantRTA x = true -> crt x <> None) by (unfold constantRTA; destruct (crt x); discriminate).
  assert (PT : constantRTA x = true <-> positiveTime x) by apply constant_time.
  destruct (isNaN x) eqn:N; cbn [negb].
  - assert (CN : crt x = None) by (apply nan_iff; exact N). destruct (constantRTA x) eqn:K; [exfalso; exact (KN eq_refl CN)|].
    assert (NP : ~ positiveTime x) by (rewrite <- PT; discriminate).
    eapply does_weaken'; [doT | | |].
    + unfold electronFiles; rewrite CN, ?ifAsked_wanted; destruct (_ && _ && _ && _); destruct (wanted x Iterative), (wanted x Variational), (wanted x Relaxons), (useSymmetries x);
        first [exists []; reflexivity | exists [str! "relaxons_electron_viscosity.json"]; reflexivity].
    + intros H; unfold electronFiles; rewrite CN, ?ifAsked_wanted; destruct (_ && _ && _ && symmetrizeMatrix x); destruct (wanted x Iterative), (wanted x Variational), (wanted x Relaxons), (useSymmetries x); try reflexivity;
        exfalso; cbn [andb negb] in H; intuition discriminate.
    + atoms. assert (C1 : (inMemory x = true -> (1 <? calcs x) = false) <-> (inMemory x = true -> calcs x <= 1)) by (rewrite Z.ltb_ge; tauto).
      split; [intros H; constructor; tauto | intros []].
      assert (inMemory x = true -> calcs x <= 1) by (intros M; rewrite (ea_memory_one CN M); lia). tauto.
  - assert (CN : crt x <> None) by (rewrite <- nan_iff, N; discriminate).
    destruct (constantRTA x) eqn:K; (eapply does_weaken'; [doT | | |]).
    1, 4: unfold electronFiles; destruct (crt x); [exists []; reflexivity | exfalso; apply CN; reflexivity].
    1, 3: intros _; unfold electronFiles; destruct (crt x); [reflexivity | exfalso; apply CN; reflexivity].
    + assert (positiveTime x) by (apply PT; reflexivity). split; [intros H0; constructor; tauto | tauto].
    + assert (NP : ~ positiveTime x) by (rewrite <- PT; discriminate). atoms.
      assert (C1 : (inMemory x = true -> (1 <? calcs x) = false) <-> (inMemory x = true -> calcs x <= 1)) by (rewrite Z.ltb_ge; tauto).
      split; [intros H; constructor; tauto | intros []; tauto].
Qed.

(** C150. A phonon transport run reaches its end exactly when the input is acceptable: with the matrix in memory there is one
    calculation, the variational and relaxon solvers come without symmetries, relaxons with the matrix in memory and a computed
    matrix, electrons with one chemical potential, equal cells and enough states; and every requested iterative solver converges. *)
Theorem C150_phonon_accepted : forall x, snd (phononTransport x) = true <-> phononAccepted x.
Proof. intros x. exact (proj1 (phonon_does x)). Qed.
Print Assumptions C150_phonon_accepted.
Theorem C150_electron_accepted : forall x, snd (electronTransport x) = true <-> electronAccepted x.
Proof. intros x. exact (proj1 (electron_does x)). Qed.
Print Assumptions C150_electron_accepted.
(** A run that reaches its end has written the files of the relaxation time approximation and of every requested solver, each once
    and no other; a run that is stopped leaves the first ones of these, in the same order. *)
Theorem C150_phonon_files : forall x, prefix (filesOf (fst (phononTransport x))) (phononFiles x) /\
  (snd (phononTransport x) = true -> filesOf (fst (phononTransport x)) = phononFiles x).
Proof. intros x. exact (proj2 (phonon_does x)). Qed.
Print Assumptions C150_phonon_files.
Theorem C150_electron_files : forall x, prefix (filesOf (fst (electronTransport x))) (electronFiles x) /\
  (snd (electronTransport x) = true -> filesOf (fst (electronTransport x)) = electronFiles x).
Proof. intros x. exact (proj2 (electron_does x)). Qed.
Print Assumptions C150_electron_files.
Fixpoint nodupb (l : list str) : bool := match l with [] => true | a :: r => negb (existsb (streq a) r) && nodupb r end.
Lemma nodupb_ok l : nodupb l = true -> NoDup l.
Proof.
  induction l as [|a r IH]; cbn [nodupb]; intros H; [constructor|]. apply andb_true_iff in H. destruct H as (H & K). constructor; [|exact (IH K)].
  intros I. apply negb_true_iff in H. assert (existsb (streq a) r = true) by (apply existsb_exists; exists a; split; [exact I | apply streq_refl]). congruence.
Qed.
Theorem C150_distinct : forall x, NoDup (phononFiles x) /\ NoDup (electronFiles x).
Proof.
  intros x. split; unfold phononFiles, electronFiles; rewrite ?ifAsked_wanted.
  - destruct (elph x), (wanted x Iterative), (wanted x Variational), (wanted x Relaxons); apply nodupb_ok; vm_compute; reflexivity.
  - destruct (crt x); [apply nodupb_ok; vm_compute; reflexivity|]. destruct (wanted x Iterative), (wanted x Variational), (wanted x Relaxons); apply nodupb_ok; vm_compute; reflexivity.
Qed.
Print Assumptions C150_distinct.

(** The order of the uses of the matrix does not depend on the order of the names in the input: it is computed, symmetrized,
    multiplied by the iterative and then by the variational solver, rescaled, used for the real-space solver and at last
    diagonalised, after which it is not used any more. *)
Theorem C150_order : forall x, StronglySorted Z.le (stages (fst (phononTransport x))) /\ StronglySorted Z.le (stages (fst (electronTransport x))) /\
  ~ In (Product Relaxons) (fst (phononTransport x)) /\ ~ In (Product Relaxons) (fst (electronTransport x)).
Proof.
  intros x.
  assert (P : within 0 7 (fst (phononTransport x))).
  { unfold phononTransport. apply (within_then 0 4 7); [lia| |].
    - apply (within_then 0 3 4); [lia| |].
      + apply (within_then 0 2 3); [lia| |].
        * apply (within_then 0 1 2); [lia| |].
          -- apply (within_then 0 1 1); [lia| |].
             ++ apply (within_then 0 1 1); [lia| |].
                ** apply (within_then 0 0 1); [lia| |].
                   --- apply within_same; [stT|]. unfold setup. destruct (constantRTA x); stT.
                   --- unfold phononElectron. apply (within_weaken 1 1); [lia | lia | apply within_when; stT].
                ** unfold phononRTA. stT.
             ++ unfold phononChecks. stT.
          -- unfold symmetrization. apply (within_weaken 2 2); [lia | lia | stT].
        * unfold ominiRun. apply (within_weaken 3 3); [lia | lia | stT].
      + unfold variationalRun. apply (within_weaken 4 4); [lia | lia | stT].
    - apply within_when. unfold phononRelaxons, a2Omega, diagonalize.
      apply (within_then 4 7 7); [lia| |apply within_when, within_wrote]. apply (within_then 4 7 7); [lia| |apply within_wrote]. apply (within_then 4 7 7); [lia| |apply within_wrote].
      apply (within_then 4 6 7); [lia| |]. 2: { apply (within_weaken 7 7); [lia | lia | stT]. } apply (within_then 4 6 6); [lia| |apply within_wrote].
      apply (within_then 4 5 6); [lia| |]. 2: { apply (within_weaken 6 6); [lia | lia | stT]. } apply (within_weaken 5 5); [lia | lia | stT]. }
  assert (E : within 0 7 (fst (electronTransport x))).
  { unfold electronTransport. apply (within_then 0 0 7); [lia| |].
    - apply within_same; [unfold setup; destruct (constantRTA x); stT | unfold electronRTA; stT].
    - destruct (negb (isNaN x)); [apply within_skip|].
      apply (within_then 0 4 7); [lia| |].
      + apply (within_then 0 3 4); [lia| |].
        * apply (within_then 0 2 3); [lia| |].
          -- apply (within_then 0 0 2); [lia | unfold electronChecks; stT |]. unfold symmetrization. apply (within_weaken 2 2); [lia | lia | stT].
          -- unfold ominiRun. apply (within_weaken 3 3); [lia | lia | stT].
        * unfold variationalRun. apply (within_weaken 4 4); [lia | lia | stT].
      + apply within_when. unfold electronRelaxons, diagonalize.
        apply (within_then 4 7 7); [lia| |apply within_when, within_wrote]. apply (within_then 4 7 7); [lia| |apply within_wrote]. apply (within_then 4 7 7); [lia| |apply within_wrote].
        apply (within_then 4 6 7); [lia| |]. 2: { apply (within_weaken 7 7); [lia | lia | stT]. } apply (within_then 4 6 6); [lia| |apply within_wrote].
        apply (within_weaken 6 6); [lia | lia | stT]. }
  assert (N : forall t, within 0 7 t -> ~ In (Product Relaxons) t).
  { intros t (_ & F) I. rewrite Forall_forall in F. specialize (F 8). assert (In 8 (stages t)) by (unfold stages; apply in_flat_map; exists (Product Relaxons); split; [exact I | left; reflexivity]). specialize (F H). lia. }
  split; [exact (proj1 P)|]. split; [exact (proj1 E)|]. split; apply N; assumption.
Qed.
Print Assumptions C150_order.
(** Only the set of the solvers that are named counts: order, repetitions and unknown names change nothing. *)
Theorem C150_names : forall x y, sameSolvers x y -> phononTransport y = phononTransport x /\ electronTransport y = electronTransport x.
Proof.
  intros x y (W & E). assert (WW : forall s, wanted y s = wanted x s).
  { intros s. destruct (wanted y s) eqn:A; destruct (wanted x s) eqn:B; try reflexivity; [apply wanted_asks, W, wanted_asks in A; congruence | apply wanted_asks, W, wanted_asks in B; congruence]. }
  unfold phononTransport, electronTransport, setup, phononElectron, phononRTA, phononChecks, electronChecks, symmetrization, ominiRun, variationalRun, phononRelaxons, electronRelaxons, a2Omega, diagonalize, iterations, constantRTA, isNaN.
  rewrite !WW. rewrite E. cbn [crt fc3 elph inMemory useSymmetries symmetrizeMatrix maxIterations calcs chems chemsEl sameCell statesEl procs relaxons states conv]. split; reflexivity.
Qed.
Print Assumptions C150_names.

(** With no constant relaxation time every product uses a matrix that was computed from couplings that were read; an electron run
    with a constant time uses no matrix at all. *)
Theorem C150_matrix_computed : forall x, crt x = None -> computedFirst (fst (phononTransport x)) /\ computedFirst (fst (electronTransport x)).
Proof.
  intros x N. assert (K : constantRTA x = false) by (unfold constantRTA; rewrite N; reflexivity).
  assert (B : forall l, snd (setup l x) = true -> In (Build l) (fst (setup l x))).
  { intros l. unfold setup. rewrite K. unfold andThen, stopIf. cbn [fst snd]. destruct (inMemory x && (1 <? calcs x)); cbn [negb]; [discriminate | intros _; left; reflexivity]. }
  assert (NS : forall a l, isProduct a -> ~ In a (fst (setup l x))).
  { intros a l (s & ->). unfold setup. rewrite K. unfold andThen, stopIf. cbn [fst snd]. destruct (inMemory x && (1 <? calcs x)); cbn; intuition discriminate. }
  split; intros a A I.
  - assert (S2 : forall b, snd (stopIf b ;; setup true x)%run = true -> In (Build true) (fst (stopIf b ;; setup true x)%run)).
    { intros b H. unfold andThen in *. destruct (snd (stopIf b)) eqn:E; [|rewrite E in H; discriminate]. cbn [fst snd] in *. rewrite in_app_iff. right. exact (B true H). }
    unfold phononTransport in *.
    apply in_then in I. destruct I as [I | (H & _)]; [|apply in_then_l; do 6 (apply in_then_l || idtac); do 6 apply snd_then in H; exact (S2 _ H)].
    apply in_then_l. apply in_then in I. destruct I as [I | (H & _)]; [|do 6 apply in_then_l; do 5 apply snd_then in H; exact (S2 _ H)].
    apply in_then_l. apply in_then in I. destruct I as [I | (H & _)]; [|do 5 apply in_then_l; do 4 apply snd_then in H; exact (S2 _ H)].
    apply in_then_l. apply in_then in I. destruct I as [I | (H & _)]; [|do 4 apply in_then_l; do 3 apply snd_then in H; exact (S2 _ H)].
    apply in_then_l. apply in_then in I. destruct I as [I | (H & _)]; [|do 3 apply in_then_l; do 2 apply snd_then in H; exact (S2 _ H)].
    apply in_then_l. apply in_then in I. destruct I as [I | (H & _)]; [|do 2 apply in_then_l; do 1 apply snd_then in H; exact (S2 _ H)].
    apply in_then_l. apply in_then in I. destruct I as [I | (H & _)]; [|do 1 apply in_then_l; exact (S2 _ H)].
    exfalso. apply in_then in I. destruct I as [[] | (_ & I)]. exact (NS a true A I).
  - unfold electronTransport in *. assert (NN : isNaN x = true) by (apply nan_iff; exact N). rewrite NN in *.
    apply in_then in I. destruct I as [I | (H & _)]; [|do 2 apply in_then_l; apply snd_then in H; exact (B true H)].
    apply in_then_l. apply in_then in I. destruct I as [I | (H & _)]; [exfalso; exact (NS a true A I) | apply in_then_l; exact (B true H)].
Qed.
Print Assumptions C150_matrix_computed.
(** An electron run with a constant relaxation time makes no product with the matrix, whatever solvers are asked for. *)
Theorem C150_electron_constant : forall x a, crt x <> None -> isProduct a -> ~ In a (fst (electronTransport x)).
Proof.
  intros x a N (s & ->) I. unfold electronTransport in I. assert (NN : isNaN x = false) by (destruct (isNaN x) eqn:E; [apply nan_iff in E; contradiction | reflexivity]). rewrite NN in I. cbn [negb] in I.
  apply in_then in I. destruct I as [I | (_ & [])]. apply in_then in I. destruct I as [I | (_ & I)].
  - unfold setup in I. destruct (constantRTA x); [destruct I|]. unfold andThen, stopIf, act in I. cbn [fst snd] in I. destruct (inMemory x && (1 <? calcs x)); cbn in I; intuition discriminate.
  - unfold electronRTA, andThen, act in I. cbn [fst snd app] in I. cbn [In] in I. intuition discriminate.
Qed.
Print Assumptions C150_electron_constant.

(** an ordinary input: [time] constant relaxation time, [names] solvers, [most] iterations, converged at iteration 3 *)
Definition plain (time : option Q) (interaction : bool) (names : list str) (memory : bool) (most : Z) : input :=
  {| crt := time; fc3 := interaction; elph := false; solvers := names; inMemory := memory; useSymmetries := false; symmetrizeMatrix := true;
     maxIterations := most; calcs := 1; chems := 1; chemsEl := 1; sameCell := true; statesEl := 100; procs := 4; relaxons := 0; states := 50;
     conv := fun _ k => 3 <=? k |}.
(** A phonon run with a constant relaxation time goes on to the solvers although no matrix was computed: products are taken with a
    matrix that is empty (in memory) or built with a smearing that was never set. *)
Theorem C150_phonon_constant_refuted : forall memory, exists x, crt x = Some (10 # 1)%Q /\ inMemory x = memory /\
  snd (phononTransport x) = true /\ In (Product Iterative) (fst (phononTransport x)) /\ (forall b, ~ In (Build b) (fst (phononTransport x))).
Proof.
  intros memory. exists (plain (Some (10 # 1)%Q) true [str! "iterative"] memory 50). split; [reflexivity|]. split; [reflexivity|].
  destruct memory; (split; [vm_compute; reflexivity|]); (split; [vm_compute; tauto|]); intros b; vm_compute; intuition discriminate.
Qed.
Print Assumptions C150_phonon_constant_refuted.
(** The check meant to ask for an interaction file unless the relaxation time is constant does the opposite: a constant time
    without files is refused, no constant time without files is let through. *)
Theorem C150_interaction_check_refuted : phononTransport (plain (Some (10 # 1)%Q) false [] false 50) = ([], false) /\
  snd (phononTransport (plain None false [] false 50)) = true.
Proof. split; vm_compute; reflexivity. Qed.
Print Assumptions C150_interaction_check_refuted.
(** A constant time that is zero or negative is not refused: the electron matrix is then computed from couplings that were not read. *)
Theorem C150_nonpositive_time_refuted : exists x, crt x = Some (-1 # 1)%Q /\ snd (electronTransport x) = true /\ In (Build false) (fst (electronTransport x)).
Proof. exists (plain (Some (-1 # 1)%Q) true [] false 50). split; [reflexivity|]. split; [vm_compute; reflexivity | vm_compute; tauto]. Qed.
Print Assumptions C150_nonpositive_time_refuted.
(** With no iterations allowed the file of the iterative solver is written without a single product with the matrix. *)
Theorem C150_no_iterations_refuted : exists x, maxIterations x = 0 /\ snd (phononTransport x) = true /\
  In (str! "omini_phonon_thermal_cond.json") (filesOf (fst (phononTransport x))) /\ (forall s, ~ In (Product s) (fst (phononTransport x))).
Proof.
  exists (plain None true [str! "iterative"] true 0). split; [reflexivity|]. split; [vm_compute; reflexivity|]. split; [vm_compute; tauto|].
  intros s. vm_compute. intuition discriminate.
Qed.
Print Assumptions C150_no_iterations_refuted.
(** A misspelt solver is not refused: the run ends with the relaxation time approximation alone. *)
Theorem C150_misspelt_refuted : exists x, solvers x = [str! "Relaxons"; str! "iteratve"] /\ snd (phononTransport x) = true /\
  filesOf (fst (phononTransport x)) = phononFiles (plain None true [] true 50).
Proof. exists (plain None true [str! "Relaxons"; str! "iteratve"] true 50). split; [reflexivity|]. split; vm_compute; reflexivity. Qed.
Print Assumptions C150_misspelt_refuted.
(** all three solvers, named in reverse order: accepted, thirteen uses of the matrix *)
Example C150_ex : phononAccepted (plain None true [str! "relaxons"; str! "variational"; str! "iterative"] true 50) /\
  stages (fst (phononTransport (plain None true [str! "relaxons"; str! "variational"; str! "iterative"] true 50))) = [0; 2; 3; 3; 3; 3; 4; 4; 4; 4; 4; 4; 4; 4; 4; 5; 6; 7] /\
  snd (electronTransport (plain None true [str! "iterative"] false 3)) = false /\
  filesOf (fst (electronTransport (plain None true [str! "iterative"] false 3))) = electronFiles (plain None true [] false 3) /\
  sameSolvers (plain None true [str! "relaxons"; str! "iterative"] true 50) (plain None true [str! "iterative"; str! "none"; str! "relaxons"] true 50).
Proof.
  split; [apply C150_phonon_accepted; vm_compute; reflexivity|]. split; [vm_compute; reflexivity|]. split; [vm_compute; reflexivity|]. split; [vm_compute; reflexivity|].
  split; [|reflexivity]. intros s. unfold asks. cbn [solvers plain]. destruct s; cbn [nameOf]; (split; intros H); cbn [In] in *; intuition; discriminate.
Qed.
