(** C158: the matrices of band structures behave as values. *)
From Verif Require Import Base BaseLemmas M_container S_container L_container.
Open Scope Z_scope.

(** Whatever the order in which matrices are made, assigned, written and destroyed, serial or distributed: nothing undefined happens, and every variable
    shows its own value. *)
Theorem C158_values : forall (T : Type) (zero : T) mine ops V, meansAll zero mine nothing ops V ->
  exists s, run zero mine start ops = Ok s /\ forall x v, V x = Some v -> shows zero mine s x v.
Proof.
  intros T zero mine ops V M. destruct (run_ok zero mine ops start nothing V start_inv M) as (s & E & _ & R). exists s. split; [exact E|].
  intros x v VX. apply rep_shows. specialize (R x). now rewrite VX in R.
Qed.
Print Assumptions C158_values.
(** Every block of memory belongs to exactly one matrix that exists; when all matrices are destroyed, all memory is free. *)
Theorem C158_memory : forall (T : Type) (zero : T) mine ops V, meansAll zero mine nothing ops V ->
  exists s, run zero mine start ops = Ok s /\ (forall x, objs s x = None <-> V x = None) /\
    (forall a, heap s a <> None -> exists x o, objs s x = Some o /\ (oP o = Some a \/ oM o = Some a)) /\
    (forall a x y o o', objs s x = Some o -> objs s y = Some o' -> oP o = Some a \/ oM o = Some a -> oP o' = Some a \/ oM o' = Some a -> heap s a <> None /\ x = y) /\
    ((forall x, V x = None) -> forall a, heap s a = None).
Proof.
  intros T zero mine ops V M. destruct (run_ok zero mine ops start nothing V start_inv M) as (s & E & (M1 & M2 & M3 & M4) & R). exists s. split; [exact E|].
  assert (O : forall x, objs s x = None <-> V x = None).
  { intro x. specialize (R x). destruct (V x) as [v|]; [|tauto]. destruct R as (o & a & b & OX & _). split; [congruence|discriminate]. }
  assert (W : forall x o a, objs s x = Some o -> oP o = Some a \/ oM o = Some a -> exists k, owns s x k a).
  { intros x o a OX [H|H]; [exists true|exists false]; exists o; split; assumption. }
  assert (G : forall a, heap s a <> None -> exists x o, objs s x = Some o /\ (oP o = Some a \/ oM o = Some a)).
  { intros a A. destruct (M3 a A) as (x & k & o & OX & P). exists x, o. split; [exact OX|]. destruct k; [left|right]; exact P. }
  split; [exact O|]. split; [exact G|]. split.
  - intros a x y o o' OX OY H H'. destruct (W x o a OX H) as (k & K). destruct (W y o' a OY H') as (k' & K'). split; [eapply M1; exact K|]. now destruct (M2 _ _ _ _ _ K K').
  - intros VN a. destruct (heap s a) as [b|] eqn:HA; [|reflexivity]. destruct (G a) as (x & o & OX & _); [congruence|]. specialize (VN x). apply O in VN. congruence.
Qed.
Print Assumptions C158_memory.

(** A copied band structure holds the same energies, velocities and eigenvectors in matrices of its own; nothing else changes. *)
Theorem C158_bands : forall (T : Type) (zero : T) mine ops V new that e v u, meansAll zero mine nothing ops V -> holdBands V that e v u -> noBands V new -> distinct new ->
  exists V', meansAll zero mine nothing (ops ++ copyBands new that) V' /\ holdBands V' new e v u /\ (forall x, ~ partOf new x -> V' x = V x) /\
  exists s, run zero mine start (ops ++ copyBands new that) = Ok s /\ shows zero mine s (energies new) e /\ shows zero mine s (velocities new) v /\ shows zero mine s (eigenvectors new) u.
Proof.
  intros T zero mine ops V new that e v u M (HE & HV & HU) (NE & NV & NU) (D1 & D2 & D3).
  assert (N : forall x y w, V x = Some w -> V y = None -> x <> y) by (intros x y w A B C; subst; congruence).
  assert (P : forall (W : values T) x m, becomes W (put W x m) x m) by (intros W x m; split; [apply put_same|intros y; apply put_other]).
  pose (z := {| mDist := false; mRows := 0; mCols := 0; mVal := fun _ _ : Z => zero |}).
  pose (V1 := put V (energies new) (Some z)). pose (V2 := put V1 (velocities new) (Some z)). pose (V3 := put V2 (eigenvectors new) (Some z)).
  pose (V4 := put V3 (energies new) (Some e)). pose (V5 := put V4 (velocities new) (Some v)). pose (V6 := put V5 (eigenvectors new) (Some u)).
  assert (OTH : forall (W : values T) x m y w, W y = Some w -> y <> x -> put W x m y = Some w) by (intros W x m y w A B; now rewrite put_other).
  assert (Q : meansAll zero mine V (copyBands new that) V6).
  { unfold copyBands. apply meansAll_cons with V1; [apply means_default; [exact NE|apply P]|].
    apply meansAll_cons with V2; [apply means_default; [unfold V1; rewrite put_other by congruence; exact NV|apply P]|].
    apply meansAll_cons with V3; [apply means_default; [unfold V2, V1; rewrite !put_other by congruence; exact NU|apply P]|].
    apply meansAll_cons with V4; [eapply means_assign with (v := z) (w := e); [unfold V3, V2, V1; rewrite !put_other by congruence; apply put_same| |apply P]|].
    { unfold V3, V2, V1. rewrite !put_other; [exact HE| | |]; eapply N; eassumption. }
    apply meansAll_cons with V5; [eapply means_assign with (v := z) (w := v); [unfold V4, V3, V2; rewrite !put_other by congruence; apply put_same| |apply P]|].
    { unfold V4, V3, V2, V1. rewrite !put_other; [exact HV| | | |]; eapply N; eassumption. }
    apply meansAll_cons with V6; [eapply means_assign with (v := z) (w := u); [unfold V5, V4, V3; rewrite !put_other by congruence; apply put_same| |apply P]|apply meansAll_nil].
    unfold V5, V4, V3, V2, V1. rewrite !put_other; [exact HU| | | | |]; eapply N; eassumption. }
  assert (HB : holdBands V6 new e v u).
  { split; [unfold V6, V5, V4; rewrite !put_other by congruence; apply put_same|]. split; [unfold V6, V5; rewrite put_other by congruence; apply put_same|unfold V6; apply put_same]. }
  assert (A := meansAll_app zero mine ops (copyBands new that) nothing V V6 M Q). exists V6. split; [exact A|]. split; [exact HB|]. split.
  - intros x NX. unfold partOf in NX. unfold V6, V5, V4, V3, V2, V1. rewrite !put_other by tauto. reflexivity.
  - destruct (C158_values T zero mine _ V6 A) as (s & E & R). destruct HB as (B1 & B2 & B3). exists s. split; [exact E|]. repeat split; now apply R.
Qed.
Print Assumptions C158_bands.

(** A new band structure of nBands bands at nPoints points has matrices of zeros: the energies; the velocities and the eigenvectors if asked for, else
    empty ones. Nothing else changes, and destroying it gives back everything. For phonons, nBands is a multiple of 3. *)
Theorem C158_made : forall (T : Type) (zero : T) mine ops V new t nBands nPoints (phonon withVelocities withEigenvectors dist : bool),
  meansAll zero mine nothing ops V -> noBands V new -> distinct new -> V t = None -> ~ partOf new t -> 0 <= nBands -> 0 <= nPoints ->
  (phonon = true -> exists nAtoms, nBands = 3 * nAtoms) -> (dist = false -> 3 * nBands * nBands * nPoints <= 2147483647) ->
  exists V' V'', meansAll zero mine nothing (ops ++ makeBands new t nBands nPoints phonon withVelocities withEigenvectors dist) V' /\
    holdBands V' new (zeros zero dist nBands nPoints)
      (if withVelocities then zeros zero dist (3 * nBands * nBands) nPoints else zeros zero false 0 0)
      (if withEigenvectors then zeros zero dist (nBands * nBands) nPoints else zeros zero false 0 0) /\
    (forall x, ~ partOf new x -> V' x = V x) /\
    meansAll zero mine nothing ((ops ++ makeBands new t nBands nPoints phonon withVelocities withEigenvectors dist) ++ destroyBands new) V'' /\ (forall x, V'' x = V x).
Proof.
  intros T zero mine ops V new t nB nP ph wv we d M (NE & NV & NU) (D1 & D2 & D3) VT NT HB HP HPH HS. unfold partOf in NT.
  assert (P : forall (W : values T) x m, becomes W (put W x m) x m) by (intros W x m; split; [apply put_same|intros y; apply put_other]).
  assert (SQ : 0 <= nB * nB) by nia.
  assert (RW : (if ph then 3 * Z.quot nB 3 * nB else nB * nB) = nB * nB).
  { destruct ph; [|reflexivity]. destruct (HPH eq_refl) as (k & ->). rewrite (Z.mul_comm 3 k), Z.quot_mul by lia. ring. }
  pose (z := zeros zero false 0 0).
  assert (FILL : forall (W : values T) x rows, W t = None -> x <> t -> W x = Some z -> 0 <= rows -> rows <= 3 * nB * nB \/ rows <= nB -> exists W', meansAll zero mine W [New t rows nP d; Assign x t; Destroy t] W' /\ W' x = Some (zeros zero d rows nP) /\ W' t = None /\ forall y, y <> x -> W' y = W y).
  { intros W x rows WT NX WX HR HR'. assert (R3 : rows <= 3 * nB * nB) by (destruct HR' as [H|H]; [exact H|nia]). pose (m := zeros zero d rows nP). pose (W1 := put W t (Some m)). pose (W2 := put W1 x (Some m)). exists (put W2 t None). split.
    - apply meansAll_cons with W1; [apply means_new; [exact WT|exact HR|exact HP|intro DF; specialize (HS DF); apply Z.le_trans with (3 * nB * nB * nP); [apply Z.mul_le_mono_nonneg_r; [exact HP|exact R3]|exact HS]|apply P]|].
      apply meansAll_cons with W2; [eapply means_assign with (v := z) (w := m); [unfold W1; rewrite put_other by congruence; exact WX|unfold W1; apply put_same|apply P]|].
      apply meansAll_cons with (put W2 t None); [eapply means_destroy with (v := m); [unfold W2, W1; rewrite put_other by congruence; apply put_same|apply P]|apply meansAll_nil].
    - split; [unfold W2; rewrite put_other by congruence; apply put_same|]. split; [apply put_same|]. intros y N. destruct (Z.eq_dec y t) as [->|NY]; [rewrite put_same; now rewrite WT|]. unfold W2, W1. rewrite !put_other by congruence. reflexivity. }
  pose (V1 := put V (energies new) (Some z)). pose (V2 := put V1 (velocities new) (Some z)). pose (V3 := put V2 (eigenvectors new) (Some z)).
  assert (M3 : meansAll zero mine V [Default (energies new); Default (velocities new); Default (eigenvectors new)] V3).
  { apply meansAll_cons with V1; [apply means_default; [exact NE|apply P]|].
    apply meansAll_cons with V2; [apply means_default; [unfold V1; rewrite put_other by congruence; exact NV|apply P]|].
    apply meansAll_cons with V3; [apply means_default; [unfold V2, V1; rewrite !put_other by congruence; exact NU|apply P]|apply meansAll_nil]. }
  assert (T3 : V3 t = None) by (unfold V3, V2, V1; rewrite !put_other by tauto; exact VT).
  destruct (FILL V3 (energies new) nB T3) as (V4 & M4 & E4 & T4 & O4); [intro; subst; tauto|unfold V3, V2, V1; rewrite !put_other by congruence; apply put_same|exact HB|right; lia|].
  assert (G5 : exists V5, meansAll zero mine V4 (if wv then [New t (nB * nB * 3) nP d; Assign (velocities new) t; Destroy t] else []) V5 /\ V5 (velocities new) = Some (if wv then zeros zero d (3 * nB * nB) nP else z) /\ V5 t = None /\ forall y, y <> velocities new -> V5 y = V4 y).
  { assert (S4 : V4 (velocities new) = Some z) by (rewrite O4 by congruence; unfold V3, V2; rewrite put_other by congruence; apply put_same).
    destruct wv; [|exists V4; split; [apply meansAll_nil|]; split; [exact S4|]; tauto].
    destruct (FILL V4 (velocities new) (nB * nB * 3) T4) as (V5 & M5 & E5 & T5 & O5); [intro; subst; tauto|exact S4|lia|left; lia|]. exists V5. split; [exact M5|]. split; [rewrite E5; f_equal; f_equal; ring|]. tauto. }
  destruct G5 as (V5 & M5 & E5 & T5 & O5).
  assert (G6 : exists V6, meansAll zero mine V5 (if we then [New t (nB * nB) nP d; Assign (eigenvectors new) t; Destroy t] else []) V6 /\ V6 (eigenvectors new) = Some (if we then zeros zero d (nB * nB) nP else z) /\ V6 t = None /\ forall y, y <> eigenvectors new -> V6 y = V5 y).
  { assert (S5 : V5 (eigenvectors new) = Some z) by (rewrite O5, O4 by congruence; unfold V3; apply put_same).
    destruct we; [|exists V5; split; [apply meansAll_nil|]; split; [exact S5|]; tauto].
    destruct (FILL V5 (eigenvectors new) (nB * nB) T5) as (V6 & M6 & E6 & T6 & O6); [intro; subst; tauto|exact S5|lia|left; lia|]. exists V6. tauto. }
  destruct G6 as (V6 & M6 & E6 & T6 & O6).
  assert (HBD : holdBands V6 new (zeros zero d nB nP) (if wv then zeros zero d (3 * nB * nB) nP else z) (if we then zeros zero d (nB * nB) nP else z)).
  { split; [rewrite O6, O5 by congruence; exact E4|]. split; [rewrite O6 by congruence; exact E5|exact E6]. }
  assert (OTH : forall x, ~ partOf new x -> V6 x = V x). { intros x NX. unfold partOf in NX. rewrite O6, O5, O4 by tauto. unfold V3, V2, V1. rewrite !put_other by tauto. reflexivity. }
  assert (A : meansAll zero mine nothing (ops ++ makeBands new t nB nP ph wv we d) V6).
  { apply meansAll_app with V; [exact M|]. unfold makeBands. rewrite RW. apply meansAll_app with V3; [exact M3|]. apply meansAll_app with V4; [exact M4|]. apply meansAll_app with V5; [exact M5|exact M6]. }
  pose (V7 := put V6 (eigenvectors new) None). pose (V8 := put V7 (velocities new) None). pose (V9 := put V8 (energies new) None).
  exists V6, V9. split; [exact A|]. split; [exact HBD|]. split; [exact OTH|]. destruct HBD as (B1 & B2 & B3). split.
  - apply meansAll_app with V6; [exact A|]. unfold destroyBands.
    apply meansAll_cons with V7; [eapply means_destroy; [exact B3|apply P]|].
    apply meansAll_cons with V8; [eapply means_destroy; [unfold V7; rewrite put_other by congruence; exact B2|apply P]|].
    apply meansAll_cons with V9; [eapply means_destroy; [unfold V8, V7; rewrite !put_other by congruence; exact B1|apply P]|apply meansAll_nil].
  - intro x. unfold V9, V8, V7. destruct (Z.eq_dec x (energies new)) as [->|N1]; [now rewrite put_same, NE|]. rewrite (put_other _ (energies new)) by exact N1.
    destruct (Z.eq_dec x (velocities new)) as [->|N2]; [now rewrite put_same, NV|]. rewrite put_other by exact N2. destruct (Z.eq_dec x (eigenvectors new)) as [->|N3]; [now rewrite put_same, NU|]. rewrite put_other by exact N3. apply OTH. unfold partOf. tauto.
Qed.
Print Assumptions C158_made.

(** Missing, and false: a matrix cannot be copied other than by assignment. Every copy goes through a null pointer. *)
Theorem C158_copy_refuted : forall (T : Type) (zero : T) mine ops V x y v, meansAll zero mine nothing ops V -> V y = Some v -> run zero mine start (ops ++ [Copy x y]) = UB.
Proof.
  intros T zero mine ops V x y v M VY. destruct (run_ok zero mine ops start nothing V start_inv M) as (s & E & _ & R). specialize (R y). rewrite VY in R. destruct R as (o & a & b & OY & DY & PY & HY & _).
  unfold run in *. assert (G : forall l s0, foldM (exec zero mine) l s0 = Ok s -> foldM (exec zero mine) (l ++ [Copy x y]) s0 = exec zero mine s (Copy x y)).
  { induction l as [|q l IH]; intros s0 F; cbn [foldM app] in *; [injection F as ->; now destruct (exec _ _ _ _)|]. destruct (exec zero mine s0 q) as [s1| |]; try discriminate. cbn [bind] in *. exact (IH s1 F). }
  rewrite (G ops start E). cbn [exec]. unfold variable. rewrite OY. cbn [bind]. unfold copyConstruct. assert (U : inUse o = Some a) by (unfold inUse; rewrite DY; exact PY). rewrite U. cbn [deref]. rewrite HY. cbn [bind]. unfold inUse. cbn [oDist oP oM]. now destruct (oDist o).
Qed.
Print Assumptions C158_copy_refuted.
(** So no sum, difference, multiple, product or diagonalisation of matrices ever returns: each makes a copy of its first operand. *)
Theorem C158_arithmetic_refuted : forall (T : Type) f s (z x y : Z) (s' : state T), compound f s z x y <> Ok s' /\ product f s z x y <> Ok s'.
Proof.
  assert (C : forall (T : Type) (s : state T) z o, copyConstruct s z o = UB).
  { intros T s z o. unfold copyConstruct. destruct (inUse o) as [a|]; cbn [deref]; [|reflexivity]. destruct (heap s a) as [b|]; [|reflexivity]. cbn [bind]. unfold inUse. cbn [oDist oP oM]. now destruct (oDist o). }
  intros T f s z x y s'. unfold compound, product. destruct (variable s x) as [o| |]; [|split; discriminate|split; discriminate]. destruct (variable s y) as [t| |]; [|split; discriminate|split; discriminate]. cbn [bind]. split.
  - destruct (deref s (inUse o)) as [b| |]; try discriminate. cbn [bind]. destruct (deref s (if oDist o then oP t else oM t)) as [c| |]; try discriminate. cbn [bind]. destruct (f b c) as [d| |]; try discriminate. cbn [bind]. destruct (store s (inUse o) d) as [s1| |]; try discriminate. cbn [bind]. rewrite C. discriminate.
  - rewrite C. discriminate.
Qed.
Print Assumptions C158_arithmetic_refuted.
(** Nor can the velocities of a mesh be stored on each process when they are more than 2147483647 numbers. *)
Theorem C158_large_refuted : forall (T : Type) (zero : T) mine new t nBands nPoints phonon withEigenvectors, distinct new -> ~ partOf new t -> 0 < nBands -> 0 < nPoints -> nBands * nPoints <= 2147483647 ->
  2147483647 < nBands * nBands * 3 * nPoints -> run zero mine start (makeBands new t nBands nPoints phonon true withEigenvectors false) = UB.
Proof.
  intros T zero mine new t nB nP ph w (D1 & D2 & D3) NT HB HP H1 H2. unfold partOf in NT.
  assert (P : forall (W : values T) x m, becomes W (put W x m) x m) by (intros W x m; split; [apply put_same|intros y; apply put_other]).
  pose (z := {| mDist := false; mRows := 0; mCols := 0; mVal := fun _ _ : Z => zero |}). pose (e := {| mDist := false; mRows := nB; mCols := nP; mVal := fun _ _ : Z => zero |}).
  pose (V1 := put nothing (energies new) (Some z)). pose (V2 := put V1 (velocities new) (Some z)). pose (V3 := put V2 (eigenvectors new) (Some z)).
  pose (V4 := put V3 t (Some e)). pose (V5 := put V4 (energies new) (Some e)). pose (V6 := put V5 t None).
  set (first := [Default (energies new); Default (velocities new); Default (eigenvectors new); New t nB nP false; Assign (energies new) t; Destroy t] : list (op T)).
  assert (M : meansAll zero mine nothing first V6).
  { apply meansAll_cons with V1; [apply means_default; [reflexivity|apply P]|].
    apply meansAll_cons with V2; [apply means_default; [unfold V1; rewrite put_other by congruence; reflexivity|apply P]|].
    apply meansAll_cons with V3; [apply means_default; [unfold V2, V1; rewrite !put_other by congruence; reflexivity|apply P]|].
    apply meansAll_cons with V4; [apply means_new; [unfold V3, V2, V1; rewrite !put_other by tauto; reflexivity|lia|lia|intros _; exact H1|apply P]|].
    apply meansAll_cons with V5; [eapply means_assign with (v := z) (w := e); [unfold V4, V3, V2, V1; rewrite !put_other by (congruence || (intro; subst; tauto)); apply put_same|unfold V4; apply put_same|apply P]|].
    apply meansAll_cons with V6; [eapply means_destroy with (v := e); [unfold V5, V4; rewrite put_other by tauto; apply put_same|apply P]|apply meansAll_nil]. }
  destruct (run_ok zero mine first start nothing V6 start_inv M) as (s & E & _).
  unfold run in *. unfold makeBands. cbn [app].
  assert (G : forall l l' s0, foldM (exec zero mine) l s0 = Ok s -> foldM (exec zero mine) (l ++ l') s0 = foldM (exec zero mine) l' s).
  { induction l as [|q l IH]; intros l' s0 F; cbn [foldM app] in *; [now injection F as ->|]. destruct (exec zero mine s0 q) as [s1| |]; try discriminate. cbn [bind] in *. exact (IH l' s1 F). }
  match goal with |- foldM _ (_ :: _ :: _ :: _ :: _ :: _ :: ?r) _ = _ => change (foldM (exec zero mine) (first ++ r) start = UB) end. rewrite (G _ _ _ E). cbn [app foldM exec].
  unfold construct, newBlock, ck. replace ((INT_MIN <=? nB * nB * 3 * nP) && (nB * nB * 3 * nP <=? INT_MAX)) with false by (unfold INT_MIN, INT_MAX; lia). reflexivity.
Qed.
Print Assumptions C158_large_refuted.

(** Two matrices, one distributed over the columns: made, written, assigned to each other, destroyed. And a mesh of 100 x 100 x 100 points with 27 bands. *)
Definition exMine (rows cols r c : Z) : bool := (0 <=? r) && (r <? rows) && (0 <=? c) && (c <? cols) && (Z.rem c 2 =? 0).
Definition exOps : list (op Z) := [New 0 2 3 false; Set_ 0 1 2 7; New 1 2 4 true; Set_ 1 0 2 5; Set_ 1 0 3 5; Default 2; Assign 2 1; Assign 1 0; Set_ 1 1 2 8].
Definition exBands : bands := {| energies := 0; velocities := 1; eigenvectors := 2 |}.
Definition exNew : bands := {| energies := 10; velocities := 11; eigenvectors := 12 |}.
Example C158_ex : (exists V e v u, meansAll 0 exMine nothing exOps V /\ holdBands V exBands e v u /\ noBands V exNew /\ mVal v 1 2 = 8 /\ mVal e 1 2 = 7 /\ mVal u 0 2 = 5 /\ mDist u = true /\ V 13 = None) /\
  distinct exNew /\ ~ partOf exNew 13 /\ 27 * (100 * 100 * 100) <= 2147483647 /\ 2147483647 < 27 * 27 * 3 * (100 * 100 * 100).
Proof.
  split; [|unfold distinct, partOf; cbn; lia].
  assert (P : forall (W : values Z) x m, becomes W (put W x m) x m) by (intros W x m; split; [apply put_same|intros y; apply put_other]).
  do 4 eexists. split.
  - unfold exOps. econstructor; [apply means_new; [reflexivity|lia|lia|intros _; lia|apply P]|].
    econstructor; [eapply means_set; [reflexivity|unfold writable; cbn; lia|apply P]|].
    econstructor; [apply means_new; [reflexivity|lia|lia|discriminate|apply P]|].
    econstructor; [eapply means_set; [reflexivity|reflexivity|apply P]|].
    econstructor; [eapply means_elsewhere; [reflexivity|reflexivity|reflexivity|reflexivity]|].
    econstructor; [apply means_default; [reflexivity|apply P]|].
    econstructor; [eapply means_assign; [reflexivity|reflexivity|apply P]|].
    econstructor; [eapply means_assign; [reflexivity|reflexivity|apply P]|].
    econstructor; [eapply means_set; [reflexivity|unfold writable; cbn; lia|apply P]|]. constructor.
  - split; [split; [reflexivity|split; reflexivity]|]. split; [split; [reflexivity|split; reflexivity]|]. cbn. repeat split.
Qed.
