(** Property C153 (accounts of the memory of the device). *)
From Verif Require Import Base BaseLemmas M_device S_device L_device.

(** C153: after every history of constructions, copies, shifts of Wannier functions, caches and destructions, the amount in use is what the
    live objects say they occupy; when all are gone it is zero again. *)
Theorem C153_balance t ops d : everyStep noAssignment ops (device0 t) -> run ops (device0 t) = Ok d ->
  used d = reported d /\ getAvailableMemory d = t - reported d /\ (objs d = [] -> getAvailableMemory d = t).
Proof.
  intros E H. destruct (run_balance ops _ _ (inv0 t) E H) as (_ & B). cbn [device0 used objs] in B. unfold usages in B at 1. cbn in B.
  assert (T : total d = t).
  { clear -H. unfold run in H. enough (G : forall ops x y, foldM step ops x = Ok y -> total y = total x) by (apply (G _ _ _ H)).
    clear. induction ops as [|o r IH]; intros x y H; cbn [foldM] in H; [injection H as <-; reflexivity|].
    destruct (step x o) as [z | |] eqn:S; try discriminate. cbn [bind] in H. rewrite (IH _ _ H). clear -S.
    assert (C : forall a s b, construct a s = Ok b -> total b = total a).
    { intros a s b X. unfold construct in X. destruct (shapeOk s); [|discriminate]. injection X as <-. reflexivity. }
    assert (A : forall a i j b, assign a i j = Ok b -> total b = total a).
    { intros a i j b X. unfold assign in X. destruct (i =? j); [injection X as <-; reflexivity|].
      destruct (lookup i (objs a)); [|discriminate]. destruct (lookup j (objs a)) as [v|]; [|discriminate]. destruct (kindEq _ _); [|discriminate].
      destruct (oKind v); injection X as <-; reflexivity. }
    assert (D : forall a i b, destroy a i = Ok b -> total b = total a).
    { intros a i b X. unfold destroy in X. destruct (lookup i (objs a)) as [v|]; [|discriminate].
      destruct (oKind v); [| | |destruct (_ =? 1)]; injection X as <-; reflexivity. }
    destruct o as [s | | i | i j | i | i | i n | i s]; cbn [step] in S.
    - apply (C _ _ _ S).
    - injection S as <-. reflexivity.
    - unfold copyConstruct in S. destruct (lookup i (objs x)) as [v|]; [|discriminate]. destruct (oKind v); injection S as <-; reflexivity.
    - apply (A _ _ _ _ S).
    - apply (D _ _ _ S).
    - unfold addShiftedVectors in S. destruct (lookup i (objs x)) as [v|]; [|discriminate].
      destruct (oKind v); try discriminate. destruct (oViews v) as [|h [|? [|? [|? [|? [|]]]]]]; try discriminate. apply Ok_eq in S. subst z. reflexivity.
    - unfold cacheElPh in S. destruct (lookup i (objs x)) as [v|]; [|discriminate].
      destruct (oKind v); try discriminate. destruct (couplingId v); try discriminate. destruct (oViews v); try discriminate.
      destruct (0 <=? n); try discriminate. apply Ok_eq in S. subst z. reflexivity.
    - unfold parseInto in S. destruct (lookup i (objs x)) as [v|]; [|discriminate].
      destruct (oKind v); try discriminate. destruct (couplingId v); try discriminate. destruct (shapeKind s); try discriminate.
      destruct (construct x s) as [d1 | |] eqn:C1; try discriminate. cbn [bind] in S. destruct (assign d1 i (next x)) as [d2 | |] eqn:A1; try discriminate.
      cbn [bind] in S. rewrite (D _ _ _ S), (A _ _ _ _ A1), (C _ _ _ C1). reflexivity. }
  unfold getAvailableMemory. rewrite T. fold (usages (objs d)) in *. unfold reported. fold (usages (objs d)).
  split; [lia|]. split; [lia|]. intros Z0. rewrite Z0 in B. unfold usages in B. cbn in B. lia.
Qed.

(** C153: whatever is done with Hamiltonians and three-phonon interactions, assignments included, distinct allocations that are alive never
    take more than the amount in use: the available memory is never overestimated. *)
Theorem C153_never_overestimates t ops d l : everyStep noSharing ops (device0 t) -> run ops (device0 t) = Ok d ->
  NoDup (map vId l) -> Forall (held d) l -> zsum (map viewBytes l) <= used d.
Proof.
  intros E H N F. destruct (run_inv ops _ _ (inv0 t) E H) as (I & B). cbn [device0 used objs] in B. unfold usages in B at 1. cbn in B.
  assert (W : forall i o, In (i, o) (objs d) -> wf o) by (intros i o X; apply (inv_keys _ I) in X; tauto).
  assert (X := objects_bytes _ W).
  assert (Y : zsum (map viewBytes l) <= zsum (map viewBytes (flat_map (fun p => oViews (snd p)) (objs d)))); [|lia].
  apply held_sum.
  - intros v Hv. apply in_flat_map in Hv as ([i o] & Io & Hv). assert (G := wf_nn _ (W _ _ Io)). rewrite Forall_forall in G. apply G. exact Hv.
  - apply NoDup_map_inv in N. exact N.
  - intros v Hv. rewrite Forall_forall in F. destruct (F _ Hv) as (_ & i & o & A & C). apply in_flat_map. exists (i, o). split; assumption.
Qed.

(** finding: assigning a Hamiltonian (phonon_h0.cpp:276-309, electron_h0_wannier.cpp:95-117) adds the new amount and keeps the old one, so the
    memory of the old data counts as used after all objects are gone *)
Definition leakOps (s : shape) (n : Z) : list op := [ONew s; ONew s; OAssign 0 n; ODestroy 0; ODestroy n].
Theorem C153_assignment_refuted :
  (exists d, run (leakOps (SWannier 1 1) 6) (device0 1000) = Ok d /\ objs d = [] /\ used d = 48) /\
  (exists d, run (leakOps (SPhonon 1 1 0 false) 10) (device0 1000) = Ok d /\ objs d = [] /\ used d = 128).
Proof. split; eexists; (split; [vm_compute; reflexivity|]); split; reflexivity. Qed.

(** the same history without the assignment is balanced *)
Example C153_ex : exists d e,
  run [ONew (SWannier 2 3); OCopy 0; OShift 0; ONew (SThree 1 2 2); ODummy; OParse 17 (SElPh 1 3 2 2); OCache 17 6; OCache 17 12] (device0 100000) = Ok d /\
  everyStep noAssignment [ONew (SWannier 2 3); OCopy 0; OShift 0; ONew (SThree 1 2 2); ODummy; OParse 17 (SElPh 1 3 2 2); OCache 17 6; OCache 17 12] (device0 100000) /\
  zlen (objs d) = 4 /\ used d = 7072 /\
  run [ODestroy 0; ODestroy 6; ODestroy 9; ODestroy 17] d = Ok e /\ objs e = [] /\ used e = 0.
Proof.
  do 2 eexists. split; [vm_compute; reflexivity|]. split; [|repeat split; vm_compute; reflexivity].
  cbn [everyStep]. repeat (split; [reflexivity|]; intros ? E; vm_compute in E; injection E as <-). exact I.
Qed.

(** finding (interaction_elph.cpp:67-108, 509-510, 697-699): the copies of an electron-phonon interaction share one entry in the accounts, but every
    copy has its own cache. With a copy made after the first cache, 1600 bytes of cache are alive that no entry covers *)
Theorem C153_copied_coupling_refuted :
  exists d v w, run [ONew (SElPh 1 1 1 1); OCache 0 100; OCopy 0; OCache 8 100] (device0 10000) = Ok d /\
    held d v /\ held d w /\ vId v <> vId w /\ used d < viewBytes v + viewBytes w.
Proof.
  eexists. exists {| vId := 7; vElems := 100; vBytes := 16 |}, {| vId := 9; vElems := 100; vBytes := 16 |}.
  split; [vm_compute; reflexivity|]. unfold held. cbn [vId objs].
  split; [split; [discriminate|]; eexists _, _; split; [left; reflexivity|left; reflexivity]|].
  split; [split; [discriminate|]; eexists _, _; split; [right; left; reflexivity|left; reflexivity]|].
  split; [discriminate|reflexivity].
Qed.

(** finding: depending on the order of the destructions the accounts end above or below zero *)
Theorem C153_copied_coupling_order_refuted :
  let ops := [ONew (SElPh 1 1 1 1); OCopy 0; OCache 0 100; OCache 7 10] in
  (exists d, run (ops ++ [ODestroy 0; ODestroy 7]) (device0 10000) = Ok d /\ objs d = [] /\ used d = 1600) /\
  (exists d, run (ops ++ [ODestroy 7; ODestroy 0]) (device0 10000) = Ok d /\ objs d = [] /\ used d = 160) /\
  (exists d, run ([ONew (SElPh 1 1 1 1); OCache 0 100; OCopy 0; OCache 8 10] ++ [ODestroy 8; ODestroy 0]) (device0 10000) = Ok d /\ objs d = [] /\ used d = -1440).
Proof. cbv zeta. repeat split; eexists; (split; [vm_compute; reflexivity|]); split; reflexivity. Qed.

Print Assumptions C153_balance.
Print Assumptions C153_never_overestimates.
Print Assumptions C153_assignment_refuted.
Print Assumptions C153_copied_coupling_refuted.
Print Assumptions C153_copied_coupling_order_refuted.
