(** Files of the electron-phonon coupling: C126, C127. *)
From Coq Require Import Permutation.
From Verif Require Import Base BaseLemmas M_mpi S_mpi L_mpi M_elphio S_elphio L_elphio L_elphio2.
From Coq Require Import Lia.
Open Scope Z_scope.

(** * C126: format 1 *)
(** what any number of processes wrote in any order is what any number of processes read. A process that holds only its part must be able
    to write it in one piece *)
Theorem C126_roundtrip_partial {A} (zero : A) maxSize d size size' order (g : tensor5 A) parts :
  positive d -> fits (dE d) size -> size <= dE d -> fits (dE d) size' -> size' <= dE d -> maxSize <= 2147483647 ->
  ((whole d size g parts /\ perVec d * dE d <= 2147483647) \/
   (spread d size g parts /\ forall r, 0 <= r < size -> (dE d * (r + 1) / size - dE d * r / size) * perVec d <= maxSize)) ->
  Permutation order (zrange 0 size) ->
  exists ds h, writeV1 maxSize d size order parts = Ok ds /\ readV1 zero maxSize d size' ds = Ok h /\ sameCoupling d h g.
Proof.
  intros Hp Hf Hm Hf' Hm' Hx H HP. destruct (writeV1_ok maxSize d size order g parts Hp Hf Hm Hx H HP) as (ds & E & Hds).
  destruct (readV1_ok zero maxSize d size' g ds Hp Hf' Hm' Hds) as (h & Eh & Hh). exists ds, h. repeat split; assumption.
Qed.
Lemma share_cover d size e : fits (dE d) size -> 0 <= e < dE d -> exists r mine k, 0 <= r < size /\ divideWorkIter (dE d) r size = Ok mine /\ zget mine k = Some e.
Proof.
  intros F H. destruct (cut_find (dE d) size e F H) as (r & Hr & Hc). exists r. eexists. exists (e - cut (dE d) size r). split; [exact Hr|]. split; [now apply divideWorkIter_cut|].
  rewrite zget_zrange by lia. f_equal. lia.
Qed.
Lemma pool_local {A} d (g : tensor5 A) mine h :
  (forall i j nu p k e, inRange d i j nu p -> zget mine k = Some e -> h i j nu p k = g i j nu p e) ->
  forall k, 0 <= k < zlen mine -> exists e, (forall B (v : Z -> B) z, localVectors mine v z k = v e) /\ forall i j nu p, inRange d i j nu p -> h i j nu p k = g i j nu p e.
Proof.
  intros H k Hk. destruct (zget mine k) as [e|] eqn:E; [|apply zget_inrange in Hk; destruct Hk as (? & Hk); congruence].
  exists e. split; [intros; unfold localVectors; now rewrite E|]. intros. now apply H.
Qed.
(** with pools: position k of a process holds the coupling of the lattice vector at position k of its list of vectors, and every vector is
    held by some process of the pool *)
Theorem C126_pools_partial {A} (zero : A) maxSize d size size' order (g : tensor5 A) parts :
  positive d -> fits (dE d) size -> size <= dE d -> fits (dE d) size' -> size' <= dE d -> maxSize <= 2147483647 ->
  ((whole d size g parts /\ perVec d * dE d <= 2147483647) \/
   (spread d size g parts /\ forall r, 0 <= r < size -> (dE d * (r + 1) / size - dE d * r / size) * perVec d <= maxSize)) ->
  Permutation order (zrange 0 size) ->
  exists ds, writeV1 maxSize d size order parts = Ok ds /\
  (forall r, 0 <= r < size' -> exists mine h, readV1pool zero maxSize d size' r ds = Ok (mine, h) /\ divideWorkIter (dE d) r size' = Ok mine /\
    forall k, 0 <= k < zlen mine -> exists e, (forall B (v : Z -> B) z, localVectors mine v z k = v e) /\ forall i j nu p, inRange d i j nu p -> h i j nu p k = g i j nu p e) /\
  forall e, 0 <= e < dE d -> exists r mine k, 0 <= r < size' /\ divideWorkIter (dE d) r size' = Ok mine /\ zget mine k = Some e.
Proof.
  intros Hp Hf Hm Hf' Hm' Hx H HP. destruct (writeV1_ok maxSize d size order g parts Hp Hf Hm Hx H HP) as (ds & E & Hds).
  exists ds. split; [exact E|]. split; [|intros e He; now apply share_cover]. intros r Hr.
  destruct (readV1pool_ok zero maxSize d size' g ds Hp Hf' Hm' Hds r Hr) as (mine & h & Er & Ed & Hh). exists mine, h. split; [exact Er|]. split; [exact Ed|]. now apply (pool_local d).
Qed.
(** a tensor distributed over the processes and larger than one piece per process: every piece is written with the data of the first *)
Theorem C126_bunches_refuted : exists (d : dims) (g : tensor5 Z) parts ds h, positive d /\ spread d 2 g parts /\ perVec d * dE d <= 2147483647 /\
  writeV1 maxSizeCode d 2 [0; 1] parts = Ok ds /\ readV1 0 maxSizeCode d 2 ds = Ok h /\ ~ sameCoupling d h g.
Proof.
  set (d := {| dW := 100; dM := 30; dP := 200; dE := 4 |}). set (g := (fun _ _ _ _ e => e) : tensor5 Z).
  set (parts := fun r : Z => (2, (fun _ _ _ _ k => 2 * r + k) : tensor5 Z)).
  assert (K : match writeV1 maxSizeCode d 2 [0; 1] parts with Ok ds => match readV1 0 maxSizeCode d 2 ds with Ok h => h 0 0 0 0 1 | _ => 7 end | _ => 8 end = 0) by (vm_compute; reflexivity).
  destruct (writeV1 maxSizeCode d 2 [0; 1] parts) as [ds| |] eqn:E; try discriminate. destruct (readV1 0 maxSizeCode d 2 ds) as [h| |] eqn:Eh; try discriminate.
  exists d, g, parts, ds, h. split; [repeat split|]. split.
  - intros r Hr. assert (r = 0 \/ r = 1) as [-> | ->] by lia; [exists (zrange 0 2)|exists (zrange 2 2)]; (split; [reflexivity|]; split; [reflexivity|]; intros i j nu p k e _ Hk;
      apply zget_zrange_inv in Hk; destruct Hk as [_ ->]; unfold parts, g; cbn [snd]; lia).
  - split; [vm_compute; discriminate|]. split; [exact E|]. split; [exact Eh|]. intro H.
    specialize (H 0 0 0 0 1 ltac:(repeat split; vm_compute; congruence) ltac:(split; vm_compute; congruence)). rewrite K in H. discriminate.
Qed.
(** with more processes than lattice vectors the writer and the reader access an empty list *)
Theorem C126_few_refuted {A} (zero : A) maxSize d size order (parts : Z -> Z * tensor5 A) ds : fits (dE d) size -> dE d < size -> Permutation order (zrange 0 size) ->
  writeV1 maxSize d size order parts = UB /\ readV1 zero maxSize d size ds = UB.
Proof.
  intros F H HP. split; [now apply writeV1_few|]. pose proof F as (F1 & F2 & _). unfold readV1. rewrite zrange_cons by lia. cbn [mapM]. unfold readRank at 1. rewrite divideWorkIter_cut by (assumption || lia).
  rewrite cut_0. unfold cut. rewrite Z.mul_1_r, Z.div_small by lia. reflexivity.
Qed.
(** two vectors per process or three: both kinds of input meet the hypotheses *)
Definition exDims : dims := {| dW := 2; dM := 3; dP := 2; dE := 5 |}.
Definition exG : tensor5 Z := fun i j nu p e => i + 10 * j + 100 * nu + 1000 * p + 10000 * e.
Definition exParts (r : Z) : Z * tensor5 Z := if r =? 0 then (2, exG) else (3, fun i j nu p k => exG i j nu p (k + 2)).
Example C126_ex : positive exDims /\ fits (dE exDims) 2 /\ fits (dE exDims) 3 /\ spread exDims 2 exG exParts /\
  (forall r, 0 <= r < 2 -> (dE exDims * (r + 1) / 2 - dE exDims * r / 2) * perVec exDims <= 72) /\ whole exDims 2 exG (fun _ => (5, exG)) /\ Permutation [1; 0] (zrange 0 2) /\
  match writeV1 72 exDims 2 [1; 0] exParts with Ok ds => match readV1 0 72 exDims 3 ds with Ok h => h 1 0 2 1 4 | _ => 7 end | _ => 8 end = 41201.
Proof.
  split; [repeat split|]. split; [repeat split; vm_compute; congruence|]. split; [repeat split; vm_compute; congruence|]. split.
  { intros r Hr. assert (r = 0 \/ r = 1) as [-> | ->] by lia; [exists (zrange 0 2)|exists (zrange 2 3)]; (split; [reflexivity|]; split; [reflexivity|]; intros i j nu p k e _ Hk).
    - apply zget_zrange_inv in Hk. destruct Hk as [_ ->]. reflexivity.
    - apply zget_zrange_inv in Hk. destruct Hk as [_ ->]. cbn [exParts snd Z.eqb]. f_equal. lia. }
  split. { intros r Hr. assert (r = 0 \/ r = 1) as [-> | ->] by lia; vm_compute; congruence. }
  split; [intros r _; split; [reflexivity|intros i j nu p e _ _; reflexivity]|]. split; [apply perm_swap|]. vm_compute. reflexivity.
Qed.

(** * C127: format 2 *)
(** a file written by one process is complete, whatever the order of its steps; one process reads it back *)
Lemma single_openFirst d s : fits (dE d) 1 -> schedule_of d 1 s -> openFirst s.
Proof.
  intros F [H1 H2]. destruct (H2 0 ltac:(lia)) as (pr & Ep & Ef).
  assert (K : filter (fun ev => rankOf ev =? 0) s = s).
  { clear -H1. induction s as [|ev s IH]; [reflexivity|]. cbn [filter]. replace (rankOf ev =? 0) with true by (symmetry; apply Z.eqb_eq; specialize (H1 ev (or_introl eq_refl)); lia). f_equal. apply IH. intros; apply H1; now right. }
  rewrite K in Ef. subst pr. unfold program in Ep. rewrite divideWorkIter_cut in Ep by (assumption || lia). cbn [bind] in Ep. injection Ep as <-.
  eexists [Open 0], _. split; [reflexivity|]. split; [intros ev [<- | []]; now exists 0|]. intros ev r Hin. apply in_app_or in Hin. destruct Hin as [Hin | Hin].
  - apply in_map_iff in Hin. destruct Hin as (e & <- & _). discriminate.
  - destruct Hin as [<- | []]. discriminate.
Qed.
Theorem C127_single {A} (zero : A) d (g : tensor5 A) parts s : fits (dE d) 1 -> whole d 1 g parts -> schedule_of d 1 s ->
  exists f h, writeV2 d 1 parts s = Ok f /\ complete d g f /\ readV2 zero d 1 f = Ok h /\ sameCoupling d h g.
Proof.
  intros F Hw Hs. destruct (writeV2_ok d 1 g parts F (or_introl Hw) s Hs (single_openFirst d s F Hs)) as (f & E & Hc). destruct (readV2_ok zero d g f Hc 1 F) as (h & Eh & Hh).
  exists f, h. split; [exact E|]. split; [exact Hc|]. split; [exact Eh|]. intros i j nu p e HR He. rewrite Hh, Z.div_1_r by assumption. replace (e <? dE d) with true by (symmetry; apply Z.ltb_lt; lia). reflexivity.
Qed.
(** several processes, all of which have opened the file before the first one writes: the file is complete *)
Theorem C127_ordered_partial {A} d size (g : tensor5 A) parts s : fits (dE d) size -> whole d size g parts \/ spread d size g parts -> schedule_of d size s -> openFirst s ->
  exists f, writeV2 d size parts s = Ok f /\ complete d g f.
Proof. intros. now apply writeV2_ok. Qed.
(** pools of any size read a complete file correctly *)
Theorem C127_pools {A} (zero : A) d (g : tensor5 A) f size : fits (dE d) size -> complete d g f ->
  (forall r, 0 <= r < size -> exists mine h, readV2pool zero d size r f = Ok (mine, h) /\ divideWorkIter (dE d) r size = Ok mine /\
    forall k, 0 <= k < zlen mine -> exists e, (forall B (v : Z -> B) z, localVectors mine v z k = v e) /\ forall i j nu p, inRange d i j nu p -> h i j nu p k = g i j nu p e) /\
  forall e, 0 <= e < dE d -> exists r mine k, 0 <= r < size /\ divideWorkIter (dE d) r size = Ok mine /\ zget mine k = Some e.
Proof.
  intros F Hc. split; [|intros e He; now apply share_cover]. intros r Hr. destruct (readV2pool_ok zero d g f Hc size F r Hr) as (mine & h & Er & Ed & Hh).
  exists mine, h. split; [exact Er|]. split; [exact Ed|]. now apply (pool_local d).
Qed.
(** several processes write: there is an order in which all that the others wrote, and the header, is erased by the last opening; the file
    cannot be read *)
Theorem C127_race_refuted {A} (zero : A) d size (g : tensor5 A) parts : fits (dE d) size -> 1 < size -> whole d size g parts \/ spread d size g parts ->
  exists s f, schedule_of d size s /\ writeV2 d size parts s = Ok f /\ (forall e, 0 <= e < dE d * (size - 1) / size -> slices f e = None) /\ forall size', 0 < size' -> fits (dE d) size' -> readV2 zero d size' f = Err.
Proof.
  intros F Hs H. destruct (oneByOne_lost d size g parts F H Hs) as (f & E & Hh & Hl). exists (oneByOne d size), f. split; [now apply oneByOne_schedule|]. split; [exact E|]. split; [exact Hl|].
  intros size' H' F'. unfold readV2. rewrite zrange_cons by lia. cbn [mapM]. rewrite divideWorkIter_cut by (assumption || lia). cbn [bind]. unfold readSlices at 1. rewrite Hh. reflexivity.
Qed.
(** read by several processes without pools: the lattice vectors of all processes but the first are zero *)
Theorem C127_bcast_refuted {A} (zero : A) d (g : tensor5 A) f size : fits (dE d) size -> complete d g f ->
  exists h, readV2 zero d size f = Ok h /\ forall i j nu p e, inRange d i j nu p -> 0 <= e < dE d -> h i j nu p e = if e <? dE d / size then g i j nu p e else zero.
Proof. intros F Hc. now apply readV2_ok. Qed.
Example C127_ex :
  let s := [Open 0; Open 1; Put 1 2; Put 0 0; Put 0 1; Header 0; Put 1 3; Put 1 4] in
  schedule_of exDims 2 s /\ openFirst s /\ spread exDims 2 exG exParts /\
  match writeV2 exDims 2 exParts s with Ok f => match readV2 0 exDims 1 f, readV2 0 exDims 2 f with Ok h, Ok h' => (h 1 0 2 1 4, h' 1 0 2 1 4) | _, _ => (7, 7) end | _ => (8, 8) end = (41201, 0).
Proof.
  intro s. split; [split|].
  - intros ev Hin. unfold s in Hin. cbn [In] in Hin. repeat (destruct Hin as [<- | Hin]; [cbn; lia|]). contradiction.
  - intros r Hr. assert (r = 0 \/ r = 1) as [-> | ->] by lia; eexists; split; reflexivity.
  - split. { exists [Open 0; Open 1], [Put 1 2; Put 0 0; Put 0 1; Header 0; Put 1 3; Put 1 4]. split; [reflexivity|]. split.
      - intros ev [<- | [<- | []]]; eexists; reflexivity.
      - intros ev r Hin. cbn [In] in Hin. repeat (destruct Hin as [<- | Hin]; [discriminate|]). contradiction. }
    split; [apply C126_ex|]. vm_compute. reflexivity.
Qed.
Print Assumptions C126_roundtrip_partial. Print Assumptions C126_pools_partial. Print Assumptions C126_bunches_refuted. Print Assumptions C126_few_refuted.
Print Assumptions C127_single. Print Assumptions C127_ordered_partial. Print Assumptions C127_pools. Print Assumptions C127_race_refuted. Print Assumptions C127_bcast_refuted.
