(** Lemmas for P_pmatrix. *)
From Coq Require Import QArith Qcanon.
From Verif Require Import Base BaseLemmas M_matrix S_matrix L_mpi L_matrix M_pmatrix S_pmatrix.
Open Scope Z_scope.

Lemma mapM_all {A B} (f : A -> res B) (g : A -> B) l : (forall x, In x l -> f x = Ok (g x)) -> mapM f l = Ok (map g l).
Proof.
  induction l as [|x l IH]; intros H; [reflexivity|]. cbn [mapM map]. rewrite (H x (or_introl eq_refl)). cbn [bind].
  rewrite IH; [reflexivity|]. intros y Hy. apply H. right. exact Hy.
Qed.

Lemma in_grid L p : In p (gridRanks L) <-> isProcess L p.
Proof.
  unfold gridRanks, isProcess. destruct p as [a b]. rewrite in_prod_iff, !in_zrange. cbn [fst snd]. lia.
Qed.

Lemma find_combine {A B} (P : A -> bool) (g : A -> B) l p : In p l -> P p = true -> (forall q, In q l -> P q = true -> q = p) ->
  find (fun q => P (fst q)) (combine l (map g l)) = Some (p, g p).
Proof.
  induction l as [|x l IH]; intros I Pp U; [destruct I|]. cbn [map combine find fst]. destruct (P x) eqn:E.
  - rewrite (U x (or_introl eq_refl) E). reflexivity.
  - apply IH; [|exact Pp|intros q Hq; apply U; right; exact Hq]. destruct I as [-> | I]; [congruence|exact I].
Qed.

Lemma pelem_spread {T} (zero : T) L F r c : validLayout L -> inMatrix L r c -> pelem zero (spread L F) r c = Ok (F r c).
Proof.
  intros V I. unfold pelem, spread. cbn [pL pBufs]. unfold distributed. change (processes L) with (gridRanks L).
  destruct (one_owner L r c V I) as (p & Hp & Lp & U).
  rewrite (find_combine (fun q => indicesAreLocal L q r c) _ _ p); [|apply in_grid; exact Hp|exact Lp|intros q Hq; apply U; apply in_grid; exact Hq].
  cbn [fst snd]. unfold pget. unfold indicesAreLocal in Lp.
  destruct (global2Local L p r c =? -1) eqn:E; [discriminate|].
  destruct (local_slot L V p Hp r c _ I eq_refl ltac:(lia)) as [K E2].
  rewrite zget_map. unfold getAllLocalStates. rewrite zget_map, zget_zrange by lia. cbn [option_map]. rewrite Z.add_0_l, E2. reflexivity.
Qed.

Lemma pfill_spread {T} L (v : Z -> Z -> res T) F : validLayout L -> (forall r c, inMatrix L r c -> v r c = Ok (F r c)) -> pfill L v = Ok (spread L F).
Proof.
  intros V H. unfold pfill. rewrite (mapM_all _ (fun p => map (fun t => F (fst t) (snd t)) (getAllLocalStates L p))).
  - reflexivity.
  - intros p Hp. apply mapM_all. intros [r c] Ht. cbn [fst snd]. apply H.
    apply (states_In L V p) in Ht; [tauto|]. apply in_grid. exact Hp.
Qed.

Lemma pzeros_spread {T} (zero : T) L F : pzeros zero (spread L F) = spread L (fun _ _ => zero).
Proof. unfold pzeros, pmap, spread, distributed. cbn [pL pBufs]. f_equal. rewrite map_map. apply map_ext. intros p. rewrite map_map. reflexivity. Qed.


Lemma zip_index {A B C} (h : B -> B -> res C) (f g : A -> B) (k : A -> C) l : (forall x, In x l -> h (f x) (g x) = Ok (k x)) ->
  mapM (fun i => match zget (map f l) i, zget (map g l) i with Some a, Some b => h a b | _, _ => UB end) (zrange 0 (zlen (map f l))) = Ok (map k l).
Proof.
  intros H. rewrite zlen_map.
  enough (G : forall pre suf, l = pre ++ suf ->
    mapM (fun i => match zget (map f l) i, zget (map g l) i with Some a, Some b => h a b | _, _ => UB end) (zrange (zlen pre) (zlen suf)) = Ok (map k suf)).
  { exact (G [] l eq_refl). }
  intros pre suf. revert pre. induction suf as [|x suf IH]; intros pre E.
  - reflexivity.
  - assert (N := zlen_nonneg suf). assert (Np := zlen_nonneg pre). rewrite zlen_cons, zrange_cons by lia. cbn [mapM map].
    assert (X : zget l (zlen pre) = Some x) by (rewrite E, zget_app2, Z.sub_diag by lia; reflexivity).
    rewrite (zget_map f), (zget_map g), X. cbn [option_map].
    rewrite H by (rewrite E; apply in_or_app; right; left; reflexivity). cbn [bind].
    replace (1 + zlen suf - 1) with (zlen suf) by lia.
    assert (E' : l = (pre ++ [x]) ++ suf) by (rewrite <- app_assoc; exact E).
    specialize (IH _ E'). replace (zlen (pre ++ [x])) with (zlen pre + 1) in IH by (rewrite zlen_app, zlen_cons; cbn; lia). rewrite IH. reflexivity.
Qed.

Lemma pzip_spread {T} (f : T -> T -> T) L F G : pzip f (spread L F) (spread L G) = Ok (spread L (fun r c => f (F r c) (G r c))).
Proof.
  unfold pzip, spread. cbn [pL pBufs]. rewrite !Z.eqb_refl. cbn [negb orb]. unfold distributed.
  rewrite (zip_index (zipLocal f) _ _ (fun p => map (fun t => f (F (fst t) (snd t)) (G (fst t) (snd t))) (getAllLocalStates L p))).
  - reflexivity.
  - intros p _. unfold zipLocal. apply (zip_index (fun a b => Ok (f a b))). reflexivity.
Qed.

Section Gemm.
Context {T : Type} (zero : T) (add mul : T -> T -> T) (conj : T -> T).

Lemma opElem_spread t L F i j : validLayout L -> (match t with TransN => inMatrix L i j | _ => inMatrix L j i end) ->
  opElem zero conj t (spread L F) i j = Ok (opOf conj t F i j).
Proof. intros V I. unfold opElem, opOf. destruct t; rewrite (pelem_spread zero L F) by assumption; reflexivity. Qed.

Lemma pgemm_spread t1 t2 m n k LA LB LC FA FB FC : validLayout LA -> validLayout LB -> validLayout LC ->
  (match t1 with TransN => m <= lRows LA /\ k <= lCols LA | _ => k <= lRows LA /\ m <= lCols LA end) ->
  (match t2 with TransN => k <= lRows LB /\ n <= lCols LB | _ => n <= lRows LB /\ k <= lCols LB end) ->
  m <= lRows LC -> n <= lCols LC ->
  pgemm zero add mul conj t1 t2 m n k (spread LA FA) (spread LB FB) (spread LC FC) =
  Ok (spread LC (fun r c => if (r <? m) && (c <? n) then productOf zero add mul k (opOf conj t1 FA) (opOf conj t2 FB) r c else FC r c)).
Proof.
  intros VA VB VC HA HB H1 H2. unfold pgemm. cbn [spread pL].
  replace (match t1 with TransN => (m <=? lRows LA) && (k <=? lCols LA) | _ => (k <=? lRows LA) && (m <=? lCols LA) end) with true by (destruct t1; lia).
  replace (match t2 with TransN => (k <=? lRows LB) && (n <=? lCols LB) | _ => (n <=? lRows LB) && (k <=? lCols LB) end) with true by (destruct t2; lia).
  replace ((m <=? lRows LC) && (n <=? lCols LC)) with true by lia. cbn [andb].
  apply pfill_spread; [exact VC|]. intros r c [Ir Ic]. destruct ((r <? m) && (c <? n)) eqn:E.
  - rewrite (mapM_all _ (fun l => mul (opOf conj t1 FA r l) (opOf conj t2 FB l c))).
    + reflexivity.
    + intros l Hl. apply in_zrange in Hl. change {| pL := LA; pBufs := distributed LA FA |} with (spread LA FA).
      change {| pL := LB; pBufs := distributed LB FB |} with (spread LB FB).
      rewrite (opElem_spread t1 LA FA) by (try exact VA; destruct t1; split; lia). cbn [bind].
      rewrite (opElem_spread t2 LB FB) by (try exact VB; destruct t2; split; lia). reflexivity.
  - change {| pL := LC; pBufs := distributed LC FC |} with (spread LC FC). apply pelem_spread; [exact VC|split; assumption].
Qed.
End Gemm.
