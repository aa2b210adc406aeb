(** Proofs about the rotation of the degenerate blocks: host and device. *)
From Coq Require Import Reals QArith Permutation.
From Verif Require Import Base BaseLemmas M_complex L_complex M_electron S_electron L_electron L_electron2 L_electron3.
From Coq Require Import Lia Lra.
Open Scope Z_scope.

(** * funcK and funcB *)
Definition marksOf (iDeg : Z) (counts : list Z) : list Z := map (fun c => if iDeg =? c then 1 else 0) counts.

Lemma filter_map_shift {A B} (f : A -> B) (p : B -> bool) l : filter p (map f l) = map f (filter (fun x => p (f x)) l).
Proof. induction l as [|x l IH]; cbn; [reflexivity|]. destruct (p (f x)); cbn; now rewrite IH. Qed.
Lemma zrange_shift a n : zrange (a + 1) n = map (fun x => x + 1) (zrange a n).
Proof. unfold zrange. rewrite map_map. apply map_ext. intro. lia. Qed.
Lemma starts_cons d x l : starts d (x :: l) = (if x =? d then [0] else []) ++ map (fun p => p + 1) (starts d l).
Proof.
  unfold starts. rewrite zlen_cons. pose proof (zlen_nonneg l). rewrite zrange_cons by lia. replace (1 + zlen l - 1) with (zlen l) by lia.
  cbn [filter]. unfold isDeg at 1. rewrite zget_cons0. change (0 + 1) with (0 + 1)%Z. rewrite zrange_shift, filter_map_shift.
  assert (E : filter (fun p => isDeg d (x :: l) (p + 1)) (zrange 0 (zlen l)) = filter (isDeg d l) (zrange 0 (zlen l))).
  { apply filter_ext_in. intros p hp. apply in_zrange in hp. unfold isDeg. rewrite zget_consS by lia. now replace (p + 1 - 1) with p by lia. }
  rewrite E. destruct (x =? d); reflexivity.
Qed.
Lemma starts_len d l : zlen (starts d l) = zsum (marksOf d l).
Proof.
  induction l as [|x l IH]; [reflexivity|]. rewrite starts_cons, zlen_app, zlen_map, IH. unfold marksOf, zsum. cbn [map fold_right]. rewrite (Z.eqb_sym d x). destruct (x =? d); reflexivity.
Qed.
Lemma marks_prefix d l : forall n, 0 <= zsum (firstn n (marksOf d l)).
Proof.
  induction l as [|x l IH]; intro n; [destruct n; cbn; lia|]. destruct n as [|n]; [cbn; lia|]. unfold marksOf in *. cbn [map firstn]. unfold zsum in *. cbn [fold_right]. specialize (IH n). destruct (d =? x); lia.
Qed.
Lemma starts_get d l : forall p, isDeg d l p = true -> zget (starts d l) (zsum (firstn (Z.to_nat p) (marksOf d l))) = Some p.
Proof.
  induction l as [|x l IH]; intros p h.
  - unfold isDeg in h. destruct (zget [] p) eqn:E; [apply zget_Some in E; cbn in E; lia|discriminate].
  - rewrite starts_cons. pose proof h as h'. unfold isDeg in h'. destruct (zget (x :: l) p) as [c|] eqn:E; [|discriminate]. pose proof (zget_Some _ _ _ E) as (hb & _).
    destruct (Z.eq_dec p 0) as [->|hn].
    + rewrite zget_cons0 in E. injection E as ->. rewrite h'. cbn [firstn Z.to_nat]. change (zsum []) with 0. cbn [app]. apply zget_cons0.
    + rewrite zget_consS in E by lia. assert (G : isDeg d l (p - 1) = true) by (unfold isDeg; now rewrite E). specialize (IH _ G).
      replace (Z.to_nat p) with (S (Z.to_nat (p - 1))) by lia. unfold marksOf. cbn [map firstn]. fold (marksOf d l). unfold zsum. cbn [fold_right]. fold (zsum (firstn (Z.to_nat (p - 1)) (marksOf d l))).
      pose proof (marks_prefix d l (Z.to_nat (p - 1))) as P. set (q := zsum (firstn (Z.to_nat (p - 1)) (marksOf d l))) in *. rewrite (Z.eqb_sym d x). destruct (x =? d); cbn [app].
      * rewrite zget_consS by lia. rewrite zget_map. replace (1 + q - 1) with q by lia. rewrite IH. cbn. f_equal. lia.
      * rewrite zget_map. replace (0 + q) with q by lia. rewrite IH. cbn. f_equal. lia.
Qed.
Lemma starts_NoDup d l : NoDup (starts d l).
Proof. apply NoDup_filter, NoDup_zrange. Qed.
Lemma zget_NoDup {A} (l : list A) i j x : NoDup l -> zget l i = Some x -> zget l j = Some x -> i = j.
Proof.
  intros h hi hj. pose proof (zget_Some _ _ _ hi) as (bi & _). pose proof (zget_Some _ _ _ hj) as (bj & _). unfold zget in *.
  replace (i <? 0) with false in hi by lia. replace (j <? 0) with false in hj by lia. rewrite NoDup_nth_error in h.
  assert (Z.to_nat i = Z.to_nat j); [|lia]. apply h; [unfold zlen in bi; lia|congruence].
Qed.
Lemma funcKB_fold nb d counts : forall order acc, zlen acc = zsum (marksOf d counts) -> (forall p, In p order -> 0 <= p < zlen counts) ->
  exists acc', foldM (fun (acc : list (option (Z * Z))) ikb =>
      match zget counts ikb, zget (exclusiveScan 0 (marksOf d counts)) ikb with
      | Some c, Some iMat => if c =? d then if inb iMat (zlen acc) then Ok (zupd acc iMat (Some (Z.quot ikb nb, Z.rem ikb nb))) else UB else Ok acc
      | _, _ => UB end) order acc = Ok acc' /\ zlen acc' = zlen acc /\
    (forall p j, zget (starts d counts) j = Some p -> (In p order -> zget acc' j = Some (Some (Z.quot p nb, Z.rem p nb))) /\ (~ In p order -> zget acc' j = zget acc j)).
Proof.
  induction order as [|a order IH]; intros acc hl hr; cbn [foldM].
  - exists acc. split; [reflexivity|]. split; [reflexivity|]. intros p j _. split; [intros []|reflexivity].
  - pose proof (hr a (or_introl eq_refl)) as ha. destruct (zget_inrange counts a ha) as (c & hc). rewrite hc.
    assert (hm : zget (marksOf d counts) a = Some (if d =? c then 1 else 0)) by (unfold marksOf; now rewrite zget_map, hc).
    rewrite (scan_get _ 0 _ _ hm). cbn [Z.add]. set (q := zsum (firstn (Z.to_nat a) (marksOf d counts))). destruct (c =? d) eqn:E.
    + assert (G : isDeg d counts a = true) by (unfold isDeg; now rewrite hc). pose proof (starts_get _ _ _ G) as S. fold q in S. pose proof (zget_Some _ _ _ S) as (bq & _). rewrite starts_len in bq.
      rewrite inb_true by lia. cbn [bind]. destruct (IH (zupd acc q (Some (Z.quot a nb, Z.rem a nb)))) as (acc' & e & l' & H); [rewrite zlen_zupd; exact hl|intros p hp; apply hr; now right|].
      exists acc'. split; [exact e|]. split; [rewrite l'; apply zlen_zupd|]. intros p j hj. destruct (H p j hj) as (H1 & H2). split.
      * intro hp. destruct (in_dec Z.eq_dec p order) as [I|I]; [apply H1, I|]. destruct hp as [<-|hp]; [|easy]. rewrite H2 by exact I.
        rewrite (zget_NoDup _ _ _ _ (starts_NoDup d counts) hj S). apply zget_zupd_eq. lia.
      * intro hp. rewrite H2 by (intro I; apply hp; now right). apply zget_zupd_ne. intros <-. rewrite S in hj. injection hj as <-. apply hp. now left.
    + cbn [bind]. destruct (IH acc hl) as (acc' & e & l' & H); [intros p hp; apply hr; now right|].
      exists acc'. split; [exact e|]. split; [exact l'|]. intros p j hj. destruct (H p j hj) as (H1 & H2). split.
      * intros [<-|hp]; [|apply H1, hp]. apply zget_Some in hj as (_ & hj). apply filter_In in hj as (_ & hj). unfold isDeg in hj. rewrite hc in hj. congruence.
      * intro hp. apply H2. intro I. apply hp. now right.
Qed.
Lemma funcKB_spec nb d counts order : Permutation order (zrange 0 (zlen counts)) ->
  funcKB nb d counts order = Ok (map (fun p => Some (Z.quot p nb, Z.rem p nb)) (starts d counts)).
Proof.
  intro hp. unfold funcKB. cbv zeta. fold (marksOf d counts). pose proof (zlen_nonneg (starts d counts)) as P. rewrite starts_len in P.
  destruct (funcKB_fold nb d counts order (repeat None (Z.to_nat (zsum (marksOf d counts))))) as (acc' & e & l & H).
  - unfold zlen. rewrite repeat_length. lia.
  - intros p h. apply (Permutation_in _ hp) in h. apply in_zrange in h. lia.
  - rewrite e. f_equal. assert (L : zlen acc' = zlen (starts d counts)). { rewrite l, starts_len. unfold zlen. rewrite repeat_length. lia. }
    apply zget_ext; [rewrite zlen_map; exact L|]. intros j G. rewrite zget_map.
    destruct (zget_inrange (starts d counts) j ltac:(lia)) as (p & hj). rewrite hj. cbn [option_map]. apply (H p j hj).
    apply zget_Some in hj as (_ & hj). apply filter_In in hj as (hj & _). apply (Permutation_in _ (Permutation_sym hp) hj).
Qed.

(** * one block after the other *)
Section Fold.
Variable tr : cmat -> Z * Z -> cmat.
Variable nw : cmat -> Z * Z -> cmat.
Hypothesis trE : forall v b i j, tr v b i j = if inBlock (fst b) (snd b) i && inBlock (fst b) (snd b) j then nw v b (i - fst b) (j - fst b) else v i j.
Hypothesis nwE : forall v v' b, (forall i j, fst b <= i < fst b + snd b -> fst b <= j < fst b + snd b -> v i j = v' i j) ->
  forall i j, 0 <= i < snd b -> 0 <= j < snd b -> nw v b i j = nw v' b i j.
Definition inB (b : Z * Z) (i : Z) : Prop := fst b <= i < fst b + snd b.
Lemma tr_out v b i j : ~ (inB b i /\ inB b j) -> tr v b i j = v i j.
Proof. intro h. rewrite trE. destruct (inBlock (fst b) (snd b) i) eqn:E; [|reflexivity]. destruct (inBlock (fst b) (snd b) j) eqn:F; [|reflexivity]. apply inBlock_iff in E, F. exfalso. apply h. split; assumption. Qed.
Lemma tr_in v b i j : inB b i -> inB b j -> tr v b i j = nw v b (i - fst b) (j - fst b).
Proof. intros h h'. rewrite trE. apply inBlock_iff in h, h'. now rewrite h, h'. Qed.
Lemma fold_tr L : NoDup L -> (forall b b' i, In b L -> In b' L -> inB b i -> inB b' i -> b = b') -> forall v i j,
  (forall b, In b L -> inB b i -> inB b j -> fold_left tr L v i j = nw v b (i - fst b) (j - fst b)) /\
  ((forall b, In b L -> ~ (inB b i /\ inB b j)) -> fold_left tr L v i j = v i j).
Proof.
  induction L as [|a L IH]; intros hn hd v i j; [split; [intros b []|reflexivity]|]. inversion hn; subst. cbn [fold_left].
  destruct (IH ltac:(assumption) (fun b b' i h h' => hd b b' i (or_intror h) (or_intror h')) (tr v a) i j) as (I1 & I2). split.
  - intros b [<-|hb] hi hj.
    + rewrite I2; [apply tr_in; assumption|]. intros b hb (g & _). assert (a = b) by (eapply hd; [now left|now right|exact hi|exact g]). subst. easy.
    + rewrite (I1 b hb hi hj). apply nwE; [|unfold inB in *; lia..]. intros i' j' hi' hj'. apply tr_out. intros (g & _). assert (a = b) by (eapply hd; [now left|now right|exact g|exact hi']). subst. easy.
  - intro h. rewrite I2; [|intros b hb; apply h; now right]. apply tr_out. apply h. now left.
Qed.
End Fold.

Definition newH (solve : Z -> cmat -> cmat) (v : cmat) (b : Z * Z) : cmat :=
  let sub := hermitise (subMat v (fst b)) in let X := solve (snd b) sub in
  if 1 <? snd b then hermitise (rotateV (snd b) X sub) else subMat v (fst b).
Definition newD (solve : Z -> cmat -> cmat) (v : cmat) (b : Z * Z) : cmat :=
  let sub := hermitise (subMat v (fst b)) in let X := solve (snd b) sub in rotateV (snd b) X sub.
Lemma hostTreat_eq solve v b i j : hostTreat solve v b i j = if inBlock (fst b) (snd b) i && inBlock (fst b) (snd b) j then newH solve v b (i - fst b) (j - fst b) else v i j.
Proof.
  unfold hostTreat, newH. destruct (1 <? snd b); [reflexivity|]. destruct (_ && _) eqn:E; [|reflexivity]. unfold subMat. f_equal; lia.
Qed.
Lemma deviceTreat_eq solve v b i j : deviceTreat solve v b i j = if inBlock (fst b) (snd b) i && inBlock (fst b) (snd b) j then newD solve v b (i - fst b) (j - fst b) else v i j.
Proof. reflexivity. Qed.
Lemma hermitise_same n A B : SameMat n A B -> SameMat n (hermitise A) (hermitise B).
Proof. intros h i j hi hj. unfold hermitise. rewrite !h by assumption. reflexivity. Qed.
Lemma hermitise_hermitian n A : Hermitian n (hermitise A).
Proof. intros i j _ _. unfold hermitise. generalize (A i j) (A j i). intros; cring. Qed.
Lemma hermitise_id n A : Hermitian n A -> SameMat n (hermitise A) A.
Proof. intros h i j hi hj. unfold hermitise. rewrite (h j i hj hi), conj_conj. generalize (A i j). intro. apply cplx_eq; cbn; field. Qed.
Lemma rotateV_same n U U' A A' : SameMat n U U' -> SameMat n A A' -> SameMat n (rotateV n U A) (rotateV n U' A').
Proof.
  intros hu ha i j hi hj. unfold rotateV. apply matMul_ext; [|intros l hl; apply hu; assumption]. intros l hl. apply matMul_ext.
  - intros k hk. unfold adjoint. now rewrite hu.
  - intros k hk. apply ha; assumption.
Qed.
Lemma sub_same v v' b : (forall i j, fst b <= i < fst b + snd b -> fst b <= j < fst b + snd b -> v i j = v' i j) -> SameMat (snd b) (subMat v (fst b)) (subMat v' (fst b)).
Proof. intros h i j hi hj. unfold subMat. apply h; lia. Qed.
Lemma newH_local solve : ReadsEntries solve -> forall v v' b, (forall i j, fst b <= i < fst b + snd b -> fst b <= j < fst b + snd b -> v i j = v' i j) ->
  forall i j, 0 <= i < snd b -> 0 <= j < snd b -> newH solve v b i j = newH solve v' b i j.
Proof.
  intros R v v' b h. apply sub_same in h. unfold newH. intros i j hi hj. destruct (1 <? snd b); [|apply h; assumption].
  apply (hermitise_same (snd b)); [|assumption..]. apply rotateV_same; [apply R|]; apply hermitise_same, h.
Qed.
Lemma newD_local solve : ReadsEntries solve -> forall v v' b, (forall i j, fst b <= i < fst b + snd b -> fst b <= j < fst b + snd b -> v i j = v' i j) ->
  forall i j, 0 <= i < snd b -> 0 <= j < snd b -> newD solve v b i j = newD solve v' b i j.
Proof. intros R v v' b h. apply sub_same in h. unfold newD. intros i j hi hj. apply rotateV_same; [apply R|..|assumption|assumption]; apply hermitise_same, h. Qed.
Lemma newH_D solve v b : 1 < snd b -> SameMat (snd b) (newH solve v b) (newD solve v b).
Proof.
  intros h. unfold newH, newD. replace (1 <? snd b) with true by lia. apply hermitise_id, rotateV_hermitian, hermitise_hermitian.
Qed.

Lemma blocks_NoDup thr en nb : 0 <= nb -> NoDup (blocks thr en nb).
Proof. intro h. apply (NoDup_map_inv fst). apply blocksFrom_NoDup; lia. Qed.
Lemma host_in solve thr en nb v b i j : ReadsEntries solve -> 0 <= nb -> In b (blocks thr en nb) -> inB b i -> inB b j ->
  hostDegenerate solve thr en nb v i j = newH solve v b (i - fst b) (j - fst b).
Proof.
  intros R h hb. unfold hostDegenerate. eapply (fold_tr (hostTreat solve) (newH solve)); [intros; apply hostTreat_eq|apply newH_local, R|apply blocks_NoDup, h| |exact hb].
  intros b1 b2 x. apply blocks_disjoint, h.
Qed.
Lemma host_out solve thr en nb v i j : ReadsEntries solve -> 0 <= nb -> (forall b, In b (blocks thr en nb) -> ~ (inB b i /\ inB b j)) ->
  hostDegenerate solve thr en nb v i j = v i j.
Proof.
  intros R h. unfold hostDegenerate. eapply (fold_tr (hostTreat solve) (newH solve)); [intros; apply hostTreat_eq|apply newH_local, R|apply blocks_NoDup, h|].
  intros b1 b2 x. apply blocks_disjoint, h.
Qed.
