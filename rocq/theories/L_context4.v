(** Lemmas on blocks, quotes and windows. *)
From Coq Require Import QArith Ascii String.
From Verif Require Import Base BaseLemmas M_context S_context L_context L_context2 L_context3.
From Coq Require Import Lia.
Open Scope Z_scope.

Lemma words_blank b : blank b -> words b = [].
Proof. intro H. induction H as [|c b Hc Hb IH]; [reflexivity|]. cbn [words]. rewrite Hc. exact IH. Qed.
Lemma words_skip b s : blank b -> words (b ++ s) = words s.
Proof. intro H. induction H as [|c b Hc Hb IH]; [reflexivity|]. cbn [app words]. rewrite Hc. exact IH. Qed.
Lemma words_word w rest : goodWord w -> match rest with [] => True | c :: _ => isspace c = true end -> words (w ++ rest) = w :: words rest.
Proof.
  intros (N & H) R. induction H as [|c w Hc Hw IH]; [contradiction|]. cbn [app words]. rewrite Hc. destruct w as [|d w].
  - cbn [app]. destruct rest as [|e rest]; [reflexivity|]. rewrite R. reflexivity.
  - specialize (IH ltac:(discriminate)). cbn [app] in IH |- *. inversion Hw as [|x y Hd Hw' E]; subst. rewrite Hd, IH. reflexivity.
Qed.
Lemma words_tail l tail : goodWords l -> blank tail -> words (lineText l tail) = map snd l /\ match lineText l tail with [] => True | c :: _ => isspace c = true end.
Proof.
  intros H Ht. induction l as [|[b w] l IH]; cbn [goodWords fst snd] in H.
  - unfold lineText. cbn [map concat app]. split; [apply words_blank; exact Ht|]. destruct tail; [exact I|]. inversion Ht; assumption.
  - destruct H as (Hb & Nb & Hw & Hl). specialize (IH Hl) as (IH & St). unfold lineText in *. cbn [map concat fst snd]. rewrite <- !app_assoc. split.
    + rewrite words_skip, words_word, IH by assumption. reflexivity.
    + destruct b as [|c b]; [contradiction|]. cbn [app]. inversion Hb; assumption.
Qed.
Lemma words_line l tail : goodLine l tail -> words (lineText l tail) = map snd l.
Proof.
  intros (H & Ht). destruct l as [|[b w] l]; [unfold lineText; cbn [map concat app]; apply words_blank; exact Ht|]. cbn [fst snd] in H. destruct H as (Hb & Hw & Hl).
  destruct (words_tail l tail Hl Ht) as (E & St). unfold lineText in *. cbn [map concat fst snd]. rewrite <- !app_assoc, words_skip, words_word, E by assumption. reflexivity.
Qed.
Lemma words_with ws line : lineWith ws line -> words line = ws.
Proof. intros (l & tail & -> & G & <-). apply words_line, G. Qed.
Lemma stod_number n : goodNumber n -> stod (numberText n) = Ok (numberValue n).
Proof. intro H. pose proof (stod_text [] n [] (Forall_nil _) H I) as E. rewrite app_nil_r in E. exact E. Qed.
Lemma indexOf_get x l : In x l -> zget l (indexOf x l) = Some x /\ 0 <= indexOf x l.
Proof.
  induction l as [|y l IH]; intros H; [destruct H|]. cbn [indexOf]. destruct (streq y x) eqn:E; [apply streq_eq in E as ->; split; [reflexivity|lia]|].
  destruct H as [->|H]; [rewrite streq_refl in E; discriminate|]. destruct (IH H) as (IH1 & P). split; [|lia]. unfold zget in *. replace (1 + indexOf x l <? 0) with false by lia. replace (indexOf x l <? 0) with false in IH1 by lia.
  replace (Z.to_nat (1 + indexOf x l)) with (S (Z.to_nat (indexOf x l))) by lia. exact IH1.
Qed.
Lemma zget_app_l {A} (l m : list A) i x : zget l i = Some x -> zget (l ++ m) i = Some x.
Proof. unfold zget. destruct (i <? 0); [discriminate|]. intro H. rewrite nth_error_app1; [exact H|]. apply nth_error_Some. congruence. Qed.
Lemma existsb_streq x l : existsb (fun n => streq n x) l = true <-> In x l.
Proof. rewrite existsb_exists. split; [intros (y & Hy & E); apply streq_eq in E as ->; exact Hy|intro H; exists x; split; [exact H|apply streq_refl]]. Qed.
Definition coords (a : named) : Q * Q * Q := ((numberValue (nmX a) / distanceBohrToAng, numberValue (nmY a) / distanceBohrToAng, numberValue (nmZ a) / distanceBohrToAng))%Q.
Lemma NoDup_snoc {A} (l : list A) x : NoDup l -> ~ In x l -> NoDup (l ++ [x]).
Proof. intros H N. apply (NoDup_Add (a := x) (l := l)); [|split; assumption]. pose proof (Add_app x l []) as E. rewrite app_nil_r in E. exact E. Qed.
Lemma Forall2_weaken {A B} (P Q : A -> B -> Prop) l m : (forall a b, P a b -> Q a b) -> Forall2 P l m -> Forall2 Q l m.
Proof. intros H F. induction F; constructor; auto. Qed.
Lemma crystal_block items : forall lines, Forall goodNamed items -> Forall2 (fun a line => lineWith (namedWords a) line) items lines ->
  exists atoms names, parseCrystal lines = Ok (atoms, names) /\ NoDup names /\ Forall2 (fun a (at1 : Z * (Q * Q * Q)) => zget names (fst at1) = Some (nmName a) /\ snd at1 = coords a) items atoms /\ (forall n, In n names -> In n (map nmName items)).
Proof.
  unfold parseCrystal. induction items as [|a items IH] using rev_ind; intros lines G F.
  - inversion F; subst. exists [], []. split; [reflexivity|]. split; [constructor|]. split; [constructor|intros n []].
  - apply Forall2_app_inv_l in F as (l1 & l2 & F1 & F2 & ->). inversion F2 as [|x y ? ? Hl F3]; subst. inversion F3; subst. apply Forall_app in G as (G1 & G2). inversion G2 as [|? ? Ga _]; subst.
    destruct (IH l1 G1 F1) as (atoms & names & E & Nd & M & Sub). rewrite foldM_app', E. cbn [bind]. cbn [foldM]. rewrite (words_with _ _ Hl). destruct Ga as (Gw & Gx & Gy & Gz). unfold namedWords, atP, zget. cbn [Z.ltb Z.compare].
    change (Z.to_nat 0) with O. change (Z.to_nat 1) with 1%nat. change (Z.to_nat 2) with 2%nat. change (Z.to_nat 3) with 3%nat. cbn [nth_error bind]. rewrite !stod_number by assumption. cbn [bind].
    set (names' := if existsb (fun n => streq n (nmName a)) names then names else names ++ [nmName a]).
    assert (I1 : In (nmName a) names'). { unfold names'. destruct (existsb _ names) eqn:X; [apply existsb_streq; exact X|apply in_app_iff; right; left; reflexivity]. }
    exists (atoms ++ [(indexOf (nmName a) names', coords a)]), names'. split; [reflexivity|]. split; [|split].
    + unfold names'. destruct (existsb _ names) eqn:X; [exact Nd|]. apply NoDup_snoc; [exact Nd|]. rewrite <- existsb_streq, X. discriminate.
    + apply Forall2_app.
      * eapply Forall2_weaken; [|exact M]. intros b at1 (Z1 & Z2). split; [|exact Z2]. unfold names'. destruct (existsb _ names); [exact Z1|apply zget_app_l; exact Z1].
      * constructor; [|constructor]. cbn [fst snd]. split; [apply indexOf_get; exact I1|reflexivity].
    + intros n Hn. rewrite map_app, in_app_iff. unfold names' in Hn. destruct (existsb _ names); [left; apply Sub; exact Hn|]. apply in_app_iff in Hn as [Hn|[<-|[]]]; [left; apply Sub; exact Hn|right; left; reflexivity].
Qed.
Definition ends2 (a : named) : str * (Q * Q * Q) := (nmName a, (numberValue (nmX a), numberValue (nmY a), numberValue (nmZ a))).
Lemma path_block items lines : Forall (fun p => goodNamed (fst p) /\ goodNamed (snd p)) items -> Forall2 (fun p line => lineWith (namedWords (fst p) ++ namedWords (snd p)) line) items lines ->
  parsePathExtrema lines = Ok (map (fun p => (ends2 (fst p), ends2 (snd p))) items).
Proof.
  intros G F. unfold parsePathExtrema. induction F as [|[a b] line items lines Hl F IH]; [reflexivity|]. inversion G as [|? ? Gp G']; subst. cbn [fst snd] in *. cbn [mapM map]. rewrite (words_with _ _ Hl), (IH G'). destruct Gp as ((Gw & Gx & Gy & Gz) & (Hw & Hx & Hy & Hz)). unfold namedWords, atP, zget. cbn [app Z.ltb Z.compare].
  change (Z.to_nat 0) with O. change (Z.to_nat 1) with 1%nat. change (Z.to_nat 2) with 2%nat. change (Z.to_nat 3) with 3%nat. change (Z.to_nat 4) with 4%nat. change (Z.to_nat 5) with 5%nat. change (Z.to_nat 6) with 6%nat. change (Z.to_nat 7) with 7%nat. cbn [nth_error bind].
  rewrite !stod_number by assumption. reflexivity.
Qed.
Lemma unquoted q s : ~ In q s -> quoted q s = Err.
Proof. intro H. unfold quoted. rewrite (proj1 (find_none _ _) H). reflexivity. Qed.
Lemma one_quote q a z : ~ In q a -> ~ In q z -> quoted q (a ++ q :: z) = Err.
Proof. intros Ha Hz. unfold quoted. rewrite find_app, findLast_app by assumption. rewrite Nat.eqb_refl. reflexivity. Qed.
