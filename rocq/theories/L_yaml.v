(** Lemmas for C139: one line *)
From Coq Require Import QArith Ascii String.
From Verif Require Import Base BaseLemmas M_context S_context L_context M_yaml S_yaml.
Open Scope Z_scope.

Lemma num_sep c : numChar c = true -> separator c = false.
Proof. destruct c as [[] [] [] [] [] [] [] []]; vm_compute; congruence. Qed.
Lemma digit_num c : isdigit c = true -> numChar c = true.
Proof. intro H. unfold numChar. rewrite H. reflexivity. Qed.
Lemma alpha_space c : isalpha c = true -> isspace c = false.
Proof. destruct c as [[] [] [] [] [] [] [] []]; vm_compute; congruence. Qed.
Lemma tokens_sep b s : Forall (fun c => separator c = true) b -> tokensFrom [] (b ++ s) = tokensFrom [] s.
Proof. intro H. induction H as [|c b Hc _ IH]; [reflexivity|]. cbn [app tokensFrom]. rewrite Hc. exact IH. Qed.
Lemma tokens_word w : Forall (fun c => separator c = false) w -> forall cur c s, separator c = true -> tokensFrom cur (w ++ c :: s) = flush (cur ++ w) ++ tokensFrom [] s.
Proof.
  intro H. induction H as [|x w Hx _ IH]; intros cur c s Hc; cbn [app tokensFrom].
  - rewrite Hc, app_nil_r. reflexivity.
  - rewrite Hx, IH by exact Hc. rewrite <- app_assoc. reflexivity.
Qed.
Lemma flush_ne w : w <> [] -> flush w = [w].
Proof. destruct w; [congruence|reflexivity]. Qed.
Lemma tokens_num w c s : Forall (fun c => numChar c = true) w -> w <> [] -> separator c = true -> tokensFrom [] (w ++ c :: s) = w :: tokensFrom [] s.
Proof. intros H N Hc. rewrite tokens_word; [cbn [app]; rewrite flush_ne by exact N; reflexivity| |exact Hc]. eapply Forall_impl; [|exact H]. intros x. apply num_sep. Qed.
Lemma tokens_brackets w a b c mark : Forall (fun c => separator c = false) w -> w <> [] -> (forall x, In x [a; b; c] -> x <> [] /\ Forall (fun c => numChar c = true) x) ->
  exists rest, tokensFrom [] (w ++ " "%char :: brackets a b c ++ mark) = w :: str! "[" :: a :: b :: c :: rest.
Proof.
  intros W Wn H. destruct (H a ltac:(cbn; tauto)) as [a0 a1]. destruct (H b ltac:(cbn; tauto)) as [b0 b1]. destruct (H c ltac:(cbn; tauto)) as [c0 c1].
  rewrite tokens_word by (exact W || reflexivity). cbn [app]. rewrite flush_ne by exact Wn. unfold brackets. rewrite <- !app_assoc. cbn [list_ascii_of_string app].
  change (tokensFrom [] ("["%char :: " "%char :: a ++ ","%char :: " "%char :: b ++ ","%char :: " "%char :: c ++ " "%char :: "]"%char :: mark))
    with (str! "[" :: tokensFrom [] (a ++ ","%char :: " "%char :: b ++ ","%char :: " "%char :: c ++ " "%char :: "]"%char :: mark)).
  rewrite tokens_num by (assumption || reflexivity). change (tokensFrom [] (" "%char :: b ++ ","%char :: " "%char :: c ++ " "%char :: "]"%char :: mark)) with (tokensFrom [] (b ++ ","%char :: " "%char :: c ++ " "%char :: "]"%char :: mark)).
  rewrite tokens_num by (assumption || reflexivity). change (tokensFrom [] (" "%char :: c ++ " "%char :: "]"%char :: mark)) with (tokensFrom [] (c ++ " "%char :: "]"%char :: mark)).
  rewrite tokens_num by (assumption || reflexivity). eexists. reflexivity.
Qed.
Lemma nums3 t : good3 t -> let '(a, b, c) := t in forall x, In x [nText a; nText b; nText c] -> x <> [] /\ Forall (fun c => numChar c = true) x.
Proof. destruct t as [[a b] c]. intros ((a0 & a1 & _) & (b0 & b1 & _) & (c0 & c1 & _)) x [<-|[<-|[<-|[]]]]; split; assumption. Qed.
Lemma triple_tokens l t w rest : good3 t -> (let '(a, b, c) := t in tokenize l = w :: str! "[" :: nText a :: nText b :: nText c :: rest) -> triple l = Ok (val3 t).
Proof.
  destruct t as [[a b] c]. intros ((_ & _ & a2) & (_ & _ & b2) & (_ & _ & c2)) E. unfold triple, token. rewrite E.
  change (zget (w :: str! "[" :: nText a :: nText b :: nText c :: rest) 2) with (Some (nText a)). change (zget (w :: str! "[" :: nText a :: nText b :: nText c :: rest) 3) with (Some (nText b)).
  change (zget (w :: str! "[" :: nText a :: nText b :: nText c :: rest) 4) with (Some (nText c)). cbn [bind]. rewrite a2, b2, c2. reflexivity.
Qed.
Lemma triple_vector t m : good3 t -> triple (vectorLine t m) = Ok (val3 t).
Proof.
  intro G. destruct (tokens_brackets (str! "-") (nText (fst (fst t))) (nText (snd (fst t))) (nText (snd t)) m) as (rest & E); [repeat constructor|discriminate| |].
  { pose proof (nums3 _ G) as N. destruct t as [[a b] c]. exact N. }
  apply (triple_tokens _ t (str! "-") rest G). destruct t as [[a b] c]. cbn [fst snd] in E. exact E.
Qed.
Lemma triple_coord t : good3 t -> triple (coordLine t) = Ok (val3 t).
Proof.
  intro G. destruct (tokens_brackets (str! "coordinates:") (nText (fst (fst t))) (nText (snd (fst t))) (nText (snd t)) []) as (rest & E); [repeat constructor|discriminate| |].
  { pose proof (nums3 _ G) as N. destruct t as [[a b] c]. exact N. }
  apply (triple_tokens _ t (str! "coordinates:") rest G). destruct t as [[a b] c]. cbn [fst snd] in E. rewrite app_nil_r in E. exact E.
Qed.
Lemma three_matrix g l0 l1 l2 : goodGrid g -> matrixLines g = [l0; l1; l2] -> threeRows l0 l1 l2 = Ok (gridOf g).
Proof.
  destruct g as [[a b] c]. intros ((a0 & a1 & a2 & _) & (b0 & b1 & b2 & _) & (c0 & c1 & c2 & _)) E. cbn [matrixLines] in E.
  pose proof (f_equal (fun l => nth 0 l []) E) as F0. pose proof (f_equal (fun l => nth 1 l []) E) as F1. pose proof (f_equal (fun l => nth 2 l []) E) as F2. cbn [nth] in F0, F1, F2. subst l0 l1 l2. clear E.
  assert (Z0 : str! "0" <> [] /\ Forall (fun c => numChar c = true) (str! "0")) by (split; [discriminate|repeat constructor]).
  assert (N : forall x, x <> [] -> Forall (fun c => isdigit c = true) x -> x <> [] /\ Forall (fun c => numChar c = true) x) by (intros x X Y; split; [exact X|eapply Forall_impl; [|exact Y]; intros q; apply digit_num]).
  pose proof (N _ a0 a1) as Na. pose proof (N _ b0 b1) as Nb. pose proof (N _ c0 c1) as Nc.
  assert (K : forall x y z, (x <> [] /\ Forall (fun c => numChar c = true) x) -> (y <> [] /\ Forall (fun c => numChar c = true) y) -> (z <> [] /\ Forall (fun c => numChar c = true) z) ->
    exists rest, tokenize (str! "- " ++ brackets x y z) = str! "-" :: str! "[" :: x :: y :: z :: rest).
  { intros x y z X Y W. destruct (tokens_brackets (str! "-") x y z []) as (rest & E); [repeat constructor|discriminate|intros q [<-|[<-|[<-|[]]]]; assumption|]. rewrite app_nil_r in E. exists rest. exact E. }
  destruct (K _ _ _ Na Z0 Z0) as (r0 & E0). destruct (K _ _ _ Z0 Nb Z0) as (r1 & E1). destruct (K _ _ _ Z0 Z0 Nc) as (r2 & E2).
  unfold threeRows, rowDim, token. rewrite E0, E1, E2.
  change (zget (str! "-" :: str! "[" :: iText a :: str! "0" :: str! "0" :: r0) (2 + 0)) with (Some (iText a)).
  change (zget (str! "-" :: str! "[" :: str! "0" :: iText b :: str! "0" :: r1) (2 + 1)) with (Some (iText b)).
  change (zget (str! "-" :: str! "[" :: str! "0" :: str! "0" :: iText c :: r2) (2 + 2)) with (Some (iText c)).
  cbn [bind]. rewrite a2, b2, c2. reflexivity.
Qed.

(** words that a line does not contain *)
Lemma nofind l k c : In c k -> ~ In c l -> finds l k = false.
Proof. intros K N. unfold finds. destruct (patternInString l k) eqn:E; [|reflexivity]. exfalso. apply N. exact (pattern_In _ _ _ E K). Qed.
Lemma notin_app (c : ascii) a b : ~ In c a -> ~ In c b -> ~ In c (a ++ b).
Proof. intros A B H. apply in_app_or in H. tauto. Qed.
Lemma notin_num c (w : str) : Forall (fun c => numChar c = true) w -> numChar c = false -> ~ In c w.
Proof. rewrite Forall_forall. intros H E I. rewrite (H _ I) in E. discriminate. Qed.
Lemma notin_lit c s : has c s = false -> ~ In c s.
Proof. apply has_notIn. Qed.
Definition allWords : list str := str! "length" :: str! "phonon_supercell_matrix:" :: str! "phonon_supercell:" :: words.
Definition silent (l : str) : Prop := forall k, In k allWords -> finds l k = false.
Lemma in_brackets ch a b c : (forall x, In x [a; b; c] -> ~ In ch x) -> has ch (str! "[], ") = false -> ~ In ch (brackets a b c).
Proof.
  intros H L. assert (K : forall s : str, (forall x, In x s -> In x (str! "[], ")) -> ~ In ch s) by (intros s S I; apply (notin_lit _ _ L); apply S; exact I).
  unfold brackets. repeat apply notin_app; try (apply H; cbn; tauto); apply K; cbn; intros x; tauto.
Qed.
Lemma brackets_num ch a b c : (forall x, In x [a; b; c] -> x <> [] /\ Forall (fun c => numChar c = true) x) -> numChar ch = false -> has ch (str! "[], ") = false -> ~ In ch (brackets a b c).
Proof. intros H E L. apply in_brackets; [|exact L]. intros x Hx. apply notin_num; [apply H; exact Hx|exact E]. Qed.
Lemma silent_colon l : ~ In ":"%char l -> ~ In "l"%char l -> silent l.
Proof.
  intros C L k [<-|K]; [apply (nofind _ _ "l"%char); [cbn; tauto|exact L]|]. apply (nofind _ _ ":"%char); [|exact C].
  repeat (destruct K as [<-|K]; [cbn; tauto|]). destruct K.
Qed.
Definition marks : list str := [str! " # a"; str! " # b"; str! " # c"; str! " # a*"; str! " # b*"; str! " # c*"; []].
Lemma vector_silent t m : good3 t -> In m marks -> silent (vectorLine t m).
Proof.
  intros G M. pose proof (nums3 t G) as N. destruct t as [[a b] c].
  apply silent_colon; unfold vectorLine; (apply notin_app; [apply notin_lit; reflexivity|]); (apply notin_app; [apply brackets_num; [exact N|reflexivity|reflexivity]|]);
    repeat (destruct M as [<-|M]; [apply notin_lit; reflexivity|]); destruct M.
Qed.
Lemma mass_silent n : goodNumeral n -> silent (str! "    mass: " ++ nText n).
Proof.
  intros (_ & N & _) k K.
  assert (A : forall c, has c (str! "    mass: ") = false -> numChar c = false -> ~ In c (str! "    mass: " ++ nText n)) by (intros c X Y; apply notin_app; [apply notin_lit; exact X|apply notin_num; assumption]).
  repeat (destruct K as [<-|K]; [first [apply (nofind _ _ "l"%char); [cbn; tauto|apply A; reflexivity] | apply (nofind _ _ "y"%char); [cbn; tauto|apply A; reflexivity] | apply (nofind _ _ "c"%char); [cbn; tauto|apply A; reflexivity] | apply (nofind _ _ "r"%char); [cbn; tauto|apply A; reflexivity]]|]).
  destruct K.
Qed.
Lemma coord_only t : good3 t -> (forall k, In k allWords -> k <> str! "coordinates: " -> finds (coordLine t) k = false) /\ finds (coordLine t) (str! "coordinates: ") = true.
Proof.
  intro G. pose proof (nums3 t G) as N. destruct t as [[a b] c]. split; [|reflexivity]. intros k K NE.
  assert (A : forall ch, has ch (str! "    coordinates: ") = false -> has ch (str! "[], ") = false -> numChar ch = false -> ~ In ch (coordLine (a, b, c))).
  { intros ch X Y W. unfold coordLine. apply notin_app; [apply notin_lit; exact X|apply brackets_num; assumption]. }
  repeat (destruct K as [<-|K]; [first [apply (nofind _ _ "l"%char); [cbn; tauto|apply A; reflexivity] | apply (nofind _ _ "y"%char); [cbn; tauto|apply A; reflexivity] | apply (nofind _ _ "u"%char); [cbn; tauto|apply A; reflexivity] | apply (nofind _ _ "p"%char); [cbn; tauto|apply A; reflexivity] | exfalso; apply NE; reflexivity]|]).
  destruct K.
Qed.
Definition symbolLine (p : point) : str := str! "  - symbol: " ++ pName p ++ str! " # " ++ iText (pNumber p).
Lemma short_three (w : str) a b c : (length w <= 2)%nat -> a <> b -> a <> c -> b <> c -> In a w -> In b w -> In c w -> False.
Proof. intros L ab ac bc A B C. assert (H : (length [a; b; c] <= length w)%nat) by (apply NoDup_incl_length; [repeat constructor; cbn; intuition congruence|intros x [<-|[<-|[<-|[]]]]; assumption]). cbn in H. lia. Qed.
Lemma nofind3 p k a b c : goodPoint p -> a <> b -> a <> c -> b <> c -> (forall x, In x [a; b; c] -> In x k /\ has x (str! "  - symbol:  # ") = false /\ isdigit x = false) -> finds (symbolLine p) k = false.
Proof.
  intros (_ & L & _ & (_ & D & _) & _) ab ac bc H. unfold finds. destruct (patternInString (symbolLine p) k) eqn:E; [|reflexivity]. exfalso.
  assert (A : forall x, In x [a; b; c] -> In x (pName p)).
  { intros x Hx. destruct (H x Hx) as (K & X & Y). pose proof (pattern_In _ _ _ E K) as I. unfold symbolLine in I. apply in_app_or in I as [I|I]; [|apply in_app_or in I as [I|I]; [exact I|apply in_app_or in I as [I|I]]]; exfalso.
    - apply (notin_lit _ _ X). cbn in I |- *. tauto.
    - apply (notin_lit _ _ X). cbn in I |- *. tauto.
    - rewrite Forall_forall in D. rewrite (D _ I) in Y. discriminate. }
  apply (short_three (pName p) a b c L ab ac bc); apply A; cbn; tauto.
Qed.
Lemma symbol_only p : goodPoint p -> (forall k, In k allWords -> k <> str! " symbol: " -> finds (symbolLine p) k = false) /\ finds (symbolLine p) (str! " symbol: ") = true.
Proof.
  intro G. split; [|reflexivity]. intros k K NE.
  destruct K as [<-|[<-|[<-|[<-|[<-|[<-|[<-|[<-|[<-|[<-|[]]]]]]]]]]].
  - apply (nofind3 p _ "e"%char "n"%char "g"%char G); try discriminate. intros x [<-|[<-|[<-|[]]]]; (split; [cbn; tauto|split; reflexivity]).
  - apply (nofind3 p _ "p"%char "h"%char "n"%char G); try discriminate. intros x [<-|[<-|[<-|[]]]]; (split; [cbn; tauto|split; reflexivity]).
  - apply (nofind3 p _ "p"%char "h"%char "n"%char G); try discriminate. intros x [<-|[<-|[<-|[]]]]; (split; [cbn; tauto|split; reflexivity]).
  - apply (nofind3 p _ "u"%char "p"%char "e"%char G); try discriminate. intros x [<-|[<-|[<-|[]]]]; (split; [cbn; tauto|split; reflexivity]).
  - exfalso. apply NE. reflexivity.
  - apply (nofind3 p _ "c"%char "r"%char "d"%char G); try discriminate. intros x [<-|[<-|[<-|[]]]]; (split; [cbn; tauto|split; reflexivity]).
  - apply (nofind3 p _ "a"%char "t"%char "i"%char G); try discriminate. intros x [<-|[<-|[<-|[]]]]; (split; [cbn; tauto|split; reflexivity]).
  - apply (nofind3 p _ "u"%char "n"%char "i"%char G); try discriminate. intros x [<-|[<-|[<-|[]]]]; (split; [cbn; tauto|split; reflexivity]).
  - apply (nofind3 p _ "p"%char "r"%char "i"%char G); try discriminate. intros x [<-|[<-|[<-|[]]]]; (split; [cbn; tauto|split; reflexivity]).
  - apply (nofind3 p _ "u"%char "p"%char "e"%char G); try discriminate. intros x [<-|[<-|[<-|[]]]]; (split; [cbn; tauto|split; reflexivity]).
Qed.
Lemma remove_space_alpha w : Forall (fun c => isalpha c = true) w -> remove isspace w = w.
Proof. intro H. induction H as [|c w Hc _ IH]; [reflexivity|]. cbn [remove filter]. rewrite (alpha_space c Hc). cbn [negb]. f_equal. exact IH. Qed.
Lemma symbolOf_line p : goodPoint p -> symbolOf (symbolLine p) = pName p.
Proof.
  intros (_ & _ & A & _). unfold symbolOf.
  change (findPattern (symbolLine p) (str! "symbol: ")) with (Some 4%nat). cbv beta iota. change (skipn (4 + 8) (symbolLine p)) with (pName p ++ str! " # " ++ iText (pNumber p)).
  replace (findFirst "#"%char (symbolLine p)) with (Some (13 + length (pName p))%nat).
  - replace (13 + length (pName p) <? 13)%nat with false by (symmetry; apply Nat.ltb_ge; lia). replace (13 + length (pName p) - 13)%nat with (length (pName p)) by lia.
    rewrite firstn_app, Nat.sub_diag, firstn_all. cbn [firstn]. rewrite app_nil_r. apply remove_space_alpha. exact A.
  - symmetry. unfold symbolLine. rewrite app_assoc. change (str! " # " ++ iText (pNumber p)) with (str! " " ++ "#"%char :: " "%char :: iText (pNumber p)). rewrite app_assoc.
    rewrite find_app; [rewrite !app_length; cbn [length list_ascii_of_string]; f_equal; lia|]. apply notin_app; [apply notin_app|apply notin_lit; reflexivity]; [apply notin_lit; reflexivity|].
    intro I. rewrite Forall_forall in A. specialize (A _ I). discriminate.
Qed.
