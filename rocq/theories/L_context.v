(** Lemmas on the reading of the input file. *)
From Coq Require Import QArith Ascii String Permutation.
From Verif Require Import Base BaseLemmas M_context S_context.
Open Scope Z_scope.

(** * Characters and strings *)
Lemma streq_eq a : forall b, streq a b = true <-> a = b.
Proof.
  induction a as [|x a IH]; intros [|y b]; cbn [streq]; try (split; [discriminate|discriminate]); [split; reflexivity|].
  rewrite andb_true_iff, IH. rewrite Ascii.eqb_eq. split; [intros [-> ->]; reflexivity|intro H; injection H as -> ->; split; reflexivity].
Qed.
Lemma streq_refl a : streq a a = true.
Proof. apply streq_eq. reflexivity. Qed.
Lemma streq_neq a b : streq a b = false <-> a <> b.
Proof. destruct (streq a b) eqn:E; split; intro H; try congruence; [apply streq_eq in E; congruence|intro C; subst b; rewrite streq_refl in E; discriminate]. Qed.
Lemma isc_eq c x : isc c x = true <-> x = c.
Proof. unfold isc. apply Ascii.eqb_eq. Qed.
Lemma isc_neq c x : isc c x = false <-> x <> c.
Proof. unfold isc. apply Ascii.eqb_neq. Qed.
Lemma without_notin cs s c : without cs s -> In c cs -> ~ In c s.
Proof. unfold without. rewrite Forall_forall. intros H Hc Hs. exact (H c Hs Hc). Qed.
Lemma find_none c s : ~ In c s <-> findFirst c s = None.
Proof.
  induction s as [|x s IH]; cbn [findFirst]; [split; [reflexivity|intros _ []]|]. destruct (isc c x) eqn:E.
  - apply isc_eq in E. subst x. split; [intro H; exfalso; apply H; left; reflexivity|discriminate].
  - apply isc_neq in E. destruct (findFirst c s) as [n|]; cbn [option_map]; split; intro H; try discriminate; try reflexivity.
    + exfalso. assert (~ In c s) by (intro; apply H; right; assumption). apply IH in H0. discriminate.
    + intros [F|F]; [congruence|]. apply IH; [reflexivity|exact F].
Qed.
Lemma find_app c a b : ~ In c a -> findFirst c (a ++ c :: b) = Some (length a).
Proof.
  induction a as [|x a IH]; intro H; cbn [app findFirst length].
  - replace (isc c c) with true by (symmetry; apply isc_eq; reflexivity). reflexivity.
  - destruct (isc c x) eqn:E; [apply isc_eq in E; exfalso; apply H; left; exact E|]. rewrite IH by (intro; apply H; right; assumption). reflexivity.
Qed.
Lemma find_skip c a b : ~ In c a -> findFirst c (a ++ b) = option_map (fun n => (length a + n)%nat) (findFirst c b).
Proof.
  induction a as [|x a IH]; intro H; cbn [app findFirst length Nat.add]; [destruct (findFirst c b); reflexivity|].
  destruct (isc c x) eqn:E; [apply isc_eq in E; exfalso; apply H; left; exact E|]. rewrite IH by (intro; apply H; right; assumption). destruct (findFirst c b); reflexivity.
Qed.
Lemma findLast_none c s : ~ In c s -> findLast c s = None.
Proof. induction s as [|x s IH]; intro H; cbn [findLast]; [reflexivity|]. rewrite IH by (intro; apply H; right; assumption). destruct (isc c x) eqn:E; [apply isc_eq in E; exfalso; apply H; left; exact E|reflexivity]. Qed.
Lemma findLast_app c a b : ~ In c b -> findLast c (a ++ c :: b) = Some (length a).
Proof.
  intro H. induction a as [|x a IH]; cbn [app findLast length].
  - rewrite findLast_none by exact H. replace (isc c c) with true by (symmetry; apply isc_eq; reflexivity). reflexivity.
  - rewrite IH. reflexivity.
Qed.
Lemma has_In c s : has c s = true <-> In c s.
Proof. unfold has. rewrite existsb_exists. split; [intros (x & Hx & E); apply isc_eq in E; subst x; exact Hx|intro H; exists c; split; [exact H|apply isc_eq; reflexivity]]. Qed.
Lemma has_notIn c s : has c s = false <-> ~ In c s.
Proof. rewrite <- has_In. destruct (has c s); split; congruence. Qed.

(** * Splitting *)
Lemma splitAll_none sep s : ~ In sep s -> splitAll sep s = [s].
Proof.
  induction s as [|c s IH]; intro H; cbn [splitAll]; [reflexivity|]. destruct (isc sep c) eqn:E; [apply isc_eq in E; exfalso; apply H; left; exact E|].
  rewrite IH by (intro; apply H; right; assumption). reflexivity.
Qed.
Lemma splitAll_app sep a b : ~ In sep a -> splitAll sep (a ++ sep :: b) = a :: splitAll sep b.
Proof.
  induction a as [|c a IH]; intro H; cbn [app splitAll].
  - replace (isc sep sep) with true by (symmetry; apply isc_eq; reflexivity). reflexivity.
  - destruct (isc sep c) eqn:E; [apply isc_eq in E; exfalso; apply H; left; exact E|]. rewrite IH by (intro; apply H; right; assumption). reflexivity.
Qed.
Lemma split_none sep s : ~ In sep s -> split sep s = match s with [] => [] | _ => [s] end.
Proof. intro H. unfold split. rewrite splitAll_none by exact H. cbn [filter]. destruct s; reflexivity. Qed.

(** * Comments and blanks *)
Definition noc (c : ascii) (s : str) : Prop := ~ In c s.
Lemma strip_none s : ~ In "#"%char s -> stripComment s = s.
Proof. intro H. unfold stripComment. rewrite (proj1 (find_none _ _) H). reflexivity. Qed.
Lemma strip_app a b : ~ In "#"%char a -> stripComment (a ++ "#"%char :: b) = a.
Proof. intro H. unfold stripComment. rewrite find_app by exact H. cbn [substrBefore]. rewrite firstn_app, Nat.sub_diag, firstn_all. cbn [firstn]. apply app_nil_r. Qed.
Lemma strip_more l c : stripComment (l ++ "#"%char :: c) = stripComment l.
Proof.
  destruct (in_dec ascii_dec "#"%char l) as [H|H].
  - apply in_split in H as (a & b & ->). rewrite <- app_assoc. cbn [app]. unfold stripComment.
    assert (E : exists n, findFirst "#"%char (a ++ "#"%char :: b) = Some n /\ findFirst "#"%char (a ++ "#"%char :: b ++ "#"%char :: c) = Some n /\ (n <= length a)%nat).
    { induction a as [|x a IH]; cbn [app findFirst]; [exists O; split; [reflexivity|split; [reflexivity|cbn; lia]]|]. destruct (isc "#"%char x); [exists O; split; [reflexivity|split; [reflexivity|lia]]|].
      destruct IH as (n & -> & -> & Hn). exists (S n). split; [reflexivity|split; [reflexivity|cbn [length]; lia]]. }
    destruct E as (n & -> & -> & Hn). cbn [substrBefore]. rewrite !firstn_app. f_equal. replace (n - length a)%nat with O by lia. reflexivity.
  - rewrite strip_app, strip_none by exact H. reflexivity.
Qed.
Lemma comment_no_semicolon c : comment c -> ~ In ";"%char c.
Proof. intros [->|(d & -> & H)]; [intros []|]. intros [F|F]; [discriminate|]. apply (without_notin _ _ ";"%char H); [left; reflexivity|exact F]. Qed.
Lemma strip_comment a c : ~ In "#"%char a -> comment c -> stripComment (a ++ c) = a.
Proof. intros H [->|(d & -> & _)]; [rewrite app_nil_r; apply strip_none; exact H|apply strip_app; exact H]. Qed.
Lemma blank_notin b c : blank b -> isspace c = false -> ~ In c b.
Proof. unfold blank. rewrite Forall_forall. intros H E F. rewrite (H c F) in E. discriminate. Qed.
Lemma isPrefix_In p s c : isPrefix p s = true -> In c p -> In c s.
Proof. revert s. induction p as [|x p IH]; intros s H Hc; [destruct Hc|]. destruct s as [|y s]; [discriminate|]. cbn [isPrefix] in H. apply andb_true_iff in H as [E H]. apply Ascii.eqb_eq in E. subst y. destruct Hc as [->|Hc]; [left; reflexivity|right; apply IH; assumption]. Qed.
Lemma pattern_In s p c : patternInString s p = true -> In c p -> In c s.
Proof.
  induction s as [|x s IH]; intros H Hc; cbn [patternInString] in H; rewrite orb_true_iff in H.
  - destruct H as [H|H]; [apply (isPrefix_In p); assumption|discriminate].
  - destruct H as [H|H]; [apply (isPrefix_In p); assumption|right; apply IH; assumption].
Qed.
Lemma findPattern_iff s p : findPattern s p = None <-> patternInString s p = false.
Proof.
  induction s as [|x s IH]; cbn [findPattern patternInString].
  - destruct (isPrefix p []); cbn [orb]; split; congruence.
  - destruct (isPrefix p (x :: s)); cbn [orb]; [split; congruence|]. destruct (findPattern s p); cbn [option_map]; rewrite <- IH; split; congruence.
Qed.

(** * Lines that do nothing, outside blocks *)
Definition inert (toks : list str) : Prop := forall rest st, readLines (toks ++ rest) st = readLines rest st.
Lemma untilEnd_closed a x b : (exists e, In e a /\ patternInString e (str! "end") = true) -> untilEnd (a ++ x ++ b) = untilEnd (a ++ b).
Proof.
  intros (e & He & P). induction a as [|y a IH]; [destruct He|]. cbn [app untilEnd]. destruct (patternInString y (str! "end")) eqn:E; [reflexivity|].
  destruct He as [->|He]; [congruence|]. rewrite IH by exact He. reflexivity.
Qed.
Lemma setBlock_closed st line a x b : (patternInString line (str! "begin") = true -> exists e, In e a /\ patternInString e (str! "end") = true) ->
  setBlock st line (a ++ x ++ b) = setBlock st line (a ++ b).
Proof.
  intro H. unfold setBlock, parseBlockNameValue. destruct (findPattern line (str! "begin")) as [p|] eqn:F; [|reflexivity].
  rewrite untilEnd_closed; [reflexivity|]. apply H. destruct (patternInString line (str! "begin")) eqn:E; [reflexivity|]. apply findPattern_iff in E. congruence.
Qed.
Lemma readLines_insert toks x rest : (forall before l after, toks = before ++ l :: after -> patternInString (stripComment l) (str! "begin") = true -> exists e, In e after /\ patternInString e (str! "end") = true) ->
  inert x -> forall st, readLines (toks ++ x ++ rest) st = readLines (toks ++ rest) st.
Proof.
  intros H Hx. induction toks as [|l toks IH]; intro st; [apply Hx|]. cbn [app readLines].
  assert (E : setBlock st (stripComment l) (toks ++ x ++ rest) = setBlock st (stripComment l) (toks ++ rest)) by (apply setBlock_closed; intro B; exact (H [] l toks eq_refl B)).
  rewrite E. assert (IH' : forall st, readLines (toks ++ x ++ rest) st = readLines (toks ++ rest) st) by (apply IH; intros b l' a -> B; apply (H (l :: b) l' a); [reflexivity|exact B]).
  destruct (match stripComment l with [] => Ok st | _ => if lineHasParameter (stripComment l) then setParameter st (stripComment l) else setBlock st (stripComment l) (toks ++ rest) end); cbn [bind]; [apply IH'|reflexivity|reflexivity].
Qed.
Lemma setup_insert f1 f2 l : closedBlocks f1 -> inert (split ";"%char l) -> setupFromInput (f1 ++ [l] ++ f2) = setupFromInput (f1 ++ f2).
Proof. intros H Hl. unfold setupFromInput. rewrite !flat_map_app. cbn [flat_map]. rewrite app_nil_r. apply readLines_insert; assumption. Qed.
Lemma blank_inert b : blank b -> forall rest st, readLines rest st = (do st <- (match b with [] => Ok st | _ => if lineHasParameter b then setParameter st b else setBlock st b rest end) ; readLines rest st).
Proof.
  intros B rest st. destruct b as [|c b]; [reflexivity|]. assert (N : ~ In "="%char (c :: b)) by (apply blank_notin; [exact B|reflexivity]). unfold lineHasParameter. rewrite (proj2 (has_notIn _ _) N).
  unfold setBlock, parseBlockNameValue. assert (F : findPattern (c :: b) (str! "begin") = None). { apply findPattern_iff. destruct (patternInString (c :: b) (str! "begin")) eqn:E; [|reflexivity]. exfalso. apply (blank_notin (c :: b) "b"%char B eq_refl). apply (pattern_In _ _ "b"%char E). left. reflexivity. }
  rewrite F. reflexivity.
Qed.
Lemma ignorable_inert l : ignorable l -> inert (split ";"%char l).
Proof.
  intros (b & c & -> & Hb & Hc) rest st. rewrite split_none.
  2: { rewrite in_app_iff. intros [F|F]; [exact (blank_notin b ";"%char Hb eq_refl F)|exact (comment_no_semicolon c Hc F)]. }
  destruct (b ++ c) as [|x s] eqn:E; [reflexivity|]. rewrite <- E. cbn [app readLines]. rewrite (strip_comment b c) by (assumption || apply blank_notin; assumption || reflexivity). symmetry. apply blank_inert. exact Hb.
Qed.
Lemma trailing_comment f1 f2 l c : ~ In ";"%char l -> comment c -> closedBlocks f1 -> setupFromInput (f1 ++ [l ++ c] ++ f2) = setupFromInput (f1 ++ [l] ++ f2).
Proof.
  intros Hl [->|(d & -> & Hd)] Hf; [rewrite app_nil_r; reflexivity|]. unfold setupFromInput. rewrite !flat_map_app. cbn [flat_map]. rewrite !app_nil_r.
  rewrite split_none. 2: { rewrite in_app_iff. intros [F|F]; [exact (Hl F)|]. apply (comment_no_semicolon ("#"%char :: d)); [right; exists d; split; [reflexivity|exact Hd]|exact F]. }
  rewrite (split_none _ l) by exact Hl.
  assert (E : forall rest st, readLines ((match l ++ "#"%char :: d with [] => [] | _ => [l ++ "#"%char :: d] end) ++ rest) st = readLines ((match l with [] => [] | _ => [l] end) ++ rest) st).
  { intros rest st. destruct l as [|x l']; [pose proof (strip_app [] d (fun F => F)) as E0; cbn [app] in E0; cbn [app readLines]; rewrite E0; reflexivity|]. cbn [app]. cbn [readLines]. change (x :: l' ++ "#"%char :: d) with ((x :: l') ++ "#"%char :: d). rewrite strip_more. reflexivity. }
  unfold closedBlocks in Hf. generalize (defaults). revert Hf. generalize (flat_map (split ";"%char) f1). intro toks. induction toks as [|t toks IH]; intros Hf st; [apply E|]. cbn [app readLines].
  assert (EB : forall x rest, setBlock st (stripComment t) (toks ++ x ++ rest) = setBlock st (stripComment t) (toks ++ rest)) by (intros x rest; apply setBlock_closed; intro B; exact (Hf [] t toks eq_refl B)).
  rewrite !EB. assert (IH' : forall st, readLines (toks ++ match l ++ "#"%char :: d with [] => [] | _ => [l ++ "#"%char :: d] end ++ flat_map (split ";"%char) f2) st = readLines (toks ++ match l with [] => [] | _ => [l] end ++ flat_map (split ";"%char) f2) st) by (apply IH; intros b l1 a -> B; apply (Hf (t :: b) l1 a); [reflexivity|exact B]).
  match goal with |- bind ?x _ = bind ?y _ => destruct x; cbn [bind]; [apply IH'|reflexivity|reflexivity] end.
Qed.

(** * key = value *)
Lemma remove_all f s : Forall (fun c => f c = true) s -> remove f s = [].
Proof. induction 1 as [|c s E _ IH]; [reflexivity|]. unfold remove in *. cbn [filter]. rewrite E. exact IH. Qed.
Lemma remove_none f s : Forall (fun c => f c = false) s -> remove f s = s.
Proof. induction 1 as [|c s E _ IH]; [reflexivity|]. unfold remove in *. cbn [filter]. rewrite E. cbn [negb]. f_equal. exact IH. Qed.
Lemma remove_app f a b : remove f (a ++ b) = remove f a ++ remove f b.
Proof. unfold remove. apply filter_app. Qed.
Lemma firstn_long {A} n (l : list A) : (length l <= n)%nat -> firstn n l = l.
Proof. apply firstn_all2. Qed.
Lemma parse_name ws1 key ws2 v : blank ws1 -> blank ws2 -> without ["="; "("; "#"; ";"]%char key -> Forall (fun c => isspace c = false) key ->
  parseParameterNameValue (ws1 ++ key ++ ws2 ++ "="%char :: v) = (key, v).
Proof.
  intros B1 B2 W N. unfold parseParameterNameValue.
  set (pre := ws1 ++ key ++ ws2). assert (Epre : ws1 ++ key ++ ws2 ++ "="%char :: v = pre ++ "="%char :: v) by (unfold pre; rewrite <- !app_assoc; reflexivity). rewrite Epre.
  assert (Hpre : forall c, In c ["="; "("]%char -> ~ In c pre).
  { intros c Hc. unfold pre. rewrite !in_app_iff. destruct Hc as [<-|[<-|[]]]; intros [F|[F|F]]; first [eapply (blank_notin ws1); [exact B1| |exact F]; reflexivity|eapply (blank_notin ws2); [exact B2| |exact F]; reflexivity|eapply (without_notin _ _ _ W); [|exact F]; cbn; tauto]. }
  rewrite find_app by (apply Hpre; cbn; tauto). cbn [substrBefore substrAfter].
  assert (Ef : firstn (length pre) (pre ++ "="%char :: v) = pre) by (rewrite firstn_app, Nat.sub_diag, firstn_all; cbn [firstn]; apply app_nil_r).
  assert (Es : skipn (S (length pre)) (pre ++ "="%char :: v) = v).
  { replace (S (length pre)) with (length (pre ++ ["="%char])) by (rewrite app_length; cbn [length]; lia). change ("="%char :: v) with (["="%char] ++ v). rewrite app_assoc, skipn_app, Nat.sub_diag, skipn_all. reflexivity. }
  rewrite Ef, Es. assert (Ek : remove isspace pre = key). { unfold pre. rewrite !remove_app, (remove_all _ ws1), (remove_all _ ws2), (remove_none _ key) by assumption. cbn [app]. apply app_nil_r. }
  rewrite Ek. assert (E2 : substrBefore (findFirst "("%char (pre ++ "="%char :: v)) key = key).
  { rewrite find_skip by (apply Hpre; cbn; tauto). destruct (findFirst "("%char ("="%char :: v)) as [n|]; [|reflexivity]. cbn [option_map substrBefore]. apply firstn_long. unfold pre. rewrite !app_length. lia. }
  rewrite E2, (remove_none _ key) by exact N. rewrite streq_refl. reflexivity.
Qed.
(** what one assignment does *)
Definition setKey (st : settings) (p : str * str) : res settings :=
  match kindOf (fst p) with None => Ok st | Some k => do v <- readValue k (socOf st) (snd p) ; Ok (assign st (fst p) v) end.
Lemma item_read i : goodItem i -> forall rest st, readLines (split ";"%char (render i) ++ rest) st = (do st <- foldM setKey (params [i]) st ; readLines rest st).
Proof.
  destruct i as [l|ws1 key ws2 v c]; intros G rest st; [apply ignorable_inert; exact G|].
  assert (ER : render (Param ws1 key ws2 v c) = (ws1 ++ key ++ ws2 ++ ["="%char] ++ v) ++ c) by (cbn [render]; rewrite <- !app_assoc; reflexivity). rewrite ER. clear ER.
  change (params [Param ws1 key ws2 v c]) with [(key, v)]. cbn [foldM].
  destruct G as (B1 & B2 & W & N & Wv & Hc).
  assert (Hs : ~ In ";"%char (ws1 ++ key ++ ws2 ++ ["="%char] ++ v)).
  { rewrite !in_app_iff. intros [F|[F|[F|[F|F]]]]; [eapply (blank_notin ws1); [exact B1| |exact F]; reflexivity|exact (without_notin _ _ ";"%char W ltac:(cbn; tauto) F)|eapply (blank_notin ws2); [exact B2| |exact F]; reflexivity|cbn in F; destruct F as [F|[]]; discriminate|exact (without_notin _ _ ";"%char Wv ltac:(cbn; tauto) F)]. }
  assert (Hh : ~ In "#"%char (ws1 ++ key ++ ws2 ++ ["="%char] ++ v)).
  { rewrite !in_app_iff. intros [F|[F|[F|[F|F]]]]; [eapply (blank_notin ws1); [exact B1| |exact F]; reflexivity|exact (without_notin _ _ "#"%char W ltac:(cbn; tauto) F)|eapply (blank_notin ws2); [exact B2| |exact F]; reflexivity|cbn in F; destruct F as [F|[]]; discriminate|exact (without_notin _ _ "#"%char Wv ltac:(cbn; tauto) F)]. }
  assert (EP : parseParameterNameValue (ws1 ++ key ++ ws2 ++ ["="%char] ++ v) = (key, v)) by (apply parse_name; assumption).
  assert (He : In "="%char (ws1 ++ key ++ ws2 ++ ["="%char] ++ v)) by (rewrite !in_app_iff; cbn; tauto).
  revert Hs Hh EP He. generalize (ws1 ++ key ++ ws2 ++ ["="%char] ++ v). intros line Hs Hh EP He.
  rewrite split_none by (rewrite in_app_iff; intros [F|F]; [exact (Hs F)|exact (comment_no_semicolon c Hc F)]).
  destruct (line ++ c) as [|x s] eqn:E; [apply app_eq_nil in E as [E _]; rewrite E in He; destruct He|]. rewrite <- E. cbn [app readLines]. rewrite strip_comment by assumption.
  unfold lineHasParameter. rewrite (proj2 (has_In _ _) He). unfold setParameter. rewrite EP. destruct line as [|y line']; [destruct He|].
  unfold setKey. cbn [fst snd]. destruct (kindOf key); cbn [bind]; [|reflexivity]. destruct (readValue k (socOf st) v); reflexivity.
Qed.
Lemma foldM_app' {A S} (f : S -> A -> res S) a b s : foldM f (a ++ b) s = (do s' <- foldM f a s ; foldM f b s').
Proof. revert s. induction a as [|x a IH]; intro s; [reflexivity|]. cbn [app foldM]. destruct (f s x); cbn [bind]; [apply IH|reflexivity|reflexivity]. Qed.
Lemma items_read items : Forall goodItem items -> setupFromInput (map render items) = foldM setKey (params items) defaults.
Proof.
  unfold setupFromInput. generalize defaults. intros st H. revert st. induction H as [|i items G _ IH]; intro st; [reflexivity|].
  cbn [map flat_map]. rewrite item_read by exact G. change (i :: items) with ([i] ++ items). unfold params. rewrite flat_map_app. rewrite foldM_app'. fold (params [i]) (params items).
  destruct (foldM setKey (params [i]) st); cbn [bind]; [apply IH|reflexivity|reflexivity].
Qed.
