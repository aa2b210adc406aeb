(** Lemmas for C139: supercells that are not diagonal *)
From Coq Require Import QArith Ascii String.
From Verif Require Import Base BaseLemmas M_context S_context L_context M_yaml S_yaml L_yaml L_yaml2.
Open Scope Z_scope.

Lemma row_tokens x y z : goodInteger x -> goodInteger y -> goodInteger z -> exists rest, tokenize (str! "- " ++ brackets (zText x) (zText y) (zText z)) = str! "-" :: str! "[" :: zText x :: zText y :: zText z :: rest.
Proof.
  intros (x0 & x1 & _) (y0 & y1 & _) (z0 & z1 & _). destruct (tokens_brackets (str! "-") (zText x) (zText y) (zText z) []) as (rest & E); [repeat constructor|discriminate|intros q [<-|[<-|[<-|[]]]]; split; assumption|]. rewrite app_nil_r in E. exists rest. exact E.
Qed.
Definition pick (i : Z) (x y z : integer) : Z := if i =? 0 then zValue x else if i =? 1 then zValue y else zValue z.
Definition others (i : Z) (x y z : integer) : bool := ((i =? 0) || (zValue x =? 0)) && ((i =? 1) || (zValue y =? 0)) && ((i =? 2) || (zValue z =? 0)).
Lemma row_full i x y z : In i [0; 1; 2] -> goodInteger x -> goodInteger y -> goodInteger z ->
  rowDim i (str! "- " ++ brackets (zText x) (zText y) (zText z)) = if others i x y z then Ok (pick i x y z) else Err.
Proof.
  intros I X Y W. destruct (row_tokens x y z X Y W) as (rest & E). destruct X as (_ & _ & X). destruct Y as (_ & _ & Y). destruct W as (_ & _ & W). unfold rowDim, token. rewrite E.
  cbn [foldM]. destruct I as [<-|[<-|[<-|[]]]];
    change (zget (str! "-" :: str! "[" :: zText x :: zText y :: zText z :: rest) (2 + 0)) with (Some (zText x)); change (zget (str! "-" :: str! "[" :: zText x :: zText y :: zText z :: rest) (2 + 1)) with (Some (zText y));
    change (zget (str! "-" :: str! "[" :: zText x :: zText y :: zText z :: rest) (2 + 2)) with (Some (zText z)); cbn [bind]; rewrite ?X, ?Y, ?W; cbn [bind Z.eqb Pos.eqb]; rewrite ?X, ?Y, ?W; cbn [bind];
    unfold others, pick; cbn [Z.eqb Pos.eqb orb andb]; destruct (zValue x =? 0), (zValue y =? 0), (zValue z =? 0); reflexivity.
Qed.
Lemma full_rejected m l0 l1 l2 : Forall goodInteger (entries m) -> (exists n, In n (offDiagonal m) /\ zValue n <> 0) -> fullLines m = [l0; l1; l2] -> threeRows l0 l1 l2 = Err.
Proof.
  destruct m as [[[[a b] c] [[d e] f]] [[g h] i]]. intros G (n & N & V) E. cbn [entries] in G. cbn [offDiagonal] in N. cbn [fullLines] in E.
  pose proof (f_equal (fun l => nth 0 l []) E) as F0. pose proof (f_equal (fun l => nth 1 l []) E) as F1. pose proof (f_equal (fun l => nth 2 l []) E) as F2. cbn [nth] in F0, F1, F2. subst l0 l1 l2. clear E.
  rewrite Forall_forall in G. unfold threeRows. rewrite row_full by (try (apply G); cbn; tauto). rewrite row_full by (try (apply G); cbn; tauto). rewrite row_full by (try (apply G); cbn; tauto).
  unfold others. cbn [Z.eqb Pos.eqb orb andb]. apply Z.eqb_neq in V.
  destruct N as [<-|[<-|[<-|[<-|[<-|[<-|[]]]]]]]; rewrite V; rewrite ?andb_false_r; cbn [andb];
    repeat match goal with |- context [if ?q then _ else _] => destruct q; cbn [bind]; try reflexivity end; reflexivity.
Qed.
Lemma full_three m : exists l0 l1 l2, fullLines m = [l0; l1; l2].
Proof. destruct m as [[[[a b] c] [[d e] f]] [[g h] i]]. do 3 eexists. reflexivity. Qed.
Lemma not_diagonal pre key m rest : Forall quiet pre -> In key [str! "supercell_matrix:"; str! "phonon_supercell_matrix:"] -> Forall goodInteger (entries m) -> (exists n, In n (offDiagonal m) /\ zValue n <> 0) ->
  readYaml (pre ++ key :: fullLines m ++ rest) = Err.
Proof.
  intros P K G O. unfold readYaml, grid. rewrite dims_skip by (eapply Forall_impl; [|exact P]; apply quiet_nomat).
  destruct (full_three m) as (l0 & l1 & l2 & E). pose proof (full_rejected m l0 l1 l2 G O E) as T. rewrite E. cbn [app]. cbn [dims].
  destruct K as [<-|[<-|[]]]; [change (finds (str! "supercell_matrix:") (str! "phonon_supercell_matrix:")) with false; change (finds (str! "supercell_matrix:") (str! "supercell_matrix:")) with true|change (finds (str! "phonon_supercell_matrix:") (str! "phonon_supercell_matrix:")) with true];
    cbv iota; rewrite T; reflexivity.
Qed.
(** atoms listed one level to the left *)
Lemma indent_symbols a b k : isalpha a = true -> isalpha b = true ->
  symbolOf (str! "  - symbol: " ++ [a; b] ++ str! " # " ++ k) = [a; b] /\ symbolOf (str! "- symbol: " ++ [a; b] ++ str! " # " ++ k) = [].
Proof.
  intros A B. assert (N : forall c, isalpha c = true -> isc "#"%char c = false) by (intros c C; apply isc_neq; intros ->; discriminate).
  assert (F : forall s : str, ~ In "#"%char s -> findFirst "#"%char (s ++ [a; b] ++ str! " # " ++ k) = Some (length s + 3)%nat).
  { intros s S. replace (s ++ [a; b] ++ str! " # " ++ k) with ((s ++ [a; b; " "%char]) ++ "#"%char :: " "%char :: k) by (rewrite <- app_assoc; reflexivity). rewrite find_app; [rewrite app_length; reflexivity|].
    apply notin_app; [exact S|]. intros [H|[H|[H|[]]]]; subst; discriminate. }
  split; unfold symbolOf; rewrite F by (apply notin_lit; reflexivity).
  - change (remove isspace [a; b] = [a; b]). apply remove_space_alpha. repeat constructor; assumption.
  - reflexivity.
Qed.
