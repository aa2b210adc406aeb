(** C142: command line and progress reports *)
From Coq Require Import Ascii String Sorted.
From Verif Require Import Base BaseLemmas M_context L_context M_io S_io L_io.
From Coq Require Import Lia.
Open Scope Z_scope.

(** the input file is the word after the first -in, and it can be read; without one the program stops *)
Theorem C142_input : forall canRead args,
  (forall s, io canRead args = Ok s -> valueOf args (str! "-in") (inputFile s) /\ canRead (inputFile s) = true /\ forall o, outputFile s = Some o <-> valueOf args (str! "-out") o) /\
  (forall f, valueOf args (str! "-in") f -> canRead f = true -> exists s, io canRead args = Ok s /\ inputFile s = f) /\
  ((forall f, valueOf args (str! "-in") f -> canRead f = false) -> io canRead args = Err).
Proof.
  intros cr args. unfold io. split; [|split].
  - intros s H. destruct (getCmdOption args (str! "-in")) as [f|] eqn:E; [|discriminate]. apply option_iff in E. destruct (cr f) eqn:C; [|discriminate]. cbn [negb] in H.
    destruct (getCmdOption args (str! "-out")) as [o|] eqn:O; injection H as <-; cbn [inputFile outputFile]; (split; [exact E|]; split; [exact C|]); intro o'.
    + rewrite <- option_iff, O. reflexivity.
    + rewrite <- option_iff, O. reflexivity.
  - intros f H C. apply option_iff in H. rewrite H, C. cbn [negb]. destruct (getCmdOption args (str! "-out")); eexists; split; reflexivity.
  - intro H. destruct (getCmdOption args (str! "-in")) as [f|] eqn:E; [|reflexivity]. apply option_iff in E. rewrite (H f E). reflexivity.
Qed.
Print Assumptions C142_input.
(** -out opens a file, but everything is still printed on the screen *)
Theorem C142_output_refuted : forall canRead args s, io canRead args = Ok s -> cout s = Screen.
Proof.
  intros cr args s. unfold io. destruct (getCmdOption args (str! "-in")) as [f|]; [|discriminate]. destruct (negb (cr f)); [discriminate|]. destruct (getCmdOption args (str! "-out")); intro H; injection H as <-; reflexivity.
Qed.
Print Assumptions C142_output_refuted.

(** a loop of at least one step: ordered report that ends with 100% and has at most 22 lines *)
Theorem C142_report : forall n, 0 < n -> exists lines, report n = Ok lines /\ goodReport n lines /\ (length lines <= 22)%nat.
Proof. intros n H. destruct (report_good n H) as (l & E & G). exists l. split; [exact E|]. split; [exact G|]. exact (report_short n l H E). Qed.
Print Assumptions C142_report.
(** short loops report every step *)
Theorem C142_short : forall n, 0 < n < 20 -> report n = Ok (map (fun s => (100 * s / n, s)) (zrange 1 n)).
Proof.
  intros n H. rewrite report_lines by lia. do 2 f_equal. assert (forall l, (forall s, In s l -> printed n s = true) -> filter (printed n) l = l) as F.
  { induction l as [|x l IH]; intro A; [reflexivity|]. cbn [filter]. rewrite (A x (or_introl eq_refl)). f_equal. apply IH. intros s Hs. apply A. right. exact Hs. }
  apply F. intros s Hs. unfold printed. replace (if n <? 10 then 1 else Z.quot n 10) with 1; [rewrite Z.rem_1_r, Z.eqb_refl, !orb_true_r; reflexivity|].
  destruct (Z.ltb_spec n 10); [reflexivity|]. rewrite Z.quot_div_nonneg by lia. first [apply Z.div_unique with (n - 10); lia | symmetry; apply Z.div_unique with (n - 10); lia].
Qed.
Print Assumptions C142_short.
(** the width of the column is the number of decimal digits *)
Theorem C142_digits : forall n l, newLoop n = Ok l -> 0 < n /\ 10 ^ (stepDigits l - 1) <= n < 10 ^ stepDigits l.
Proof.
  intros n l H. unfold newLoop, digits in H. destruct (Z.leb_spec n 0); [discriminate|]. cbn [bind] in H. injection H as <-. cbn [stepDigits]. split; [assumption|]. apply digits_ok; lia.
Qed.
Print Assumptions C142_digits.
(** no steps on the head, as when there are fewer points than processes: the logarithm of zero is converted to an int *)
Theorem C142_empty_refuted : report 0 = UB.
Proof. reflexivity. Qed.
Print Assumptions C142_empty_refuted.

Example C142_ex : report 35 = Ok [(2, 1); (8, 3); (17, 6); (25, 9); (34, 12); (42, 15); (51, 18); (60, 21); (68, 24); (77, 27); (85, 30); (94, 33); (100, 35)].
Proof. vm_compute. reflexivity. Qed.
Example C142_ex_input : io (fun _ => true) [str! "phoebe"; str! "-out"; str! "a.out"; str! "-in"; str! "b.in"] = Ok {| inputFile := str! "b.in"; outputFile := Some (str! "a.out"); cout := Screen |}.
Proof. vm_compute. reflexivity. Qed.
