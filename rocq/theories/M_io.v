(** Model of the command line and of the progress reports (src/io.cpp). *)
From Coq Require Import Ascii String.
From Verif Require Import Base M_context.
Open Scope Z_scope.

(** l.12-18 *)
Fixpoint getCmdOption (args : list str) (option_ : str) : option str :=
  match args with [] => None | a :: r => if streq a option_ then hd_error r else getCmdOption r option_ end.
Inductive stream := Screen | File (name : str).
Record ioState := { inputFile : str; outputFile : option str; cout : stream }.
(** l.20-55: rdbuf is set to the file and then back to the buffer saved before *)
Definition io (canRead : str -> bool) (args : list str) : res ioState :=
  match getCmdOption args (str! "-in") with
  | None => Err
  | Some f => if negb (canRead f) then Err else
      match getCmdOption args (str! "-out") with
      | None => Ok {| inputFile := f; outputFile := None; cout := Screen |}
      | Some o =>
          let saved := Screen in
          let now := File o in
          let now := saved in
          Ok {| inputFile := f; outputFile := Some o; cout := now |}
      end
  end.

(** io.h l.70-90 without the times *)
Record loopPrint := { numSteps : Z; reportEvery : Z; stepDigits : Z; currentStep : Z }.
(** decimal digits, int(log10(n)) + 1 with an exact logarithm; log10(0) is minus infinity and has no int *)
Fixpoint digitsFrom (fuel : nat) (n : Z) : Z := match fuel with O => 1 | S k => if n <? 10 then 1 else 1 + digitsFrom k (n / 10) end.
Definition digits (n : Z) : res Z := if n <=? 0 then UB else Ok (digitsFrom (Z.to_nat n) n).
(** l.195-219 on the head *)
Definition newLoop (n : Z) : res loopPrint :=
  do d <- digits n ; Ok {| numSteps := n; reportEvery := if n <? 10 then 1 else Z.quot n 10; stepDigits := d; currentStep := -1 |}.
(** l.252: int(double(currentStep + 1) / numSteps * 100), exact *)
Definition percentage (n c : Z) : Z := 100 * (c + 1) / n.
(** l.221-267: the line printed, as percentage and number of the step *)
Definition update (l : loopPrint) : loopPrint * option (Z * Z) :=
  let c := currentStep l + 1 in
  let l' := {| numSteps := numSteps l; reportEvery := reportEvery l; stepDigits := stepDigits l; currentStep := c |} in
  if (c <=? 2) || (Z.rem (c + 1) (reportEvery l) =? 0) || (c =? numSteps l - 1) then
    if ((c =? 0) || (c =? 2) || (c =? numSteps l - 1)) || (Z.rem (c + 1) (reportEvery l) =? 0)
    then (l', Some (percentage (numSteps l) c, c + 1)) else (l', None)
  else (l', None).
Fixpoint updates (k : nat) (l : loopPrint) : list (Z * Z) :=
  match k with O => [] | S k => let '(l', o) := update l in match o with Some p => p :: updates k l' | None => updates k l' end end.
(** a loop over n steps: the lines of the report *)
Definition report (n : Z) : res (list (Z * Z)) := do l <- newLoop n ; Ok (updates (Z.to_nat n) l).
