(** Specification for C142 *)
From Coq Require Import Ascii String Sorted.
From Verif Require Import Base M_context.
Open Scope Z_scope.
(** the value of an option: the word after its first occurrence *)
Definition valueOf (args : list str) (o v : str) : Prop := exists before after, args = before ++ o :: v :: after /\ ~ In o before.
Definition later (a b : Z * Z) : Prop := snd a < snd b /\ fst a <= fst b.
(** steps increase, percentages do not decrease and lie between 0 and 100; a last line says that all is done *)
Definition goodReport (n : Z) (lines : list (Z * Z)) : Prop :=
  StronglySorted later lines /\ Forall (fun p => 0 <= fst p <= 100 /\ 1 <= snd p <= n) lines /\ last lines (0, 0) = (100, n).
