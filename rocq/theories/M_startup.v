(** Model of how a run stops: src/exceptions.cpp:6-22, src/mpi/mpiController.cpp:108-127, 156-166, src/main.cpp:12-54, src/context.cpp:772-803, 823-824,
    1159. A process is the list of its next events, printed lines and collective calls on the world communicator. Simplified: the times in the
    lines, the text of the summary, calls on other communicators and point-to-point messages are left out; products of meshes do not overflow. *)
From Coq Require Import QArith String Ascii.
From Verif Require Import Base M_context.
Open Scope Z_scope.

Inductive coll := Barrier | Finalize | Other (n : Z).
Inductive event := Print (line : str) | Collective (c : coll).
Definition headPrint (rank : Z) (line : str) : list event := if rank =? 0 then [Print line] else [].

(** mpiController.cpp:108-127 finalize *)
Definition finalize (rank : Z) : list event :=
  headPrint rank (str! "Finished on") ++ [Collective Barrier] ++ headPrint rank (str! "Run time") ++ [Collective Finalize].
(** exceptions.cpp:6-16: with code 0 nothing happens; otherwise the process ends with the code *)
Definition error (rank : Z) (message : str) : list event := headPrint rank message ++ [Collective Barrier] ++ finalize rank.
(** l.18-22 *)
Definition warning (rank : Z) (message : str) : list event := headPrint rank message.

(** context.h: what inputSanityCheck looks at; [thicknessUnset]: thickness == 1. *)
Record input := { solverBTE : list str; useSymmetries : bool; qMeshOf : Z * Z * Z; kMeshOf : Z * Z * Z; smearing : Z; dimension : Z; thicknessUnset : bool }.
Definition prod3 (m : Z * Z * Z) : Z := let '(a, b, c) := m in a * b * c.
Definition symmetryMessage : str := str! "Variational and relaxons solvers cannot be used with symmetries!".
Definition oddMessage : str := str! "Relaxons solver should be run with an odd points mesh for reasons of eigenvector parity.".
Definition adaptiveMessage : str := str! "Adaptive smearing can cause problems with the quality of the scattering matrix".
Definition thicknessMessage : str := str! "You have set dimensionality = 2 but not the thickness input parameter.".
(** a run on one process: its events, and the code when it ends here *)
Definition outcome : Type := list event * option Z.
Definition andThen (a : outcome) (b : outcome) : outcome := match a with (e, Some code) => (e, Some code) | (e, None) => (e ++ fst b, snd b) end.
Definition skip : outcome := ([], None).
Definition evenMesh (m : Z * Z * Z) : bool := (Z.rem (prod3 m) 2 =? 0) && negb (prod3 m =? 0).
(** context.cpp:775-792, one solver *)
Definition checkSolver (rank : Z) (i : input) (s : str) : outcome :=
  andThen (if (streq s (str! "variational") || streq s (str! "relaxons")) && useSymmetries i then (error rank symmetryMessage, Some 1) else skip)
    (if streq s (str! "relaxons") then
       ((if evenMesh (qMeshOf i) || evenMesh (kMeshOf i) then warning rank oddMessage else [])
        ++ (if smearing i =? 1 then warning rank adaptiveMessage else []), None)
     else skip).
(** context.cpp:772-803 *)
Definition inputSanityCheck (rank : Z) (i : input) : outcome :=
  andThen (fold_right (fun s r => andThen (checkSolver rank i s) r) skip (solverBTE i))
    ((if (dimension i =? 2) && thicknessUnset i then warning rank thicknessMessage else []), None).
(** l.823-824 and 1159: processes other than the first return before the check *)
Definition printInputSummary (rank : Z) (i : input) : outcome :=
  if negb (rank =? 0) then skip else andThen ([Print (str! "Input read from file")], None) (inputSanityCheck rank i).
(** main.cpp:25-54; [app rank]: events of the application, from loadApp to the end of run *)
Definition mainProgram (app : Z -> list event) (i : input) (rank : Z) : outcome :=
  andThen (printInputSummary rank i) (app rank ++ finalize rank, Some 0).

(** All processes together. MPI: a collective call returns when all processes of the communicator make the same call; different calls never match. *)
Definition system : Type := list (list event) * list str.
Inductive step : system -> system -> Prop :=
| step_print : forall before line rest after out, step (before ++ (Print line :: rest) :: after, out) (before ++ rest :: after, out ++ [line])
| step_coll : forall c rests out, rests <> [] -> step (map (cons (Collective c)) rests, out) (rests, out).
Inductive steps : nat -> system -> system -> Prop :=
| steps_0 : forall s, steps 0 s s
| steps_S : forall n s t u, step s t -> steps n t u -> steps (S n) s u.
(** the run of [size] processes *)
Definition launch (size : Z) (program : Z -> outcome) : system := (map (fun r => fst (program r)) (zrange 0 size), []).
