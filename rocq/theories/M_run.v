(** Model of what a transport run does and writes, in order: src/apps/phonon_transport_app.cpp:19-427 (run) and 430-519,
    src/apps/electron_wannier_transport_app.cpp:13-240, 269-553, with src/bte/scattering.cpp:52-55, 92-162 (setup), 366-373 (a2Omega).
    Only actions that can be seen from outside, and uses of the collision matrix, are kept; numbers are not. Reading of files and
    the band structure are assumed to succeed. *)
From Coq Require Import String Ascii QArith.
From Verif Require Import Base M_points M_context.
Open Scope Z_scope.

Inductive solver := Iterative | Variational | Relaxons.
Inductive action :=
| Build (loaded : bool)          (* the collision matrix or its diagonal is computed; [loaded] = the couplings were read *)
| AddRates                       (* rates due to electrons added to the diagonal *)
| Wrote (file : str)
| Symmetrized
| Product (s : solver)           (* product of the matrix with a population *)
| Rescaled                       (* a2Omega *)
| RealSpace                      (* special eigenvectors and products with the matrix for the real-space solver *)
| Diagonalised.                  (* the matrix is lost *)
(** actions so far, and whether the program goes on (false: stopped by Error) *)
Definition run : Type := (list action * bool)%type.
Definition act (a : action) : run := ([a], true).
Definition stopIf (b : bool) : run := ([], negb b).
Definition skip : run := ([], true).
Definition andThen (r s : run) : run := if snd r then (fst r ++ fst s, snd s) else r.
Definition whenRun (b : bool) (r : run) : run := if b then r else skip.
Declare Scope run_scope.
Delimit Scope run_scope with run.
Infix ";;" := andThen (at level 61, left associativity) : run_scope.

(** What decides the course of a run. [crt] = constantRelaxationTime (None = NaN, not set); [conv s k] = the test at the end of
    iteration k of solver s; [calcs] = numCalculations; [chems], [chemsEl] = chemical potentials of the two sweeps; [sameCell] = the
    two crystals have equal cells; [statesEl] = irreducible electron states; [procs] = processes; [relaxons] = requested
    eigenvalues, [states] = phonon or electron states *)
Record input := { crt : option Q; fc3 : bool; elph : bool; solvers : list str; inMemory : bool; useSymmetries : bool;
  symmetrizeMatrix : bool; maxIterations : Z; calcs : Z; chems : Z; chemsEl : Z; sameCell : bool; statesEl : Z; procs : Z;
  relaxons : Z; states : Z; conv : solver -> Z -> bool }.

(** scattering.cpp:52 *)
Definition constantRTA (x : input) : bool := match crt x with Some t => Qltb 0 t | None => false end.
Definition isNaN (x : input) : bool := match crt x with None => true | _ => false end.
(** the loops over solverBTE: phonon_transport_app.cpp:153-160, electron_wannier_transport_app.cpp:139-146 *)
Definition nameOf (s : solver) : str := match s with Iterative => str! "iterative" | Variational => str! "variational" | Relaxons => str! "relaxons" end.
Definition wanted (x : input) (s : solver) : bool := existsb (fun n => streq n (nameOf s)) (solvers x).

(** scattering.cpp:92-162 *)
Definition setup (loaded : bool) (x : input) : run :=
  if constantRTA x then skip else (stopIf (inMemory x && (1 <? calcs x)) ;; act (Build loaded))%run.
(** scattering.cpp:366-373: an empty matrix was never built *)
Definition a2Omega (x : input) : run := (stopIf (negb (inMemory x)) ;; stopIf (constantRTA x || (states x =? 0)) ;; act Rescaled)%run.
(** scattering.cpp:888-892 *)
Definition diagonalize (x : input) : run := (stopIf (states x <? relaxons x) ;; act Diagonalised)%run.
(** the loop over iterations: [body] then the test, then the check of the last iteration; [left] iterations remain *)
Fixpoint loop (body : run) (test : Z -> bool) (iter : Z) (left : nat) : run :=
  match left with
  | O => skip
  | Datatypes.S k => (body ;; (if test iter then skip else stopIf (match k with O => true | _ => false end) ;; loop body test (iter + 1) k))%run
  end.
Definition iterations (x : input) (s : solver) (body : run) : run := loop body (conv x s) 0 (Z.to_nat (maxIterations x)).
Definition ominiRun (file : str) (x : input) : run := (iterations x Iterative (act (Product Iterative)) ;; act (Wrote file))%run.
Definition variationalRun (file : str) (x : input) : run :=
  (act (Product Variational) ;; iterations x Variational (act (Product Variational) ;; act (Product Variational)) ;; act (Wrote file))%run.
(** phonon_transport_app.cpp:187-197, electron_wannier_transport_app.cpp:178-188 *)
Definition symmetrization (x : input) : run :=
  whenRun (inMemory x && negb (useSymmetries x) && (wanted x Variational || wanted x Relaxons || wanted x Iterative) && symmetrizeMatrix x) (act Symmetrized).

(** phonon_transport_app.cpp:430-519 and 76-99 *)
Definition phononElectron (x : input) : run :=
  (stopIf (negb (chems x =? 1)) ;; stopIf (negb (sameCell x)) ;; stopIf (negb (chemsEl x =? 1)) ;; stopIf (statesEl x <? procs x) ;;
   act (Wrote (str! "rta_phel_relaxation_times.json")) ;; act (Wrote (str! "rta_phph_relaxation_times.json")) ;; act AddRates)%run.
Definition phononRTA : run :=
  (act (Wrote (str! "rta_ph_relaxation_times.json")) ;; act (Wrote (str! "rta_phonon_thermal_cond.json")) ;;
   act (Wrote (str! "wigner_phonon_thermal_cond.json")) ;; act (Wrote (str! "rta_phonon_viscosity.json")) ;; act (Wrote (str! "specific_heat.json")))%run.
(** l.163-185 *)
Definition phononChecks (x : input) : run :=
  (stopIf (wanted x Relaxons && negb (inMemory x)) ;; stopIf (wanted x Relaxons && useSymmetries x) ;;
   stopIf (wanted x Variational && useSymmetries x) ;; stopIf (inMemory x && negb (calcs x =? 1)))%run.
(** l.386-424 *)
Definition phononRelaxons (x : input) : run :=
  (a2Omega x ;; act RealSpace ;; act (Wrote (str! "ph_relaxons_real_space_coeffs.json")) ;; diagonalize x ;;
   act (Wrote (str! "relaxons_phonon_thermal_cond.json")) ;; act (Wrote (str! "relaxons_relaxation_times.json")) ;;
   whenRun (negb (useSymmetries x)) (act (Wrote (str! "relaxons_phonon_viscosity.json"))))%run.
Definition phononTransport (x : input) : run :=
  (stopIf (negb (fc3 x) && negb (elph x) && negb (isNaN x)) ;; setup true x ;; whenRun (elph x) (phononElectron x) ;; phononRTA ;;
   phononChecks x ;; symmetrization x ;;
   whenRun (wanted x Iterative) (ominiRun (str! "omini_phonon_thermal_cond.json") x) ;;
   whenRun (wanted x Variational) (variationalRun (str! "variational_phonon_thermal_cond.json") x) ;;
   whenRun (wanted x Relaxons) (phononRelaxons x))%run.

Definition electronRTA : run :=
  (act (Wrote (str! "rta_el_relaxation_times.json")) ;; act (Wrote (str! "rta_onsager_coefficients.json")) ;;
   act (Wrote (str! "rta_wigner_coefficients.json")) ;; act (Wrote (str! "rta_electron_viscosity.json")) ;; act (Wrote (str! "el_specific_heat.json")))%run.
(** electron_wannier_transport_app.cpp:149-176 *)
Definition electronChecks (x : input) : run :=
  (stopIf (wanted x Relaxons && negb (inMemory x)) ;; stopIf (inMemory x && negb (calcs x =? 1)) ;;
   stopIf (wanted x Relaxons && useSymmetries x) ;; stopIf (wanted x Variational && useSymmetries x))%run.
(** l.190-239 *)
Definition electronRelaxons (x : input) : run :=
  (act RealSpace ;; act (Wrote (str! "el_relaxons_real_space_coeffs.json")) ;; diagonalize x ;;
   act (Wrote (str! "relaxons_onsager_coefficients.json")) ;; act (Wrote (str! "exact_relaxation_times.json")) ;;
   whenRun (negb (useSymmetries x)) (act (Wrote (str! "relaxons_electron_viscosity.json"))))%run.
(** l.29-32: the couplings are read only when the constant relaxation time is not set; l.125-127 *)
Definition electronTransport (x : input) : run :=
  (setup (isNaN x) x ;; electronRTA ;;
   (if negb (isNaN x) then skip else
    electronChecks x ;; symmetrization x ;;
    whenRun (wanted x Iterative) (ominiRun (str! "omini_onsager_coefficients.json") x) ;;
    whenRun (wanted x Variational) (variationalRun (str! "variational_onsager_coefficients.json") x) ;;
    whenRun (wanted x Relaxons) (electronRelaxons x)))%run.

