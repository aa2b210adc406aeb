(** Vocabulary: which files a transport run leaves, when it is refused, and the order of what it does. *)
From Coq Require Import String Ascii QArith Sorting.Sorted.
From Verif Require Import Base M_context M_run.
Open Scope Z_scope.

(** files in the order in which they are written *)
Definition filesOf (t : list action) : list str := flat_map (fun a => match a with Wrote f => [f] | _ => [] end) t.
(** the name of a solver is in the list of the input *)
Definition asks (x : input) (s : solver) : Prop := In (nameOf s) (solvers x).
Definition ifAsked (x : input) (s : solver) (files : list str) : list str := if in_dec (list_eq_dec ascii_dec) (nameOf s) (solvers x) then files else [].
(** some iteration passes the test; with no iteration at all there is nothing to fail *)
Definition reaches (x : input) (s : solver) : Prop := maxIterations x <= 0 \/ exists k, 0 <= k < maxIterations x /\ conv x s k = true.
Definition positiveTime (x : input) : Prop := exists t, crt x = Some t /\ (0 < t)%Q.

(** what must hold for a run to reach its end *)
Record phononAccepted (x : input) : Prop := {
  pa_interaction : fc3 x = true \/ elph x = true \/ crt x = None;
  pa_memory : inMemory x = true -> calcs x = 1;
  pa_electrons : elph x = true -> chems x = 1 /\ sameCell x = true /\ chemsEl x = 1 /\ procs x <= statesEl x;
  pa_iterative : asks x Iterative -> reaches x Iterative;
  pa_variational : asks x Variational -> useSymmetries x = false /\ reaches x Variational;
  pa_relaxons : asks x Relaxons -> inMemory x = true /\ useSymmetries x = false /\ ~ positiveTime x /\ states x <> 0 /\ relaxons x <= states x }.
Record electronAccepted (x : input) : Prop := {
  ea_memory : ~ positiveTime x -> inMemory x = true -> calcs x <= 1;
  ea_memory_one : crt x = None -> inMemory x = true -> calcs x = 1;
  ea_iterative : crt x = None -> asks x Iterative -> reaches x Iterative;
  ea_variational : crt x = None -> asks x Variational -> useSymmetries x = false /\ reaches x Variational;
  ea_relaxons : crt x = None -> asks x Relaxons -> inMemory x = true /\ useSymmetries x = false /\ relaxons x <= states x }.

(** files of a run that reaches its end *)
Definition phononFiles (x : input) : list str :=
  (if elph x then [str! "rta_phel_relaxation_times.json"; str! "rta_phph_relaxation_times.json"] else []) ++
  [str! "rta_ph_relaxation_times.json"; str! "rta_phonon_thermal_cond.json"; str! "wigner_phonon_thermal_cond.json"; str! "rta_phonon_viscosity.json"; str! "specific_heat.json"] ++
  ifAsked x Iterative [str! "omini_phonon_thermal_cond.json"] ++ ifAsked x Variational [str! "variational_phonon_thermal_cond.json"] ++
  ifAsked x Relaxons [str! "ph_relaxons_real_space_coeffs.json"; str! "relaxons_phonon_thermal_cond.json"; str! "relaxons_relaxation_times.json"; str! "relaxons_phonon_viscosity.json"].
Definition electronFiles (x : input) : list str :=
  [str! "rta_el_relaxation_times.json"; str! "rta_onsager_coefficients.json"; str! "rta_wigner_coefficients.json"; str! "rta_electron_viscosity.json"; str! "el_specific_heat.json"] ++
  match crt x with Some _ => [] | None =>
  ifAsked x Iterative [str! "omini_onsager_coefficients.json"] ++ ifAsked x Variational [str! "variational_onsager_coefficients.json"] ++
  ifAsked x Relaxons [str! "el_relaxons_real_space_coeffs.json"; str! "relaxons_onsager_coefficients.json"; str! "exact_relaxation_times.json"; str! "relaxons_electron_viscosity.json"] end.
Definition prefix {A} (l m : list A) : Prop := exists r, m = l ++ r.

(** stages of the use of the matrix: computed, rates added, symmetrized, multiplied by the iterative and by the variational
    solver, rescaled, used for the real-space solver, diagonalised (and lost). Files have no stage. *)
Definition stage (a : action) : list Z :=
  match a with
  | Build _ => [0] | AddRates => [1] | Symmetrized => [2] | Product Iterative => [3] | Product Variational => [4] | Product Relaxons => [8]
  | Rescaled => [5] | RealSpace => [6] | Diagonalised => [7] | Wrote _ => []
  end.
Definition stages (t : list action) : list Z := flat_map stage t.
Definition isProduct (a : action) : Prop := exists s, a = Product s.
(** the two inputs differ at most in the list of solvers, which name the same solvers *)
Definition sameSolvers (x y : input) : Prop := (forall s, asks x s <-> asks y s) /\
  y = {| crt := crt x; fc3 := fc3 x; elph := elph x; solvers := solvers y; inMemory := inMemory x; useSymmetries := useSymmetries x;
         symmetrizeMatrix := symmetrizeMatrix x; maxIterations := maxIterations x; calcs := calcs x; chems := chems x; chemsEl := chemsEl x;
         sameCell := sameCell x; statesEl := statesEl x; procs := procs x; relaxons := relaxons x; states := states x; conv := conv x |}.
(** a product with the matrix comes only in runs in which the matrix was computed from couplings that were read *)
Definition computedFirst (t : list action) : Prop := forall a, isProduct a -> In a t -> In (Build true) t.
