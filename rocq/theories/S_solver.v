(** Vocabulary: linear systems with rational coefficients. *)
From Coq Require Import QArith Qcanon Qcabs.
From Verif Require Import Base M_matrix M_scattering M_solver.
Open Scope Z_scope.

(** states in play *)
Definition active (P : problem) (s : Z) : Prop := 0 <= s < pN P /\ ~ In s (pExcl P).
(** the list of active states *)
Definition activeStates (P : problem) : list Z := filter (fun s => negb (isIn (pExcl P) s)) (zrange 0 (pN P)).
(** u . v, u . A v over active states *)
Definition inner (P : problem) (u v : Z -> Qc) : Qc := qsum (map (fun s => u s * v s)%Qc (activeStates P)).
Definition product (P : problem) (c : Z) (u : Z -> Qc) (s : Z) : Qc := qsum (map (fun s' => pM P c s s' * u s')%Qc (activeStates P)).
(** A u = b at active states *)
Definition solves (P : problem) (c : Z) (u b : Z -> Qc) : Prop := forall s, active P s -> product P c u s = b s.
Definition symmetric (P : problem) (c : Z) : Prop := forall s s', active P s -> active P s' -> pM P c s s' = pM P c s' s.
Definition positiveDefinite (P : problem) (c : Z) : Prop :=
  forall u, (exists s, active P s /\ u s <> 0%Qc) -> (0 < inner P u (product P c u))%Qc.
(** 2 u.b - u.A u *)
Definition functional (P : problem) (c : Z) (b u : Z -> Qc) : Qc := (Q2Qc 2 * inner P u b - inner P u (product P c u))%Qc.
(** k conjugate gradient steps *)
Definition cgIterate (P : problem) (k : nat) (st : cg) : cg := Nat.iter k (cgStep P) st.
(** no state outside of the active ones, for a field read at calculation c, component i *)
Definition supported (P : problem) (u : Z -> Qc) : Prop := forall s, ~ active P s -> u s = 0%Qc.
(** the off-diagonal elements of a row are together at most q times the diagonal one *)
Definition dominant (P : problem) (c : Z) (q : Qc) : Prop := forall s, active P s ->
  (qsum (map (fun s' => if s' =? s then 0 else Qcabs (pM P c s s')) (activeStates P)) <= q * Qcabs (pM P c s s))%Qc.
(** k steps of the iterative solver from the relaxation time approximation *)
Definition ominiIterate (P : problem) (k : nat) : field := Nat.iter k (ominiNext P) (fRTA P).
(** conductivity of a canonical population: heat carried along j by the response to a gradient along i *)
Definition heatFlux (P : problem) (c : Z) (f : Z -> Qc) (j : Z) : Qc :=
  inner P f (fun s => pPop P c s * pVel P j s * pEn P s * pNorm P)%Qc.
(** the drift of phonons: dn/dT v with dn/dT = n(n+1) e / T^2 *)
Definition driftIs (P : problem) (c : Z) : Prop :=
  pTemp P c <> 0%Qc /\ forall j s, active P s -> pDrift P c j s = (pPop P c s * pEn P s * pVel P j s / (pTemp P c * pTemp P c))%Qc.
(** values computed by a solver: k-th and the one before *)
Definition valueAt {S T} (step : S -> S * T) (s : S) (k : nat) : T := snd (step (Nat.iter k (fun x => fst (step x)) s)).
Definition previousAt {S T} (step : S -> S * T) (s : S) (old : T) (k : nat) : T := match k with O => old | Datatypes.S j => valueAt step s j end.
