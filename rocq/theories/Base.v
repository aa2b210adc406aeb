(** Shared vocabulary: outcomes, machine integers, integer ranges, families of
    per-rank values.  Nothing here is specific to phoebe. *)
From Coq Require Export ZArith List Bool Lia.
From Coq Require Export ZifyBool ZifyNat.
Export ListNotations.
#[global] Open Scope Z_scope.

(** Outcome of a C++ computation: a value, a call to Error(...) (src/exceptions.cpp:6-22:
    message, MPI finalise, exit), or undefined behaviour. *)
Inductive res (A : Type) : Type :=
| Ok (a : A)
| Err
| UB.
Arguments Ok {A} a.
Arguments Err {A}.
Arguments UB {A}.

Definition bind {A B} (x : res A) (f : A -> res B) : res B :=
  match x with Ok a => f a | Err => Err | UB => UB end.
Notation "'do' x <- e ; f" := (bind e (fun x => f))
  (at level 200, x pattern, e at level 100, f at level 200).

Fixpoint mapM {A B} (f : A -> res B) (l : list A) : res (list B) :=
  match l with
  | [] => Ok []
  | x :: r => do y <- f x ; do ys <- mapM f r ; Ok (y :: ys)
  end.

Fixpoint foldM {A S} (f : S -> A -> res S) (l : list A) (s : S) : res S :=
  match l with
  | [] => Ok s
  | x :: r => do s' <- f s x ; foldM f r s'
  end.

(** C++ [int]: 32-bit two's complement, overflow is undefined. *)
Definition INT_MAX : Z := 2147483647.
Definition INT_MIN : Z := -2147483648.
Definition ck (z : Z) : res Z :=
  if (INT_MIN <=? z) && (z <=? INT_MAX) then Ok z else UB.

(** C++ [size_t]: 64-bit, wraps. Conversion size_t -> int keeps the low 32 bits. *)
Definition u64 (z : Z) : Z := z mod 18446744073709551616.
Definition to_int32 (z : Z) : Z := (z + 2147483648) mod 4294967296 - 2147483648.

(** The half-open integer range [a, a+n). *)
Definition zrange (a n : Z) : list Z := map (fun i => a + Z.of_nat i) (seq 0 (Z.to_nat n)).

Definition zlen {A} (l : list A) : Z := Z.of_nat (length l).

(** Reading position i of an array; None stands for an out-of-range access. *)
Definition zget {A} (l : list A) (i : Z) : option A :=
  if i <? 0 then None else nth_error l (Z.to_nat i).

Definition zsum (l : list Z) : Z := fold_right Z.add 0 l.

(** Writing position i of an array (no effect when out of range; callers check). *)
Fixpoint upd_nat {A} (l : list A) (i : nat) (v : A) : list A :=
  match l, i with
  | [], _ => []
  | _ :: r, O => v :: r
  | x :: r, S j => x :: upd_nat r j v
  end.
Definition zupd {A} (l : list A) (i : Z) (v : A) : list A :=
  if i <? 0 then l else upd_nat l (Z.to_nat i) v.
