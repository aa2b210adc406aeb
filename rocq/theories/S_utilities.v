(** Specifications for C01, C50-C52, independent of the model. *)
From Coq Require Import QArith Qabs Ascii.
From Verif Require Import Base.
Open Scope Z_scope.

(** Row-major enumerations of the index pairs / triples. *)
Definition rowMajor2 (s1 s2 : Z) : list (Z * Z) := list_prod (zrange 0 s1) (zrange 0 s2).
Definition rowMajor3 (s1 s2 s3 : Z) : list (Z * Z * Z) :=
  list_prod (list_prod (zrange 0 s1) (zrange 0 s2)) (zrange 0 s3).

(** White space, '|', ',' and double quote. *)
Definition separator (c : ascii) : Prop :=
  In c [" "; "009"; "010"; "011"; "012"; "013"; "|"; ","; """"]%char.

(** [Tokens s toks]: s is an alternation of (possibly empty at the ends) separator runs and the
    non-empty separator-free words toks. *)
Inductive Tokens : list ascii -> list (list ascii) -> Prop :=
| TokEnd seps : Forall separator seps -> Tokens seps []
| TokLast seps w : Forall separator seps -> w <> [] -> Forall (fun c => ~ separator c) w ->
    Tokens (seps ++ w) [w]
| TokCons seps w c rest toks :
    Forall separator seps -> w <> [] -> Forall (fun c => ~ separator c) w ->
    separator c -> Tokens (c :: rest) toks ->
    Tokens (seps ++ w ++ c :: rest) (w :: toks).

(** Largest relative component change. *)
Definition isMaxRelChange (x xRef : list Q) (m : Q) : Prop :=
  (exists i a b, nth_error x i = Some a /\ nth_error xRef i = Some b /\ (m == Qabs ((a - b) / b))%Q) /\
  (forall i a b, nth_error x i = Some a -> nth_error xRef i = Some b -> (Qabs ((a - b) / b) <= m)%Q).
Definition isMinRelChange (x xRef : list Q) (m : Q) : Prop :=
  (exists i a b, nth_error x i = Some a /\ nth_error xRef i = Some b /\ (m == Qabs ((a - b) / b))%Q) /\
  (forall i a b, nth_error x i = Some a -> nth_error xRef i = Some b -> (m <= Qabs ((a - b) / b))%Q).
