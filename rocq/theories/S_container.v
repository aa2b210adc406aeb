(** Specification for C158: variables hold matrices, as values. *)
From Verif Require Import Base M_container.
Open Scope Z_scope.

Record matrix (T : Type) := { mDist : bool; mRows : Z; mCols : Z; mVal : Z -> Z -> T }.
Arguments mDist {T}. Arguments mRows {T}. Arguments mCols {T}. Arguments mVal {T}.
Definition values (T : Type) : Type := Z -> option (matrix T).
Definition nothing {T} : values T := fun _ => None.
(** V' is V with another value of x *)
Definition becomes {T} (V V' : values T) (x : Z) (v : option (matrix T)) : Prop := V' x = v /\ forall y, y <> x -> V' y = V y.
(** the element (r, c) can be written: serial matrices, all; distributed ones, those that the process stores *)
Definition writable {T} (mine : Z -> Z -> Z -> Z -> bool) (v : matrix T) (r c : Z) : Prop :=
  if mDist v then mine (mRows v) (mCols v) r c = true else 0 <= r < mRows v /\ 0 <= c < mCols v.
(** what each statement means; a serial matrix has at most INT_MAX elements *)
Inductive means {T} (zero : T) (mine : Z -> Z -> Z -> Z -> bool) (V V' : values T) : op T -> Prop :=
| means_new x r c d : V x = None -> 0 <= r -> 0 <= c -> (d = false -> r * c <= 2147483647) ->
    becomes V V' x (Some {| mDist := d; mRows := r; mCols := c; mVal := fun _ _ => zero |}) -> means zero mine V V' (New x r c d)
| means_default x : V x = None -> becomes V V' x (Some {| mDist := false; mRows := 0; mCols := 0; mVal := fun _ _ => zero |}) -> means zero mine V V' (Default x)
| means_assign x y v w : V x = Some v -> V y = Some w -> becomes V V' x (Some w) -> means zero mine V V' (Assign x y)
| means_set x r c a v : V x = Some v -> writable mine v r c ->
    becomes V V' x (Some {| mDist := mDist v; mRows := mRows v; mCols := mCols v; mVal := fun i j => if (i =? r) && (j =? c) then a else mVal v i j |}) ->
    means zero mine V V' (Set_ x r c a)
| means_elsewhere x r c a v : V x = Some v -> mDist v = true -> mine (mRows v) (mCols v) r c = false -> V' = V -> means zero mine V V' (Set_ x r c a)
| means_destroy x v : V x = Some v -> becomes V V' x None -> means zero mine V V' (Destroy x).
Inductive meansAll {T} (zero : T) (mine : Z -> Z -> Z -> Z -> bool) : values T -> list (op T) -> values T -> Prop :=
| meansAll_nil V : meansAll zero mine V [] V
| meansAll_cons V o V1 ops V2 : means zero mine V V1 o -> meansAll zero mine V1 ops V2 -> meansAll zero mine V (o :: ops) V2.
(** what a user sees of the variable x *)
Definition shows {T} (zero : T) (mine : Z -> Z -> Z -> Z -> bool) (s : state T) (x : Z) (v : matrix T) : Prop :=
  rowsOf s x = Ok (mRows v) /\ colsOf s x = Ok (mCols v) /\
  forall r c, element zero mine s x r c =
    if mDist v then Ok (if mine (mRows v) (mCols v) r c then mVal v r c else zero)
    else if (0 <=? r) && (r <? mRows v) && (0 <=? c) && (c <? mCols v) then Ok (mVal v r c) else Err.
(** the three matrices of a band structure hold v *)
Definition holdBands {T} (V : values T) (b : bands) (e v u : matrix T) : Prop := V (energies b) = Some e /\ V (velocities b) = Some v /\ V (eigenvectors b) = Some u.
Definition noBands {T} (V : values T) (b : bands) : Prop := V (energies b) = None /\ V (velocities b) = None /\ V (eigenvectors b) = None.
Definition distinct (b : bands) : Prop := energies b <> velocities b /\ energies b <> eigenvectors b /\ velocities b <> eigenvectors b.
Definition partOf (b : bands) (x : Z) : Prop := x = energies b \/ x = velocities b \/ x = eigenvectors b.
Definition zeros {T} (zero : T) (dist : bool) (rows cols : Z) : matrix T := {| mDist := dist; mRows := rows; mCols := cols; mVal := fun _ _ => zero |}.
