(** Model of src/utilities.cpp and src/utilities.h. *)
From Coq Require Import QArith Qabs Ascii.
From Verif Require Import Base.
Open Scope Z_scope.

(** utilities.cpp:9  [int mod(a,b) { return (a % b + b) % b; }].
    C++ % truncates (Z.rem); b = 0 is undefined; the addition is a 32-bit int addition. *)
Definition cmod (a b : Z) : res Z :=
  if b =? 0 then UB else
  do s <- ck (Z.rem a b + b) ;
  Ok (Z.rem s b).

(** Same without the overflow check, for callers whose operands are small (used by models
    of callers; [cmod] is the faithful one). *)
Definition modZ (a b : Z) : Z := Z.rem (Z.rem a b + b) b.

(** utilities.cpp:11-15. Left-to-right evaluation of i1*size2*size3 + i2*size3 + i3,
    every intermediate is an int. *)
Definition compress3Indices (i1 i2 i3 size1 size2 size3 : Z) : res Z :=
  do a <- ck (i1 * size2) ;
  do b <- ck (a * size3) ;
  do c <- ck (i2 * size3) ;
  do d <- ck (b + c) ;
  ck (d + i3).

(** utilities.cpp:17-27. *)
Definition decompress3Indices (iTot size1 size2 size3 : Z) : res (Z * Z * Z) :=
  do s23 <- ck (size2 * size3) ;
  if s23 =? 0 then UB else
  do i1 <- ck (Z.quot iTot s23) ;
  do a <- ck (i1 * size2) ;
  do b <- ck (a * size3) ;
  do remainder <- ck (iTot - b) ;
  if size3 =? 0 then UB else
  do i2 <- ck (Z.quot remainder size3) ;
  do c <- ck (i2 * size3) ;
  do i3 <- ck (remainder - c) ;
  Ok (i1, i2, i3).

(** utilities.cpp:29-33. *)
Definition compress2Indices (i1 i2 size1 size2 : Z) : res Z :=
  do a <- ck (i1 * size2) ;
  ck (a + i2).

(** utilities.cpp:35-41. *)
Definition decompress2Indices (iTot size1 size2 : Z) : res (Z * Z) :=
  if size2 =? 0 then UB else
  do i1 <- ck (Z.quot iTot size2) ;
  do a <- ck (i1 * size2) ;
  do i2 <- ck (iTot - a) ;
  Ok (i1, i2).

(** utilities.h:17-19  sgn on integers/doubles, here on Z. *)
Definition sgn (v : Z) : Z := (if 0 <? v then 1 else 0) - (if v <? 0 then 1 else 0).

(** utilities.h:109-127  splitVector. The while loop becomes recursion on fuel;
    [None] = fuel exhausted. num_to_copy = min(remaining, chunkSize). *)
Fixpoint splitVector_loop {A} (fuel : nat) (rest : list A) (chunkSize : nat) : option (list (list A)) :=
  match rest with
  | [] => Some []
  | _ =>
    match fuel with
    | O => None
    | S f =>
      let num := Nat.min (length rest) chunkSize in
      match splitVector_loop f (skipn num rest) chunkSize with
      | Some chunks => Some (firstn num rest :: chunks)
      | None => None
      end
    end
  end.

(** utilities.cpp:80-102  findMaxRelativeDifference on the tensors flattened in loop order
    (i,j,k).  Doubles are exact rationals; a component whose reference is zero is inf or NaN in
    IEEE arithmetic, for which the test [diff < maxDiff] is false: it is modelled by [None].
    Mismatching dimensions are an Error. *)
Definition big1e20 : Q := inject_Z 100000000000000000000.

Definition relDiff (x xRef : Q) : option Q :=
  if Qeq_bool xRef 0 then None else Some (Qabs ((x - xRef) / xRef)).

Definition fmrd_step (maxDiff : Q) (d : option Q) : Q :=
  match d with
  | Some v => if negb (Qle_bool maxDiff v) then v else maxDiff
  | None => maxDiff
  end.

Definition findMaxRelativeDifference (x xRef : list Q) : res Q :=
  if negb (Nat.eqb (length x) (length xRef)) then Err else
  let diffs := map (fun p => relDiff (fst p) (snd p)) (combine x xRef) in
  let maxDiff := fold_left fmrd_step diffs big1e20 in
  if Qeq_bool maxDiff big1e20 then Err else Ok maxDiff.

(** utilities.cpp:105-118  tokenize.  The regex class [\s|,|\"] contains white space, '|', ','
    and '"'.  sregex_token_iterator with index -1 yields the text between maximal runs of class
    characters; empty pieces are then erased. *)
Definition isSpaceC (c : ascii) : bool :=
  let n := nat_of_ascii c in (Nat.eqb n 32) || (Nat.leb 9 n && Nat.leb n 13).
Definition isTokSep (c : ascii) : bool :=
  isSpaceC c || Ascii.eqb c "|" || Ascii.eqb c "," || Ascii.eqb c """".

(** pieces between single separators; a run of separators yields empty pieces, which the
    erase-remove of l.113-116 deletes just as it deletes the (empty) piece before a leading run. *)
Fixpoint tokPieces (cur : list ascii) (s : list ascii) : list (list ascii) :=
  match s with
  | [] => [rev cur]
  | c :: r => if isTokSep c then rev cur :: tokPieces [] r else tokPieces (c :: cur) r
  end.

Definition nonempty {A} (l : list A) : bool := match l with [] => false | _ => true end.

Definition tokenize (s : list ascii) : list (list ascii) := filter nonempty (tokPieces [] s).
