(** Vocabulary: input files and the notation of their values. *)
From Coq Require Import QArith Ascii String.
From Verif Require Import Base M_context.
Open Scope Z_scope.

Definition blank (s : str) : Prop := Forall (fun c => isspace c = true) s.
Definition without (cs : list ascii) (s : str) : Prop := Forall (fun c => ~ In c cs) s.
(** nothing, or "#" and anything without ";" *)
Definition comment (s : str) : Prop := s = [] \/ exists c, s = "#"%char :: c /\ without [";"%char] c.
(** blanks and perhaps a comment *)
Definition ignorable (l : str) : Prop := exists b c, l = b ++ c /\ blank b /\ comment c.
(** every block opened in these lines is closed in them *)
Definition closedBlocks (file : list str) : Prop :=
  forall before l after, flat_map (split ";"%char) file = before ++ l :: after -> patternInString (stripComment l) (str! "begin") = true ->
  exists e, In e after /\ patternInString e (str! "end") = true.

(** files made of "key = value" lines, blank lines and comments *)
Inductive item := Skip (l : str) | Param (ws1 key ws2 val cmt : str).
Definition render (i : item) : str :=
  match i with Skip l => l | Param ws1 key ws2 val cmt => ws1 ++ key ++ ws2 ++ ["="%char] ++ val ++ cmt end.
Definition goodItem (i : item) : Prop :=
  match i with
  | Skip l => ignorable l
  | Param ws1 key ws2 val cmt => blank ws1 /\ blank ws2 /\ without ["="; "("; "#"; ";"]%char key /\ Forall (fun c => isspace c = false) key /\
      without ["#"; ";"]%char val /\ comment cmt
  end.
Definition params (l : list item) : list (str * str) := flat_map (fun i => match i with Skip _ => [] | Param _ key _ val _ => [(key, val)] end) l.
(** the value of the last line for a key *)
Definition lastValue (key : str) (l : list (str * str)) : option str :=
  option_map snd (find (fun p : str * str => streq (fst p) key) (rev l)).

(** * Notation of numbers *)
Definition isDigit (d : Z) : Prop := 0 <= d < 10.
Definition digitChar (d : Z) : ascii := ascii_of_N (Z.to_N (48 + d)).
Definition digitChars (ds : list Z) : str := map digitChar ds.
Fixpoint decimalValue (ds : list Z) : Z := match ds with [] => 0 | d :: r => d * 10 ^ zlen r + decimalValue r end.
Inductive sign := NoSign | Plus | Minus.
Definition signText (s : sign) : str := match s with NoSign => [] | Plus => ["+"%char] | Minus => ["-"%char] end.
Definition withSign (s : sign) (v : Z) : Z := match s with Minus => - v | _ => v end.
(** what follows the number does not go on with a digit *)
Definition noDigit (s : str) : Prop := match s with c :: _ => isdigit c = false | [] => True end.
(** decimal number: sign, digits, optional fraction, optional exponent *)
Record number := { nSign : sign; nInt : list Z; nFrac : option (list Z); nExp : option (bool * sign * list Z) }.
Definition numberText (n : number) : str :=
  signText (nSign n) ++ digitChars (nInt n) ++
  (match nFrac n with Some f => "."%char :: digitChars f | None => [] end) ++
  (match nExp n with Some (upper, s, ds) => (if upper : bool then "E"%char else "e"%char) :: signText s ++ digitChars ds | None => [] end).
Definition fracDigits (n : number) : list Z := match nFrac n with Some f => f | None => [] end.
Definition numberValue (n : number) : Q :=
  inject_Z (withSign (nSign n) (decimalValue (nInt n ++ fracDigits n))) * Qpower 10 (match nExp n with Some (_, s, ds) => withSign s (decimalValue ds) | None => 0 end - zlen (fracDigits n)).
Definition goodNumber (n : number) : Prop :=
  Forall isDigit (nInt n) /\ Forall isDigit (fracDigits n) /\ nInt n ++ fracDigits n <> [] /\
  match nExp n with Some (_, _, ds) => Forall isDigit ds | None => True end.
(** what follows a decimal number does not go on with it *)
Definition ends (s : str) : Prop := match s with c :: _ => isdigit c = false /\ ~ In c ["."; "e"; "E"; "+"; "-"]%char | [] => True end.
(** items separated by commas *)
Fixpoint commas (l : list str) : str := match l with [] => [] | [x] => x | x :: r => x ++ ","%char :: commas r end.
(** an item of a list of numbers, whole numbers, names: blanks, text, blanks *)
Definition itemText (i : str * number * str) : str := fst (fst i) ++ numberText (snd (fst i)) ++ snd i.
Definition goodItemText (i : str * number * str) : Prop := blank (fst (fst i)) /\ goodNumber (snd (fst i)) /\ blank (snd i).
Definition intText (i : str * (sign * list Z) * str) : str := fst (fst i) ++ signText (fst (snd (fst i))) ++ digitChars (snd (snd (fst i))) ++ snd i.
Definition intValue (i : str * (sign * list Z) * str) : Z := withSign (fst (snd (fst i))) (decimalValue (snd (snd (fst i)))).
Definition goodInt (i : str * (sign * list Z) * str) : Prop := blank (fst (fst i)) /\ blank (snd i) /\ Forall isDigit (snd (snd (fst i))) /\ snd (snd (fst i)) <> [] /\ INT_MIN <= intValue i <= INT_MAX.
Definition nameText (i : str * str * str) : str := fst (fst i) ++ dquote :: snd (fst i) ++ dquote :: snd i.
Definition goodName (i : str * str * str) : Prop := Forall (fun c => c = " "%char) (fst (fst i)) /\ Forall (fun c => c = " "%char) (snd i) /\ without [" "; ","; "["; "]"]%char (snd (fst i)) /\ ~ In dquote (snd (fst i)).
(** * Lines of blocks: words separated by blanks *)
Definition lineText (l : list (str * str)) (tail : str) : str := concat (map (fun p => fst p ++ snd p) l) ++ tail.
Definition goodWord (w : str) : Prop := w <> [] /\ Forall (fun c => isspace c = false) w.
Fixpoint goodWords (l : list (str * str)) : Prop := match l with [] => True | p :: r => blank (fst p) /\ fst p <> [] /\ goodWord (snd p) /\ goodWords r end.
(** the first word may start the line *)
Definition goodLine (l : list (str * str)) (tail : str) : Prop := match l with [] => True | p :: r => blank (fst p) /\ goodWord (snd p) /\ goodWords r end /\ blank tail.
(** an atom of the block crystal, an end of a segment of the block point path: name and coordinates *)
Record named := { nmName : str; nmX : number; nmY : number; nmZ : number }.
Definition goodNamed (a : named) : Prop := goodWord (nmName a) /\ goodNumber (nmX a) /\ goodNumber (nmY a) /\ goodNumber (nmZ a).
Definition namedWords (a : named) : list str := [nmName a; numberText (nmX a); numberText (nmY a); numberText (nmZ a)].
(** a line with these words, whatever the blanks *)
Definition lineWith (ws : list str) (line : str) : Prop := exists l tail, line = lineText l tail /\ goodLine l tail /\ map snd l = ws.
