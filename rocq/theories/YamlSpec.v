(** What the scalars of a YAML document are and which documents are the same (C62), without the
    functions of the model.  No proofs in this file. *)
From Coq Require Import Floats.SpecFloat.
From Verif Require Import Core Str ConvertSpec JsonSpec.
From Verif Require Json.
Import ListNotations.
Open Scope string_scope. Open Scope list_scope.

Definition nullText (s : string) : Prop := In s [""; "~"; "null"; "Null"; "NULL"].
(** the words for truth values, in small and capital letters *)
Definition truthWord (b : bool) (w : string) : Prop := In w (if b then ["y"; "yes"; "true"; "on"] else ["n"; "no"; "false"; "off"]).
Definition anyCase (s w : string) : Prop := Forall2 (fun c d => c = d \/ capital d c) (chars s) (chars w).
Definition boolText (s : string) (b : bool) : Prop := exists w, truthWord b w /\ anyCase s w.

(** [inB b l z]: the digits [l] (letters in both cases) to the base [b] have the value [z] *)
Definition digitB (d : nat) (c : ascii) : Prop :=
  nth_error (chars "0123456789abcdefghijklmnopqrstuvwxyz") d = Some c \/ nth_error (chars "0123456789ABCDEFGHIJKLMNOPQRSTUVWXYZ") d = Some c.
Inductive inB (b : Z) : list ascii -> Z -> Prop :=
| N_one d c : digitB d c -> (Z.of_nat d < b)%Z -> inB b [c] (Z.of_nat d)
| N_more l z d c : inB b l z -> digitB d c -> (Z.of_nat d < b)%Z -> inB b (l ++ [c]) (b * z + Z.of_nat d).
(** decimal without leading zero; octal with a leading 0, 0o or 0O; binary 0b; hexadecimal 0x *)
Inductive natText : list ascii -> Z -> Prop :=
| X_zero : natText ["0"%char] 0
| X_dec c l z : c <> "0"%char -> inB 10 (c :: l) z -> natText (c :: l) z
| X_oct l z : inB 8 l z -> natText ("0"%char :: l) z
| X_pre p b l z : In (p, b) [("b", 2); ("B", 2); ("o", 8); ("O", 8); ("x", 16); ("X", 16)]%char%Z -> inB b l z -> natText ("0"%char :: p :: l) z.
(** [without c l t]: [t] is [l] without the characters [c] *)
Inductive without (x : ascii) : list ascii -> list ascii -> Prop :=
| W_nil : without x [] []
| W_drop l t : without x l t -> without x (x :: l) t
| W_keep c l t : c <> x -> without x l t -> without x (c :: l) (c :: t).
Definition isDig (c : ascii) : Prop := In c (chars "0123456789").
(** signed: an optional sign, then what [P] describes *)
Definition withSign (P : list ascii -> Z -> Prop) (l : list ascii) (z : Z) : Prop :=
  (P l z /\ (forall r, l <> "+"%char :: r) /\ (forall r, l <> "-"%char :: r)) \/ (exists r, l = "+"%char :: r /\ P r z) \/ (exists r, l = "-"%char :: r /\ P r (- z)%Z).
Definition starts (cs : list ascii) (s : string) : Prop := exists c r, s = String c r /\ In c cs.
(** an integer of 64 bits: underscores may be used anywhere but in front *)
Definition intText (s : string) (z : Z) : Prop :=
  starts (chars "+-0123456789") s /\ in64 z /\ exists t, without "_"%char (chars s) t /\ withSign natText t z.

(** times: a date, optionally followed by a time of day, optionally with a zone *)
Definition digs (lo hi : nat) (l : list ascii) : Prop := Forall isDig l /\ (lo <= List.length l <= hi)%nat.
Definition blanks (l : list ascii) : Prop := Forall (fun c => In c [" "; "009"]%char) l.
Definition zoneText (z : list ascii) : Prop := z = [] \/ exists b r, z = b ++ r /\ blanks b /\
  (r = ["Z"%char] \/ exists sg h m, In sg ["+"; "-"]%char /\ digs 1 2 h /\ (m = [] \/ exists mm, m = ":"%char :: mm /\ (mm = [] \/ digs 2 2 mm)) /\ r = sg :: h ++ m).
Definition clockText (r : list ascii) : Prop := exists sep h m s fr z,
  r = sep ++ h ++ ":"%char :: m ++ ":"%char :: s ++ fr ++ z /\
  (In sep [["T"%char]; ["t"%char]] \/ blanks sep /\ sep <> []) /\ digs 1 2 h /\ digs 2 2 m /\ digs 2 2 s /\
  (fr = [] \/ exists ds, fr = "."%char :: ds /\ Forall isDig ds) /\ zoneText z.
Definition timeText (s : string) : Prop := exists y m d r, chars s = y ++ "-"%char :: m ++ "-"%char :: d ++ r /\
  digs 4 4 y /\ digs 1 2 m /\ digs 1 2 d /\ (r = [] \/ clockText r).

Section Floats.
(** the texts that are floats in Go *)
Variable parseFloat : string -> option spec_float.
Variable formatG : spec_float -> string.
(** the value of an unsigned text *)
Definition floatWord (negative : bool) (t : list ascii) (f : spec_float) : Prop :=
  (exists w, anyCase w "inf" /\ t = "."%char :: chars w /\ f = S754_infinity negative) \/
  (exists w, anyCase w "nan" /\ t = "."%char :: chars w /\ f = S754_nan) \/
  ((forall w, anyCase w "inf" \/ anyCase w "nan" -> t <> "."%char :: chars w) /\
   exists g, parseFloat (ofchars t) = Some g /\ f = if negative then SFopp g else g).
Definition floatText (s : string) (f : spec_float) : Prop :=
  starts (chars "+-0123456789.") s /\ (forall z, ~ intText s z) /\
  exists t, without "_"%char (chars s) t /\
    ((floatWord false t f /\ (forall r, t <> "+"%char :: r) /\ (forall r, t <> "-"%char :: r)) \/
     (exists r, t = "+"%char :: r /\ floatWord false r f) \/ (exists r, t = "-"%char :: r /\ floatWord true r f)).

(** ** documents *)
(** strconv (not modelled): the text of a finite float is a number that is read as this float *)
Definition exactText (f : spec_float) : Prop := Json.finite f = true ->
  number (chars (formatG f)) /\
  ((forall r, formatG f <> String "-" r) -> parseFloat (formatG f) = Some f) /\
  (forall r, formatG f = String "-" r -> parseFloat r = Some (SFopp f)).
(** data: nil, truth values, integers, floats, UTF-8 texts, lists and maps of such with UTF-8 keys *)
Inductive doc : value -> Prop :=
| O_nil : doc VNil
| O_bool b : doc (VBool b)
| O_int z : in64 z -> doc (VInt z)
| O_float f : exactText f -> doc (VFloat f)
| O_str s : utf8Text (chars s) -> doc (VStr s)
| O_list l : Forall (fun n => doc (val n)) l -> doc (VList l)
| O_map m : msorted m -> Forall (fun p => utf8Text (chars (fst p)) /\ doc (val (snd p))) m -> doc (VMap m).
(** the same document up to the way floats are written: a float whose text is that of an integer *)
Inductive sameDoc : value -> value -> Prop :=
| E_nil : sameDoc VNil VNil
| E_bool b : sameDoc (VBool b) (VBool b)
| E_int z : sameDoc (VInt z) (VInt z)
| E_float f : sameDoc (VFloat f) (VFloat f)
| E_whole f z : intText (formatG f) z -> sameDoc (VFloat f) (VInt z)
| E_str s : sameDoc (VStr s) (VStr s)
| E_list l l' : Forall2 (fun n n' => sameDoc (val n) (val n')) l l' -> sameDoc (VList l) (VList l')
| E_map m m' : Forall2 (fun p p' => fst p = fst p' /\ sameDoc (val (snd p)) (val (snd p'))) m m' -> sameDoc (VMap m) (VMap m').
End Floats.

(** ** texts that need no quotes in a YAML document (YAML 1.1, 9.1.1 and 9.1.3, block context) *)
Definition between32 (c : ascii) : Prop := (32 <= bytev c <= 126)%Z.
Definition plainSafe (l : list ascii) : Prop :=
  l <> [] /\ Forall between32 l /\
  (forall r, l <> " "%char :: r) /\ (forall r, l <> r ++ [" "%char]) /\
  (* no indicator in front *)
  (forall c r, l = c :: r -> ~ In c (chars "#,[]{}&*!|>'%@`") /\ c <> "034"%char) /\
  (forall c r, l = c :: r -> In c (chars "-?:") -> exists d q, r = d :: q /\ d <> " "%char) /\
  (* no mapping value and no comment inside *)
  (forall a b, l = a ++ ":"%char :: b -> exists d q, b = d :: q /\ d <> " "%char) /\
  (forall a b, l <> a ++ " "%char :: "#"%char :: b) /\
  (* no document marker *)
  (forall r, l <> "-"%char :: "-"%char :: "-"%char :: r) /\ (forall r, l <> "."%char :: "."%char :: "."%char :: r).
(** ... texts that can stand between single quotes: no line break beside a blank *)
Definition singleSafe (l : list ascii) : Prop :=
  Forall (fun c => c = "010"%char \/ between32 c) l /\
  (forall a b, l <> a ++ "010"%char :: " "%char :: b) /\ (forall a b, l <> a ++ " "%char :: "010"%char :: b).
