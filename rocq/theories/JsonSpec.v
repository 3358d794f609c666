(** JSON texts without blanks, as a relation between texts and what they denote (RFC 8259), and
    what a value denotes (C60).  No proofs in this file. *)
From Coq Require Import Floats.SpecFloat.
From Verif Require Import Core Str Json ConvertSpec.
Import ListNotations.
Open Scope string_scope. Open Scope list_scope.

(** ** numbers: -?(0|[1-9][0-9]* )(\.[0-9]+)?([eE][+-]?[0-9]+)? *)
Definition decDigit (c : ascii) : Prop := In c (chars "0123456789").
Definition someDigits (l : list ascii) : Prop := l <> [] /\ Forall decDigit l.
Definition intPart (l : list ascii) : Prop := someDigits l /\ forall r, l = "0"%char :: r -> r = [].
Definition fracPart (l : list ascii) : Prop := l = [] \/ exists d, l = "."%char :: d /\ someDigits d.
Definition expPart (l : list ascii) : Prop :=
  l = [] \/ exists e s d, In e ["e"; "E"]%char /\ In s [[]; ["+"%char]; ["-"%char]] /\ someDigits d /\ l = e :: s ++ d.
Definition number (l : list ascii) : Prop := exists m i f e,
  In m [[]; ["-"%char]] /\ intPart i /\ fracPart f /\ expPart e /\ l = m ++ i ++ f ++ e.

(** ** texts *)
(** the two-character escapes *)
Definition escapes : list (ascii * ascii) :=
  [("034", "034"); ("\", "\"); ("/", "/"); ("b", "008"); ("f", "012"); ("n", "010"); ("r", "013"); ("t", "009")]%char.
(** hexadecimal digits *)
Definition hexAt (c : ascii) (d : nat) : Prop :=
  nth_error (chars "0123456789abcdef") d = Some c \/ nth_error (chars "0123456789ABCDEF") d = Some c.
(** the bytes of a character (code point below 65536, no surrogate) *)
Definition codePoint (z : Z) (l : list ascii) : Prop :=
  (0 <= z < 128 /\ exists a, bytev a = z /\ l = [a])%Z \/
  (128 <= z < 2048 /\ exists a b x y, z = 64 * x + y /\ 0 <= y < 64 /\ bytev a = 192 + x /\ bytev b = 128 + y /\ l = [a; b])%Z \/
  (2048 <= z < 65536 /\ ~ (55296 <= z < 57344) /\ exists a b c x y w, z = 4096 * x + 64 * y + w /\ 0 <= y < 64 /\ 0 <= w < 64 /\
     bytev a = 224 + x /\ bytev b = 128 + y /\ bytev c = 128 + w /\ l = [a; b; c])%Z.
(** [textOf t s]: the characters [t] between the quotes denote the bytes [s] *)
Inductive textOf : list ascii -> list ascii -> Prop :=
| T_end : textOf [] []
| T_plain c t s : (32 <= bytev c)%Z -> c <> "034"%char -> c <> "\"%char -> textOf t s -> textOf (c :: t) (c :: s)
| T_escape e c t s : In (e, c) escapes -> textOf t s -> textOf ("\"%char :: e :: t) (c :: s)
| T_code a b c d i j k l z bs t s : hexAt a i -> hexAt b j -> hexAt c k -> hexAt d l ->
    z = (4096 * Z.of_nat i + 256 * Z.of_nat j + 16 * Z.of_nat k + Z.of_nat l)%Z -> codePoint z bs ->
    textOf t s -> textOf ("\"%char :: "u"%char :: a :: b :: c :: d :: t) (bs ++ s).
Definition quotedText (q s : list ascii) : Prop := exists t, textOf t s /\ q = "034"%char :: t ++ ["034"%char].

(** ** values *)
Inductive json : list ascii -> jval -> Prop :=
| J_null : json (chars "null") JNull
| J_true : json (chars "true") (JBool true)
| J_false : json (chars "false") (JBool false)
| J_num t : number t -> json t (JNum t)
| J_str q s : quotedText q s -> json q (JStr s)
| J_arr0 : json (chars "[]") (JArr [])
| J_arr t l : items t l -> json ("["%char :: t ++ ["]"%char]) (JArr l)
| J_obj0 : json (chars "{}") (JObj [])
| J_obj t m : members t m -> json ("{"%char :: t ++ ["}"%char]) (JObj m)
with items : list ascii -> list jval -> Prop :=
| I_one t j : json t j -> items t [j]
| I_more t j t' l : json t j -> items t' l -> items (t ++ ","%char :: t') (j :: l)
with members : list ascii -> list (list ascii * jval) -> Prop :=
| M_one q k t j : quotedText q k -> json t j -> members (q ++ ":"%char :: t) [(k, j)]
| M_more q k t j t' m : quotedText q k -> json t j -> members t' m -> members (q ++ ":"%char :: t ++ ","%char :: t') ((k, j) :: m).

(** ** what a value is as JSON *)
Section Den.
(** the texts of floats *)
Variable floatOf : list ascii -> spec_float -> Prop.
Inductive denotes : value -> jval -> Prop :=
| D_nil : denotes VNil JNull
| D_bool b : denotes (VBool b) (JBool b)
| D_int z t : numeral 10 z (ofchars t) -> denotes (VInt z) (JNum t)
| D_float f t : floatOf t f -> denotes (VFloat f) (JNum t)
| D_str s : denotes (VStr s) (JStr (chars s))
| D_list l js : Forall2 (fun n j => denotes (val n) j) l js -> denotes (VList l) (JArr js)
| D_map m js : Forall2 (fun p q => fst q = chars (fst p) /\ denotes (val (snd p)) (snd q)) m js -> denotes (VMap m) (JObj js).
End Den.
(** data: no expressions, lambdas or templates; all texts and keys are UTF-8, floats are finite *)
Inductive data (utf8 : string -> Prop) : value -> Prop :=
| V_nil : data utf8 VNil
| V_bool b : data utf8 (VBool b)
| V_int z : data utf8 (VInt z)
| V_float s m e : data utf8 (VFloat (S754_finite s m e))
| V_zero s : data utf8 (VFloat (S754_zero s))
| V_str s : utf8 s -> data utf8 (VStr s)
| V_list l : Forall (fun n => data utf8 (val n)) l -> data utf8 (VList l)
| V_map m : Forall (fun p => utf8 (fst p) /\ data utf8 (val (snd p))) m -> data utf8 (VMap m).
(** UTF-8 texts: sequences of encoded characters (RFC 3629), given by the ranges of their bytes *)
Definition between (lo hi : Z) (c : ascii) : Prop := (lo <= bytev c <= hi)%Z.
Inductive utf8Text : list ascii -> Prop :=
| U_end : utf8Text []
| U_1 a l : between 0 127 a -> utf8Text l -> utf8Text (a :: l)
| U_2 a b l : between 194 223 a -> between 128 191 b -> utf8Text l -> utf8Text (a :: b :: l)
| U_3 a b c l : (between 224 224 a /\ between 160 191 b) \/ (between 225 236 a /\ between 128 191 b) \/ (between 237 237 a /\ between 128 159 b) \/ (between 238 239 a /\ between 128 191 b) ->
    between 128 191 c -> utf8Text l -> utf8Text (a :: b :: c :: l)
| U_4 a b c d l : (between 240 240 a /\ between 144 191 b) \/ (between 241 243 a /\ between 128 191 b) \/ (between 244 244 a /\ between 128 143 b) ->
    between 128 191 c -> between 128 191 d -> utf8Text l -> utf8Text (a :: b :: c :: d :: l).
(** the same data up to JSON: numbers are equal if their texts are *)
Section Same.
Variable floatOf : list ascii -> spec_float -> Prop.
Inductive sameData : value -> value -> Prop :=
| S_nil : sameData VNil VNil
| S_bool b : sameData (VBool b) (VBool b)
| S_int z : sameData (VInt z) (VInt z)
| S_float f : sameData (VFloat f) (VFloat f)
| S_int_float z f t : numeral 10 z (ofchars t) -> floatOf t f -> sameData (VInt z) (VFloat f)
| S_float_int z f t : numeral 10 z (ofchars t) -> floatOf t f -> sameData (VFloat f) (VInt z)
| S_str s : sameData (VStr s) (VStr s)
| S_list l l' : Forall2 (fun n n' => sameData (val n) (val n')) l l' -> sameData (VList l) (VList l')
| S_map m m' : Forall2 (fun p p' => fst p = fst p' /\ sameData (val (snd p)) (val (snd p'))) m m' -> sameData (VMap m) (VMap m').
End Same.
(** [inside w v]: [w] is [v] or occurs in it *)
Inductive inside (w : value) : value -> Prop :=
| In_self : inside w w
| In_list l n : In n l -> inside w (val n) -> inside w (VList l)
| In_map m k n : In (k, n) m -> inside w (val n) -> inside w (VMap m).
(** nil, booleans, numbers, texts, lists and maps *)
Inductive plainValue : value -> Prop :=
| P_nil : plainValue VNil
| P_bool b : plainValue (VBool b)
| P_int z : plainValue (VInt z)
| P_float f : plainValue (VFloat f)
| P_str s : plainValue (VStr s)
| P_list l : Forall (fun n => plainValue (val n)) l -> plainValue (VList l)
| P_map m : Forall (fun p => plainValue (val (snd p))) m -> plainValue (VMap m).
