(** What quoted scalars of YAML mean, and what plain ones are: specification for C63 (YAML 1.1,
    5.7 and 9.1; line breaks are LF).  Uses nothing of the model of the writer and the reader. *)
From Verif Require Import Core Str Comparison JsonSpec YamlSpec.
Import ListNotations.
Open Scope string_scope. Open Scope list_scope.

Definition newline : ascii := "010".
Definition blankChar (c : ascii) : Prop := In c [" "; "009"]%char.
(** the UTF-8 encoding of a code point *)
Definition encodes (v : Z) (u : list ascii) : Prop :=
  ((0 <= v < 128)%Z /\ exists a, u = [a] /\ bytev a = v) \/
  ((128 <= v < 2048)%Z /\ exists a b, u = [a; b] /\ bytev a = (192 + v / 64)%Z /\ bytev b = (128 + v mod 64)%Z) \/
  ((2048 <= v < 65536)%Z /\ ~ (55296 <= v < 57344)%Z /\ exists a b c, u = [a; b; c] /\
     bytev a = (224 + v / 4096)%Z /\ bytev b = (128 + v / 64 mod 64)%Z /\ bytev c = (128 + v mod 64)%Z) \/
  ((65536 <= v < 1114112)%Z /\ exists a b c d, u = [a; b; c; d] /\
     bytev a = (240 + v / 262144)%Z /\ bytev b = (128 + v / 4096 mod 64)%Z /\ bytev c = (128 + v / 64 mod 64)%Z /\ bytev d = (128 + v mod 64)%Z).
(** letters behind a backslash and their code points *)
Definition escapes : list (ascii * Z) :=
  [("0", 0); ("a", 7); ("b", 8); ("t", 9); ("n", 10); ("v", 11); ("f", 12); ("r", 13); ("e", 27); (" ", 32); ("034", 34); ("/", 47);
   ("\", 92); ("N", 133); ("_", 160); ("L", 8232); ("P", 8233)]%char%Z.
Inductive escaped : list ascii -> list ascii -> Prop :=
| E_letter e v u : In (e, v) escapes -> encodes v u -> escaped [e] u
| E_hex p k hs v u : In (p, k) [("x", 2); ("u", 4); ("U", 8)]%char%nat -> List.length hs = k -> inB 16 hs v -> encodes v u -> escaped (p :: hs) u.
(** characters beyond ASCII that are no line breaks *)
Definition wide (u : list ascii) : Prop :=
  (exists v, (128 <= v)%Z /\ encodes v u /\ ~ In v [133; 8232; 8233]%Z).
(** blanks up to a line break *)
Definition noFold (w : list ascii) : Prop := forall bs x, blanks bs -> w <> bs ++ newline :: x.
Definition documentMark (w : list ascii) : Prop := exists r, w = chars "---" ++ r \/ w = chars "..." ++ r.
(** [content single w t]: between quotes, the characters [w] stand for the text [t] *)
Inductive content (single : bool) : list ascii -> list ascii -> Prop :=
| Q_end : content single [] []
| Q_char c w t : (33 <= bytev c <= 126)%Z -> (single = true -> c <> "'"%char) -> (single = false -> c <> "034"%char /\ c <> "\"%char) ->
    content single w t -> content single (c :: w) (c :: t)
| Q_wide u w t : wide u -> content single w t -> content single (u ++ w) (u ++ t)
| Q_blank c w t : blankChar c -> noFold w -> content single w t -> content single (c :: w) (c :: t)
(* a line break with the blanks around it is a blank; of several line breaks one is dropped *)
| Q_fold bs lines bs' w t : blanks bs -> Forall blanks lines -> blanks bs' ->
    (forall c r, w = c :: r -> ~ blankChar c /\ c <> newline) -> (bs' = [] -> ~ documentMark w) -> content single w t ->
    content single (bs ++ newline :: concat (map (fun l => l ++ [newline]) lines) ++ bs' ++ w)
                   ((match lines with [] => [" "%char] | _ => map (fun _ => newline) lines end) ++ t)
| Q_escape e u w t : single = false -> escaped e u -> content single w t -> content single ("\"%char :: e ++ w) (u ++ t)
(* an escaped line break and the blanks behind it are nothing *)
| Q_continued lines bs' w t : single = false -> Forall blanks lines -> blanks bs' ->
    (forall c r, w = c :: r -> ~ blankChar c /\ c <> newline) -> (bs' = [] -> ~ documentMark w) -> content single w t ->
    content single ("\"%char :: newline :: concat (map (fun l => l ++ [newline]) lines) ++ bs' ++ w) (map (fun _ => newline) lines ++ t)
| Q_quote w t : single = true -> content single w t -> content single ("'"%char :: "'"%char :: w) ("'"%char :: t).
(** printable ASCII and line breaks *)
Definition ascii7 (c : ascii) : Prop := c = newline \/ between32 c.
(** [plain k w t]: the characters [w] are the plain text [t], continued on lines that begin with
    at least [k] spaces *)
Inductive plain (k : nat) : list ascii -> list ascii -> Prop :=
| P_end : plain k [] []
| P_char c w t : (33 <= bytev c <= 126)%Z -> plain k w t -> plain k (c :: w) (c :: t)
| P_blank w t : noFold w -> plain k w t -> plain k (" "%char :: w) (" "%char :: t)
| P_fold j c w t : (k <= j)%nat -> (0 < j)%nat -> (33 <= bytev c <= 126)%Z -> plain k (c :: w) (c :: t) ->
    plain k (newline :: repeat " "%char j ++ c :: w) (" "%char :: c :: t).
(** what follows a plain text in a block: the end of the document, the colon behind a key, or a
    line that is not further in than column [k] *)
Definition follows (k : nat) (rest : list ascii) : Prop :=
  rest = [] \/ rest = [":"%char] \/ (exists c r, rest = ":"%char :: c :: r /\ (c = " "%char \/ c = newline)) \/
  (exists j, rest = newline :: repeat " "%char j) \/
  (exists j c r, rest = newline :: repeat " "%char j ++ c :: r /\ (j < k)%nat /\ (33 <= bytev c <= 126)%Z).
