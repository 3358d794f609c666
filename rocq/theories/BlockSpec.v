(** What may follow a literal block.  Written from the YAML rules, without the model. *)
From Coq Require Import Ascii ZArith List.
From Verif Require Import Core Str ScalarSpec.
Import ListNotations.

(** the end of the text, or a line whose first visible character is less far in than the block
    (printable ASCII, not a blank); blanks alone count as such a line if there are few; [x] is what
    follows the blanks *)
Definition outside (indent : nat) (rest x : list ascii) : Prop :=
  exists j, rest = repeat " "%char j ++ x /\ (x = [] \/ ((j < indent)%nat /\ exists c r, x = c :: r /\ (33 <= bytev c <= 126)%Z)) /\ (x = [] -> (j < indent)%nat).
(** empty lines: at most as many blanks as the indentation *)
Inductive blankLines (indent : nat) : list ascii -> Prop :=
| no_blank_lines : blankLines indent []
| a_blank_line j g : (j <= indent)%nat -> blankLines indent g -> blankLines indent (repeat " "%char j ++ newline :: g).
(** a text with a line break at its end is followed by the next line at once, any other text by
    the end or a line break and any number of empty lines; [x] is what
    stays for the next token *)
Definition behind (indent : nat) (l rest x : list ascii) : Prop :=
  ((exists z, l = z ++ [newline]) /\ outside indent rest x) \/
  ((forall z, l <> z ++ [newline]) /\ ((rest = [] /\ x = []) \/ exists g y, rest = newline :: g ++ y /\ blankLines indent g /\ outside indent y x)).
