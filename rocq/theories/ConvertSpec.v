(** Numerals, rounding and letters (C58), specified without the functions of the model.
    No proofs in this file. *)
From Coq Require Import QArith Floats.SpecFloat.
From Verif Require Import Core Str DecSpec.
Import ListNotations.
Open Scope string_scope. Open Scope list_scope.

(** ** numerals to a base *)
(** the digits with their values: 0 to 9, then the small letters *)
Definition digitAt (d : nat) (c : ascii) : Prop := nth_error (chars "0123456789abcdefghijklmnopqrstuvwxyz") d = Some c.
(** [inBase b s z]: a nonempty sequence of digits to the base [b] with the value [z] *)
Inductive inBase (b : Z) : string -> Z -> Prop :=
| B_one d c : digitAt d c -> (Z.of_nat d < b)%Z -> inBase b (String c "") (Z.of_nat d)
| B_more s z d c : inBase b s z -> digitAt d c -> (Z.of_nat d < b)%Z -> inBase b (s +++ String c "") (b * z + Z.of_nat d).
(** no superfluous zeros *)
Definition short (s : string) : Prop := forall r, s = String "0" r -> r = "".
(** the numeral of an integer *)
Definition numeral (b z : Z) (s : string) : Prop :=
  (0 <= z /\ inBase b s z /\ short s)%Z \/ (z < 0 /\ exists r, s = String "-" r /\ inBase b r (- z) /\ short r)%Z.
(** an integer as it can be given as text: optional sign, decimal digits *)
Definition signed (s : string) (z : Z) : Prop :=
  decimal s z \/ (exists r, s = String "+" r /\ decimal r z) \/ (exists r, s = String "-" r /\ decimal r (- z)).
(** the words for truth values *)
Definition boolWord (s : string) (b : bool) : Prop :=
  In s (if b then ["1"; "t"; "T"; "TRUE"; "true"; "True"] else ["0"; "f"; "F"; "FALSE"; "false"; "False"]).
(** the capital letter of a small one: the [k]th letters of both alphabets *)
Definition capital (small cap : ascii) : Prop := exists k,
  nth_error (chars "abcdefghijklmnopqrstuvwxyz") k = Some small /\ nth_error (chars "ABCDEFGHIJKLMNOPQRSTUVWXYZ") k = Some cap.
(** [upperCased s t]: [t] is [s] with every small letter replaced by its capital *)
Definition upperCased (s t : string) : Prop :=
  Forall2 (fun c d => capital c d \/ ((forall x, ~ capital c x) /\ d = c)) (chars s) (chars t).
Definition lowerCased (s t : string) : Prop :=
  Forall2 (fun c d => capital d c \/ ((forall x, ~ capital x c) /\ d = c)) (chars s) (chars t).

(** ** the value of a finite float *)
Definition fval (f : spec_float) (v : Q) : Prop :=
  match f with
  | S754_zero _ => v = 0%Q
  | S754_finite s m e => let n := if s then Zneg m else Zpos m in
      v = if (0 <=? e)%Z then inject_Z (n * 2 ^ e) else (n # Z.to_pos (2 ^ (- e)))
  | _ => False
  end.
Definition roundsDown (v : Q) (z : Z) : Prop := (inject_Z z <= v /\ v < inject_Z (z + 1))%Q.
Definition roundsUp (v : Q) (z : Z) : Prop := (inject_Z (z - 1) < v /\ v <= inject_Z z)%Q.
Definition truncates (v : Q) (z : Z) : Prop := ((0 <= v)%Q -> roundsDown v z) /\ ((v <= 0)%Q -> roundsUp v z).
(** a nearest integer; in the middle the one away from zero / the even one *)
Definition nearest (v : Q) (z : Z) : Prop := (inject_Z z - (1 # 2) <= v /\ v <= inject_Z z + (1 # 2))%Q.
Definition tie (v : Q) (z : Z) : Prop := (v == inject_Z z - (1 # 2) \/ v == inject_Z z + (1 # 2))%Q.
Definition roundsHalfAway (v : Q) (z : Z) : Prop :=
  nearest v z /\ ((v == inject_Z z + (1 # 2))%Q -> (v < 0)%Q) /\ ((v == inject_Z z - (1 # 2))%Q -> (0 < v)%Q).
Definition roundsHalfEven (v : Q) (z : Z) : Prop := nearest v z /\ (tie v z -> Z.even z = true).
