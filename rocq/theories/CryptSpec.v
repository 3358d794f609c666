(** What an encrypted text is (C57).  No part of the model except the block cipher, the MAC and
    the exclusive or of bytes.  No proofs in this file. *)
From Verif Require Import Core Str Crypt.
Import ListNotations.
Open Scope string_scope. Open Scope list_scope.

(** a digit and its value; upper case digits are only read *)
Definition hexPair (c : ascii) (a b : ascii) : Prop :=
  exists i j, (i < 16)%nat /\ (j < 16)%nat /\ N_of_ascii c = N.of_nat (16 * i + j) /\
    (nth_error (chars "0123456789abcdef") i = Some a \/ nth_error (chars "0123456789ABCDEF") i = Some a) /\
    (nth_error (chars "0123456789abcdef") j = Some b \/ nth_error (chars "0123456789ABCDEF") j = Some b).
Inductive hexText : list ascii -> list ascii -> Prop :=
| H_nil : hexText [] []
| H_cons c a b l t : hexPair c a b -> hexText l t -> hexText (c :: l) (a :: b :: t).

Section Spec.
Variable encBlock : list ascii -> list ascii -> list ascii.
(** cipher block chaining: every block of 8 bytes is encrypted after combining it with the
    encrypted block before, the first one with the initial vector *)
Inductive chained (k : list ascii) : list ascii -> list ascii -> list ascii -> Prop :=
| C_end prev : chained k prev [] []
| C_block prev b t c : length b = 8%nat -> chained k (encBlock k (xorL b prev)) t c -> chained k prev (b ++ t) (encBlock k (xorL b prev) ++ c).

Variable hmac : list ascii -> list ascii.
(** [sealed k message data]: the initial vector and the chained blocks of the message, its MAC and
    padding, of which the last byte tells the number of padding bytes before it *)
Definition sealed (k message data : list ascii) : Prop :=
  exists iv c p z, length iv = 8%nat /\ data = iv ++ c /\ chained k iv (message ++ hmac message ++ p ++ [z]) c /\
    N_of_ascii z = N.of_nat (length p) /\ (length p < 255)%nat.
End Spec.
