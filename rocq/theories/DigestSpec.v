(** The password digest of Apache (apr1) as a relation, and digits to the base 64 (C59).
    No proofs in this file. *)
From Verif Require Import Core Str.
Import ListNotations.
Open Scope string_scope. Open Scope list_scope.

Section Spec.
Variable md5 : list ascii -> list ascii.
(** the bytes [m] repeated up to the length [n] *)
Definition repeated (m : list ascii) (n : nat) (l : list ascii) : Prop :=
  length l = n /\ forall i, (i < n)%nat -> exists c, nth_error m (i mod 16) = Some c /\ nth_error l i = Some c.
(** one byte for every binary digit of [n], the lowest first: 0 for a one, [c] for a zero *)
Definition binaryBytes (c : ascii) (n : Z) (l : list ascii) : Prop :=
  (2 ^ Z.of_nat (length l) > n /\ (l <> [] -> 2 ^ (Z.of_nat (length l) - 1) <= n))%Z /\
  forall i x, nth_error l i = Some x -> x = (if Z.testbit n (Z.of_nat i) then "000"%char else c).
(** the digests of the rounds, beginning with round [i] *)
Inductive roundsOf (pw salt : list ascii) : Z -> list ascii -> Z -> list ascii -> Prop :=
| R_end i d : roundsOf pw salt i d i d
| R_step i d j d' t :
    t = (if Z.even i then d else pw) ++ (if (i mod 3 =? 0)%Z then [] else salt) ++ (if (i mod 7 =? 0)%Z then [] else pw) ++ (if Z.even i then pw else d) ->
    roundsOf pw salt (i + 1) (md5 t) j d' -> roundsOf pw salt i d j d'.
(** the digest of a password with a salt *)
Definition apr1 (pw salt magic d : list ascii) : Prop := exists mix bits,
  repeated (md5 (pw ++ salt ++ pw)) (length pw) mix /\
  binaryBytes (hd "000"%char pw) (Z.of_nat (length pw)) bits /\
  roundsOf pw salt 0 (md5 (pw ++ magic ++ salt ++ mix ++ bits)) 1000 d.
End Spec.

(** digits to the base 64, the lowest first *)
Definition digit64 (d : nat) (c : ascii) : Prop := nth_error (chars "./0123456789ABCDEFGHIJKLMNOPQRSTUVWXYZabcdefghijklmnopqrstuvwxyz") d = Some c.
Inductive base64digits : list ascii -> Z -> Prop :=
| D_nil : base64digits [] 0
| D_cons c d l z : digit64 d c -> base64digits l z -> base64digits (c :: l) (Z.of_nat d + 64 * z).
(** bytes as number, the lowest first *)
Fixpoint bytesNum (l : list ascii) : Z := match l with [] => 0 | c :: r => bytev c + 256 * bytesNum r end.
(** the order in which the bytes of the digest are written *)
Definition written (d : list ascii) : list ascii :=
  map (fun i => nth i d "000"%char) [12; 6; 0; 13; 7; 1; 14; 8; 2; 15; 9; 3; 5; 10; 4; 11]%nat.
(** a password entry: "$magic$salt$" and the 22 digits of the digest *)
Definition entry (md5 : list ascii -> list ascii) (pw : string) (magic salt : string) (h : string) : Prop :=
  exists d t, apr1 md5 (chars pw) (chars salt) (chars ("$" +++ magic +++ "$")) d /\ length t = 22%nat /\ base64digits t (bytesNum (written d)) /\
    h = "$" +++ magic +++ "$" +++ salt +++ "$" +++ ofchars t.
