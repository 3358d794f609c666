(** Encryption of values.
    Models dynaml/passwd/method_des1.go:24-140, passwd.go:15-137 and cmd/encrypt.go:42-107.
    Parameters: the block cipher (crypto/des), HMAC-SHA256 with the fixed secret, the
    random initial vector, the YAML encoder and the import of a YAML text.
    No proofs in this file. *)
From Verif Require Import Core Str ListFns.
Import ListNotations.
Open Scope string_scope. Open Scope list_scope.

(** encoding/hex EncodeToString *)
Definition hexDigit (z : Z) : ascii := nth (Z.to_nat z) (chars "0123456789abcdef") "0"%char.
Fixpoint hexEnc (l : list ascii) : list ascii :=
  match l with [] => [] | c :: r => hexDigit (bytev c / 16) :: hexDigit (bytev c mod 16) :: hexEnc r end.
(** encoding/hex fromHexChar *)
Definition hexVal (c : ascii) : option Z :=
  let z := bytev c in
  if (48 <=? z)%Z && (z <=? 57)%Z then Some (z - 48)%Z else
  if (97 <=? z)%Z && (z <=? 102)%Z then Some (z - 97 + 10)%Z else
  if (65 <=? z)%Z && (z <=? 70)%Z then Some (z - 65 + 10)%Z else None.
(** encoding/hex DecodeString without the error, which method_des1.go:62 ignores: the bytes
    before the first wrong digit *)
Fixpoint hexDec (l : list ascii) : list ascii :=
  match l with
  | a :: b :: r => match hexVal a, hexVal b with
                   | Some x, Some y => byteof (x * 16 + y) :: hexDec r
                   | _, _ => []
                   end
  | _ => []
  end.

Definition xorA (a b : ascii) : ascii :=
  match a, b with
  | Ascii a0 a1 a2 a3 a4 a5 a6 a7, Ascii b0 b1 b2 b3 b4 b5 b6 b7 =>
      Ascii (xorb a0 b0) (xorb a1 b1) (xorb a2 b2) (xorb a3 b3) (xorb a4 b4) (xorb a5 b5) (xorb a6 b6) (xorb a7 b7)
  end.
Fixpoint xorL (x y : list ascii) : list ascii :=
  match x, y with a :: x, b :: y => xorA a b :: xorL x y | _, _ => [] end.

(** the MD5 hash of the empty text: method_des1.go:50 hash.Sum(b) appends the hash of what was
    written to the hash (nothing) to [b] *)
Definition md5empty : list ascii := hexDec (chars "d41d8cd98f00b204e9800998ecf8427e").
(** method_des1.go:48-56 GetCipher: the key of the triple DES cipher *)
Definition cipherKey (key : string) : list ascii :=
  let k := chars key ++ md5empty in firstn 16 k ++ firstn 8 k.

Inductive dres := DPanic | DErr | DText (s : string).

Section Cipher.
(** one block of 8 bytes under a key of 24 bytes *)
Variables encBlock decBlock : list ascii -> list ascii -> list ascii.
(** HMAC-SHA256 with the key "spiff is a cool tool", method_des1.go:128-140 *)
Variable hmac : list ascii -> list ascii.

(** crypto/cipher CBC mode on [n] blocks of 8 bytes *)
Fixpoint cbcEnc (n : nat) (k prev : list ascii) (t : list ascii) : list ascii :=
  match n with
  | O => []
  | S n => let c := encBlock k (xorL (firstn 8 t) prev) in c ++ cbcEnc n k c (skipn 8 t)
  end.
Fixpoint cbcDec (n : nat) (k prev : list ascii) (t : list ascii) : list ascii :=
  match n with
  | O => []
  | S n => let c := firstn 8 t in xorL (decBlock k c) prev ++ cbcDec n k c (skipn 8 t)
  end.

(** method_des1.go:98-126 Encode; the panics are unreachable (the block size divides the size of
    the MAC) or failures of the random source *)
Definition padOf (m : nat) : nat := Nat.modulo (8 - Nat.modulo (m + 1) 8) 8.
Definition encode (iv : list ascii) (text key : string) : string :=
  let l := length (chars text) in
  let m := (l + 32)%nat in
  let pad := padOf m in
  let t := chars text ++ hmac (chars text) ++ repeat (byteof (Z.of_nat pad)) (pad + 1) in
  ofchars (hexEnc (iv ++ cbcEnc (Nat.div (length t) 8) (cipherKey key) iv t)).

(** method_des1.go:60-92 DecodeString and 35-45 Decode: an empty text is an error *)
Definition decode (text key : string) : dres :=
  let c := hexDec (chars text) in
  if (length c <? 8)%nat then DErr else
  let iv := firstn 8 c in
  let c := skipn 8 c in
  if negb (Nat.eqb (Nat.modulo (length c) 8) 0) then DErr else
  let t := cbcDec (Nat.div (length c) 8) (cipherKey key) iv c in
  match List.rev t with
  | [] => DPanic
  | z :: _ =>
      let pad := ((bytev z + 1) mod 256)%Z in
      let m := (Z.of_nat (length t) - pad)%Z in
      let l := (m - 32)%Z in
      if (Z.of_nat (length t) <? m)%Z || (m <=? 0)%Z || (l <=? 0)%Z || (pad <? 1)%Z then DErr else
      let message := firstn (Z.to_nat l) t in
      if list_eq_dec ascii_dec (firstn 32 (skipn (Z.to_nat l) t)) (hmac message) then DText (ofchars message) else DErr
  end.

End Cipher.

(** an encoding: passwd.go:10-14 *)
Record encoding := mkEncoding { e_encode : list ascii -> string -> string -> option string; e_decode : string -> string -> dres }.
(** method_des1.go:17-45: the method 3DES *)
Definition des1 (encBlock decBlock : list ascii -> list ascii -> list ascii) (hmac : list ascii -> list ascii) : encoding :=
  mkEncoding (fun iv t k => Some (encode encBlock hmac iv t k)) (decode decBlock hmac).

Section Functions.
(** the registered encodings: passwd.go:16-35 *)
Variable encodings : string -> option encoding.
Definition tripleDES : string := "3DES".
(** passwd.go:47-70, 99-122 and cmd/encrypt.go:59-76: key and method for the arguments after the
    first one; [None]: error *)
Definition choose (stateKey : string) (rest : list value) : option (string * string) :=
  match rest with
  | [] => Some (stateKey, tripleDES)
  | [VStr v] => Some (match encodings v with Some _ => (stateKey, v) | None => (v, tripleDES) end)
  | [VStr v; VStr m] => Some (stateKey, m)
  | _ => None
  end.
Variable marshal : value -> option string.
Variable importText : string -> ores value.
(** passwd.go:86-137 func_encrypt; [iv]: the random bytes *)
Definition func_encrypt (iv : list ascii) (stateKey : string) (args : list value) : ores value :=
  match args with
  | [] => OErr
  | v :: rest =>
      match marshal v with
      | None => OErr
      | Some text =>
          match choose stateKey rest with
          | None => OErr
          | Some (key, method) =>
              match encodings method with
              | None => OErr
              | Some e => if String.eqb key "" then OErr
                          else match e_encode e iv text key with Some r => OVal (VStr r) | None => OErr end
              end
          end
      end
  end.
(** passwd.go:38-84 func_decrypt *)
Definition func_decrypt (stateKey : string) (args : list value) : ores value :=
  match args with
  | VStr text :: rest =>
      match choose stateKey rest with
      | None => OErr
      | Some (key, method) =>
          match encodings method with
          | None => OErr
          | Some e => if String.eqb key "" then OErr
                      else match e_decode e text key with DPanic => OPanic | DErr => OErr | DText t => importText t end
          end
      end
  | _ => OErr
  end.
End Functions.
