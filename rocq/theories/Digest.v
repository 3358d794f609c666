(** Digests of texts and passwords.
    Models dynaml/md5.go (func_md5, func_hash), dynaml/crypt/md5crypt.go:8-73 (MD5Crypt),
    crypt/salt.go:8-15 (GenerateSALT) and dynaml/md5crypt.go:8-48.
    Parameters: the digest functions of the Go library (bytes to bytes) and the random numbers
    of the salt.  The evaluation info is left out.  No proofs in this file. *)
From Verif Require Import Core Str ListFns Crypt.
Import ListNotations.
Open Scope string_scope. Open Scope list_scope.

Section Digest.
Variable md5 : list ascii -> list ascii.

(** ** crypt/md5crypt.go *)
(** md5crypt.go:8 *)
Definition itoa64 : list ascii := chars "./0123456789ABCDEFGHIJKLMNOPQRSTUVWXYZabcdefghijklmnopqrstuvwxyz".
Definition itoa64At (i : Z) : ascii := nth (Z.to_nat i) itoa64 "."%char.
(** md5crypt.go:7 *)
Definition magic0 : list ascii := chars "$apr1$".
(** md5crypt.go:10 *)
Definition swaps : list nat := [12; 6; 0; 13; 7; 1; 14; 8; 2; 15; 9; 3; 5; 10; 4; 11]%nat.
(** md5crypt.go:25-27: the bytes of the mixin, one for every byte of the password *)
Definition mixed (mixin pw : list ascii) : list ascii := map (fun i => nth (i mod 16)%nat mixin "000"%char) (seq 0 (length pw)).
(** md5crypt.go:29-35: for i := len(password); i != 0; i >>= 1 *)
Fixpoint lengthBits (first : ascii) (i : positive) : list ascii :=
  match i with
  | xO r => first :: lengthBits first r
  | xI r => "000"%char :: lengthBits first r
  | xH => ["000"%char]
  end.
Definition lengthBytes (pw : list ascii) : list ascii :=
  match Z.of_nat (length pw) with Zpos p => lengthBits (hd "000"%char pw) p | _ => [] end.
(** md5crypt.go:14-37 *)
Definition firstDigest (pw salt magic : list ascii) : list ascii :=
  md5 (pw ++ magic ++ salt ++ mixed (md5 (pw ++ salt ++ pw)) pw ++ lengthBytes pw).
(** md5crypt.go:39-61: one of the 1000 rounds *)
Definition round (pw salt : list ascii) (st : Z * list ascii) : Z * list ascii :=
  let (i, final) := st in
  ((i + 1)%Z,
   md5 ((if (i mod 2 =? 0)%Z then final else pw) ++ (if (i mod 3 =? 0)%Z then [] else salt)
        ++ (if (i mod 7 =? 0)%Z then [] else pw) ++ (if (i mod 2 =? 0)%Z then pw else final))).
Definition finalDigest (pw salt magic : list ascii) : list ascii :=
  snd (Pos.iter (round pw salt) (0%Z, firstDigest pw salt magic) 1000).
(** md5crypt.go:68-71: for bits = bits + 8; bits > 6; bits -= 6, at most [fuel] times *)
Fixpoint emit (fuel : nat) (v bits : Z) (result : list ascii) : Z * Z * list ascii :=
  match fuel with
  | O => (v, bits, result)
  | S f => if (bits >? 6)%Z then emit f (v / 64) (bits - 6) (result ++ [itoa64At (v mod 64)]) else (v, bits, result)
  end.
(** md5crypt.go:66-72 *)
Fixpoint encodeLoop (final : list ascii) (order : list nat) (v bits : Z) (result : list ascii) : list ascii :=
  match order with
  | [] => result ++ [itoa64At (v mod 64)]
  | i :: order => let v := (v + bytev (nth i final "000"%char) * 2 ^ bits)%Z in
                  let '(v, bits, result) := emit 3 v (bits + 8) result in
                  encodeLoop final order v bits result
  end.
(** md5crypt.go:13-76 *)
Definition md5Crypt (pw salt magic : list ascii) : list ascii :=
  magic ++ salt ++ ["$"%char] ++ encodeLoop (finalDigest pw salt magic) swaps 0 0 [].

(** crypt/salt.go:8-15; [draws]: the random numbers *)
Definition generateSALT (draws : list Z) : list ascii := map (fun r => itoa64At (r mod 64)) draws.
(** dynaml/md5crypt.go:9-25 *)
Definition func_md5crypt (draws : list Z) (args : list value) : ores value :=
  match args with
  | [VStr pw] => OVal (VStr (ofchars (md5Crypt (chars pw) (generateSALT (firstn 8 draws)) magic0)))
  | _ => OErr
  end.
(** dynaml/md5crypt.go:27-50 *)
Definition func_md5crypt_check (args : list value) : ores value :=
  match args with
  | [VStr pw; VStr h] =>
      match split h "$" with
      | [_; m; s; _] => OVal (VBool (String.eqb (ofchars (md5Crypt (chars pw) (chars s) (chars ("$" +++ m +++ "$")))) h))
      | _ => OErr
      end
  | _ => OErr
  end.

(** ** dynaml/md5.go *)
(** the digest functions of the library, [sum "md5"] is [md5] *)
Variable sum : string -> list ascii -> list ascii.
Definition hex (l : list ascii) : string := ofchars (hexEnc l).
Definition func_md5 (args : list value) : ores value :=
  match args with [VStr s] => OVal (VStr (hex (sum "md5" (chars s)))) | _ => OErr end.
Definition hashBytes (mode : string) (s : list ascii) : option (list ascii) :=
  if String.eqb mode "md4" then Some (s ++ sum "md4" []) else      (* md4.New().Sum(s) *)
  if existsb (String.eqb mode) ["md5"; "sha1"; "sha224"; "sha256"; "sha384"; "sha512"; "sha512/224"; "sha512/256"]
  then Some (sum mode s) else None.
Definition func_hash (args : list value) : ores value :=
  let go m s := match hashBytes m (chars s) with Some d => OVal (VStr (hex d)) | None => OErr end in
  match args with
  | [VStr s] => go "sha256" s
  | [VStr s; VStr m] => go m s
  | _ => OErr
  end.
End Digest.
