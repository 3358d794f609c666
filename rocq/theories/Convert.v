(** Conversions, rounding, selection of elements.
    Models dynaml/convert.go:15-133, floatmath.go:30-77 (rounding and abs), element.go:8-54,
    lower.go:5-27, rand.go:12-44 (numbers).  The evaluation info is left out.
    Parameters: the texts of floats (%g, strconv.ParseFloat) and the result of int64(f) for a
    float out of range, which Go leaves open.  No proofs in this file. *)
From Coq Require Import Floats.SpecFloat.
From Verif Require Import Core Str Comparison ListFns Arith.
Import ListNotations.
Open Scope string_scope. Open Scope list_scope.

(** strconv.FormatInt digits: 0-9 a-z *)
Definition digitChar (d : Z) : ascii := nth (Z.to_nat d) (chars "0123456789abcdefghijklmnopqrstuvwxyz") "0"%char.
(** strconv.FormatInt(z, base), z >= 0: [fuel] digits at most *)
Fixpoint formatLoop (fuel : nat) (base z : Z) (acc : string) : string :=
  match fuel with
  | O => acc
  | S f => let acc := String (digitChar (z mod base)) acc in
           if (z / base =? 0)%Z then acc else formatLoop f base (z / base) acc
  end.
Definition formatNat (base z : Z) : string := formatLoop (S (Z.to_nat (Z.log2 z))) base z "".
Definition formatInt (z base : Z) : string :=
  if (z <? 0)%Z then String "-" (formatNat base (- z)) else formatNat base z.

(** the value of a finite float is [sgn * m * 2^e] *)
Definition fsign (s : bool) (m : positive) : Z := if s then Zneg m else Zpos m.
(** rounding of the value of a float: towards zero, down, up, half away from zero, half to even.
    [None]: infinity or no number *)
Definition quotDown (n e : Z) : Z := if (0 <=? e)%Z then n * 2 ^ e else n / 2 ^ (- e).
Definition fTrunc (f : spec_float) : option Z :=
  match f with
  | S754_zero _ => Some 0%Z
  | S754_finite s m e => Some (if s then - quotDown (Zpos m) e else quotDown (Zpos m) e)%Z
  | _ => None
  end.
Definition fFloor (f : spec_float) : option Z :=
  match f with S754_zero _ => Some 0%Z | S754_finite s m e => Some (quotDown (fsign s m) e) | _ => None end.
Definition fCeil (f : spec_float) : option Z :=
  match f with S754_zero _ => Some 0%Z | S754_finite s m e => Some (- quotDown (- fsign s m) e)%Z | _ => None end.
(** half away from zero: the magnitude plus one half, rounded down *)
Definition quotRound (m e : Z) : Z := if (0 <=? e)%Z then m * 2 ^ e else (2 * m + 2 ^ (- e)) / (2 * 2 ^ (- e)).
Definition fRound (f : spec_float) : option Z :=
  match f with
  | S754_zero _ => Some 0%Z
  | S754_finite s m e => Some (if s then - quotRound (Zpos m) e else quotRound (Zpos m) e)%Z
  | _ => None
  end.
Definition quotEven (m e : Z) : Z :=
  if (0 <=? e)%Z then m * 2 ^ e else
  let r := (2 * m + 2 ^ (- e)) / (2 * 2 ^ (- e)) in
  if ((2 * m + 2 ^ (- e)) mod (2 * 2 ^ (- e)) =? 0)%Z && Z.odd r then r - 1 else r.
Definition fEven (f : spec_float) : option Z :=
  match f with
  | S754_zero _ => Some 0%Z
  | S754_finite s m e => Some (if s then - quotEven (Zpos m) e else quotEven (Zpos m) e)%Z
  | _ => None
  end.

Section Fns.
Variable showFloat : spec_float -> string.
Variable readFloat : string -> option spec_float.
Variable outOfRange : spec_float -> Z.
(** int64(f) for an integral value *)
Definition toInt64 (f : spec_float) (z : option Z) : Z :=
  match z with Some z => if in64b z then z else outOfRange f | None => outOfRange f end.

(** convert.go:15-50 *)
Definition func_string (args : list value) : ores value :=
  match args with
  | [] => OPanic
  | [VStr s] => OVal (VStr s)
  | [VInt z] => OVal (VStr (formatInt z 10))
  | [VFloat f] => OVal (VStr (showFloat f))
  | [VBool b] => OVal (VStr (btoa b))
  | [_] => OErr
  | [VInt z; VInt b] => if (2 >? b)%Z || (b >? 36)%Z then OErr else OVal (VStr (formatInt z b))
  | _ => OErr
  end.
(** convert.go:52-78 *)
Definition func_integer (args : list value) : ores value :=
  match args with
  | [VStr s] => match parseInt s with Some z => OVal (VInt z) | None => OErr end
  | [VInt z] => OVal (VInt z)
  | [VFloat f] => OVal (VInt (toInt64 f (fTrunc f)))
  | [VBool b] => OVal (VGoInt (if b then 1 else 0))
  | _ => OErr
  end.
(** convert.go:80-105 *)
Definition func_float (args : list value) : ores value :=
  match args with
  | [VStr s] => match readFloat s with Some f => OVal (VFloat f) | None => OErr end
  | [VInt z] => OVal (VFloat (f_of_int z))
  | [VFloat f] => OVal (VFloat f)
  | [VBool b] => OVal (VFloat (f_of_int (if b then 1 else 0)))
  | _ => OErr
  end.
(** convert.go:107-133; a float is zero if it compares equal to 0 (NaN does not) *)
Definition func_bool (args : list value) : ores value :=
  match args with
  | [VNil] => OVal (VBool false)
  | [VStr s] => if String.eqb s "" then OVal (VBool false) else
                match parseBool s with Some b => OVal (VBool b) | None => OErr end
  | [VInt z] => OVal (VBool (negb (z =? 0)%Z))
  | [VFloat f] => OVal (VBool (negb (f_is_zero f)))
  | [VBool b] => OVal (VBool b)
  | _ => OErr
  end.

(** floatmath.go:30-52: floor, ceil, round, roundtoeven; [rnd]: the rounding of floats *)
Definition func_rounding (rnd : spec_float -> option Z) (args : list value) : ores value :=
  match args with
  | [VInt z] => OVal (VInt z)
  | [VFloat f] => OVal (VInt (toInt64 f (rnd f)))
  | [VBool b] => OVal (VGoInt (if b then 1 else 0))
  | _ => OErr
  end.
(** floatmath.go:53-77 for abs; -v is computed in 64 bit *)
Definition func_abs (args : list value) : ores value :=
  match args with
  | [VInt z] => OVal (VInt (if (z <? 0)%Z then wrap64 (- z) else z))
  | [VFloat f] => match f with
                  | S754_nan => OErr
                  | S754_zero _ => OVal (VFloat (S754_zero false))
                  | S754_infinity _ => OVal (VFloat (S754_infinity false))
                  | S754_finite _ m e => OVal (VFloat (S754_finite false m e))
                  end
  | _ => OErr
  end.

(** element.go:8-54 *)
Definition elementAt (l : list node) (i : Z) : ores value :=
  if (i <? 0)%Z then OErr else
  if (i >=? Z.of_nat (length l))%Z then OErr else
  match nth_error l (Z.to_nat i) with Some n => OVal (val n) | None => OPanic end.
Definition func_element (args : list value) : ores value :=
  match args with
  | [VNil; _] | [_; VNil] => OErr
  | [VList l; VInt i] => elementAt l i
  | [VList l; VStr s] => match parseInt s with Some i => elementAt l i | None => OErr end
  | [VMap m; VStr k] => match mget k m with Some n => OVal (val n) | None => OErr end
  | _ => OErr
  end.

(** strings.ToLower and ToUpper for ASCII texts (lower.go:5-27) *)
Definition upperC (c : ascii) : ascii :=
  if (97 <=? bytev c)%Z && (bytev c <=? 122)%Z then byteof (bytev c - 32) else c.
Fixpoint upperS (s : string) : string :=
  match s with EmptyString => EmptyString | String c r => String (upperC c) (upperS r) end.
Definition func_lower (args : list value) : ores value := match args with [VStr s] => OVal (VStr (lowerS s)) | _ => OErr end.
Definition func_upper (args : list value) : ores value := match args with [VStr s] => OVal (VStr (upperS s)) | _ => OErr end.

(** rand.go:12-44 for numbers and booleans; [draw n]: the random number of crypto/rand below
    [n], which panics for n <= 0; [randText]: random texts by a regular expression (52-73), not
    modelled *)
Variable draw : Z -> Z.
Variable randText : list value -> ores value.
Definition randNumber (max : Z) : ores Z := if (max <=? 0)%Z then OPanic else OVal (draw max).
Definition func_rand (args : list value) : ores value :=
  match args with
  | [] => match randNumber max64 with OVal z => OVal (VInt z) | OErr => OErr | OPanic => OPanic end
  | [VInt v] => if (v <? 0)%Z then match randNumber (wrap64 (- v)) with OVal z => OVal (VInt (- z)) | OErr => OErr | OPanic => OPanic end
                else if (v >? 0)%Z then match randNumber v with OVal z => OVal (VInt z) | OErr => OErr | OPanic => OPanic end
                else OErr
  | [VBool _] => match randNumber 2 with OVal z => OVal (VBool (z =? 1)%Z) | OErr => OErr | OPanic => OPanic end
  | [VStr _] | [VStr _; _] => randText args
  | [VInt _; _] | [VBool _; _] => OErr
  | [_] | [_; _] => OVal VNil
  | _ => OErr
  end.
End Fns.
