(** YAML documents: the types of scalars when documents are read and the styles of scalars when
    they are written.
    Models legacy/candiedyaml/resolver.go:62-449 (resolve, resolve_int, resolve_float, resolve_time,
    resolve_bool, resolveInterface), encode.go:100-345 (marshal, emitMap, emitSlice, emitString,
    emitBool, emitInt, emitFloat, emitNil), emitter.go:926-1032 and 1239-1397 (check_simple_key,
    select_scalar_style, analyze_scalar), parser.go:530-556 (the implicit flag of scalars),
    decode.go:186-626 (document, parse, scalar, sequenceInterface, mappingInterface),
    yaml/parser.go:62-130 (Sanitize).
    Documents are sequences of events; how events become characters and back (scanner.go,
    emitter.go apart from the parts above) is not modelled here (for scalars see Scalars.v): a
    scalar event that is written is read with the same text and style.  Tags, anchors and aliases are left out (spiff never
    writes them); so are time zones (they do not influence the text of a time).
    Parameters: strconv.ParseFloat and strconv.FormatFloat(f, 'g', -1, 64).
    No proofs in this file. *)
From Coq Require Import Floats.SpecFloat.
From Verif Require Import Core Str Comparison ListFns Convert.
Import ListNotations.
Open Scope string_scope. Open Scope list_scope.

(** ** reading scalars *)
(** resolver.go:53-58: null_values *)
Definition nullWord (s : string) : bool := existsb (String.eqb s) ["~"; "null"; "Null"; "NULL"].
(** resolver.go:42-51, 136-144: bool_values of strings.ToLower *)
Definition resolveBool (s : string) : option bool :=
  let l := lowerS s in
  if existsb (String.eqb l) ["y"; "yes"; "true"; "on"] then Some true
  else if existsb (String.eqb l) ["n"; "no"; "false"; "off"] then Some false else None.
(** strings.Replace(val, "_", "", -1) *)
Definition noUnderscores (l : list ascii) : list ascii := filter (fun c => negb (Ascii.eqb c "_")) l.
(** strconv.ParseUint: the value of a digit (letters of both cases) *)
Definition digitVal (c : ascii) : option Z :=
  let v := bytev c in
  if (48 <=? v)%Z && (v <=? 57)%Z then Some (v - 48)%Z
  else if (97 <=? v)%Z && (v <=? 122)%Z then Some (v - 87)%Z
  else if (65 <=? v)%Z && (v <=? 90)%Z then Some (v - 55)%Z else None.
Fixpoint digits (base acc : Z) (l : list ascii) : option Z :=
  match l with
  | [] => Some acc
  | c :: r => match digitVal c with
              | Some d => if (d <? base)%Z then digits base (base * acc + d)%Z r else None
              | None => None
              end
  end.
(** strconv.ParseUint(val, base, 64) for base 8 or 0; the range is checked by the caller *)
Definition parseBase (base : Z) (l : list ascii) : option Z :=
  match l with [] => None | _ => digits base 0 l end.
Definition parseUint0 (l : list ascii) : option Z :=
  match l with
  | "0"%char :: c :: d :: r =>
      if Ascii.eqb c "b" || Ascii.eqb c "B" then parseBase 2 (d :: r)
      else if Ascii.eqb c "o" || Ascii.eqb c "O" then parseBase 8 (d :: r)
      else if Ascii.eqb c "x" || Ascii.eqb c "X" then parseBase 16 (d :: r)
      else parseBase 8 (c :: d :: r)
  | "0"%char :: r => parseBase 8 r
  | _ => parseBase 10 l
  end.
(** resolver.go:148-156: the sign *)
Definition signOf (l : list ascii) : Z * list ascii :=
  match l with
  | "-"%char :: r => ((-1)%Z, r)
  | "+"%char :: r => (1%Z, r)
  | _ => (1%Z, l)
  end.
(** resolver.go:146-205: resolve_int into an int64 *)
Definition resolveInt (l : list ascii) : option Z :=
  let '(sign, v) := signOf (noUnderscores l) in
  let n := if (match v with ["0"%char] => true | _ => false end) then Some 0%Z
           else match v with
                | "0"%char :: "o"%char :: r => parseBase 8 r
                | _ => parseUint0 v
                end in
  match n with
  | Some z => if in64b (sign * z) then Some (sign * z)%Z else None
  | None => None
  end.

(** *** times: resolver.go:59-60, 295-346 *)
Definition digitsZ (l : list ascii) : Z := match digits 10 0 l with Some z => z | None => 0%Z end.
(** one or two digits *)
Definition two (l : list ascii) : option (Z * list ascii) :=
  match l with
  | a :: b :: r => if isDigit a && isDigit b then Some (digitsZ [a; b], r) else if isDigit a then Some (digitsZ [a], b :: r) else None
  | [a] => if isDigit a then Some (digitsZ [a], []) else None
  | [] => None
  end.
(** exactly two digits *)
Definition pair (l : list ascii) : option (Z * list ascii) :=
  match l with a :: b :: r => if isDigit a && isDigit b then Some (digitsZ [a; b], r) else None | _ => None end.
Definition lit (c : ascii) (l : list ascii) : option (list ascii) :=
  match l with a :: r => if Ascii.eqb a c then Some r else None | [] => None end.
Definition isBlank (c : ascii) : bool := Ascii.eqb c " " || Ascii.eqb c "009".
Fixpoint span (p : ascii -> bool) (l : list ascii) : list ascii * list ascii :=
  match l with
  | c :: r => if p c then let '(a, b) := span p r in (c :: a, b) else ([], l)
  | [] => ([], [])
  end.
(** the zone at the end: blanks, then Z or a sign with hours and optional minutes *)
Definition zone (l : list ascii) : bool :=
  match l with
  | [] => true
  | _ => match snd (span isBlank l) with
         | ["Z"%char] => true
         | c :: r => (Ascii.eqb c "+" || Ascii.eqb c "-") &&
                     match two r with
                     | Some (_, []) => true
                     | Some (_, ":"%char :: m) => match m with [] => true | _ => match pair m with Some (_, []) => true | _ => false end end
                     | _ => false
                     end
         | [] => false
         end
  end.
(** year, month, day, hour, minute, second, fraction *)
Record stamp := mkStamp { t_year : Z; t_month : Z; t_day : Z; t_hour : Z; t_min : Z; t_sec : Z; t_frac : Z }.
Definition parseTime (y mo d : Z) (l : list ascii) : option stamp :=
  match two l with
  | Some (h, l) => match lit ":" l with None => None | Some l =>
    match pair l with None => None | Some (mi, l) =>
    match lit ":" l with None => None | Some l =>
    match pair l with None => None | Some (s, l) =>
      let '(fr, l) := match l with "."%char :: r => span isDigit r | _ => ([], l) end in
      if zone l then Some (mkStamp y mo d h mi s (digitsZ fr)) else None
    end end end end
  | None => None
  end.
Definition parseStamp (l : list ascii) : option stamp :=
  match l with
  | a :: b :: c :: d :: r =>
      if forallb isDigit [a; b; c; d] then
        match lit "-" r with None => None | Some r =>
        match two r with None => None | Some (mo, r) =>
        match lit "-" r with None => None | Some r =>
        match two r with None => None | Some (dd, r) =>
          let y := digitsZ [a; b; c; d] in
          match r with
          | [] => Some (mkStamp y mo dd 0 0 0 0)
          | x :: q => if Ascii.eqb x "T" || Ascii.eqb x "t" then parseTime y mo dd q
                      else if isBlank x then parseTime y mo dd (snd (span isBlank r)) else None
          end
        end end end end
      else None
  | _ => None
  end.
(** time.Date: overflowing fields are carried over; days since 0000-03-01 and back *)
Definition daysOf (y m d : Z) : Z :=
  let y := if (m <=? 2)%Z then (y - 1)%Z else y in
  let m' := ((m + 9) mod 12)%Z in
  (365 * y + y / 4 - y / 100 + y / 400 + (153 * m' + 2) / 5 + (d - 1))%Z.
Definition civil (n : Z) : Z * Z * Z :=
  let era := (n / 146097)%Z in
  let doe := (n mod 146097)%Z in
  let yoe := ((doe - doe / 1460 + doe / 36524 - doe / 146096) / 365)%Z in
  let doy := (doe - (365 * yoe + yoe / 4 - yoe / 100))%Z in
  let mp := ((5 * doy + 2) / 153)%Z in
  let d := (doy - (153 * mp + 2) / 5 + 1)%Z in
  let m := if (mp <? 10)%Z then (mp + 3)%Z else (mp - 9)%Z in
  (yoe + era * 400 + (if (m <=? 2)%Z then 1 else 0), m, d)%Z.
(** resolver.go:318-322: the digits of the fraction count milliseconds (matches[7] out of range of
    int gives the largest int, errors are ignored) *)
Definition nanos (fr : Z) : Z := wrap64 ((if (fr <=? max64)%Z then fr else max64) * 1000000).
Definition dateOf (t : stamp) : Z * Z * Z :=
  let sec := (t_sec t + nanos (t_frac t) / 1000000000)%Z in
  let mi := (t_min t + sec / 60)%Z in
  let h := (t_hour t + mi / 60)%Z in
  let m := (t_month t - 1)%Z in
  civil (daysOf (t_year t + m / 12) (m mod 12 + 1) 1 + (t_day t - 1) + h / 24)%Z.
(** yaml/parser.go:64-65: rootVal.Format("2019-01-08T10:06:26Z").  This is not the reference time
    of Go: 2 stands for the day, 01 for the month with two digits, 1 for the month, 06 for the
    last two digits of the year, everything else for itself *)
Definition zeroed (z : Z) : string := if (z <? 10)%Z then ("0" +++ itoa z) else itoa z.
Definition formatTime (t : stamp) : string :=
  let '(y, m, d) := dateOf t in
  let yy := if (y <? 0)%Z then 0%Z else (y mod 100)%Z in
  (itoa d +++ zeroed m +++ "9-" +++ zeroed m +++ "-08T" +++ itoa m +++ "0:" +++ zeroed yy +++ ":" +++ itoa d +++ "6Z")%string.

(** results of the writer and of the reader *)
Inductive outcome (A : Type) := Done (a : A) | Panics | Hangs.
Arguments Done {A} _. Arguments Panics {A}. Arguments Hangs {A}.
Inductive read (A : Type) := Got (a : A) | Bad | Crash.
Arguments Got {A} _. Arguments Bad {A}. Arguments Crash {A}.

Section Yaml.
(** strconv.ParseFloat(s, 64), None = error *)
Variable parseFloat : string -> option spec_float.
(** strconv.FormatFloat(f, 'g', -1, 64) for finite floats *)
Variable formatG : spec_float -> string.

(** value * float64(sign) *)
Definition signed_float (sign : Z) (f : spec_float) : spec_float := if (sign <? 0)%Z then SFopp f else f.
(** resolver.go:248-293: resolve_float into a float64 *)
Definition resolveFloat (l : list ascii) : option spec_float :=
  let '(sign, v) := signOf (noUnderscores l) in
  let w := lowerS (ofchars v) in
  if String.eqb w ".inf" then Some (S754_infinity (sign <? 0)%Z)
  else if String.eqb w ".nan" then Some S754_nan
  else option_map (signed_float sign) (parseFloat (ofchars v)).

(** the values of the reader: interface{} *)
Inductive yval :=
| YNull | YBool (b : bool) | YInt (z : Z) | YFloat (f : spec_float) | YTime (t : stamp) | YStr (s : string)
| YSeq (l : list yval) | YMap (m : list (string * yval)).
(** resolver.go:348-449: resolveInterface, without tags; [implicit]: the scalar is plain.  The
    flag tells whether the tag of the result is that of texts (!!str) *)
Definition resolveInterface (implicit : bool) (s : string) : bool * yval :=
  if negb implicit then (false, YStr s) else
  match chars s with
  | [] => (false, YNull)
  | c :: _ =>
      let text := (true, YStr s) in
      if Ascii.eqb c "-" || Ascii.eqb c "+" || isDigit c then
        match resolveInt (chars s) with
        | Some z => (false, YInt z)
        | None =>
        match resolveFloat (chars s) with
        | Some f => (false, YFloat f)
        | None => if isDigit c then match parseStamp (chars s) with Some t => (false, YTime t) | None => text end else text
        end end
      else if Ascii.eqb c "~" || Ascii.eqb c "n" || Ascii.eqb c "N" then
        if nullWord s then (false, YNull)
        else match resolveBool s with Some b => (false, YBool b) | None => text end
      else if Ascii.eqb c "." then
        match resolveFloat (chars s) with Some f => (false, YFloat f) | None => text end
      else if existsb (Ascii.eqb c) ["t"; "T"; "f"; "F"; "y"; "Y"; "o"; "O"]%char then
        match resolveBool s with Some b => (false, YBool b) | None => text end
      else text
  end.

(** ** the styles of written scalars *)
Inductive style := Plain | SingleQuoted | DoubleQuoted | Literal.
(** yaml_privateh.go:45-63: the number of bytes of a character, 0 for no first byte *)
Definition width (c : ascii) : nat :=
  let v := bytev c in
  if (v <? 128)%Z then 1 else if (192 <=? v)%Z && (v <? 224)%Z then 2
  else if (224 <=? v)%Z && (v <? 240)%Z then 3 else if (240 <=? v)%Z && (v <? 248)%Z then 4 else 0.
(** access to the byte at a position: beyond the end the program panics *)
Definition byteAt {A} (l : list ascii) (i : nat) (k : Z -> option A) : option A :=
  match nth_error l i with Some c => k (bytev c) | None => None end.
(** yaml_privateh.go:157-163; None = panic *)
Definition isBreak (l : list ascii) : option bool :=
  byteAt l 0 (fun b =>
    if (b =? 13)%Z || (b =? 10)%Z then Some true
    else if (b =? 194)%Z then byteAt l 1 (fun c => Some (c =? 133)%Z)
    else if (b =? 226)%Z then byteAt l 1 (fun c => if (c =? 128)%Z then byteAt l 2 (fun d => Some ((d =? 168)%Z || (d =? 169)%Z)) else Some false)
    else Some false).
(** yaml_privateh.go:150-152, 165-167, 176-178, 198-200 *)
Definition isBlankz (l : list ascii) : option bool :=
  byteAt l 0 (fun b => if (b =? 32)%Z || (b =? 9)%Z then Some true
                       else match isBreak l with Some true => Some true | Some false => Some (b =? 0)%Z | None => None end).
(** yaml_privateh.go:212-222 *)
Definition isPrintable (l : list ascii) : option bool :=
  byteAt l 0 (fun b =>
    if (b =? 10)%Z || ((32 <=? b)%Z && (b <=? 126)%Z) then Some true
    else if (b =? 194)%Z then byteAt l 1 (fun c => Some (160 <=? c)%Z)
    else if (194 <? b)%Z && (b <? 237)%Z then Some true
    else if (b =? 237)%Z then byteAt l 1 (fun c => Some (c <? 160)%Z)
    else if (b =? 238)%Z then Some true
    else if (b =? 239)%Z then byteAt l 1 (fun c =>
      if (c =? 187)%Z then byteAt l 2 (fun d => Some (negb (d =? 191)%Z))
      else if (c =? 191)%Z then byteAt l 2 (fun d => Some (negb ((d =? 190)%Z || (d =? 191)%Z)))
      else Some true)
    else Some false).
(** emitter.go:1240-1255: what is known about the text; flow_indicators is left out, since
    flow_level is 0 for every scalar spiff writes *)
Record seen := mkSeen {
  s_block : bool; s_breaks : bool; s_special : bool;
  s_leadSpace : bool; s_leadBreak : bool; s_trailSpace : bool; s_trailBreak : bool;
  s_breakSpace : bool; s_spaceBreak : bool;
  s_preceded : bool; s_prevSpace : bool; s_prevBreak : bool }.
Definition need {A B} (o : option A) (k : A -> outcome B) : outcome B := match o with Some a => k a | None => Panics end.
Definition headers : list ascii := ["#"; ","; "["; "]"; "{"; "}"; "&"; "*"; "!"; "|"; ">"; "'"; "034"; "%"; "@"; "`"]%char.
(** emitter.go:1277-1352: one character; [l] is the text from here on *)
Definition look (first : bool) (s : seen) (c : ascii) (l : list ascii) : outcome seen :=
  let w := width c in
  let rest := skipn w l in
  need (match rest with [] => Some true | _ => isBlankz rest end) (fun followed =>
  let block := s_block s ||
    (if first then existsb (Ascii.eqb c) headers || ((Ascii.eqb c "?" || Ascii.eqb c ":" || Ascii.eqb c "-") && followed)
     else (Ascii.eqb c ":" && followed) || (Ascii.eqb c "#" && s_preceded s)) in
  need (isPrintable l) (fun printable =>
  let special := s_special s || negb printable || negb (bytev c <? 128)%Z in
  need (isBreak l) (fun isbreak =>
  let exact := Nat.eqb w (List.length l) in
  let space := Ascii.eqb c " " in
  need (isBlankz l) (fun blankz =>
  Done (mkSeen block (s_breaks s || isbreak) special
    (s_leadSpace s || (space && first)) (s_leadBreak s || (negb space && isbreak && first))
    (s_trailSpace s || (space && exact)) (s_trailBreak s || (negb space && isbreak && exact))
    (s_breakSpace s || (space && s_prevBreak s)) (s_spaceBreak s || (negb space && isbreak && s_prevSpace s))
    blankz space (negb space && isbreak)))))).
(** emitter.go:1277: the loop; a byte of width 0 is looked at forever.  The fuel is the length of
    the text, which suffices *)
Fixpoint lookAll (n : nat) (first : bool) (s : seen) (l : list ascii) : outcome seen :=
  match n, l with
  | _, [] => Done s
  | O, _ => Hangs
  | S n, c :: _ =>
      match look first s c l with
      | Done s' => match width c with O => Hangs | w => lookAll n false s' (skipn w l) end
      | Panics => Panics
      | Hangs => Hangs
      end
  end.
Record allowed := mkAllowed { multiline : bool; plainAllowed : bool; singleAllowed : bool; blockAllowed : bool }.
(** emitter.go:1239-1397 *)
Definition analyze (l : list ascii) : outcome allowed :=
  match l with
  | [] => Done (mkAllowed false true true false)
  | _ =>
    let start := match l with
                 | a :: b :: c :: _ => existsb (fun x => Ascii.eqb a x && Ascii.eqb b x && Ascii.eqb c x) ["-"; "."]%char
                 | _ => false end in
    match lookAll (List.length l) true (mkSeen start false false false false false false false false true false false) l with
    | Done s =>
        let edges := s_leadSpace s || s_leadBreak s || s_trailSpace s || s_trailBreak s in
        let odd := s_spaceBreak s || s_special s in
        Done (mkAllowed (s_breaks s)
          (negb (edges || s_breakSpace s || odd || s_breaks s || s_block s))
          (negb (s_breakSpace s || odd))
          (negb (s_trailSpace s || odd)))
    | Panics => Panics
    | Hangs => Hangs
    end
  end.
(** emitter.go:926-969: a key on one line, at most 128 bytes *)
Definition simpleKey (a : allowed) (s : string) : bool := negb (multiline a) && Nat.leb (String.length s) 128.
(** emitter.go:975-1032, flow_level 0, no tag, both implicit flags set *)
Definition selectStyle (simple : bool) (a : allowed) (s : string) (st : style) : style :=
  let st := if simple && multiline a then DoubleQuoted else st in
  let st := match st with
            | Plain => if negb (plainAllowed a) || (String.eqb s "" && simple) then SingleQuoted else Plain
            | _ => st
            end in
  let st := match st with SingleQuoted => if singleAllowed a then SingleQuoted else DoubleQuoted | _ => st end in
  match st with Literal => if negb (blockAllowed a) || simple then DoubleQuoted else Literal | _ => st end.

(** ** events *)
Inductive event := Scalar (st : style) (s : string) | SeqStart | SeqEnd | MapStart | MapEnd.

(** encode.go:29: the expression multiline *)
Fixpoint hasBreak (l : list ascii) : bool :=
  match l with
  | [] => false
  | c :: r => Ascii.eqb c "010" || prefixL ["194"; "133"]%char l || prefixL ["226"; "128"; "168"]%char l || prefixL ["226"; "128"; "169"]%char l || hasBreak r
  end.
(** encode.go:266-284: the style asked for *)
Definition textStyle (s : string) : style :=
  if negb (fst (resolveInterface true s)) then DoubleQuoted else if hasBreak (chars s) then Literal else Plain.
(** a scalar leaves the emitter with the style it selects; [key]: the scalar is a key *)
Definition emitScalar (key : bool) (st : style) (s : string) : outcome (list event) :=
  match analyze (chars s) with
  | Done a => Done [Scalar (selectStyle (key && simpleKey a s) a s st) s]
  | Panics => Panics
  | Hangs => Hangs
  end.
(** encode.go:301-314: emitFloat *)
Definition floatText (f : spec_float) : string :=
  match f with
  | S754_nan => ".nan"
  | S754_infinity false => "+.inf"
  | S754_infinity true => "-.inf"
  | _ => formatG f
  end.
Definition andThen {A} (x : outcome (list A)) (y : outcome (list A)) : outcome (list A) :=
  match x with Done a => match y with Done b => Done (a ++ b) | Panics => Panics | Hangs => Hangs end | Panics => Panics | Hangs => Hangs end.
(** encode.go:100-163, 203-345 for the values of a processed document; maps are kept sorted by
    key in the model (Core.v), which is the order of encode.go:157-158.  Expressions, lambdas and
    templates are left out: [Panics] stands for them *)
Fixpoint emit (v : value) : outcome (list event) :=
  match v with
  | VNil => emitScalar false Plain "null"
  | VBool b => emitScalar false Plain (btoa b)
  | VInt z => emitScalar false Plain (formatInt z 10)
  | VGoInt z => emitScalar false Plain (formatInt z 10)
  | VFloat f => emitScalar false Plain (floatText f)
  | VStr s => emitScalar false (textStyle s) s
  | VList l => andThen (Done [SeqStart]) (andThen
      ((fix items (l : list node) : outcome (list event) :=
          match l with [] => Done [] | n :: r => andThen (emitN n) (items r) end) l) (Done [SeqEnd]))
  | VMap m => andThen (Done [MapStart]) (andThen
      ((fix fields (m : list (string * node)) : outcome (list event) :=
          match m with [] => Done [] | (k, n) :: r => andThen (emitScalar true (textStyle k) k) (andThen (emitN n) (fields r)) end) m) (Done [MapEnd]))
  | _ => Panics
  end
with emitN (n : node) : outcome (list event) := match n with mkNode v _ _ _ _ => emit v end.

(** ** reading events *)
Definition andThenR {A B} (x : read A) (k : A -> read B) : read B := match x with Got a => k a | Bad => Bad | Crash => Crash end.
(** parser.go:530-556: only plain scalars are implicit *)
Definition implicitOf (st : style) : bool := match st with Plain => true | _ => false end.
(** decode.go:498-626: valueInterface, sequenceInterface, mappingInterface.  Keys of the Go map
    that are no texts make the document invalid later on (Sanitize); lists and maps as keys make
    the program panic (runtime error: hash of unhashable type).  [odd]: a key is no text.
    The result lists the assignments in the order of the document.  [Bad] also stands for an
    unbalanced sequence of events or missing fuel *)
Definition keyed (k : yval) : read (option string) :=
  match k with YStr s => Got (Some s) | YSeq _ | YMap _ => Crash | _ => Got None end.
Fixpoint valueInterface (n : nat) (evs : list event) : read (yval * bool * list event) :=
  match n with
  | O => Bad
  | S n =>
    match evs with
    | Scalar st s :: r => Got (snd (resolveInterface (implicitOf st) s), false, r)
    | SeqStart :: r => andThenR (sequence n [] false r) (fun x => Got (YSeq (fst (fst x)), snd (fst x), snd x))
    | MapStart :: r => andThenR (mapping n [] false r) (fun x => Got (YMap (fst (fst x)), snd (fst x), snd x))
    | _ => Bad
    end
  end
with sequence (n : nat) (acc : list yval) (odd : bool) (evs : list event) : read (list yval * bool * list event) :=
  match n with
  | O => Bad
  | S n =>
    match evs with
    | SeqEnd :: r => Got (acc, odd, r)
    | _ => andThenR (valueInterface n evs) (fun x => sequence n (acc ++ [fst (fst x)]) (odd || snd (fst x)) (snd x))
    end
  end
with mapping (n : nat) (acc : list (string * yval)) (odd : bool) (evs : list event) : read (list (string * yval) * bool * list event) :=
  match n with
  | O => Bad
  | S n =>
    match evs with
    | MapEnd :: r => Got (acc, odd, r)
    | _ => andThenR (valueInterface n evs) (fun x =>
           andThenR (valueInterface n (snd x)) (fun y =>
           andThenR (keyed (fst (fst x))) (fun k =>
           match k with
           | Some k => mapping n (acc ++ [(k, fst (fst y))]) (odd || snd (fst x) || snd (fst y)) (snd y)
           | None => mapping n acc true (snd y)
           end)))
    end
  end.
(** decode.go:186-200, 202-238, 456-480, resolver.go:62-69, 87-93: the document itself.  At the
    root the text is checked for the null words before the style is looked at *)
Definition document (evs : list event) : read (yval * bool) :=
  let n := S (2 * List.length evs) in
  match evs with
  | [Scalar st s] => if nullWord s then Got (YNull, false) else Got (snd (resolveInterface (implicitOf st) s), false)
  | Scalar _ _ :: _ => Bad
  | _ => match valueInterface n evs with
         | Got (v, odd, []) => Got (v, odd)
         | Got _ => Bad
         | Bad => Bad
         | Crash => Crash
         end
  end.
(** yaml/parser.go:62-130: Sanitize; later assignments to the same key win (the Go map) *)
Fixpoint sanitize (src : string) (y : yval) : node :=
  let mk v := mkNode v emptyAnn src None None in
  match y with
  | YNull => mk VNil
  | YBool b => mk (VBool b)
  | YInt z => mk (VInt z)
  | YFloat f => mk (VFloat f)
  | YTime t => mk (VStr (formatTime t))
  | YStr s => mk (VStr s)
  | YSeq l => mk (VList (map (sanitize src) l))
  | YMap m => mk (VMap (mof (map (fun p => (fst p, sanitize src (snd p))) m)))
  end.
(** yaml/parser.go:29-60: a document is read; keys that are no texts are errors *)
Definition parseDoc (src : string) (evs : list event) : read node :=
  match document evs with
  | Got (y, false) => Got (sanitize src y)
  | Got (_, true) => Bad
  | Bad => Bad
  | Crash => Crash
  end.
End Yaml.
