(** JSON texts of values.
    Models yaml/marshal.go:16-78 (ToJSON, ValueToJSON, Normalize, normalizeValue), encoding/json
    Marshal (Go 1.24) for the normalized values, and dynaml/json.go:10-22 (asjson).
    Parameters: the texts of finite floats in JSON, of lambdas (dynaml/lambda.go:230) and of
    marker expressions (marker.go:138).  Maps are kept sorted by key in the model (Core.v), as
    json.Marshal writes them.  No proofs in this file. *)
From Coq Require Import Floats.SpecFloat.
From Verif Require Import Core Str ListFns Convert.
Import ListNotations.
Open Scope string_scope. Open Scope list_scope.

(** ** texts (encoding/json appendString with escapeHTML) *)
(** encoding/json: \u00 and two hexadecimal digits *)
Definition u00 (c : ascii) : list ascii :=
  chars "\u00" ++ [digitChar (bytev c / 16); digitChar (bytev c mod 16)].
Definition quote1 (c : ascii) : list ascii :=
  if Ascii.eqb c "034" || Ascii.eqb c "\" then ["\"%char; c] else
  if Ascii.eqb c "008" then chars "\b" else
  if Ascii.eqb c "012" then chars "\f" else
  if Ascii.eqb c "010" then chars "\n" else
  if Ascii.eqb c "013" then chars "\r" else
  if Ascii.eqb c "009" then chars "\t" else
  if (bytev c <? 32)%Z || Ascii.eqb c "<" || Ascii.eqb c ">" || Ascii.eqb c "&" then u00 c else [c].
(** a rune of more than one byte: U+2028 and U+2029 are escaped *)
Definition quoteRune (r : list ascii) : list ascii :=
  if prefixL ["226"; "128"; "168"]%char r then chars "\u2028" else
  if prefixL ["226"; "128"; "169"]%char r then chars "\u2029" else r.
(** structural: [skip] counts the bytes still belonging to the current rune; an invalid byte is
    written as U+FFFD *)
Fixpoint quoteL (s : list ascii) (skip : nat) : list ascii :=
  match s with
  | [] => []
  | c :: r =>
      match skip with
      | S k => quoteL r k
      | O => let '(w, ok) := rune_width s in
             (if (bytev c <? 128)%Z then quote1 c else if ok then quoteRune (firstn w s) else chars "\ufffd") ++ quoteL r (w - 1)
      end
  end.
Definition jsonText (s : list ascii) : list ascii := "034"%char :: quoteL s 0 ++ ["034"%char].
(** json.Marshal of a string *)
Definition jsonString (s : string) : string := ofchars (jsonText (chars s)).

(** ** normalized values and their encoding *)
Inductive jval :=
| JNull | JBool (b : bool) | JNum (t : list ascii) | JStr (s : list ascii)
| JArr (l : list jval) | JObj (m : list (list ascii * jval)).

(** items with commas between them *)
Fixpoint commas (l : list (list ascii)) : list ascii :=
  match l with [] => [] | [x] => x | x :: r => x ++ ","%char :: commas r end.
(** encoding/json Marshal *)
Fixpoint encode (j : jval) : list ascii :=
  match j with
  | JNull => chars "null"
  | JBool b => chars (btoa b)
  | JNum t => t
  | JStr s => jsonText s
  | JArr l => "["%char :: commas (map encode l) ++ ["]"%char]
  | JObj m => "{"%char :: commas (map (fun p => jsonText (fst p) ++ ":"%char :: encode (snd p)) m) ++ ["}"%char]
  end.

Section Norm.
(** the text of a finite float; NaN and the infinities are errors *)
Variable floatText : spec_float -> list ascii.
(** the YAML text of a lambda value, e.g. "(( |x|->x ))" *)
Variable lambdaYaml : value -> string.
Variable markerYaml : expr -> option string.

Definition finite (f : spec_float) : bool := match f with S754_zero _ | S754_finite _ _ _ => true | _ => false end.
(** yaml/marshal.go:37-78; [None]: an error (of normalizeValue or of json.Marshal) *)
Fixpoint normalize (v : value) {struct v} : option jval :=
  match v with
  | VNil => Some JNull
  | VBool b => Some (JBool b)
  | VInt z => Some (JNum (chars (formatInt z 10)))
  | VFloat f => if finite f then Some (JNum (floatText f)) else None
  | VStr s => Some (JStr (chars s))
  | VList l =>
      option_map JArr
        ((fix go (l : list node) : option (list jval) :=
            match l with
            | [] => Some []
            | mkNode x _ _ _ _ :: r =>
                match normalize x, go r with Some j, Some js => Some (j :: js) | _, _ => None end
            end) l)
  | VMap m =>
      option_map JObj
        ((fix go (m : list (string * node)) : option (list (list ascii * jval)) :=
            match m with
            | [] => Some []
            | (k, mkNode x _ _ _ _) :: r =>
                match normalize x, go r with Some j, Some js => Some ((chars k, j) :: js) | _, _ => None end
            end) m)
  | VGoInt _ => None
  | VExpr e => option_map (fun s => JStr (chars s)) (markerYaml e)
  | VLambda _ _ _ _ _ => Some (JStr (chars (lambdaYaml v)))
  | VTemplate _ _ (mkNode x _ _ _ _) _ => normalize x
  end.
(** yaml/marshal.go:23-29 ValueToJSON *)
Definition valueToJSON (v : value) : option string := option_map (fun j => ofchars (encode j)) (normalize v).
(** yaml/marshal.go:16-21 ToJSON *)
Definition toJSON (n : option node) : option string := match n with Some n => valueToJSON (val n) | None => valueToJSON VNil end.
(** dynaml/json.go:10-22 *)
Definition func_as_json (args : list value) : ores value :=
  match args with
  | [v] => match valueToJSON v with Some t => OVal (VStr t) | None => OErr end
  | _ => OErr
  end.
End Norm.
