(** yaml/interpolation.go and the dynaml markers of yaml/node.go:522-593.
    No proofs in this file. *)
From Verif Require Import Core Str.

(** yaml/node.go:523-536: the text between "((" and "))" *)
Definition enclosed (s : string) : option string :=
  if hasPrefix s "((" && hasSuffix s "))"
  then Some (String.substring 2 (String.length s - 4) s) else None.

(** strings.TrimSpace restricted to the ASCII white space characters *)
Definition isSpace (c : ascii) : bool :=
  existsb (Z.eqb (bytev c)) [9; 10; 11; 12; 13; 32].
Fixpoint dropSpace (l : list ascii) : list ascii :=
  match l with
  | [] => []
  | c :: r => if isSpace c then dropSpace r else l
  end.
Definition trimSpace (s : string) : string := ofchars (rev (dropSpace (rev (dropSpace (chars s))))).

Section Interpolation.
(** json.Marshal of a string (interpolation.go:108) *)
Variable quote : string -> string.

(** interpolation.go:16-24, the local variables *)
Record cstate := mkC {
  c_mask : bool; c_quote : bool; c_start : bool; c_ob : nat; c_lvl : nat;
  c_expr : string; c_str : string; c_result : string; c_found : bool }.

(** interpolation.go:94-126 addExpr: new result, str, expr and the returned flag *)
Definition addExpr (final unescape : bool) (result str expr : string) : string * string * string * bool :=
  let '(str, expr) :=
    if unescape && hasPrefix expr "!" then ((str +++ "((" +++ sdrop 1 expr +++ ")")%string, "") else (str, expr) in
  let '(str, expr) :=
    if hasPrefix expr "!" then ((str +++ "((" +++ expr +++ ")")%string, "") else (str, expr) in
  if String.eqb expr "" && (String.eqb result "" || negb final) then (result, str, expr, false)
  else
    let result :=
      if String.eqb str "" then result
      else ((if String.eqb result "" then "" else result +++ " ") +++ quote str)%string in
    let expr :=
      if String.eqb expr "" then expr
      else ("( " +++ trimSpace (String.substring 0 (String.length expr - 1) expr) +++ " )")%string in
    let result := if negb (String.eqb result "") && negb (String.eqb expr "") then (result +++ " ")%string else result in
    ((result +++ expr)%string, "", "", true).

(** interpolation.go:28-81, one round of the loop; the source text is processed
    byte-wise: all tested characters are ASCII, so this agrees with the rune loop
    for valid UTF-8 *)
Definition conv1 (unescape : bool) (st : cstate) (c : ascii) : cstate :=
  let 'mkC mask quote_ start ob lvl expr str result found := st in
  if start then
    if quote_ then
      let '(quote_, mask) :=
        if Ascii.eqb c """" then ((if mask then quote_ else false), false)
        else if Ascii.eqb c "\" then (quote_, negb mask)
        else (quote_, false) in
      mkC mask quote_ start ob lvl (expr +++ schr c)%string str result found
    else
      let '(start, quote_, ob, lvl, (result, str, expr), found) :=
        if Ascii.eqb c "(" then (start, quote_, ob, S lvl, (result, str, expr), found)
        else if Ascii.eqb c ")" then
          match lvl with
          | S l => (start, quote_, ob, l, (result, str, expr), found)
          | O => if Nat.eqb (S ob) 2 then
                   let '(r', s', e', f) := addExpr false unescape result str expr in
                   (false, quote_, O, O, (r', s', e'), f || found)
                 else (start, quote_, S ob, O, (result, str, expr), found)
          end
        else if Ascii.eqb c """" then (start, true, ob, lvl, (result, str, expr), found)
        else (start, quote_, ob, lvl, (result, str, expr), found) in
      let expr := if start then (expr +++ schr c)%string else expr in
      let ob := if Ascii.eqb c ")" then ob else O in
      mkC mask quote_ start ob lvl expr str result found
  else
    let '(start, ob, str, expr) :=
      if Ascii.eqb c "(" then (start, S ob, str, expr)
      else if Nat.leb 2 ob then (true, O, String.substring 0 (String.length str - 2) str, schr c)
      else (start, ob, str, expr) in
    let '(str, ob) :=
      if start then (str, ob)
      else ((str +++ schr c)%string, if Ascii.eqb c "(" then ob else O) in
    mkC mask quote_ start ob lvl expr str result found.

Definition conv0 : cstate := mkC false false false O O "" "" "" false.

(** interpolation.go:16-92: the plain string (first) or the expression (second) *)
Definition convertToExpression (s : string) (unescape : bool) : option string * option string :=
  let st := fold_left (conv1 unescape) (chars s) conv0 in
  let str := if c_start st then (c_str st +++ "((" +++ c_expr st)%string else c_str st in
  let expr := if c_start st then "" else c_expr st in
  let '(result, str, _, f) := addExpr true unescape (c_result st) str expr in
  if f || c_found st then (None, Some result) else (Some str, None).

(** yaml/node.go:522-540 EmbeddedDynaml *)
Definition embeddedDynaml (n : node) (interpol : bool) : option string :=
  match val n with
  | VStr s =>
      match enclosed s with
      | Some sub => if hasPrefix sub "!" then None else Some sub
      | None => if interpol then snd (convertToExpression s false) else None
      end
  | _ => None
  end.

(** yaml/node.go:547-563: the string case of UnescapeDynaml *)
Definition unescapeStr (s : string) (interpol : bool) : string :=
  match enclosed s with
  | Some sub => if hasPrefix sub "!" then ("((" +++ sdrop 1 sub +++ "))")%string else s
  | None => if interpol then match fst (convertToExpression s true) with Some t => t | None => s end else s
  end.

(** yaml/node.go:568-577: the renaming of map keys *)
Definition unescapeKey (k : string) : string :=
  if hasPrefix k "<<!" then ("<<" +++ sdrop 3 k)%string
  else if hasPrefix k (MERGEKEY +++ "!") then (MERGEKEY +++ sdrop 4 k)%string
  else k.
Definition escapedKey (k : string) : bool := hasPrefix k "<<!" || hasPrefix k (MERGEKEY +++ "!").

(** yaml/node.go:542-585 UnescapeDynaml (one node, not its children).
    If two keys collide after the renaming, Go's map iteration order decides
    which value survives; here the later one in key order. *)
Definition unescapeDynaml (n : node) (interpol : bool) : node :=
  match val n with
  | VStr s => let t := unescapeStr s interpol in
              match enclosed s with
              | Some sub => if hasPrefix sub "!" then newNode (VStr t) (src n) else n
              | None => if String.eqb t s then n else newNode (VStr t) (src n)
              end
  | VMap m => if existsb (fun p => escapedKey (fst p)) m
              then newNode (VMap (mof (map (fun p => (unescapeKey (fst p), snd p)) m))) (src n)
              else n
  | _ => n
  end.
End Interpolation.
