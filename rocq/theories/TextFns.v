(** Text functions on evaluated arguments.
    Models dynaml/split.go:10-67, join.go:10-52, trim.go:9-46,
    base64.go:9-78, replace.go:12-35 and 102-184 (replacement of texts).
    The evaluation info is left out.  No proofs in this file. *)
From Verif Require Import Core Str Comparison ListFns.

Section Fns.
(** binding.SourceName(), used by dynaml.NewNode *)
Variable source : string.

(** split.go:10-67; int(m) is the identity on 64-bit platforms *)
Definition func_split (args : list value) : ores value :=
  let run (sepv : value) (str : string) (n : Z) :=
    match sepv with
    | VStr sep => OVal (VList (map (fun e => newNode (VStr e) source) (splitN str sep n)))
    | VInt max => if max <=? 0 then OErr
                  else OVal (VList (map (fun e => newNode (VStr e) source) (split_len str max n)))
    | _ => OErr
    end in
  match args with
  | [a; VStr str] => run a str (-1)
  | [a; VStr str; VInt n] => run a str n
  | _ => OErr
  end.

(** join.go:18-47: the texts of one argument; [None]: error.  [first]: i == 0 *)
Fixpoint join_elems (l : list node) : option (list string) :=
  match l with
  | [] => Some []
  | e :: r => match searchText (val e), join_elems r with
              | Some s, Some q => Some (s :: q)
              | _, _ => None
              end
  end.
Definition join_arg (first : bool) (v : value) : option (list string) :=
  match v with
  | VStr _ | VInt _ | VBool _ => option_map (fun s => [s]) (searchText v)
  | VList l => if first then None else join_elems l
  | VNil => Some []
  | _ => None
  end.
Fixpoint join_args (first : bool) (args : list value) : option (list string) :=
  match args with
  | [] => Some []
  | v :: r => match join_arg first v, join_args false r with
              | Some a, Some b => Some (a ++ b)
              | _, _ => None
              end
  end.
(** join.go:10-52: args[1:] panics if there is no text at all *)
Definition func_join (args : list value) : ores value :=
  match args with
  | [] => OErr
  | _ => match join_args true args with
         | None => OErr
         | Some [] => OPanic
         | Some (sep :: l) => OVal (VStr (joinS sep l))
         end
  end.

(** trim.go:9-46: arguments[0] panics without arguments *)
Fixpoint trim_list (cut : string) (l : list node) : option (list node) :=
  match l with
  | [] => Some []
  | e :: r => match val e, trim_list cut r with
              | VStr t, Some q => Some (newNode (VStr (trim t cut)) source :: q)
              | _, _ => None
              end
  end.
Definition trim_val (cut : string) (v : value) : ores value :=
  match v with
  | VStr s => OVal (VStr (trim s cut))
  | VList l => match trim_list cut l with Some r => OVal (VList r) | None => OErr end
  | _ => OErr
  end.
Definition defaultCut : string := String " " (String "009" "").
Definition func_trim (args : list value) : ores value :=
  match args with
  | [] => OPanic
  | [v] => trim_val defaultCut v
  | [v; VStr cut] => trim_val cut v
  | _ => OErr
  end.
End Fns.

(** encoding/base64 (Go standard library), StdEncoding *)
Definition b64alphabet : list ascii :=
  chars "ABCDEFGHIJKLMNOPQRSTUVWXYZabcdefghijklmnopqrstuvwxyz0123456789+/".
Definition b64char (z : Z) : ascii := nth (Z.to_nat z) b64alphabet "A"%char.
(** EncodeToString: three bytes become four characters, padded by = *)
Fixpoint b64enc (l : list ascii) : list ascii :=
  match l with
  | [] => []
  | [a] => [b64char (bytev a / 4); b64char (bytev a mod 4 * 16); "="; "="]%char
  | [a; b] => [b64char (bytev a / 4); b64char (bytev a mod 4 * 16 + bytev b / 16);
               b64char (bytev b mod 16 * 4); "="]%char
  | a :: b :: c :: r =>
      b64char (bytev a / 4) :: b64char (bytev a mod 4 * 16 + bytev b / 16) ::
      b64char (bytev b mod 16 * 4 + bytev c / 64) :: b64char (bytev c mod 64) :: b64enc r
  end.
(** decodeMap: position in the alphabet *)
Fixpoint posOf (c : ascii) (l : list ascii) (i : Z) : option Z :=
  match l with
  | [] => None
  | d :: r => if Ascii.eqb c d then Some i else posOf c r (i + 1)
  end.
Definition b64val (c : ascii) : option Z := posOf c b64alphabet 0.
Definition isNL (c : ascii) : bool := Ascii.eqb c "010" || Ascii.eqb c "013".
(** DecodeString: line ends are skipped everywhere (decodeQuantum), then groups of
    four characters; padding only in the last group; unused bits of the last
    character are not checked (not strict) *)
Fixpoint b64dec (l : list ascii) : option (list ascii) :=
  match l with
  | [] => Some []
  | a :: b :: c :: d :: r =>
      match b64val a, b64val b with
      | Some x, Some y =>
          match b64val c with
          | Some z =>
              match b64val d with
              | Some w => option_map (fun q => byteof (x * 4 + y / 16) :: byteof (y mod 16 * 16 + z / 4)
                                               :: byteof (z mod 4 * 64 + w) :: q) (b64dec r)
              | None => if Ascii.eqb d "=" then
                          match r with
                          | [] => Some [byteof (x * 4 + y / 16); byteof (y mod 16 * 16 + z / 4)]
                          | _ => None
                          end
                        else None
              end
          | None => if Ascii.eqb c "=" && Ascii.eqb d "=" then
                      match r with [] => Some [byteof (x * 4 + y / 16)] | _ => None end
                    else None
          end
      | _, _ => None
      end
  | _ => None
  end.
(** base64.go:62-72: cut into lines; [fuel] bounds the number of lines *)
Fixpoint lines_loop (fuel : nat) (str : list ascii) (max : nat) : list ascii :=
  match fuel with
  | O => str
  | S f => if Nat.ltb max (length str)
           then firstn max str ++ "010"%char :: lines_loop f (skipn max str) max
           else str
  end.
Definition stripNL (l : list ascii) : list ascii :=
  match rev l with c :: r => if Ascii.eqb c "010" then rev r else l | [] => l end.
(** base64.go:59-78 *)
Definition base64Encode (data : list ascii) (max : Z) : list ascii :=
  let str := b64enc data in
  if 0 <? max then stripNL (lines_loop (length str) str (Z.to_nat max)) else str.
(** base64.go:9-38 *)
Definition func_base64 (args : list value) : ores value :=
  match args with
  | [VStr s] => OVal (VStr (ofchars (base64Encode (chars s) (-1))))
  | [VStr s; VInt m] => OVal (VStr (ofchars (base64Encode (chars s) m)))
  | [VStr s; VStr t] => match parseInt t with
                        | Some m => OVal (VStr (ofchars (base64Encode (chars s) m)))
                        | None => OErr
                        end
  | _ => OErr
  end.
(** base64.go:40-57 *)
Definition func_base64_decode (args : list value) : ores value :=
  match args with
  | [VStr s] => match b64dec (filter (fun c => negb (isNL c)) (chars s)) with
                | Some r => OVal (VStr (ofchars r))
                | None => OErr
                end
  | _ => OErr
  end.

(** strings.Replace(s, old, new, n) for a non-empty [old] (Go standard library):
    the first n (all for n < 0) non-overlapping occurrences *)
Definition replaceNE (s old new : string) (n : Z) : string :=
  if n =? 0 then s else joinS new (splitN s old (if n <? 0 then -1 else n + 1)).
(** the empty [old] matches before every rune and at the end *)
Definition replaceEmpty (s new : string) (n : Z) : string :=
  let rs := runes s in
  let k := Z.of_nat (length rs) + 1 in
  let n := if (n <? 0) || (k <? n) then k else n in
  concatS (map (fun ir => if Z.of_nat (fst ir) <? n then (new +++ snd ir)%string else snd ir)
             (combine (seq 0 (S (length rs))) (rs ++ [""]))).
Definition replaceS (s old new : string) (n : Z) : string :=
  if String.eqb old new || (n =? 0) then s
  else match old with EmptyString => replaceEmpty s new n | _ => replaceNE s old new n end.

(** replace.go:102-143 processReplace with StringFinder (replace.go:65-74) and an
    expander that yields the text [f] of the match (LambdaExpander; [None]: error
    or unresolved).  [fuel] bounds the iterations: every iteration consumes at
    least one byte, except a last one. *)
Section PR.
Variable f : string -> option string.
Variable pat : list ascii.
Fixpoint processReplace (fuel : nat) (b n : list ascii) (emptyMatch : bool) (cnt : Z) : option (list ascii) :=
  match fuel with
  | O => None
  | S fu =>
      if cnt =? 0 then Some (n ++ b)
      else
        let i := indexL pat b 0 in
        if i <? 0 then Some (n ++ b)
        else
          let cnt := if 0 <? cnt then cnt - 1 else cnt in
          let n := n ++ firstn (Z.to_nat i) b in
          let e := Nat.add (Z.to_nat i) (length pat) in
          match (if emptyMatch || Nat.ltb 0 e
                 then option_map (fun t => n ++ chars t) (f (ofchars pat)) else Some n) with
          | None => None
          | Some n =>
              let b := skipn e b in
              if Nat.eqb (length pat) 0 then
                let w := fst (rune_width b) in
                if Nat.eqb w 0 then Some (n ++ b)
                else processReplace fu (skipn w b) (n ++ firstn w b) true cnt
              else processReplace fu b n false cnt
          end
  end.
End PR.

(** replace.go:12-28 and 145-184 _replace; [ev l s]: the text the lambda [l]
    yields for the matched text [s] (None: error or unresolved) *)
Definition replaceBy (ev : value -> string -> option string) (str src : string) (dst : value) (n : Z) : ores value :=
  match dst with
  | VStr t => OVal (VStr (replaceS str src t n))
  | VLambda _ _ _ _ _ =>
      match processReplace (ev dst) (chars src) (S (S (String.length str))) (chars str) [] true n with
      | Some r => OVal (VStr (ofchars r))
      | None => OErr
      end
  | _ => OErr
  end.
Definition func_replace (ev : value -> string -> option string) (args : list value) : ores value :=
  match args with
  | [VStr str; VStr src; dst] => replaceBy ev str src dst (-1)
  | [VStr str; VStr src; dst; VInt n] => replaceBy ev str src dst n
  | _ => OErr
  end.
