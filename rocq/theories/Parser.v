(** dynaml/parser.go: from a text to an expression.  The grammar is executed by [run]
    of Peg.v; [build] is the loop over its tokens (parser.go:143-545).  Floats
    (strconv.ParseFloat) are a parameter.  No proofs in this file. *)
From Verif Require Import Core Str Peg Grammar Eval.
From Coq Require Import SpecFloat.
Import ListNotations.

(** ** encoding/json for string literals (parser.go:133-140) *)
(** the encoding of a code point *)
Definition byteOf (z : Z) : ascii := ascii_of_nat (Z.to_nat z).
Definition utf8 (z : Z) : string :=
  if z <? 128 then ofchars [byteOf z]
  else if z <? 2048 then ofchars [byteOf (192 + z / 64); byteOf (128 + z mod 64)]
  else if z <? 65536 then ofchars [byteOf (224 + z / 4096); byteOf (128 + z / 64 mod 64); byteOf (128 + z mod 64)]
  else ofchars [byteOf (240 + z / 262144); byteOf (128 + z / 4096 mod 64); byteOf (128 + z / 64 mod 64); byteOf (128 + z mod 64)].
Definition hexDigit (r : string) : option Z :=
  match r with
  | String c EmptyString =>
      let b := bytev c in
      if (48 <=? b) && (b <=? 57) then Some (b - 48)
      else if (97 <=? b) && (b <=? 102) then Some (b - 87)
      else if (65 <=? b) && (b <=? 70) then Some (b - 55)
      else None
  | _ => None
  end.
Definition hex4 (a b c d : string) : option Z :=
  match hexDigit a, hexDigit b, hexDigit c, hexDigit d with
  | Some a, Some b, Some c, Some d => Some (4096 * a + 256 * b + 16 * c + d)
  | _, _, _, _ => None
  end.
(** the text of a \u escape: a lone surrogate becomes U+FFFD *)
Definition isSurr (z : Z) : bool := (55296 <=? z) && (z <=? 57343).
Definition isHigh (z : Z) : bool := (55296 <=? z) && (z <=? 56319).
Definition isLow (z : Z) : bool := (56320 <=? z) && (z <=? 57343).
Definition esc1 (r : string) : option string :=
  match r with
  | String c EmptyString =>
      if Ascii.eqb c "034" || Ascii.eqb c "\" || Ascii.eqb c "/" then Some r
      else if Ascii.eqb c "b" then Some (ofchars ["008"%char])
      else if Ascii.eqb c "f" then Some (ofchars ["012"%char])
      else if Ascii.eqb c "n" then Some (ofchars ["010"%char])
      else if Ascii.eqb c "r" then Some (ofchars ["013"%char])
      else if Ascii.eqb c "t" then Some (ofchars ["009"%char])
      else None
  | _ => None
  end.
Definition isQ (r : string) : bool := isChar "034" r.
Definition isBS (r : string) : bool := isChar "\" r.
Definition isCtl (r : string) : bool :=
  match r with String c EmptyString => bytev c <? 32 | _ => false end.
Definition pre (t : string) (o : option string) : option string :=
  match o with Some s => Some (t +++ s)%string | None => None end.
(** the runes after the opening quote; [None]: an error *)
Fixpoint unquoteR (l : list string) : option string :=
  match l with
  | [] => None
  | r :: l1 =>
      if isQ r then match l1 with [] => Some ""%string | _ => None end
      else if isBS r then
        match l1 with
        | [] => None
        | e :: l2 =>
            if isChar "u" e then
              match l2 with
              | a :: b :: c :: d :: l3 =>
                  match hex4 a b c d with
                  | None => None
                  | Some z =>
                      if isHigh z then
                        match l3 with
                        | x :: y :: a' :: b' :: c' :: d' :: l4 =>
                            match (if isBS x && isChar "u" y then hex4 a' b' c' d' else None) with
                            | Some z' => if isLow z' then pre (utf8 (65536 + (z - 55296) * 1024 + (z' - 56320))) (unquoteR l4)
                                         else pre runeError (unquoteR l3)
                            | None => pre runeError (unquoteR l3)
                            end
                        | _ => pre runeError (unquoteR l3)
                        end
                      else if isSurr z then pre runeError (unquoteR l3)
                      else pre (utf8 z) (unquoteR l3)
                  end
              | _ => None
              end
            else match esc1 e with
                 | Some t => pre t (unquoteR l2)
                 | None => None
                 end
        end
      else if isCtl r then None
      else pre r (unquoteR l1)
  end.
(** parser.go:133-140 parseString; [None]: an error *)
Definition parseString (s : string) : option string :=
  match runes s with
  | q :: l => if isQ q then unquoteR l else None
  | [] => None
  end.

(** ** the token stack (parser.go:16-45, 569-598) *)
Inductive item :=
| IExpr (e : expr)
| IWrap (e : expr)                                        (* expressionHelper *)
| IList (l : list expr)                                   (* expressionListHelper *)
| INames (l : list (string * option expr)) (va : bool)    (* nameListHelper *)
| IName (n : string)                                      (* nameHelper *)
| IOp (op : string).                                      (* operationHelper *)
(** the variables of buildExpression; [b_next] numbers the projection cells *)
Record bstate := mkB { b_stack : list item; b_replace : bool; b_required : bool; b_key : string; b_next : nat }.
(** a state, the result at the rule Dynaml, an error, a crash because of a number
    out of range (parser.go:287, 293), or a crash by a failed type assertion *)
Inductive bres := BSt (s : bstate) | BDone (e : expr) | BErr | BRange | BPanic.

(** parser.go:92-118 with the runes of the text, see [pathComponents] in Eval.v *)
(** parser.go:206-213: the text before and after the last "::" *)
Fixpoint lastColons (l : list ascii) : option (list ascii * list ascii) :=
  match l with
  | [] => None
  | c :: r =>
      match lastColons r with
      | Some (a, b) => Some (c :: a, b)
      | None => match r with
                | d :: r' => if Ascii.eqb c ":" && Ascii.eqb d ":" then Some ([], r') else None
                | [] => None
                end
      end
  end.
Definition refOf (contents : string) : expr :=
  match lastColons (chars contents) with
  | Some (c :: a, b) =>
      let b := ofchars b in
      let b := if negb (String.eqb b ".") && hasPrefix b "." then sdrop 1 b else b in
      ERef (ofchars (c :: a)) (pathComponents b true)
  | _ => ERef "" (pathComponents contents true)
  end.
(** parser.go:555-565 *)
Definition equals (a b : list string) : bool := if list_eq_dec String.string_dec a b then true else false.
(** parser.go:252-260: named arguments first *)
Definition isNamed (e : expr) : bool := match e with ENameArg _ _ => true | _ => false end.
Definition orderArgs (l : list expr) : list expr := filter isNamed l ++ filter (fun e => negb (isNamed e)) l.
(** parser.go:476-480: the default of the last parameter *)
Definition setDefault (l : list (string * option expr)) (d : expr) : option (list (string * option expr)) :=
  match rev l with
  | (p, _) :: r => Some (rev ((p, Some d) :: r))
  | [] => None
  end.

Section Build.
Variable parseFloat : string -> option spec_float.
Variable path stubPath : list string.

(** parser.go:283-299 *)
Definition number (contents : string) : option expr :=
  let l := filter (fun c => negb (Ascii.eqb c "_")) (chars contents) in
  if existsb (fun c => Ascii.eqb c "." || Ascii.eqb c "e" || Ascii.eqb c "E") l
  then option_map EFloat (parseFloat (ofchars l))
  else option_map EInt (parseInt (ofchars l)).

(** parser.go:153-541: one token with its text *)
Definition action (r : rule) (contents : string) (s : bstate) : bres :=
  let st := b_stack s in
  let put (l : list item) : bres := BSt (mkB l (b_replace s) (b_required s) (b_key s) (b_next s)) in
  let un (k : expr -> expr) : bres :=
    match st with IExpr a :: l => put (IExpr (k a) :: l) | _ => BPanic end in
  let bin (k : expr -> expr -> expr) : bres :=
    match st with IExpr b :: IExpr a :: l => put (IExpr (k a b) :: l) | _ => BPanic end in
  let opn (k : string -> expr -> expr -> expr) : bres :=
    match st with IExpr b :: IOp o :: IExpr a :: l => put (IExpr (k o a b) :: l) | _ => BPanic end in
  match r with
  | R_Dynaml => match st with IExpr e :: _ => BDone e | _ => BPanic end
  | R_Marker => put (IExpr (EMarker [contents] None) :: st)
  | R_SubsequentMarker => match st with
                          | _ :: IExpr (EMarker l e) :: st => put (IExpr (EMarker (l ++ [contents]) e) :: st)
                          | _ => BPanic
                          end
  | R_MarkerExpression => un (EMarkExpr contents)
  | R_MarkedExpression => match st with
                          | IExpr (EMarker _ _) :: _ => put st
                          | IExpr e :: IExpr (EMarker l _) :: st => put (IExpr (EMarker l (Some e)) :: st)
                          | _ => BPanic
                          end
  | R_Prefer => un EPrefer
  | R_Grouped => un EGroup
  | R_Auto => put (IExpr (EAuto path) :: st)
  | R_Merge => BSt (mkB st false false "" (b_next s))
  | R_SimpleMerge =>
      let redirect := negb (equals path stubPath) in
      put (IExpr (EMerge stubPath redirect (b_replace s) (b_replace s || b_required s || redirect) false (b_key s)) :: st)
  | R_RefMerge =>
      match st with
      | IExpr (ERef _ p) :: st =>
          let none := match p with [x] => String.eqb x "none" | _ => false end in
          let p := if none then [] else p in
          put (IExpr (EMerge p true (b_replace s) (match p with [] => false | _ => true end) none (b_key s)) :: st)
      | _ => BPanic
      end
  | R_Replace => BSt (mkB st true (b_required s) (b_key s) (b_next s))
  | R_Required => BSt (mkB st (b_replace s) true (b_key s) (b_next s))
  | R_On => match st with
            | IName n :: st => BSt (mkB st (b_replace s) (b_required s) n (b_next s))
            | _ => BPanic
            end
  | R_Reference => put (IExpr (refOf contents) :: st)
  | R_ChainedRef => un (fun e => EQual e (pathComponents contents false))
  | R_ChainedDynRef => bin EDyn
  | R_TopIndex => un (fun e => EDyn (ERef "" [""%string]) e)
  | R_Slice => match st with
               | IExpr (ERange a b) :: IExpr e :: st => put (IExpr (ESlice e a b) :: st)
               | _ => BPanic
               end
  | R_Currying => match st with
                  | IExpr (ECall f args _) :: st => put (IExpr (ECall f args true) :: st)
                  | _ => BPanic
                  end
  | R_ChainedCall => match st with
                     | IList args :: IExpr f :: st => put (IExpr (ECall f (orderArgs args) false) :: st)
                     | _ => BPanic
                     end
  | R_ProjectionValue =>
      BSt (mkB (IExpr (EProjVal (b_next s)) :: IExpr (EProjVal (b_next s)) :: st)
               (b_replace s) (b_required s) (b_key s) (S (b_next s)))
  | R_Projection => match st with
                    | IExpr q :: IExpr (EProjVal id) :: IExpr e :: st => put (IExpr (EProj e id q) :: st)
                    | _ => BPanic
                    end
  | R_Number => match number contents with Some e => put (IExpr e :: st) | None => BRange end
  | R_Nil => put (IExpr ENil :: st)
  | R_Undefined => put (IExpr EUndef :: st)
  | R_Scoped => match st with
                | IExpr e :: IExpr (EMap m) :: st => put (IExpr (EScope m e) :: st)
                | _ => BPanic
                end
  | R_CreateMap | R_CreateScope => put (IExpr (EMap []) :: st)
  | R_Assignment => match st with
                    | IExpr v :: IExpr k :: IExpr (EMap m) :: st => put (IExpr (EMap (m ++ [(k, v)])) :: st)
                    | _ => BPanic
                    end
  | R_Boolean => put (IExpr (EBool (String.eqb contents "true")) :: st)
  | R_String => match parseString contents with Some t => put (IExpr (EStr t) :: st) | None => BErr end
  | R_IP => put (IExpr (EStr contents) :: st)
  | R_Substitution => un ESubst
  | R_Conditional => match st with
                     | IExpr f :: IExpr t :: IExpr c :: st => put (IExpr (ECond c t f) :: st)
                     | _ => BPanic
                     end
  | R_LogOr => bin ELogOr
  | R_LogAnd => bin ELogAnd
  | R_Or => opn (fun o a b => if String.eqb o "||" then EOr a b else EValidOr a b)
  | R_OrOp | R_CompareOp | R_RangeOp => put (IOp contents :: st)
  | R_StartRange => put (IOp "" :: st)
  | R_Not => un ENot
  | R_Comparison => opn (fun o a b => ECmp a o b)
  | R_Concatenation => bin EConcat
  | R_Addition => bin EAdd
  | R_Subtraction => bin ESub
  | R_Multiplication => bin EMul
  | R_Division => bin EDiv
  | R_Modulo => bin EMod
  | R_Symbol => match st with IName n :: st => put (IExpr (EStr n) :: st) | _ => BPanic end
  | R_StartParams => put (INames [] false :: st)
  | R_Name => put (IName contents :: st)
  | R_NextName => match st with
                  | IName n :: INames l va :: st => put (INames (l ++ [(n, None)]) va :: st)
                  | _ => BPanic
                  end
  | R_DefaultValue => match st with
                      | IExpr d :: INames l va :: st =>
                          match setDefault l d with Some l => put (INames l va :: st) | None => BPanic end
                      | _ => BPanic
                      end
  | R_VarParams => match st with INames l _ :: st => put (INames l true :: st) | _ => BPanic end
  | R_Default => put (IExpr EDefault :: st)
  | R_LambdaExt => match st with IExpr e :: st => put (IWrap e :: st) | _ => BPanic end
  | R_Sync => match st with
              | IExpr t :: v :: IExpr c :: IExpr e :: st =>
                  match v with
                  | IExpr v => put (IExpr (ESync e c v t) :: st)
                  | IWrap x => match c with
                               | ELambda ps _ _ => put (IExpr (ESync e c (ELambda ps false x) t) :: st)
                               | _ => BPanic
                               end
                  | _ => BPanic
                  end
              | _ => BPanic
              end
  | R_Catch => bin ECatch
  | R_Mapping => bin (EMapping MapToList)
  | R_FilterList => bin (EMapping FilterList)
  | R_FilterMap => bin (EMapping FilterMap)
  | R_Selection => bin (EMapping SelectToList)
  | R_MapMapping => bin (EMapping MapToMap)
  | R_MapSelection => bin (EMapping SelectToMap)
  | R_Sum => match st with
             | IExpr x :: IExpr i :: IExpr a :: st => put (IExpr (ESum a i x) :: st)
             | _ => BPanic
             end
  | R_LambdaExpr => match st with
                    | IExpr e :: INames l va :: st => put (IExpr (ELambda l va e) :: st)
                    | _ => BPanic
                    end
  | R_LambdaRef => un (fun e => match e with ELambda _ _ _ => e | _ => ELambdaRef e path stubPath end)
  | R_Range =>
      match (match st with
             | IOp _ :: st => Some (None, st)
             | IExpr e :: _ :: st => Some (Some e, st)
             | _ => None
             end) with
      | Some (b, IOp _ :: st) => put (IExpr (ERange None b) :: st)
      | Some (b, IExpr a :: _ :: st) => put (IExpr (ERange (Some a) b) :: st)
      | _ => BPanic
      end
  | R_List | R_Indices => match st with IList l :: st => put (IExpr (EList l) :: st) | _ => BPanic end
  | R_NextNameArgument => match st with
                          | IExpr e :: IName n :: IList l :: st => put (IList (l ++ [ENameArg n e]) :: st)
                          | _ => BPanic
                          end
  | R_NextExpression => match st with
                        | IExpr e :: IList l :: st => put (IList (l ++ [e]) :: st)
                        | _ => BPanic
                        end
  | R_ListExpansion => un EExpand
  | R_StartList | R_StartArguments => put (IList [] :: st)
  (* parser.go:157, 205, 219-221, 386, 490, 500, 525-541: nothing to do *)
  | R_TagMarker | R_FollowUpRef | R_Chained | R_ChainedQualifiedExpression | R_PathComponent
  | R_LambdaOrExpr | R_Lambda | R_Key | R_Index | R_Tag | R_TagComponent | R_TagPrefix
  | R_Level0 | R_Level1 | R_Level2 | R_Level3 | R_Level4 | R_Level5 | R_Level6 | R_Level7
  | R_Expression | R_ExpressionList | R_NameArgumentList | R_Map | R_Scope | R_Assignments
  | R_Names | R_Params | R_ws | R_req_ws => put st
  end.

(** parser.go:152: grammar.Buffer[token.begin:token.end] takes positions in the list of
    runes as positions in the bytes of the text; [total] is the number of runes *)
Definition contentsOf (source : string) (total : nat) (t : token rule) : string :=
  ofchars (firstn (t_begin t - t_end t) (skipn (total - t_begin t) (chars source))).
Fixpoint exec (source : string) (total : nat) (toks : list (token rule)) (s : bstate) : bres :=
  match toks with
  | [] => BSt s
  | t :: r => match action (t_rule t) (contentsOf source total t) s with
              | BSt s => exec source total r s
              | x => x
              end
  end.
Definition start : bstate := mkB [] false false "" O.

(** parser.go:77-88 Parse *)
Inductive parsed := ParseFuel | ParseErr | ParseRange | ParsePanic | ParseOk (e : expr).
Definition Parse (f : nat) (source : string) : parsed :=
  let rs := runes source in
  match run grammar f (PRule R_Dynaml) rs with
  | RunFuel => ParseFuel
  | RunFail => ParseErr
  | RunOk _ toks => match exec source (length rs) toks start with
                  | BDone e => ParseOk e
                  | BErr => ParseErr
                  | BRange => ParseRange
                  | BPanic | BSt _ => ParsePanic
                  end
  end.
End Build.
