(** dynaml/*.go: evaluation of expressions.  Results are (value, info, ok) as in
    the Go code; [ok = false] is a failed evaluation, [ok = true] with an expression
    as value a delayed one.  A crash is [Panic].

    Parameters: the parser, the printer of expressions, the tag table, the cells of
    projections, the functions of the function registry and of the operating
    system ([builtin]), sync expressions (they depend on the time) and the flow of
    a template ([flowT]).  Texts of issues are abbreviated, nested issues and the
    list of cleanups are left out.  In Go, slices of a parsed expression may be
    changed in place (arguments of optional(), defaults of lambda expressions);
    here an expression is a value.  No proofs in this file. *)
From Verif Require Import Core Str Interp Find Cleanup Unresolved DeepEq Env Arith IP Comparison RangeSlice ListFns Flow Info.

(** dynaml/node.go:16-30 NewNode *)
Definition dsource (s : string) : string :=
  if String.eqb s "" then "dynaml"
  else if hasPrefix s "dynaml@" then s else ("dynaml@" +++ s)%string.
Definition dnode (v : value) (s : string) : node := newNode v (dsource s).

(** cond.go:45-64 toBool *)
Definition toBool (v : value) : bool :=
  match v with
  | VNil => false
  | VBool b => b
  | VStr s => negb (String.eqb s "")
  | VInt z => negb (z =? 0)
  | VList l => match l with [] => false | _ => true end
  | VMap m => match m with [] => false | _ => true end
  | _ => true
  end.

(** listexpansion.go:26-29 *)
Definition isExpansion (e : expr) : bool := match e with EExpand _ => true | _ => false end.
(** listexpansion.go:31-41 KeepArgWrapper *)
Definition keepArg (e orig : expr) : expr :=
  match orig with
  | EExpand _ => if isExpansion e then e else EExpand e
  | ENameArg n _ => ENameArg n e
  | _ => e
  end.
(** lambda.go:37-40 *)
Definition isInline (e : expr) : bool := match e with ELambda _ _ _ => true | _ => false end.

(** template.go:90-109 node_copy *)
Fixpoint nodeCopy (n : node) : node :=
  match n with
  | mkNode v _ s _ _ =>
      match v with
      | VList l => newNode (VList (map nodeCopy l)) s
      | VMap m => newNode (VMap (map (fun kv => match kv with (k, x) => (k, nodeCopy x) end) m)) s
      | _ => newNode v s
      end
  end.

(** type.go:22-52 ExpressionType of a value *)
Definition typeName (v : value) : string :=
  match v with
  | VStr _ => "string" | VInt _ => "int" | VFloat _ => "float" | VBool _ => "bool"
  | VList _ => "list" | VMap _ => "map" | VTemplate _ _ _ _ => "template"
  | VLambda _ _ _ _ _ => "lambda" | VNil => "nil"
  | VGoInt _ | VExpr _ => ""
  end.

(** parser.go:92-118 PathComponents *)
Fixpoint pathLoop (l : list ascii) (leading : bool) (comp : string) : list string :=
  match l with
  | [] => if String.eqb comp "" then [] else [comp]
  | c :: r =>
      if Ascii.eqb c "." then
        if negb (String.eqb comp "") || leading then comp :: pathLoop r leading "" else pathLoop r leading ""
      else if Ascii.eqb c "[" then
        if String.eqb comp "" then pathLoop r leading "[" else comp :: pathLoop r leading "["
      else pathLoop r leading (comp +++ String c "")%string
  end.
Definition pathComponents (s : string) (leading : bool) : list string := pathLoop (chars s) leading "".

(** mapping.go:138-201, select.go:15/50, filter.go:15-16: Supports *)
Definition supports (c : mapctx) (v : value) : bool :=
  match v with
  | VMap _ => match c with FilterList => false | _ => true end
  | VList _ => match c with SelectToMap | FilterMap => false | _ => true end
  | _ => false
  end.
(** the initial result of an aggregation *)
Definition emptyResult (c : mapctx) (source : value) : value :=
  match c with
  | MapToList | SelectToList | FilterList => VList []
  | MapToMap | SelectToMap | FilterMap => VMap []
  end.
Definition addList (r : value) (n : node) : value :=
  match r with VList l => VList (l ++ [n]) | _ => r end.
Definition addMap (r : value) (k : string) (n : node) : value :=
  match r with VMap m => VMap (mset k n m) | _ => r end.
(** the Add methods (mapping.go:157-166, 220-229, 251-263, select.go:30-36, 65-71,
    filter.go:37-48, 54-65); [None]: error.  [key] is the key of a map entry. *)
Definition aggAdd (c : mapctx) (key : option string) (v : value) (n : node) (i : info) (r : value) : option value :=
  let isNil := match v with VNil => true | _ => false end in
  if f_undefined i || isNil then Some r
  else match c with
  | MapToList => Some (addList r (dnode v (f_source i)))
  | MapToMap => match key with
                | Some k => Some (addMap r k (dnode v (f_source i)))
                | None => match val n with
                          | VStr s => Some (addMap r s (dnode v (f_source i)))
                          | _ => None
                          end
                end
  | SelectToList | FilterList => Some (if toBool v then addList r n else r)
  | SelectToMap | FilterMap =>
      Some (if toBool v then addMap r (match key with Some k => k | None => "" end) n else r)
  end.

(** a lambda value *)
Record lam := mkLam {
  l_ps : list (string * option expr); l_va : bool; l_body : expr; l_static : smap node; l_res : binding }.
Definition lamOf (v : value) : option lam :=
  match v with VLambda ps va b st r => Some (mkLam ps va b st r) | _ => None end.
Definition lamVal (l : lam) : value := VLambda (l_ps l) (l_va l) (l_body l) (l_static l) (l_res l).
(** lambda.go:155-162 ParameterIndex *)
Fixpoint paramIndex (ps : list (string * option expr)) (n : string) : option nat :=
  match ps with
  | [] => None
  | (p, _) :: r => if String.eqb p n then Some O else option_map S (paramIndex r n)
  end.
(** strconv.ParseInt(n, 10, 32) *)
Definition parseInt32 (s : string) : option Z :=
  match parseInt s with
  | Some z => if (-2147483648 <=? z) && (z <=? 2147483647) then Some z else None
  | None => None
  end.
(** lambda.go:239-259: names of named arguments; the order of Go's map is random,
    here the order of the keys.  [inl]: issue text *)
Fixpoint namedArgs (ps : list (string * option expr)) (nargs : smap node) (named : smap node) : string + smap node :=
  match nargs with
  | [] => inr named
  | (n, v) :: r =>
      match (match parseInt32 n with
             | Some i => if i - 1 <? 0 then inl "invalid argument index"%string
                         else match nth_error ps (Z.to_nat (i - 1)) with
                              | Some (p, _) => inr p
                              | None => inl "argument index too large"%string
                              end
             | None => inr n
             end) with
      | inl t => inl t
      | inr n => match mget n named with
                 | Some _ => inl "named argument given by name and index"%string
                 | None => namedArgs ps r (mset n v named)
                 end
      end
  end.
(** lambda.go:284-301; [inl]: issue text and local error flag *)
Fixpoint bindNamed (ps : list (string * option expr)) (va : bool) (nargs : nat) (named inp : smap node)
  : (string * bool) + smap node :=
  match named with
  | [] => inr inp
  | (n, v) :: r =>
      match paramIndex ps n with
      | None => inl ("no lambda parameter found for named argument"%string, false)
      | Some i =>
          if (i <? nargs)%nat then inl ("both, positional and named argument found"%string, false)
          else if va && Nat.eqb i (length ps - 1) && match val v with VList _ => false | _ => true end
          then inl ("named varargs argument must be a list"%string, true)
          else bindNamed ps va nargs r (mset n v inp)
      end
  end.
(** lambda.go:304-306: positional arguments *)
Fixpoint bindArgs (ps : list (string * option expr)) (args : list value) (source : string) (inp : smap node) : smap node :=
  match args, ps with
  | a :: r, (p, _) :: ps => bindArgs ps r source (mset p (dnode a source) inp)
  | _, _ => inp
  end.
(** lambda.go:310-321: the parameters that remain after currying; [i] counts from
    the first parameter without positional argument *)
Fixpoint restParams (ps : list (string * option expr)) (named : smap node) (va : bool) : list (string * option expr) * bool :=
  match ps with
  | [] => ([], false)
  | (p, d) :: r =>
      let '(rest, v) := restParams r named va in
      match mget p named with
      | Some _ => (rest, v)
      | None => ((p, d) :: rest, match r with [] => va | _ => v end)
      end
  end.
(** lambda.go:329-355: missing arguments.  [None]: crash; [inl]: error text *)
Fixpoint bindMissing (ps : list (string * option expr)) (named : smap node) (va : bool) (source : string) (inp : smap node)
  : option (string + smap node) :=
  match ps with
  | [] => Some (inr inp)
  | (p, d) :: r =>
      match mget p named with
      | Some v => bindMissing r named va source (mset p v inp)
      | None =>
          match d with
          | Some (EValue v) => bindMissing r named va source (mset p (dnode v source) inp)
          | Some _ => None
          | None => if va && match r with [] => true | _ => false end
                    then bindMissing r named va source (mset p (dnode (VList []) source) inp)
                    else Some (inl "expected more arguments"%string)
          end
      end
  end.
(** lambda.go:261-272: variable arguments become a list *)
Definition packArgs (nparams : nat) (va : bool) (args : list value) (source : string) : list value :=
  if va then
    let required := (nparams - 1)%nat in
    if (required <? length args)%nat
    then firstn required args ++ [VList (map (fun a => newNode a source) (skipn required args))]
    else args
  else args.
Definition lastDefault (ps : list (string * option expr)) : bool :=
  match rev ps with (_, Some _) :: _ => true | _ => false end.

(** lambda.go:235-359: the preparation of a call.  The result is a failure, a
    curried lambda or the local scope for the body (without "_"). *)
Inductive lcall := LErr (i : info) | LCurry (l : lam) | LBody (inp : smap node) | LPanic.
Definition lambdaPrepare (lm : lam) (curry auto : bool) (nargs : smap node) (args0 : list value) (source : string) : lcall :=
  let ps := l_ps lm in
  let nparams := length ps in
  match namedArgs ps nargs [] with
  | inl t => LErr (setIssue t defaultInfo)
  | inr named =>
      let args := packArgs nparams (l_va lm) args0 source in
      if (nparams <? length args)%nat then LErr (setIssue "too many arguments" defaultInfo)
      else
        match bindNamed ps (l_va lm) (length args) named (l_static lm) with
        | inl (t, loc) => LErr (if loc then setError t defaultInfo else setIssue t defaultInfo)
        | inr inp =>
            let inp := bindArgs ps args source inp in
            let noNamed := match named with [] => true | _ => false end in
            if curry || (auto && noNamed && (length args <? nparams)%nat && negb (l_va lm) && negb (lastDefault ps))
            then let '(rest, va) := restParams (skipn (length args) ps) named (l_va lm) in
                 LCurry (mkLam rest va (l_body lm) inp (l_res lm))
            else match bindMissing (skipn (length args) ps) named (l_va lm) source inp with
                 | None => LPanic
                 | Some (inl t) => LErr (setError t defaultInfo)
                 | Some (inr inp) => LBody inp
                 end
        end
  end.

Section Eval.
Variable ST : Type.
Variable ctrl : bool.
Variable context : binding -> node.
Variable parse : string -> list string -> list string -> option expr.
Variable N : netx.
(** the text of a lambda value *)
Variable lambdaText : value -> string.
(** State.GetTags: name, level and node of the matching tags *)
Variable tagsOf : string -> ST -> list (string * nat * node).
(** the cell of a ProjectionValue (projection.go:81-83) *)
Variable projGet : nat -> ST -> value.
Variable projSet : nat -> value -> ST -> ST.

Notation M := (M ST).
Notation ret := (ret ST).
Notation panic := (panic ST).
Notation "x <- m ;; k" := (bind ST m (fun x => k)) (at level 90, m at level 80, right associativity).
Definition R := (value * info * bool)%type.

(** Evaluate for the parts of an expression *)
Variable rec : expr -> binding -> bool -> M R.
(** binding.Flow(template, false): the result and the unresolved nodes *)
Variable flowT : node -> binding -> M (node * list unres).
(** the functions of call.go:163-341 other than those below: resolved flag and
    result; [None]: unknown function *)
Variable builtin : string -> list expr -> list value -> binding -> bool -> M (option (bool * R)).
(** sync.go:20-171; the condition is tried again until a timeout *)
Variable syncEval : expr -> binding -> bool -> M R.

(** expression.go:186-189 Error *)
Definition fail (t : string) (i : info) : M R := ret (VNil, setError t i, false).
Definition failI (i : info) : M R := ret (VNil, i, false).
Definition done (v : value) (i : info) : M R := ret (v, i, true).
Definition keep (e : expr) (i : info) : M R := ret (VExpr e, i, true).

(** expression.go:262-279 ResolveExpressionOrPushEvaluation: failed, resolved to a
    value or delayed with the expression to be evaluated later *)
Inductive push := PFail (i : info) | PVal (v : value) (i : info) | PExpr (e : expr) (i : info).
Definition resolvePush (e : expr) (i : option info) (b : binding) (l : bool) : M push :=
  r <- rec e b l ;;
  let '(v, ie, ok) := r in
  let ie := match i with Some i => join i ie | None => ie end in
  ret (if ok then match v with VExpr x => PExpr (keepArg x e) ie | _ => PVal v ie end else PFail ie).
(** expression.go:281-295 ResolveIntegerExpressionOrPushEvaluation *)
Inductive pushZ := ZFail (i : info) | ZVal (z : Z) (i : info) | ZExpr (e : expr) (i : info).
Definition resolveInt (e : expr) (i : option info) (b : binding) (l : bool) : M pushZ :=
  p <- resolvePush e i b l ;;
  ret (match p with
       | PFail i => ZFail i
       | PExpr e i => ZExpr e i
       | PVal VNil i => ZVal 0 i
       | PVal (VInt z) i => ZVal z i
       | PVal _ i => ZFail (setIssue "integer operand required" i)
       end).
(** expression.go:297-327 ResolveExpressionListOrPushEvaluation: values, the
    expressions with pushed evaluations, and whether all are resolved *)
Fixpoint resolveEach (es : list expr) (i : option info) (b : binding) (l : bool)
  : M (info + list (value * expr) * bool * info) :=
  match es with
  | [] => ret (inr ([], true, match i with Some i => i | None => defaultInfo end))
  | e :: r =>
      p <- resolvePush e i b l ;;
      match p with
      | PFail i => ret (inl i)
      | PVal v i =>
          x <- resolveEach r (Some i) b l ;;
          ret (match x with
               | inl i => inl i
               | inr (vs, res, i) => inr ((v, e) :: vs, res, i)
               end)
      | PExpr e' i =>
          x <- resolveEach r (Some i) b l ;;
          ret (match x with
               | inl i => inl i
               | inr (vs, _, i) => inr ((VNil, e') :: vs, false, i)
               end)
      end
  end.
Fixpoint expandArgs (l : list (value * expr)) : option (list value) :=
  match l with
  | [] => Some []
  | (v, e) :: r =>
      match expandArgs r with
      | None => None
      | Some vs => if isExpansion e
                   then match v with VList l => Some (map val l ++ vs) | _ => None end
                   else Some (v :: vs)
      end
  end.
Definition resolveList (es : list expr) (b : binding) (l : bool)
  : M (info + list value * list expr * bool * info) :=
  x <- resolveEach es None b l ;;
  ret (match x with
       | inl i => inl i
       | inr (vs, res, i) =>
           match expandArgs vs with
           | None => inl (setError "argument expansion required list argument" i)
           | Some l => inr (l, map snd vs, res, i)
           end
       end).

(** the operators with two evaluated operands (addition.go:14-29,
    subtraction.go:13-28, multiplication.go:13-28, division.go:13-28,
    concatenation.go:20-40, comparison.go:18-33) *)
Definition operands (mk : expr -> expr -> expr) (a b : expr) (env : binding)
    (k : value -> value -> info -> M R) : M R :=
  p <- resolvePush a None env false ;;
  match p with
  | PFail i => failI i
  | PVal va i =>
      q <- resolvePush b (Some i) env false ;;
      match q with
      | PFail i => failI i
      | PVal vb i => k va vb i
      | PExpr b' i => keep (mk a b') i
      end
  | PExpr a' i =>
      q <- resolvePush b (Some i) env false ;;
      match q with
      | PFail i => failI i
      | PVal _ i => keep (mk a' b) i
      | PExpr b' i => keep (mk a' b') i
      end
  end.
(** addition.go:31-64, subtraction.go:30-79, multiplication.go:30-56, division.go:30-78 *)
Definition arith (op : value -> value -> option value) (va vb : value) (i : info) : M R :=
  match op va vb with
  | Some v => done v i
  | None => fail "invalid operands" i
  end.
(** concatenation.go:44-81 *)
Definition concat (va vb : value) (i : info) : M R :=
  match op_concat lambdaText (dsource (f_source i)) va vb with
  | OVal v => done v i
  | OErr => fail "types cannot be concatenated" i
  | OPanic => panic
  end.
(** comparison.go:35-84; the issue of a mismatch inside of a list or map is left out *)
Definition compare (op : string) (va vb : value) (i : info) : M R :=
  match op_cmp lambdaText op va vb with
  | Some v => done v (join i defaultInfo)
  | None =>
      if String.eqb op "==" || String.eqb op "!="
      then failI (join i (match va, vb with
                          | VNil, _ | _, VNil => defaultInfo
                          | _, _ => setIssue "types uncomparable" defaultInfo
                          end))
      else fail "comparision only for integers or strings" defaultInfo
  end.
(** modulo.go:12-33 *)
Definition evalMod (a b : expr) (env : binding) : M R :=
  p <- resolveInt a None env false ;;
  let fin (a : expr) (va : option Z) (i : info) : M R :=
    q <- resolveInt b (Some i) env false ;;
    match q with
    | ZFail i => failI i
    | ZExpr b' i => keep (EMod a b') i
    | ZVal vb i => match va with
                   | Some va => arith op_mod (VInt va) (VInt vb) i
                   | None => keep (EMod a b) i
                   end
    end in
  match p with
  | ZFail i => failI i
  | ZVal va i => fin a (Some va) i
  | ZExpr a' i => fin a' None i
  end.

(** or.go:17-35 *)
Definition evalOr (a b : expr) (env : binding) : M R :=
  r <- rec a env false ;;
  let '(va, ia, ok) := r in
  if ok && negb (f_undefined ia)
  then match va with VExpr _ => keep (EOr a b) ia | _ => done va ia end
  else
    r <- rec b env false ;;
    let '(vb, ib, ok) := r in
    ret (vb, setUndef (f_undefined ib) (join (cleanError ia) ib), ok).
(** validor.go:13-31 *)
Definition evalValidOr (a b : expr) (env : binding) : M R :=
  r <- rec a env false ;;
  let '(va, ia, ok) := r in
  let second : M R :=
    r <- rec b env false ;;
    let '(vb, ib, ok) := r in
    ret (vb, setUndef (f_undefined ib) (join ia ib), ok) in
  if ok then
    match va with
    | VExpr x => if deepEqE x a then failI ia else keep (EValidOr a b) ia
    | VNil => second
    | _ => done va ia
    end
  else second.
(** cond.go:19-39 *)
Definition evalCond (c t f : expr) (env : binding) : M R :=
  p <- resolvePush c (Some defaultInfo) env false ;;
  match p with
  | PFail i => failI i
  | PExpr c' i => keep (ECond c' t f) i
  | PVal v i =>
      r <- (if toBool v then rec t env false else rec f env false) ;;
      let '(v, ic, ok) := r in ret (v, join ic i, ok)
  end.
(** log_or.go:48-80 resolveLOperands with log_or.go:18-42 ([conj = false]) and
    log_and.go:18-41 ([conj = true]) *)
Definition evalLog (conj : bool) (self a b : expr) (env : binding) : M R :=
  let dec (v : value) : bool := if conj then negb (toBool v) else toBool v in
  r <- rec a env false ;;
  let '(va, ia, ok) := r in
  if negb ok then failI defaultInfo
  else match va with
  | VExpr _ => keep self ia
  | _ =>
      r <- rec b env false ;;
      let '(vb, ib, ok) := r in
      let i := join ia ib in
      if negb ok then
        match va with
        | VInt _ => failI i
        | _ => if dec va then done (VBool (negb conj)) i else failI i
        end
      else match vb with
      | VExpr _ => keep self i
      | _ =>
          match va, vb with
          | VInt x, VInt y => done (VInt (if conj then Z.land x y else Z.lor x y)) i
          | _, _ => done (VBool (if conj then toBool va && toBool vb else toBool va || toBool vb)) i
          end
      end
  end.
(** not.go:13-25 *)
Definition evalNot (a : expr) (env : binding) : M R :=
  p <- resolvePush a None env false ;;
  match p with
  | PFail i => failI i
  | PExpr a' i => keep (ENot a') i
  | PVal v i => done (VBool (negb (toBool v))) i
  end.

(** reference.go:102-138 find: every prefix of the path is looked up with [sel];
    [self] is the expression to be kept *)
Fixpoint refLoop (self : expr) (sel : list string -> fres) (pre rest : list string) (step : option node) (l : bool) : M R :=
  match rest with
  | [] =>
      match step with
      | None => panic
      | Some n =>
          if negb l && negb (isResolvedV ctrl false (val n))
          then keep self (setFailed (a_failed (ann n) || a_error (ann n)) (setIssue "unresolved" defaultInfo))
          else done (val (referencedNode n)) (setKeyName (a_keyName (ann n)) defaultInfo)
      end
  | p :: r =>
      match sel (pre ++ [p]) with
      | FPanic => panic
      | FNo => fail ("'" +++ joinS "." (pre ++ [p]) +++ "' not found")%string defaultInfo
      | FOk n =>
          if isLocallyResolvedValue ctrl (val n) then refLoop self sel (pre ++ [p]) r (Some n) l
          else keep self (setFailed (a_failed (ann n) || a_error (ann n)) (setIssue "unresolved" defaultInfo))
      end
  end.
Definition refFind (self : expr) (sel : list string -> fres) (path : list string) (l : bool) : M R :=
  refLoop self sel [] path None l.
(** reference.go:59-80: the tags in the order of their level *)
Fixpoint tagLoop (self : expr) (tag : string) (sel : node -> list string -> fres) (path : list string) (l : bool)
    (ts : list (string * nat * node)) (found : option (nat * value * info)) : M R :=
  match ts with
  | [] => ret (match found with Some (_, v, i) => (v, i, true) | None => (VNil, defaultInfo, false) end)
  | (nm, lv, n) :: r =>
      if match found with Some (flv, _, _) => (flv <? lv)%nat | None => false end
      then ret (match found with Some (_, v, i) => (v, i, true) | None => (VNil, defaultInfo, false) end)
      else
        x <- refFind self (sel n) path l ;;
        let '(v, i, ok) := x in
        if ok then
          if String.eqb nm tag then ret (v, i, ok)
          else if match found with Some (flv, _, _) => Nat.eqb flv lv | None => false end
          then fail "ambigious tag resolution" (match found with Some (_, _, i) => i | None => defaultInfo end)
          else tagLoop self tag sel path l r (Some (lv, v, i))
        else tagLoop self tag sel path l r found
  end.
(** reference.go:23-89 *)
Definition evalRef (tag : string) (path : list string) (env : binding) (l : bool) : M R :=
  match path with
  | [] => panic
  | p0 :: pr =>
      let self := ERef tag path in
      let rooted := String.eqb p0 "" in
      let single := rooted && match pr with [] => true | _ => false end in
      let sel (fromRoot : bool) (p : list string) : fres :=
        if fromRoot then findFromRoot ctrl (if rooted then List.tl p else p) env
        else findReference ctrl context p env in
      if String.eqb tag "" then refFind self (sel rooted) path l
      else if String.eqb tag "doc:0" || String.eqb tag "doc.0" then
        if single then fail "no reference to actual document possible" defaultInfo
        else refFind self (sel true) path l
      else fun s =>
        match tagsOf tag s with
        | [] => fail "tag not found" defaultInfo s
        | (nm, lv, n) :: r =>
            if single then
              if match r with [] => true | _ => false end || String.eqb nm tag
              then done (val n) defaultInfo s
              else fail "found multiple tags" defaultInfo s
            else tagLoop self tag
                   (fun n p => if rooted then sel true p else find false ctrl path n)
                   path l ((nm, lv, n) :: r) None s
        end
  end.

(** merge.go:22-44 *)
Definition evalMerge (path : list string) (redirect replace required none : bool) (key : string) (env : binding) : M R :=
  let i := setKeyName key defaultInfo in
  let i := mkInfo (if redirect then Some path else None) false false false (f_keyName i) "" false false false false noIssue 0%N in
  if none then done VNil (mkInfo (f_redirect i) false true false (f_keyName i) "" false false false false noIssue 0%N)
  else match findInStubs ctrl env path with
  | FPanic => panic
  | FNo => fail "not found in any stub" i
  | FOk n => done (val n) (mkInfo (f_redirect i) replace true false (f_keyName i) (src n) false false false false noIssue (nflags n))
  end.
(** auto.go:35-53: the sum of the instances of the jobs for a resource pool;
    [None]: an instance count is missing *)
Definition findIntF (key : string) (n : node) : option Z :=
  match find false ctrl [key] n with
  | FOk c => match val c with VInt z => Some z | _ => None end
  | _ => None
  end.
Fixpoint poolSize (jobs : list node) (pool : string) (size : Z) : option Z :=
  match jobs with
  | [] => Some size
  | j :: r =>
      match findString false ctrl "resource_pool" j with
      | Some p => if String.eqb p pool
                  then match findIntF "instances" j with
                       | Some z => poolSize r pool (wrap64 (size + z))
                       | None => None
                       end
                  else poolSize r pool size
      | None => poolSize r pool size
      end
  end.
(** auto.go:15-57 *)
Definition evalAuto (path : list string) (env : binding) : M R :=
  match path with
  | [p0; p1; p2] =>
      if String.eqb p0 "resource_pools" && String.eqb p2 "size" then
        r <- evalRef "" [""; "jobs"] env false ;;
        let '(jobs, i, found) := r in
        if negb found then failI (setIssue "no jobs found" i)
        else if negb (isResolvedV ctrl false jobs) then keep (EAuto path) i
        else match jobs with
        | VList l => match poolSize l (pathComponent p1) 0 with
                     | Some z => done (VInt z) i
                     | None => failI i
                     end
        | _ => fail "jobs must be a list" i
        end
      else fail "auto only allowed for size entry in resource pools" defaultInfo
  | _ => fail "auto only allowed for size entry in resource pools" defaultInfo
  end.

(** range.go:14-49 getRange *)
Inductive grange := GErr (i : info) | GWait (i : info) | GOk (s e : Z) (i : info).
Definition evalBound (e : option expr) (env : binding) : M (info + option Z * bool) :=
  match e with
  | None => ret (inr (None, true))
  | Some e => p <- resolveInt e (Some defaultInfo) env false ;;
              ret (match p with
                   | ZFail i => inl i
                   | ZVal z _ => inr (Some z, true)
                   | ZExpr _ _ => inr (Some 0, false)
                   end)
  end.
Definition evalGetRange (a b : option expr) (size : Z) (env : binding) : M grange :=
  if (size <? 0) && match a, b with Some _, Some _ => false | _, _ => true end
  then ret (GErr (setError "range expression requires start and end index" defaultInfo))
  else
    x <- evalBound a env ;;
    match x with
    | inl i => ret (GErr i)
    | inr (s, res1) =>
        y <- evalBound b env ;;
        match y with
        | inl i => ret (GErr i)
        | inr (e, res2) =>
            match getRange s e size with
            | None => ret (GErr (setError "slice operator requires start or end index" defaultInfo))
            | Some (s, e) => ret (if res1 && res2 then GOk s e defaultInfo else GWait defaultInfo)
            end
        end
    end.
(** range.go:51-71; the loop runs for ever if the counter overflows *)
Definition evalRange (a b : option expr) (env : binding) : M R :=
  g <- evalGetRange a b (-1) env ;;
  match g with
  | GErr i => failI i
  | GWait i => keep (ERange a b) i
  | GOk s e i =>
      match rangeExpr (S (S (Z.to_nat (Z.abs (e - s))))) s e with
      | Some l => done (VList (map (fun z => dnode (VInt z) (b_source env)) l)) i
      | None => fun _ => Fuel
      end
  end.
(** slice.go:15-67; the info of the range is discarded *)
Definition evalSlice (x : expr) (a b : option expr) (env : binding) (l : bool) : M R :=
  r <- rec x env l ;;
  let '(root, i, ok) := r in
  if negb ok then failI i
  else if negb (isLocallyResolvedValue ctrl root) then keep (ESlice x a b) i
  else if negb l && negb (isResolvedV ctrl false root) then keep (ESlice x a b) i
  else match root with
  | VList arr =>
      g <- evalGetRange a b (Z.of_nat (length arr)) env ;;
      match g with
      | GErr _ => failI i
      | GWait _ => keep (ESlice x a b) i
      | GOk s e _ => match slice arr (Some s) (Some e) with
                     | SOk l => done (VList l) i
                     | SErr => fail "slice out of range" i
                     | SPanic => panic
                     end
      end
  | _ => fail "slice requires array expression" i
  end.

(** projection.go:68-75 projectValue for the entries *)
Fixpoint projLoop (id : nat) (q : expr) (entries : list node) (env : binding) (l : bool) : M (option (list node)) :=
  match entries with
  | [] => ret (Some [])
  | n :: r =>
      x <- (fun s => rec q env l (projSet id (val n) s)) ;;
      let '(v, _, ok) := x in
      if ok then
        y <- projLoop id q r env l ;;
        ret (option_map (cons (dnode v (b_source env))) y)
      else ret None
  end.
(** projection.go:15-66; the checks for unresolved results look at entries that are
    not set yet and never apply *)
Definition evalProj (x : expr) (id : nat) (q : expr) (env : binding) (l : bool) : M R :=
  p <- resolvePush x None env false ;;
  match p with
  | PFail i => failI i
  | PExpr x' i => ret (VExpr (EProj x' id q), i, false)
  | PVal v i =>
      let loop (entries : list node) : M R :=
        y <- projLoop id q entries env l ;;
        match y with Some nl => done (VList nl) i | None => failI i end in
      match v with
      | VList es => match q with EProjVal _ => done v i | _ => loop es end
      | VMap m => loop (map snd m)
      | _ => fail "only map or list allowed for projection" i
      end
  end.

(** list.go:14-31 *)
Definition evalList (es : list expr) (env : binding) : M R :=
  x <- resolveList es env false ;;
  match x with
  | inl i => failI i
  | inr (vs, es', res, i) =>
      if res then done (VList (map (fun v => dnode v (b_source env)) vs)) i else keep (EList es') i
  end.
(** map.go:12-35; each assignment starts with an empty info *)
Fixpoint mapLoop (self : expr) (l : list (expr * expr)) (env : binding) (loc : bool) (acc : smap node) : M R :=
  match l with
  | [] => done (VMap acc) defaultInfo
  | (k, v) :: r =>
      p <- resolvePush k (Some defaultInfo) env loc ;;
      match p with
      | PFail i => ret (VExpr self, i, false)
      | PExpr _ i => keep self i
      | PVal (VStr s) i =>
          q <- resolvePush v (Some i) env loc ;;
          match q with
          | PFail i => ret (VExpr self, i, false)
          | PExpr _ i => keep self i
          | PVal w _ => mapLoop self r env loc (mset s (dnode w (b_source env)) acc)
          end
      | PVal _ i => fail "assignment target must evaluate to string" i
      end
  end.
Definition evalMap (l : list (expr * expr)) (env : binding) (loc : bool) : M R := mapLoop (EMap l) l env loc [].
(** scope.go:14-32 *)
Definition evalScope (l : list (expr * expr)) (e : expr) (env : binding) (loc : bool) : M R :=
  r <- evalMap l env loc ;;
  let '(v, i, ok) := r in
  if negb ok then ret (v, i, ok)
  else match v with
  | VMap m =>
      r <- rec e (withLocalScope m env) loc ;;
      let '(v, i, ok) := r in
      if ok && isExpr v then keep (EScope l e) i else ret (v, i, ok)
  | _ => keep (EScope l e) i
  end.

(** dynamic_expression.go:51-83: the path for an index value; [None]: error *)
Definition qualStep (v : value) : option string :=
  match v with
  | VInt z => Some ("[" +++ itoa z +++ "]")%string
  | VStr s => Some s
  | _ => None
  end.
Fixpoint qualSteps (l : list node) : option (list string) :=
  match l with
  | [] => Some []
  | n :: r => match qualStep (val n), qualSteps r with
              | Some s, Some q => Some (s :: q)
              | _, _ => None
              end
  end.
Definition dynPath (root dyn : value) : option (list string) :=
  let dyn := match dyn with VList [n] => val n | _ => dyn end in
  match dyn with
  | VInt z => match root with VList _ => Some [("[" +++ itoa z +++ "]")%string] | _ => None end
  | VStr s => Some [s]
  | VList [] => None
  | VList l => qualSteps l
  | _ => None
  end.
(** dynamic_expression.go:15-96; the info of the index is discarded *)
Definition evalDyn (root index : expr) (env : binding) (l : bool) : M R :=
  let isRef := match root with ERef _ _ => true | _ => false end in
  r <- rec root env (l || isRef) ;;
  let '(v, i, ok) := r in
  if negb ok then failI i
  else if negb (isLocallyResolvedValue ctrl v) then keep (EDyn root index) i
  else
    r <- rec index env (l || f_raw i) ;;
    let '(d, _, ok) := r in
    if negb ok then failI i
    else if negb (isResolvedV ctrl false d) then keep (EDyn root index) i
    else match dynPath v d with
    | None => fail "index or field name required for reference qualifier" i
    | Some q =>
        r <- refFind (ERef "" q) (fun p => find false ctrl p (dnode v "")) q true ;;
        let '(t, i, ok) := r in
        if negb ok then failI i
        else if isResolvedV ctrl false t then done t i
        else keep (EDyn root index) i
    end.
(** qualified_expression.go:15-40; an unresolved step yields the plain reference *)
Definition evalQual (x : expr) (path : list string) (env : binding) (l : bool) : M R :=
  r <- rec x env l ;;
  let '(root, i, ok) := r in
  if negb ok then failI i
  else
    let l := l || f_raw i in
    if negb (isLocallyResolvedValue ctrl root)
    then keep (EQual (match root with VExpr e => e | _ => x end) path) i
    else if negb l && negb (isResolvedV ctrl false root) then keep (EQual x path) i
    else refFind (ERef "" path) (fun p => find false ctrl p (dnode root "")) path l.

(** template.go:16-48 *)
Definition evalSubst (t : expr) (env : binding) : M R :=
  r <- rec t env false ;;
  let '(v, i, ok) := r in
  if negb ok || isExpr v then ret (VExpr (ESubst t), i, ok)
  else match v with
  | VTemplate path prepared orig res =>
      let inp := [(SELF, resolverNode (dnode v (b_source env)) res)] in
      x <- flowT (nodeCopy prepared) (withLocalScope inp env) ;;
      let '(n, u) := x in
      let i := setUndef (a_undefined (ann n)) defaultInfo in
      match u with
      | [] => done (val n) (setSource (src n) i)
      | _ =>
          if existsb (fun x => negb (String.eqb (i_text (a_issue (ann (u_node x)))) "")) u then
            let loc := existsb (fun x => a_error (ann (u_node x))) u in
            let i := mkInfo None false false false "" "" loc (existsb (fun x => a_failed (ann (u_node x))) u)
                            (a_undefined (ann n)) false (newIssue "resolution of template failed") 0%N in
            ret (if loc then VNil else VExpr (ESubst t), i, false)
          else keep (ESubst t) i
      end
  | _ => fail "template value required" i
  end.
(** marker.go:81-95 *)
Definition evalMarker (ms : list string) (e : option expr) (env : binding) (l : bool) : M R :=
  if mkHas TEMPLATE_M (ms, e) then failI (setIssue "&template only usable as marker for templates" defaultInfo)
  else
    let i := addInfoFlags (mkFlags (ms, e)) defaultInfo in
    match e with
    | Some e => r <- rec e env l ;; let '(v, ie, ok) := r in ret (v, join ie i, ok)
    | None => done VNil i
    end.
(** prefer.go:11-16 *)
Definition evalPrefer (e : expr) (env : binding) (l : bool) : M R :=
  r <- rec e env l ;; let '(v, i, ok) := r in ret (v, setPreferred i, ok).

(** lambda.go:11-17 staticScope; a found "_" without resolver crashes *)
Definition staticScope (env : binding) : M binding :=
  match findReference ctrl context [SELF] env with
  | FPanic => panic
  | FNo => ret env
  | FOk n => match resolver n with Some b => ret b | None => panic end
  end.
(** lambda.go:53-73: the defaults of the parameters *)
Fixpoint evalDefaults (ps : list (string * option expr)) (env : binding) (l : bool)
  : M (info + list (string * option expr)) :=
  match ps with
  | [] => ret (inr [])
  | (p, None) :: r => x <- evalDefaults r env l ;;
                      ret (match x with inl i => inl i | inr q => inr ((p, None) :: q) end)
  | (p, Some d) :: r =>
      y <- rec d env l ;;
      let '(v, i, ok) := y in
      if negb ok then ret (inl (setError "evaluation of lambda call default argument failed" i))
      else x <- evalDefaults r env l ;;
           ret (match x with inl i => inl i | inr q => inr ((p, Some (EValue v)) :: q) end)
  end.
(** lambda.go:50-80; an unresolved default is kept as value (the test for an
    expression looks at the wrong variable) *)
Definition evalLambda (ps : list (string * option expr)) (va : bool) (body : expr) (env : binding) (l : bool) : M R :=
  x <- evalDefaults ps env l ;;
  match x with
  | inl i => failI i
  | inr ps' => sc <- staticScope env ;; done (VLambda ps' va body (b_static env) sc) defaultInfo
  end.
(** lambda.go:101-139 *)
Definition evalLambdaRef (x : expr) (path stub : list string) (env : binding) (l : bool) : M R :=
  p <- resolvePush x None env false ;;
  match p with
  | PFail i => failI i
  | PExpr x' i => ret (VExpr (ELambdaRef x' path stub), i, false)
  | PVal v i =>
      match v with
      | VLambda _ _ _ _ _ => done v i
      | VStr s =>
          match parse s path stub with
          | Some (ELambda ps va body) =>
              r <- rec (ELambda ps va body) env l ;;
              let '(w, i', ok) := r in
              if negb ok || isExpr w then ret (w, i', ok) else done w i
          | Some _ => fail "no lambda expression" i
          | None => fail "cannot parse lamba expression" i
          end
      | _ => fail "lambda reference must resolve to lambda value or string" i
      end
  end.
(** lambda.go:234-375 LambdaValue.Evaluate: the first result is the resolved flag *)
Definition lambdaEval (lm : lam) (inline curry auto : bool) (nargs : smap node) (args : list value)
    (env : binding) (l : bool) : M (bool * R) :=
  match lambdaPrepare lm curry auto nargs args (b_source env) with
  | LPanic => panic
  | LErr i => ret (false, (VNil, i, false))
  | LCurry c => ret (true, (lamVal c, defaultInfo, true))
  | LBody inp =>
      let inp := if inline then inp
                 else mset SELF (resolverNode (dnode (lamVal lm) (b_source env)) (l_res lm)) inp in
      r <- rec (l_body lm) (withLocalScope inp env) l ;;
      let '(v, i, ok) := r in
      ret (if negb ok then (false, (VNil, setError "evaluation of lambda expression failed" i, ok))
           else match v with
                | VExpr _ => (false, (VNil, i, ok))
                | _ => (true, (v, i, ok))
                end)
  end.

(** mapping.go:285-318 mapList and 320-351 mapMap: the arguments of the lambda *)
Definition setLast (l : list value) (v : value) : list value := removelast l ++ [v].
Definition mapArgs (n : nat) (key v : value) : option (list value) :=
  match n with
  | O => None
  | S k => Some (setLast (key :: repeat VNil k) v)
  end.
(** None: the result is unresolved (value nil) *)
Fixpoint mapEach (c : mapctx) (lm : lam) (inline : bool) (l : list (value * option string * node)) (env : binding) (acc : value)
  : M (option value * info * bool) :=
  match l with
  | [] => ret (Some acc, defaultInfo, true)
  | (kv, key, n) :: r =>
      match mapArgs (length (l_ps lm)) kv (val n) with
      | None => panic
      | Some args =>
          x <- lambdaEval lm inline false false [] args env false ;;
          let '(res, (v, i, ok)) := x in
          if negb ok then ret (None, i, false)
          else if negb res then ret (None, i, true)
          else match v with
          | VExpr _ => ret (None, i, true)
          | _ => match aggAdd c key v n i acc with
                 | Some acc => mapEach c lm inline r env acc
                 | None => ret (None, setError "list element must be string" i, false)
                 end
          end
      end
  end.
Fixpoint indexed (i : Z) (l : list node) : list (value * option string * node) :=
  match l with [] => [] | n :: r => (VGoInt i, None, n) :: indexed (i + 1) r end.
Definition entries (v : value) : list (value * option string * node) :=
  match v with
  | VList l => indexed 0 l
  | VMap m => map (fun kv => (VStr (fst kv), Some (fst kv), snd kv)) m
  | _ => []
  end.
Definition isList (v : value) : bool := match v with VList _ => true | _ => false end.
(** mapping.go:17-55 *)
Definition evalMapping (c : mapctx) (a lx : expr) (env : binding) : M R :=
  p <- resolvePush a None env true ;;
  match p with
  | PFail i => failI i
  | PVal _ i | PExpr _ i =>
      let a' := match p with PExpr a' _ => a' | _ => a end in
      q <- resolvePush lx None env false ;;
      match q with
      | PFail _ => failI i
      | PExpr lx' ie => keep (EMapping c a' lx') (join i ie)
      | PVal lv ie =>
          match p with
          | PVal v _ =>
              match lamOf lv with
              | None => fail "mapping requires a lambda value" ie
              | Some lm =>
                  if negb (supports c v) then fail "value not supported" i
                  else if isList v && (2 <? length (l_ps lm))%nat
                  then failI (setError "mapping expression takes a maximum of 2 arguments" defaultInfo)
                  else
                    x <- mapEach c lm (isInline lx) (entries v) env (emptyResult c v) ;;
                    let '(r, i, ok) := x in
                    if negb ok then failI i
                    else match r with Some v => done v i | None => keep (EMapping c a lx) i end
              end
          | _ => keep (EMapping c a' lx) (join i ie)
          end
      end
  end.
(** sum.go:76-144 sumList, sumMap: the arguments of the lambda *)
Definition sumArgs (n : nat) (acc key v : value) : option (list value) :=
  match n with
  | O | 1%nat => None
  | S (S k) => Some (setLast (acc :: key :: repeat VNil k) v)
  end.
Fixpoint sumEach (lm : lam) (inline : bool) (l : list (value * option string * node)) (env : binding) (acc : value)
  : M (bool * R) :=
  match l with
  | [] => ret (true, (acc, defaultInfo, true))
  | (kv, _, n) :: r =>
      match sumArgs (length (l_ps lm)) acc kv (val n) with
      | None => panic
      | Some args =>
          x <- lambdaEval lm inline false false [] args env false ;;
          let '(res, (v, i, ok)) := x in
          if negb ok then ret (true, (VNil, i, false))
          else if negb res || isExpr v then ret (false, (VNil, i, true))
          else sumEach lm inline r env v
      end
  end.
(** sum.go:16-65 *)
Definition evalSum (a ini lx : expr) (env : binding) : M R :=
  p <- resolvePush a None env true ;;
  match p with
  | PFail i => failI i
  | PVal _ i | PExpr _ i =>
      let a' := match p with PExpr a' _ => a' | _ => a end in
      q <- resolvePush ini (Some i) env false ;;
      match q with
      | PFail i => failI i
      | PVal _ i | PExpr _ i =>
          let ini' := match q with PExpr x _ => x | _ => ini end in
          t <- resolvePush lx None env false ;;
          match t with
          | PFail ie => failI ie
          | PExpr lx' ie => keep (ESum a' ini' lx') (join i ie)
          | PVal lv ie =>
              match p, q with
              | PVal v _, PVal v0 _ =>
                  match lamOf lv with
                  | None => fail "sum requires a lambda value" ie
                  | Some lm =>
                      let np := length (l_ps lm) in
                      match v with
                      | VList _ | VMap _ =>
                          if isList v && ((3 <? np)%nat || (np <? 2)%nat)
                          then failI (setError "mapping expression take 2 or 3 arguments" defaultInfo)
                          else
                            x <- sumEach lm (isInline lx) (entries v) env v0 ;;
                            let '(res, (r, i, ok)) := x in
                            if negb ok then failI i
                            else if res then done r i else keep (ESum a ini lx) i
                      | _ => fail "map or list required for sum" i
                      end
                  end
              | _, _ => keep (ESum a' ini' lx) (join i ie)
              end
          end
      end
  end.
(** catch.go:23-121; the lambda is [EDefault] if there is none *)
Definition evalCatch (a lx : expr) (env : binding) : M R :=
  let so := b_source env in
  match lx with
  | EDefault =>
      p <- resolvePush a None env false ;;
      match p with
      | PExpr a' i => keep (ECatch a' lx) i
      | PFail i => done (VMap (mof [("valid", dnode (VBool false) so); ("error", dnode (VStr (i_text (f_issue i))) so)])) defaultInfo
      | PVal v _ => done (VMap (mof [("valid", dnode (VBool true) so); ("error", dnode (VStr "") so); ("value", dnode v so)])) defaultInfo
      end
  | _ =>
      q <- resolvePush lx None env false ;;
      match q with
      | PFail i => failI i
      | PExpr lx' i => keep (ECatch a lx') (join i i)
      | PVal lv i =>
          match lamOf lv with
          | None => fail "catch requires a lambda value" i
          | Some lm =>
              let np := length (l_ps lm) in
              if (2 <? np)%nat then fail "catch function takes a maximum of 2 arguments" i
              else
                p <- resolvePush a None env false ;;
                match p with
                | PExpr a' ie => keep (ECatch a' lx) ie
                | PFail _ | PVal _ _ =>
                    let v := match p with PVal v _ => v | _ => VNil end in
                    let err := match p with PFail ie => VStr (i_text (f_issue ie)) | _ => VNil end in
                    match np with
                    | O => panic
                    | _ =>
                        x <- lambdaEval lm (isInline lx) false false [] (firstn np [v; err]) env false ;;
                        let '(res, (w, i, ok)) := x in
                        if negb ok then failI i
                        else if negb res || isExpr w then keep (ECatch a lx) i
                        else done w i
                    end
                end
          end
      end
  end.

(** defined.go:24-46 defined *)
Fixpoint definedLoop (self : expr) (l : list expr) (env : binding) (resolved : bool) : M R :=
  match l with
  | [] => if resolved then done (VBool true) defaultInfo else keep self defaultInfo
  | a :: r =>
      p <- resolvePush a None env true ;;
      match p with
      | PExpr _ _ => definedLoop self r env false
      | PFail _ => if resolved then done (VBool false) defaultInfo else definedLoop self r env resolved
      | PVal _ i => if resolved && f_undefined i then done (VBool false) defaultInfo else definedLoop self r env resolved
      end
  end.
(** defined.go:3-22 valid *)
Fixpoint validLoop (self : expr) (l : list expr) (env : binding) (resolved valid : bool) : M R :=
  match l with
  | [] => if resolved then done (VBool valid) defaultInfo else keep self defaultInfo
  | a :: r =>
      p <- resolvePush a None env true ;;
      match p with
      | PExpr _ _ => validLoop self r env false false
      | PFail _ => if resolved then done (VBool false) defaultInfo else validLoop self r env resolved false
      | PVal v _ => validLoop self r env resolved (valid && match v with VNil => false | _ => true end)
      end
  end.
(** defined.go:48-66 optional *)
Definition evalOptional (f : expr) (args : list expr) (env : binding) : M R :=
  match args with
  | [c; t] =>
      p <- resolvePush c (Some defaultInfo) env false ;;
      match p with
      | PExpr c' i => keep (ECall f [c'; t] false) i
      | PFail _ => done VNil (setUndef true defaultInfo)
      | PVal v i =>
          if f_undefined i || negb (toBool v) then done VNil (setUndef true defaultInfo)
          else r <- rec t env false ;; let '(w, iv, ok) := r in ret (w, join iv i, ok)
      end
  | _ => fail "condition and template required for optional()" defaultInfo
  end.
(** require.go:3-22 *)
Definition evalRequire (self : expr) (args : list expr) (env : binding) : M R :=
  match args with
  | [a] =>
      p <- resolvePush a None env true ;;
      match p with
      | PExpr _ _ => keep self defaultInfo
      | PFail _ | PVal VNil _ => fail "required expression undefined" defaultInfo
      | PVal v _ => done v defaultInfo
      end
  | _ => fail "one argument expected for 'require'" defaultInfo
  end.
(** stub.go:9-60 *)
Fixpoint stringsOf (l : list node) : option (list string) :=
  match l with
  | [] => Some []
  | n :: r => match val n, stringsOf r with VStr s, Some q => Some (s :: q) | _, _ => None end
  end.
Definition stubAt (path : list string) (env : binding) : M R :=
  match findInStubs ctrl env path with
  | FOk n => done (val n) defaultInfo
  | FNo => fail "not found in any stub" defaultInfo
  | FPanic => panic
  end.
Definition evalStub (self : expr) (args : list expr) (env : binding) : M R :=
  match args with
  | [] => stubAt (b_path env) env
  | [ERef _ path] => stubAt path env
  | [a] =>
      p <- resolvePush a None env true ;;
      match p with
      | PExpr _ i => keep self i
      | PFail i => failI i
      | PVal (VStr s) _ => stubAt (pathComponents s true) env
      | PVal (VList l) i => match stringsOf l with
                            | Some path => stubAt path env
                            | None => fail "stub() requires a string entries in list" i
                            end
      | PVal _ i => if f_undefined i then stubAt (b_path env) env
                    else fail "stub() requires a string or reference argument" i
      end
  | _ => fail "a maximum of one argument expected for 'stub'" defaultInfo
  end.
(** catch.go:136-142 *)
Definition evalCatchCall (args : list expr) : M R :=
  match args with
  | [a] => keep (ECatch a EDefault) defaultInfo
  | _ => fail "catch requires a single argument" defaultInfo
  end.
(** sync.go:177-189 *)
Definition evalSyncCall (args : list expr) : M R :=
  match args with
  | [a; c] => keep (ESync a c EDefault EDefault) defaultInfo
  | [a; c; v] => keep (ESync a c v EDefault) defaultInfo
  | [a; c; v; t] => keep (ESync a c v t) defaultInfo
  | _ => fail "2 or 3 arguments required for sync" defaultInfo
  end.
(** eval.go:3-20 *)
Definition evalEval (args : list value) (env : binding) (l : bool) : M R :=
  match args with
  | [VStr s] => match parse s (b_path env) (b_stubPath env) with
                | Some e => rec e env l
                | None => fail "cannot parse" defaultInfo
                end
  | [_] => fail "string argument required for 'eval'" defaultInfo
  | _ => fail "one argument required for 'eval'" defaultInfo
  end.
(** type.go:7-20; no argument crashes *)
Definition evalType (args : list value) : M R :=
  match args with
  | [] => panic
  | v :: _ => if String.eqb (typeName v) "" then fail "unknown type" defaultInfo
              else done (VStr (typeName v)) defaultInfo
  end.

(** call.go:124-136: the named arguments come first *)
Fixpoint splitNamed (args : list expr) (vals : list value) (source : string) (named : smap node) : smap node * list value :=
  match args, vals with
  | ENameArg n _ :: r, v :: vs => splitNamed r vs source (mset n (dnode v source) named)
  | _, _ => (named, vals)
  end.
(** call.go:66-68 *)
Definition funcName (f : expr) : string :=
  match f with
  | ERef "" [p] => if String.eqb p "_" then "" else p
  | _ => ""
  end.
Definition intrinsics : list string := ["defined"; "optional"; "require"; "valid"; "stub"; "catch"; "sync"]%string.
(** call.go:88-111 *)
Definition evalIntrinsic (name : string) (self f : expr) (args : list expr) (env : binding) : M R :=
  if String.eqb name "defined" then definedLoop self args env true
  else if String.eqb name "optional" then evalOptional f args env
  else if String.eqb name "require" then evalRequire self args env
  else if String.eqb name "valid" then validLoop self args env true true
  else if String.eqb name "stub" then evalStub self args env
  else if String.eqb name "catch" then evalCatchCall args
  else evalSyncCall args.
(** call.go:347-350 *)
Definition callResult (self : expr) (i : info) (resolved : bool) (r : R) : M R :=
  let '(v, sub, ok) := r in
  if ok && (negb resolved || isExpr v) then keep self (join sub i) else ret (v, join sub i, ok).
(** call.go:141-156: currying of a function *)
Definition curryBuiltin (name : string) (vals : list value) (env : binding) : value :=
  VLambda [("__args"%string, None)] true
          (ECall (ERef "" [name]) (map EValue vals ++ [EExpand (ERef "" ["__args"%string])]) false) [] env.
(** call.go:113-350 for the function or lambda value [lv]; [self'] is the call with
    pushed evaluations *)
Definition callArgs (f : expr) (args : list expr) (curry : bool) (name : string) (lv : option lam) (env : binding) (l : bool) : M R :=
  x <- resolveList args env false ;;
  match x with
  | inl i => failI i
  | inr (vals, args', res, i) =>
      let self := ECall f args' curry in
      match (if res then Some tt else None), (if String.eqb name "" then match lv with None => None | Some _ => Some tt end else Some tt) with
      | Some _, Some _ =>
          let '(named, vals) := splitNamed args' vals (b_source env) [] in
          if negb (String.eqb name "") then
            match named with
            | _ :: _ => fail "no named arguments for builtin function" i
            | [] =>
                if curry then done (curryBuiltin name vals env) defaultInfo
                else if String.eqb name "eval" then
                  r <- evalEval vals env l ;; callResult self i true r
                else if String.eqb name "type" then
                  if f_undefined i then done (VStr "undef") (setUndef false i)
                  else r <- evalType vals ;; callResult self i true r
                else
                  o <- builtin name args' vals env l ;;
                  match o with
                  | Some (res, r) => callResult self i res r
                  | None => fail "unknown function" i
                  end
            end
          else
            match lv with
            | Some lm =>
                x <- lambdaEval lm false curry true named vals env false ;;
                callResult self i (fst x) (snd x)
            | None => panic
            end
      | _, _ => keep self i
      end
  end.
(** call.go:60-351 *)
Definition evalCall (f : expr) (args : list expr) (curry : bool) (env : binding) (l : bool) : M R :=
  let name := funcName f in
  if String.eqb name "" then
    p <- resolvePush f (Some defaultInfo) env false ;;
    match p with
    | PFail i => failI i
    | PExpr f' _ => callArgs f' args curry name None env l
    | PVal v i => match lamOf v with
                  | None => fail "function call requires function name or lambda value" i
                  | Some lm => callArgs f args curry name (Some lm) env l
                  end
    end
  else if existsb (String.eqb name) intrinsics then
    if curry then fail "no currying for intrinsic builtin function" defaultInfo
    else evalIntrinsic name (ECall f args curry) f args env
  else callArgs f args curry name None env l.

(** one step of the evaluation *)
Definition eval1 (e : expr) (env : binding) (l : bool) : M R :=
  match e with
  | EBool b => done (VBool b) defaultInfo                        (* boolean.go:11-13 *)
  | EInt z => done (VInt z) defaultInfo                          (* integer.go:11-13 *)
  | EFloat f => done (VFloat f) defaultInfo                      (* float.go:11-13 *)
  | EStr s => done (VStr s) defaultInfo                          (* string.go:11-13 *)
  | ENil => done VNil defaultInfo                                (* nil.go:5-7 *)
  | EUndef => done VNil (setUndef true defaultInfo)              (* undefined.go:5-9 *)
  | EDefault => fail "OOPS: default value not handled" defaultInfo (* default.go:6-9 *)
  | ERef tag path => evalRef tag path env l
  | EMerge path redirect replace required none key => evalMerge path redirect replace required none key env
  | EAuto path => evalAuto path env
  | EOr a b => evalOr a b env
  | EValidOr a b => evalValidOr a b env
  | ELogOr a b => evalLog false e a b env
  | ELogAnd a b => evalLog true e a b env
  | ENot a => evalNot a env
  | ECond c t f => evalCond c t f env
  | ECmp a op b => operands (fun a b => ECmp a op b) a b env (compare op)
  | EAdd a b => operands EAdd a b env (arith (op_add N))
  | ESub a b => operands ESub a b env (arith (op_sub N))
  | EMul a b => operands EMul a b env (arith (op_mul N))
  | EDiv a b => operands EDiv a b env (arith (op_div N))
  | EMod a b => evalMod a b env
  | EConcat a b => operands EConcat a b env concat
  | ERange a b => evalRange a b env
  | ESlice x a b => evalSlice x a b env l
  | EProj x id q => evalProj x id q env l
  | EProjVal id => fun s => done (projGet id s) defaultInfo s    (* projection.go:89-92 *)
  | EList es => evalList es env
  | EMap m => evalMap m env l
  | EScope m x => evalScope m x env l
  | ECall f args curry => evalCall f args curry env l
  | ENameArg _ x => rec x env l                                  (* call.go:45-48 (embedded) *)
  | EExpand x => rec x env l                                     (* listexpansion.go:18-20 *)
  | ELambda ps va body => evalLambda ps va body env l
  | ELambdaRef x path stub => evalLambdaRef x path stub env l
  | EMapping c a lx => evalMapping c a lx env
  | ESum a i lx => evalSum a i lx env
  | ECatch a lx => evalCatch a lx env
  | ESync _ _ _ _ => syncEval e env l
  | EQual x path => evalQual x path env l
  | EDyn r i => evalDyn r i env l
  | ESubst t => evalSubst t env
  | EMarker ms x => evalMarker ms x env l
  | EMarkExpr _ x => rec x env l                                 (* marker.go:159-161 *)
  | EPrefer x => evalPrefer x env l
  | EGroup x => rec x env l                                      (* grouped.go:19-21 *)
  | EValue v => done v defaultInfo                               (* value.go:17-19 *)
  end.
End Eval.
