(** The validation functions validate and check (dynaml/validate.go, dynaml/dns.go).
    Texts of messages are left out.  No proofs in this file. *)
From Verif Require Import Core Str Find Unresolved Env Arith IP Comparison Flow Info Eval.
From Coq Require Import SpecFloat.
Import ListNotations.

(** validate.go:68-71: the result of a condition; an error of the condition, or not
    resolved yet *)
Inductive vres := VErr | VUnres | VRes (b : bool).

(** dns.go:44, 58: the expression [a-z0-9]([-a-z0-9]*[a-z0-9])? *)
Definition alnum (c : ascii) : bool :=
  ((97 <=? bytev c) && (bytev c <=? 122)) || ((48 <=? bytev c) && (bytev c <=? 57)).
Definition matchLabel (s : string) : bool :=
  match chars s with
  | [] => false
  | c :: r => alnum c && alnum (last r c) && forallb (fun d => alnum d || Ascii.eqb d "-") r
  end.
(** dns.go:60-69 IsDNS1123Label without errors *)
Definition isDNSLabel (s : string) : bool := (String.length s <=? 63)%nat && matchLabel s.
(** dns.go:71, 77: labels separated by dots *)
Definition matchSubdomain (s : string) : bool := forallb matchLabel (split s ".").
(** dns.go:79-88 *)
Definition isDNSSubdomain (s : string) : bool := (String.length s <=? 253)%nat && matchSubdomain s.
(** dns.go:118-130 *)
Definition isWildcardDNS (s : string) : bool :=
  (String.length s <=? 253)%nat && (hasPrefix s "*." && matchSubdomain (sdrop 2 s)).

(** validate.go:345-540: the comparison of a value with the argument of gt, lt, ge and le;
    None: error.  Floats compare with SFcompare, which has no result for NaN *)
Inductive vcmp := CGt | CLt | CGe | CLe.
Definition cmpHolds (op : vcmp) (c : option comparison) : bool :=
  match op, c with
  | CGt, Some Gt => true
  | CLt, Some Lt => true
  | CGe, Some Gt | CGe, Some Eq => true
  | CLe, Some Lt | CLe, Some Eq => true
  | _, _ => false
  end.
Definition cmpValues (op : vcmp) (value arg : value) : option bool :=
  match arg with
  | VStr t => match value with VStr s => Some (cmpHolds op (Some (String.compare s t))) | _ => None end
  | VInt z => match value with
              | VInt x => Some (cmpHolds op (Some (x ?= z)))
              | VFloat x => Some (cmpHolds op (SFcompare x (f_of_int z)))
              | _ => None
              end
  | VFloat y => match value with
                | VInt x => Some (cmpHolds op (SFcompare (f_of_int x) y))
                | VFloat x => Some (cmpHolds op (SFcompare x y))
                | _ => None
                end
  | _ => None
  end.

Section Validate.
Variable ST : Type.
Notation M := (M ST).
Notation bind := (bind ST).
Notation ret := (ret ST).
Notation "x <- m ;; k" := (bind m (fun x => k)) (at level 61, m at next level, right associativity).
(** LambdaValue.String, net.ParseIP and net.ParseCIDR *)
Variable lambdaText : value -> string.
Variable N : netx.
(** regexp.Compile with MatchString; None: no regular expression *)
Variable regex : string -> option (string -> bool).
(** the registered validators (validate.go:14-18): semver, publickey, ... *)
Variable registered : string -> option (value -> list value -> M vres).
(** Expression.Evaluate *)
Variable rec : expr -> binding -> bool -> M R.
Variable env : binding.

Definition sub := (node * (value -> M vres))%type.
Definition res (b : bool) : M vres := ret (VRes b).
Definition verr : M vres := ret VErr.
Definition isText (v : value) : bool := match v with VStr _ => true | _ => false end.

(** validate.go:96-138: a lambda as condition.  Its result may be a list of the
    result, and messages for success and failure *)
Definition lambdaResult (r : value) : vres :=
  match r with
  | VList [x] => VRes (toBool (val x))
  | VList [x; t] => if isText (val t) then VRes (toBool (val x)) else VErr
  | VList [x; t; f] => if isText (val t) && isText (val f) then VRes (toBool (val x)) else VErr
  | VList _ => VErr
  | _ => VRes (toBool r)
  end.
Definition lambdaCond (lm : lam) (value : value) (args : list sub) : M vres :=
  if negb (Nat.eqb (length (l_ps lm)) (S (length args))) then verr
  else
    x <- lambdaEval ST rec lm false false false [] (value :: map (fun a => val (fst a)) args) env false ;;
    let '(valid, (r, _, ok)) := x in
    ret (if (valid : bool) then lambdaResult r else if (ok : bool) then VUnres else VErr).

(** validate.go:276-294: all conditions hold for the value *)
Fixpoint allSubs (args : list sub) (value : value) : M vres :=
  match args with
  | [] => res true
  | (_, c) :: r => x <- c value ;;
                   match x with
                   | VRes true => allSubs r value
                   | _ => ret x
                   end
  end.
(** validate.go:298-314: one of the conditions holds *)
Fixpoint anySub (args : list sub) (value : value) : M vres :=
  match args with
  | [] => res false
  | (_, c) :: r => x <- c value ;;
                   match x with
                   | VRes false => anySub r value
                   | _ => ret x
                   end
  end.
(** validate.go:182-195 *)
Fixpoint allEntries (l : list node) (args : list sub) : M vres :=
  match l with
  | [] => res true
  | e :: r => x <- allSubs args (val e) ;;
              match x with
              | VRes true => allEntries r args
              | _ => ret x
              end
  end.
(** validate.go:216-240; the order in which the Go map is traversed is not determined,
    [m] is the list of its entries in this order *)
Fixpoint allFields (m : list (string * node)) (ck : option sub) (ce : sub) : M vres :=
  match m with
  | [] => res true
  | (k, e) :: r =>
      x <- match ck with Some (_, c) => c (VStr k) | None => res true end ;;
      match x with
      | VRes true => y <- snd ce (val e) ;;
                     match y with
                     | VRes true => allFields r ck ce
                     | _ => ret y
                     end
      | _ => ret x
      end
  end.
(** the traversal of maps *)
Variable traverse : smap node -> list (string * node).

Definition cmpOp (op : string) : option vcmp :=
  if String.eqb op "gt" || String.eqb op ">" then Some CGt
  else if String.eqb op "lt" || String.eqb op "<" then Some CLt
  else if String.eqb op "ge" || String.eqb op ">=" then Some CGe
  else if String.eqb op "le" || String.eqb op "<=" then Some CLe
  else None.
(** validate.go:170-639 handleStringType *)
Definition fieldOp (optional : bool) (value : value) (args : list sub) : M vres :=
  match value with
  | VMap m =>
      match args with
      | (f, _) :: r =>
          match val f with
          | VStr field =>
              if (1 <? length r)%nat then verr
              else match mget field m with
                   | None => res optional
                   | Some n => match r with
                               | (_, c) :: _ => c (val n)
                               | [] => res true
                               end
                   end
          | _ => verr
          end
      | [] => verr
      end
  | _ => res false
  end.
(** validate.go:554-576; false without arguments *)
Fixpoint typeOp (value : value) (args : list sub) : M vres :=
  match args with
  | [] => res false
  | (t, _) :: r => match val t with
                   | VStr s => if String.eqb s (typeName value) then res true else typeOp value r
                   | _ => verr
                   end
  end.
Definition textOp (value : value) (p : string -> bool) : M vres :=
  match value with VStr s => res (p s) | _ => verr end.
Definition strOp (value : value) (op : string) (args : list sub) : M vres :=
  if String.eqb op "list" then
    match value with
    | VList l => match args with [] => res true | _ => allEntries l args end
    | _ => res false
    end
  else if String.eqb op "map" then
    match value with
    | VMap m => match args with
                | [] => res true
                | [ce] => allFields (traverse m) None ce
                | [ck; ce] => allFields (traverse m) (Some ck) ce
                | _ => verr
                end
    | _ => res false
    end
  else if String.eqb op "optionalfield" then fieldOp true value args
  else if String.eqb op "mapfield" then fieldOp false value args
  else if String.eqb op "and" || String.eqb op "not" || String.eqb op "" then
    match args with [] => verr | _ => allSubs args value end
  else if String.eqb op "or" then
    match args with
    | [] => verr
    | [(_, c)] => x <- c value ;; ret (match x with VRes _ => VRes true | _ => x end)
    | _ => anySub args value
    end
  else if String.eqb op "empty" then
    match value with
    | VStr s => res (String.eqb s "")
    | VList l => res (match l with [] => true | _ => false end)
    | VMap m => res (match m with [] => true | _ => false end)
    | _ => verr
    end
  else if String.eqb op "valueset" then
    match args with
    | [(a, _)] => match val a with
                  | VList l => res (existsb (fun v => fst (compareEquals lambdaText value (val v))) l)
                  | _ => verr
                  end
    | _ => verr
    end
  else if String.eqb op "value" || String.eqb op "=" then
    match args with
    | [(a, _)] => res (fst (compareEquals lambdaText (val a) value))
    | _ => verr
    end
  else match cmpOp op with
  | Some c => match args with
              | [(a, _)] => match cmpValues c value (val a) with Some b => res b | None => verr end
              | _ => verr
              end
  | None =>
  if String.eqb op "match" || String.eqb op "~=" then
    match args with
    | [(a, _)] => match val a with
                  | VStr p => match regex p with
                              | Some f => textOp value f
                              | None => verr
                              end
                  | _ => verr
                  end
    | _ => verr
    end
  else if String.eqb op "type" then typeOp value args
  else if String.eqb op "dnsname" then textOp value (fun s => isWildcardDNS s || isDNSSubdomain s)
  else if String.eqb op "dnslabel" then textOp value isDNSLabel
  else if String.eqb op "dnsdomain" then textOp value isDNSSubdomain
  else if String.eqb op "wildcarddnsdomain" then textOp value isWildcardDNS
  else if String.eqb op "ip" then textOp value (fun s => match n_parseIP N s with Some _ => true | None => false end)
  else if String.eqb op "cidr" then textOp value (fun s => match n_parseCIDR N s with Some _ => true | None => false end)
  else match registered op with
       | Some f => f value (map (fun a => val (fst a)) args)
       | None => verr
       end
  end.

(** validate.go:139-163: a leading "!" and the operator "not" invert the result *)
Definition named (value : value) (name : string) (args : list sub) : M vres :=
  let neg := hasPrefix name "!" in
  let op := if neg then sdrop 1 name else name in
  if negb neg && String.eqb op "" then verr
  else
    let neg := if String.eqb op "not" then negb neg else neg in
    x <- strOp value op args ;;
    ret (match x with VRes b => VRes (if neg then negb b else b) | _ => x end).
(** validate.go:93-168 _validate *)
Definition validate1 (value cond : value) (args : list sub) : M vres :=
  match cond with
  | VStr name => named value name args
  | _ => match lamOf cond with
         | Some lm => lambdaCond lm value args
         | None => verr
         end
  end.
(** validate.go:73-91 EvalValidationExpression *)
Fixpoint condition (cond : node) (value : value) {struct cond} : M vres :=
  match cond with
  | mkNode v _ _ _ _ =>
      match v with
      | VNil => res true
      | VStr _ | VLambda _ _ _ _ _ => validate1 value v []
      | VList l => match l with
                   | [] => verr
                   | c :: args => validate1 value (val c) (map (fun a => (a, condition a)) args)
                   end
      | _ => verr
      end
  end.

(** validate.go:20-43, 45-66: the conditions one after the other; the value, for
    which no condition failed *)
Fixpoint conditions (conds : list value) (value : value) : M vres :=
  match conds with
  | [] => res true
  | c :: r => x <- condition (dnode c (b_source env)) value ;;
              match x with
              | VRes true => conditions r value
              | _ => ret x
              end
  end.
(** the first component: resolved (call.go:323-326) *)
Definition func_validate (args : list value) : M (bool * R) :=
  match args with
  | value :: c :: r =>
      x <- conditions (c :: r) value ;;
      ret (match x with
           | VErr | VRes false => (true, (VNil, setError "condition failed" defaultInfo, false))
           | VUnres => (false, (VNil, defaultInfo, true))
           | VRes true => (true, (value, defaultInfo, true))
           end)
  | _ => ret (true, (VNil, setError "at least two arguments required for validate" defaultInfo, false))
  end.
Definition func_check (args : list value) : M (bool * R) :=
  match args with
  | value :: c :: r =>
      x <- conditions (c :: r) value ;;
      ret (match x with
           | VErr => (true, (VNil, setError "condition has problem" defaultInfo, false))
           | VUnres => (false, (VNil, defaultInfo, true))
           | VRes b => (true, (VBool b, defaultInfo, true))
           end)
  | _ => ret (true, (VNil, setError "at least two arguments required for check" defaultInfo, false))
  end.
End Validate.
