(** dynaml/control.go:70-183 (registry, issues) and dynaml/control/*.go: the control
    structures for, if, switch, type and merge.  The evaluation of expressions is a
    parameter.  Texts of issues are abbreviated.  No proofs in this file. *)
From Verif Require Import Core Str Interp Find Cleanup Unresolved DeepEq Equiv Env Flow Eval.

(** for.go:13, if.go:9, merge.go:9, switch.go:9, typeswitch.go:9: the registered
    controls with their options *)
Definition controls : list (string * list string) :=
  [("for", ["do"; "mapkey"]); ("if", ["then"; "else"]); ("merge", []);
   ("switch", ["default"; "cases"]); ("type", ["default"])]%string.
(** the options that are templates (marked with * in the registration) *)
Definition templateOptions : list string := ["do"; "mapkey"]%string.
Fixpoint ctlOptions (n : string) (l : list (string * list string)) : option (list string) :=
  match l with
  | [] => None
  | (c, o) :: r => if String.eqb c n then Some o else ctlOptions n r
  end.
(** control.go:91-146: the registry after the registrations *)
Definition stdReg : registry := mkReg
  (fun n => match ctlOptions n controls with
            | Some _ => Some true
            | None => if existsb (fun c => existsb (String.eqb n) (snd c)) controls then Some false else None
            end)
  (fun n => existsb (String.eqb n) templateOptions)
  (fun c o => match ctlOptions c controls with
              | Some l => existsb (String.eqb o) l
              | None => false
              end).

(** for.go:300-305 checkName: the expression is not anchored *)
Definition nameChar (c : ascii) : bool :=
  let n := nat_of_ascii c in
  ((48 <=? n) && (n <=? 57) || (65 <=? n) && (n <=? 90) || (n =? 95) || (97 <=? n) && (n <=? 122))%nat.
Definition checkName (s : string) : bool := existsb nameChar (chars s).
(** for.go:20-50: name and index name of a control variable, the values with their
    indices *)
Record iteration := mkIter { it_name : string; it_index : string; it_vals : list (value * node) }.
(** for.go:323-342 controlIterator; an empty range yields no iterator *)
Fixpoint listIter (i : Z) (l : list node) : list (value * node) :=
  match l with [] => [] | n :: r => (VInt i, n) :: listIter (i + 1) r end.
Definition controlIterator (n : node) : option (list (value * node)) :=
  match val n with
  | VList l => Some (listIter 0 l)
  | VMap m => Some (map (fun kv => (VStr (fst kv), snd kv)) m)
  | _ => None
  end.
(** for.go:307-321 controlIteration *)
Definition controlIteration (name index : string) (vals : list (value * node)) : option iteration :=
  if checkName name then
    if String.eqb index "" then Some (mkIter name ("index-" +++ name)%string vals)
    else if checkName index then Some (mkIter name index vals) else None
  else None.
Definition mkIteration (name index : string) (values : node) : option iteration :=
  match controlIterator values with
  | Some vals => controlIteration name index vals
  | None => None
  end.
(** for.go:129-152: the control variables given as a map; [None]: issue *)
Fixpoint mapSpec (m : smap node) : option (list iteration) :=
  match m with
  | [] => Some []
  | (k, values) :: r =>
      let it := match split k "," with
                | [x] => mkIteration (trimSpace x) "" values
                | [x; y] => mkIteration (trimSpace y) (trimSpace x) values
                | _ => None
                end in
      match it, mapSpec r with
      | Some it, Some l => Some (it :: l)
      | _, _ => None
      end
  end.
(** for.go:30-44: the order of the control variables: descending *)
Definition iterBefore (a b : iteration) : bool :=
  match String.compare (it_name a) (it_name b) with
  | Gt => true
  | Lt => false
  | Eq => match String.compare (it_index a) (it_index b) with Gt => true | _ => false end
  end.
Fixpoint iterInsert (x : iteration) (l : list iteration) : list iteration :=
  match l with
  | [] => [x]
  | y :: r => if iterBefore y x then y :: iterInsert x r else x :: y :: r
  end.
Definition iterSort (l : list iteration) : list iteration := fold_right iterInsert [] l.
(** for.go:157-202: one control variable of a list *)
Definition listSpec1 (n : node) : option iteration :=
  match val n with
  | VMap spec =>
      match mget "name" spec with
      | None => None
      | Some nm =>
          let name := match val nm with VStr s => s | _ => ""%string end in
          let index := match mget "index" spec with
                       | None => Some ""%string
                       | Some x => match val x with VStr s => Some s | _ => None end
                       end in
          match index, mget "values" spec with
          | Some index, Some values =>
              match controlIterator values with
              | None => None
              | Some vals =>
                  if (length spec <? 2)%nat || (3 <? length spec)%nat then None
                  else if (length spec =? 3)%nat && String.eqb index "" &&
                          negb (forallb (fun kv => existsb (String.eqb (fst kv)) ["name"; "values"; "index"]%string) spec)
                  then None
                  else controlIteration name index vals
              end
          | _, _ => None
          end
      end
  | _ => None
  end.
Fixpoint listSpec (l : list node) : option (list iteration) :=
  match l with
  | [] => Some []
  | n :: r => match listSpec1 n, listSpec r with
              | Some it, Some l => Some (it :: l)
              | _, _ => None
              end
  end.
(** for.go:126-206: the control variables, the first one changes fastest *)
Definition forRanges (n : node) : option (list iteration) :=
  match val n with
  | VMap m => option_map iterSort (mapSpec m)
  | VList l => option_map (@rev iteration) (listSpec l)
  | _ => None
  end.
(** for.go:268-277: the next combination; [None]: all are done *)
Fixpoint advance (rs : list iteration) (cur : list nat) : option (list nat) :=
  match rs, cur with
  | it :: rs, c :: cs =>
      if (S c <? length (it_vals it))%nat then Some (S c :: cs)
      else option_map (cons O) (advance rs cs)
  | _, _ => None
  end.
(** for.go:222-226: the local scope; [None]: crash for an empty range *)
Fixpoint forScope (rs : list iteration) (cur : list nat) (inp : smap node) : option (smap node) :=
  match rs, cur with
  | it :: rs, c :: cs =>
      match nth_error (it_vals it) c with
      | Some (i, n) => forScope rs cs (mset (it_index it) (newNode i "for") (mset (it_name it) n inp))
      | None => None
      end
  | _, _ => Some inp
  end.
(** a bound for the number of combinations *)
Definition forCount (rs : list iteration) : nat := fold_right (fun it n => (length (it_vals it) * n)%nat) 1%nat rs.

Section Control.
Variable ST : Type.
Variable ctrl : bool.
Variable evaluate : expr -> binding -> bool -> ST -> res ST (value * info * bool).
Notation M := (M ST).
Notation ret := (ret ST).
Notation panic := (panic ST).
Notation "x <- m ;; k" := (bind ST m (fun x => k)) (at level 90, m at level 80, right associativity).
Definition C := (node * bool)%type.

(** control.go:148-167 ControlIssue, ControlIssueByIssue *)
Definition controlIssue (c : cctx) (t : string) : C :=
  (issueNodeY (newNode (VStr ("<" +++ cc_name c +++ " control>")%string) (src (cc_node c))) true true (newIssue t), false).
Definition controlFailed (c : cctx) (t : string) : C :=
  (issueNodeY (cc_node c) true true (newIssue t), false).
(** control.go:282-287 ControlValue *)
Definition controlValue (n : node) : C := (n, a_undefined (ann n) || isResolvedNode ctrl n).
(** yaml.UndefinedNode(dynaml.NewNode(nil, ctx)) *)
Definition undefResult (env : binding) : C := (undefinedNode (dnode VNil (b_source env)), true).
(** control.go:289-294 ControlReady; [None]: ready *)
Definition controlReady (c : cctx) (acceptFields : bool) : option C :=
  if negb acceptFields && match cc_fields c with [] => false | _ => true end
  then Some (controlIssue c "no regular fields allowed")
  else if (a_undefined (ann (cc_value c)) || isResolvedNode ctrl (cc_value c)) &&
          isResolvedV ctrl true (VMap (cc_options c)) && isResolvedV ctrl true (VMap (cc_fields c))
  then None else Some (cc_node c, false).

(** if.go:12-37 *)
Definition flowIf (c : cctx) (env : binding) : C :=
  match controlReady c false with
  | Some r => (fst r, false)
  | None =>
      let option (name : string) : C :=
        match mget name (cc_options c) with
        | Some e => controlValue e
        | None => undefResult env
        end in
      match val (cc_value c) with
      | VNil => option "else"
      | VBool true => option "then"
      | VBool false => option "else"
      | _ => controlIssue c "invalid condition value type"
      end
  end.

(** switch.go:83-102 selected *)
Definition selected (c : cctx) (key : value) : C :=
  let result (field : option node) : C :=
    match field with
    | Some n => controlValue n
    | None => match mget "default" (cc_options c) with
              | Some n => controlValue n
              | None => controlIssue c "invalid switch value"
              end
    end in
  match key with
  | VNil => result None
  | VStr s => result (mget s (cc_fields c))
  | _ => controlIssue c "invalid switch value type"
  end.
(** type.go:22-52 ExpressionType of a node *)
Definition nodeType (n : node) : string :=
  if a_undefined (ann n) then "undef" else typeName (val n).
(** typeswitch.go:12-17 *)
Definition flowType (c : cctx) (env : binding) : C :=
  match controlReady c true with
  | Some r => (fst r, false)
  | None => selected c (VStr (nodeType (cc_value c)))
  end.

(** merge.go:12-46 *)
Definition putAll (m acc : smap node) : smap node := fold_left (fun acc kv => mset (fst kv) (snd kv) acc) m acc.
Fixpoint putEach (l : list node) (acc : smap node) : option (smap node) :=
  match l with
  | [] => Some acc
  | n :: r => match val n with
              | VNil => putEach r acc
              | VMap m => putEach r (putAll m acc)
              | _ => None
              end
  end.
Definition flowMergeC (c : cctx) (env : binding) : C :=
  match controlReady c true with
  | Some r => (fst r, false)
  | None =>
      let fields := filter (fun kv => negb (a_undefined (ann (snd kv)))) (cc_fields c) in
      let done (m : smap node) : C := (dnode (VMap m) (b_source env), true) in
      match val (cc_value c) with
      | VNil => done fields
      | VMap m => done (putAll m fields)
      | VList l => match putEach l fields with
                   | Some m => done m
                   | None => controlIssue c "invalid entry type"
                   end
      | _ => controlIssue c "invalid value type"
      end
  end.

(** switch.go:21-59: the fields of a case; the order of Go's map is random, here
    the order of the keys.  Found, rejected and value. *)
Inductive case := CaseOk (found reject : bool) (v : option node) | CaseRet (r : C).
Fixpoint caseFields (c : cctx) (env : binding) (m : smap node) (found reject : bool) (v : option node) : M case :=
  match m with
  | [] => ret (CaseOk found reject v)
  | (k, n) :: r =>
      if String.eqb k "case" then caseFields c env r true (reject || negb (equivN n (cc_value c))) v
      else if String.eqb k "match" then
        match lamOf (val n) with
        | None => caseFields c env r true reject v
        | Some lm =>
            x <- lambdaEval ST evaluate lm false false false [] [val (cc_value c)] env false ;;
            let '(resolved, (w, _, ok)) := x in
            if negb ok then caseFields c env r true true v
            else if negb resolved then ret (CaseRet (cc_node c, false))
            else match w with
            | VBool b => caseFields c env r true (reject || negb b) v
            | _ => ret (CaseRet (controlIssue c "boolean match result required"))
            end
        end
      else if String.eqb k "value" then caseFields c env r found reject (Some n)
      else ret (CaseRet (controlIssue c "invalid field"))
  end.
Fixpoint switchCases (c : cctx) (env : binding) (l : list node) : M C :=
  match l with
  | [] => ret (match mget "default" (cc_options c) with
               | Some n => controlValue n
               | None => controlIssue c "invalid switch value"
               end)
  | n :: r =>
      match val n with
      | VMap m =>
          x <- caseFields c env m false false None ;;
          match x with
          | CaseRet y => ret y
          | CaseOk found reject v =>
              if negb found then ret (controlIssue c "case requires 'case' or 'match' field")
              else if reject then switchCases c env r
              else ret (match v with Some n => controlValue n | None => undefResult env end)
          end
      | _ => ret (controlIssue c "case requires field 'case'")
      end
  end.
(** switch.go:12-81 *)
Definition flowSwitch (c : cctx) (env : binding) : M C :=
  if a_undefined (ann (cc_value c)) then ret (undefResult env)
  else
    let cases := mget "cases" (cc_options c) in
    match controlReady c (match cases with None => true | Some _ => false end) with
    | Some r => ret (fst r, false)
    | None =>
        match cases with
        | Some n => match val n with
                    | VList l => switchCases c env l
                    | _ => ret (controlIssue c "cases must be a list")
                    end
        | None => ret (selected c (val (cc_value c)))
        end
    end.

(** for.go:208-298: the loop *)
Record fstate := mkFS { fs_done : bool; fs_issue : bool; fs_list : list node; fs_map : smap node }.
(** for.go:222-266: one combination *)
Definition forBody (mapkey subst : option value) (body : node) (env scope : binding) (st : fstate) : M fstate :=
  k <- match mapkey with
       | None => ret (false, ""%string, st)
       | Some t =>
           r <- evaluate (ESubst (EValue t)) scope false ;;
           let '(k, i, ok) := r in
           let st := if ok then st else mkFS false true (fs_list st) (fs_map st) in
           ret (if f_undefined i || match k with VNil => true | _ => false end then (true, ""%string, st)
                else match k with
                     | VStr s => (false, s, st)
                     | _ => (false, ""%string, mkFS false true (fs_list st) (fs_map st))
                     end)
       end ;;
  let '(skip, key, st) := k in
  let add (n : node) : fstate :=
    match mapkey with
    | Some _ => mkFS (fs_done st) (fs_issue st) (fs_list st) (mset key n (fs_map st))
    | None => mkFS (fs_done st) (fs_issue st) (fs_list st ++ [n]) (fs_map st)
    end in
  match subst with
  | None => ret (add body)
  | Some t =>
      r <- evaluate (ESubst (EValue t)) scope false ;;
      let '(v, i, ok) := r in
      ret (if negb ok then mkFS false true (fs_list st) (fs_map st)
           else if isExpr v then mkFS false (fs_issue st) (fs_list st) (fs_map st)
           else if skip || f_undefined i then st
           else add (dnode v (b_source env)))
  end.
Fixpoint forLoop (fuel : nat) (mapkey subst : option value) (body : node) (env : binding)
    (rs : list iteration) (cur : list nat) (st : fstate) : M fstate :=
  match fuel with
  | O => fun _ => Fuel
  | S f =>
      match forScope rs cur [] with
      | None => panic
      | Some inp =>
          st <- forBody mapkey subst body env (withLocalScope inp env) st ;;
          match advance rs cur with
          | Some cur => forLoop f mapkey subst body env rs cur st
          | None => ret st
          end
      end
  end.
Definition templateVal (n : node) : option value := if isTemplate (val n) then Some (val n) else None.
(** for.go:108-298 *)
Definition flowFor (c : cctx) (env : binding) : M C :=
  match controlReady c false with
  | Some r => ret r
  | None =>
      match mget "do" (cc_options c) with
      | None => ret (controlIssue c "do field required")
      | Some body =>
          if a_undefined (ann (cc_value c)) then ret (undefResult env)
          else
            match (match mget "mapkey" (cc_options c) with
                   | None => Some None
                   | Some k => option_map Some (templateVal k)
                   end) with
            | None => ret (controlIssue c "mapkey must be an expression")
            | Some mapkey =>
                match forRanges (cc_value c) with
                | None => ret (controlIssue c "invalid control variables")
                | Some rs =>
                    st <- forLoop (S (forCount rs)) mapkey (templateVal body) body env rs (map (fun _ => O) rs)
                            (mkFS true false [] []) ;;
                    ret (if fs_done st
                         then (dnode (match mapkey with Some _ => VMap (fs_map st) | None => VList (fs_list st) end) (b_source env), true)
                         else if fs_issue st then controlFailed c "error evaluating body"
                         else (cc_node c, false))
                end
            end
      end
  end.

(** control.go:70-73 Function: the function registered for the control *)
Definition controlFn (c : cctx) (env : binding) : M C :=
  let n := cc_name c in
  if String.eqb n "for" then flowFor c env
  else if String.eqb n "if" then ret (flowIf c env)
  else if String.eqb n "merge" then ret (flowMergeC c env)
  else if String.eqb n "switch" then flowSwitch c env
  else ret (flowType c env).
End Control.
