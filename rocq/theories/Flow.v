(** flow/flow.go, flow/flow_control.go, dynaml/control.go:146-251 (GetControl),
    environment.go:321-354 (the fixpoint loop), cascade.go: the merge engine.

    The evaluation of expressions, the parser and the control functions are
    parameters, so the theorems hold for every evaluator; Eval.v supplies one.
    A function of the Go code that may run for ever or crash yields
    [Panic] or [Fuel]; the processing state (tags, caches, files) is threaded
    through as [ST].  Texts of issues are abbreviated.  No proofs in this file. *)
From Verif Require Import Core Str Interp Find Cleanup Unresolved DeepEq Env.

Inductive res (ST A : Type) := Ret (a : A) (s : ST) | Panic | Fuel.
Arguments Ret {ST A}. Arguments Panic {ST A}. Arguments Fuel {ST A}.

(** dynaml/expression.go:77-91 EvaluationInfo (without the cleanup list) *)
Record info := mkInfo {
  f_redirect : option (list string); f_replace : bool; f_merged : bool; f_preferred : bool;
  f_keyName : string; f_source : string; f_localError : bool; f_failed : bool; f_undefined : bool;
  f_raw : bool; f_issue : issue; f_flags : flags }.
(** expression.go:139-144 *)
Definition defaultInfo : info := mkInfo None false false false "" "" false false false false noIssue 0%N.
(** expression.go:201-209 SetError *)
Definition setError (t : string) (i : info) : info :=
  mkInfo (f_redirect i) (f_replace i) (f_merged i) (f_preferred i) (f_keyName i) (f_source i)
         true (f_failed i) (f_undefined i) (f_raw i) (newIssue t) (f_flags i).

(** dynaml/marker.go:10-18 *)
Definition TEMPORARY_M : string := "&temporary".
Definition TEMPLATE_M : string := "&template".
Definition LOCAL_M : string := "&local".
Definition INJECT_M : string := "&inject".
Definition DEFAULT_M : string := "&default".
Definition STATE_M : string := "&state".
Definition DYNAMIC_M : string := "&dynamic".
(** a MarkerExpr value *)
Definition marker := (list string * option expr)%type.
(** marker.go:108-115 Has *)
Definition mkHas (t : string) (m : marker) : bool := existsb (String.eqb t) (fst m).
(** marker.go:52-59 GetTag *)
Fixpoint tagOf (l : list string) : string :=
  match l with
  | [] => ""
  | m :: r => if hasPrefix m "&tag:" then sdrop 5 m else tagOf r
  end.
Definition mkTagOf (m : marker) : string := tagOf (fst m).
(** marker.go:61-80 GetFlags *)
Definition markerFlag (m : string) : flags :=
  if String.eqb m TEMPORARY_M then FLAG_TEMPORARY
  else if String.eqb m LOCAL_M then FLAG_LOCAL
  else if String.eqb m INJECT_M then FLAG_INJECT
  else if String.eqb m DEFAULT_M then FLAG_DEFAULT
  else if String.eqb m STATE_M then FLAG_STATE
  else if String.eqb m DYNAMIC_M then FLAG_DYNAMIC
  else 0%N.
Definition mkFlags (m : marker) : flags := fold_left (fun f x => N.lor f (markerFlag x)) (fst m) 0%N.

(** flow.go:870-883 asTemplate; the result of m.Add is discarded by the code *)
Definition asTemplate (e : expr) (enforce : bool) : option marker :=
  match e with
  | EMarker l o => Some (l, o)
  | _ => if enforce then Some ([TEMPLATE_M], Some e) else None
  end.

(** dynaml/*.go IncludesDirectMerge *)
Fixpoint includesMerge (e : expr) : bool :=
  match e with
  | EMerge _ redirect _ _ _ _ => negb redirect
  | EOr a b | EConcat a b => includesMerge a || includesMerge b
  | ECond _ t f => includesMerge t || includesMerge f
  | ECatch a _ => includesMerge a
  | EGroup a => includesMerge a
  | EMarker _ (Some a) => includesMerge a
  | EMarkExpr _ a => includesMerge a
  | _ => false
  end.

Definition NO_LIST_KEY : string := "<<<NO LIST KEY>>".

(** flow.go:278-284 *)
Definition simpleMerge (initial : bool) (n : node) : bool :=
  if initial then false
  else match val n with VExpr (EMerge _ _ _ required _ _) => negb required | _ => false end.

(** flow.go:840-848 updateNode *)
Definition updateNode (n : node) (f : flags) (tag : string) : node :=
  let n := if N.eqb (N.lor f (nflags n)) (nflags n) then n else addFlags n f in
  if String.eqb tag "" || String.eqb tag (a_tag (ann n)) then n else setTag n tag.

(** flow.go:850-859 substituteNode *)
Definition isTemplate (v : value) : bool := match v with VTemplate _ _ _ _ => true | _ => false end.
Definition templateOf (n : node) : option value :=
  if isTemplate (val n) then Some (val n)
  else match tmpl n with Some t => if isTemplate t then Some t else None | None => None end.
Definition substituteNode (n : node) : node :=
  match templateOf n with
  | Some t => if fDynamic (nflags n)
              then addFlags (newDynamicNode (VExpr (ESubst (EValue t))) t "<substitute>") (nflags n)
              else n
  | None => n
  end.
(** flow.go:861-868 substituteValue *)
Definition substituteValue (v : value) (f : flags) : value * option value :=
  if fDynamic f && isTemplate v then (VExpr (ESubst (EValue v)), Some v) else (v, None).

(** dynaml/node.go:32-42 IssueNode with preservePath *)
Definition issueNode (env : binding) (n : node) (err failed : bool) (i : issue) : node :=
  let orig := match i_orig (a_issue (ann n)) with
              | Some p => Some p
              | None => pathPtr (b_path env)
              end in
  issueNodeY n err failed (mkIssue (i_text i) orig).

(** flow.go:769-816 ProcessKeyTag.  If several different key tags occur, the
    iteration order of Go's map may decide; here the order of the keys. *)
Definition keyTag (k : string) : option string :=
  match cutColon k with
  | Some (a, b) => if String.eqb a "key" then Some b else None
  | None => None
  end.
Fixpoint keyTags (m : smap node) (found no : bool) (key : string) : bool * bool * string :=
  match m with
  | [] => (found, no, key)
  | (k, _) :: r =>
      match keyTag k with
      | Some t =>
          if found then keyTags r found no (if String.eqb t key then key else NO_LIST_KEY)
          else if hasPrefix t "!" then keyTags r true true (sdrop 1 t) else keyTags r true no t
      | None => keyTags r found no key
      end
  end.
Definition untagKey (k : string) : string :=
  match keyTag k with
  | Some t => if hasPrefix t "!" then sdrop 1 t else t
  | None => k
  end.
Definition processKeyTag (n : node) : node * string :=
  match val n with
  | VMap m =>
      let '(found, no, key) := keyTags m false false "" in
      if found then (substituteNodeV (VMap (mof (map (fun kv => (untagKey (fst kv), snd kv)) m))) n,
                     if no then NO_LIST_KEY else key)
      else (n, "")
  | _ => (n, "")
  end.

(** yaml/find.go:39-59 FindString / FindStringR *)
Definition findString (raw ctrl : bool) (key : string) (n : node) : option string :=
  match find raw ctrl [key] n with
  | FOk c => match val c with VStr s => Some s | _ => None end
  | _ => None
  end.

(** flow.go:818-838 newEntries; called without features *)
Definition newEntries (a b : list node) (keyName : string) : list node :=
  let key := if String.eqb keyName "" then "name" else keyName in
  let old := keyNameNode (newNode (VList b) "some map") key in
  map mergedNode
    (filter (fun v => match findString true false key v with
                      | Some name => match find true false [name] old with FOk _ => false | _ => true end
                      | None => true
                      end) a).

(** dynaml/control.go: a registry of controls *)
Record registry := mkReg {
  r_lookup : string -> option bool;      (* LookupControl: None unknown, Some true a control, Some false an option *)
  r_template : string -> bool;           (* IsTemplateControlOption *)
  r_option : string -> string -> bool }. (* control, option: the control has the option *)
(** control.go:12-19 ControlContext (the binding is passed separately) *)
Record cctx := mkCtx {
  cc_name : string; cc_value : node; cc_node : node;
  cc_fields : smap node; cc_options : smap node }.
Inductive gctl := CtlNone | CtlErr | CtlOk (c : cctx).

Section Engine.
Variable ST : Type.
Variables interpol ctrl : bool.
Variable reg : registry.
(** dynaml.Parse(text, path, stubPath) *)
Variable parse : string -> list string -> list string -> option expr.
(** json.Marshal of a string, used by the interpolation *)
Variable quote : string -> string.
(** fmt.Sprintf("%s", expression) *)
Variable show : expr -> string.
(** Expression.Evaluate(binding, locally) *)
Variable evaluate : expr -> binding -> bool -> ST -> res ST (value * info * bool).
(** State.SetTag(name, node, path, scope); the flag: stream scope *)
Variable setTagX : string -> node -> list string -> bool -> ST -> bool * ST.
(** the function of a control: node and resolved flag *)
Variable ctlFunction : cctx -> binding -> ST -> res ST (node * bool).

Definition M A := ST -> res ST A.
Definition ret {A} (a : A) : M A := fun s => Ret a s.
Definition bind {A B} (m : M A) (k : A -> M B) : M B :=
  fun s => match m s with Ret a s' => k a s' | Panic => Panic | Fuel => Fuel end.
Definition panic {A} : M A := fun _ => Panic.
Notation "x <- m ;; k" := (bind m (fun x => k)) (at level 90, m at level 80, right associativity).

(** control.go:185-250 GetControl.  The control fields start with "<<"; the
    merge keys and escaped keys are neither controls nor fields. *)
Definition ctlKey (k : string) : option string :=
  if hasPrefix k "<<" then Some (sdrop 2 k) else None.
Definition ctlName (n : string) : bool :=
  negb (String.eqb n "") && negb (String.eqb n "<") && negb (hasPrefix n "!").
Fixpoint scanControl (m : smap node) (control : option (string * node)) (opts fields : smap node)
  : option (option (string * node) * smap node * smap node) :=
  match m with
  | [] => Some (control, opts, fields)
  | (k, v) :: r =>
      match ctlKey k with
      | Some n =>
          if ctlName n then
            match r_lookup reg n with
            | None => None
            | Some true => match control with
                           | Some _ => None
                           | None => scanControl r (Some (n, v)) opts fields
                           end
            | Some false => scanControl r control (mset n v opts) fields
            end
          else scanControl r control opts fields
      | None => scanControl r control opts (mset k v fields)
      end
  end.
Definition getControl (n : node) (undef : smap node) : gctl :=
  match val n with
  | VMap m =>
      if ctrl then
        match scanControl (m ++ undef) None [] [] with
        | None => CtlErr
        | Some (Some (name, v), opts, fields) =>
            if forallb (fun kv => r_option reg name (fst kv)) opts
            then CtlOk (mkCtx name v
                   (replaceValue (VMap (fold_left (fun m kv => mset (fst kv) (snd kv) m) undef m)) n)
                   fields opts)
            else CtlErr
        | Some (None, opts, _) => match opts with [] => CtlNone | _ => CtlErr end
        end
      else CtlNone
  | _ => CtlNone
  end.
(** control.go:177-183 RequireTemplate *)
Definition requireTemplate (k : string) : bool :=
  match ctlKey k with Some n => r_template reg n | None => false end.

(** flow_control.go:10-29 flowControl.  After an error ctx is nil and its use panics. *)
Definition flowControl (n : node) (undef : smap node) (env : binding) : M node :=
  match getControl n undef with
  | CtlErr => panic
  | CtlNone => ret n
  | CtlOk c => r <- ctlFunction c env ;;
      let '(n', resolved) := r in
      ret (if resolved && negb (N.eqb (nflags n) 0) then addFlags n' (nflags n) else n')
  end.

(** flow.go:575-589 FlowString *)
Definition flowString (n : node) (env : binding) : node :=
  match embeddedDynaml quote n interpol with
  | None => n
  | Some sub => match parse sub (b_path env) (b_stubPath env) with
                | Some e => substituteNodeV (VExpr e) n
                | None => n
                end
  end.

(** marker.go:122-144 TemplateExpression *)
Definition templateExpression (m : marker) (orig : node) : option node :=
  match snd m with
  | None => None
  | Some e => Some (addFlags (substituteNodeV (VStr ("(( " +++ show e +++ " ))")%string) orig)
                             (mkFlags (filter (fun x => negb (String.eqb x TEMPLATE_M)) (fst m), None)))
  end.

(** lookups that may panic *)
Definition lookupM (r : fres) : M (option node) :=
  match r with FOk n => ret (Some n) | FNo => ret None | FPanic => panic end.
(** flow.go:27-33 get_inherited_flags *)
Definition inheritedFlags (env : binding) : M (flags * option node) :=
  o <- lookupM (findInStubs ctrl env (b_stubPath env)) ;;
  ret (match o with
       | Some n => (N.land (nflags n) (N.lor FLAG_TEMPORARY FLAG_STATE), Some n)
       | None => (0%N, None)
       end).

(** flow.go:35-58 flow, given _flow *)
Definition tagged (rec : node -> binding -> bool -> bool -> M node)
                  (root : node) (env : binding) (so et : bool) : M node :=
  n <- rec root env so et ;;
  let tag := a_tag (ann n) in
  if isResolvedNode ctrl n && negb (String.eqb tag "") then
    fun s =>
      let '(ok, s') := if hasPrefix tag "*" then setTagX (sdrop 1 tag) n (b_path env) false s
                       else setTagX tag n (b_path env) true s in
      if ok then Ret n s'
      else let n' := match val n with VNil => replaceValue (val root) n | _ => n end in
           Ret (issueNodeY n' true true (newIssue "duplicate tag")) s'
  else ret n.

(** flow.go:242-269: the override of a node by the stubs; the arguments are the
    local variables of _flow at this point *)
Definition override (root : node) (env : binding) (so : bool)
    (flags : flags) (replace : bool) (redirect : option (list string)) (merged : bool) (keyName : string) : M node :=
  if negb merged && standardOverride root && so && negb (b_nomerge env) then
    o <- lookupM (findInStubs ctrl env (b_stubPath env)) ;;
    match o with
    | Some ov =>
        if negb (fDefault (nflags ov)) && negb (fInjected (nflags root)) then
          let n := substituteNode ov in
          let n := if String.eqb keyName "" then n else keyNameNode n keyName in
          let n := if replace then replaceNode (val n) n redirect
                   else match redirect with
                        | Some _ => redirectNode (val n) n redirect
                        | None => n
                        end in
          ret (addFlags n (fOverridden flags))
        else ret root
    | None => ret root
    end
  else ret root.

(** the attributes of the result of an evaluation (flow.go:177-224): result node,
    key name, redirect *)
Definition resultNode (env : binding) (root : node) (eval : value) (template : option value) (i : info)
    (flags : flags) (replace preferred merged : bool) (keyName : string) (redirect : option (list string))
  : node * string * option (list string) :=
  let source := if String.eqb (f_source i) "" then src root else f_source i in
  let n := match template with
           | Some t => newDynamicNode eval t source
           | None => newNode eval source
           end in
  let n := match eval with VStr _ => flowString n env | _ => n end in
  let n := if String.eqb (i_text (f_issue i)) "" then n else issueNode env n false (f_failed i) (f_issue i) in
  let n := if f_undefined i then undefinedNode n else n in
  let n := if preferred || f_preferred i then preferredNode n else n in
  let '(keyName, n) := if String.eqb (f_keyName i) "" then (keyName, n)
                       else (f_keyName i, keyNameNode n (f_keyName i)) in
  let redirect := match f_redirect i with Some r => Some r | None => redirect end in
  let n := match redirect with Some _ => redirectNode (val n) n redirect | None => n end in
  let n := if replace then replaceNode (val n) n redirect
           else if merged || f_merged i then mergedNode n else n in
  (updateNode n flags (a_tag (ann root)), keyName, redirect).

(** flow.go:110-222: a node with an expression; [env0] is the environment of
    _flow, [env] the one with the source of the node *)
Definition flowExpr (root : node) (e : expr) (env0 : binding) (so et : bool) : M node :=
  let env := if String.eqb (src root) (b_source env0) then env0 else withSource (src root) env0 in
  let a := ann root in
  let flags := nflags root in
  let m := asTemplate e et in
  let root := match m with
              | Some m => if negb (String.eqb (mkTagOf m) "") && String.eqb (a_tag a) ""
                          then setTag root (mkTagOf m) else root
              | None => root
              end in
  (* the evaluation: value, info, ok, flags; None: the node is returned as it is *)
  let continue (eval : value) (i : info) (ok : bool) (flags : Core.flags) : M node :=
    let flags := N.lor flags (f_flags i) in
    let dynErr := fDynamic flags && negb (isTemplate eval) && match tmpl root with None => true | Some _ => false end in
    let i := if dynErr then setError "dynamic marker for non-template value node" i else i in
    if dynErr && negb so then ret (issueNode env root true false (f_issue i))
    else
      let ok := ok && negb dynErr in
      let '(eval, template) :=
        match tmpl root with
        | Some t => (eval, Some t)
        | None => if fDynamic flags then substituteValue eval flags else (eval, None)
        end in
      let replace := a_replace a || f_replace i in
      if negb ok then
        let root := issueNode env root true false (f_issue i) in
        if negb so then ret root
        else override root env0 so flags replace (a_redirect a) (a_merged a) (a_keyName a)
      else
        let '(n, keyName, redirect) :=
          resultNode env root eval template i flags replace (a_preferred a) (a_merged a) (a_keyName a) (a_redirect a) in
        if isExpr (val n) || a_merged (ann n) || negb so || a_preferred (ann n) then ret n
        else override n env0 so flags (a_replace (ann n)) redirect (a_merged a) keyName in
  match (match m with Some m => if mkHas TEMPLATE_M m then Some m else None | None => None end) with
  | Some m =>
      match templateExpression m root with
      | None =>
          let i := setError "empty template value" defaultInfo in
          if negb so then ret (issueNode env root true false (f_issue i))
          else continue VNil i false (N.lor flags (mkFlags m))
      | Some tval => continue (VTemplate (b_path env) tval root env) defaultInfo true (N.lor flags (mkFlags m))
      end
  | None =>
      r <- evaluate e env false ;;
      let '(eval, i, ok) := r in continue eval i ok flags
  end.

Section Rec.
(** _flow for the parts of a node *)
Variable rec : node -> binding -> bool -> bool -> M node.

(** flow.go:410-437: the entries of a map, in the order of the keys *)
Fixpoint mapEntries (m : smap node) (mergekey : string) (mergeval : option node) (processed so : bool)
    (env : binding) (flags : flags) (newMap undefined : smap node) : M (smap node * smap node) :=
  match m with
  | [] => ret (newMap, undefined)
  | (k, v) :: r =>
      let store (v : node) : M (smap node * smap node) :=
        if a_undefined (ann v) then mapEntries r mergekey mergeval processed so env flags newMap (mset k v undefined)
        else mapEntries r mergekey mergeval processed so env flags
               (mset k (if fPropagateImplied flags then addFlags v FLAG_IMPLIED else v) newMap) undefined in
      if String.eqb k mergekey then
        match mergeval with
        | None => mapEntries r mergekey mergeval processed so env flags newMap undefined
        | Some v => store v
        end
      else if processed then
        v' <- tagged rec v (withPath k env) so (requireTemplate k) ;; store v'
      else store v
  end.

(** flow.go:444-456: entries of the stub that are to be injected *)
Definition injectMap (stub newMap : smap node) : smap node :=
  fold_left (fun acc kv =>
      if fInject (nflags (snd kv)) && match mget (fst kv) acc with None => true | Some _ => false end
      then mset (fst kv) (addFlags (substituteNode (snd kv)) (N.lor FLAG_INJECT FLAG_INJECTED)) acc else acc)
    stub newMap.

(** the variables after the handling of the merge key (flow.go:308-399) *)
Record mstate := mkMS {
  ms_flags : flags; ms_tag : string; ms_template : bool; ms_processed : bool; ms_merged : bool;
  ms_val : option node; ms_env : binding; ms_redirect : option (list string); ms_replace : bool;
  ms_base : smap node; ms_err : bool; ms_add : bool }.

(** flow.go:318-399 *)
Definition mergeKey (root v : node) (env : binding) (st : mstate) : M (option mstate) :=
  let initial := match val v with VStr _ => true | _ => false end in
  base <- rec v env false false ;;
  if a_undefined (ann base) then ret None
  else match val base with
  | VExpr e =>
      let m := asTemplate e (ms_template st) in
      let st := match m with
                | Some m => mkMS (N.lor (ms_flags st) (mkFlags m))
                                 (if String.eqb (mkTagOf m) "" then ms_tag st else mkTagOf m)
                                 (ms_template st) (ms_processed st) (ms_merged st) (ms_val st) (ms_env st)
                                 (ms_redirect st) (ms_replace st) (ms_base st) (ms_err st) (ms_add st)
                | None => st
                end in
      match (match m with Some m => if mkHas TEMPLATE_M m then Some m else None | None => None end) with
      | Some m =>
          ret (Some (mkMS (ms_flags st) (ms_tag st) true (ms_processed st) (ms_merged st)
                          (templateExpression m root) (ms_env st) (ms_redirect st) (ms_replace st)
                          (ms_base st) (ms_err st) (ms_add st)))
      | None =>
          if simpleMerge initial base
          then ret (Some (mkMS (ms_flags st) (ms_tag st) (ms_template st) (ms_processed st) (ms_merged st)
                               None (ms_env st) (ms_redirect st) (ms_replace st) (ms_base st) (ms_err st) (ms_add st)))
          else ret (Some (mkMS (ms_flags st) (ms_tag st) (ms_template st) false (ms_merged st)
                               (Some base) (ms_env st) (ms_redirect st) (ms_replace st) (ms_base st) (ms_err st) (ms_add st)))
      end
  | bv =>
      let '(redirect, env) := match a_redirect (ann base) with
                              | Some r => (Some r, redirectOverwrite r (ms_env st))
                              | None => (ms_redirect st, ms_env st)
                              end in
      let merged := ms_merged st || a_merged (ann base) in
      let replace := a_replace (ann base) in
      let parseError := match embeddedDynaml quote base interpol with Some _ => true | None => false end in
      let isMap := match bv with VMap _ => true | _ => false end in
      let isNil := match bv with VNil => true | _ => false end in
      let err := negb isMap && negb isNil && negb parseError in
      let dropped := isMap || isNil || negb parseError in
      ret (Some (mkMS (ms_flags st) (ms_tag st) (ms_template st) (ms_processed st) merged
                      (if dropped then None else Some base) env redirect replace
                      (match bv with VMap m => m | _ => [] end) err
                      (negb (dropped && replace))))
  end.

(** flow.go:286-479 flowMap *)
Definition flowMap (root : node) (m : smap node) (env0 : binding) (so template : bool) : M node :=
  inh <- inheritedFlags env0 ;;
  let '(flags, stub) := inh in
  let a := ann root in
  let env := withScope m env0 in
  let st0 := mkMS flags (a_tag a) template true false None env (a_redirect a) (a_replace a) [] false true in
  let mv := match mget "<<" m with
            | Some v => match mget MERGEKEY m with
                        | Some _ => None
                        | None => Some ("<<", Some v)
                        end
            | None => Some (MERGEKEY, mget MERGEKEY m)
            end in
  match mv with
  | None => ret (issueNodeY root true true (newIssue "multiple merge keys not allowed"))
  | Some (mergekey, v) =>
      o <- match v with
           | Some v => mergeKey root v env st0
           | None => ret (Some st0)
           end ;;
      match o with
      | None => ret (undefinedNode root)
      | Some st =>
          let processed := ms_processed st && negb (ms_template st) in
          r <- (if ms_add st
                then mapEntries m mergekey (ms_val st) processed so (ms_env st) (ms_flags st) (ms_base st) []
                else ret (ms_base st, [])) ;;
          let '(newMap, undefined) := r in
          let flags := if ms_merged st then N.lor (ms_flags st) FLAG_INJECTED else ms_flags st in
          let newMap :=
            if ms_merged st then newMap
            else match stub with
                 | Some s => match val s with
                             | VMap sm => if fInjected flags then newMap else injectMap sm newMap
                             | _ => newMap
                             end
                 | None => newMap
                 end in
          let result := if ms_template st
                        then VTemplate (b_path (ms_env st)) (newNode (VMap newMap) (src root)) root env0
                        else VMap newMap in
          let n := if ms_replace st then replaceNode result root (ms_redirect st)
                   else redirectNode result root (ms_redirect st) in
          n <- (if ms_err st then ret (issueNodeY n true true (newIssue "require map value for '<<' insert"))
                else if a_failed a then ret (issueNodeY n true true (a_issue a))
                else flowControl n undefined (ms_env st)) ;;
          ret (updateNode n flags (ms_tag st))
      end
  end.

(** flow.go:591-621 stepName: step, keyed, resolved, unique *)
Definition stepName (i : Z) (v : node) (keyName : string) (env : binding) (unique : bool)
  : M (string * bool * bool * bool) :=
  let key := if String.eqb keyName "" then "name" else keyName in
  let step := ("[" +++ itoa i +++ "]")%string in
  match (if unique then findString false ctrl key v else None) with
  | Some name => ret ((key +++ ":" +++ name)%string, true, true, true)
  | None =>
      match find true ctrl [key] v with
      | FPanic => panic
      | FNo => ret (step, false, true, false)
      | FOk c =>
          match val c with
          | VNil => ret (step, false, true, false)
          | VExpr _ =>
              c' <- tagged rec c (withPath step env) false false ;;
              match val c' with
              | VExpr _ => ret (step, false, false, false)
              | VStr name => if unique then ret ((key +++ ":" +++ name)%string, true, true, true)
                             else ret (step, false, true, false)
              | _ => ret (step, false, true, false)
              end
          | VStr name => if unique then ret ((key +++ ":" +++ name)%string, true, true, true)
                         else ret (step, false, true, false)
          | _ => ret (step, false, true, false)
          end
      end
  end.

(** flow.go:501-513: are all entries keyed by different names *)
Fixpoint uniqueKeys (l : list node) (i : Z) (keyName : string) (env : binding) (keys : list string) : M bool :=
  match l with
  | [] => ret true
  | v :: r =>
      s <- stepName i v keyName env true ;;
      let '(step, _, resolved, unique) := s in
      if negb resolved || negb unique || existsb (String.eqb step) keys then ret false
      else uniqueKeys r (i + 1) keyName env (step :: keys)
  end.

(** flow.go:515-528 *)
Fixpoint listEntries (l : list node) (i : Z) (keyName : string) (env : binding) (unique nomerge : bool) : M (list node) :=
  match l with
  | [] => ret []
  | v :: r =>
      s <- stepName i v keyName env unique ;;
      let '(step, keyed, resolved, _) := s in
      let v := if negb keyed && nomerge then mergedNode v else v in
      v <- (if resolved then tagged rec v (withPath step env) false false else ret v) ;;
      rest <- listEntries r (i + 1) keyName env unique nomerge ;;
      ret (if a_undefined (ann v) then rest else v :: rest)
  end.

(** the variables of processMerges (flow.go:630-641) *)
Record pstate := mkPS {
  ps_spliced : list node; ps_process : bool; ps_merged : bool; ps_keyName : string; ps_replaced : bool;
  ps_redirect : option (list string); ps_flags : flags; ps_tag : string; ps_template : bool }.

(** flow.go:661-727: the loop over the entries of the list *)
Fixpoint spliceMerges (orig : node) (root : list node) (l : list node) (env : binding) (st : pstate) : M pstate :=
  match l with
  | [] => ret st
  | v :: r =>
      let add (v : node) (st : pstate) : M pstate :=
        let '(v, newKey) := processKeyTag v in
        spliceMerges orig root r env
          (mkPS (ps_spliced st ++ [v]) (ps_process st) (ps_merged st)
                (if String.eqb newKey "" then ps_keyName st else newKey) (ps_replaced st) (ps_redirect st)
                (ps_flags st) (ps_tag st) (ps_template st)) in
      match entryMerge v with
      | None => add v st
      | Some (inline, qual) =>
          let initial := match val inline with VStr _ => true | _ => false end in
          result <- rec inline env false false ;;
          let keyName := if String.eqb (a_keyName (ann result)) "" then ps_keyName st else a_keyName (ann result) in
          let st := mkPS (ps_spliced st) (ps_process st) (ps_merged st) keyName (ps_replaced st) (ps_redirect st)
                         (ps_flags st) (ps_tag st) (ps_template st) in
          match val result with
          | VExpr e =>
              if simpleMerge initial inline then spliceMerges orig root r env st
              else
                let m := asTemplate e (ps_template st) in
                let st := match m with
                          | Some m => mkPS (ps_spliced st) (ps_process st) (ps_merged st) (ps_keyName st)
                                           (ps_replaced st) (ps_redirect st) (N.lor (ps_flags st) (mkFlags m))
                                           (if String.eqb (mkTagOf m) "" then ps_tag st else mkTagOf m) (ps_template st)
                          | None => st
                          end in
                let entry (n : node) (st : pstate) : M pstate :=
                  add (substituteNodeV (VMap [(qual, n)]) orig)
                      (mkPS (ps_spliced st) false (ps_merged st) (ps_keyName st) (ps_replaced st) (ps_redirect st)
                            (ps_flags st) (ps_tag st) (ps_template st)) in
                match (match m with Some m => if mkHas TEMPLATE_M m then Some m else None | None => None end) with
                | Some m =>
                    let st := mkPS (ps_spliced st) false (ps_merged st) (ps_keyName st) (ps_replaced st)
                                   (ps_redirect st) (ps_flags st) (ps_tag st) true in
                    match templateExpression m orig with
                    | None => spliceMerges orig root r env st
                    | Some n => entry n st
                    end
                | None => entry result st
                end
          | rv =>
              match rv with
              | VList il =>
                  let new := newEntries il root (ps_keyName st) in
                  if a_replace (ann result)
                  then ret (mkPS new false true (ps_keyName st) true (a_redirect (ann result))
                                 (ps_flags st) (ps_tag st) (ps_template st))
                  else spliceMerges orig root r env
                         (mkPS (ps_spliced st ++ new) (ps_process st) true (ps_keyName st) false
                               (a_redirect (ann result)) (ps_flags st) (ps_tag st) (ps_template st))
              | _ =>
                  if match rv with VNil => true | _ => false end ||
                     match embeddedDynaml quote result interpol with None => true | Some _ => false end
                  then spliceMerges orig root r env
                         (mkPS (ps_spliced st) (ps_process st) (ps_merged st || a_merged (ann result)) (ps_keyName st)
                               (ps_replaced st) (a_redirect (ann result)) (ps_flags st) (ps_tag st) (ps_template st))
                  else add v st
              end
          end
      end
  end.

(** flow.go:737-752: control structures among the entries *)
Fixpoint spliceControls (l : list node) (env : binding) (process : bool) : M (list node * bool) :=
  match l with
  | [] => ret ([], process)
  | v :: r =>
      match getControl v [] with
      | CtlErr =>
          x <- spliceControls r env process ;;
          ret (issueNodeY v true true (newIssue "control") :: fst x, snd x)
      | CtlNone => x <- spliceControls r env process ;; ret (v :: fst x, snd x)
      | CtlOk _ =>
          v' <- rec v env false false ;;
          match val v' with
          | VList a => x <- spliceControls r env process ;; ret (a ++ fst x, snd x)
          | _ => x <- spliceControls r env false ;; ret (v' :: fst x, snd x)
          end
      end
  end.

(** flow.go:644-659: an entry that merges without redirection *)
Definition useMerge (v : node) : bool :=
  match entryMerge v with
  | Some (n, _) => match val n with VExpr e => includesMerge e | _ => false end
  | None => false
  end.

(** flow.go:481-573 flowList with processMerges (630-765) *)
Definition flowList (root : node) (l : list node) (env : binding) (template : bool) : M node :=
  let a := ann root in
  if a_merged a then ret root else
  inh <- inheritedFlags env ;;
  let '(flags, stub) := inh in
  let nomerge0 := fNoMerge (nflags root) || existsb useMerge l in
  st <- spliceMerges root l l env
          (mkPS [] true (a_merged a) (a_keyName a) (a_replace a) (a_redirect a) flags (a_tag a) template) ;;
  pr <- (if ps_template st
         then ret (VTemplate (b_path env) (newNode (VList (ps_spliced st)) (src root)) root env, ps_process st)
         else x <- spliceControls (ps_spliced st) env (ps_process st) ;; ret (VList (fst x), snd x)) ;;
  let '(merged, process) := pr in
  let flags := if nomerge0 then N.lor (ps_flags st) FLAG_NOMERGE else ps_flags st in
  let nomerge := fNoMerge flags in
  let keyName := ps_keyName st in
  r <- (if process then
          match merged with
          | VList ml =>
              let env := match ps_redirect st with Some p => redirectOverwrite p env | None => env end in
              unique <- (if String.eqb keyName NO_LIST_KEY then ret false else uniqueKeys ml 0 keyName env []) ;;
              nl <- listEntries ml 0 keyName env unique nomerge ;;
              ret (if ps_merged st then (VList nl, N.lor flags FLAG_INJECTED)
                   else match stub with
                        | Some s => if fInjected (nflags root) then (VList nl, flags)
                                    else (VList (match val s with
                                                 | VList sl => filter (fun v => fInject (nflags v)) sl ++ nl
                                                 | _ => nl
                                                 end), N.lor flags FLAG_INJECTED)
                        | None => (VList nl, flags)
                        end)
          | _ => panic
          end
        else ret (merged, flags)) ;;
  let '(merged, flags) := r in
  let n := if String.eqb keyName "" then root else keyNameNode root keyName in
  let n := if ps_replaced st then replaceNode merged n (ps_redirect st)
           else match ps_redirect st with
                | Some _ => redirectNode merged n (ps_redirect st)
                | None => substituteNodeV merged n
                end in
  if negb (N.eqb (N.lor flags (nflags n)) (nflags n)) then ret (addFlags n flags)
  else if String.eqb (ps_tag st) "" || String.eqb (ps_tag st) (a_tag (ann n)) then ret n
  else ret (setTag n (ps_tag st)).

(** flow.go:60-272 _flow *)
Definition flowNode (root : node) (env0 : binding) (so et : bool) : M node :=
  let a := ann root in
  let env := match a_redirect a with Some r => redirectOverwrite r env0 | None => env0 end in
  let over (n : node) := override n env so (nflags root) (a_replace a) (a_redirect a) (a_merged a) (a_keyName a) in
  if a_replace a then over root
  else if negb (isExpr (val root)) && a_merged a then ret root
  else match val root with
  | VMap m =>
      match getControl root [] with
      | CtlErr => ret (issueNode env root true true (newIssue "control"))
      | CtlNone => flowMap root m env true et
      | CtlOk _ =>
          n <- flowMap root m env false et ;;
          match val n with VMap _ => ret n | _ => over n end
      end
  | VList l => flowList root l env et
  | VExpr e => flowExpr root e env so et
  | VStr _ => let n := flowString root env in
              if isExpr (val n) then ret n else over root
  | _ => over root
  end.
End Rec.

(** _flow and flow with a bound on the recursion *)
Fixpoint flowF (fuel : nat) (root : node) (env : binding) (so et : bool) {struct fuel} : M node :=
  match fuel with
  | O => fun _ => Fuel
  | S f => flowNode (flowF f) root env so et
  end.
Definition flow (fuel : nat) : node -> binding -> bool -> bool -> M node := tagged (flowF fuel).

(** environment.go:418-446 updateBinding: the scopes of static resolvers are
    replaced by the current state of the document.  In Go the scope objects are
    updated in place, so that other references to the same scope see it too. *)
Fixpoint refreshScopes (root : node) (l : list scope) : list scope :=
  match l with
  | [] => []
  | mkScope sl m (Some p) :: r =>
      mkScope sl (match find true ctrl p root with
                  | FOk ref => match val ref with VMap m' => Some m' | _ => None end
                  | _ => m
                  end) (Some p) :: refreshScopes root r
  | s => s
  end.
Definition refreshBinding (root : node) (b : binding) : binding :=
  if b_active b then withScopes (refreshScopes root (b_scopes b)) b else b.
Definition mapResolver (f : binding -> binding) (v : value) : value :=
  match v with
  | VLambda ps va b st r => VLambda ps va b st (f r)
  | VTemplate p n o r => VTemplate p n o (f r)
  | _ => v
  end.
(** cascade.go:98-123 Cleanup with a function that changes the values of all nodes
    below the root *)
Fixpoint mapHere (f : value -> value) (n : node) : node :=
  match n with
  | mkNode v a s t r =>
      mkNode (match v with
              | VList l => VList (map (mapHere f) l)
              | VMap m => VMap (map (fun kv => match kv with (k, e) => (k, mapHere f e) end) m)
              | _ => f v
              end) a s t r
  end.
Definition mapBelow (f : value -> value) (n : node) : node :=
  match n with
  | mkNode v a s t r =>
      mkNode (match v with
              | VList l => VList (map (mapHere f) l)
              | VMap m => VMap (map (fun kv => match kv with (k, e) => (k, mapHere f e) end) m)
              | _ => v
              end) a s t r
  end.
Definition updateBinding (root : node) : node := mapBelow (mapResolver (refreshBinding root)) root.
(** environment.go:448-458 deactivateScopes *)
Definition deactivateScopes (root : node) : node :=
  mapBelow (mapResolver (fun b => if b_active b then deactivate b else b)) root.

(** environment.go:321-354 Env.Flow: the loop up to the fixpoint; [rounds] bounds
    the number of rounds.  The result is the document; [unresolvedOf] tells the
    status. *)
Fixpoint flowLoop (fuel rounds : nat) (source result : node) (e : binding) (so : bool) : M node :=
  match rounds with
  | O => fun _ => Fuel
  | S k =>
      let env := match val source with VList l => withListScope l e | _ => e end in
      next <- flow fuel result env so false ;;
      if a_undefined (ann next) then ret (undefinedNode (newNode VNil "__ctx"))
      else
        let next := updateBinding next in
        if deepEqN result next then ret result
        else flowLoop fuel k source next e so
  end.
Definition envFlow (fuel rounds : nat) (source : node) (e : binding) (so : bool) : M node :=
  n <- flowLoop fuel rounds source source e so ;; ret (deactivateScopes n).

(** flow.go:22-26 NestedFlow with the status of Env.Flow (environment.go:347-351):
    the document and the unresolved nodes.  [parseIssue]: the text of a parse error.
    Without outer binding a flow has its own state: [enter] and [leave]. *)
Variable parseIssue : string -> issue.
Variables resetStream enter leave : ST -> ST.
Variable pushDocument : node -> ST -> ST.
Definition parses (s : string) : bool := match parse s [] [] with Some _ => true | None => false end.
Definition change (f : ST -> ST) : M unit := fun s => Ret tt (f s).
Definition nestedFlow (fuel rounds : nat) (outer : option binding) (source : node) (stubs : list node)
  : M (node * list unres) :=
  _ <- change enter ;;
  n <- envFlow fuel rounds source (newNested stubs (src source) outer) true ;;
  _ <- change leave ;;
  ret (n, findUnresolved parses parseIssue n []).

(** cascade.go:18-31 PrepareStubs: the last stub first.  An error yields the
    unresolved nodes. *)
Fixpoint prepareStubs (fuel rounds : nat) (outer : option binding) (partial : bool) (stubs : list node)
  : M (list node + list unres) :=
  match stubs with
  | [] => ret (inl [])
  | s :: r =>
      p <- prepareStubs fuel rounds outer partial r ;;
      match p with
      | inr e => ret (inr e)
      | inl prepared =>
          _ <- change resetStream ;;
          x <- nestedFlow fuel rounds outer s prepared ;;
          let '(n, u) := x in
          match u with
          | [] => ret (inl (dropLocal n :: prepared))
          | _ => if partial then ret (inl (dropLocal n :: prepared)) else ret (inr u)
          end
      end
  end.

(** cascade.go:9-17 *)
Record options := mkOpts { o_escapes : bool; o_temporary : bool; o_partial : bool }.
(** cascade.go:33-45 Apply *)
Definition apply (fuel rounds : nat) (outer : option binding) (template : node) (prepared : list node) (o : options)
  : M (node * list unres) :=
  x <- nestedFlow fuel rounds outer template prepared ;;
  let '(n, u) := x in
  match u with
  | [] =>
      let n := if o_temporary o then n else dropTemporary n in
      let n := if o_escapes o then n
               else unescapeDoc quote (match outer with Some _ => interpol | None => false end) n in
      _ <- change (pushDocument n) ;;
      ret (n, [])
  | _ => ret (n, u)
  end.
(** cascade.go:47-53 Cascade; after an error of a stub there is no document *)
Definition cascade (fuel rounds : nat) (outer : option binding) (template : node) (o : options) (stubs : list node)
  : M (option node * list unres) :=
  p <- prepareStubs fuel rounds outer (o_partial o) stubs ;;
  match p with
  | inr u => ret (None, u)
  | inl prepared =>
      _ <- change resetStream ;;
      x <- apply fuel rounds outer template prepared o ;;
      ret (Some (fst x), snd x)
  end.
End Engine.
