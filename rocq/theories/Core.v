(** Core data types: YAML nodes, annotations, flags, dynaml expressions, bindings.
    Models yaml/node.go, yaml/value.go and the struct definitions of dynaml/*.go
    and flow/environment.go.  No proofs in this file. *)
From Coq Require Export String Ascii.
From Coq Require Export List Bool ZArith.
From Coq Require Import Floats.SpecFloat.
Export ListNotations.
Open Scope string_scope.
Open Scope Z_scope.
Open Scope list_scope.
Infix "+++" := String.append (at level 60, right associativity) : string_scope.

(* ------------------------------------------------------------------ *)
(** * 64-bit integers *)

(** Go int64 arithmetic (language spec): every result is reduced to the signed
    64-bit range.  Used for the operators of addition.go:58, subtraction.go:75,
    multiplication.go:52 and all other int64 computations. *)
Definition two63 : Z := 9223372036854775808.
Definition two64 : Z := 18446744073709551616.
Definition wrap64 (z : Z) : Z := (z + two63) mod two64 - two63.
Definition max64 : Z := 9223372036854775807.
Definition min64 : Z := -9223372036854775808.
Definition in64 (z : Z) : Prop := min64 <= z <= max64.
Definition in64b (z : Z) : bool := (min64 <=? z) && (z <=? max64).

(* ------------------------------------------------------------------ *)
(** * Maps: map[string]T as association lists sorted by key *)

Definition smap (A : Type) := list (string * A).

(** m[k] with the comma-ok form *)
Fixpoint mget {A} (k : string) (m : smap A) : option A :=
  match m with
  | [] => None
  | (k', v) :: r => if String.eqb k k' then Some v else mget k r
  end.

(** m[k] = v; keeps the keys in the order of sort.Strings (yaml/value.go:11-20) *)
Fixpoint mset {A} (k : string) (v : A) (m : smap A) : smap A :=
  match m with
  | [] => [(k, v)]
  | (k', v') :: r =>
      match String.compare k k' with
      | Lt => (k, v) :: m
      | Eq => (k, v) :: r
      | Gt => (k', v') :: mset k v r
      end
  end.

(** delete(m, k) *)
Fixpoint mdel {A} (k : string) (m : smap A) : smap A :=
  match m with
  | [] => []
  | (k', v') :: r => if String.eqb k k' then mdel k r else (k', v') :: mdel k r
  end.

(** yaml/value.go:11-20 GetSortedKeys: the representation is sorted already *)
Definition mkeys {A} (m : smap A) : list string := map fst m.

(** a map built from assignments in the given order (later ones win) *)
Definition mof {A} (l : list (string * A)) : smap A :=
  fold_left (fun m kv => mset (fst kv) (snd kv) m) l [].

(** well-formed: strictly sorted keys *)
Fixpoint msorted {A} (m : smap A) : Prop :=
  match m with
  | [] => True
  | (k, _) :: r => (forall k', In k' (map fst r) -> String.compare k k' = Lt) /\ msorted r
  end.

(* ------------------------------------------------------------------ *)
(** * Flags: yaml/node.go:70-171 *)

Definition flags := N.
(** yaml/node.go:70-82 *)
Definition FLAG_TEMPORARY : flags := 1%N.
Definition FLAG_LOCAL : flags := 2%N.
Definition FLAG_INJECT : flags := 4%N.
Definition FLAG_STATE : flags := 8%N.
Definition FLAG_DEFAULT : flags := 16%N.
Definition FLAG_DYNAMIC : flags := 32%N.
Definition FLAG_INJECTED : flags := 64%N.
Definition FLAG_IMPLIED : flags := 128%N.
Definition FLAG_NOMERGE : flags := 256%N.

Definition hasflag (f m : flags) : bool := negb (N.eqb (N.land f m) 0).
(** yaml/node.go:91-93 *)
Definition fTemporary (f : flags) : bool := hasflag f FLAG_TEMPORARY.
(** yaml/node.go:99-101 *)
Definition fLocal (f : flags) : bool := hasflag f FLAG_LOCAL.
(** yaml/node.go:107-109 *)
Definition fInject (f : flags) : bool := hasflag f (N.lor FLAG_INJECT FLAG_DEFAULT).
(** yaml/node.go:115-117 *)
Definition fDefault (f : flags) : bool :=
  N.eqb (N.land f (N.lor FLAG_DEFAULT FLAG_INJECT)) FLAG_DEFAULT.
(** yaml/node.go:123-125 *)
Definition fImplied (f : flags) : bool :=
  N.eqb (N.land f (N.lor FLAG_IMPLIED FLAG_DEFAULT)) FLAG_IMPLIED.
(** yaml/node.go:130-132 *)
Definition fPropagateImplied (f : flags) : bool := hasflag f (N.lor FLAG_IMPLIED FLAG_DEFAULT).
(** yaml/node.go:134-139 *)
Definition fOverridden (f : flags) : flags :=
  if fDefault f then N.ldiff (N.lor f FLAG_INJECT) FLAG_DEFAULT else f.
(** yaml/node.go:141-143 *)
Definition fState (f : flags) : bool := hasflag f FLAG_STATE.
(** yaml/node.go:149-151 *)
Definition fDynamic (f : flags) : bool := hasflag f FLAG_DYNAMIC.
(** yaml/node.go:157-159 *)
Definition fInjected (f : flags) : bool := hasflag f FLAG_INJECTED.
(** yaml/node.go:165-167 *)
Definition fNoMerge (f : flags) : bool := hasflag f FLAG_NOMERGE.

(* ------------------------------------------------------------------ *)
(** * Issues and annotations: yaml/node.go:55-60, 173-185 *)

(** yaml/node.go:55-60; the nested issues and the Sequence flag only influence
    the error text and are left out. *)
Record issue := mkIssue { i_text : string; i_orig : option (list string) }.
Definition noIssue : issue := mkIssue "" None.
(** yaml/node.go:62-64 *)
Definition newIssue (t : string) : issue := mkIssue t None.

(** yaml/node.go:173-185; [a_redirect = None] is the nil slice *)
Record annotation := mkAnn {
  a_redirect : option (list string);
  a_replace : bool;
  a_preferred : bool;
  a_merged : bool;
  a_keyName : string;
  a_error : bool;
  a_failed : bool;
  a_undefined : bool;
  a_issue : issue;
  a_tag : string;
  a_flags : flags }.

(** yaml/node.go:291-293 *)
Definition emptyAnn : annotation :=
  mkAnn None false false false "" false false false noIssue "" 0%N.

(* ------------------------------------------------------------------ *)
(** * Values, nodes, expressions, bindings *)

(** Values as they occur behind interface{}: nil, bool, int64, int (Go's plain
    int, produced by some builtins before yaml.MassageType turns it into int64),
    float64, string, []yaml.Node, map[string]yaml.Node, an unevaluated dynaml
    expression, a lambda value (dynaml/lambda.go:145-150), a template value
    (dynaml/template.go:54-59). The two parameter lists of LambdaValue
    (Parameters and lambda.Parameters) always have the same contents because of
    the slice aliasing in lambda.go:55-74 and because currying (lambda.go:309-314)
    uses the same list twice; one list is kept.

    Expressions: one constructor per struct type of dynaml/*.go. *)
Inductive value : Type :=
| VNil
| VBool (b : bool)
| VInt (z : Z)
| VGoInt (z : Z)
| VFloat (f : spec_float)
| VStr (s : string)
| VList (l : list node)
| VMap (m : list (string * node))
| VExpr (e : expr)
| VLambda (ps : list (string * option expr)) (varargs : bool) (body : expr)
          (static : list (string * node)) (resolver : binding)
| VTemplate (path : list string) (prepared : node) (orig : node) (resolver : binding)
(** yaml/node.go:47-53 *)
with node : Type :=
| mkNode (v : value) (an : annotation) (src : string) (tmpl : option value) (res : option binding)
with expr : Type :=
| EBool (b : bool)                                (* dynaml/boolean.go:7 *)
| EInt (z : Z)                                    (* dynaml/integer.go:7 *)
| EFloat (f : spec_float)                         (* dynaml/float.go:7 *)
| EStr (s : string)                               (* dynaml/string.go:7 *)
| ENil                                            (* dynaml/nil.go:3 *)
| EUndef                                          (* dynaml/undefined.go:3 *)
| EDefault                                        (* dynaml/default.go:3 *)
| ERef (tag : string) (path : list string)        (* dynaml/reference.go:10 *)
| EMerge (path : list string) (redirect replace required none : bool) (key : string) (* dynaml/merge.go:9 *)
| EAuto (path : list string)                      (* dynaml/auto.go:11 *)
| EOr (a b : expr)                                (* dynaml/or.go:8 *)
| EValidOr (a b : expr)                           (* dynaml/validor.go:8 *)
| ELogOr (a b : expr)                             (* dynaml/log_or.go:13 *)
| ELogAnd (a b : expr)                            (* dynaml/log_and.go:13 *)
| ENot (a : expr)                                 (* dynaml/not.go:9 *)
| ECond (c t f : expr)                            (* dynaml/cond.go:9 *)
| ECmp (a : expr) (op : string) (b : expr)        (* dynaml/comparison.go:12 *)
| EAdd (a b : expr)                               (* dynaml/addition.go:9 *)
| ESub (a b : expr)                               (* dynaml/subtraction.go:8 *)
| EMul (a b : expr)                               (* dynaml/multiplication.go:8 *)
| EDiv (a b : expr)                               (* dynaml/division.go:8 *)
| EMod (a b : expr)                               (* dynaml/modulo.go:7 *)
| EConcat (a b : expr)                            (* dynaml/concatenation.go:11 *)
| ERange (a b : option expr)                      (* dynaml/range.go:9 *)
| ESlice (e : expr) (a b : option expr)           (* dynaml/slice.go:10 *)
| EProj (e : expr) (id : nat) (q : expr)          (* dynaml/projection.go:9; id stands for the *ProjectionValue pointer *)
| EProjVal (id : nat)                             (* dynaml/projection.go:85 *)
| EList (l : list expr)                           (* dynaml/list.go:10 *)
| EMap (l : list (expr * expr))                   (* dynaml/map.go:8 *)
| EScope (l : list (expr * expr)) (e : expr)      (* dynaml/scope.go:9 *)
| ECall (f : expr) (args : list expr) (curry : bool) (* dynaml/call.go:54 *)
| ENameArg (n : string) (e : expr)                (* dynaml/call.go:45 *)
| EExpand (e : expr)                              (* dynaml/listexpansion.go:10 *)
| ELambda (ps : list (string * option expr)) (varargs : bool) (body : expr) (* dynaml/lambda.go:31 *)
| ELambdaRef (e : expr) (path stub : list string) (* dynaml/lambda.go:95 *)
| EMapping (ctx : mapctx) (a l : expr)            (* dynaml/mapping.go:11 *)
| ESum (a i l : expr)                             (* dynaml/sum.go:10 *)
| ECatch (a l : expr)                             (* dynaml/catch.go:14 *)
| ESync (a c v t : expr)                          (* dynaml/sync.go:10 *)
| EQual (e : expr) (path : list string)           (* dynaml/qualified_expression.go:10 *)
| EDyn (root index : expr)                        (* dynaml/dynamic_expression.go:10 *)
| ESubst (e : expr)                               (* dynaml/template.go:12 *)
| EMarker (l : list string) (e : option expr)     (* dynaml/marker.go:21 *)
| EMarkExpr (contents : string) (e : expr)        (* dynaml/marker.go:146 *)
| EPrefer (e : expr)                              (* dynaml/prefer.go:7 *)
| EGroup (e : expr)                               (* dynaml/grouped.go:7 *)
| EValue (v : value)                              (* dynaml/value.go:9 *)
(** dynaml/mapping.go, select.go, filter.go: the six mapping contexts *)
with mapctx : Type := MapToList | MapToMap | SelectToList | SelectToMap | FilterList | FilterMap
(** flow/environment.go:16-23 (without the root pointer, see [binding]) *)
with scope : Type :=
| mkScope (sc_list : option (list node)) (sc_local : option (list (string * node)))
          (sc_path : option (list string))
(** flow/environment.go:48-66; the scope chain is a list, innermost first; the
    root pointer of a Scope is given by the number of scopes that belong to the
    current root *)
with binding : Type :=
| mkBinding (b_scopes : list scope) (b_root : option nat) (b_path b_stubPath : list string)
            (b_stubs : list node) (b_nomerge : bool) (b_source : string)
            (b_static : list (string * node)) (b_outer : option binding)
            (b_current : string) (b_active b_isbinding : bool).

(* ------------------------------------------------------------------ *)
(** * Accessors (yaml/node.go:299-451) *)

Definition val (n : node) : value := match n with mkNode v _ _ _ _ => v end.
Definition ann (n : node) : annotation := match n with mkNode _ a _ _ _ => a end.
Definition src (n : node) : string := match n with mkNode _ _ s _ _ => s end.
Definition tmpl (n : node) : option value := match n with mkNode _ _ _ t _ => t end.
Definition resolver (n : node) : option binding := match n with mkNode _ _ _ _ r => r end.
Definition nflags (n : node) : flags := a_flags (ann n).

(** yaml/node.go:283-289 *)
Definition massage (v : value) : value := match v with VGoInt z => VInt z | _ => v end.

(** yaml/node.go:194-196 *)
Definition newNode (v : value) (s : string) : node := mkNode (massage v) emptyAnn s None None.

(** functional update of the annotation *)
Definition withAnn (n : node) (a : annotation) : node :=
  match n with mkNode v _ s t r => mkNode v a s t r end.

(** yaml/node.go:208-212 *)
Definition replaceValue (v : value) (n : node) : node :=
  match n with mkNode _ a s t r => mkNode v a s t r end.
(** yaml/node.go:217-221 *)
Definition substituteNodeV (v : value) (n : node) : node :=
  match n with mkNode _ a s t r => mkNode (massage v) a s t r end.

(** yaml/node.go:387-390 *)
Definition aSetRedirect (r : option (list string)) (a : annotation) : annotation :=
  mkAnn r (a_replace a) (a_preferred a) (a_merged a) (a_keyName a) (a_error a) (a_failed a)
        (a_undefined a) (a_issue a) (a_tag a) (a_flags a).
(** yaml/node.go:392-395 *)
Definition aSetReplace (a : annotation) : annotation :=
  mkAnn (a_redirect a) true (a_preferred a) (a_merged a) (a_keyName a) (a_error a) (a_failed a)
        (a_undefined a) (a_issue a) (a_tag a) (a_flags a).
(** yaml/node.go:397-400 *)
Definition aSetPreferred (a : annotation) : annotation :=
  mkAnn (a_redirect a) (a_replace a) true (a_merged a) (a_keyName a) (a_error a) (a_failed a)
        (a_undefined a) (a_issue a) (a_tag a) (a_flags a).
(** yaml/node.go:402-405 *)
Definition aSetMerged (a : annotation) : annotation :=
  mkAnn (a_redirect a) (a_replace a) (a_preferred a) true (a_keyName a) (a_error a) (a_failed a)
        (a_undefined a) (a_issue a) (a_tag a) (a_flags a).
(** yaml/node.go:417-422 *)
Definition aAddKeyName (k : string) (a : annotation) : annotation :=
  if String.eqb k "" then a else
  mkAnn (a_redirect a) (a_replace a) (a_preferred a) (a_merged a) k (a_error a) (a_failed a)
        (a_undefined a) (a_issue a) (a_tag a) (a_flags a).
(** yaml/node.go:424-431 *)
Definition aAddIssue (err failed : bool) (i : issue) (a : annotation) : annotation :=
  mkAnn (a_redirect a) (a_replace a) (a_preferred a) (a_merged a) (a_keyName a) err failed
        (a_undefined a) (if String.eqb (i_text i) "" then a_issue a else i) (a_tag a) (a_flags a).
(** yaml/node.go:412-415 *)
Definition aSetUndefined (a : annotation) : annotation :=
  mkAnn (a_redirect a) (a_replace a) (a_preferred a) (a_merged a) (a_keyName a) (a_error a) (a_failed a)
        true (a_issue a) (a_tag a) (a_flags a).
(** yaml/node.go:347-350 *)
Definition aAddFlags (f : flags) (a : annotation) : annotation :=
  mkAnn (a_redirect a) (a_replace a) (a_preferred a) (a_merged a) (a_keyName a) (a_error a) (a_failed a)
        (a_undefined a) (a_issue a) (a_tag a) (N.lor (a_flags a) f).
(** yaml/node.go:407-410 *)
Definition aSetTag (t : string) (a : annotation) : annotation :=
  mkAnn (a_redirect a) (a_replace a) (a_preferred a) (a_merged a) (a_keyName a) (a_error a) (a_failed a)
        (a_undefined a) (a_issue a) t (a_flags a).

(** yaml/node.go:223-227 *)
Definition redirectNode (v : value) (n : node) (r : option (list string)) : node :=
  replaceValue (massage v) (withAnn n (aSetRedirect r (ann n))).
(** yaml/node.go:229-233 *)
Definition replaceNode (v : value) (n : node) (r : option (list string)) : node :=
  replaceValue (massage v) (withAnn n (aSetRedirect r (aSetReplace (ann n)))).
(** yaml/node.go:235-281 *)
Definition preferredNode (n : node) : node := withAnn n (aSetPreferred (ann n)).
Definition mergedNode (n : node) : node := withAnn n (aSetMerged (ann n)).
Definition keyNameNode (n : node) (k : string) : node := withAnn n (aAddKeyName k (ann n)).
Definition issueNodeY (n : node) (err failed : bool) (i : issue) : node :=
  withAnn n (aAddIssue err failed i (ann n)).
Definition undefinedNode (n : node) : node := withAnn n (aSetUndefined (ann n)).
Definition addFlags (n : node) (f : flags) : node := withAnn n (aAddFlags f (ann n)).
Definition setTag (n : node) (t : string) : node := withAnn n (aSetTag t (ann n)).
(** yaml/node.go:198-200 *)
Definition newDynamicNode (v : value) (t : value) (s : string) : node :=
  mkNode (massage v) (aAddFlags FLAG_DYNAMIC (aAddFlags FLAG_INJECTED emptyAnn)) s (Some t) None.
(** yaml/node.go:202-206 *)
Definition resolverNode (n : node) (b : binding) : node :=
  match n with mkNode v a s t _ => mkNode v a s t (Some b) end.
(** yaml/node.go:213-215 and 295-297 *)
Definition referencedNode (n : node) : node :=
  withAnn n (mkAnn None false false false (a_keyName (ann n)) (a_error (ann n)) (a_failed (ann n))
                   (a_undefined (ann n)) (a_issue (ann n)) "" 0%N).

(** yaml/node.go:319-321 *)
Definition standardOverride (n : node) : bool :=
  negb (a_merged (ann n)) && negb (a_replace (ann n)) &&
  (match a_redirect (ann n) with None => true | Some [] => true | Some _ => false end).

(** yaml/node.go:11-14 *)
Definition SELF : string := "_".
Definition DOCNODE : string := "__".
Definition ROOT : string := "___".
Definition MERGEKEY : string := "<<<".

(** dynaml/unresolved_check.go:284-290 IsExpression *)
Definition isExpr (v : value) : bool := match v with VExpr _ => true | _ => false end.

(** strings.HasPrefix / strings.HasSuffix *)
Definition hasPrefix (s p : string) : bool := String.prefix p s.
Definition hasSuffix (s p : string) : bool :=
  let ls := String.length s in let lp := String.length p in
  Nat.leb lp ls && String.eqb (String.substring (ls - lp) lp s) p.
(** s[i:] *)
Definition sdrop (i : nat) (s : string) : string := String.substring i (String.length s - i) s.
