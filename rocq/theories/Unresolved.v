(** dynaml/unresolved_check.go.  The parser is a parameter: [parses s] tells
    whether dynaml.Parse accepts the text.  No proofs in this file. *)
From Verif Require Import Core Str Interp Find.

Section Parse.
Variable parses : string -> bool.

Definition embedded (n : node) : option string :=
  match val n with
  | VStr s => match enclosed s with
              | Some sub => if hasPrefix sub "!" then None else Some sub
              | None => None
              end
  | _ => None
  end.

(** unresolved_check.go:14-18, without the display path *)
Record unres := mkUnres { u_node : node; u_ctx : list string }.

(** unresolved_check.go:200-216: errors first, then open ones, then failed ones *)
Definition order_groups (l : list unres) : list unres :=
  let err u := a_error (ann (u_node u)) in
  let fl u := a_failed (ann (u_node u)) in
  filter err l ++ filter (fun u => negb (err u) && negb (fl u)) l ++ filter (fun u => negb (err u) && fl u) l.

(** unresolved_check.go:147-218 FindUnresolvedNodes; the issue text of a parse
    error is the parameter [parseIssue] *)
Variable parseIssue : string -> issue.
Fixpoint findUnresolved (n : node) (ctx : list string) {struct n} : list unres :=
  match n with
  | mkNode v a s t r =>
      let self := mkUnres n ctx in
      let '(nodes, found) :=
        match v with
        | VMap m => ((fix go (m : list (string * node)) : list unres :=
                       match m with
                       | [] => []
                       | (k, e) :: r => findUnresolved e (ctx ++ [k]) ++ go r
                       end) m, false)
        | VList l => ((fix go (l : list node) (i : Z) : list unres :=
                       match l with
                       | [] => []
                       | e :: r => findUnresolved e (ctx ++ [("[" +++ itoa i +++ "]")%string]) ++ go r (i + 1)
                       end) l 0, false)
        | VExpr _ => ([self], true)
        | VStr _ =>
            match embedded n with
            | Some sub => if parses sub then ([], false)
                          else ([mkUnres (issueNodeY n true false (parseIssue sub)) ctx], true)
            | None => ([], false)
            end
        | _ => ([], false)
        end in
      let nodes := if a_failed a && negb found then nodes ++ [self] else nodes in
      order_groups nodes
  end.

(** unresolved_check.go:290-320 isLocallyResolvedValue; [ctrl]: control feature *)
Definition isLocallyResolvedValue (ctrl : bool) (v : value) : bool :=
  match v with
  | VExpr _ => false
  | VMap m => mapResolved ctrl m
  | VList l => listResolved l
  | _ => true
  end.

(** unresolved_check.go:326-374 _isResolved / _isResolvedValue *)
Fixpoint isResolvedN (ctrl acceptFailed : bool) (n : node) {struct n} : bool :=
  match n with
  | mkNode v a s t r =>
      (acceptFailed && (a_failed a || a_error a)) || isResolvedV ctrl acceptFailed v
  end
with isResolvedV (ctrl acceptFailed : bool) (v : value) {struct v} : bool :=
  match v with
  | VExpr _ => false
  | VList l => (fix go (l : list node) : bool :=
                  match l with [] => true | x :: r => isResolvedN ctrl acceptFailed x && go r end) l
  | VMap m => mapResolved ctrl m &&
              (fix go (m : list (string * node)) : bool :=
                 match m with [] => true | (_, x) :: r => isResolvedN ctrl acceptFailed x && go r end) m
  | VStr s => match enclosed s with
              | Some sub => hasPrefix sub "!"
              | None => true
              end
  | _ => true
  end.
(** unresolved_check.go:315-323 IsResolvedNode *)
Definition isResolvedNode (ctrl : bool) (n : node) : bool :=
  negb (a_failed (ann n) || a_undefined (ann n)) && isResolvedV ctrl false (val n).

(** unresolved_check.go:220-241 ResetUnresolvedNodes; [show] is the text of an expression *)
Variable show : expr -> string.
Fixpoint resetUnresolved (n : node) : node :=
  match n with
  | mkNode v a s t r =>
      match v with
      | VMap m => mkNode (VMap (map (fun p => match p with (k, e) => (k, resetUnresolved e) end) m)) a s t r
      | VList l => mkNode (VList (map resetUnresolved l)) a s t r
      | VExpr e => newNode (VStr ("(( " +++ show e +++ " ))")%string) "dynaml"
      | _ => n
      end
  end.
End Parse.
