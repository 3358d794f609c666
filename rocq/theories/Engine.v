(** The evaluator of Eval.v, the controls of Control.v and the merge engine of
    Flow.v call each other; here the knot is tied.  The recursion of the Go code may
    not end: [evalF f] allows [f] nested evaluations; EngineFacts.v shows that the
    result does not depend on [f] once it is there.  No proofs in this file. *)
From Verif Require Import Core Str Interp Find Cleanup Unresolved DeepEq Env Arith IP Comparison RangeSlice ListFns Flow Info Eval Control.

(** what the model does not define: see the comments in Flow.v and Eval.v *)
Record world (ST : Type) := mkWorld {
  w_interpol : bool;
  w_ctrl : bool;
  w_context : binding -> node;
  w_parse : string -> list string -> list string -> option expr;
  w_quote : string -> string;
  w_show : expr -> string;
  w_net : netx;
  w_lambdaText : value -> string;
  w_setTag : string -> node -> list string -> bool -> ST -> bool * ST;
  w_tagsOf : string -> ST -> list (string * nat * node);
  w_projGet : nat -> ST -> value;
  w_projSet : nat -> value -> ST -> ST;
  w_parseIssue : string -> issue;
  (** the other functions and sync, given the evaluator and the flow *)
  w_builtin : (expr -> binding -> bool -> M ST R) -> (node -> binding -> M ST (node * list unres)) ->
              string -> list expr -> list value -> binding -> bool -> M ST (option (bool * R));
  w_sync : (expr -> binding -> bool -> M ST R) -> expr -> binding -> bool -> M ST R }.
Arguments w_interpol {ST}. Arguments w_ctrl {ST}. Arguments w_context {ST}. Arguments w_parse {ST}.
Arguments w_quote {ST}. Arguments w_show {ST}. Arguments w_net {ST}. Arguments w_lambdaText {ST}.
Arguments w_setTag {ST}. Arguments w_tagsOf {ST}. Arguments w_projGet {ST}. Arguments w_projSet {ST}.
Arguments w_parseIssue {ST}. Arguments w_builtin {ST}. Arguments w_sync {ST}.

Section Engine.
Variable ST : Type.
Variable W : world ST.
Definition evaluator := expr -> binding -> bool -> M ST R.

(** environment.go:321-354 for a node and a binding with the evaluator [ev] *)
Definition flowWith (ev : evaluator) (f : nat) (n : node) (b : binding) (so : bool) : M ST node :=
  envFlow ST (w_interpol W) (w_ctrl W) stdReg (w_parse W) (w_quote W) (w_show W) ev (w_setTag W)
          (controlFn ST (w_ctrl W) ev) f f n b so.
(** environment.go:321-354 Flow(source, false) with its status *)
Definition flowTpl (ev : evaluator) (f : nat) (n : node) (b : binding) : M ST (node * list unres) :=
  bind ST (flowWith ev f n b false)
       (fun x => ret ST (x, findUnresolved (parses (w_parse W)) (w_parseIssue W) x [])).

(** Expression.Evaluate *)
Fixpoint evalF (f : nat) (e : expr) (b : binding) (l : bool) {struct f} : M ST R :=
  match f with
  | O => fun _ => Fuel
  | S k => eval1 ST (w_ctrl W) (w_context W) (w_parse W) (w_net W) (w_lambdaText W) (w_tagsOf W)
                 (w_projGet W) (w_projSet W) (evalF k) (flowTpl (evalF k) k)
                 (w_builtin W (evalF k) (flowTpl (evalF k) k)) (w_sync W (evalF k)) e b l
  end.

(** the flow of a document *)
Definition flowF (f : nat) (n : node) (b : binding) (so : bool) : M ST node := flowWith (evalF f) f n b so.

(** the evaluation of [e] ends with a result *)
Definition evaluates (e : expr) (b : binding) (l : bool) (s : ST) (r : R) (s' : ST) : Prop :=
  exists f, evalF f e b l s = Ret r s'.
Definition crashes (e : expr) (b : binding) (l : bool) (s : ST) : Prop :=
  exists f, evalF f e b l s = Panic.
End Engine.
