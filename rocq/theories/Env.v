(** flow/environment.go: bindings (DefaultEnvironment) and lookups in them.
    The processing state is threaded separately (Flow.v); the feature flags are
    constant during a processing and given by [ctrl] (control structures
    enabled).  No proofs in this file. *)
From Verif Require Import Core Str Find.

(** accessors of [scope] and [binding] (environment.go:16-23, 48-66) *)
Definition sc_list (s : scope) := match s with mkScope l _ _ => l end.
Definition sc_local (s : scope) := match s with mkScope _ m _ => m end.
Definition sc_path (s : scope) := match s with mkScope _ _ p => p end.
Definition b_scopes (b : binding) := match b with mkBinding s _ _ _ _ _ _ _ _ _ _ _ => s end.
Definition b_root (b : binding) := match b with mkBinding _ r _ _ _ _ _ _ _ _ _ _ => r end.
Definition b_path (b : binding) := match b with mkBinding _ _ p _ _ _ _ _ _ _ _ _ => p end.
Definition b_stubPath (b : binding) := match b with mkBinding _ _ _ p _ _ _ _ _ _ _ _ => p end.
Definition b_stubs (b : binding) := match b with mkBinding _ _ _ _ s _ _ _ _ _ _ _ => s end.
Definition b_nomerge (b : binding) := match b with mkBinding _ _ _ _ _ n _ _ _ _ _ _ => n end.
Definition b_source (b : binding) := match b with mkBinding _ _ _ _ _ _ s _ _ _ _ _ => s end.
Definition b_static (b : binding) := match b with mkBinding _ _ _ _ _ _ _ s _ _ _ _ => s end.
Definition b_outer (b : binding) := match b with mkBinding _ _ _ _ _ _ _ _ o _ _ _ => o end.
Definition b_current (b : binding) := match b with mkBinding _ _ _ _ _ _ _ _ _ c _ _ => c end.
Definition b_active (b : binding) := match b with mkBinding _ _ _ _ _ _ _ _ _ _ a _ => a end.
Definition b_isbinding (b : binding) := match b with mkBinding _ _ _ _ _ _ _ _ _ _ _ x => x end.

(** environment.go:404-410 NewNestedEnvironment *)
Definition newNested (stubs : list node) (source : string) (outer : option binding) : binding :=
  mkBinding [] None [] [] stubs false source [] outer source true false.
(** environment.go:360-369 NewEnvironment *)
Definition newEnvironment (stubs : list node) (source : string) : binding :=
  mkBinding [] None [] [] stubs false source [] None source true true.

(** the root pointer of a new scope (environment.go:28-36): itself if there is no
    outer scope or the outer one has none, else the one of the outer scope.  A
    scope of the chain is addressed by its distance from the outermost one. *)
Definition newRootPtr (b : binding) : option nat :=
  match b_scopes b with
  | [] => Some 1%nat
  | l => match b_root b with None => Some (S (length l)) | r => r end
  end.
Definition rootScope (b : binding) : option scope :=
  match b_root b with
  | Some h => nth_error (b_scopes b) (length (b_scopes b) - h)
  | None => None
  end.
(** e.path as the path of a new scope; the nil slice is kept as None *)
Definition pathPtr (p : list string) : option (list string) := match p with [] => None | _ => Some p end.

(** push a scope *)
Definition pushScope (s : scope) (root : option nat) (b : binding) : binding :=
  match b with
  | mkBinding sc _ p sp st nm so sta ou cu ac bi => mkBinding (s :: sc) root p sp st nm so sta ou cu ac bi
  end.
(** environment.go:264-268 *)
Definition withScope (m : smap node) (b : binding) : binding :=
  pushScope (mkScope None (Some m) (pathPtr (b_path b))) (newRootPtr b) b.
(** environment.go:270-274, 38-47 *)
Definition withListScope (l : list node) (b : binding) : binding :=
  let local := match b_scopes b, b_root b with
               | o :: _, Some _ => sc_local o
               | _, _ => None
               end in
  pushScope (mkScope (Some l) local (pathPtr (b_path b))) (newRootPtr b) b.
(** environment.go:276-282 *)
Definition withNewRoot (b : binding) : binding :=
  pushScope (mkScope None (Some []) (pathPtr (b_path b))) None b.
(** environment.go:284-296 *)
Definition withLocalScope (step : smap node) (b : binding) : binding :=
  let root := newRootPtr b in
  match b with
  | mkBinding sc _ p sp st nm so sta ou cu ac bi =>
      mkBinding (mkScope None (Some step) None :: sc) root p sp st nm so
                (fold_left (fun m kv => mset (fst kv) (snd kv) m) step sta) ou cu ac bi
  end.
(** environment.go:298-308 *)
Definition withPath (step : string) (b : binding) : binding :=
  match b with
  | mkBinding sc ro p sp st nm so sta ou cu ac bi =>
      mkBinding sc ro (p ++ [step]) (sp ++ [step]) st nm so sta ou cu ac bi
  end.
(** environment.go:310-319 *)
Definition redirectOverwrite (path : list string) (b : binding) : binding :=
  match b with
  | mkBinding sc ro p sp st nm so sta ou cu ac bi =>
      match path with
      | [] => mkBinding sc ro p sp st true so sta ou cu ac bi
      | _ => mkBinding sc ro p path st false so sta ou cu ac bi
      end
  end.
(** environment.go:258-262 *)
Definition withSource (s : string) (b : binding) : binding :=
  match b with
  | mkBinding sc ro p sp st nm _ sta ou cu ac bi => mkBinding sc ro p sp st nm s sta ou cu ac bi
  end.
(** environment.go:123-126 *)
Definition deactivate (b : binding) : binding :=
  match b with
  | mkBinding sc ro p sp st nm so sta ou cu _ bi => mkBinding sc ro p sp st nm so sta ou cu false bi
  end.
Definition withScopes (l : list scope) (b : binding) : binding :=
  match b with
  | mkBinding _ ro p sp st nm so sta ou cu ac bi => mkBinding l ro p sp st nm so sta ou cu ac bi
  end.

Section Mode.
Variable ctrl : bool.
(** createContext (environment.go:509-540): the node bound to __ctx *)
Variable context : binding -> node.

(** environment.go:148-153 GetRootBinding; None: nil pointer dereference *)
Definition getRootBinding (b : binding) : option (smap node) :=
  match b_scopes b with
  | [] => Some []
  | _ => match rootScope b with
         | Some s => Some (match sc_local s with Some m => m | None => [] end)
         | None => None
         end
  end.

(** environment.go:177-187: the outermost scope with a map *)
Fixpoint topMap (l : list scope) : option (smap node) :=
  match l with
  | [] => None
  | s :: r => match topMap r with
              | Some m => Some m
              | None => sc_local s
              end
  end.
(** environment.go:163-192 FindFromRoot *)
Definition findFromRoot (path : list string) (b : binding) : fres :=
  match b_scopes b with
  | [] => FNo
  | _ =>
      match rootScope b with
      | None => FPanic
      | Some root =>
          match sc_list root with
          | Some l =>
              match path with
              | [] => FOk (newNode (VList l) "root")
              | p :: r =>
                  if String.eqb p "__map"
                  then match topMap (b_scopes b) with
                       | Some m => find true ctrl r (newNode (VMap m) "scope")
                       | None => find true ctrl r (newNode VNil "scope")
                       end
                  else find true ctrl path (newNode (VList l) "scope")
              end
          | None => find true ctrl path
                      (newNode (VMap (match sc_local root with Some m => m | None => [] end)) "scope")
          end
      end
  end.

(** environment.go:194-210 FindInScopes *)
Fixpoint findInScopes (sc : list scope) (name : string) (rest : list string) : fres :=
  match sc with
  | [] => FNo
  | s :: r => match sc_local s with
              | None => FNo
              | Some m => match mget name m with
                          | Some n => find true ctrl rest n
                          | None => findInScopes r name rest
                          end
              end
  end.

(** environment.go:460-478 resolveSymbol without __ctx: the node *)
Fixpoint resolveLocal (name : string) (sc : list scope) : option node :=
  match sc with
  | [] => None
  | s :: r => match sc_local s with
              | Some m => match mget name m with Some n => Some n | None => resolveLocal name r end
              | None => resolveLocal name r
              end
  end.
(** ... and the innermost scope with path and map *)
Fixpoint nodeScope (sc : list scope) : list scope :=
  match sc with
  | [] => []
  | s :: r => match sc_path s, sc_local s with
              | Some _, Some _ => sc
              | _, _ => nodeScope r
              end
  end.
Definition resolveSymbol (b : binding) (name : string) : option node :=
  if String.eqb name "__ctx" then Some (context b) else resolveLocal name (b_scopes b).

(** the outermost binding (environment.go:215-220) *)
Fixpoint outermost (b : binding) : binding :=
  match b with
  | mkBinding _ _ _ _ _ _ _ _ (Some o) _ _ _ => outermost o
  | _ => b
  end.

(** environment.go:212-239 FindReference; path is never empty *)
Fixpoint findReference (path : list string) (b : binding) {struct path} : fres :=
  match path with
  | [] => FPanic
  | name :: rest =>
      (fix up (e : binding) : fres :=
         match resolveSymbol e name with
         | Some root =>
             if negb (Nat.eqb (length rest) 0) && String.eqb name SELF
             then match resolver root with
                  | Some r => findReference rest r
                  | None => FPanic
                  end
             else find true ctrl rest root
         | None =>
             if String.eqb name ROOT then
               match getRootBinding (outermost e) with
               | Some m => find true ctrl rest (newNode (VMap m) "__ctx")
               | None => FPanic
               end
             else
               match (if String.eqb name DOCNODE then nodeScope (b_scopes e) else []) with
               | s :: r => match rest with
                           | n :: rest' => findInScopes (s :: r) n rest'
                           | [] => match sc_local s with
                                   | Some m => FOk (newNode (VMap m) "__ctx")
                                   | None => FNo
                                   end
                           end
               | [] =>
                   match e with
                   | mkBinding _ _ _ _ _ _ _ _ (Some o) _ _ _ => up o
                   | _ => FNo
                   end
               end
         end) b
  end.

(** environment.go:241-256 FindInStubs *)
Fixpoint lookupStubs (stubs : list node) (path : list string) : fres :=
  match stubs with
  | [] => FNo
  | s :: r => match find false ctrl path s with
              | FOk v => if fImplied (nflags v) then lookupStubs r path else FOk v
              | FNo => lookupStubs r path
              | FPanic => FPanic
              end
  end.
Definition findInStubs (b : binding) (path : list string) : fres := lookupStubs (b_stubs b) path.
End Mode.

(** environment.go:509-540 createContext.  [version]: flow.VERSION; [dir]:
    filepath.Dir; [links]: filepath.EvalSymlinks (its error keeps the name).  The
    BINDINGS entry without bindings is an empty list of a foreign type; it is an
    empty list here. *)
Section Context.
Variable version : string.
Variables dir links : string -> string.
Definition ctxNode (v : value) : node := newNode v "__ctx".
(** environment.go:480-507 getOuters: the root maps of the outer bindings and the
    outermost marked binding.  A nil dereference of a missing root is not modelled
    here (such bindings exist only while a template is evaluated). *)
Fixpoint outerMaps (b : binding) : list node :=
  match b with
  | mkBinding _ _ _ _ _ _ _ _ (Some o) _ _ _ =>
      match b_scopes o with
      | [] => outerMaps o
      | _ => match rootScope o with
             | Some s => match sc_local s with Some m => ctxNode (VMap m) :: outerMaps o | None => outerMaps o end
             | None => outerMaps o
             end
      end
  | _ => []
  end.
Fixpoint outerBindings (b : binding) : option binding :=
  match b with
  | mkBinding _ _ _ _ _ _ _ _ (Some o) _ _ _ =>
      match outerBindings o with
      | Some x => Some x
      | None => if b_isbinding o then Some o else None
      end
  | _ => None
  end.
Definition createContext (b : binding) : node :=
  let file := b_current b in
  let real := links file in
  let outers := outerMaps b in
  let strs l := VList (map (fun s => ctxNode (VStr s)) l) in
  let bindings := match outerBindings b with
                  | Some o => ctxNode (VMap (match getRootBinding o with Some m => m | None => [] end))
                  | None => newNode (VList []) "context"
                  end in
  ctxNode (VMap (mof ([("VERSION", ctxNode (VStr version)); ("FILE", ctxNode (VStr file));
    ("DIR", ctxNode (VStr (dir file))); ("RESOLVED_FILE", ctxNode (VStr real));
    ("RESOLVED_DIR", ctxNode (VStr (dir real))); ("PATHNAME", ctxNode (VStr (joinS "." (b_path b))));
    ("PATH", ctxNode (strs (b_path b))); ("STUBPATH", ctxNode (strs (b_stubPath b)))] ++
    (match outers with [] => [] | _ => [("OUTER", ctxNode (VList outers))] end) ++
    [("BINDINGS", bindings)]))).
End Context.
