(** flow/cascade.go:55-127.  No proofs in this file. *)
From Verif Require Import Core Str Interp.

(** flow/cascade.go:98-123 Cleanup for test functions that keep or drop a node.
    A CleanupFunction returns the node (or nil) and the function for the level
    below; [test q] with the next state [St] stands for it. *)
Section Filter.
Variable St : Type.
Variable test : St -> node -> bool * St.
Fixpoint cleanup (q : St) (n : node) {struct n} : node :=
  match n with
  | mkNode v a s t r =>
      let v' := match v with
        | VList l =>
            VList ((fix go (l : list node) : list node :=
                      match l with
                      | [] => []
                      | e :: r => let '(keep, q') := test q e in
                                  if keep then cleanup q' e :: go r else go r
                      end) l)
        | VMap m =>
            VMap ((fix go (m : list (string * node)) : list (string * node) :=
                     match m with
                     | [] => []
                     | (k, e) :: r => let '(keep, q') := test q e in
                                      if keep then (k, cleanup q' e) :: go r else go r
                     end) m)
        | _ => v
        end in
      mkNode v' a s t r
  end.
End Filter.

(** flow/cascade.go:55-60 *)
Definition discardTemporary (_ : unit) (n : node) : bool * unit :=
  (negb (fTemporary (nflags n) || fLocal (nflags n)), tt).
(** flow/cascade.go:78-83 *)
Definition discardLocal (_ : unit) (n : node) : bool * unit := (negb (fLocal (nflags n)), tt).
(** flow/cascade.go:85-94: [true] is keepAll, [false] DiscardNonState *)
Definition discardNonState (all : bool) (n : node) : bool * bool :=
  if all then (true, true)
  else if fState (nflags n) then (true, true) else (false, false).

(** flow/cascade.go:34-37 *)
Definition dropTemporary (n : node) : node := cleanup unit discardTemporary tt n.
(** flow/cascade.go:26 *)
Definition dropLocal (n : node) : node := cleanup unit discardLocal tt n.
(** flow/cascade.go:125-127 DetermineState, cmd/merge.go:299 *)
Definition determineState (n : node) : node := cleanup bool discardNonState false n.

(** flow/cascade.go:62-67 discardTags under Cleanup (flow/state.go:203): every
    node except the root loses its tag *)
Fixpoint dropTags1 (n : node) : node :=
  match n with
  | mkNode v a s t r =>
      let v' := match v with
        | VList l => VList (map dropTags1 l)
        | VMap m => VMap (map (fun p => match p with (k, e) => (k, dropTags1 e) end) m)
        | _ => v
        end in
      mkNode v' (if String.eqb (a_tag a) "" then a else aSetTag "" a) s t r
  end.
Definition dropTags (n : node) : node :=
  match n with
  | mkNode (VList l) a s t r => mkNode (VList (map dropTags1 l)) a s t r
  | mkNode (VMap m) a s t r => mkNode (VMap (map (fun p => (fst p, dropTags1 (snd p))) m)) a s t r
  | _ => n
  end.

Section Unescape.
Variable quote : string -> string.
Variable interpol : bool.
(** flow/cascade.go:69-76 under Cleanup: test first (UnescapeDynaml on the node),
    then the children of the result.  UnescapeDynaml keeps the children, so the
    children are treated first here and the node afterwards; its tests look at
    keys and strings of the node only. *)
Fixpoint unescape1 (n : node) : node :=
  match n with
  | mkNode v a s t r =>
      let v' := match v with
        | VList l => VList (map unescape1 l)
        | VMap m => VMap (map (fun p => match p with (k, e) => (k, unescape1 e) end) m)
        | _ => v
        end in
      unescapeDynaml quote (mkNode v' a s t r) interpol
  end.
(** the root itself is not tested *)
Definition unescapeDoc (n : node) : node :=
  match n with
  | mkNode (VList l) a s t r => mkNode (VList (map unescape1 l)) a s t r
  | mkNode (VMap m) a s t r => mkNode (VMap (map (fun p => (fst p, unescape1 (snd p))) m)) a s t r
  | _ => n
  end.
End Unescape.
