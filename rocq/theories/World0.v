(** A small concrete world for examples: no functions beyond those of Eval.v, no
    tags, no sync; the parser is a table of texts. *)
From Verif Require Import Core Str Interp Find Cleanup Unresolved DeepEq Env Arith IP Comparison RangeSlice ListFns Flow Info Eval Control Engine EngineFacts.

Definition net0 : netx := net4.
Definition worldS (parse : string -> option expr) (show : expr -> string) : world (nat -> value) := mkWorld (nat -> value)
  true true (fun _ => newNode (VMap []) "__ctx") (fun s _ _ => parse s) (fun s => s) show
  net0 (fun _ => ""%string) (fun _ _ _ _ s => (true, s)) (fun _ _ => [])
  (fun i s => s i) (fun i v s j => if Nat.eqb i j then v else s j) (fun _ => noIssue)
  (fun _ _ _ _ _ _ _ => ret _ None) (fun _ _ _ _ => ret _ (VNil, defaultInfo, false)).
Definition world0 (parse : string -> option expr) : world (nat -> value) := worldS parse (fun _ => ""%string).
Lemma world0_steady : forall parse, steadyWorld (world0 parse).
Proof. intro parse. split; intros; apply le_refl. Qed.
Definition noParse (s : string) : option expr := None.
Definition st0 : nat -> value := fun _ => VNil.
(** an environment with the map [m] as innermost scope *)
Definition env0 (m : smap node) : binding := withScope m (newEnvironment [] "template").
Definition nd (v : value) : node := newNode v "template".
