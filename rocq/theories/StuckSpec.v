(** Expressions that wait for each other: the specification for C61.  No proofs in this file. *)
From Verif Require Import Core Str Interp FlowSpec DocSpec.
From Verif Require PropRef.
Import ListNotations.
Open Scope string_scope. Open Scope list_scope.

Section Stuck.
(** the node is the text of the expression *)
Variable text : node -> expr -> Prop.
(** the document, and a set of positions in it *)
Variable D : node.
Variable K : list string -> Prop.

(** the reference [name.rest] leads from the map at [q] to a position of [K], through
    one, or to a map around one *)
Definition meets (q : list string) (name : string) (rest : list string) : Prop :=
  exists r, K (q ++ name :: r) /\ ((exists t, rest = r ++ t) \/ (exists t, r = rest ++ t)).
(** expressions with a fixed value *)
Inductive constant : expr -> Prop :=
| k_nil : constant ENil
| k_bool b : constant (EBool b)
| k_int z : constant (EInt z)
| k_str t : constant (EStr t).
(** the operators that evaluate both operands first *)
Inductive binary : (expr -> expr -> expr) -> Prop :=
| bin_add : binary EAdd
| bin_sub : binary ESub
| bin_mul : binary EMul
| bin_div : binary EDiv
| bin_cmp op : binary (fun a b => ECmp a op b)
| bin_concat : binary EConcat.
(** [waits p e]: the value of [e] at the position [p] needs the value at a position of [K] *)
Inductive waits (p : list string) : expr -> Prop :=
| wt_ref name rest q : PropRef.named name -> enclosing D p q name -> meets q name rest -> waits p (ERef "" (name :: rest))
| wt_group e : waits p e -> waits p (EGroup e)
| wt_not e : waits p e -> waits p (ENot e)
| wt_or a b : waits p a -> waits p (EOr a b)
| wt_cond c t f : waits p c -> waits p (ECond c t f)
| wt_and a b : waits p a -> waits p (ELogAnd a b)
| wt_and2 a b : constant a -> waits p b -> waits p (ELogAnd a b)
| wt_lor a b : waits p a -> waits p (ELogOr a b)
| wt_lor2 a b : constant a -> waits p b -> waits p (ELogOr a b)
| wt_left mk a b : binary mk -> waits p a -> constant b -> waits p (mk a b)
| wt_right mk a b : binary mk -> constant a -> waits p b -> waits p (mk a b)
| wt_both mk a b : binary mk -> waits p a -> waits p b -> waits p (mk a b).
(** the expressions at the positions [K] wait for each other; around them there are
    ordinary maps only.  There is no condition on the rest of the document *)
Definition stuck : Prop :=
  (forall p, K p -> exists d e, part D p d /\ text d e /\ waits p e) /\
  (forall p k r, K (p ++ k :: r) -> exists m s, part D p (mkNode (VMap m) emptyAnn s None None) /\ msorted m /\ Forall (fun kv => ordinaryKey (fst kv)) m).
End Stuck.
