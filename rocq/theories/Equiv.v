(** yaml/node.go:465-515 EquivalentToNode, dynaml/lambda.go:173-176,
    dynaml/template.go:85-88.  No proofs in this file. *)
From Verif Require Import Core DeepEq.

(** yaml/node.go:465-515. Different dynamic types are never equivalent. *)
Fixpoint equivN (a b : node) {struct a} : bool :=
  match a, b with
  | mkNode va _ _ _ _, mkNode vb _ _ _ _ => equivV va vb
  end
with equivV (va vb : value) {struct va} : bool :=
  match va, vb with
  | VMap m, VMap m' =>                                    (* node.go:478-498 *)
      Nat.eqb (length m) (length m') &&
      (fix go (m : list (string * node)) : bool :=
         match m with
         | [] => true
         | (k, n) :: r => match mget k m' with
                          | Some n' => equivN n n'
                          | None => false
                          end && go r
         end) m
  | VList l, VList l' =>                                  (* node.go:500-514 *)
      (fix go (l l' : list node) : bool :=
         match l, l' with
         | [], [] => true
         | x :: r, y :: s => equivN x y && go r s
         | _, _ => false
         end) l l'
  | VLambda ps va b _ _, VLambda ps' va' b' _ _ => deepEqE (ELambda ps va b) (ELambda ps' va' b')
  | VTemplate _ _ o _, VTemplate _ _ o' _ => equivN o o'
  | VMap _, _ | VList _, _ | VLambda _ _ _ _ _, _ | VTemplate _ _ _ _, _ => false
  | _, _ => deepEqV va vb
  end.
