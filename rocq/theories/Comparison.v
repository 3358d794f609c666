(** The comparison operators on resolved operand values.
    Models dynaml/comparison.go:34-83 (ComparisonExpr.Evaluate after operand
    evaluation) and comparison.go:89-229 (compareEquals).  The evaluation info is
    left out.  No proofs in this file. *)
From Verif Require Import Core Str DeepEq Equiv.

(** strings.ToLower.  Only ASCII letters are mapped: no other character is mapped
    to one of the letters of the boolean literals, so the result of [parseBool]
    is not affected. *)
Definition lowerC (c : ascii) : ascii :=
  if (65 <=? bytev c) && (bytev c <=? 90) then byteof (bytev c + 32) else c.
Fixpoint lowerS (s : string) : string :=
  match s with EmptyString => EmptyString | String c r => String (lowerC c) (lowerS r) end.

(** strconv.ParseBool *)
Definition parseBool (s : string) : option bool :=
  if existsb (String.eqb s) ["1"; "t"; "T"; "TRUE"; "true"; "True"] then Some true
  else if existsb (String.eqb s) ["0"; "f"; "F"; "FALSE"; "false"; "False"] then Some false
  else None.

Section Cmp.
(** LambdaValue.String(), dynaml/lambda.go:203-209 *)
Variable lambdaText : value -> string.

Definition isComparable (v : value) : bool :=
  match v with VLambda _ _ _ _ _ | VTemplate _ _ _ _ => true | _ => false end.

(** comparison.go:105-225 for operands that are neither lists nor maps (va) *)
Definition cmpScalar (va vb : value) : bool * bool :=
  match va with
  | VStr x =>                                                     (* 106-125 *)
      match vb with
      | VStr y => (String.eqb x y, true)
      | VInt z => (String.eqb x (itoa z), true)
      | VLambda _ _ _ _ _ => (String.eqb x (lambdaText vb), true)
      | VBool b => (String.eqb x (btoa b), true)
      | _ => (false, false)
      end
  | VInt x =>                                                     (* 127-154 *)
      match vb with
      | VStr s => match parseInt s with Some y => (x =? y, true) | None => (false, true) end
      | VInt y => (x =? y, true)
      | VBool b => (x =? (if b then 1 else 0), true)
      | _ => (false, true)
      end
  | VBool x =>                                                    (* 156-177 *)
      match vb with
      | VBool y => (Bool.eqb x y, true)
      | VStr s => match parseBool (lowerS s) with Some y => (Bool.eqb x y, true) | None => (false, true) end
      | _ => (false, true)
      end
  | _ => if isComparable va && isComparable vb then (equivV va vb, true)   (* 179-182 *)
         else (false, true)                                       (* 227-228 *)
  end.

(** comparison.go:89-229: (result, ok) *)
Fixpoint compareEquals (a b : value) {struct b} : bool * bool :=
  match a, b with
  | VNil, VNil => (true, true)                                    (* 94-97 *)
  | VNil, _ => (false, false)                                     (* 98-99 *)
  | _, VNil => (false, false)                                     (* 100-104 *)
  | VList l, VList l' =>                                          (* 184-197 *)
      (if negb (Nat.eqb (length l) (length l')) then false else
       (fix go (l l' : list node) {struct l'} : bool :=
          match l, l' with
          | x :: r, y :: s =>
              (match y with mkNode w _ _ _ _ => fst (compareEquals (val x) w) end) && go r s
          | _, _ => true
          end) l l', true)
  | VMap m, VMap m' =>                                            (* 199-224 *)
      (if negb (Nat.eqb (length m) (length m')) then false else
       (fix go (m' : list (string * node)) : bool :=
          match m' with
          | [] => true
          | (k, y) :: s =>
              match mget k m with
              | Some x => match y with mkNode w _ _ _ _ => fst (compareEquals (val x) w) end
              | None => false
              end && go s
          end) m', true)
  | VList _, _ | VMap _, _ => (false, true)
  | _, _ => cmpScalar a b
  end.

(** comparison.go:50-77: the ordering operators on strings use Go's string
    comparison (bytewise lexicographic) *)
Definition cmpOrd (op : string) (c : comparison) : bool :=
  if String.eqb op "<=" then match c with Gt => false | _ => true end
  else if String.eqb op "<" then match c with Lt => true | _ => false end
  else if String.eqb op ">" then match c with Gt => true | _ => false end
  else if String.eqb op ">=" then match c with Lt => false | _ => true end
  else false.

(** comparison.go:34-83; [None]: error *)
Definition op_cmp (op : string) (a b : value) : option value :=
  if String.eqb op "==" then
    let '(r, ok) := compareEquals a b in if ok then Some (VBool r) else None
  else if String.eqb op "!=" then
    let '(r, ok) := compareEquals a b in if ok then Some (VBool (negb r)) else None
  else if existsb (String.eqb op) ["<="; "<"; ">"; ">="] then
    match a with
    | VInt x => match b with VInt y => Some (VBool (cmpOrd op (Z.compare x y))) | _ => None end
    | VStr x => match b with VStr y => Some (VBool (cmpOrd op (String.compare x y))) | _ => None end
    | _ => Some (VBool false)
    end
  else Some (VBool false).
End Cmp.
