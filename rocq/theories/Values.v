(** Values given on the command line, -D key=value (cmd/merge.go:80-98, 153-172,
    401-439).  No proofs in this file. *)
From Verif Require Import Core Str.
Import ListNotations.

Definition BS : ascii := "\".
Definition DOT : ascii := ".".

(** merge.go:407-411: the text without its trailing backslashes, and their number *)
Fixpoint stripBS (l : list ascii) : list ascii * nat :=
  match l with
  | [] => ([], O)
  | c :: r => match stripBS r with
              | ([], k) => if Ascii.eqb c BS then ([], S k) else ([c], k)
              | (r', k) => (c :: r', k)
              end
  end.
(** merge.go:403-422: the loop over the components; [cur] is comps[i], [rest] are the
    following ones; None: empty component *)
Fixpoint unmask (cur : list ascii) (rest : list (list ascii)) : option (list (list ascii)) :=
  match rest with
  | [] => Some [cur]
  | d :: r =>
      match cur with
      | [] => None
      | _ =>
          let '(base, mask) := stripBS cur in
          let base := base ++ repeat BS (Nat.div2 mask) in
          if Nat.odd mask then unmask (base ++ DOT :: d) r
          else option_map (cons base) (unmask d r)
      end
  end.
(** merge.go:402-422: the components of a path; strings.Split is never empty *)
Definition pathOf (name : string) : option (list string) :=
  match split name "." with
  | [] => None
  | c :: r => option_map (map ofchars) (unmask (chars c) (map chars r))
  end.

(** merge.go:423-437: descend and set; None: a field on the way is no map.  The maps
    of the code are changed in place; here the changed tree is returned.  An
    error ends the program, so a partial change is not observable *)
Fixpoint setAt (m : smap node) (comps : list string) (v : node) : option (smap node) :=
  match comps with
  | [] => None
  | [c] => Some (mset c v m)
  | c :: r =>
      match mget c m with
      | None => option_map (fun x => mset c (newNode (VMap x) "<values>") m) (setAt [] r v)
      | Some n => match val n with
                  | VMap n' => option_map (fun x => mset c (replaceValue (VMap x) n) m) (setAt n' r v)
                  | _ => None
                  end
      end
  end.
(** merge.go:401-439 addValue *)
Definition addValue (m : smap node) (name : string) (v : node) : option (smap node) :=
  match pathOf name with
  | Some p => setAt m p v
  | None => None
  end.

(** merge.go:80-98 createValuesFromArgs; later definitions of a key win *)
Definition parseDef (s : string) : option (string * string) :=
  match split s "=" with
  | [k; v] => if String.eqb k "" then None else Some (k, v)
  | _ => None
  end.
Fixpoint parseDefs (l : list string) (m : smap string) : option (smap string) :=
  match l with
  | [] => Some m
  | s :: r => match parseDef s with Some (k, v) => parseDefs r (mset k v m) | None => None end
  end.
(** merge.go:161-166 *)
Definition defNode (v : string) : node :=
  newNode (match parseInt v with Some z => VInt z | None => VStr v end) "<values>".
(** merge.go:160-171: the definitions are applied in the order [l] in which the map
    is traversed, which is not determined *)
Fixpoint addValues (m : smap node) (l : list (string * string)) : option (smap node) :=
  match l with
  | [] => Some m
  | (k, v) :: r => match addValue m k (defNode v) with Some m' => addValues m' r | None => None end
  end.
