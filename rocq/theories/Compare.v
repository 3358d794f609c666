(** compare/compare.go: the structural diff of two documents (spiff diff).
    No proofs in this file. *)
From Verif Require Import Core Str DeepEq Find.

(** compare.go:10-15; [None] is nil *)
Record diff := mkDiff { d_a : option node; d_b : option node; d_path : list string }.

(** outcome: the differences, a panic, or the recursion bound was too small
    (cannot happen with the bound used by [Compare]) *)
Inductive cres := COk (l : list diff) | CPanic | CFuel.
Definition capp (r1 r2 : cres) : cres :=
  match r1 with
  | COk l1 => match r2 with COk l2 => COk (l1 ++ l2) | e => e end
  | e => e
  end.
Definition cconcat (l : list cres) : cres := fold_right capp (COk []) l.

(** yaml.FindString(n, nil, "name"), yaml/find.go:39-50; without features the
    control flag is off *)
Definition findName (n : node) : option string :=
  match find false false ["name"] n with
  | FOk c => match val c with VStr s => Some s | _ => None end
  | _ => None
  end.

(** compare.go:67-91; duplicates: the last one wins; None = nil map *)
Fixpoint listToMap_loop (l : list node) (acc : smap node) : option (smap node) :=
  match l with
  | [] => Some acc
  | x :: r =>
      match findName x with
      | None => None
      | Some name =>
          match val x with
          | VMap m => listToMap_loop r (mset name (substituteNodeV (VMap (mdel "name" m)) x) acc)
          | _ => None
          end
      end
  end.
Definition listToMap (l : list node) : option (smap node) := listToMap_loop l [].

(** compare.go:149-164; None = panic.  The entry "index" is also written into
    the map of the original document; this side effect is left out. *)
Fixpoint jobMap_loop (l : list node) (i : Z) (acc : smap node) : option (smap node) :=
  match l with
  | [] => Some acc
  | x :: r =>
      match val x with
      | VMap m =>
          match findName x with
          | Some name => jobMap_loop r (i + 1)
                           (mset name (newNode (VMap (mset "index" (newNode (VInt i) (src x)) m)) (src x)) acc)
          | None => None
          end
      | _ => None
      end
  end.
Definition jobMap (l : list node) : option (smap node) := jobMap_loop l 0 [].

(** fmt.Sprintf("[%d]", index) *)
Definition indexKey (i : nat) : string := ("[" +++ itoa (Z.of_nat i) +++ "]")%string.

(** compare.go:180-193 findByName *)
Fixpoint findByName (name : string) (l : list node) : option node :=
  match l with
  | [] => None
  | x :: r => match findName x with
              | Some s => if String.eqb s name then Some x else findByName name r
              | None => findByName name r
              end
  end.
(** compare.go:166-178,195-203 findByNameOrIndex, findByIndex *)
Definition findByNameOrIndex (n : node) (others : list node) (i : nat) : string * option node :=
  match findName n with
  | Some name => match findByName name others with
                 | Some y => (name, Some y)
                 | None => (indexKey i, nth_error others i)
                 end
  | None => (indexKey i, nth_error others i)
  end.

Section Rec.
Variable rec : node -> node -> list string -> cres.
(** compare.go:93-113; the iteration order of Go's maps is not fixed, here it is
    the order of the keys *)
Definition compareMap (m m' : smap node) (path : list string) : cres :=
  capp
    (cconcat (map (fun kv => match mget (fst kv) m' with
                             | Some y => rec (snd kv) y (path ++ [fst kv])
                             | None => COk [mkDiff (Some (snd kv)) None (path ++ [fst kv])]
                             end) m))
    (cconcat (map (fun kv => match mget (fst kv) m with
                             | Some _ => COk []
                             | None => COk [mkDiff None (Some (snd kv)) (path ++ [fst kv])]
                             end) m')).
(** compare.go:122-131 *)
Fixpoint listLoopA (l : list node) (i : nat) (others : list node) (path : list string) : cres :=
  match l with
  | [] => COk []
  | x :: r =>
      let '(key, found) := findByNameOrIndex x others i in
      capp (match found with
            | Some y => rec x y (path ++ [key])
            | None => COk [mkDiff (Some x) None (path ++ [key])]
            end) (listLoopA r (S i) others path)
  end.
(** compare.go:133-140 *)
Fixpoint listLoopB (l : list node) (i lenA : nat) (path : list string) : cres :=
  match l with
  | [] => COk []
  | y :: r => capp (if Nat.leb lenA i then COk [mkDiff None (Some y) (path ++ [indexKey i])] else COk [])
                   (listLoopB r (S i) lenA path)
  end.
(** compare.go:145-147 *)
Definition compareJobs (l l' : list node) (path : list string) : cres :=
  match jobMap l, jobMap l' with
  | Some m, Some m' => compareMap m m' path
  | _, _ => CPanic
  end.
(** compare.go:115-143 *)
Definition compareList (l l' : list node) (path : list string) : cres :=
  if match path with [s] => String.eqb s "jobs" | _ => false end
  then compareJobs l l' path
  else capp (listLoopA l 0 l' path) (listLoopB l' 0 (length l) path).
End Rec.

(** compare.go:21-65; the comparison of two scalars (!= on interfaces) agrees
    with DeepEqual on them *)
Fixpoint compareF (fuel : nat) (a b : node) (path : list string) : cres :=
  match fuel with
  | O => CFuel
  | S f =>
      let mismatch := COk [mkDiff (Some a) (Some b) path] in
      match val a with
      | VMap m =>
          match val b with
          | VMap m' => compareMap (compareF f) m m' path
          | VList l' => match listToMap l' with
                        | Some m' => compareMap (compareF f) m m' path
                        | None => mismatch
                        end
          | _ => mismatch
          end
      | VList l => match val b with
                   | VList l' => compareList (compareF f) l l' path
                   | _ => mismatch
                   end
      | v => if deepEqV v (val b) then COk [] else mismatch
      end
  end.

(** nesting depth of a document *)
Fixpoint depthN (n : node) : nat :=
  match n with
  | mkNode v _ _ _ _ =>
      match v with
      | VList l => S (fold_right Nat.max 0%nat (map depthN l))
      | VMap m => S (fold_right Nat.max 0%nat (map (fun kv => match kv with (_, x) => depthN x end) m))
      | _ => 1%nat
      end
  end.

(** compare.go:17-19 *)
Definition Compare (a b : node) : cres := compareF (depthN a) a b [].

(** cmd/diff.go:63-81: whether "no differences" is reported for two streams of
    documents; [None]: panic *)
Fixpoint diffDocs (l : list (node * node)) : option bool :=
  match l with
  | [] => Some true
  | (a, b) :: r =>
      match Compare a b with
      | COk d => option_map (andb (match d with [] => true | _ => false end)) (diffDocs r)
      | _ => None
      end
  end.
Definition noDifferences (l l' : list node) : option bool :=
  if Nat.eqb (length l) (length l') then diffDocs (combine l l') else Some false.
