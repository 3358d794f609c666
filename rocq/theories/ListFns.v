(** List functions on evaluated arguments.
    Models dynaml/uniq.go, compact.go, intersect.go, contains.go, index.go,
    sort.go, reverse.go, keys.go, length.go, makemap.go, deepmerge.go,
    list_to_map.go, concatenation.go:36-117.  The evaluation info is left out.
    No proofs in this file. *)
From Verif Require Import Core Str DeepEq Equiv Comparison.

(** outcome of a builtin: value, reported error, panic *)
Inductive ores (A : Type) := OVal (v : A) | OErr | OPanic.
Arguments OVal {A}. Arguments OErr {A}. Arguments OPanic {A}.

(** strings.Index: least byte offset of an occurrence *)
Fixpoint indexL (p s : list ascii) (i : Z) : Z :=
  if prefixL p s then i
  else match s with [] => -1 | _ :: r => indexL p r (i + 1) end.
Definition strIndex (s p : string) : Z := indexL (chars p) (chars s) 0.
(** strings.LastIndex: greatest byte offset of an occurrence *)
Fixpoint lastIndexL (p s : list ascii) (i best : Z) : Z :=
  let best := if prefixL p s then i else best in
  match s with [] => best | _ :: r => lastIndexL p r (i + 1) best end.
Definition strLastIndex (s p : string) : Z := lastIndexL (chars p) (chars s) 0 (-1).
(** strings.Contains *)
Definition strContains (s p : string) : bool := 0 <=? strIndex s p.

Section Fns.
Variable lambdaText : value -> string.
(** binding.SourceName(), used by dynaml.NewNode *)
Variable source : string.
Definition eqb_val (a b : value) : bool := fst (compareEquals lambdaText a b).

(** uniq.go:19-34: [acc] is newList *)
Fixpoint uniq_loop (l acc : list node) : list node :=
  match l with
  | [] => acc
  | v :: r => if existsb (fun n => eqb_val (val v) (val n)) acc
              then uniq_loop r acc else uniq_loop r (acc ++ [v])
  end.
(** uniq.go:7-36 *)
Definition func_uniq (args : list value) : ores value :=
  match args with
  | [VList l] => OVal (VList (uniq_loop l []))
  | _ => OErr
  end.

(** compact.go:25-42 *)
Definition nonempty (n : node) : bool :=
  match val n with
  | VNil => false
  | VStr s => negb (Nat.eqb (String.length s) 0)
  | VMap m => negb (Nat.eqb (length m) 0)
  | VList l => negb (Nat.eqb (length l) 0)
  | _ => true
  end.
Definition func_compact (args : list value) : ores value :=
  match args with
  | [VList l] => OVal (VList (filter nonempty l))
  | _ => OErr
  end.

(** intersect.go:11-45.  [nilslice i]: the i-th argument is a nil slice (an empty
    list of Go's zero value, as uniq and compact yield for empty results); the
    result is [None] as long as the Go variable is a nil slice. *)
Fixpoint intersect_loop (args : list value) (nilslice : nat -> bool) (i : nat) (result : option (list node)) : ores value :=
  match args with
  | [] => OVal (VList (match result with Some l => l | None => [] end))
  | VList alist :: r =>
      match result with
      | None => intersect_loop r nilslice (S i) (if nilslice i then None else Some alist)
      | Some res => intersect_loop r nilslice (S i)
                      (Some (filter (fun e => existsb (fun n => eqb_val (val e) (val n)) alist) res))
      end
  | VNil :: r => intersect_loop r nilslice (S i) result
  | _ :: _ => OErr
  end.
Definition func_intersect (args : list value) (nilslice : nat -> bool) : ores value :=
  intersect_loop args nilslice 0 None.

(** the texts searched by contains.go:41-50 and index.go:41-50 *)
Definition searchText (v : value) : option string :=
  match v with VStr s => Some s | VInt z => Some (itoa z) | VBool b => Some (btoa b) | _ => None end.

(** contains.go:10-55 *)
Definition func_contains (args : list value) : ores value :=
  match args with
  | [VMap m; e] =>
      match e with
      | VStr k => OVal (VBool (match mget k m with Some _ => true | None => false end))
      | _ => OVal (VBool false)
      end
  | [VList l; e] =>
      match e with
      | VNil => OVal (VBool false)
      | _ => OVal (VBool (existsb (fun n => eqb_val (val n) e) l))
      end
  | [VStr s; e] => match searchText e with
                   | Some p => OVal (VBool (strContains s p))
                   | None => OErr
                   end
  | _ => OErr
  end.

(** index.go:28-39 *)
Fixpoint index_loop (l : list node) (e : value) (first : bool) (i found : Z) : Z :=
  match l with
  | [] => found
  | v :: r => if eqb_val (val v) e then (if first then i else index_loop r e first (i + 1) i)
              else index_loop r e first (i + 1) found
  end.
(** index.go:9-56 func_index ([first = true]) and func_lastindex *)
Definition func_index (first : bool) (args : list value) : ores value :=
  match args with
  | [VList l; e] =>
      match e with
      | VNil => OVal (VGoInt (-1))
      | _ => OVal (VInt (index_loop l e first 0 (-1)))
      end
  | [VStr s; e] => match searchText e with
                   | Some p => OVal (VInt (if first then strIndex s p else strLastIndex s p))
                   | None => OErr
                   end
  | _ => OErr
  end.

(** sort.SliceStable (Go standard library) as insertion sort: the element is
    moved left past all elements it is less than ([racc]: sorted prefix,
    reversed).  Go uses exactly this for blocks of 20 elements and merges the
    blocks stably.  [None]: the comparison raised an error. *)
Fixpoint sinsert (less : node -> node -> option bool) (x : node) (racc : list node) : option (list node) :=
  match racc with
  | [] => Some [x]
  | y :: r => match less x y with
              | None => None
              | Some true => option_map (cons y) (sinsert less x r)
              | Some false => Some (x :: y :: r)
              end
  end.
Fixpoint sort_loop (less : node -> node -> option bool) (l racc : list node) : option (list node) :=
  match l with
  | [] => Some (rev racc)
  | x :: r => match sinsert less x racc with
              | None => None
              | Some racc' => sort_loop less r racc'
              end
  end.
(** sort.go:40-58 ValueLess *)
Definition valueLess (a b : node) : option bool :=
  match val a, val b with
  | VStr x, VStr y => Some (match String.compare x y with Lt => true | _ => false end)
  | VInt x, VInt y => Some (x <? y)
  | _, _ => None
  end.
(** sort.go:60-78 LambdaLess: [ev] evaluates the lambda for two values; [None] is
    an error or a still unresolved result (both end the sort) *)
Definition lambdaLess (ev : value -> value -> option value) (a b : node) : option bool :=
  match ev (val a) (val b) with
  | Some (VBool r) => Some r
  | Some (VInt i) => Some (i <? 0)
  | _ => None
  end.
(** sort.go:8-36 *)
Definition func_sort (ev : value -> value -> value -> option value) (args : list value) : ores value :=
  match args with
  | [VList l] => match sort_loop valueLess l [] with Some r => OVal (VList r) | None => OErr end
  | [VList l; VLambda ps va b st rs] =>
      match sort_loop (lambdaLess (ev (VLambda ps va b st rs))) l [] with Some r => OVal (VList r) | None => OErr end
  | _ => OErr
  end.

(** keys.go:7-24 *)
Definition func_keys (args : list value) : ores value :=
  match args with
  | [VMap m] => OVal (VList (map (fun k => newNode (VStr k) source) (mkeys m)))
  | _ => OErr
  end.
(** length.go:7-27 *)
Definition func_length (args : list value) : ores value :=
  match args with
  | [VList l] => OVal (VInt (Z.of_nat (length l)))
  | [VMap m] => OVal (VInt (Z.of_nat (length m)))
  | [VStr s] => OVal (VInt (Z.of_nat (String.length s)))
  | _ => OErr
  end.

(** makemap.go:19-46: one list of entries with key and value *)
Fixpoint makemap_list (l : list node) (acc : smap node) : ores value :=
  match l with
  | [] => OVal (VMap acc)
  | e :: r =>
      match val e with
      | VMap m =>
          match mget "key" m with
          | Some k => match searchText (val k) with
                      | Some key => match mget "value" m with
                                    | Some v => makemap_list r (mset key v acc)
                                    | None => OErr
                                    end
                      | None => OErr
                      end
          | None => OErr
          end
      | _ => OErr
      end
  end.
(** makemap.go:47-62: pairs of arguments *)
Fixpoint makemap_pairs (args : list value) (acc : smap node) : ores value :=
  match args with
  | k :: v :: r => match searchText k with
                   | Some key => makemap_pairs r (mset key (newNode v source) acc)
                   | None => OErr
                   end
  | _ => OVal (VMap acc)
  end.
(** makemap.go:8-67 *)
Definition func_makemap (args : list value) : ores value :=
  match args with
  | [VList l] => makemap_list l []
  | [_] => OErr
  | _ => if Nat.even (length args) then makemap_pairs args [] else OErr
  end.

(** concatenation.go:110-114: a[k] = v for all entries of b *)
Definition concatenateMap (a b : smap node) : smap node := fold_left (fun m kv => mset (fst kv) (snd kv) m) b a.

(** mapmerge.go:35-49 getMap; templates are copied (node_copy keeps the value) *)
Definition getMap (v : value) : option (smap node) :=
  match v with
  | VTemplate _ p _ _ => match val p with VMap m => Some m | _ => None end
  | VMap m => Some m
  | _ => None
  end.
Fixpoint getMaps (l : list value) : option (list (smap node)) :=
  match l with
  | [] => Some []
  | v :: r => match getMap v, getMaps r with
              | Some m, Some ms => Some (m :: ms)
              | _, _ => None
              end
  end.
(** mapmerge.go:51-79 getMapList *)
Definition getMapList (args : list value) : option (list (smap node)) :=
  match args with
  | [VList l] => match getMaps (map val l) with
                 | Some [] => None
                 | o => o
                 end
  | _ => getMaps args
  end.

(** deepmerge.go:26-36 deepmerge(result, m): the loop over m is recursive in the
    entries of m that are maps on both sides *)
Fixpoint deepmergeN (old new : node) {struct new} : node :=
  match new with
  | mkNode v a s t r =>
      match v, val old with
      | VMap m, VMap m0 =>
          newNode (VMap ((fix go (m : list (string * node)) (acc : smap node) : smap node :=
             match m with
             | [] => acc
             | (k, x) :: q =>
                 go q (mset k (match mget k acc with Some o => deepmergeN o x | None => x end) acc)
             end) m m0)) "<deepmerge>"
      | _, _ => new
      end
  end.
Definition deepmerge (result m : smap node) : smap node :=
  fold_left (fun acc kv => mset (fst kv) (match mget (fst kv) acc with
                                          | Some o => deepmergeN o (snd kv)
                                          | None => snd kv end) acc) m result.
(** deepmerge.go:7-24 *)
Definition func_deepmerge (args : list value) : ores value :=
  match args with
  | [] => OErr
  | _ => match getMapList args with
         | Some ms => OVal (VMap (fold_left deepmerge ms []))
         | None => OErr
         end
  end.

(** list_to_map.go:48-75 listToMap *)
Fixpoint listToMapK_loop (l : list node) (key : string) (acc : smap node) : option (smap node) :=
  match l with
  | [] => Some acc
  | x :: r =>
      match val x with
      | VMap m => match mget key m with
                  | Some kv => match val kv with
                               | VStr k => listToMapK_loop r key (mset k (substituteNodeV (VMap (mdel key m)) x) acc)
                               | _ => None
                               end
                  | None => None
                  end
      | _ => None
      end
  end.
(** list_to_map.go:8-46; [keyName]: the key name known for the list expression *)
Definition func_list_to_map (keyName : string) (args : list value) : ores value :=
  let key := if String.eqb keyName "" then "name" else keyName in
  let run l key := match listToMapK_loop l key [] with Some m => OVal (VMap m) | None => OErr end in
  match args with
  | [VList l] => run l key
  | [VList l; VStr k] => run l k
  | _ => OErr
  end.

(** concatenation.go:82-107 concatenateString *)
Definition concatenateString (a b : value) : option string :=
  match searchText a with
  | None => None
  | Some x => match b with
              | VLambda _ _ _ _ _ => Some (x +++ lambdaText b)%string
              | _ => match searchText b with Some y => Some (x +++ y)%string | None => None end
              end
  end.
(** concatenation.go:40-77 on evaluated operands.  [NewNode(b, info)] has the
    source name of the evaluation info. *)
Definition op_concat (a b : value) : ores value :=
  match concatenateString a b with
  | Some s => OVal (VStr s)
  | None =>
      match a with
      | VList l => match b with
                   | VList l' => OVal (VList (l ++ l'))
                   | VNil => OVal a
                   | _ => OVal (VList (l ++ [newNode b source]))
                   end
      | VMap m => match b with
                  | VMap m' => OVal (VMap (concatenateMap (concatenateMap [] m) m'))
                  | VNil => OVal a
                  | _ => OErr
                  end
      | _ => OErr
      end
  end.
End Fns.

(** reverse.go:20-24: list[i], list[max-i] = list[max-i], list[i] for
    i < (max+1)/2, in place *)
Fixpoint lset {A} (i : nat) (x : A) (l : list A) : list A :=
  match i, l with
  | _, [] => []
  | O, _ :: r => x :: r
  | S k, y :: r => y :: lset k x r
  end.
Definition lswap {A} (i j : nat) (l : list A) : list A :=
  match nth_error l i, nth_error l j with
  | Some x, Some y => lset j x (lset i y l)
  | _, _ => l
  end.
Fixpoint reverse_loop {A} (n i : nat) (l : list A) : list A :=
  match n with
  | O => l
  | S k => reverse_loop k (S i) (lswap i (length l - 1 - i) l)
  end.
Definition reverseL {A} (l : list A) : list A := reverse_loop (Nat.div2 (length l)) 0 l.
Definition func_reverse (args : list value) : ores value :=
  match args with
  | [VList l] => OVal (VList (reverseL l))
  | _ => OErr
  end.
