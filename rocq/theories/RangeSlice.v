(** Integer ranges and list slices on resolved bounds.
    Models dynaml/range.go:14-67 and dynaml/slice.go:27-66. No proofs here. *)
From Verif Require Import Core Str.

(** range.go:14-49 with the bounds evaluated; [size < 0] for a range expression;
    [None]: error *)
Definition getRange (start stop : option Z) (size : Z) : option (Z * Z) :=
  if (size <? 0) && (match start, stop with Some _, Some _ => false | _, _ => true end) then None
  else
    match start, stop with
    | None, None => None                                             (* 44-47 *)
    | Some s, None => Some (s, if s <? 0 then -1 else wrap64 (size - 1))      (* 25-34 *)
    | None, Some e => Some (if e <? 0 then wrap64 (- size) else 0, e)  (* 35-43 *)
    | Some s, Some e => Some (s, e)
    end.

(** range.go:61-67: for i := start; i*delta <= end*delta; i += delta.
    [None]: not finished within [fuel] tests of the loop condition *)
Fixpoint rangeLoop (fuel : nat) (i stop delta : Z) : option (list Z) :=
  match fuel with
  | O => None
  | S f => if wrap64 (i * delta) <=? wrap64 (stop * delta)
           then option_map (cons i) (rangeLoop f (wrap64 (i + delta)) stop delta)
           else Some []
  end.
(** range.go:51-67 for resolved bounds *)
Definition rangeExpr (fuel : nat) (start stop : Z) : option (list Z) :=
  rangeLoop fuel start stop (if stop <? start then -1 else 1).

(** results of slice.go: a list, an error or an index panic *)
Inductive sres (A : Type) := SOk (l : list A) | SErr | SPanic.
Arguments SOk {A}. Arguments SErr {A}. Arguments SPanic {A}.

(** the copy loop slice.go:50-53 and 59-62: result[i-start] = array[i+off] for
    [n] positions; an index outside of the array panics *)
Fixpoint copyLoop {A} (n : nat) (i : Z) (arr : list A) : sres A :=
  match n with
  | O => SOk []
  | S k => if i <? 0 then SPanic
           else match nth_error arr (Z.to_nat i) with
                | None => SPanic
                | Some x => match copyLoop k (i + 1) arr with SOk r => SOk (x :: r) | e => e end
                end
  end.

(** slice.go:31-66 *)
Definition slice {A} (arr : list A) (start stop : option Z) : sres A :=
  let len := Z.of_nat (length arr) in
  match getRange start stop len with
  | None => SErr
  | Some (s, e) =>
      if e <? s then SOk []                                        (* 39-41 *)
      else if s <? 0 then
        if 0 <=? e then SErr                                       (* 44-46 *)
        else if s <? wrap64 (- len) then SErr                      (* 47-49 *)
        else let n := wrap64 (wrap64 (e - s) + 1) in
             if n <? 0 then SPanic else copyLoop (Z.to_nat n) (wrap64 (s + len)) arr
      else
        if len <=? e then SErr                                     (* 56-58 *)
        else let n := wrap64 (wrap64 (e - s) + 1) in
             if n <? 0 then SPanic else copyLoop (Z.to_nat n) s arr
  end.

(** substr.go:5-46 on the evaluated arguments; [None]: error *)
Definition func_substr (args : list value) : option value :=
  match args with
  | [VStr s; VInt a] => option_map VStr (substr s a None)
  | [VStr s; VInt a; VInt b] => option_map VStr (substr s a (Some b))
  | _ => None
  end.
