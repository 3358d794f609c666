(** Go slices in a heap of arrays: what dynaml/concatenation.go:71-77 (append),
    reverse.go:20-25, sort.go:33-36 and yaml/parser.go:92-105 (Sanitize of a list) do to
    the memory.  Elements are of any type.  No proofs in this file. *)
From Verif Require Import Core ListFns.

Local Open Scope nat_scope.
Section Heap.
Variable A : Type.
(** contents of the unused cells of a new array (the nil interface) *)
Variable zero : A.
(** runtime.growslice: the capacity chosen for an old capacity and a needed length;
    the result is at least the needed length *)
Variable grow : nat -> nat -> nat.

(** the arrays, addressed by their number *)
Definition heap := list (list A).
Record slice := mkSlice { s_arr : nat; s_off : nat; s_len : nat }.
Definition array (h : heap) (a : nat) : list A := nth a h [].
(** cap(s) *)
Definition capacity (h : heap) (s : slice) : nat := length (array h (s_arr s)) - s_off s.
(** the elements of a slice *)
Definition read (h : heap) (s : slice) : list A := firstn (s_len s) (skipn (s_off s) (array h (s_arr s))).
(** copy of [xs] to the cells starting at [i] *)
Definition overwrite (i : nat) (xs l : list A) : list A := firstn i l ++ xs ++ skipn (i + length xs) l.
Fixpoint updateA (a : nat) (l : list A) (h : heap) : heap :=
  match a, h with
  | _, [] => []
  | O, _ :: r => l :: r
  | S k, x :: r => x :: updateA k l r
  end.

(** append(s, xs...): in place if the capacity suffices, else in a new array *)
Definition append (h : heap) (s : slice) (xs : list A) : heap * slice :=
  let n := s_len s + length xs in
  if Nat.leb n (capacity h s)
  then (updateA (s_arr s) (overwrite (s_off s + s_len s) xs (array h (s_arr s))) h, mkSlice (s_arr s) (s_off s) n)
  else let l := read h s ++ xs in
       let c := Nat.max n (grow (capacity h s) n) in
       (h ++ [l ++ repeat zero (c - n)], mkSlice (length h) 0 n).

(** concatenation.go:71-77: append(alist, blist...) *)
Definition concatLists (h : heap) (a b : slice) : heap * slice := append h a (read h b).
(** concatenation.go:77: append(alist, node) *)
Definition concatElem (h : heap) (a : slice) (x : A) : heap * slice := append h a [x].

(** yaml/parser.go:92-105: a list built from an empty slice by single appends *)
Fixpoint appendAll (h : heap) (s : slice) (xs : list A) : heap * slice :=
  match xs with
  | [] => (h, s)
  | x :: r => let '(h', s') := append h s [x] in appendAll h' s' r
  end.
Definition buildList (h : heap) (xs : list A) : heap * slice := appendAll (h ++ [[]]) (mkSlice (length h) 0 0) xs.

(** replacement of the elements of a slice in place *)
Definition writeBack (h : heap) (s : slice) (l : list A) : heap :=
  updateA (s_arr s) (overwrite (s_off s) l (array h (s_arr s))) h.
(** reverse.go:20-25 *)
Definition reverseH (h : heap) (s : slice) : heap * slice := (writeBack h s (reverseL (read h s)), s).
(** sort.go:33-36 with a sorting function for the elements *)
Definition sortH (sorted : list A -> list A) (h : heap) (s : slice) : heap * slice :=
  (writeBack h s (sorted (read h s)), s).
End Heap.
