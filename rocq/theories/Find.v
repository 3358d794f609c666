(** yaml/find.go.  [raw] and [ctrl] (features.ControlEnabled()) are the mode
    parameters.  A step may panic (index far below zero, index text beyond the
    int range).  No proofs in this file. *)
From Verif Require Import Core Str.

Inductive fres := FOk (n : node) | FNo | FPanic.
Definition fbind (r : fres) (k : node -> fres) : fres :=
  match r with FOk n => k n | FNo => FNo | FPanic => FPanic end.

(** yaml/find.go:156-165 IsMapResolved *)
Definition mapResolved (ctrl : bool) (m : smap node) : bool :=
  negb (ctrl && existsb (fun p => hasPrefix (fst p) "<<") m) &&
  match mget "<<" m, mget MERGEKEY m with None, None => true | _, _ => false end.

(** yaml/find.go:139-154 UnresolvedListEntryMerge *)
Definition entryMerge (n : node) : option (node * string) :=
  match val n with
  | VMap [(k, v)] =>
      if String.eqb k "<<" then Some (v, k)
      else if String.eqb k MERGEKEY then Some (v, k) else None
  | _ => None
  end.

(** yaml/find.go:167-177 IsListResolved *)
Definition listResolved (l : list node) : bool :=
  forallb (fun n => match entryMerge n with Some _ => false | None => true end) l.

(** the regular expression ^\[(-?\d+)\]$ with strconv.Atoi (find.go:12,83-88):
    [None]: no match; [Some None]: Atoi fails (panic) *)
Definition stepIndex (step : string) : option (option Z) :=
  match step with
  | String "[" r =>
      if hasSuffix r "]" then
        let d := String.substring 0 (String.length r - 1) r in
        match (match d with String "-" p => option_map Z.opp (parseNat p) | _ => parseNat d end) with
        | Some z => Some (if in64b z then Some z else None)
        | None => None
        end
      else None
  | _ => None
  end.

(** strings.Index(s, ":") > 0: the parts before and after the first colon *)
Fixpoint cutColon (s : string) : option (string * string) :=
  match s with
  | EmptyString => None
  | String ":" r => Some (EmptyString, r)
  | String c r => match cutColon r with
                  | Some (a, b) => Some (String c a, b)
                  | None => None
                  end
  end.
(** yaml/find.go:102-106 *)
Definition stepKey (key step : string) : string * string :=
  let key := if String.eqb key "" then "name" else key in
  match cutColon step with
  | Some (String c a, b) => (String c a, b)
  | _ => (key, step)
  end.

Section Mode.
Variables raw ctrl : bool.

(** yaml/find.go:108-124: the string value of field [key] of a map element *)
Definition keyField (key : string) (n : node) : option string :=
  match val n with
  | VMap m => if raw || mapResolved ctrl m then
                match mget key m with
                | Some c => match val c with VStr s => Some s | _ => None end
                | None => None
                end
              else None
  | _ => None
  end.

Fixpoint findKeyed (l : list node) (key name : string) : fres :=
  match l with
  | [] => FNo
  | n :: r => match keyField key n with
              | Some s => if String.eqb s name then FOk n else findKeyed r key name
              | None => findKeyed r key name
              end
  end.

(** yaml/find.go:81-127 stepThroughList *)
Definition stepList (l : list node) (step key : string) : fres :=
  match stepIndex step with
  | Some None => FPanic
  | Some (Some i) =>
      let len := Z.of_nat (length l) in
      let i := if i <? 0 then wrap64 (len + i) else i in
      if len <=? i then FNo
      else if i <? 0 then FPanic
      else match nth_error l (Z.to_nat i) with Some n => FOk n | None => FNo end
  | None => let '(k, s) := stepKey key step in findKeyed l k s
  end.

(** yaml/find.go:61-79 nextStep *)
Definition nextStep (step : string) (here : node) : fres :=
  match val here with
  | VMap m => if raw || mapResolved ctrl m then
                match mget step m with Some n => FOk n | None => FNo end
              else FNo
  | VList l => if raw || listResolved l then stepList l step (a_keyName (ann here)) else FNo
  | _ => FNo
  end.

(** yaml/find.go:18-37 FindR *)
Fixpoint find (path : list string) (root : node) : fres :=
  match path with
  | [] => FOk root
  | s :: r => match nextStep s root with
              | FOk n => find r n
              | e => e
              end
  end.
End Mode.

(** yaml/find.go:129-135 PathComponent *)
Definition pathComponent (step : string) : string :=
  match cutColon step with
  | Some (String _ _, b) => b
  | _ => step
  end.
