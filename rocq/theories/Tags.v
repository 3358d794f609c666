(** flow/state.go:192-289 and dynaml/tag.go: tags and document numbers of a
    processing state.  No proofs in this file. *)
From Verif Require Import Core Str Cleanup.

(** dynaml/tag.go:9-12; the scope value is kept as its two bits: bit 0 is
    TAG_LOCAL, the bits 1-2 (TAG_SCOPE) are 0 for global and 2 for stream *)
Record tscope := mkScopeT { ts_local : bool; ts_stream : bool }.

(** dynaml/tag.go:16-25 Tag *)
Record tag := mkTag { t_name : string; t_node : node; t_path : list string; t_scope : tscope }.
(** tag.go:43-45 *)
Definition isLocal (t : tag) : bool := ts_local (t_scope t).
(** tag.go:47-49 *)
Definition isStream (t : tag) : bool := ts_stream (t_scope t).
(** tag.go:55-59 ResetLocal *)
Definition resetLocal (t : tag) : tag :=
  mkTag (t_name t) (t_node t) (t_path t) (mkScopeT false (ts_stream (t_scope t))).

(** the fields of flow/state.go:56-67 that concern tags *)
Record tstate := mkTS { tags : smap tag; docno : Z }.

(** strings.Replace(name, ":", ".", -1) of state.go:193, 209, 229 *)
Definition normName (s : string) : string :=
  ofchars (map (fun c => if Ascii.eqb c ":" then "."%char else c) (chars s)).

(** tag.go:104-125 NewTagInfo: the level *)
Definition tagLevel (name : string) : nat :=
  length (filter (fun c => Ascii.eqb c ":" || Ascii.eqb c ".") (chars name)).

(** reflect.DeepEqual of two []string; SetTag is called with env.Path(), which is
    nil at the root of a document and never a non-nil empty slice, and with nil
    by PushDocument *)
Fixpoint path_eqb (a b : list string) : bool :=
  match a, b with
  | [], [] => true
  | x :: a, y :: b => String.eqb x y && path_eqb a b
  | _, _ => false
  end.

(** state.go:192-205 SetTag; false is the error result *)
Definition setTagS (st : tstate) (name : string) (n : node) (path : list string) (sc : tscope)
  : tstate * bool :=
  let name := normName name in
  let ok := match mget name (tags st) with
            | None => true
            | Some old => isLocal old && path_eqb path (t_path old)
            end in
  if ok then (mkTS (mset name (mkTag name (dropTags n) path sc) (tags st)) (docno st), true)
  else (st, false).

(** state.go:209-219 and 229-240: the name a lookup refers to; None if there is
    no such document.  strconv.Atoi is ParseInt on a 64-bit platform; i += docno
    is 64-bit arithmetic *)
Definition docName (i : Z) : string := ("doc." +++ itoa i)%string.
Definition tagRef (st : tstate) (name : string) : option string :=
  let name := normName name in
  if hasPrefix name "doc." then
    match parseInt (sdrop 4 name) with
    | None => None
    | Some i => if i <=? 0 then
                  let j := wrap64 (i + docno st) in
                  if j <=? 0 then None else Some (docName j)
                else Some name
    end
  else Some name.

(** state.go:207-225 GetTag *)
Definition getTag (st : tstate) (name : string) : option tag :=
  match tagRef st name with
  | None => None
  | Some n => mget n (tags st)
  end.

(** state.go:253-259: order by level, then by name *)
Definition tagLess (a b : tag) : bool :=
  if Nat.eqb (tagLevel (t_name a)) (tagLevel (t_name b)) then
    match String.compare (t_name a) (t_name b) with Lt => true | _ => false end
  else Nat.ltb (tagLevel (t_name a)) (tagLevel (t_name b)).
(** sort.Slice with a strict total order on the elements: any sorting algorithm
    gives the same list (theorem C29_tag_list pins it down) *)
Fixpoint insertTag (t : tag) (l : list tag) : list tag :=
  match l with
  | [] => [t]
  | x :: r => if tagLess t x then t :: l else x :: insertTag t r
  end.
Definition sortTags (l : list tag) : list tag := fold_right insertTag [] l.

(** state.go:227-261 GetTags *)
Definition getTags (st : tstate) (name : string) : list tag :=
  let nn := normName name in
  if hasPrefix nn "doc." then
    match getTag st name with None => [] | Some t => [t] end
  else sortTags (filter (fun t => String.eqb (t_name t) nn || hasPrefix (t_name t) (nn +++ "."))
                        (map snd (tags st))).

(** state.go:263-266 ResetTags *)
Definition resetTags (st : tstate) : tstate := mkTS [] 1.

(** state.go:268-277 ResetStream; the map is rebuilt under the names of the tags *)
Definition resetStream (st : tstate) : tstate :=
  mkTS (mof (map (fun t => (t_name t, t)) (filter (fun t => negb (isStream t)) (map snd (tags st))))) 1.

(** state.go:279-287 PushDocument; None is a nil node *)
Definition pushDocument (st : tstate) (doc : option node) : tstate :=
  let st1 := match doc with
             | Some d => fst (setTagS st (docName (docno st)) d [] (mkScopeT false false))
             | None => st
             end in
  mkTS (map (fun kv => (fst kv, resetLocal (snd kv))) (tags st1)) (docno st1 + 1).

(** state.go:76-91 NewState *)
Definition newTS : tstate := mkTS [] 1.
(** state.go:109-115 SetTags *)
Definition setTagsS (st : tstate) (l : list tag) : tstate :=
  mkTS (mof (map (fun t => (t_name t, t)) l)) (docno st).

(** tag.go:127-159 CheckTagName.  A rune outside ASCII is rejected like any other
    byte that is neither letter nor digit, so bytes suffice. *)
Definition isLetter (c : ascii) : bool :=
  ((97 <=? bytev c) && (bytev c <=? 122)) || ((65 <=? bytev c) && (bytev c <=? 90)).
Fixpoint checkTag_loop (l : list ascii) (n : nat) : bool :=
  match l with
  | [] => true
  | c :: r =>
      if Ascii.eqb c ":" || Ascii.eqb c "." then
        match n with O => false | _ => checkTag_loop r 0 end
      else if isDigit c then
        match n with O => false | _ => checkTag_loop r (S n) end
      else if isLetter c then checkTag_loop r (S n) else false
  end.
Definition checkTagName (s : string) : bool := checkTag_loop (chars s) 0.
