(** Specification of the merge of plain documents (C01-C03), by what a user
    sees; it uses the path lookup of C09 and no part of the merge engine. *)
From Coq Require Import Floats.SpecFloat.
From Verif Require Import Core Str Find.

(** text that spiff takes literally: not enclosed in (( and )), and with
    interpolation no (( at all *)
Definition literalText (interpol : bool) (s : string) : Prop :=
  (forall x, s <> ("((" +++ x +++ "))")%string) /\
  (interpol = true -> forall x y, s <> (x +++ "((" +++ y)%string).
Definition startsWith (p s : string) : Prop := exists r, s = (p +++ r)%string.
(** keys without meaning for the merge *)
Definition quietKey (k : string) : Prop := ~ startsWith "<<" k /\ ~ startsWith "key:" k.
(** ... and for path lookups *)
Definition ordinaryKey (k : string) : Prop := quietKey k /\ ~ startsWith "[" k /\ ~ startsWith "name:" k.

(** leaves: nil, booleans, numbers (except NaN and the negative zero) and literal texts *)
Inductive leaf (interpol : bool) : value -> Prop :=
| L_nil : leaf interpol VNil
| L_bool b : leaf interpol (VBool b)
| L_int z : leaf interpol (VInt z)
| L_float f : f <> S754_nan -> f <> S754_zero true -> leaf interpol (VFloat f)
| L_str s : literalText interpol s -> leaf interpol (VStr s).

(** the annotation of a list that has been merged with a stub: flag "injected" *)
Definition injectedAnn : annotation := aAddFlags FLAG_INJECTED emptyAnn.

(** a document as it comes from a YAML file, with keys of the kind [K]; lists may
    carry the internal flag "injected" of an earlier processing *)
Inductive plainDoc (K : string -> Prop) (interpol : bool) : node -> Prop :=
| PD_leaf v s : leaf interpol v -> plainDoc K interpol (mkNode v emptyAnn s None None)
| PD_list l a s : (a = emptyAnn \/ a = injectedAnn) -> Forall (plainDoc K interpol) l ->
    plainDoc K interpol (mkNode (VList l) a s None None)
| PD_map m s : msorted m -> Forall (fun kv => K (fst kv)) m ->
    Forall (fun kv => plainDoc K interpol (snd kv)) m ->
    plainDoc K interpol (mkNode (VMap m) emptyAnn s None None).

(** what an element of a list is called: the text in its field "name" *)
Definition named (n : node) (x : string) : Prop :=
  exists m c, val n = VMap m /\ In ("name", c) m /\ val c = VStr x.
Definition nameless (n : node) : Prop :=
  forall m c, val n = VMap m -> ~ In ("name", c) m.

(** the path steps of the elements of a list: their names if all elements have
    different names, else their indices *)
Definition byName (l : list node) (steps : list string) : Prop :=
  exists names, Forall2 named l names /\ NoDup names /\ steps = map (fun x => ("name:" +++ x)%string) names.
Definition byIndex (l : list node) (steps : list string) : Prop :=
  steps = map (fun i => ("[" +++ itoa (Z.of_nat i) +++ "]")%string) (seq 0 (length l)).
Definition stepsOf (l : list node) (steps : list string) : Prop :=
  byName l steps \/ ((forall steps', ~ byName l steps') /\ byIndex l steps).

(** [definedBy stubs path v]: the first stub that has the path has [v] there *)
Definition definedBy (ctrl : bool) (stubs : list node) (path : list string) (v : node) : Prop :=
  exists before s after, stubs = before ++ s :: after /\
    find false ctrl path s = FOk v /\ (forall b w, In b before -> find false ctrl path b <> FOk w).
Definition undefined (ctrl : bool) (stubs : list node) (path : list string) : Prop :=
  forall s v, In s stubs -> find false ctrl path s <> FOk v.

(** the same data: equal up to annotations and source names *)
Fixpoint data (n : node) : node :=
  match n with
  | mkNode v _ _ _ _ =>
      mkNode (match v with
              | VList l => VList (map data l)
              | VMap m => VMap (map (fun kv => match kv with (k, c) => (k, data c) end) m)
              | _ => v
              end) emptyAnn "" None None
  end.
Definition sameDoc (a b : node) : Prop := data a = data b.

(** [merges stubs over path t r]: the part [t] of a template at [path] becomes [r];
    [over]: leaves are overridden (they are not as elements of a list).  Maps keep
    their keys, lists their elements, a leaf becomes what the stubs say. *)
Inductive merges (ctrl : bool) (stubs : list node) : bool -> list string -> node -> node -> Prop :=
| M_map over p t m r m' : val t = VMap m -> val r = VMap m' ->
    Forall2 (fun x y => fst y = fst x /\ merges ctrl stubs true (p ++ [fst x]) (snd x) (snd y)) m m' ->
    merges ctrl stubs over p t r
| M_list over p t l steps r l' : val t = VList l -> val r = VList l' -> stepsOf l steps ->
    mergesL ctrl stubs p steps l l' -> merges ctrl stubs over p t r
| M_keep over p t r : (forall l, val t <> VList l) -> (forall m, val t <> VMap m) ->
    (over = true -> undefined ctrl stubs p) -> val r = val t -> merges ctrl stubs over p t r
| M_take p t v r : (forall l, val t <> VList l) -> (forall m, val t <> VMap m) ->
    definedBy ctrl stubs p v -> sameDoc r v -> merges ctrl stubs true p t r
with mergesL (ctrl : bool) (stubs : list node) : list string -> list string -> list node -> list node -> Prop :=
| ML_nil p : mergesL ctrl stubs p [] [] []
| ML_cons p s steps x l y l' : merges ctrl stubs false (p ++ [s]) x y -> mergesL ctrl stubs p steps l l' ->
    mergesL ctrl stubs p (s :: steps) (x :: l) (y :: l').

(** lists of which the elements are addressed the same way whatever their contents
    become: all elements are named differently, or some element has no field "name" *)
Inductive steadyLists : node -> Prop :=
| SL_leaf n : (forall l, val n <> VList l) -> (forall m, val n <> VMap m) -> steadyLists n
| SL_map n m : val n = VMap m -> Forall (fun kv => steadyLists (snd kv)) m -> steadyLists n
| SL_list n l : val n = VList l ->
    ((exists names, Forall2 named l names /\ NoDup names) \/ (exists x, In x l /\ nameless x)) ->
    Forall steadyLists l -> steadyLists n.

(** the prepared stubs: each one is merged with the ones after it *)
Inductive prepared (ctrl : bool) : list node -> list node -> Prop :=
| prep_nil : prepared ctrl [] []
| prep_cons s p r q : prepared ctrl r q -> merges ctrl q true [] s p -> prepared ctrl (s :: r) (p :: q).

(** [at_ n path c]: the field [path] of the document [n], a sequence of map keys, is [c] *)
Inductive at_ : node -> list string -> node -> Prop :=
| at_here n : at_ n [] n
| at_key n m k c p d : val n = VMap m -> In (k, c) m -> at_ c p d -> at_ n (k :: p) d.
(** [lacks n path]: following [path] one arrives at a map without the next key *)
Inductive lacks : node -> list string -> Prop :=
| lacks_key n m k p : val n = VMap m -> (forall c, ~ In (k, c) m) -> lacks n (k :: p)
| lacks_below n m k c p : val n = VMap m -> In (k, c) m -> lacks c p -> lacks n (k :: p).
Definition isLeafN (n : node) : Prop := (forall l, val n <> VList l) /\ (forall m, val n <> VMap m).
