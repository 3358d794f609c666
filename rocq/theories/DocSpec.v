(** What the expressions in a document mean: the specification for C55.  No proofs in this file. *)
From Verif Require Import Core Str DecSpec FindFacts Unresolved Env Interp Cleanup FlowSpec.
From Verif Require PropRef.
Import ListNotations.
Open Scope string_scope. Open Scope list_scope.

Section Shape.
Variable interpol : bool.
Variable parse : string -> list string -> list string -> option expr.
Variable quote : string -> string.
Notation plain := (plainDoc ordinaryKey interpol).
(** ** the documents *)
(** [part n p c]: [c] is the part of [n] at the position [p] *)
Inductive part : node -> list string -> node -> Prop :=
| part_here n : part n [] n
| part_key n m k c p d : val n = VMap m -> In (k, c) m -> part c p d -> part n (k :: p) d
| part_index n l i c p d : val n = VList l -> nth_error l i = Some c -> part c p d -> part n (idx (Z.of_nat i) :: p) d.
(** the node is the text of the expression [e] *)
Definition text (d : node) (e : expr) : Prop :=
  exists t s sub, d = mkNode (VStr t) emptyAnn s None None /\ embeddedDynaml quote d interpol = Some sub /\
    forall p q, parse sub p q = Some e.
(** the name of the element of a list is not computed *)
Definition steady (d : node) : Prop := forall m c e, val d = VMap m -> In ("name", c) m -> ~ text c e.
(** [doc d d']: the document [d] and a plain document [d'] of the same shape *)
Inductive doc : node -> node -> Prop :=
| doc_plain d d' : plain d -> fitsN d -> sameDoc d d' -> doc d d'
| doc_text d d' e : text d e -> doc d d'
| doc_map m m' s d' : val d' = VMap m' -> msorted m -> Forall (fun kv => ordinaryKey (fst kv)) m -> docM m m' ->
    doc (mkNode (VMap m) emptyAnn s None None) d'
| doc_list l l' s d' : val d' = VList l' -> Forall steady l -> docL l l' -> doc (mkNode (VList l) emptyAnn s None None) d'
with docM : smap node -> smap node -> Prop :=
| docM_nil : docM [] []
| docM_cons k x m x' m' : doc x x' -> docM m m' -> docM ((k, x) :: m) ((k, x') :: m')
with docL : list node -> list node -> Prop :=
| docL_nil : docL [] []
| docL_cons x l x' l' : doc x x' -> docL l l' -> docL (x :: l) (x' :: l').
Scheme doc_mind := Minimality for doc Sort Prop with docM_mind := Minimality for docM Sort Prop with docL_mind := Minimality for docL Sort Prop.
Combined Scheme doc_mut from doc_mind, docM_mind, docL_mind.
(** with stubs: [docS p d d'], the document [d] at the position [p] and a document [d'] that
    has its maps, and a plain part is merged with the stubs.  No stub reaches into a list with expressions *)
Variable ctrl : bool.
Variable stubs : list node.
Inductive docS : list string -> node -> node -> Prop :=
| ds_plain p d d' : plain d -> fitsN d -> steadyLists d \/ undefined ctrl stubs p -> merges ctrl stubs true p d d' -> docS p d d'
| ds_text p d d' e : text d e -> docS p d d'
| ds_map p m m' s d' : val d' = VMap m' -> msorted m -> Forall (fun kv => ordinaryKey (fst kv)) m -> docSM p m m' ->
    docS p (mkNode (VMap m) emptyAnn s None None) d'
| ds_list p l l' s d' : val d' = VList l' -> Forall steady l -> undefined ctrl stubs p -> docSL p 0 l l' ->
    docS p (mkNode (VList l) emptyAnn s None None) d'
with docSM : list string -> smap node -> smap node -> Prop :=
| dsM_nil p : docSM p [] []
| dsM_cons p k x m x' m' : docS (p ++ [k]) x x' -> docSM p m m' -> docSM p ((k, x) :: m) ((k, x') :: m')
with docSL : list string -> nat -> list node -> list node -> Prop :=
| dsL_nil p i : docSL p i [] []
| dsL_cons p i x l x' l' : docS (p ++ [idx (Z.of_nat i)]) x x' -> docSL p (S i) l l' -> docSL p i (x :: l) (x' :: l').
Scheme docS_mind := Minimality for docS Sort Prop with docSM_mind := Minimality for docSM Sort Prop with docSL_mind := Minimality for docSL Sort Prop.
Combined Scheme docS_mut from docS_mind, docSM_mind, docSL_mind.
End Shape.

Section Spec.
Variable interpol : bool.
(** the node is the text of the expression *)
Variable text : node -> expr -> Prop.
(** the document and its solution *)
Variables D D' : node.
(** an order of the positions *)
Variable rank : list string -> nat.
(** the binding outside of the document *)
Variable outer : option binding.

(** the innermost map around the position [p] that has an entry [name] is at [q] *)
Definition enclosing (p q : list string) (name : string) : Prop :=
  (exists k r d m, p = q ++ k :: r /\ part D q d /\ val d = VMap m /\ In name (map fst m)) /\
  (forall q' k r d m, p = q' ++ k :: r -> (length q < length q')%nat -> part D q' d -> val d = VMap m -> ~ In name (map fst m)).
(** no map around [p] has an entry [name], and there is nothing outside *)
Definition unknown (p : list string) (name : string) : Prop :=
  (forall q k r d m, p = q ++ k :: r -> part D q d -> val d = VMap m -> ~ In name (map fst m)) /\ outer = None.
(** [leads t c path r x]: the steps of the user, with the names or indices of the elements of
    lists, lead from [c] at the position [t] to [x]; [r] is the position of [x] relative to [c].
    An element addressed by its name must not be written as an expression itself *)
Inductive leads : list string -> node -> list string -> list string -> node -> Prop :=
| leads_here t c : leads t c [] [] c
| leads_key t c m k x path r y : val c = VMap m -> In (k, x) m -> leads (t ++ [k]) x path r y -> leads t c (k :: path) (k :: r) y
| leads_index t c l i st x path r y : val c = VList l -> index_step st (Z.of_nat i) -> nth_error l i = Some x ->
    leads (t ++ [idx (Z.of_nat i)]) x path r y -> leads t c (st :: path) (idx (Z.of_nat i) :: r) y
| leads_name t c l i st x path r y : val c = VList l -> (forall z, ~ index_step st z) -> (forall a b, st <> (a +++ String ":" b)%string) ->
    nth_error l i = Some x -> named x st -> (forall k z, (k < i)%nat -> nth_error l k = Some z -> ~ named z st) ->
    (forall d e, part D (t ++ [idx (Z.of_nat i)]) d -> ~ text d e) ->
    leads (t ++ [idx (Z.of_nat i)]) x path r y -> leads t c (st :: path) (idx (Z.of_nat i) :: r) y.
(** the expressions on the way to the position [t] resp. on the way and below have a lower rank than [p] *)
Definition reachable (p t : list string) : Prop := forall q u e r, part D q u -> text u e -> t = q ++ r -> (rank q < rank p)%nat.
Definition settledBefore (p t : list string) : Prop :=
  reachable p t /\ forall q u e r, part D q u -> text u e -> q = t ++ r -> (rank q < rank p)%nat.

(** the text for a value in a concatenation *)
Inductive writes : value -> string -> Prop :=
| w_str s : writes (VStr s) s
| w_int z : writes (VInt z) (itoa z)
| w_bool b : writes (VBool b) (if b then "true" else "false").
(** the values that count as true and as false in conditions *)
Inductive counts : value -> bool -> Prop :=
| c_nil : counts VNil false
| c_bool b : counts (VBool b) b
| c_zero : counts (VInt 0) false
| c_int z : z <> 0%Z -> counts (VInt z) true
| c_empty : counts (VStr "") false
| c_str s : s <> "" -> counts (VStr s) true.
(** the comparison of numbers *)
Definition intTest (op : string) (x y : Z) : option bool :=
  if String.eqb op "==" then Some (x =? y)%Z else if String.eqb op "!=" then Some (negb (x =? y)%Z) else
  if String.eqb op "<" then Some (x <? y)%Z else if String.eqb op "<=" then Some (x <=? y)%Z else
  if String.eqb op ">" then Some (y <? x)%Z else if String.eqb op ">=" then Some (y <=? x)%Z else None.
Definition lit (v : value) : node := mkNode v emptyAnn "" None None.
Definition sameV (v w : value) : Prop := sameDoc (lit v) (lit w).

(** [fails p e]: the reference [e] at the position [p] leads nowhere *)
Inductive fails (p : list string) : expr -> Prop :=
| fl_unknown name rest : PropRef.named name -> unknown p name -> fails p (ERef "" (name :: rest))
| fl_missing name pre st post q c0 r c m : PropRef.named name -> enclosing p q name -> part D' (q ++ [name]) c0 -> leads (q ++ [name]) c0 pre r c ->
    val c = VMap m -> ~ In st (map fst m) -> reachable p (q ++ name :: r) -> fails p (ERef "" (name :: pre ++ st :: post)).
(** [denotes p e v]: the value of the expression [e] at the position [p] of the document, taken from the solution *)
Inductive denotes (p : list string) : expr -> value -> Prop :=
| dn_nil : denotes p ENil VNil
| dn_bool b : denotes p (EBool b) (VBool b)
| dn_int z : denotes p (EInt z) (VInt z)
| dn_str t : literalText interpol t -> denotes p (EStr t) (VStr t)
| dn_ref name rest q c0 r c : PropRef.named name -> enclosing p q name -> part D' (q ++ [name]) c0 -> leads (q ++ [name]) c0 rest r c ->
    settledBefore p (q ++ name :: r) -> denotes p (ERef "" (name :: rest)) (val c)
| dn_group e v : denotes p e v -> denotes p (EGroup e) v
| dn_add a b x y : denotes p a (VInt x) -> denotes p b (VInt y) -> denotes p (EAdd a b) (VInt (wrap64 (x + y)))
| dn_sub a b x y : denotes p a (VInt x) -> denotes p b (VInt y) -> denotes p (ESub a b) (VInt (wrap64 (x - y)))
| dn_mul a b x y : denotes p a (VInt x) -> denotes p b (VInt y) -> denotes p (EMul a b) (VInt (wrap64 (x * y)))
| dn_div a b x y : denotes p a (VInt x) -> denotes p b (VInt y) -> y <> 0%Z -> denotes p (EDiv a b) (VInt (wrap64 (Z.quot x y)))
| dn_mod a b x y : denotes p a (VInt x) -> denotes p b (VInt y) -> y <> 0%Z -> denotes p (EMod a b) (VInt (wrap64 (Z.rem x y)))
| dn_text a b v w x y : denotes p a v -> denotes p b w -> writes v x -> writes w y -> literalText interpol (x +++ y) ->
    denotes p (EConcat a b) (VStr (x +++ y))
| dn_append a b l l' : denotes p a (VList l) -> denotes p b (VList l') -> denotes p (EConcat a b) (VList (l ++ l'))
| dn_push a b l v : denotes p a (VList l) -> denotes p b v -> v <> VNil -> (forall l', v <> VList l') -> denotes p (EConcat a b) (VList (l ++ [lit v]))
| dn_list es vs : denotesL p es vs -> denotes p (EList es) (VList (map lit vs))
| dn_not a v x : denotes p a v -> counts v x -> denotes p (ENot a) (VBool (negb x))
| dn_logand a b x y : denotes p a (VBool x) -> denotes p b (VBool y) -> denotes p (ELogAnd a b) (VBool (x && y))
| dn_logor a b x y : denotes p a (VBool x) -> denotes p b (VBool y) -> denotes p (ELogOr a b) (VBool (x || y))
| dn_cmp a op b x y t : denotes p a (VInt x) -> denotes p b (VInt y) -> intTest op x y = Some t -> denotes p (ECmp a op b) (VBool t)
| dn_eq a b x y : denotes p a (VStr x) -> denotes p b (VStr y) -> denotes p (ECmp a "==" b) (VBool (String.eqb x y))
| dn_true c t f w v : denotes p c w -> counts w true -> denotes p t v -> denotes p (ECond c t f) v
| dn_false c t f w v : denotes p c w -> counts w false -> denotes p f v -> denotes p (ECond c t f) v
| dn_or a b v : denotes p a v -> denotes p (EOr a b) v
| dn_default a b v : fails p a -> denotes p b v -> denotes p (EOr a b) v
with denotesL (p : list string) : list expr -> list value -> Prop :=
| dn_none : denotesL p [] []
| dn_more e es v vs : denotes p e v -> denotesL p es vs -> denotesL p (e :: es) (v :: vs).
Scheme denotes_mind := Minimality for denotes Sort Prop with denotesL_mind := Minimality for denotesL Sort Prop.
Combined Scheme denotes_mut from denotes_mind, denotesL_mind.

(** the expressions in the document have the values of the solution *)
Definition solution : Prop :=
  forall p d e d', part D p d -> text d e -> part D' p d' -> exists v, denotes p e v /\ sameV v (val d').
(** the same with stubs: a field that is defined by the stubs gets its value from there, if the expression has a value or fails *)
Definition solutionS (ctrl : bool) (stubs : list node) : Prop :=
  forall p d e d', part D p d -> text d e -> part D' p d' ->
    (undefined ctrl stubs p /\ exists v, denotes p e v /\ sameV v (val d')) \/
    (exists w, definedBy ctrl stubs p w /\ sameDoc w d' /\ ((exists v, denotes p e v) \/ fails p e)).
End Spec.
