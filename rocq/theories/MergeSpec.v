(** What a template with merge expressions becomes (C56).  Stated with the path lookup of C09
    and the specification of plain documents (FlowSpec.v); no part of the merge engine.
    No proofs in this file. *)
From Verif Require Import Core Str DecSpec Interp Cleanup Find FindFacts Env Flow FlowSpec.
Import ListNotations.
Open Scope string_scope. Open Scope list_scope.

Section Spec.
Variables interpol ctrl : bool.
Variable parse : string -> list string -> list string -> option expr.
Variable quote : string -> string.
Notation plain := (plainDoc ordinaryKey interpol).
(** the stubs the template is merged with *)
Variable stubs : list node.

(** The node [t] is a text with an expression that is read as [e] at the position [pa] of the
    document, which corresponds to the position [p] of the stubs.  The two positions differ
    below a field that is merged with another field of the stubs. *)
Definition textAt (pa p : list string) (t : node) (e : expr) : Prop :=
  exists x s sub, t = mkNode (VStr x) emptyAnn s None None /\ embeddedDynaml quote t interpol = Some sub /\ parse sub pa p = Some e.
(** a position of the stubs that can be looked up without a crash: no negative or overlong index (C09) *)
Definition okStepS (s : string) : Prop := ~ startsWith "[" s \/ exists i, (0 <= i <= max64)%Z /\ s = ("[" +++ itoa i +++ "]")%string.

(** values that can be given as default *)
Inductive literal : expr -> value -> Prop :=
| lit_nil : literal ENil VNil
| lit_bool b : literal (EBool b) (VBool b)
| lit_int z : literal (EInt z) (VInt z)
| lit_str t : literalText interpol t -> literal (EStr t) (VStr t).

(** [yields p e v]: the merge expression [e] of a field that belongs to the position [p] of the
    stubs stands for [v]: the value the stubs have at the position named in the expression (by
    default [p]); with the keyword none it is nil; and the alternative if the stubs have nothing *)
Inductive yields (p : list string) : expr -> node -> Prop :=
| Y_found q rd rp rq v : Forall okStepS q -> definedBy ctrl stubs q v -> yields p (EMerge q rd rp rq false "") v
| Y_none q rd rp rq s : yields p (EMerge q rd rp rq true "") (mkNode VNil emptyAnn s None None)
| Y_or q rd rp rq d v : Forall okStepS q -> definedBy ctrl stubs q v -> yields p (EOr (EMerge q rd rp rq false "") d) v
| Y_default q rd rp rq d x s : Forall okStepS q -> (if rd : bool then q <> [] else q = p) -> undefined ctrl stubs q -> literal d x ->
    yields p (EOr (EMerge q rd rp rq false "") d) (mkNode x emptyAnn s None None).

(** [basis pa p m q bm]: the fields [bm] are inserted into the map with the fields [m], and the
    own fields belong to the fields of the stubs below [q]:
    - a map without merge field: nothing is inserted
    - <<: (( merge )) or <<: (( merge q )): the fields of the stubs at [q]
    - <<: (( merge )) and nothing in the stubs: nothing is inserted *)
Inductive basis (pa p : list string) (m : smap node) : list string -> smap node -> Prop :=
| B_none : ~ In "<<" (map fst m) -> basis pa p m p []
| B_found x q rd rq v bm : In ("<<", x) m -> textAt pa p x (EMerge q rd false rq false "") -> Forall okStepS q ->
    (if rd : bool then q <> [] else q = p) -> definedBy ctrl stubs q v -> val v = VMap bm -> basis pa p m q bm
| B_absent x rp : In ("<<", x) m -> textAt pa p x (EMerge p false rp false false "") -> undefined ctrl stubs p -> basis pa p m p [].

(** [entries pa p x q il]: a list with the entry <<: x gets the elements [il], and the own
    elements belong to the elements of the stubs below [q]:
    - (( merge )) or (( merge q )): the elements of the list the stubs have at [q]
    - (( merge )) and nothing in the stubs: none *)
Inductive entries (pa p : list string) (x : node) : list string -> list node -> Prop :=
| E_found q rd rq v il : textAt pa p x (EMerge q rd false rq false "") -> Forall okStepS q -> (if rd : bool then q <> [] else q = p) ->
    definedBy ctrl stubs q v -> val v = VList il -> entries pa p x q il
| E_absent rp : textAt pa p x (EMerge p false rp false false "") -> undefined ctrl stubs p -> entries pa p x p [].
(** the path step of the element called [n] *)
Definition nm (n : string) : string := ("name:" +++ n)%string.
(** an element of a template list: a map with the literal text [n] as name; if it has a merge
    field, the fields of the corresponding element of the stubs are merged *)
Definition element (pa p : list string) (n : string) (t : node) : Prop :=
  exists m s c, t = mkNode (VMap m) emptyAnn s None None /\ msorted m /\ In ("name", mkNode (VStr n) emptyAnn c None None) m /\ literalText interpol n /\
    forall x, In ("<<", x) m -> exists rq, textAt pa p x (EMerge p false false rq false "").
(** names that are not mistaken for an index or a pair key:value *)
Definition simpleName (n : string) : Prop := ~ startsWith "[" n /\ forall a b, n <> (a +++ ":" +++ b)%string.
(** [newOnes o il new]: [new] are the elements of [il] whose names do not occur in [o] *)
Inductive newOnes (o : list node) : list node -> list node -> Prop :=
| N_nil : newOnes o [] []
| N_skip e n il new : named e n -> (exists y, In y o /\ named y n) -> newOnes o il new -> newOnes o (e :: il) new
| N_keep e n il new : named e n -> (forall y, In y o -> ~ named y n) -> newOnes o il new -> newOnes o (e :: il) (e :: new).

(** any part of a document as it is read from a YAML file *)
Inductive fromYaml : node -> Prop :=
| Y_leaf v s : (v = VNil \/ (exists b, v = VBool b) \/ (exists z, v = VInt z) \/ (exists f, v = VFloat f) \/ (exists t, v = VStr t)) -> fromYaml (mkNode v emptyAnn s None None)
| Y_list l s : Forall fromYaml l -> fromYaml (mkNode (VList l) emptyAnn s None None)
| Y_map m s : Forall (fun kv => fromYaml (snd kv)) m -> fromYaml (mkNode (VMap m) emptyAnn s None None).
(** the templates whose merge expressions can be resolved *)
Inductive mdoc : list string -> list string -> node -> Prop :=
| D_plain pa p t : plain t -> fitsN t -> steadyLists t -> mdoc pa p t
| D_value pa p t e v : textAt pa p t e -> yields p e v -> mdoc pa p t
| D_fields pa p m s q bm : msorted m -> (forall k, In k (map fst m) -> k <> "<<" -> ordinaryKey k) -> basis pa p m q bm ->
    (forall k x, In (k, x) m -> k <> "<<" -> mdoc (pa ++ [k]) (q ++ [k]) x) -> mdoc pa p (mkNode (VMap m) emptyAnn s None None)
| D_replace pa p m s x q rd rq v bm : msorted m -> (forall k, In k (map fst m) -> k <> "<<" -> ordinaryKey k) ->
    In ("<<", x) m -> textAt pa p x (EMerge q rd true rq false "") -> Forall okStepS q -> definedBy ctrl stubs q v -> val v = VMap bm ->
    (forall k y, In (k, y) m -> k <> "<<" -> fromYaml y) -> mdoc pa p (mkNode (VMap m) emptyAnn s None None)
| D_list pa p l s names : Forall2 (fun t n => element (pa ++ [nm n]) (p ++ [nm n]) n t) l names -> NoDup names ->
    (forall t n, In t l -> named t n -> mdoc (pa ++ [nm n]) (p ++ [nm n]) t) -> mdoc pa p (mkNode (VList l) emptyAnn s None None)
| D_entries pa p pre x s' post s q il names inames : entries pa p x q il ->
    Forall2 (fun t n => element (pa ++ [nm n]) (q ++ [nm n]) n t) (pre ++ post) names -> NoDup names ->
    Forall2 named il inames -> NoDup inames -> Forall simpleName inames ->
    (forall t n, In t (pre ++ post) -> named t n -> mdoc (pa ++ [nm n]) (q ++ [nm n]) t) ->
    mdoc pa p (mkNode (VList (pre ++ mkNode (VMap [("<<", x)]) emptyAnn s' None None :: post)) emptyAnn s None None).

(** [fills pa p t r]: the part [t] of the template becomes [r] *)
Inductive fills : list string -> list string -> node -> node -> Prop :=
| F_plain pa p t r : plain t -> merges ctrl stubs true p t r -> fills pa p t r
| F_value pa p t e v r : textAt pa p t e -> yields p e v -> sameDoc r v -> fills pa p t r
| F_fields pa p m s q bm r rm : basis pa p m q bm -> val r = VMap rm -> msorted rm ->
    (forall k, In k (map fst rm) <-> (In k (map fst m) /\ k <> "<<") \/ In k (map fst bm)) ->
    (forall k x y, In (k, x) m -> k <> "<<" -> In (k, y) rm -> fills (pa ++ [k]) (q ++ [k]) x y) ->
    (forall k y z, ~ In k (map fst m) -> In (k, y) rm -> In (k, z) bm -> sameDoc y z) ->
    fills pa p (mkNode (VMap m) emptyAnn s None None) r
| F_replace pa p m s x q rd rq v bm r : In ("<<", x) m -> textAt pa p x (EMerge q rd true rq false "") ->
    definedBy ctrl stubs q v -> val v = VMap bm -> sameDoc r v -> fills pa p (mkNode (VMap m) emptyAnn s None None) r
| F_list pa p l s names r rl : Forall2 named l names -> NoDup names -> val r = VList rl -> length rl = length l ->
    (forall t n y, In (t, y) (combine l rl) -> named t n -> fills (pa ++ [nm n]) (p ++ [nm n]) t y) ->
    fills pa p (mkNode (VList l) emptyAnn s None None) r
| F_entries pa p pre x s' post s q il new r rpre rnew rpost : entries pa p x q il -> newOnes (pre ++ post) il new ->
    val r = VList (rpre ++ rnew ++ rpost) -> length rpre = length pre -> length rpost = length post -> Forall2 sameDoc rnew new ->
    (forall t n y, In (t, y) (combine (pre ++ post) (rpre ++ rpost)) -> named t n -> fills (pa ++ [nm n]) (q ++ [nm n]) t y) ->
    fills pa p (mkNode (VList (pre ++ mkNode (VMap [("<<", x)]) emptyAnn s' None None :: post)) emptyAnn s None None) r.
End Spec.
