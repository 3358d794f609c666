(** How dynaml expressions are written (README.md, "dynaml Templating Language"): the
    texts of an expression, with the precedence of the operators.  This is the
    specification of the parser; it does not refer to the grammar or to the parser. *)
From Verif Require Import Core Str DecSpec.
From Coq Require Import SpecFloat.
Import ListNotations.

Notation text := (list ascii).
(** ** characters *)
Definition blank (c : ascii) : Prop := In c [" "; "009"; "010"; "013"]%char.
Definition gap (w : text) : Prop := Forall blank w.
Definition space (w : text) : Prop := gap w /\ w <> [].
Definition inRange (lo hi c : ascii) : bool := (bytev lo <=? bytev c) && (bytev c <=? bytev hi).
Definition isLetter (c : ascii) : bool := inRange "a" "z" c || inRange "A" "Z" c.
Definition isNum (c : ascii) : bool := inRange "0" "9" c.
Definition isWord (c : ascii) : bool := isLetter c || isNum c || Ascii.eqb c "_".
Definition isKey (c : ascii) : bool := isWord c || Ascii.eqb c "-".

(** ** references: foo.bar.[3].baz *)
Definition key (k : text) : Prop :=
  match k with c :: r => isWord c = true /\ Forall (fun c => isKey c = true) r | [] => False end.
(** the words the grammar takes for something else *)
Definition startsWith (p k : text) : Prop := exists r, k = p ++ r.
Definition plainName (k : text) : Prop :=
  key k /\ (match k with c :: _ => isNum c = false | [] => True end) /\
  Forall (fun w => ~ startsWith (chars w) k) ["nil"; "true"; "false"; "merge"; "auto"; "lambda"]%string /\
  Forall (fun w => k <> chars w) ["map"; "filter"; "select"; "sum"; "catch"; "sync"; "prefer"]%string.
(** an entry number in brackets *)
Definition indexText (n : text) : Prop :=
  exists neg ds, n = neg ++ ds /\ In neg [[]; ["-"%char]] /\ ds <> [] /\ Forall (fun c => isNum c = true) ds.
Inductive part :=
| Field (k : text)                    (* .k *)
| Entry (dot : bool) (n : text).      (* [n] or .[n] *)
Definition partOk (p : part) : Prop :=
  match p with Field k => key k | Entry _ n => indexText n end.
Definition brackets (n : text) : text := "["%char :: n ++ ["]"%char].
Definition partText (p : part) : text :=
  match p with
  | Field k => "."%char :: k
  | Entry dot n => (if dot then ["."%char] else []) ++ brackets n
  end.
Definition partName (p : part) : string :=
  match p with
  | Field k => ofchars k
  | Entry _ n => ofchars (brackets n)
  end.

(** ** string literals: the characters and their text between the quotes *)
Definition escape (c : ascii) : option ascii :=
  if Ascii.eqb c "034" then Some "034"%char
  else if Ascii.eqb c "/" then Some "/"%char
  else if Ascii.eqb c "008" then Some "b"%char
  else if Ascii.eqb c "012" then Some "f"%char
  else if Ascii.eqb c "010" then Some "n"%char
  else if Ascii.eqb c "013" then Some "r"%char
  else if Ascii.eqb c "009" then Some "t"%char
  else None.
Inductive quoted : text -> text -> Prop :=
| Q_nil : quoted [] []
| Q_plain c s t : 32 <= bytev c < 128 -> c <> "034"%char -> c <> "\"%char -> quoted s t -> quoted (c :: s) (c :: t)
| Q_escape c x s t : escape c = Some x -> quoted s t -> quoted (c :: s) ("\"%char :: x :: t)
| Q_backslash s d t : d <> "034"%char -> quoted s (d :: t) -> quoted ("\"%char :: s) ("\"%char :: "\"%char :: d :: t).

(** ** parameter names *)
Definition name (n : text) : Prop := n <> [] /\ Forall (fun c => isWord c = true) n.
Inductive names : list string -> text -> Prop :=
| NS_one g n g' : gap g -> name n -> gap g' -> names [ofchars n] (g ++ n ++ g')
| NS_more g n g' l t : gap g -> name n -> gap g' -> names l t ->
    names (ofchars n :: l) (g ++ n ++ g' ++ ","%char :: t).
Definition params (l : list string) : list (string * option expr) := map (fun n => (n, None)) l.

(** ** operators *)
Inductive binop : nat -> string -> (expr -> expr -> expr) -> Prop :=
| B_mul : binop 1 "*" EMul | B_div : binop 1 "/" EDiv | B_mod : binop 1 "%" EMod
| B_add : binop 2 "+" EAdd | B_sub : binop 2 "-" ESub
| B_cmp op : In op ["=="; "!="; "<="; ">="; "<"; ">"]%string -> binop 3 op (fun a b => ECmp a op b)
| B_or : binop 4 "-or" ELogOr | B_and : binop 4 "-and" ELogAnd
| B_alt : binop 7 "||" EOr | B_valid : binop 7 "//" EValidOr.
(** aggregations: map[list|x|->...] etc. *)
Inductive aggregation : string -> ascii -> (expr -> expr -> expr) -> Prop :=
| A_map : aggregation "map[" "]" (EMapping MapToList)
| A_mapmap : aggregation "map{" "}" (EMapping MapToMap)
| A_select : aggregation "select[" "]" (EMapping SelectToList)
| A_selectmap : aggregation "select{" "}" (EMapping SelectToMap)
| A_filter : aggregation "filter[" "]" (EMapping FilterList)
| A_filtermap : aggregation "filter{" "}" (EMapping FilterMap)
| A_catch : aggregation "catch[" "]" ECatch.

(** further keys directly behind these expressions belong to them *)
Definition openPath (e : expr) : Prop := match e with ERef _ _ | EQual _ _ => True | _ => False end.
(** some prefix of [u] up to a closing bracket is an entry number *)
Definition noIndex (u : text) : Prop := forall n v, indexText n -> u ++ ["]"%char] <> n ++ "]"%char :: v.

(** ** merge expressions
    [here] is the path of the node the expression belongs to, [stub] the path under which it is
    looked up in the stubs; below a redirecting merge these are different. *)
Section At.
Variables here stub : list string.
Definition moved : bool := if list_eq_dec String.string_dec here stub then false else true.
(** options behind the word merge: whether to replace, the key field for list entries *)
Inductive mergeOption : bool -> string -> text -> Prop :=
| MO_none : mergeOption false "" []
| MO_replace g : space g -> mergeOption true "" (g ++ chars "replace")
| MO_on g g' n : space g -> space g' -> name n -> mergeOption false (ofchars n) (g ++ chars "on" ++ g' ++ n).
(** the node to merge with *)
Inductive mergeRef : list string -> text -> Prop :=
| MR_ref k ps : key k -> Forall partOk ps -> ~ (k = chars "none" /\ ps = []) ->
    mergeRef (ofchars k :: map partName ps) (k ++ List.concat (map partText ps))
| MR_root k ps : key k -> Forall partOk ps ->
    mergeRef (""%string :: ofchars k :: map partName ps) ("."%char :: k ++ List.concat (map partText ps)).
(** these words directly behind merge are taken for an option *)
Definition optionFree (u t : text) : Prop :=
  u = [] -> ~ startsWith (chars "replace") t /\ ~ startsWith (chars "required") t /\ t <> chars "on".
Inductive fullMerge : expr -> text -> Prop :=
| FM_required g : space g -> fullMerge (EMerge stub moved false true false "") (chars "merge" ++ g ++ chars "required")
| FM_ref r k u g p t : mergeOption r k u -> space g -> mergeRef p t -> optionFree u t ->
    fullMerge (EMerge p true r true false k) (chars "merge" ++ u ++ g ++ t)
| FM_none r k u g : mergeOption r k u -> space g ->
    fullMerge (EMerge [] true r false true k) (chars "merge" ++ u ++ g ++ chars "none").
(** without a path: a following reference would belong to the merge expression *)
Inductive openMerge : expr -> text -> Prop :=
| OM r k u : mergeOption r k u -> openMerge (EMerge stub moved r (r || moved) false k) (chars "merge" ++ u).

(** ** expressions
    [written o n e t]: the text [t] is the expression [e] of the precedence level [n].
    Level 0: operands, 1: * / %, 2: + -, 3: comparisons, 4: -or -and, 5: concatenation,
    6: conditional, 7: || //, 8: lambda expressions and scopes.  A text with [o = true]
    extends to the right as far as possible (conditionals and lambda expressions). *)
Inductive written : bool -> nat -> expr -> text -> Prop :=
| W_up o n m e t : (n <= m)%nat -> written o n e t -> written o m e t
| W_open n e t : written false n e t -> written true n e t
| W_operand e t : operand e t -> written false 0 e t
| W_int s z : literal s z -> in64 z -> written false 0 (EInt z) (chars s)
| W_str s t : quoted s t -> written false 0 (EStr (ofchars s)) ("034"%char :: t ++ ["034"%char])
| W_true : written false 0 (EBool true) (chars "true")
| W_false : written false 0 (EBool false) (chars "false")
| W_nil : written false 0 ENil (chars "nil")
| W_tilde : written false 0 ENil (chars "~")
| W_undef : written false 0 EUndef (chars "~~")
| W_auto : written false 0 (EAuto here) (chars "auto")
| W_merge e t : fullMerge e t -> written false 0 e t
| W_mergeopen e t : openMerge e t -> written true 0 e t
| W_mergeor o op k e t g g' b tb : openMerge e t -> binop 7 op k -> space g -> space g' -> written o 6 b tb ->
    written o 7 (k e b) (t ++ g ++ chars op ++ g' ++ tb)
| W_symbol n : name n -> written false 0 (EStr (ofchars n)) ("$"%char :: n)
| W_not o g e t : gap g -> written o 0 e t -> written o 0 (ENot e) ("!"%char :: g ++ t)
| W_subst o e t : written o 0 e t -> written o 0 (ESubst e) ("*"%char :: t)
| W_binary o n op k a ta g g' b tb : binop n op k ->
    written false n a ta -> space g -> space g' -> written o (n - 1) b tb ->
    written o n (k a b) (ta ++ g ++ chars op ++ g' ++ tb)
| W_concat o a ta g b tb :
    written false 5 a ta -> space g -> written o 4 b tb ->
    written o 5 (EConcat a b) (ta ++ g ++ tb)
| W_cond c tc g g1 x tx g2 g3 y ty :
    written false 5 c tc -> gap g ->
    gap g1 -> written true 8 x tx -> gap g2 ->
    gap g3 -> written true 8 y ty ->
    g2 <> [] \/ g3 <> [] ->
    written true 6 (ECond c x y) (tc ++ g ++ "?"%char :: g1 ++ tx ++ g2 ++ ":"%char :: g3 ++ ty)
| W_lambda e t : lambdaText e t -> written true 8 e t
| W_lambda0 g e t : gap g -> lambdaText e t -> written true 0 e (chars "lambda" ++ g ++ t)
| W_lambdaref g e t : space g -> written true 8 e t -> (forall l va b, e <> ELambda l va b) ->
    written true 0 (ELambdaRef e here stub) (chars "lambda" ++ g ++ t)
| W_scope l u g g' e t : pairs l u -> gap g -> gap g' -> written true 8 e t ->
    written true 8 (EScope l e) ("("%char :: g ++ u ++ ")"%char :: g' ++ t)
(** operands that can be followed by arguments or further keys *)
with operand : expr -> text -> Prop :=
| O_ref k ps : plainName k -> Forall partOk ps ->
    operand (ERef "" (ofchars k :: map partName ps)) (k ++ List.concat (map partText ps))
| O_root k ps : key k -> Forall partOk ps ->
    operand (ERef "" (""%string :: ofchars k :: map partName ps)) ("."%char :: k ++ List.concat (map partText ps))
| O_group g e t g' : gap g -> written true 8 e t -> gap g' ->
    operand (EGroup e) ("("%char :: g ++ t ++ g' ++ [")"%char])
| O_list0 g : gap g -> operand (EList []) ("["%char :: g ++ ["]"%char])
| O_list l u : items l u -> operand (EList l) ("["%char :: u ++ ["]"%char])
| O_map0 g : gap g -> operand (EMap []) ("{"%char :: g ++ ["}"%char])
| O_map l u : pairs l u -> operand (EMap l) ("{"%char :: u ++ ["}"%char])
| O_range g a ta g1 g2 b tb g3 : gap g -> written true 8 a ta -> gap g1 -> gap g2 -> written true 8 b tb -> gap g3 ->
    ~ startsWith ["."%char] (g2 ++ tb) ->
    operand (ERange (Some a) (Some b))
      ("["%char :: g ++ ta ++ g1 ++ "."%char :: "."%char :: g2 ++ tb ++ g3 ++ ["]"%char])
| O_agg kw cl k g a ta g' e t : aggregation kw cl k -> gap g -> written false 7 a ta -> gap g' -> lambdaText e t ->
    operand (k a e) (chars kw ++ g ++ ta ++ g' ++ t ++ [cl])
| O_sum g a ta g1 i ti g2 e t : gap g -> written false 7 a ta -> gap g1 -> written false 7 i ti -> gap g2 -> lambdaText e t ->
    operand (ESum a i e) (chars "sum[" ++ g ++ ta ++ "|"%char :: g1 ++ ti ++ g2 ++ t ++ ["]"%char])
| O_call0 f tf g : operand f tf -> gap g -> operand (ECall f [] false) (tf ++ "("%char :: g ++ [")"%char])
| O_call f tf l u : operand f tf -> items l u -> operand (ECall f l false) (tf ++ "("%char :: u ++ [")"%char])
| O_curry0 f tf g : operand f tf -> gap g -> operand (ECall f [] true) (tf ++ "*"%char :: "("%char :: g ++ [")"%char])
| O_curry f tf l u : operand f tf -> items l u -> operand (ECall f l true) (tf ++ "*"%char :: "("%char :: u ++ [")"%char])
| O_qual e t ps : operand e t -> ~ openPath e -> ps <> [] -> Forall partOk ps ->
    operand (EQual e (map partName ps)) (t ++ List.concat (map partText ps))
| O_dyn e t dot l u : operand e t -> items l u -> noIndex u ->
    operand (EDyn e (EList l)) (t ++ (if dot : bool then ["."%char] else []) ++ "["%char :: u ++ ["]"%char])
(** |x,y|-> ... ; blanks at the end belong to the text *)
with lambdaText : expr -> text -> Prop :=
| L_none g g1 g2 e t g3 : gap g -> gap g1 -> gap g2 -> written true 8 e t -> gap g3 ->
    lambdaText (ELambda [] false e) ("|"%char :: g ++ "|"%char :: g1 ++ chars "->" ++ g2 ++ t ++ g3)
| L_some l u g1 g2 e t g3 : names l u -> gap g1 -> gap g2 -> written true 8 e t -> gap g3 ->
    lambdaText (ELambda (params l) false e) ("|"%char :: u ++ "|"%char :: g1 ++ chars "->" ++ g2 ++ t ++ g3)
(** elements of lists and arguments, [e...] expands a list *)
with items : list expr -> text -> Prop :=
| I_one e u : elem e u -> items [e] u
| I_more e u l v : elem e u -> items l v -> items (e :: l) (u ++ ","%char :: v)
with elem : expr -> text -> Prop :=
| E_plain g e t g' : gap g -> written true 8 e t -> gap g' -> elem e (g ++ t ++ g')
| E_expand g e t g' g'' : gap g -> written true 8 e t -> gap g' -> gap g'' -> elem (EExpand e) (g ++ t ++ g' ++ chars "..." ++ g'')
(** key = value, ... *)
with pairs : list (expr * expr) -> text -> Prop :=
| M_one k u v w : elem0 k u -> elem0 v w -> pairs [(k, v)] (u ++ "="%char :: w)
| M_more k u v w l t : elem0 k u -> elem0 v w -> pairs l t -> pairs ((k, v) :: l) (u ++ "="%char :: w ++ ","%char :: t)
with elem0 : expr -> text -> Prop :=
| E0 g e t g' : gap g -> written true 8 e t -> gap g' -> elem0 e (g ++ t ++ g').

(** markers: &template &local (...) *)
Definition marker (m : text) : Prop :=
  In m (map chars ["&template"; "&temporary"; "&local"; "&inject"; "&state"; "&default"; "&dynamic"]%string).
Inductive moreMarkers : list string -> text -> Prop :=
| MK_nil : moreMarkers [] []
| MK_more g m l t : space g -> marker m -> moreMarkers l t -> moreMarkers (ofchars m :: l) (g ++ m ++ t).
Inductive markers : list string -> text -> Prop :=
| MK m l t : marker m -> moreMarkers l t -> markers (ofchars m :: l) (m ++ t).
(** the text of a complete expression *)
Inductive source : expr -> text -> Prop :=
| S_expr g e t g' : gap g -> written true 8 e t -> gap g' -> source e (g ++ t ++ g')
| S_prefer g g1 e t g' : gap g -> space g1 -> written true 8 e t -> gap g' ->
    source (EPrefer e) (g ++ chars "prefer" ++ g1 ++ t ++ g')
| S_marked g l u g' : gap g -> markers l u -> gap g' -> source (EMarker l None) (g ++ u ++ g')
| S_marker g l u g1 g2 e t g3 g' : gap g -> markers l u -> gap g1 -> gap g2 -> written true 8 e t -> gap g3 -> gap g' ->
    source (EMarker l (Some (EMarkExpr (ofchars ("("%char :: g2 ++ t ++ g3 ++ [")"%char])) (EGroup e))))
      (g ++ u ++ g1 ++ "("%char :: g2 ++ t ++ g3 ++ [")"%char] ++ g').
End At.

(** ** numbers, with _ between the digits; [fl]: floating point *)
Definition digitsOf (ds : text) : Prop := ds <> [] /\ Forall (fun c => isNum c = true) ds.
Inductive numeral : bool -> text -> Prop :=
| N_int neg d ds : In neg [[]; ["-"%char]] -> isNum d = true ->
    Forall (fun c => isNum c = true \/ c = "_"%char) ds -> numeral false (neg ++ d :: ds)
| N_frac w ds : numeral false w -> digitsOf ds -> numeral true (w ++ "."%char :: ds)
| N_exp fl w e neg ds : numeral fl w -> In e ["e"; "E"]%char -> ~ In "e"%char w /\ ~ In "E"%char w ->
    In neg [[]; ["-"%char]] -> digitsOf ds -> numeral true (w ++ e :: neg ++ ds).
Definition plainDigits (w : text) : string := ofchars (filter (fun c => negb (Ascii.eqb c "_")) w).
(** a number without a value: no 64 bit integer, or no float *)
Definition noValue (parseFloat : string -> option spec_float) (fl : bool) (w : text) : Prop :=
  if fl then parseFloat (plainDigits w) = None
  else exists z, literal (plainDigits w) z /\ ~ in64 z.
