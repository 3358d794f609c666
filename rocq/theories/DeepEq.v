(** reflect.DeepEqual on values, nodes and expressions.
    A value is mapped to a finite tree of its fields; DeepEqual compares the
    trees.  Floats compare with ==, so NaN differs from itself.
    The pointer of a projection value is compared by identity. No proofs here. *)
From Coq Require Import Floats.SpecFloat.
From Verif Require Import Core.

Inductive tree :=
| TN (tag : Z) (kids : list tree)
| TS (s : string)
| TZ (z : Z)
| TF (f : spec_float).

(** float64 == *)
Definition feqb (f g : spec_float) : bool :=
  match SFcompare f g with Some Eq => true | _ => false end.

Fixpoint tree_eqb (a b : tree) : bool :=
  match a, b with
  | TN s k, TN t l =>
      Z.eqb s t &&
      (fix go (k l : list tree) : bool :=
         match k, l with
         | [], [] => true
         | x :: k', y :: l' => tree_eqb x y && go k' l'
         | _, _ => false
         end) k l
  | TS s, TS t => String.eqb s t
  | TZ x, TZ y => Z.eqb x y
  | TF f, TF g => feqb f g
  | _, _ => false
  end.

Definition tb (b : bool) : tree := TZ (if b then 1 else 0).
Definition tl (l : list tree) : tree := TN 0 l.
Definition tss (l : list string) : tree := tl (map TS l).
Definition topt {A} (f : A -> tree) (o : option A) : tree :=
  match o with None => TN 1 [] | Some x => TN 2 [f x] end.
Definition tann (a : annotation) : tree :=
  tl [topt tss (a_redirect a); tb (a_replace a); tb (a_preferred a); tb (a_merged a);
      TS (a_keyName a); tb (a_error a); tb (a_failed a); tb (a_undefined a);
      TS (i_text (a_issue a)); topt tss (i_orig (a_issue a)); TS (a_tag a); TZ (Z.of_N (a_flags a))].
Definition tctx (c : mapctx) : tree :=
  TZ match c with MapToList => 0 | MapToMap => 1 | SelectToList => 2 | SelectToMap => 3 | FilterList => 4 | FilterMap => 5 end.

(** one tree per value/node/expression/scope/binding: tag and all fields *)
Fixpoint encV (v : value) : tree :=
  match v with
  | VNil => TN 10 []
  | VBool b => TN 11 [tb b]
  | VInt z => TN 12 [TZ z]
  | VGoInt z => TN 13 [TZ z]
  | VFloat f => TN 14 [TF f]
  | VStr s => TN 15 [TS s]
  | VList l => TN 16 (map encN l)
  | VMap m => TN 17 (map (fun p => match p with (k, n) => TN 3 [TS k; encN n] end) m)
  | VExpr e => TN 18 [encE e]
  | VLambda ps va b st r =>
      TN 19 [tl (map (fun p => match p with (k, o) =>
                     TN 3 [TS k; match o with None => TN 1 [] | Some e => TN 2 [encE e] end] end) ps);
             tb va; encE b;
             tl (map (fun p => match p with (k, n) => TN 3 [TS k; encN n] end) st); encB r]
  | VTemplate p a b r => TN 20 [tss p; encN a; encN b; encB r]
  end
with encN (n : node) : tree :=
  match n with
  | mkNode v a s t r =>
      TN 21 [encV v; tann a; TS s;
             match t with None => TN 1 [] | Some v => TN 2 [encV v] end;
             match r with None => TN 1 [] | Some b => TN 2 [encB b] end]
  end
with encE (e : expr) : tree :=
  match e with
  | EBool b => TN 30 [tb b]
  | EInt z => TN 31 [TZ z]
  | EFloat f => TN 32 [TF f]
  | EStr s => TN 33 [TS s]
  | ENil => TN 34 []
  | EUndef => TN 35 []
  | EDefault => TN 36 []
  | ERef t p => TN 37 [TS t; tss p]
  | EMerge p a b c d k => TN 38 [tss p; tb a; tb b; tb c; tb d; TS k]
  | EAuto p => TN 39 [tss p]
  | EOr a b => TN 40 [encE a; encE b]
  | EValidOr a b => TN 41 [encE a; encE b]
  | ELogOr a b => TN 42 [encE a; encE b]
  | ELogAnd a b => TN 43 [encE a; encE b]
  | ENot a => TN 44 [encE a]
  | ECond a b c => TN 45 [encE a; encE b; encE c]
  | ECmp a o b => TN 46 [encE a; TS o; encE b]
  | EAdd a b => TN 47 [encE a; encE b]
  | ESub a b => TN 48 [encE a; encE b]
  | EMul a b => TN 49 [encE a; encE b]
  | EDiv a b => TN 50 [encE a; encE b]
  | EMod a b => TN 51 [encE a; encE b]
  | EConcat a b => TN 52 [encE a; encE b]
  | ERange a b => TN 53 [match a with None => TN 1 [] | Some e => TN 2 [encE e] end;
                         match b with None => TN 1 [] | Some e => TN 2 [encE e] end]
  | ESlice e a b => TN 54 [encE e; match a with None => TN 1 [] | Some e => TN 2 [encE e] end;
                         match b with None => TN 1 [] | Some e => TN 2 [encE e] end]
  | EProj e i q => TN 55 [encE e; TZ (Z.of_nat i); encE q]
  | EProjVal i => TN 56 [TZ (Z.of_nat i)]
  | EList l => TN 57 (map encE l)
  | EMap l => TN 58 (map (fun p => match p with (a, b) => TN 3 [encE a; encE b] end) l)
  | EScope l e => TN 59 [tl (map (fun p => match p with (a, b) => TN 3 [encE a; encE b] end) l); encE e]
  | ECall f l c => TN 60 [encE f; tl (map encE l); tb c]
  | ENameArg n e => TN 61 [TS n; encE e]
  | EExpand e => TN 62 [encE e]
  | ELambda ps va b =>
      TN 63 [tl (map (fun p => match p with (k, o) =>
                     TN 3 [TS k; match o with None => TN 1 [] | Some e => TN 2 [encE e] end] end) ps);
             tb va; encE b]
  | ELambdaRef e p s => TN 64 [encE e; tss p; tss s]
  | EMapping c a l => TN 65 [tctx c; encE a; encE l]
  | ESum a i l => TN 66 [encE a; encE i; encE l]
  | ECatch a l => TN 67 [encE a; encE l]
  | ESync a c v t => TN 68 [encE a; encE c; encE v; encE t]
  | EQual e p => TN 69 [encE e; tss p]
  | EDyn a b => TN 70 [encE a; encE b]
  | ESubst e => TN 71 [encE e]
  | EMarker l o => TN 72 [tss l; match o with None => TN 1 [] | Some e => TN 2 [encE e] end]
  | EMarkExpr s e => TN 73 [TS s; encE e]
  | EPrefer e => TN 74 [encE e]
  | EGroup e => TN 75 [encE e]
  | EValue v => TN 76 [encV v]
  end
with encS (s : scope) : tree :=
  match s with
  | mkScope l m p =>
      TN 80 [match l with None => TN 1 [] | Some l => TN 2 (map encN l) end;
             match m with None => TN 1 []
             | Some m => TN 2 (map (fun p => match p with (k, n) => TN 3 [TS k; encN n] end) m) end;
             topt tss p]
  end
with encB (b : binding) : tree :=
  match b with
  | mkBinding sc ro p sp st nm so sta ou cu ac bi =>
      TN 81 [tl (map encS sc); topt (fun n => TZ (Z.of_nat n)) ro; tss p; tss sp; tl (map encN st); tb nm; TS so;
             tl (map (fun p => match p with (k, n) => TN 3 [TS k; encN n] end) sta);
             match ou with None => TN 1 [] | Some b => TN 2 [encB b] end; TS cu; tb ac; tb bi]
  end.

(** reflect.DeepEqual *)
Definition deepEqV (a b : value) : bool := tree_eqb (encV a) (encV b).
Definition deepEqN (a b : node) : bool := tree_eqb (encN a) (encN b).
Definition deepEqE (a b : expr) : bool := tree_eqb (encE a) (encE b).
