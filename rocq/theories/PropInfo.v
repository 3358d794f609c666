(** C42: combination of evaluation infos.  C41: lookup of references. *)
From Verif Require Import Core CoreFacts Str Find Env Flow Info.

(** ** C42 *)
(** the combination of any number of infos, from left to right *)
Definition joinAll (l : list info) (i : info) : info := fold_left join l i.

Theorem C42_assoc : forall a b c, join a (join b c) = join (join a b) c.
Proof.
  intros [r1 p1 m1 f1 k1 s1 l1 a1 u1 w1 i1 g1] [r2 p2 m2 f2 k2 s2 l2 a2 u2 w2 i2 g2]
         [r3 p3 m3 f3 k3 s3 l3 a3 u3 w3 i3 g3]. unfold join. cbn.
  f_equal; try apply orb_assoc; try apply N.lor_assoc.
  - destruct r3, r2; reflexivity.
  - destruct (String.eqb_spec k3 "") as [E | E]; [| destruct (String.eqb_spec k3 "")]; congruence.
  - destruct (String.eqb_spec (i_text i3) ""); [reflexivity |].
    destruct (String.eqb_spec (i_text i3) ""); congruence.
Qed.

(** the flag with number [bit] is set in [x] *)
Definition hasBit (bit : N) (x : info) : Prop := N.testbit (f_flags x) bit = true.
(** an error of some kind is reported *)
Definition reported (x : info) : Prop :=
  f_failed x = true \/ f_localError x = true \/ i_text (f_issue x) <> "".

Lemma joinAll_or : forall (P : info -> Prop),
  (forall a b, P (join a b) <-> P a \/ P b) ->
  forall l i, P (joinAll l i) <-> exists x, In x (i :: l) /\ P x.
Proof.
  intros P HP l. induction l as [| a r IH]; intros i; cbn [joinAll fold_left].
  - split; [intros H; exists i; split; [left; reflexivity | exact H] | intros [x [[-> | []] H]]; exact H].
  - change (fold_left join r (join i a)) with (joinAll r (join i a)). rewrite IH. split.
    + intros [x [[<- | Hx] H]].
      * apply HP in H as [H | H]; [exists i | exists a]; split; try exact H; [left | right; left]; reflexivity.
      * exists x. split; [right; right; exact Hx | exact H].
    + intros [x [[<- | [<- | Hx]] H]].
      * eexists. split; [left; reflexivity | apply HP; left; exact H].
      * eexists. split; [left; reflexivity | apply HP; right; exact H].
      * exists x. split; [right; exact Hx | exact H].
Qed.

(** no flag of any of the combined infos is lost and none appears from nowhere *)
Theorem C42_flags : forall bit l i,
  hasBit bit (joinAll l i) <-> exists x, In x (i :: l) /\ hasBit bit x.
Proof.
  intros bit. apply joinAll_or. intros a b. unfold hasBit, join. cbn [f_flags].
  rewrite N.lor_spec. apply orb_true_iff.
Qed.
(** failures, local errors, undefined values, merges and preferences are never
    lost and never invented *)
Theorem C42_failures : forall l i,
  (f_failed (joinAll l i) = true <-> exists x, In x (i :: l) /\ f_failed x = true) /\
  (f_localError (joinAll l i) = true <-> exists x, In x (i :: l) /\ f_localError x = true) /\
  (f_undefined (joinAll l i) = true <-> exists x, In x (i :: l) /\ f_undefined x = true) /\
  (f_merged (joinAll l i) = true <-> exists x, In x (i :: l) /\ f_merged x = true) /\
  (f_preferred (joinAll l i) = true <-> exists x, In x (i :: l) /\ f_preferred x = true).
Proof.
  intros l i. repeat split.
  1,2: apply (joinAll_or (fun x => f_failed x = true)); intros a b; unfold join; cbn; apply orb_true_iff.
  1,2: apply (joinAll_or (fun x => f_localError x = true)); intros a b; unfold join; cbn; apply orb_true_iff.
  1,2: apply (joinAll_or (fun x => f_undefined x = true)); intros a b; unfold join; cbn; apply orb_true_iff.
  1,2: apply (joinAll_or (fun x => f_merged x = true)); intros a b; unfold join; cbn; apply orb_true_iff.
  1,2: apply (joinAll_or (fun x => f_preferred x = true)); intros a b; unfold join; cbn; apply orb_true_iff.
Qed.
(** a reported error text is never replaced by silence; the last one is shown,
    and the same holds for the key name and the redirection *)
Theorem C42_issue : forall a b,
  f_issue (join a b) = (if String.eqb (i_text (f_issue b)) "" then f_issue a else f_issue b) /\
  (i_text (f_issue (join a b)) = "" <-> i_text (f_issue a) = "" /\ i_text (f_issue b) = "") /\
  (f_keyName (join a b) = "" <-> f_keyName a = "" /\ f_keyName b = "") /\
  (f_keyName b <> "" -> f_keyName (join a b) = f_keyName b) /\
  (f_keyName b = "" -> f_keyName (join a b) = f_keyName a) /\
  (forall r, f_redirect b = Some r -> f_redirect (join a b) = Some r) /\
  (f_redirect b = None -> f_redirect (join a b) = f_redirect a).
Proof.
  intros a b. unfold join. cbn.
  destruct (String.eqb_spec (i_text (f_issue b)) "") as [E | E];
  destruct (String.eqb_spec (f_keyName b) "") as [F | F];
  (split; [reflexivity |]; split; [split; [intros H; split; congruence | intros [H1 H2]; congruence] |];
   split; [split; [intros H; split; congruence | intros [H1 H2]; congruence] |];
   split; [intros H; congruence |]; split; [intros H; congruence |];
   split; [intros r ->; reflexivity | intros ->; reflexivity]).
Qed.
Theorem C42_reported : forall l i,
  reported (joinAll l i) <-> exists x, In x (i :: l) /\ reported x.
Proof.
  apply joinAll_or. intros a b. unfold reported.
  destruct (C42_issue a b) as [_ [H _]]. unfold join in *. cbn in *. rewrite !orb_true_iff.
  destruct (String.eqb_spec (i_text (f_issue a)) "") as [E | E];
  destruct (String.eqb_spec (i_text (f_issue b)) "") as [F | F]; tauto.
Qed.
(** the request to replace is not an error and not a flag: only the last info
    decides (expression.go:236) *)
Theorem C42_replace : forall l i, f_replace (joinAll l i) = f_replace (last l i).
Proof.
  induction l as [| a r IH]; intros i; [reflexivity |].
  cbn [joinAll fold_left]. change (fold_left join r (join i a)) with (joinAll r (join i a)). rewrite IH.
  destruct r as [| x r]; [reflexivity |].
  assert (G : forall (l : list info) x d d', last (x :: l) d = last (x :: l) d').
  { clear. induction l as [| y l IH]; intros x d d'; [reflexivity |]. cbn [last] in *. apply IH. }
  f_equal. change (last (a :: x :: r) i) with (last (x :: r) i). apply G.
Qed.
(** cleaning the errors keeps everything else *)
Theorem C42_clean : forall a bit,
  (hasBit bit (cleanError a) <-> hasBit bit a) /\ ~ reported (cleanError a) /\
  f_undefined (cleanError a) = false /\ f_merged (cleanError a) = f_merged a /\
  f_keyName (cleanError a) = f_keyName a /\ f_redirect (cleanError a) = f_redirect a.
Proof.
  intros a bit. repeat split; try tauto.
  unfold reported, cleanError. cbn. intros [H | [H | H]]; congruence.
Qed.
Example C42_example :
  let t := addInfoFlags FLAG_TEMPORARY defaultInfo in
  let e := setError "failed" defaultInfo in
  f_flags (joinAll [e; t] defaultInfo) = FLAG_TEMPORARY /\
  f_localError (joinAll [e; t] defaultInfo) = true /\
  i_text (f_issue (joinAll [e; t] defaultInfo)) = "failed" /\
  reported (joinAll [e; t] defaultInfo).
Proof. repeat split. right. left. reflexivity. Qed.

(** ** C41 *)
Section Refs.
Variable ctrl : bool.
Variable context : binding -> node.

(** [name] is defined in the scope as [n] / not defined in it *)
Definition defines (name : string) (n : node) (s : scope) : Prop :=
  exists m, sc_local s = Some m /\ mget name m = Some n.
Definition silent (name : string) (s : scope) : Prop :=
  forall m, sc_local s = Some m -> mget name m = None.
(** the names with a special meaning (yaml/node.go:11-13 and the context) *)
Definition ordinary (name : string) : Prop :=
  name <> SELF /\ name <> DOCNODE /\ name <> ROOT /\ name <> "__ctx".
(** the bindings from [b] outwards, nearest first *)
Inductive outward : binding -> list binding -> Prop :=
| OW_last b : b_outer b = None -> outward b [b]
| OW_next b o l : b_outer b = Some o -> outward o l -> outward b (b :: l).
Lemma resolveLocal_none : forall name l, Forall (silent name) l -> resolveLocal name l = None.
Proof.
  intros name l. induction 1 as [| s l Hs _ IH]; cbn; [reflexivity |].
  destruct (sc_local s) as [m |] eqn:E; [rewrite (Hs m E) |]; exact IH.
Qed.
Lemma resolveLocal_first : forall name pre s post n,
  Forall (silent name) pre -> defines name n s -> resolveLocal name (pre ++ s :: post) = Some n.
Proof.
  intros name pre s post n H [m [Hs Hm]]. induction H as [| x l Hx _ IH]; cbn.
  - rewrite Hs, Hm. reflexivity.
  - destruct (sc_local x) as [k |] eqn:E; [rewrite (Hx k E) |]; exact IH.
Qed.
Lemma eqb_ne : forall a b, a <> b -> String.eqb a b = false.
Proof. intros a b H. destruct (String.eqb_spec a b); congruence. Qed.

(** the innermost definition decides, whatever the further scopes [post] and the
    rest of the binding contain; the rest of the path is looked up below it *)
Theorem C41_innermost : forall name rest pre s post n b,
  ordinary name -> b_scopes b = pre ++ s :: post ->
  Forall (silent name) pre -> defines name n s ->
  findReference ctrl context (name :: rest) b = find true ctrl rest n.
Proof.
  intros name rest pre s post n b [H1 [H2 [H3 H4]]] Hb Hpre Hs.
  cbn [findReference]. destruct b as [sc ro p sp st nm so sta ou cu ac bi]. cbn [b_scopes] in Hb. subst sc.
  unfold resolveSymbol. rewrite (eqb_ne _ _ H4). cbn [b_scopes].
  rewrite (resolveLocal_first name pre s post n Hpre Hs).
  rewrite (eqb_ne _ _ H1), andb_false_r. reflexivity.
Qed.
(** so neither shadowed definitions nor outer bindings nor stubs have an influence *)
Theorem C41_shadow : forall name rest pre s post post' n b b',
  ordinary name -> b_scopes b = pre ++ s :: post -> b_scopes b' = pre ++ s :: post' ->
  Forall (silent name) pre -> defines name n s ->
  findReference ctrl context (name :: rest) b = findReference ctrl context (name :: rest) b'.
Proof.
  intros. rewrite (C41_innermost name rest pre s post n b), (C41_innermost name rest pre s post' n b'); auto.
Qed.
(** a name defined in no scope of the binding is looked up in the outer binding;
    without one it is not found *)
Theorem C41_outer : forall name rest b,
  ordinary name -> Forall (silent name) (b_scopes b) ->
  findReference ctrl context (name :: rest) b =
  match b_outer b with
  | Some o => findReference ctrl context (name :: rest) o
  | None => FNo
  end.
Proof.
  intros name rest b [H1 [H2 [H3 H4]]] H.
  cbn [findReference]. destruct b as [sc ro p sp st nm so sta ou cu ac bi]. cbn [b_scopes b_outer] in *.
  unfold resolveSymbol at 1. rewrite (eqb_ne _ _ H4). cbn [b_scopes].
  rewrite (resolveLocal_none name sc H), (eqb_ne _ _ H3), (eqb_ne _ _ H2).
  destruct ou as [o |]; reflexivity.
Qed.
(** altogether: the result of a reference by the nearest binding and scope *)
Theorem C41_reference : forall name b bs, ordinary name -> outward b bs ->
  forall rest,
  (exists before e after pre s post n,
     bs = before ++ e :: after /\ Forall (fun x => Forall (silent name) (b_scopes x)) before /\
     b_scopes e = pre ++ s :: post /\ Forall (silent name) pre /\ defines name n s /\
     findReference ctrl context (name :: rest) b = find true ctrl rest n) \/
  (Forall (fun x => Forall (silent name) (b_scopes x)) bs /\
   findReference ctrl context (name :: rest) b = FNo).
Proof.
  intros name b bs Hn H rest.
  assert (D : forall l, Forall (silent name) l \/
     exists pre s post n, l = pre ++ s :: post /\ Forall (silent name) pre /\ defines name n s).
  { induction l as [| s l IH]; [left; constructor |].
    destruct (sc_local s) as [m |] eqn:E; [destruct (mget name m) as [n |] eqn:F |].
    - right. exists [], s, l, n. repeat split; [constructor | exists m; auto].
    - assert (S : silent name s) by (intros m' Hm'; congruence).
      destruct IH as [IH | [pre [x [post [n [-> [A B]]]]]]].
      + left. constructor; assumption.
      + right. exists (s :: pre), x, post, n. split; [reflexivity |]. split; [constructor; assumption | exact B].
    - assert (S : silent name s) by (intros m' Hm'; congruence).
      destruct IH as [IH | [pre [x [post [n [-> [A B]]]]]]].
      + left. constructor; assumption.
      + right. exists (s :: pre), x, post, n. split; [reflexivity |]. split; [constructor; assumption | exact B]. }
  induction H as [b Hb | b o l Hb Ho IH].
  - destruct (D (b_scopes b)) as [A | [pre [s [post [n [E [A B]]]]]]].
    + right. split; [constructor; [exact A | constructor] |]. rewrite C41_outer by assumption. rewrite Hb. reflexivity.
    + left. exists [], b, [], pre, s, post, n. repeat split; try assumption; [constructor |].
      apply (C41_innermost name rest pre s post); assumption.
  - destruct (D (b_scopes b)) as [A | [pre [s [post [n [E [A B]]]]]]].
    + rewrite C41_outer by assumption. rewrite Hb.
      destruct IH as [[before [e [after [pre [s [post [n [-> [C1 [C2 [C3 [C4 C5]]]]]]]]]]]] | [C1 C2]].
      * left. exists (b :: before), e, after, pre, s, post, n. repeat split; try assumption.
        constructor; assumption.
      * right. split; [constructor; assumption | exact C2].
    + left. exists [], b, l, pre, s, post, n. repeat split; try assumption; [constructor |].
      apply (C41_innermost name rest pre s post); assumption.
Qed.
(** entering the fields of a map makes them the innermost definitions *)
Theorem C41_scope : forall name rest m b, ordinary name ->
  findReference ctrl context (name :: rest) (withScope m b) =
  match mget name m with
  | Some n => find true ctrl rest n
  | None => findReference ctrl context (name :: rest) b
  end /\
  findReference ctrl context (name :: rest) (withLocalScope m b) =
  match mget name m with
  | Some n => find true ctrl rest n
  | None => findReference ctrl context (name :: rest) b
  end.
Proof.
  intros name rest m b Hn. pose proof Hn as [H1 [H2 [H3 H4]]].
  assert (G : forall s sc ro p sp st nm so sta sta' ou cu ac bi root, sc_local s = Some m ->
    findReference ctrl context (name :: rest) (mkBinding (s :: sc) root p sp st nm so sta' ou cu ac bi) =
    match mget name m with
    | Some n => find true ctrl rest n
    | None => findReference ctrl context (name :: rest) (mkBinding sc ro p sp st nm so sta ou cu ac bi)
    end).
  { intros s sc ro p sp st nm so sta sta' ou cu ac bi root Hs. destruct (mget name m) as [n |] eqn:E.
    - apply (C41_innermost name rest [] s sc); [exact Hn | reflexivity | constructor | exists m; auto].
    - cbn [findReference]. unfold resolveSymbol. rewrite (eqb_ne _ _ H4). cbn [b_scopes resolveLocal]. rewrite Hs, E.
      rewrite (eqb_ne _ _ H1), (eqb_ne _ _ H2), (eqb_ne _ _ H3). reflexivity. }
  destruct b as [sc ro p sp st nm so sta ou cu ac bi].
  split; unfold withScope, withLocalScope, pushScope; apply G; reflexivity.
Qed.
(** *** the names with a special meaning *)
(** the scope [s] belongs to a node of the document (and not to a parameter or a binding) *)
Definition ofNode (s : scope) : Prop := (exists p, sc_path s = Some p) /\ exists m, sc_local s = Some m.
Lemma nodeScope_first pre s post : Forall (fun x => ~ ofNode x) pre -> ofNode s -> nodeScope (pre ++ s :: post) = s :: post.
Proof.
  intros F [[p P] [m M]]. induction F as [|x l N _ IH]; cbn [app nodeScope].
  - now rewrite P, M.
  - destruct (sc_path x) as [q|] eqn:Q; [destruct (sc_local x) as [k|] eqn:K|]; try exact IH. exfalso. apply N. split; eauto.
Qed.
Lemma scopes_first n rest : forall mid t post x, Forall (fun y => exists m, sc_local y = Some m /\ mget n m = None) mid -> defines n x t ->
  findInScopes ctrl (mid ++ t :: post) n rest = find true ctrl rest x.
Proof.
  intros mid t post x F (m & M & G). induction F as [|y l (k & K & N) _ IH]; cbn [app findInScopes]; [now rewrite M, G|]. now rewrite K, N.
Qed.
Lemma scopes_none n rest : forall l, Forall (fun y => exists m, sc_local y = Some m /\ mget n m = None) l -> findInScopes ctrl l n rest = FNo.
Proof. intros l F. induction F as [|y l (k & K & N) _ IH]; cbn [findInScopes]; [reflexivity|]. now rewrite K, N. Qed.
(** __node.n: the nearest definition of n in the maps of the document around the place *)
Theorem C41_node : forall b pre s post,
  b_scopes b = pre ++ s :: post -> Forall (silent DOCNODE) (b_scopes b) -> Forall (fun x => ~ ofNode x) pre -> ofNode s ->
  (forall n rest mid t tail x, s :: post = mid ++ t :: tail -> Forall (fun y => exists m, sc_local y = Some m /\ mget n m = None) mid -> defines n x t ->
     findReference ctrl context (DOCNODE :: n :: rest) b = find true ctrl rest x) /\
  (forall n rest, Forall (fun y => exists m, sc_local y = Some m /\ mget n m = None) (s :: post) ->
     findReference ctrl context (DOCNODE :: n :: rest) b = FNo) /\
  (forall m, sc_local s = Some m -> findReference ctrl context [DOCNODE] b = FOk (newNode (VMap m) "__ctx")).
Proof.
  intros b pre s post E S F O.
  assert (R : resolveSymbol context b DOCNODE = None) by (unfold resolveSymbol; cbn [String.eqb Ascii.eqb Bool.eqb DOCNODE]; now apply resolveLocal_none).
  assert (NS : nodeScope (b_scopes b) = s :: post) by (rewrite E; now apply nodeScope_first).
  assert (G : forall rest, findReference ctrl context (DOCNODE :: rest) b = match rest with n :: r => findInScopes ctrl (s :: post) n r
     | [] => match sc_local s with Some m => FOk (newNode (VMap m) "__ctx") | None => FNo end end).
  { intro rest. cbn [findReference]. destruct b as [sc ro p sp st nm so sta ou cu ac bi]. rewrite R. cbn [b_scopes] in NS |- *.
    replace (String.eqb DOCNODE ROOT) with false by reflexivity. rewrite String.eqb_refl, NS. reflexivity. }
  split; [|split].
  - intros n rest mid t tail x Em Fm D. rewrite G, Em. now apply scopes_first.
  - intros n rest Fn. rewrite G. now apply scopes_none.
  - intros m M. now rewrite G, M.
Qed.
(** __root: the document of the outermost binding, however far out it is *)
Definition rootMap (b : binding) (m : smap node) : Prop :=
  exists h s, b_root b = Some h /\ b_scopes b <> [] /\ nth_error (b_scopes b) (length (b_scopes b) - h) = Some s /\ sc_local s = Some m.
Lemma outermost_last : forall bs b, outward b bs -> outermost b = last bs b.
Proof.
  intros bs b H. induction H as [b N|b o l N H IH].
  - destruct b; cbn in *. now rewrite N.
  - assert (X : outermost b = outermost o) by (destruct b; cbn in *; now rewrite N). rewrite X, IH. destruct H; reflexivity || (cbn [last]; destruct l; [inversion H0|]; clear; revert b; reflexivity) || idtac.
    all: destruct l; [inversion H0|]; cbn [last]; clear; revert b1; induction l; intros; try reflexivity; cbn [last]; auto.
Qed.
Theorem C41_root : forall bs b m rest, outward b bs -> Forall (silent ROOT) (b_scopes b) -> rootMap (last bs b) m ->
  findReference ctrl context (ROOT :: rest) b = find true ctrl rest (newNode (VMap m) "__ctx").
Proof.
  intros bs b m rest O S (h & s & R & NE & N & L). apply outermost_last in O.
  assert (Q : resolveSymbol context b ROOT = None) by (unfold resolveSymbol; cbn [String.eqb Ascii.eqb Bool.eqb ROOT]; now apply resolveLocal_none).
  assert (GR : getRootBinding (outermost b) = Some m).
  { rewrite O. unfold getRootBinding, rootScope. rewrite R. destruct (b_scopes (last bs b)) eqn:E; [congruence|]. rewrite N. now rewrite L. }
  cbn [findReference]. destruct b as [sc ro p sp st nm so sta ou cu ac bi]. rewrite Q, GR, String.eqb_refl. reflexivity.
Qed.
End Refs.
(** __ctx: names of files, path and stub path of the place, the documents of the outer bindings
    from the nearest to the outermost one *)
Theorem C41_context : forall version dir links b os ms, outward b (b :: os) -> Forall2 rootMap os ms ->
  exists m, val (createContext version dir links b) = VMap m /\
    (forall k v, In (k, v) [("VERSION", VStr version); ("FILE", VStr (b_current b)); ("DIR", VStr (dir (b_current b)));
       ("RESOLVED_FILE", VStr (links (b_current b))); ("RESOLVED_DIR", VStr (dir (links (b_current b)))); ("PATHNAME", VStr (joinS "." (b_path b)))] ->
       exists n, mget k m = Some n /\ val n = v) /\
    (forall k p, In (k, p) [("PATH", b_path b); ("STUBPATH", b_stubPath b)] -> exists n l, mget k m = Some n /\ val n = VList l /\ map val l = map VStr p) /\
    (os = [] -> mget "OUTER" m = None) /\
    (os <> [] -> exists n l, mget "OUTER" m = Some n /\ val n = VList l /\ map val l = map VMap ms).
Proof.
  intros version dir links b os ms O F.
  assert (OM : map val (outerMaps b) = map VMap ms).
  { remember (b :: os) as bs eqn:E. revert os ms E F. induction O as [b N|b o l N O IH]; intros os ms E F.
    - injection E as <-. inversion F. destruct b; cbn in *. now rewrite N.
    - injection E as <-. destruct l as [|o' l]; [inversion O|]. assert (o' = o) by (inversion O; reflexivity). subst o'.
      inversion F as [|? m ? ms' (h & s & R & NE & Nt & L) F']; subst. specialize (IH l ms' eq_refl F').
      assert (X : outerMaps b = ctxNode (VMap m) :: outerMaps o).
      { assert (Z : forall s1, Env.b_scopes o = s1 -> s1 <> []) by (intros s1 <-; exact NE). destruct b; cbn in N; subst. cbn [outerMaps]. unfold rootScope. rewrite R, Nt, L. destruct (Env.b_scopes o) as [|z1 z2]; [now destruct (Z [] eq_refl)|reflexivity]. }
      rewrite X. cbn [map]. now rewrite IH. }
  eexists. split; [reflexivity|].
  assert (LEN : length (outerMaps b) = length os).
  { apply (f_equal (@length _)) in OM. rewrite !map_length in OM. rewrite OM. clear - F. induction F; cbn; congruence. }
  split; [|split; [|split]].
  - intros k v I. cbn in I. destruct (outerMaps b); repeat (destruct I as [X|I]; [injection X as <- <-; eexists; split; reflexivity|]); destruct I.
  - intros k p I. cbn in I. destruct (outerMaps b); repeat (destruct I as [X|I]; [injection X as <- <-; eexists _, _; split; [reflexivity|]; split; [reflexivity|]; rewrite map_map; reflexivity|]); destruct I.
  - intros ->. destruct (outerMaps b); [reflexivity|discriminate LEN].
  - intro NE. destruct (outerMaps b) as [|x l] eqn:E; [destruct os; [congruence|discriminate LEN]|]. exists (ctxNode (VList (x :: l))), (x :: l). split; [reflexivity|]. split; [reflexivity|exact OM].
Qed.
Definition nd (v : value) : node := newNode v "doc".
Example C41_example :
  let inner := [("x", nd (VInt 1))] in
  let outer := [("x", nd (VInt 2)); ("y", nd (VMap [("z", nd (VInt 3))]))] in
  let b := withScope inner (withScope outer (newEnvironment [] "doc")) in
  ordinary "x" /\
  findReference true (fun _ => nd VNil) ["x"] b = FOk (nd (VInt 1)) /\
  findReference true (fun _ => nd VNil) ["y"; "z"] b = FOk (nd (VInt 3)) /\
  findReference true (fun _ => nd VNil) ["w"] b = FNo.
Proof. repeat split; discriminate. Qed.

Print Assumptions C42_assoc.
Print Assumptions C42_flags.
Print Assumptions C42_failures.
Print Assumptions C42_issue.
Print Assumptions C42_reported.
Print Assumptions C42_replace.
Print Assumptions C42_clean.
Print Assumptions C41_innermost.
Print Assumptions C41_shadow.
Print Assumptions C41_outer.
Print Assumptions C41_reference.
Print Assumptions C41_scope.
(** a document inside another one: the maps around a place are the inner and the outer one *)
Example C41_special_example :
  let outerDoc := withScope [("o", nd (VInt 1))] (newEnvironment [] "outer") in
  let b := withLocalScope [("p", nd (VInt 9))] (withScope [("x", nd (VInt 2))] (withPath "a" (withScope [("x", nd (VInt 3)); ("y", nd (VInt 4))] (newNested [] "doc" (Some outerDoc))))) in
  outward b [b; outerDoc] /\ rootMap outerDoc [("o", nd (VInt 1))] /\ Forall (silent DOCNODE) (b_scopes b) /\
  findReference true (fun _ => nd VNil) [DOCNODE; "x"] b = FOk (nd (VInt 2)) /\
  findReference true (fun _ => nd VNil) [DOCNODE; "y"] b = FOk (nd (VInt 4)) /\
  findReference true (fun _ => nd VNil) [DOCNODE; "p"] b = FNo /\
  findReference true (fun _ => nd VNil) [ROOT; "o"] b = FOk (nd (VInt 1)).
Proof.
  cbv zeta. split; [eapply OW_next; [reflexivity|now constructor]|]. split; [eexists _, _; repeat split; discriminate|]. split.
  - repeat (apply Forall_cons; [intros m E; injection E as <-; reflexivity|]). constructor.
  - repeat split; reflexivity.
Qed.

Print Assumptions C41_node.
Print Assumptions C41_root.
Print Assumptions C41_context.
