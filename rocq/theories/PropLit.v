(** C53: list and map literals, scopes, ranges, slices and projections as expressions,
    for every evaluator state and environment. *)
From Coq Require Import Lia.
From Verif Require Import Core CoreFacts Str StrFacts DecSpec DeepEq Equiv EquivFacts Find FindFacts Interp Cleanup Unresolved Env Arith IP Comparison RangeSlice ListFns Flow Info Eval Control Engine EngineFacts Runs World0.
From Verif Require PropFail PropRef PropRange PropInfo PropAgg.
Import ListNotations.
Open Scope string_scope. Open Scope list_scope.
Notation isValue := PropCond.isValue.

Section C53.
Variable ST : Type.
Variable W : world ST.
Hypothesis SW : steadyWorld W.
Notation evaluates := (evaluates ST W).
Notation crashes := (crashes ST W).
Notation evalF := (evalF ST W).
Notation ctrl := (w_ctrl W).
Notation gives := (PropFail.gives ST W).
Notation pends := (PropFail.pends ST W).
Notation failing := (PropFail.failing ST W).
Notation settled := (PropRef.settled ctrl).
Notation complete := (PropRef.complete ST W).

(** ** list literals *)
(** the elements of a list literal: an expansion contributes the elements of its list *)
Inductive item (b : binding) : expr -> ST -> list value -> ST -> Prop :=
| It_one e s v i s' : isExpansion e = false -> gives b false e s v i s' -> item b e s [v] s'
| It_all e s ns i s' : isExpansion e = true -> gives b false e s (VList ns) i s' -> item b e s (map val ns) s'.
Inductive items (b : binding) : list expr -> ST -> list value -> ST -> Prop :=
| Is_nil s : items b [] s [] s
| Is_cons e es s vs s1 ws s2 : item b e s vs s1 -> items b es s1 ws s2 -> items b (e :: es) s (vs ++ ws) s2.
(** evaluated without a failure *)
Definition unfailed (b : binding) (e : expr) (s s' : ST) : Prop := pends b false e s s' \/ exists v i, gives b false e s v i s'.
(** a pending expression stays an expansion, or a plain expression *)
Definition staysExpansion (e x : expr) : Prop := isExpansion (keepArg x e) = true.
(** an expansion without a list (yet) *)
Definition noList (b : binding) (e : expr) (s s' : ST) : Prop :=
  (exists x i, evaluates e b false s (VExpr x, i, true) s' /\ staysExpansion e x) \/
  (isExpansion e = true /\ exists v i, gives b false e s v i s' /\ forall ns, v <> VList ns).
(** a plain element that is not decided yet *)
Definition waiting (b : binding) (e : expr) (s s' : ST) : Prop :=
  exists x i, evaluates e b false s (VExpr x, i, true) s' /\ ~ staysExpansion e x.
Definition oneItem (b : binding) (e : expr) (s s' : ST) : Prop := exists vs, item b e s vs s'.
Definition expectable (b : binding) (e : expr) (s s' : ST) : Prop := oneItem b e s s' \/ waiting b e s s'.
(** some expression with P, all others with Q *)
Definition someThat (P Q : binding -> expr -> ST -> ST -> Prop) (b : binding) (es : list expr) (s s' : ST) : Prop :=
  exists pre e post s1 s2, es = pre ++ e :: post /\ PropFail.each (Q b) pre s s1 /\ P b e s1 s2 /\ PropFail.each (Q b) post s2 s'.

(** what resolveEach yields for one expression *)
Inductive rone (b : binding) (e : expr) : ST -> value * expr * bool -> ST -> Prop :=
| R_val s v i s' : gives b false e s v i s' -> rone b e s (v, e, true) s'
| R_pend s x i s' : evaluates e b false s (VExpr x, i, true) s' -> rone b e s (VNil, keepArg x e, false) s'.
Inductive rall (b : binding) : list expr -> ST -> list (value * expr) -> bool -> ST -> Prop :=
| RA_nil s : rall b [] s [] true s
| RA_cons e es s v e' ok s1 vs ok' s2 : rone b e s (v, e', ok) s1 -> rall b es s1 vs ok' s2 ->
    rall b (e :: es) s ((v, e') :: vs) (ok && ok') s2.
Lemma incr_each : forall es i b, incr (fun f => resolveEach ST (evalF f) es i b false).
Proof. intros es i b f f' L. apply resolveEach_le. intros. now apply evalF_le. Qed.
Lemma each_runs : forall b es i s x s',
  runs (fun f => resolveEach ST (evalF f) es i b false) s x s' <->
  (exists vs res j, x = inr (vs, res, j) /\ rall b es s vs res s' /\
     runs (fun f => resolveEach ST (evalF f) es i b false) s x s') \/
  (exists j pre e post s1, x = inl j /\ es = pre ++ e :: post /\ PropFail.each (unfailed b) pre s s1 /\ (exists k, failing b false e s1 k s') /\
     runs (fun f => resolveEach ST (evalF f) es i b false) s x s').
Proof.
  intros b es i s x s'. split; [|intros [(vs & res & j & _ & _ & H)|(j & pre & e & post & s1 & _ & _ & _ & _ & H)]; exact H].
  intro H. cut ((exists vs res j, x = inr (vs, res, j) /\ rall b es s vs res s') \/
    (exists j pre e post s1, x = inl j /\ es = pre ++ e :: post /\ PropFail.each (unfailed b) pre s s1 /\ (exists k, failing b false e s1 k s'))).
  { intros [(vs & res & j & A & B)|(j & pre & e & post & s1 & A & B & C & D)]; [left|right]; eauto 10. }
  revert i s x s' H. induction es as [|e es IH]; intros i s x s' H.
  - cbn [resolveEach] in H. apply runs_ret in H. destruct H as [-> ->]. left. do 3 eexists. split; [reflexivity|constructor].
  - cbn [resolveEach] in H. 
    assert (I : forall p, incr (fun f => match p with
      | PFail i => ret ST (inl i)
      | PVal v i => bind ST (resolveEach ST (evalF f) es (Some i) b false) (fun x => ret ST (match x with inl i => inl i | inr (vs, res, i) => inr ((v, e) :: vs, res, i) end))
      | PExpr e' i => bind ST (resolveEach ST (evalF f) es (Some i) b false) (fun x => ret ST (match x with inl i => inl i | inr (vs, _, i) => inr ((VNil, e') :: vs, false, i) end))
      end)).
    { intros [j|v j|e' j]; [apply incr_const| |]; (apply incr_bind; [apply incr_each|intro; apply incr_const]). }
    apply runs_bind in H; [|apply incr_push, SW|exact I]. destruct H as (p & s1 & P & H).
    apply runs_push in P; [|exact SW]. destruct P as ([[v ie] ok] & P & ->). unfold pushOf in H. destruct ok.
    2:{ apply runs_ret in H. destruct H as [-> ->]. right. eexists. exists [], e, es, s. split; [reflexivity|]. split; [reflexivity|].
        split; [constructor|]. exists ie, v. exact P. }
    destruct (match v with VExpr _ => true | _ => false end) eqn:Ev.
    + destruct v; try discriminate. apply runs_bind in H; [|apply incr_each|intro; apply incr_const].
      destruct H as (y & s2 & H & K). apply runs_ret in K. destruct K as [-> ->]. apply IH in H.
      destruct H as [(vs & res & j & -> & R)|(j & pre & e' & post & s3 & -> & -> & A & B)].
      * left. do 3 eexists. split; [reflexivity|]. apply (RA_cons b e es s VNil (keepArg e0 e) false s1 vs res); [now econstructor; exact P|exact R].
      * right. exists j, (e :: pre), e', post, s3. split; [reflexivity|]. split; [reflexivity|]. split; [|exact B].
        econstructor; [|exact A]. left. exists e0, ie. exact P.
    + assert (G : gives b false e s v ie s1) by (split; [exact P|intros y ->; discriminate]).
      set (jj := match i with Some i => join i ie | None => ie end) in *.
      assert (H' : runs (fun f => bind ST (resolveEach ST (evalF f) es (Some jj) b false)
         (fun x => ret ST (match x with inl i => inl i | inr (vs, res, i) => inr ((v, e) :: vs, res, i) end))) s1 x s')
        by (destruct v; try discriminate; exact H). clear H.
      apply runs_bind in H'; [|apply incr_each|intro; apply incr_const].
      destruct H' as (y & s2 & H & K). apply runs_ret in K. destruct K as [-> ->]. apply IH in H.
      destruct H as [(vs & res & j & -> & R)|(j & pre & e' & post & s3 & -> & -> & A & B)].
      * left. do 3 eexists. split; [reflexivity|]. apply (RA_cons b e es s v e true s1 vs res); [econstructor; exact G|exact R].
      * right. exists j, (e :: pre), e', post, s3. split; [reflexivity|]. split; [reflexivity|]. split; [|exact B].
        econstructor; [|exact A]. right. exists v, ie. exact G.
Qed.
(** and it does so *)
Lemma rall_runs : forall b es s vs res s', rall b es s vs res s' -> forall i,
  exists j, runs (fun f => resolveEach ST (evalF f) es i b false) s (inr (vs, res, j)) s'.
Proof.
  intros b es s vs res s' H. induction H as [s|e es s v e' ok s1 vs ok' s2 R A IH]; intro i.
  - eexists. cbn [resolveEach]. apply runs_ret. auto.
  - inversion R as [s0 v0 ie s3 [G V]|s0 x ie s3 G]; subst; cbn [resolveEach].
    + destruct (IH (Some (match i with Some i => join i ie | None => ie end))) as [j [f2 E2]]. destruct G as [f1 E1]. exists j, (Nat.max f1 f2).
      unfold bind at 1, resolvePush, bind at 1. rewrite (le_ret _ _ _ _ _ _ (evalF_le _ _ SW f1 (Nat.max f1 f2) ltac:(lia) _ _ _) E1). unfold ret at 1.
      pose proof (le_ret _ _ _ _ _ _ (incr_each es _ b f2 (Nat.max f1 f2) ltac:(lia)) E2) as E.
      destruct v; try (unfold bind; rewrite E; reflexivity). now destruct (V e).
    + destruct (IH (Some (match i with Some i => join i ie | None => ie end))) as [j [f2 E2]]. destruct G as [f1 E1]. exists j, (Nat.max f1 f2).
      unfold bind at 1, resolvePush, bind at 1. rewrite (le_ret _ _ _ _ _ _ (evalF_le _ _ SW f1 (Nat.max f1 f2) ltac:(lia) _ _ _) E1). unfold ret at 1.
      pose proof (le_ret _ _ _ _ _ _ (incr_each es _ b f2 (Nat.max f1 f2) ltac:(lia)) E2) as E.
      unfold bind. rewrite E. reflexivity.
Qed.
Lemma fail_runs : forall b pre s s1, PropFail.each (unfailed b) pre s s1 -> forall e post s', (exists k, failing b false e s1 k s') -> forall i,
  exists j, runs (fun f => resolveEach ST (evalF f) (pre ++ e :: post) i b false) s (inl j) s'.
Proof.
  intros b pre s s1 H. induction H as [s|e0 es s s1 s2 U A IH]; intros e post s' F i.
  - destruct F as (k & v & f & E). eexists. exists f. cbn [app resolveEach]. unfold bind at 1, resolvePush, bind at 1. rewrite E. reflexivity.
  - destruct U as [(x & ie & f1 & E1)|(v & ie & [[f1 E1] V])]; cbn [app resolveEach].
    + destruct (IH e post s' F (Some (match i with Some i => join i ie | None => ie end))) as [j [f2 E2]]. exists j, (Nat.max f1 f2).
      unfold bind at 1, resolvePush, bind at 1. rewrite (le_ret _ _ _ _ _ _ (evalF_le _ _ SW f1 (Nat.max f1 f2) ltac:(lia) _ _ _) E1). unfold ret at 1.
      pose proof (le_ret _ _ _ _ _ _ (incr_each (es ++ e :: post) _ b f2 (Nat.max f1 f2) ltac:(lia)) E2) as E.
      unfold bind. rewrite E. reflexivity.
    + destruct (IH e post s' F (Some (match i with Some i => join i ie | None => ie end))) as [j [f2 E2]]. exists j, (Nat.max f1 f2).
      unfold bind at 1, resolvePush, bind at 1. rewrite (le_ret _ _ _ _ _ _ (evalF_le _ _ SW f1 (Nat.max f1 f2) ltac:(lia) _ _ _) E1). unfold ret at 1.
      pose proof (le_ret _ _ _ _ _ _ (incr_each (es ++ e :: post) _ b f2 (Nat.max f1 f2) ltac:(lia)) E2) as E.
      destruct v; try (exfalso; eapply V; reflexivity); unfold bind; rewrite E; reflexivity.
Qed.
Lemma keepArg_expansion : forall x e, isExpansion e = true -> isExpansion (keepArg x e) = true.
Proof. intros x e H. destruct e; try discriminate. cbn. destruct (isExpansion x) eqn:E; [exact E|reflexivity]. Qed.
(** the expression of an element and what it contributes *)
Definition contrib (v : value) (e' : expr) : option (list value) :=
  if isExpansion e' then match v with VList ns => Some (map val ns) | _ => None end else Some [v].
Lemma expandArgs_cons : forall v e' vs, expandArgs ((v, e') :: vs) =
  match expandArgs vs, contrib v e' with Some ws, Some c => Some (c ++ ws) | _, _ => None end.
Proof. intros. cbn [expandArgs]. unfold contrib. destruct (expandArgs vs); [|reflexivity]. destruct (isExpansion e'); [|reflexivity]. destruct v; reflexivity. Qed.
Lemma rone_class : forall b e s v e' ok s', rone b e s (v, e', ok) s' ->
  match contrib v e' with
  | Some c => if ok then item b e s c s' else waiting b e s s'
  | None => noList b e s s'
  end.
Proof.
  intros b e s v e' ok s' H. inversion H as [s0 v0 i s1 G|s0 x i s1 G]; subst; unfold contrib.
  - destruct (isExpansion e') eqn:X; [|econstructor; eauto].
    destruct (match v with VList _ => true | _ => false end) eqn:L.
    + destruct v; try discriminate. eapply It_all; eauto.
    + assert (Z : noList b e' s s') by (right; split; [exact X|]; exists v, i; split; [exact G|]; intros ns ->; discriminate).
      destruct v; try discriminate; exact Z.
  - destruct (isExpansion (keepArg x e)) eqn:X.
    + left. exists x, i. auto.
    + exists x, i. split; [exact G|]. unfold staysExpansion. rewrite X. discriminate.
Qed.
Lemma rall_items : forall b es s vs res s', rall b es s vs res s' ->
  match expandArgs vs with
  | Some ws => if res then items b es s ws s' else someThat waiting expectable b es s s'
  | None => someThat noList unfailed b es s s'
  end.
Proof.
  assert (U1 : forall b e s v e' ok s', rone b e s (v, e', ok) s' -> unfailed b e s s').
  { intros b e s v e' ok s' H. inversion H as [s0 v0 i s1 G|s0 x i s1 G]; subst; [right; eauto|left; exists x, i; exact G]. }
  assert (UA : forall b es s vs res s', rall b es s vs res s' -> PropFail.each (unfailed b) es s s').
  { intros b es s vs res s' H. induction H; econstructor; eauto. }
  assert (EA : forall b es s ws s', items b es s ws s' -> PropFail.each (expectable b) es s s').
  { intros b es s ws s' H. induction H; econstructor; eauto. left. eexists. eauto. }
  intros b es s vs res s' H. induction H as [s|e es s v e' ok s1 vs ok' s2 R A IH].
  - constructor.
  - rewrite expandArgs_cons. pose proof (rone_class _ _ _ _ _ _ _ R) as C. destruct (expandArgs vs) as [ws|] eqn:X.
    + destruct (contrib v e') as [c|].
      * destruct ok; cbn [andb].
        { destruct ok'; [econstructor; eauto|]. destruct IH as (pre & e1 & post & t1 & t2 & -> & P1 & P2 & P3).
          exists (e :: pre), e1, post, t1, t2. split; [reflexivity|]. split; [|auto]. econstructor; [|exact P1]. left. eexists. exact C. }
        exists [], e, es, s, s1. split; [reflexivity|]. split; [constructor|]. split; [exact C|].
        destruct ok'; [eapply EA; exact IH|].
        destruct IH as (pre & e1 & post & t1 & t2 & -> & P1 & P2 & P3). clear -P1 P2 P3.
        induction P1; [econstructor; [right; exact P2|exact P3]|econstructor; eauto].
      * exists [], e, es, s, s1. split; [reflexivity|]. split; [constructor|]. split; [exact C|]. eapply UA; eauto.
    + destruct IH as (pre & e1 & post & t1 & t2 & -> & P1 & P2 & P3).
      exists (e :: pre), e1, post, t1, t2. split; [reflexivity|]. split; [|auto]. econstructor; [|exact P1]. eapply U1; eauto.
Qed.
(** conversely *)
Lemma unfailed_rone : forall b e s s', unfailed b e s s' -> exists v e' ok, rone b e s (v, e', ok) s'.
Proof. intros b e s s' [(x & i & H)|(v & i & H)]; do 3 eexists; [eapply R_pend; exact H|eapply R_val; exact H]. Qed.
Lemma unfailed_rall : forall b es s s', PropFail.each (unfailed b) es s s' -> exists vs res, rall b es s vs res s'.
Proof.
  intros b es s s' H. induction H as [s|e es s s1 s2 U A (vs & res & IH)]; [exists [], true; constructor|].
  apply unfailed_rone in U. destruct U as (v & e' & ok & U). do 2 eexists. econstructor; eauto.
Qed.
Lemma item_unfailed : forall b e s s', oneItem b e s s' -> unfailed b e s s'.
Proof. intros b e s s' [vs H]. inversion H; subst; right; eauto. Qed.
Lemma items_rall : forall b es s ws s', items b es s ws s' -> exists vs, rall b es s vs true s' /\ expandArgs vs = Some ws.
Proof.
  intros b es s ws s' H. induction H as [s|e es s vs s1 ws s2 I A (us & IH & X)]; [exists []; split; [constructor|reflexivity]|].
  inversion I as [e0 s0 v i s3 E G|e0 s0 ns i s3 E G]; subst; eexists; (split; [change true with (true && true); econstructor; [econstructor; exact G|exact IH]|]);
    rewrite expandArgs_cons, X; unfold contrib; rewrite E; reflexivity.
Qed.
Lemma list_runs : forall es b l s r s',
  evaluates (EList es) b l s r s' <->
  exists x, runs (fun f => resolveEach ST (evalF f) es None b false) s x s' /\
    r = match x with
        | inl i => (VNil, i, false)
        | inr (vs, res, i) => match expandArgs vs with
            | None => (VNil, setError "argument expansion required list argument" i, false)
            | Some ws => if res then (VList (map (fun v => dnode v (b_source b)) ws), i, true) else (VExpr (EList (map snd vs)), i, true)
            end
        end.
Proof.
  intros. rewrite evaluates_runs. unfold stepE, eval1, evalList, resolveList. split.
  - intros [f E]. unfold bind in E. destruct (resolveEach ST (evalF f) es None b false s) as [x s1| |] eqn:X; try discriminate.
    unfold ret at 1 in E. exists x. destruct x as [i|[[vs res] i]].
    + inversion E; subst. split; [exists f; exact X|reflexivity].
    + destruct (expandArgs vs) as [ws|]; [|inversion E; subst; split; [exists f; exact X|reflexivity]].
      destruct res; inversion E; subst; (split; [exists f; exact X|reflexivity]).
  - intros (x & [f X] & ->). exists f. unfold bind. rewrite X. unfold ret at 1. destruct x as [i|[[vs res] i]]; [reflexivity|].
    destruct (expandArgs vs) as [ws|]; [|reflexivity]. destruct res; reflexivity.
Qed.

(** a list literal has a value exactly if all its elements have one: the values of the
    plain elements and, for expansions, the elements of the lists *)
Theorem C53_list : forall es b l s v s',
  (exists i, gives b l (EList es) s v i s') <-> exists vs, items b es s vs s' /\ v = VList (map (fun v => dnode v (b_source b)) vs).
Proof.
  intros es b l s v s'. split.
  - intros [i [H V]]. apply list_runs in H. destruct H as (x & H & E). apply each_runs in H.
    destruct H as [(vs & res & j & -> & R & _)|(j & pre & e & post & s1 & -> & _)]; [|discriminate].
    apply rall_items in R. destruct (expandArgs vs) as [ws|]; [|discriminate]. destruct res; inversion E; subst; [eauto|]. now destruct (V (EList (map snd vs))).
  - intros (ws & H & ->). apply items_rall in H. destruct H as (vs & R & X). destruct (rall_runs _ _ _ _ _ _ R None) as [j H].
    exists j. split; [|intros x; discriminate]. apply list_runs. eexists. split; [exact H|]. cbv beta iota. rewrite X. reflexivity.
Qed.
(** it fails exactly if the first failing element ends the evaluation, or an expansion has no list *)
Theorem C53_list_fails : forall es b l s s',
  (exists i, failing b l (EList es) s i s') <->
  (exists pre e post s1, es = pre ++ e :: post /\ PropFail.each (unfailed b) pre s s1 /\ exists i, failing b false e s1 i s') \/
  someThat noList unfailed b es s s'.
Proof.
  intros es b l s s'. split.
  - intros (i & v & H). apply list_runs in H. destruct H as (x & H & E). apply each_runs in H.
    destruct H as [(vs & res & j & -> & R & _)|(j & pre & e & post & s1 & -> & -> & A & B & _)]; [|left; eauto 10].
    apply rall_items in R. destruct (expandArgs vs) as [ws|]; [destruct res; discriminate|]. right. exact R.
  - intros [(pre & e & post & s1 & -> & A & B)|N].
    + destruct (fail_runs _ _ _ _ A _ post _ B None) as [j H]. exists j, VNil. apply list_runs. eexists. split; [exact H|]. reflexivity.
    + assert (X : exists vs res, rall b es s vs res s' /\ expandArgs vs = None).
      { destruct N as (pre & e & post & t1 & t2 & -> & P1 & P2 & P3). induction P1 as [s|e0 es s t s0 U A IH].
        - apply unfailed_rall in P3. destruct P3 as (vs & res & P3). destruct P2 as [(x & i & G & T)|(I & v & i & G & N)].
          + do 2 eexists. split; [econstructor; [eapply R_pend; exact G|exact P3]|]. rewrite expandArgs_cons. unfold contrib.
            rewrite T. destruct (expandArgs vs); reflexivity.
          + do 2 eexists. split; [econstructor; [eapply R_val; exact G|exact P3]|]. rewrite expandArgs_cons. unfold contrib. rewrite I.
            destruct (expandArgs vs); [|reflexivity]. destruct v; try reflexivity. now edestruct N.
        - destruct (IH P2) as (vs & res & R & X). apply unfailed_rone in U. destruct U as (v & e' & ok & U).
          do 2 eexists. split; [cbn [app]; econstructor; [exact U|exact R]|]. rewrite expandArgs_cons, X. reflexivity. }
      destruct X as (vs & res & R & X). destruct (rall_runs _ _ _ _ _ _ R None) as [j H].
      eexists. exists VNil. apply list_runs. eexists. split; [exact H|]. cbv beta iota. rewrite X. reflexivity.
Qed.
(** it is undecided exactly if a plain element is, and everything else is fine *)
Theorem C53_list_pending : forall es b l s s',
  pends b l (EList es) s s' <-> someThat waiting expectable b es s s'.
Proof.
  intros es b l s s'. split.
  - intros (y & i & H). apply list_runs in H. destruct H as (x & H & E). apply each_runs in H.
    destruct H as [(vs & res & j & -> & R & _)|(j & pre & e & post & s1 & -> & _)]; [|discriminate].
    apply rall_items in R. destruct (expandArgs vs) as [ws|]; [|discriminate]. destruct res; [discriminate|exact R].
  - intros N.
    assert (EX : forall e s s', expectable b e s s' -> exists v e' ok, rone b e s (v, e', ok) s' /\ contrib v e' <> None).
    { clear. intros e s s' [[vs I]|(x & i & G & T)].
      - inversion I as [e0 s0 v i s3 E G|e0 s0 ns i s3 E G]; subst; do 3 eexists; (split; [econstructor; exact G|]); unfold contrib; rewrite E; discriminate.
      - do 3 eexists. split; [eapply R_pend; exact G|]. unfold contrib. unfold staysExpansion in T. destruct (isExpansion (keepArg x e)); [now destruct T|discriminate]. }
    assert (EA : forall es s s', PropFail.each (expectable b) es s s' -> exists vs res, rall b es s vs res s' /\ expandArgs vs <> None).
    { clear -EX. intros es s s' H. induction H as [s|e es s s1 s2 U A (vs & res & IH & X)]; [exists [], true; split; [constructor|discriminate]|].
      apply EX in U. destruct U as (v & e' & ok & U & C). do 2 eexists. split; [econstructor; eauto|]. rewrite expandArgs_cons.
      destruct (expandArgs vs); [|now destruct X]. destruct (contrib v e'); [discriminate|now destruct C]. }
    assert (X : exists vs, rall b es s vs false s' /\ expandArgs vs <> None).
    { destruct N as (pre & e & post & t1 & t2 & -> & P1 & P2 & P3). induction P1 as [s|e0 es s t s0 U A IH].
      - apply EA in P3. destruct P3 as (vs & res & P3 & X). destruct P2 as (x & i & G & T). eexists. split.
        + change false with (false && res). econstructor; [eapply R_pend; exact G|exact P3].
        + rewrite expandArgs_cons. unfold contrib. unfold staysExpansion in T. destruct (expandArgs vs); [|now destruct X].
          destruct (isExpansion (keepArg x e)); [now destruct T|discriminate].
      - destruct (IH P2) as (vs & R & X). apply EX in U. destruct U as (v & e' & ok & U & C). eexists. split.
        + cbn [app]. rewrite <- (andb_false_r ok). econstructor; [exact U|exact R].
        + rewrite expandArgs_cons. destruct (expandArgs vs); [|now destruct X]. destruct (contrib v e'); [discriminate|now destruct C]. }
    destruct X as (vs & R & X). destruct (rall_runs _ _ _ _ _ _ R None) as [j H].
    destruct (expandArgs vs) as [ws|] eqn:Y; [|now destruct X].
    eexists. exists j. apply list_runs. eexists. split; [exact H|]. cbv beta iota. rewrite Y. reflexivity.
Qed.

(** ** map literals *)
(** the assignments of a map literal, one after the other *)
Inductive assigns (b : binding) (l : bool) : list (expr * expr) -> ST -> list (string * value) -> ST -> Prop :=
| As_nil s : assigns b l [] s [] s
| As_cons k v ps s t i s1 w j s2 kvs s3 : gives b l k s (VStr t) i s1 -> gives b l v s1 w j s2 -> assigns b l ps s2 kvs s3 ->
    assigns b l ((k, v) :: ps) s ((t, w) :: kvs) s3.
(** the value of the last assignment *)
Fixpoint lastOf (k : string) (kvs : list (string * value)) : option value :=
  match kvs with
  | [] => None
  | (t, w) :: r => match lastOf k r with Some x => Some x | None => if String.eqb k t then Some w else None end
  end.
(** the first assignment that cannot be done *)
Definition atFirst (b : binding) (l : bool) (P : expr -> expr -> ST -> ST -> Prop) (ps : list (expr * expr)) (s s' : ST) : Prop :=
  exists pre k v post kvs s1, ps = pre ++ (k, v) :: post /\ assigns b l pre s kvs s1 /\ P k v s1 s'.
Definition assignWaits (b : binding) (l : bool) (k v : expr) (s s' : ST) : Prop :=
  pends b l k s s' \/ exists t i s1, gives b l k s (VStr t) i s1 /\ pends b l v s1 s'.
Definition assignFails (b : binding) (l : bool) (k v : expr) (s s' : ST) : Prop :=
  (exists i, failing b l k s i s') \/ (exists w i, gives b l k s w i s' /\ forall t, w <> VStr t) \/
  exists t i s1 j, gives b l k s (VStr t) i s1 /\ failing b l v s1 j s'.

Definition build (b : binding) (acc : smap node) (kvs : list (string * value)) : smap node :=
  fold_left (fun m tw => mset (fst tw) (dnode (snd tw) (b_source b)) m) kvs acc.
Inductive stops (self : expr) (b : binding) (l : bool) (k v : expr) (s : ST) : R -> ST -> Prop :=
| St_keyfail w i s' : evaluates k b l s (w, i, false) s' -> stops self b l k v s (VExpr self, join defaultInfo i, false) s'
| St_keypend x i s' : evaluates k b l s (VExpr x, i, true) s' -> stops self b l k v s (VExpr self, join defaultInfo i, true) s'
| St_key w i s' : gives b l k s w i s' -> (forall t, w <> VStr t) ->
    stops self b l k v s (VNil, setError "assignment target must evaluate to string" (join defaultInfo i), false) s'
| St_valfail t i s1 w j s' : gives b l k s (VStr t) i s1 -> evaluates v b l s1 (w, j, false) s' ->
    stops self b l k v s (VExpr self, join (join defaultInfo i) j, false) s'
| St_valpend t i s1 x j s' : gives b l k s (VStr t) i s1 -> evaluates v b l s1 (VExpr x, j, true) s' ->
    stops self b l k v s (VExpr self, join (join defaultInfo i) j, true) s'.
Lemma incr_map : forall self ps b l acc, incr (fun f => mapLoop ST (evalF f) self ps b l acc).
Proof. intros self ps b l acc f f' L. apply mapLoop_le. intros. now apply evalF_le. Qed.
Lemma map_runs : forall self b l ps acc s r s',
  runs (fun f => mapLoop ST (evalF f) self ps b l acc) s r s' <->
  (exists kvs, assigns b l ps s kvs s' /\ r = (VMap (build b acc kvs), defaultInfo, true)) \/
  atFirst b l (fun k v s s' => stops self b l k v s r s') ps s s'.
Proof.
  intros self b l. induction ps as [|[k v] ps IH]; intros acc s r s'.
  - cbn [mapLoop]. unfold done. split.
    + intro H. apply runs_ret in H. destruct H as [-> ->]. left. exists []. split; [constructor|reflexivity].
    + intros [(kvs & A & ->)|(pre & k & v & post & kvs & s1 & E & _)]; [|destruct pre; discriminate].
      inversion A; subst. apply runs_ret. auto.
  - assert (I2 : forall acc t j q, incr (fun f => match q with
        | PFail i => ret ST (VExpr self, i, false)
        | PExpr _ i => keep ST self i
        | PVal w _ => mapLoop ST (evalF f) self ps b l (mset t (dnode w (b_source b)) acc) end) /\ j = j :> info).
    { intros acc0 t j q. split; [|reflexivity]. destruct q; [apply incr_const|apply incr_map|apply incr_const]. }
    assert (I1 : forall p, incr (fun f => match p with
        | PFail i => ret ST (VExpr self, i, false)
        | PExpr _ i => keep ST self i
        | PVal (VStr t) i => bind ST (resolvePush ST (evalF f) v (Some i) b l) (fun q => match q with
            | PFail i => ret ST (VExpr self, i, false)
            | PExpr _ i => keep ST self i
            | PVal w _ => mapLoop ST (evalF f) self ps b l (mset t (dnode w (b_source b)) acc) end)
        | PVal _ i => fail ST "assignment target must evaluate to string" i end)).
    { intros [j|w j|e' j]; [apply incr_const| |apply incr_const]. destruct w; try apply incr_const.
      apply incr_bind; [apply incr_push, SW|intro q; apply I2; exact j]. }
    cbn [mapLoop]. rewrite (PropFail.runs_pushk ST W SW _ k (Some defaultInfo) b l s r s' I1). cbn [PropFail.ji].
    split.
    + intros (s1 & [(w & ie & G & H)|[(x & ie & G & H)|(w & ie & G & H)]]).
      * destruct (match w with VStr _ => true | _ => false end) eqn:E.
        -- destruct w; try discriminate. match goal with |- context [VStr ?x] => rename x into t | H : context [VStr ?x] |- _ => rename x into t end.
           rewrite (PropFail.runs_pushk ST W SW _ v (Some (join defaultInfo ie)) b l s1 r s' (fun q => proj1 (I2 acc t ie q))) in H. cbn [PropFail.ji] in H.
           destruct H as (s2 & [(w & je & G2 & H)|[(x & je & G2 & H)|(w & je & G2 & H)]]).
           ++ apply IH in H. destruct H as [(kvs & A & ->)|(pre & k' & v' & post & kvs & s3 & -> & A & H)].
              ** left. exists ((t, w) :: kvs). split; [econstructor; eauto|reflexivity].
              ** right. exists ((k, v) :: pre), k', v', post, ((t, w) :: kvs), s3. split; [reflexivity|]. split; [econstructor; eauto|exact H].
           ++ apply runs_ret in H. destruct H as [-> ->]. right. exists [], k, v, ps, [], s. split; [reflexivity|]. split; [constructor|].
              eapply St_valpend; eauto.
           ++ apply runs_ret in H. destruct H as [-> ->]. right. exists [], k, v, ps, [], s. split; [reflexivity|]. split; [constructor|].
              eapply St_valfail; eauto.
        -- assert (H' : runs (fun _ => fail ST "assignment target must evaluate to string" (join defaultInfo ie)) s1 r s') by (destruct w; try discriminate; exact H).
           apply runs_ret in H'. destruct H' as [-> ->]. right. exists [], k, v, ps, [], s. split; [reflexivity|]. split; [constructor|].
           apply St_key with (w := w); [exact G|]. intros t ->. discriminate.
      * apply runs_ret in H. destruct H as [-> ->]. right. exists [], k, v, ps, [], s. split; [reflexivity|]. split; [constructor|]. eapply St_keypend; eauto.
      * apply runs_ret in H. destruct H as [-> ->]. right. exists [], k, v, ps, [], s. split; [reflexivity|]. split; [constructor|]. eapply St_keyfail; eauto.
    + intros [(kvs & A & ->)|(pre & k' & v' & post & kvs & s1 & E & A & H)].
      * inversion A as [|k0 v0 ps0 s0 t i s1 w j s2 kvs0 s3 G1 G2 A']; subst. exists s1. left. exists (VStr t), i. split; [exact G1|].
        apply (PropFail.runs_pushk ST W SW _ v (Some (join defaultInfo i)) b l s1 _ s' (fun q => proj1 (I2 acc t i q))).
        exists s2. left. exists w, j. split; [exact G2|]. apply IH. left. exists kvs0. split; [exact A'|reflexivity].
      * destruct pre as [|[k0 v0] pre]; injection E as E1 E2 E3; subst.
        -- inversion A; subst. destruct H as [w i s' G|x i s' G|w i s' G N|t i s2 w j s' G G2|t i s2 x j s' G G2].
           ++ exists s'. right. right. exists w, i. split; [exact G|]. apply runs_ret. auto.
           ++ exists s'. right. left. exists x, i. split; [exact G|]. apply runs_ret. auto.
           ++ exists s'. left. exists w, i. split; [exact G|]. destruct w; try (apply runs_ret; auto; fail). exfalso; eapply N; reflexivity.
           ++ exists s2. left. exists (VStr t), i. split; [exact G|].
              apply (PropFail.runs_pushk ST W SW _ v' (Some (join defaultInfo i)) b l s2 _ s' (fun q => proj1 (I2 acc t i q))).
              exists s'. right. right. exists w, j. split; [exact G2|]. apply runs_ret. auto.
           ++ exists s2. left. exists (VStr t), i. split; [exact G|].
              apply (PropFail.runs_pushk ST W SW _ v' (Some (join defaultInfo i)) b l s2 _ s' (fun q => proj1 (I2 acc t i q))).
              exists s'. right. left. exists x, j. split; [exact G2|]. apply runs_ret. auto.
        -- inversion A as [|k1 v1 ps0 s0 t i s2 w j s3 kvs0 s4 G1 G2 A']; subst. exists s2. left. exists (VStr t), i. split; [exact G1|].
           apply (PropFail.runs_pushk ST W SW _ v0 (Some (join defaultInfo i)) b l s2 _ s' (fun q => proj1 (I2 acc t i q))).
           exists s3. left. exists w, j. split; [exact G2|]. apply IH. right. exists pre, k', v', post, kvs0, s1. auto.
Qed.
Lemma map_evaluates : forall ps b l s r s',
  evaluates (EMap ps) b l s r s' <-> runs (fun f => mapLoop ST (evalF f) (EMap ps) ps b l []) s r s'.
Proof. intros. rewrite evaluates_runs. reflexivity. Qed.
Lemma build_get : forall b kvs acc k, mget k (build b acc kvs) =
  match lastOf k kvs with Some w => Some (dnode w (b_source b)) | None => mget k acc end.
Proof.
  intros b. unfold build. induction kvs as [|[t w] kvs IH]; intros acc k; [reflexivity|]. cbn [fold_left lastOf fst snd]. rewrite IH.
  destruct (lastOf k kvs); [reflexivity|]. rewrite mget_mset. destruct (String.eqb k t); reflexivity.
Qed.
Lemma build_sorted : forall b kvs acc, msorted acc -> msorted (build b acc kvs).
Proof. intros b. unfold build. induction kvs as [|[t w] kvs IH]; intros acc H; [exact H|]. cbn [fold_left]. apply IH, msorted_mset, H. Qed.
(** a map literal has a value exactly if all keys are strings and all values are there: the
    map of the assignments, where later ones replace earlier ones *)
Theorem C53_map : forall ps b l s v s',
  (exists i, gives b l (EMap ps) s v i s') <->
  exists kvs m, assigns b l ps s kvs s' /\ v = VMap m /\ msorted m /\
    forall k, mget k m = option_map (fun w => dnode w (b_source b)) (lastOf k kvs).
Proof.
  intros ps b l s v s'. split.
  - intros [i [H V]]. apply map_evaluates, map_runs in H. destruct H as [(kvs & A & E)|(pre & k & w & post & kvs & s1 & _ & _ & H)].
    + inversion E; subst. exists kvs. eexists. split; [exact A|]. split; [reflexivity|]. split; [apply build_sorted; constructor|].
      intro k. rewrite build_get. destruct (lastOf k kvs); reflexivity.
    + inversion H; subst; exfalso; eapply V; reflexivity.
  - intros (kvs & m & A & -> & M & G). exists defaultInfo. split; [|intros x; discriminate]. apply map_evaluates, map_runs. left. exists kvs. split; [exact A|].
    do 3 f_equal. apply msorted_ext; [exact M|apply build_sorted; constructor|]. intro k. rewrite G, build_get. destruct (lastOf k kvs); reflexivity.
Qed.
(** the first assignment that waits or fails decides *)
Theorem C53_map_pending : forall ps b l s s', pends b l (EMap ps) s s' <-> atFirst b l (assignWaits b l) ps s s'.
Proof.
  intros ps b l s s'. split.
  - intros (x & i & H). apply map_evaluates, map_runs in H. destruct H as [(kvs & A & E)|(pre & k & w & post & kvs & s1 & E & A & H)]; [discriminate|].
    exists pre, k, w, post, kvs, s1. split; [exact E|]. split; [exact A|]. inversion H; subst; [left; do 2 eexists; eauto|].
    right. do 3 eexists. split; [eauto|]. do 2 eexists. eauto.
  - intros (pre & k & w & post & kvs & s1 & E & A & H). destruct H as [(x & i & H)|(t & i & s2 & G & x & j & H)].
    + do 2 eexists. apply map_evaluates, map_runs. right. exists pre, k, w, post, kvs, s1. split; [exact E|]. split; [exact A|]. eapply St_keypend; eauto.
    + do 2 eexists. apply map_evaluates, map_runs. right. exists pre, k, w, post, kvs, s1. split; [exact E|]. split; [exact A|]. eapply St_valpend; eauto.
Qed.
Theorem C53_map_fails : forall ps b l s s', (exists i, failing b l (EMap ps) s i s') <-> atFirst b l (assignFails b l) ps s s'.
Proof.
  intros ps b l s s'. split.
  - intros (i & x & H). apply map_evaluates, map_runs in H. destruct H as [(kvs & A & E)|(pre & k & w & post & kvs & s1 & E & A & H)]; [discriminate|].
    exists pre, k, w, post, kvs, s1. split; [exact E|]. split; [exact A|]. inversion H; subst.
    + left. do 2 eexists. eauto.
    + right. left. do 2 eexists. eauto.
    + right. right. do 4 eexists. split; [eauto|]. eexists. eauto.
  - intros (pre & k & w & post & kvs & s1 & E & A & H). destruct H as [(i & x & H)|[(x & i & G & N)|(t & i & s2 & j & G & x & H)]].
    + do 2 eexists. apply map_evaluates, map_runs. right. exists pre, k, w, post, kvs, s1. split; [exact E|]. split; [exact A|]. eapply St_keyfail; eauto.
    + do 2 eexists. apply map_evaluates, map_runs. right. exists pre, k, w, post, kvs, s1. split; [exact E|]. split; [exact A|]. eapply St_key; eauto.
    + do 2 eexists. apply map_evaluates, map_runs. right. exists pre, k, w, post, kvs, s1. split; [exact E|]. split; [exact A|]. eapply St_valfail; eauto.
Qed.

(** ** scopes: ( $a = 1 ... ) x *)
(** the expression is evaluated with the assigned names as innermost scope (C41_scope) *)
Theorem C53_scope : forall ps x b l s m i s1, gives b l (EMap ps) s (VMap m) i s1 ->
  (forall v j s2, gives b l (EScope ps x) s v j s2 <-> gives (withLocalScope m b) l x s1 v j s2) /\
  (forall j s2, failing b l (EScope ps x) s j s2 <-> failing (withLocalScope m b) l x s1 j s2) /\
  (forall s2, pends b l (EScope ps x) s s2 <-> pends (withLocalScope m b) l x s1 s2).
Proof.
  intros ps x b l s m i s1 [G _].
  assert (E : forall r s2, evaluates (EScope ps x) b l s r s2 <-> exists v j ok, evaluates x (withLocalScope m b) l s1 (v, j, ok) s2 /\
    r = if ok && isExpr v then (VExpr (EScope ps x), j, true) else (v, j, ok)).
  { intros r s2. rewrite evaluates_runs. unfold stepE, eval1, evalScope.
    assert (IB : forall y : R, incr (fun f => let '(v, i, ok) := y in if negb ok then ret ST (v, i, ok) else match v with
      | VMap m => bind ST (evalF f x (withLocalScope m b) l) (fun r => let '(v, i, ok) := r in if ok && isExpr v then keep ST (EScope ps x) i else ret ST (v, i, ok))
      | _ => keep ST (EScope ps x) i end)).
    { intros [[v j] ok]. destruct (negb ok); [apply incr_const|]. destruct v; try apply incr_const.
      apply incr_bind; [apply incr_eval; exact SW|intro; apply incr_const]. }
    rewrite runs_bind; [|intros f f' L; apply evalMap_le; intros; now apply evalF_le|exact IB].
    apply map_evaluates in G. fold (evalMap ST) in G. split.
    - intros (y & s3 & H & K).
      destruct (runs_fun ST (fun f => evalMap ST (evalF f) ps b l) s y s3 _ _ (fun f f' L => evalMap_le _ _ _ (fun e b l => evalF_le _ _ SW f f' L e b l) ps b l) H G) as [Y1 Y2]. subst y s3.
      cbn [negb] in K. apply runs_bind in K; [|apply incr_eval; exact SW|intro; apply incr_const].
      destruct K as ([[v j] ok] & s4 & H2 & K). exists v, j, ok. destruct (ok && isExpr v); apply runs_ret in K; destruct K as [-> ->]; auto.
    - intros (v & j & ok & H & ->). exists (VMap m, i, true), s1. split; [exact G|]. cbn [negb].
      apply runs_bind; [apply incr_eval; exact SW|intro; apply incr_const|]. exists (v, j, ok), s2. split; [exact H|].
      destruct (ok && isExpr v); apply runs_ret; auto. }
  split; [|split].
  - intros v j s2. split.
    + intros [H V]. apply E in H. destruct H as (w & k & ok & H & X). destruct (ok && isExpr w) eqn:Y; inversion X; subst; [now destruct (V (EScope ps x))|].
      split; [exact H|exact V].
    + intros [H V]. split; [|exact V]. apply E. exists v, j, true. split; [exact H|]. destruct v; try reflexivity. now destruct (V e).
  - intros j s2. split.
    + intros [v H]. apply E in H. destruct H as (w & k & ok & H & X). destruct (ok && isExpr w) eqn:Y; inversion X; subst. eexists. exact H.
    + intros [v H]. exists v. apply E. exists v, j, false. split; [exact H|reflexivity].
  - intro s2. split.
    + intros (y & j & H). apply E in H. destruct H as (w & k & ok & H & X). destruct ok; [|inversion X]. destruct w; cbn in X; inversion X; subst. do 2 eexists. exact H.
    + intros (y & j & H). do 2 eexists. apply E. exists (VExpr y), j, true. split; [exact H|reflexivity].
Qed.
(** the assignments decide first *)
Theorem C53_scope_map : forall ps x b l s s1,
  (pends b l (EMap ps) s s1 -> pends b l (EScope ps x) s s1) /\
  (forall i, failing b l (EMap ps) s i s1 -> failing b l (EScope ps x) s i s1).
Proof.
  intros ps x b l s s1. split.
  - intros (y & i & H). apply map_evaluates in H. destruct H as [f H]. do 2 eexists. apply evaluates_step. exists f.
    unfold stepE, eval1, evalScope, evalMap, bind. rewrite H. reflexivity.
  - intros i (y & H). apply map_evaluates in H. destruct H as [f H]. eexists. apply evaluates_step. exists f.
    unfold stepE, eval1, evalScope, evalMap, bind. rewrite H. reflexivity.
Qed.

(** ** bounds of ranges and slices *)
(** a bound is an integer, or nil, which stands for 0; an omitted one is [None] *)
Inductive bound (b : binding) : option expr -> ST -> option Z -> ST -> Prop :=
| Bd_none s : bound b None s None s
| Bd_int e s z i s' : gives b false e s (VInt z) i s' -> bound b (Some e) s (Some z) s'
| Bd_nil e s i s' : gives b false e s VNil i s' -> bound b (Some e) s (Some 0%Z) s'.
Inductive boundWaits (b : binding) : option expr -> ST -> ST -> Prop :=
| BW e s s' : pends b false e s s' -> boundWaits b (Some e) s s'.
Inductive boundFails (b : binding) : option expr -> ST -> ST -> Prop :=
| BF_fails e s i s' : failing b false e s i s' -> boundFails b (Some e) s s'
| BF_type e s v i s' : gives b false e s v i s' -> v <> VNil -> (forall z, v <> VInt z) -> boundFails b (Some e) s s'.
Lemma incr_bound : forall a b, incr (fun f => evalBound ST (evalF f) a b).
Proof. intros a b f f' L. apply evalBound_le. intros. now apply evalF_le. Qed.
Lemma incr_getRange : forall a b z e, incr (fun f => evalGetRange ST (evalF f) a b z e).
Proof. intros a b z e f f' L. apply evalGetRange_le. intros. now apply evalF_le. Qed.
Lemma bound_fwd : forall a b s x s', runs (fun f => evalBound ST (evalF f) a b) s x s' ->
  (exists z, bound b a s z s' /\ x = inr (z, true)) \/ (boundWaits b a s s' /\ x = inr (Some 0%Z, false)) \/ (boundFails b a s s' /\ exists i, x = inl i).
Proof.
  intros [e|] b s x s' H.
  - unfold evalBound, resolveInt in H. 
    apply runs_bind in H; [|apply incr_bind; [apply incr_push, SW|intro; apply incr_const]|intro; apply incr_const].
    destruct H as (y & s1 & H & K). apply runs_ret in K. destruct K as [-> ->].
    rewrite (PropFail.runs_pushk ST W SW) in H by (intro; apply incr_const).
    destruct H as (s2 & [(v & i & G & K)|[(y0 & i & G & K)|(v & i & G & K)]]); apply runs_ret in K; destruct K as [-> ->].
    + destruct v; try (right; right; split; [eapply BF_type; [exact G|discriminate|intro; discriminate]|eauto]; fail).
      * left. eexists. split; [eapply Bd_nil; exact G|reflexivity].
      * left. eexists. split; [eapply Bd_int; exact G|reflexivity].
    + right. left. split; [constructor; do 2 eexists; exact G|reflexivity].
    + right. right. split; [eapply BF_fails; eexists; exact G|eauto].
  - apply runs_ret in H. destruct H as [-> ->]. left. eexists. split; [constructor|reflexivity].
Qed.
Lemma bound_bwd : forall a b s s',
  (forall z, bound b a s z s' -> runs (fun f => evalBound ST (evalF f) a b) s (inr (z, true)) s') /\
  (boundWaits b a s s' -> runs (fun f => evalBound ST (evalF f) a b) s (inr (Some 0%Z, false)) s') /\
  (boundFails b a s s' -> exists i, runs (fun f => evalBound ST (evalF f) a b) s (inl i) s').
Proof.
  assert (PU : forall e b s y s', runs (fun f => resolveInt ST (evalF f) e (Some defaultInfo) b false) s y s' ->
    runs (fun f => evalBound ST (evalF f) (Some e) b) s (match y with ZFail i => inl i | ZVal z _ => inr (Some z, true) | ZExpr _ _ => inr (Some 0%Z, false) end) s').
  { intros e b s y s' H. unfold evalBound. apply runs_bind; [apply incr_bind; [apply incr_push, SW|intro; apply incr_const]|intro; apply incr_const|].
    exists y, s'. split; [exact H|]. apply runs_ret. auto. }
  assert (PV : forall e b s s' v i, gives b false e s v i s' -> runs (fun f => resolveInt ST (evalF f) e (Some defaultInfo) b false) s
    (match v with VNil => ZVal 0 (join defaultInfo i) | VInt z => ZVal z (join defaultInfo i) | _ => ZFail (setIssue "integer operand required" (join defaultInfo i)) end) s').
  { intros e b s s' v i G. unfold resolveInt. apply (PropFail.runs_pushk ST W SW); [intro; apply incr_const|]. exists s'. left. exists v, i. split; [exact G|].
    apply runs_ret. split; [|reflexivity]. destruct v; reflexivity. }
  intros a b s s'. split; [|split].
  - intros z H. destruct H as [s|e s z i s' G|e s i s' G].
    + apply runs_ret. auto.
    + exact (PU _ _ _ _ _ (PV _ _ _ _ _ _ G)).
    + exact (PU _ _ _ _ _ (PV _ _ _ _ _ _ G)).
  - intros H. destruct H as [e s s' (x & i & G)].
    refine (PU _ _ _ (ZExpr (keepArg x e) (join defaultInfo i)) _ _). unfold resolveInt. apply (PropFail.runs_pushk ST W SW); [intro; apply incr_const|]. exists s'. right. left. exists x, i. split; [exact G|].
    apply runs_ret. auto.
  - intros H. destruct H as [e s i s' [v G]|e s v i s' G N1 N2].
    + eexists. refine (PU _ _ _ (ZFail (join defaultInfo i)) _ _). unfold resolveInt. apply (PropFail.runs_pushk ST W SW); [intro; apply incr_const|]. exists s'. right. right. exists v, i. split; [exact G|].
      apply runs_ret. auto.
    + pose proof (PU _ _ _ _ _ (PV _ _ _ _ _ _ G)) as H. destruct v; try (eexists; exact H; fail); [now destruct N1|now destruct (N2 z)].
Qed.
(** both bounds *)
Definition someBound (b : binding) (a : option expr) (s s' : ST) : Prop := exists z, bound b a s z s'.
Definition open (b : binding) (a : option expr) (s s' : ST) : Prop := someBound b a s s' \/ boundWaits b a s s'.
Definition rangeFails (b : binding) (size : Z) (lo hi : option expr) (s s' : ST) : Prop :=
  ((lo = None \/ hi = None) /\ (size < 0)%Z /\ s' = s) \/ (lo = None /\ hi = None /\ s' = s) \/
  (((size < 0)%Z -> lo <> None /\ hi <> None) /\ (boundFails b lo s s' \/ exists s1, open b lo s s1 /\ boundFails b hi s1 s')).
Definition rangeWaits (b : binding) (size : Z) (lo hi : option expr) (s s' : ST) : Prop :=
  ((size < 0)%Z -> lo <> None /\ hi <> None) /\
  exists s1, (boundWaits b lo s s1 /\ open b hi s1 s') \/ (someBound b lo s s1 /\ boundWaits b hi s1 s').
Lemma getRange_fwd : forall lo hi size b s g s', runs (fun f => evalGetRange ST (evalF f) lo hi size b) s g s' ->
  match g with
  | GErr _ => rangeFails b size lo hi s s'
  | GWait i => rangeWaits b size lo hi s s' /\ i = defaultInfo
  | GOk x y i => (exists p q s1, bound b lo s p s1 /\ bound b hi s1 q s' /\ getRange p q size = Some (x, y)) /\ i = defaultInfo
  end.
Proof.
  intros lo hi size b s g s' H. unfold evalGetRange in H.
  destruct ((size <? 0)%Z && match lo, hi with Some _, Some _ => false | _, _ => true end) eqn:E.
  { apply runs_ret in H. destruct H as [-> ->]. left. apply andb_prop in E. destruct E as [E1 E2]. apply Z.ltb_lt in E1.
    split; [destruct lo; [destruct hi; [discriminate|]|]; auto|auto]. }
  assert (B : (size < 0)%Z -> lo <> None /\ hi <> None).
  { intro L. apply Z.ltb_lt in L. rewrite L in E. destruct lo, hi; try discriminate; split; discriminate. }
  apply runs_bind in H; [|apply incr_bound|intros [?|[? ?]]; [apply incr_const|apply incr_bind; [apply incr_bound|intro; apply incr_const]]].
  destruct H as (x & s1 & H1 & H). apply bound_fwd in H1. destruct H1 as [(p & P & ->)|[(P & ->)|(P & i & ->)]].
  3:{ apply runs_ret in H. destruct H as [-> ->]. right. right. auto. }
  1,2: apply runs_bind in H; [|apply incr_bound|intro; apply incr_const]; destruct H as (y & s2 & H2 & H);
    apply bound_fwd in H2; destruct H2 as [(q & Q & ->)|[(Q & ->)|(Q & i & ->)]].
  - destruct (getRange p q size) as [[u v]|] eqn:R; apply runs_ret in H; destruct H as [-> ->].
    + cbn [andb]. split; [|reflexivity]. eauto 8.
    + right. unfold getRange in R. destruct P as [s|e s z i s1 G|e s i s1 G].
      * destruct Q as [s|e s z i s1 G|e s i s1 G]; [left; auto| |];
          exfalso; destruct (size <? 0)%Z eqn:L; cbn [andb] in R; try discriminate; apply Z.ltb_lt in L; now destruct (B L).
      * destruct Q as [s1|e1 s1 z1 i1 s2 G1|e1 s1 i1 s2 G1];
          exfalso; destruct (size <? 0)%Z eqn:L; cbn [andb] in R; try discriminate; apply Z.ltb_lt in L; now destruct (B L).
      * destruct Q as [s1|e1 s1 z1 i1 s2 G1|e1 s1 i1 s2 G1];
          exfalso; destruct (size <? 0)%Z eqn:L; cbn [andb] in R; try discriminate; apply Z.ltb_lt in L; now destruct (B L).
  - assert (R : exists uv, getRange p (Some 0%Z) size = Some uv).
    { unfold getRange. destruct p; [rewrite andb_false_r; eauto|]. destruct (size <? 0)%Z eqn:L; [|cbn; eauto].
      apply Z.ltb_lt in L. destruct (B L) as [N _]. inversion P; subst. now destruct N. }
    destruct R as [[u v] R]. rewrite R in H. apply runs_ret in H. destruct H as [-> ->]. cbn [andb]. split; [|reflexivity].
    split; [exact B|]. exists s1. right. split; [eexists; eauto|exact Q].
  - apply runs_ret in H. destruct H as [-> ->]. right. right. split; [exact B|]. right. exists s1. split; [left; eexists; eauto|exact Q].
  - assert (R : exists uv, getRange (Some 0%Z) q size = Some uv).
    { unfold getRange. destruct q; [rewrite andb_false_r; eauto|]. destruct (size <? 0)%Z eqn:L; [|cbn; eauto].
      apply Z.ltb_lt in L. destruct (B L) as [_ N]. inversion Q; subst. now destruct N. }
    destruct R as [[u v] R]. rewrite R in H. apply runs_ret in H. destruct H as [-> ->]. cbn [andb]. split; [|reflexivity].
    split; [exact B|]. exists s1. left. split; [exact P|left; eexists; eauto].
  - replace (getRange (Some 0%Z) (Some 0%Z) size) with (Some (0%Z, 0%Z)) in H by (unfold getRange; now rewrite andb_false_r).
    apply runs_ret in H. destruct H as [-> ->]. cbn [andb].
    split; [|reflexivity]. split; [exact B|]. exists s1. left. split; [exact P|right; exact Q].
  - apply runs_ret in H. destruct H as [-> ->]. right. right. split; [exact B|]. right. exists s1. split; [right; exact P|exact Q].
Qed.

Lemma getRange_total : forall lo hi size b s x s1 y s', ((size < 0)%Z -> lo <> None /\ hi <> None) ->
  runs (fun f => evalBound ST (evalF f) lo b) s x s1 -> (forall i, x <> inl i) ->
  runs (fun f => evalBound ST (evalF f) hi b) s1 y s' ->
  runs (fun f => evalGetRange ST (evalF f) lo hi size b) s (match x, y with
    | inr (p, r1), inr (q, r2) => match getRange p q size with
        | None => GErr (setError "slice operator requires start or end index" defaultInfo)
        | Some (u, v) => if r1 && r2 then GOk u v defaultInfo else GWait defaultInfo end
    | _, inl i => GErr i
    | inl i, _ => GErr i end) s'.
Proof.
  intros lo hi size b s x s1 y s' B H1 N H2. unfold evalGetRange.
  replace ((size <? 0)%Z && match lo, hi with Some _, Some _ => false | _, _ => true end) with false.
  2:{ destruct (size <? 0)%Z eqn:L; [|reflexivity]. apply Z.ltb_lt in L. destruct (B L) as [X Y]. destruct lo, hi; try reflexivity; [now destruct Y|now destruct X|now destruct X]. }
  apply runs_bind; [apply incr_bound|intros [?|[? ?]]; [apply incr_const|apply incr_bind; [apply incr_bound|intro; apply incr_const]]|].
  exists x, s1. split; [exact H1|]. destruct x as [i|[p r1]]; [now destruct (N i)|].
  apply runs_bind; [apply incr_bound|intro; apply incr_const|]. exists y, s'. split; [exact H2|].
  destruct y as [i|[q r2]]; [apply runs_ret; auto|]. destruct (getRange p q size) as [[u v]|]; apply runs_ret; auto.
Qed.
Lemma getRange_ok : forall lo hi size b s p q s1 s' u v, bound b lo s p s1 -> bound b hi s1 q s' -> getRange p q size = Some (u, v) ->
  runs (fun f => evalGetRange ST (evalF f) lo hi size b) s (GOk u v defaultInfo) s'.
Proof.
  intros lo hi size b s p q s1 s' u v P Q R.
  assert (B : (size < 0)%Z -> lo <> None /\ hi <> None).
  { intro L. apply Z.ltb_lt in L. unfold getRange in R. rewrite L in R. destruct P as [s|e s z i s1 G|e s i s1 G]; [discriminate| |];
      (destruct Q as [s1|e1 s1 z1 i1 s2 G1|e1 s1 i1 s2 G1]; [discriminate| |]; split; discriminate). }
  pose proof (getRange_total lo hi size b s _ s1 _ s' B (proj1 (bound_bwd lo b s s1) p P) ltac:(intros i; discriminate) (proj1 (bound_bwd hi b s1 s') q Q)) as H.
  cbv beta iota in H. rewrite R in H. exact H.
Qed.
Lemma getRange_waits : forall lo hi size b s s', rangeWaits b size lo hi s s' ->
  runs (fun f => evalGetRange ST (evalF f) lo hi size b) s (GWait defaultInfo) s'.
Proof.
  intros lo hi size b s s' (B & s1 & [(P & [(q & Q)|Q])|((p & P) & Q)]).
  - pose proof (getRange_total lo hi size b s _ s1 _ s' B (proj1 (proj2 (bound_bwd lo b s s1)) P) ltac:(intros i; discriminate) (proj1 (bound_bwd hi b s1 s') q Q)) as H.
    cbv beta iota in H. cbn [andb] in H. destruct (getRange (Some 0%Z) q size) as [[u v]|] eqn:R; [exact H|].
    exfalso. unfold getRange in R. destruct Q as [s1|e1 s1 z1 i1 s2 G1|e1 s1 i1 s2 G1];
      (destruct (size <? 0)%Z eqn:L; cbn [andb] in R; try discriminate); apply Z.ltb_lt in L; now destruct (B L).
  - pose proof (getRange_total lo hi size b s _ s1 _ s' B (proj1 (proj2 (bound_bwd lo b s s1)) P) ltac:(intros i; discriminate) (proj1 (proj2 (bound_bwd hi b s1 s')) Q)) as H.
    cbv beta iota in H. cbn [andb] in H. replace (getRange (Some 0%Z) (Some 0%Z) size) with (Some (0%Z, 0%Z)) in H by (unfold getRange; now rewrite andb_false_r). exact H.
  - pose proof (getRange_total lo hi size b s _ s1 _ s' B (proj1 (bound_bwd lo b s s1) p P) ltac:(intros i; discriminate) (proj1 (proj2 (bound_bwd hi b s1 s')) Q)) as H.
    cbv beta iota in H. cbn [andb] in H. destruct (getRange p (Some 0%Z) size) as [[u v]|] eqn:R; [exact H|].
    exfalso. unfold getRange in R. destruct P as [s|e s z i s1 G|e s i s1 G];
      (destruct (size <? 0)%Z eqn:L; cbn [andb] in R; try discriminate); apply Z.ltb_lt in L; now destruct (B L).
Qed.
Lemma getRange_fails : forall lo hi size b s s', rangeFails b size lo hi s s' ->
  exists i, runs (fun f => evalGetRange ST (evalF f) lo hi size b) s (GErr i) s'.
Proof.
  intros lo hi size b s s' [(N & L & ->)|[(-> & -> & ->)|(B & [P|(s1 & P & Q)])]].
  - eexists. unfold evalGetRange. apply Z.ltb_lt in L. rewrite L. replace (match lo, hi with Some _, Some _ => false | _, _ => true end) with true.
    + cbn [andb]. apply runs_ret. auto.
    + destruct N as [-> | ->]; [reflexivity|destruct lo; reflexivity].
  - destruct (size <? 0)%Z eqn:L.
    + eexists. unfold evalGetRange. rewrite L. cbn [andb]. apply runs_ret. auto.
    + eexists. unfold evalGetRange. rewrite L. cbn [andb]. exists O. unfold evalBound, bind, ret. unfold getRange. rewrite L. reflexivity.
  - destruct (proj2 (proj2 (bound_bwd lo b s s')) P) as [i H]. exists i. unfold evalGetRange.
    replace ((size <? 0)%Z && match lo, hi with Some _, Some _ => false | _, _ => true end) with false.
    + apply runs_bind; [apply incr_bound|intros [?|[? ?]]; [apply incr_const|apply incr_bind; [apply incr_bound|intro; apply incr_const]]|].
      exists (inl i), s'. split; [exact H|]. apply runs_ret. auto.
    + destruct (size <? 0)%Z eqn:L; [|reflexivity]. apply Z.ltb_lt in L. destruct (B L) as [X Y]. destruct lo, hi; try reflexivity; [now destruct Y|now destruct X|now destruct X].
  - destruct (proj2 (proj2 (bound_bwd hi b s1 s')) Q) as [i H]. exists i. destruct P as [(p & P)|P].
    + exact (getRange_total lo hi size b s _ s1 _ s' B (proj1 (bound_bwd lo b s s1) p P) ltac:(intros j; discriminate) H).
    + exact (getRange_total lo hi size b s _ s1 _ s' B (proj1 (proj2 (bound_bwd lo b s s1)) P) ltac:(intros j; discriminate) H).
Qed.

(** ** ranges: [a..b] *)
Lemma rangeExpr_fuel : forall x y, in64 x -> in64 y -> (x <= y -> y < max64)%Z -> (y < x -> min64 + 1 < y)%Z ->
  exists zs, PropRange.counts x y zs /\ rangeExpr (S (S (Z.to_nat (Z.abs (y - x))))) x y = Some zs.
Proof.
  intros x y Hx Hy Hu Hd. unfold rangeExpr. destruct (y <? x)%Z eqn:E; [apply Z.ltb_lt in E|apply Z.ltb_ge in E].
  - exists (PropRange.upto (Z.to_nat (x - y + 1)) x (-1)). split.
    + split; [rewrite PropRange.upto_len; lia|]. intros i z H. apply PropRange.upto_nth in H. destruct (x <=? y)%Z eqn:E2; [apply Z.leb_le in E2; lia|lia].
    + replace (S (S (Z.to_nat (Z.abs (y - x))))) with (Z.to_nat (x - y + 1) + 1 + 0)%nat by lia. unfold in64 in *. apply PropRange.loop_down; unfold in64; lia.
  - exists (PropRange.upto (Z.to_nat (y - x + 1)) x 1). split.
    + split; [rewrite PropRange.upto_len; lia|]. intros i z H. apply PropRange.upto_nth in H. destruct (x <=? y)%Z eqn:E2; [lia|apply Z.leb_gt in E2; lia].
    + replace (S (S (Z.to_nat (Z.abs (y - x))))) with (Z.to_nat (y - x + 1) + 1 + 0)%nat by lia. unfold in64 in *. apply PropRange.loop_up; unfold in64; lia.
Qed.
(** a range lists all integers from the one to the other bound (apart from the bounds for
    which it never ends, see C21_range_refuted) *)
Theorem C53_range : forall lo hi b l s x s1 y s2, bound b lo s (Some x) s1 -> bound b hi s1 (Some y) s2 ->
  in64 x -> in64 y -> (x <= y -> y < max64)%Z -> (y < x -> min64 + 1 < y)%Z ->
  exists zs, PropRange.counts x y zs /\
    gives b l (ERange lo hi) s (VList (map (fun z => dnode (VInt z) (b_source b)) zs)) defaultInfo s2.
Proof.
  intros lo hi b l s x s1 y s2 P Q Hx Hy Hu Hd. destruct (rangeExpr_fuel x y Hx Hy Hu Hd) as (zs & C & E).
  exists zs. split; [exact C|]. split; [|intros u; discriminate]. apply evaluates_runs. unfold stepE, eval1, evalRange.
  destruct (getRange_ok lo hi (-1) b s _ _ s1 s2 x y P Q) as [f H]; [reflexivity|]. exists f. unfold bind. rewrite H. rewrite E. reflexivity.
Qed.
Theorem C53_range_fails : forall lo hi b l s s', (exists i, failing b l (ERange lo hi) s i s') <-> rangeFails b (-1) lo hi s s'.
Proof.
  intros lo hi b l s s'. split.
  - intros (i & v & H). apply evaluates_runs in H. destruct H as [f H]. unfold stepE, eval1, evalRange, bind in H.
    destruct (evalGetRange ST (evalF f) lo hi (-1) b s) as [g s1| |] eqn:G; try discriminate.
    assert (F := getRange_fwd lo hi (-1) b s g s1 (ex_intro _ f G)). destruct g; try (inversion H; subst; exact F).
    destruct (rangeExpr (S (S (Z.to_nat (Z.abs (e - s0))))) s0 e); discriminate.
  - intro H. destruct (getRange_fails _ _ _ _ _ _ H) as [i [f G]]. exists i, VNil. apply evaluates_runs. exists f. unfold stepE, eval1, evalRange, bind. rewrite G. reflexivity.
Qed.
Theorem C53_range_pending : forall lo hi b l s s', pends b l (ERange lo hi) s s' <-> rangeWaits b (-1) lo hi s s'.
Proof.
  intros lo hi b l s s'. split.
  - intros (v & i & H). apply evaluates_runs in H. destruct H as [f H]. unfold stepE, eval1, evalRange, bind in H.
    destruct (evalGetRange ST (evalF f) lo hi (-1) b s) as [g s1| |] eqn:G; try discriminate.
    assert (F := getRange_fwd lo hi (-1) b s g s1 (ex_intro _ f G)). destruct g; try (inversion H; subst; apply F).
    destruct (rangeExpr (S (S (Z.to_nat (Z.abs (e - s0))))) s0 e); discriminate.
  - intro H. destruct (getRange_waits _ _ _ _ _ _ H) as [f G]. do 2 eexists. apply evaluates_runs. exists f. unfold stepE, eval1, evalRange, bind. rewrite G. reflexivity.
Qed.

(** ** slices: x.[a..b] *)
(** the list is decided, and all in it if this is required *)
Definition ready (l : bool) (v : value) : Prop := settled v /\ (l = true \/ complete v).
Lemma ready_dec : forall l v, {ready l v} + {~ ready l v}.
Proof.
  intros l v. unfold ready, PropRef.complete. destruct (isLocallyResolvedValue ctrl v) eqn:A.
  - destruct l; [left; split; [now apply PropRef.settled_spec|auto]|]. destruct (isResolvedV ctrl false v) eqn:B.
    + left. split; [now apply PropRef.settled_spec|auto].
    + right. intros [_ [X|X]]; congruence.
  - right. intros [X _]. apply PropRef.settled_spec in X. congruence.
Qed.
Lemma ready_spec : forall l v, ready l v -> isLocallyResolvedValue ctrl v = true /\ negb l && negb (isResolvedV ctrl false v) = false.
Proof.
  intros l v [A B]. split; [now apply PropRef.settled_spec|]. destruct B as [->|B]; [reflexivity|]. unfold PropRef.complete in B. rewrite B. apply andb_false_r.
Qed.
Lemma slice_again : forall {A} (arr : list A) p q u v, getRange p q (Z.of_nat (length arr)) = Some (u, v) -> slice arr (Some u) (Some v) = slice arr p q.
Proof. intros A arr p q u v H. unfold slice. rewrite H. unfold getRange at 1. now rewrite andb_false_r. Qed.
(** the elements between the bounds (C22), or an error if the bounds are outside *)
Theorem C53_slice : forall x lo hi b l s arr i s1 p s2 q s3, gives b l x s (VList arr) i s1 -> ready l (VList arr) ->
  bound b lo s1 p s2 -> bound b hi s2 q s3 -> p <> None \/ q <> None ->
  (forall r, slice arr p q = SOk r -> gives b l (ESlice x lo hi) s (VList r) i s3) /\
  (slice arr p q = SErr -> failing b l (ESlice x lo hi) s (setError "slice out of range" i) s3).
Proof.
  intros x lo hi b l s arr i s1 p s2 q s3 [[f1 G] _] Rd P Q NN. apply ready_spec in Rd. destruct Rd as [R1 R2].
  assert (E : exists u v, getRange p q (Z.of_nat (length arr)) = Some (u, v)).
  { unfold getRange. replace (Z.of_nat (length arr) <? 0)%Z with false by (symmetry; apply Z.ltb_ge; lia). cbn [andb].
    destruct p, q; eauto. destruct NN as [N|N]; now destruct N. }
  destruct E as (u & v & E). destruct (getRange_ok lo hi (Z.of_nat (length arr)) b s1 _ _ s2 s3 u v P Q E) as [f2 H].
  assert (K : stepE ST W (Nat.max f1 f2) (ESlice x lo hi) b l s = match slice arr p q with
     | SOk l => done ST (VList l) i | SErr => Eval.fail ST "slice out of range" i | SPanic => panic ST end s3).
  { unfold stepE, eval1, evalSlice, bind at 1. rewrite (le_ret _ _ _ _ _ _ (evalF_le _ _ SW f1 (Nat.max f1 f2) ltac:(lia) _ _ _) G).
    cbn [negb]. rewrite R1, R2. cbn [negb]. unfold bind at 1.
    rewrite (le_ret _ _ _ _ _ _ (incr_getRange lo hi (Z.of_nat (length arr)) b f2 (Nat.max f1 f2) ltac:(lia)) H). rewrite (slice_again _ _ _ _ _ E). reflexivity. }
  split.
  - intros r S. split; [|intros y; discriminate]. apply evaluates_runs. exists (Nat.max f1 f2). rewrite K, S. reflexivity.
  - intros S. exists VNil. apply evaluates_runs. exists (Nat.max f1 f2). rewrite K, S. reflexivity.
Qed.
(** the other cases *)
Theorem C53_slice_undecided : forall x lo hi b l s s1,
  (forall i, failing b l x s i s1 -> failing b l (ESlice x lo hi) s i s1) /\
  (pends b l x s s1 -> pends b l (ESlice x lo hi) s s1) /\
  (forall v i, gives b l x s v i s1 -> ~ ready l v -> pends b l (ESlice x lo hi) s s1) /\
  (forall v i, gives b l x s v i s1 -> ready l v -> (forall arr, v <> VList arr) -> failing b l (ESlice x lo hi) s (setError "slice requires array expression" i) s1) /\
  (forall arr i s2, gives b l x s (VList arr) i s1 -> ready l (VList arr) -> rangeFails b (Z.of_nat (length arr)) lo hi s1 s2 -> failing b l (ESlice x lo hi) s i s2) /\
  (forall arr i s2, gives b l x s (VList arr) i s1 -> ready l (VList arr) -> rangeWaits b (Z.of_nat (length arr)) lo hi s1 s2 -> pends b l (ESlice x lo hi) s s2).
Proof.
  intros x lo hi b l s s1. split; [|split; [|split; [|split; [|split]]]].
  - intros i (v & f & E). exists VNil. apply evaluates_runs. exists f. unfold stepE, eval1, evalSlice, bind. rewrite E. reflexivity.
  - intros (y & i & f & E). do 2 eexists. apply evaluates_runs. exists f. unfold stepE, eval1, evalSlice, bind. rewrite E. reflexivity.
  - intros v i [[f E] V] N. do 2 eexists. apply evaluates_runs. exists f. unfold stepE, eval1, evalSlice, bind. rewrite E. cbn [negb].
    destruct (isLocallyResolvedValue ctrl v) eqn:A; [|reflexivity]. cbn [negb].
    destruct (negb l && negb (isResolvedV ctrl false v)) eqn:B; [reflexivity|]. destruct N. split; [now apply PropRef.settled_spec|].
    apply andb_false_iff in B. rewrite !negb_false_iff in B. exact B.
  - intros v i [[f E] V] Rd N. apply ready_spec in Rd. destruct Rd as [R1 R2]. eexists. apply evaluates_runs. exists f. unfold stepE, eval1, evalSlice, bind. rewrite E. cbn [negb].
    rewrite R1, R2. cbn [negb]. destruct v; try reflexivity. now edestruct N.
  - intros arr i s2 [[f1 E] V] Rd F. apply ready_spec in Rd. destruct Rd as [R1 R2]. destruct (getRange_fails _ _ _ _ _ _ F) as [j [f2 H]].
    exists VNil. apply evaluates_runs. exists (Nat.max f1 f2). unfold stepE, eval1, evalSlice, bind at 1.
    rewrite (le_ret _ _ _ _ _ _ (evalF_le _ _ SW f1 (Nat.max f1 f2) ltac:(lia) _ _ _) E). cbn [negb]. rewrite R1, R2. cbn [negb]. unfold bind at 1.
    rewrite (le_ret _ _ _ _ _ _ (incr_getRange lo hi (Z.of_nat (length arr)) b f2 (Nat.max f1 f2) ltac:(lia)) H). reflexivity.
  - intros arr i s2 [[f1 E] V] Rd F. apply ready_spec in Rd. destruct Rd as [R1 R2]. destruct (getRange_waits _ _ _ _ _ _ F) as [f2 H].
    do 2 eexists. apply evaluates_runs. exists (Nat.max f1 f2). unfold stepE, eval1, evalSlice, bind at 1.
    rewrite (le_ret _ _ _ _ _ _ (evalF_le _ _ SW f1 (Nat.max f1 f2) ltac:(lia) _ _ _) E). cbn [negb]. rewrite R1, R2. cbn [negb]. unfold bind at 1.
    rewrite (le_ret _ _ _ _ _ _ (incr_getRange lo hi (Z.of_nat (length arr)) b f2 (Nat.max f1 f2) ltac:(lia)) H). reflexivity.
Qed.

(** ** projections: x.[*].a *)
(** the entries, one after the other; the projection sees the entry (EProjVal) *)
Inductive projected (b : binding) (l : bool) (id : nat) (q : expr) : list node -> ST -> list value -> ST -> Prop :=
| Pj_nil s : projected b l id q [] s [] s
| Pj_cons n ns s v i s1 vs s2 : evaluates q b l (w_projSet W id (val n) s) (v, i, true) s1 -> projected b l id q ns s1 vs s2 ->
    projected b l id q (n :: ns) s (v :: vs) s2.
Definition projFails (b : binding) (l : bool) (id : nat) (q : expr) (ns : list node) (s s' : ST) : Prop :=
  exists pre n post vs s1 i, ns = pre ++ n :: post /\ projected b l id q pre s vs s1 /\ failing b l q (w_projSet W id (val n) s1) i s'.
(** the entries of a list or, by key, of a map; for a list, [*] alone is the list *)
Definition entriesOf (q : expr) (v : value) (es : list node) : Prop :=
  (v = VList es /\ forall id, q <> EProjVal id) \/ (exists m, v = VMap m /\ es = map snd m).
Lemma incr_proj : forall id q es b l, incr (fun f => projLoop ST (w_projSet W) (evalF f) id q es b l).
Proof. intros id q es b l f f' L. apply projLoop_le. intros. now apply evalF_le. Qed.
Lemma proj_runs : forall id q b l es s x s', runs (fun f => projLoop ST (w_projSet W) (evalF f) id q es b l) s x s' <->
  (exists vs, projected b l id q es s vs s' /\ x = Some (map (fun v => dnode v (b_source b)) vs)) \/ (projFails b l id q es s s' /\ x = None).
Proof.
  intros id q b l. induction es as [|n es IH]; intros s x s'.
  - cbn [projLoop]. rewrite runs_ret. split.
    + intros [-> ->]. left. exists []. split; [constructor|reflexivity].
    + intros [(vs & P & ->)|((pre & n & post & vs & s1 & i & E & _) & _)]; [inversion P; subst; auto|destruct pre; discriminate].
  - assert (I2 : forall (y : R), incr (fun f => let '(v, _, ok) := y in if ok then bind ST (projLoop ST (w_projSet W) (evalF f) id q es b l) (fun z => ret ST (option_map (cons (dnode v (b_source b))) z)) else ret ST None)).
    { intros [[v i] ok]. destruct ok; [|apply incr_const]. apply incr_bind; [apply incr_proj|intro; apply incr_const]. }
    cbn [projLoop]. rewrite (runs_bind ST (fun f s => evalF f q b l (w_projSet W id (val n) s)));
      [|intros f f' L; intro s0; apply evalF_le; [exact SW|exact L]|exact I2].
    split.
    + intros ([[v i] ok] & s1 & [f E] & K). destruct ok.
      * apply runs_bind in K; [|apply incr_proj|intro; apply incr_const]. destruct K as (z & s2 & K & Q). apply runs_ret in Q. destruct Q as [-> ->].
        apply IH in K. destruct K as [(vs & P & ->)|((pre & m & post & vs & s3 & j & -> & P & F) & ->)].
        -- left. exists (v :: vs). split; [econstructor; [exists f; exact E|exact P]|reflexivity].
        -- right. split; [|reflexivity]. exists (n :: pre), m, post, (v :: vs), s3, j. split; [reflexivity|]. split; [econstructor; [exists f; exact E|exact P]|exact F].
      * apply runs_ret in K. destruct K as [-> ->]. right. split; [|reflexivity]. exists [], n, es, [], s, i. split; [reflexivity|]. split; [constructor|]. exists v, f. exact E.
    + intros [(vs & P & ->)|((pre & m & post & vs & s3 & j & E & P & F) & ->)].
      * inversion P as [|n0 ns s0 v i s1 vs0 s2 H Q]; subst. exists (v, i, true), s1. split; [exact H|].
        apply runs_bind; [apply incr_proj|intro; apply incr_const|]. eexists. exists s'. split; [apply IH; left; exists vs0; split; [exact Q|reflexivity]|]. apply runs_ret. auto.
      * destruct pre as [|n0 pre]; injection E as E1 E2; subst.
        -- inversion P; subst. destruct F as [v F]. exists (v, j, false), s'. split; [exact F|]. apply runs_ret. auto.
        -- inversion P as [|n1 ns s0 v i s1 vs0 s2 H Q]; subst. exists (v, i, true), s1. split; [exact H|].
           apply runs_bind; [apply incr_proj|intro; apply incr_const|]. eexists. exists s'. split; [apply IH; right; split; [|reflexivity]; exists pre, m, post, vs0, s3, j; auto|]. apply runs_ret. auto.
Qed.
Lemma projEval : forall x id q b l s v i s1 es, gives b false x s v i s1 -> entriesOf q v es -> forall r s',
  evaluates (EProj x id q) b l s r s' <-> exists y, runs (fun f => projLoop ST (w_projSet W) (evalF f) id q es b l) s1 y s' /\
    r = match y with Some nl => (VList nl, i, true) | None => (VNil, i, false) end.
Proof.
  intros x id q b l s v i s1 es G EN r s'. rewrite evaluates_runs.
  set (k := fun (f : nat) (p : push) => match p with
    | PFail i => failI ST i
    | PExpr x' i => ret ST (VExpr (EProj x' id q), i, false)
    | PVal v i =>
      let loop (entries : list node) : M ST R := bind ST (projLoop ST (w_projSet W) (evalF f) id q entries b l)
        (fun y => match y with Some nl => done ST (VList nl) i | None => failI ST i end) in
      match v with
      | VList es => match q with EProjVal _ => done ST v i | _ => loop es end
      | VMap m => loop (map snd m)
      | _ => Eval.fail ST "only map or list allowed for projection" i end end).
  assert (IL : forall j es, incr (fun f => bind ST (projLoop ST (w_projSet W) (evalF f) id q es b l)
        (fun y => match y with Some nl => done ST (VList nl) j | None => failI ST j end))) by (intros; apply incr_bind; [apply incr_proj|intro; apply incr_const]).
  assert (IK : forall p, incr (fun f => k f p)).
  { intros [j|w j|y j]; cbn [k]; try apply incr_const. destruct w; try apply incr_const; [|apply IL]. destruct q; try apply IL; apply incr_const. }
  unfold stepE, eval1, evalProj. etransitivity; [apply (PropFail.runs_pushk ST W SW k x None b false s r s' IK)|].
  assert (KV : forall f, k f (PVal v i) = bind ST (projLoop ST (w_projSet W) (evalF f) id q es b l)
        (fun y => match y with Some nl => done ST (VList nl) i | None => failI ST i end)).
  { intro f. unfold k. destruct EN as [[-> N]|(m & -> & ->)]; [|reflexivity]. destruct q; try reflexivity. now edestruct N. }
  assert (L : runs (fun f => k f (PVal v i)) s1 r s' <-> exists y, runs (fun f => projLoop ST (w_projSet W) (evalF f) id q es b l) s1 y s' /\
    r = match y with Some nl => (VList nl, i, true) | None => (VNil, i, false) end).
  { rewrite (runs_ext ST _ (fun f => bind ST (projLoop ST (w_projSet W) (evalF f) id q es b l)
        (fun y => match y with Some nl => done ST (VList nl) i | None => failI ST i end)) s1 r s' (fun f => f_equal (fun m => m s1) (KV f))).
    rewrite runs_bind; [|apply incr_proj|intro; apply incr_const]. split.
    - intros (y & s2 & H & K). exists y. destruct y; apply runs_ret in K; destruct K as [-> ->]; auto.
    - intros (y & H & ->). exists y, s'. split; [exact H|]. destruct y; apply runs_ret; auto. }
  rewrite <- L. cbn [PropFail.ji]. destruct G as [G V]. split.
  - intros (s2 & [(w & j & [G2 _] & H)|[(y & j & G2 & H)|(w & j & G2 & H)]]);
      destruct (runs_fun ST (fun f => evalF f x b false) s _ _ _ _ (incr_eval ST W SW x b false) G G2) as [E1 E2]; inversion E1; subst; [exact H|now destruct (V y)].
  - intro H. exists s1. left. exists v, i. split; [split; [exact G|exact V]|exact H].
Qed.
(** the projection is the list of what the entries yield; the entries of a map come in
    the order of the keys *)
Theorem C53_projection : forall x id q b l s v i s1 es, gives b false x s v i s1 -> entriesOf q v es -> forall r j s',
  gives b l (EProj x id q) s r j s' <-> j = i /\ exists vs, projected b l id q es s1 vs s' /\ r = VList (map (fun v => dnode v (b_source b)) vs).
Proof.
  intros x id q b l s v i s1 es G EN r j s'. split.
  - intros [H V]. apply (projEval _ _ _ _ _ _ _ _ _ _ G EN) in H. destruct H as (y & H & E). apply proj_runs in H.
    destruct H as [(vs & P & ->)|(_ & ->)]; inversion E; subst. eauto.
  - intros (-> & vs & P & ->). split; [|intros y; discriminate]. apply (projEval _ _ _ _ _ _ _ _ _ _ G EN).
    eexists. split; [apply proj_runs; left; exists vs; split; [exact P|reflexivity]|reflexivity].
Qed.
(** it fails if an entry does *)
Theorem C53_projection_fails : forall x id q b l s v i s1 es, gives b false x s v i s1 -> entriesOf q v es -> forall j s',
  failing b l (EProj x id q) s j s' <-> j = i /\ projFails b l id q es s1 s'.
Proof.
  intros x id q b l s v i s1 es G EN j s'. split.
  - intros [r H]. apply (projEval _ _ _ _ _ _ _ _ _ _ G EN) in H. destruct H as (y & H & E). apply proj_runs in H.
    destruct H as [(vs & P & ->)|(F & ->)]; inversion E; subst. auto.
  - intros (-> & F). eexists. apply (projEval _ _ _ _ _ _ _ _ _ _ G EN). exists None. split; [apply proj_runs; right; auto|reflexivity].
Qed.
(** other values; x.[*] of a list *)
Theorem C53_projection_other : forall x id q b l s v i s1, gives b false x s v i s1 ->
  ((forall ns, v <> VList ns) -> (forall m, v <> VMap m) -> failing b l (EProj x id q) s (setError "only map or list allowed for projection" i) s1) /\
  (forall ns id', v = VList ns -> q = EProjVal id' -> gives b l (EProj x id q) s v i s1).
Proof.
  intros x id q b l s v i s1 [[f E] V].
  assert (P : stepE ST W f (EProj x id q) b l s = match v with
      | VList es => match q with EProjVal _ => done ST v i | _ => bind ST (projLoop ST (w_projSet W) (evalF f) id q es b l)
        (fun y => match y with Some nl => done ST (VList nl) i | None => failI ST i end) end
      | VMap m => bind ST (projLoop ST (w_projSet W) (evalF f) id q (map snd m) b l)
        (fun y => match y with Some nl => done ST (VList nl) i | None => failI ST i end)
      | _ => Eval.fail ST "only map or list allowed for projection" i end s1).
  { unfold stepE, eval1, evalProj, resolvePush. unfold bind at 1 2. rewrite E. unfold ret. destruct v; try reflexivity. now destruct (V e). }
  split.
  - intros N1 N2. exists VNil. apply evaluates_runs. exists f. rewrite P. destruct v; try reflexivity; [now edestruct N1|now edestruct N2].
  - intros ns id' -> ->. split; [|exact V]. apply evaluates_runs. exists f. rewrite P. reflexivity.
Qed.
(** an undecided list is reported as failure (the expression is kept) *)
Theorem C53_projection_undecided_refuted : forall x id q b l s s1, pends b false x s s1 ->
  exists x' i, evaluates (EProj x id q) b l s (VExpr (EProj x' id q), i, false) s1.
Proof.
  intros x id q b l s s1 (y & i & f & E). exists (keepArg y x), i. apply evaluates_runs. exists f.
  unfold stepE, eval1, evalProj, resolvePush, bind. rewrite E. reflexivity.
Qed.
(** x.[*].a.b: the values at this path in the entries, if all have one *)
Theorem C53_projection_path : (forall id v s, w_projGet W id (w_projSet W id v s) = v) ->
  forall x id path b l s v i s1 es cs, path <> [] ->
  gives b false x s v i s1 -> entriesOf (EQual (EProjVal id) path) v es ->
  Forall2 (fun n c => ready l (val n) /\ PropRef.lookup ST W false l (dnode (val n) "") path (PropRef.OFound c)) es cs ->
  exists s', gives b l (EProj x id (EQual (EProjVal id) path)) s (VList (map (fun c => dnode (val c) (b_source b)) cs)) i s'.
Proof.
  intros LAW x id path b l s v i s1 es cs NE G EN F.
  assert (P : forall s1, exists s', projected b l id (EQual (EProjVal id) path) es s1 (map val cs) s').
  { clear -LAW NE F SW. induction F as [|n c es cs [[Sn Cn] L] F IH]; intro s1; [exists s1; constructor|].
    destruct (match val n with VExpr _ => true | _ => false end) eqn:X.
    { destruct (val n); try discriminate. destruct Sn. }
    assert (H : evaluates (EQual (EProjVal id) path) b l (w_projSet W id (val n) s1) (PropRef.result (ERef "" path) [] (PropRef.OFound c)) (w_projSet W id (val n) s1)).
    { apply (PropRef.C52_qualified ST W SW) with (v := val n) (i := defaultInfo) (s1 := w_projSet W id (val n) s1); [exact NE| |reflexivity|exact Sn|exact Cn|split; [reflexivity|eexists; split; [exact L|reflexivity]]].
      split; [|intros y Y; rewrite Y in X; discriminate]. apply evaluates_runs. exists O. unfold stepE, eval1, done, ret. rewrite LAW. reflexivity. }
    destruct (IH (w_projSet W id (val n) s1)) as [s' P]. exists s'. econstructor; [exact H|exact P]. }
  destruct (P s1) as [s' P']. exists s'. apply (C53_projection _ _ _ _ _ _ _ _ _ _ G EN). split; [reflexivity|].
  eexists. split; [exact P'|]. now rewrite map_map.
Qed.
End C53.

(** ** Examples *)
Definition W0 := PropAgg.W0.
Notation X n := (ERef "" [n%string]).
Definition nl (vs : list value) : value := VList (map nd vs).
Definition nm (m : list (string * value)) : value := VMap (map (fun kv => (fst kv, nd (snd kv))) m).
(** l is a list, u is not decided yet, m is nowhere, r a list of maps *)
Definition b0 : binding := env0 [("l", nd (nl [VInt 10; VInt 20; VInt 30])); ("n", nd VNil);
  ("r", nd (nl [nm [("a", VInt 1); ("b", VInt 2)]; nm [("a", VInt 3)]])); ("u", nd (VExpr (X "z"))); ("x", nd (VInt 1))].
Fixpoint plain (f : nat) (v : value) : value :=
  match f with O => v | S f => match v with
  | VList l => VList (map (fun n => nd (plain f (val n))) l)
  | VMap m => VMap (map (fun kn => (fst kn, nd (plain f (val (snd kn))))) m)
  | _ => v end end.
Definition ev (e : expr) : value :=
  match evalF _ W0 20 e b0 false st0 with Ret (v, _, true) _ => plain 9 v | Ret _ _ => VStr "failed" | _ => VStr "?" end.
Example ex_list : map ev [EList [X "x"; EExpand (X "l"); EInt 2]; EList [X "x"; X "u"]; EList [X "m"; X "u"]; EList [EExpand (X "x")]]
  = [nl [VInt 1; VInt 10; VInt 20; VInt 30; VInt 2]; VExpr (EList [X "x"; X "u"]); VStr "failed"; VStr "failed"].
Proof. vm_compute. reflexivity. Qed.
(** an expansion whose list is not there yet is an error, although it may be there later *)
Theorem C53_expansion_undecided_refuted : exists s', PropFail.pends _ W0 b0 false (X "u") st0 s' /\
  exists i, PropFail.failing _ W0 b0 false (EList [EExpand (X "u")]) st0 i s'.
Proof.
  exists st0. split; [do 2 eexists; exists 20%nat; vm_compute; reflexivity|]. do 2 eexists. exists 20%nat. vm_compute. reflexivity.
Qed.
Example ex_map : map ev [EMap [(EStr "b", X "x"); (EStr "a", EInt 2); (EStr "b", EInt 3)]; EMap [(X "x", X "x")]; EMap [(EStr "a", X "u"); (EStr "b", X "m")]]
  = [nm [("a", VInt 2); ("b", VInt 3)]; VStr "failed"; VExpr (EMap [(EStr "a", X "u"); (EStr "b", X "m")])].
Proof. vm_compute. reflexivity. Qed.
Example ex_scope : map ev [EScope [(EStr "x", EInt 5); (EStr "y", X "x")] (EList [X "x"; X "y"]); EScope [(EStr "y", X "u")] (X "y")]
  = [nl [VInt 5; VInt 1]; VExpr (EScope [(EStr "y", X "u")] (X "y"))].
Proof. vm_compute. reflexivity. Qed.
Example ex_range : map ev [ERange (Some (EInt 2)) (Some (X "n")); ERange (Some (EInt 2)) None; ERange (Some (X "u")) (Some (EInt 1))]
  = [nl [VInt 2; VInt 1; VInt 0]; VStr "failed"; VExpr (ERange (Some (X "u")) (Some (EInt 1)))].
Proof. vm_compute. reflexivity. Qed.
Example ex_slice : map ev [ESlice (X "l") (Some (X "x")) None; ESlice (X "l") None (Some (EInt (-2))); ESlice (X "l") (Some (EInt 1)) (Some (EInt 3)); ESlice (X "x") (Some (EInt 1)) None; ESlice (X "u") (Some (EInt 1)) None]
  = [nl [VInt 20; VInt 30]; nl [VInt 10; VInt 20]; VStr "failed"; VStr "failed"; VExpr (ESlice (X "u") (Some (EInt 1)) None)].
Proof. vm_compute. reflexivity. Qed.
Example ex_law : forall id v s, w_projGet W0 id (w_projSet W0 id v s) = v.
Proof. intros. cbn. now rewrite Nat.eqb_refl. Qed.
Example ex_proj : map ev [EProj (X "r") 0 (EQual (EProjVal 0) ["a"]); EProj (X "r") 0 (EQual (EProjVal 0) ["b"]); EProj (X "l") 0 (EProjVal 0); EProj (X "u") 0 (EProjVal 0)]
  = [nl [VInt 1; VInt 3]; VStr "failed"; nl [VInt 10; VInt 20; VInt 30]; VStr "failed"].
Proof. vm_compute. reflexivity. Qed.

Print Assumptions C53_list.
Print Assumptions C53_list_fails.
Print Assumptions C53_list_pending.
Print Assumptions C53_map.
Print Assumptions C53_map_pending.
Print Assumptions C53_map_fails.
Print Assumptions C53_scope.
Print Assumptions C53_scope_map.
Print Assumptions C53_range.
Print Assumptions C53_range_fails.
Print Assumptions C53_range_pending.
Print Assumptions C53_slice.
Print Assumptions C53_slice_undecided.
Print Assumptions C53_projection.
Print Assumptions C53_projection_fails.
Print Assumptions C53_projection_other.
Print Assumptions C53_projection_undecided_refuted.
Print Assumptions C53_projection_path.
Print Assumptions C53_expansion_undecided_refuted.
