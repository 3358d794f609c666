(** C51: the functions that handle missing and failing values: defined, valid,
    require, optional, catch and stub, for every evaluator state and environment; the
    arguments are arbitrary expressions. *)
From Coq Require Import Lia.
From Verif Require Import Core CoreFacts Str Interp Find Cleanup Unresolved DeepEq Env Arith IP Comparison RangeSlice ListFns Flow Info Eval Control Engine EngineFacts Runs World0.
From Verif Require PropCond PropAgg.
Import ListNotations.
Notation falsy := PropCond.falsy.
Notation isValue := PropCond.isValue.
Open Scope string_scope. Open Scope list_scope.

(** ** Specification *)
(** a call of a function *)
Definition call (name : string) (args : list expr) : expr := ECall (ERef "" [name]) args false.
(** one expression after the other *)
Inductive each {ST} (P : expr -> ST -> ST -> Prop) : list expr -> ST -> ST -> Prop :=
| Each_nil s : each P [] s s
| Each_cons e es s s1 s2 : P e s s1 -> each P es s1 s2 -> each P (e :: es) s s2.

Section C51.
Variable ST : Type.
Variable W : world ST.
Hypothesis SW : steadyWorld W.
Notation evaluates := (evaluates ST W).
Notation crashes := (crashes ST W).
Notation evalF := (evalF ST W).

(** an expression has a value, is not decided yet or fails *)
Definition gives (b : binding) (l : bool) (e : expr) (s : ST) (v : value) (i : info) (s' : ST) : Prop :=
  evaluates e b l s (v, i, true) s' /\ isValue v.
Definition pends (b : binding) (l : bool) (e : expr) (s s' : ST) : Prop :=
  exists x i, evaluates e b l s (VExpr x, i, true) s'.
Definition failing (b : binding) (l : bool) (e : expr) (s : ST) (i : info) (s' : ST) : Prop :=
  exists v, evaluates e b l s (v, i, false) s'.
(** a value that is there; one that is not *)
Definition available (b : binding) (e : expr) (s s' : ST) : Prop :=
  exists v i, gives b true e s v i s' /\ f_undefined i = false.
Definition missing (b : binding) (e : expr) (s s' : ST) : Prop :=
  (exists i, failing b true e s i s') \/ exists v i, gives b true e s v i s' /\ f_undefined i = true.
(** evaluated with any outcome but a crash *)
Definition anyhow (b : binding) (e : expr) (s s' : ST) : Prop := exists r, evaluates e b true s r s'.
Definition valued (b : binding) (e : expr) (s s' : ST) : Prop := exists v i, gives b true e s v i s'.
Definition nonNil (b : binding) (e : expr) (s s' : ST) : Prop := exists v i, gives b true e s v i s' /\ v <> VNil.
Definition isNil (b : binding) (e : expr) (s s' : ST) : Prop := exists i, gives b true e s VNil i s'.

(** ** the three outcomes *)
Definition ji (i : option info) (ie : info) : info := match i with Some i => join i ie | None => ie end.
Lemma runs_pushk {A} : forall (k : nat -> push -> M ST A) e i b l s r s', (forall p, incr (fun f => k f p)) ->
  runs (fun f => bind ST (resolvePush ST (evalF f) e i b l) (k f)) s r s' <->
  exists s1, (exists v ie, gives b l e s v ie s1 /\ runs (fun f => k f (PVal v (ji i ie))) s1 r s') \/
             (exists x ie, evaluates e b l s (VExpr x, ie, true) s1 /\ runs (fun f => k f (PExpr (keepArg x e) (ji i ie))) s1 r s') \/
             (exists v ie, evaluates e b l s (v, ie, false) s1 /\ runs (fun f => k f (PFail (ji i ie))) s1 r s').
Proof.
  intros k e i b l s r s' I. rewrite runs_bind; [|apply incr_push, SW|exact I]. split.
  - intros (p & s1 & H & K). apply runs_push in H; [|exact SW]. destruct H as ([[v ie] ok] & H & ->).
    exists s1. unfold pushOf in K. destruct ok; [|right; right; eauto].
    destruct (match v with VExpr _ => true | _ => false end) eqn:E.
    + destruct v; try discriminate. right. left. eauto.
    + left. exists v, ie. split; [split; [exact H|]|destruct v; try discriminate; exact K].
      intros x ->. discriminate.
  - intros (s1 & [(v & ie & [H V] & K)|[(x & ie & H & K)|(v & ie & H & K)]]).
    + exists (PVal v (ji i ie)), s1. split; [|exact K]. apply runs_push; [exact SW|].
      exists (v, ie, true). split; [exact H|]. unfold pushOf. destruct v; try reflexivity. now destruct (V e0).
    + exists (PExpr (keepArg x e) (ji i ie)), s1. split; [|exact K]. apply runs_push; [exact SW|]. exists (VExpr x, ie, true). now split.
    + exists (PFail (ji i ie)), s1. split; [|exact K]. apply runs_push; [exact SW|]. exists (v, ie, false). now split.
Qed.
Lemma call_intrinsic : forall n args b l s r s', In n intrinsics ->
  evaluates (call n args) b l s r s' <->
  runs (fun f => evalIntrinsic ST (w_ctrl W) (evalF f) n (call n args) (ERef "" [n]) args b) s r s'.
Proof.
  intros n args b l s r s' I. rewrite evaluates_runs. apply runs_ext. intro f. unfold stepE, eval1, call, evalCall.
  cbn in I. repeat destruct I as [<-|I]; try reflexivity. destruct I.
Qed.
Lemma each_cons : forall {X} (P : expr -> X -> X -> Prop) e es s s',
  each P (e :: es) s s' <-> exists s1, P e s s1 /\ each P es s1 s'.
Proof. split; [intro H; inversion H; subst; eauto|intros (s1 & H & K); econstructor; eauto]. Qed.
Lemma each_app : forall {X} (P : expr -> X -> X -> Prop) l1 l2 s s',
  each P (l1 ++ l2) s s' <-> exists s1, each P l1 s s1 /\ each P l2 s1 s'.
Proof.
  intros X P. induction l1 as [|e l1 IH]; intros l2 s s'; cbn.
  - split; [intro H; exists s; split; [constructor|exact H]|intros (s1 & H & K); inversion H; subst; exact K].
  - split.
    + intro H. apply each_cons in H. destruct H as (s1 & E & H). apply IH in H. destruct H as (s2 & A & B). exists s2. split; [econstructor; eauto|exact B].
    + intros (s1 & H & K). apply each_cons in H. destruct H as (s2 & E & H). econstructor; [exact E|]. apply IH. eauto.
Qed.

(** ** defined *)
Lemma defined_step : forall self e es b res s r s',
  runs (fun f => definedLoop ST (evalF f) self (e :: es) b res) s r s' <->
  exists s1,
    (available b e s s1 /\ runs (fun f => definedLoop ST (evalF f) self es b res) s1 r s') \/
    (pends b true e s s1 /\ runs (fun f => definedLoop ST (evalF f) self es b false) s1 r s') \/
    (missing b e s s1 /\ res = true /\ r = (VBool false, defaultInfo, true) /\ s' = s1) \/
    (missing b e s s1 /\ res = false /\ runs (fun f => definedLoop ST (evalF f) self es b res) s1 r s').
Proof.
  intros. cbn [definedLoop]. rewrite runs_pushk.
  2:{ intros [i|v i|x i].
      - destruct res; [apply incr_const|]. intros f f' L. apply definedLoop_le. intros. now apply evalF_le.
      - destruct (res && f_undefined i); [apply incr_const|]. intros f f' L. apply definedLoop_le. intros. now apply evalF_le.
      - intros f f' L. apply definedLoop_le. intros. now apply evalF_le. }
  split; intros (s1 & H); exists s1.
  - destruct H as [(v & ie & G & K)|[(x & ie & H & K)|(v & ie & H & K)]]; cbn [ji] in K.
    + destruct (f_undefined ie) eqn:U; [|rewrite Bool.andb_false_r in K; left; split; [exists v, ie; auto|exact K]].
      right. right. destruct res; cbn [andb] in K.
      * left. apply runs_ret in K. destruct K as [-> ->]. split; [right; eauto|auto].
      * right. split; [right; eauto|auto].
    + right. left. split; [exists x, ie; exact H|exact K].
    + right. right. destruct res; [left|right].
      * apply runs_ret in K. destruct K as [-> ->]. split; [left; exists ie, v; exact H|auto].
      * split; [left; exists ie, v; exact H|auto].
  - destruct H as [((v & i & G & U) & K)|[((x & i & H) & K)|[([(i & v & H)|(v & i & G & U)] & -> & -> & ->)|([(i & v & H)|(v & i & G & U)] & -> & K)]]].
    + left. exists v, i. split; [exact G|]. cbn [ji]. rewrite U, Bool.andb_false_r. exact K.
    + right. left. exists x, i. split; [exact H|exact K].
    + right. right. exists v, i. split; [exact H|]. apply runs_ret. now split.
    + left. exists v, i. split; [exact G|]. cbn [ji]. rewrite U. apply runs_ret. now split.
    + right. right. exists v, i. split; [exact H|exact K].
    + left. exists v, i. split; [exact G|]. cbn [ji]. rewrite U. exact K.
Qed.
Lemma available_anyhow : forall b e s s', available b e s s' -> anyhow b e s s'.
Proof. intros b e s s' (v & i & [H _] & _). eexists. exact H. Qed.
Lemma missing_anyhow : forall b e s s', missing b e s s' -> anyhow b e s s'.
Proof. intros b e s s' [(i & v & H)|(v & i & [H _] & _)]; eexists; exact H. Qed.
Lemma pends_anyhow : forall b e s s', pends b true e s s' -> anyhow b e s s'.
Proof. intros b e s s' (x & i & H). eexists; exact H. Qed.
Lemma anyhow_cases : forall b e s s', anyhow b e s s' -> available b e s s' \/ pends b true e s s' \/ missing b e s s'.
Proof.
  intros b e s s' ([[v i] ok] & H). destruct ok; [|right; right; left; exists i, v; exact H].
  destruct (match v with VExpr _ => true | _ => false end) eqn:E.
  - destruct v; try discriminate. right. left. exists e0, i. exact H.
  - assert (G : gives b true e s v i s') by (split; [exact H|intros x ->; discriminate]).
    destruct (f_undefined i) eqn:U; [right; right; right|left]; exists v, i; auto.
Qed.
(** once an argument is undecided the rest is only evaluated *)
Lemma defined_undecided : forall self b es s r s',
  runs (fun f => definedLoop ST (evalF f) self es b false) s r s' <->
  r = (VExpr self, defaultInfo, true) /\ each (anyhow b) es s s'.
Proof.
  intros self b. induction es as [|e es IH]; intros s r s'.
  - cbn [definedLoop]. unfold keep. rewrite runs_ret. split.
    + intros [-> ->]. split; [reflexivity|constructor].
    + intros [-> H]. inversion H. auto.
  - rewrite defined_step. split.
    + intros (s1 & [(A & K)|[(A & K)|[(_ & F & _)|(A & _ & K)]]]); [| |discriminate|]; apply IH in K; destruct K as [-> K];
        (split; [reflexivity|econstructor; [|exact K]]); auto using available_anyhow, missing_anyhow, pends_anyhow.
    + intros [-> H]. apply each_cons in H. destruct H as (s1 & A0 & H). exists s1. assert (K := proj2 (IH s1 _ s') (conj eq_refl H)).
      destruct (anyhow_cases _ _ _ _ A0) as [A|[A|A]]; auto 10.
Qed.
Lemma defined_decided : forall self b es s r s',
  runs (fun f => definedLoop ST (evalF f) self es b true) s r s' <->
  (r = (VBool true, defaultInfo, true) /\ each (available b) es s s') \/
  (exists pre e post s1, es = pre ++ e :: post /\ each (available b) pre s s1 /\
     ((r = (VBool false, defaultInfo, true) /\ missing b e s1 s') \/
      (exists s2, r = (VExpr self, defaultInfo, true) /\ pends b true e s1 s2 /\ each (anyhow b) post s2 s'))).
Proof.
  intros self b. induction es as [|e es IH]; intros s r s'.
  - cbn [definedLoop]. unfold done. rewrite runs_ret. split.
    + intros [-> ->]. left. split; [reflexivity|constructor].
    + intros [[-> H]|(pre & e & post & s1 & E & _)]; [inversion H; auto|destruct pre; discriminate].
  - rewrite defined_step. split.
    + intros (s1 & [(A & K)|[(A & K)|[(A & _ & -> & ->)|(_ & F & _)]]]); [| | |discriminate].
      * apply IH in K. destruct K as [[-> K]|(pre & e' & post & s2 & -> & P & K)].
        -- left. split; [reflexivity|econstructor; eauto].
        -- right. exists (e :: pre), e', post, s2. split; [reflexivity|]. split; [econstructor; eauto|exact K].
      * apply defined_undecided in K. destruct K as [-> K]. right. exists [], e, es, s.
        split; [reflexivity|]. split; [constructor|]. right. exists s1. auto.
      * right. exists [], e, es, s. split; [reflexivity|]. split; [constructor|]. left. auto.
    + intros [[-> H]|(pre & e' & post & s2 & E & P & K)].
      * apply each_cons in H. destruct H as (s1 & A0 & H). exists s1. left. split; [exact A0|]. apply IH. left. auto.
      * destruct pre as [|e0 pre]; inversion E; subst.
        -- inversion P; subst. destruct K as [[-> K]|(s3 & -> & K & A)].
           ++ exists s'. right. right. left. auto.
           ++ exists s3. right. left. split; [exact K|]. apply defined_undecided. auto.
        -- apply each_cons in P. destruct P as (s1 & A0 & P). exists s1. left. split; [exact A0|]. apply IH. right. exists pre, e', post, s2. auto.
Qed.
(** defined(...) is true if all arguments are available *)
Theorem C51_defined_true : forall args b l s s',
  (exists i, evaluates (call "defined" args) b l s (VBool true, i, true) s') <-> each (available b) args s s'.
Proof.
  intros. setoid_rewrite call_intrinsic; [|now left]. cbn [evalIntrinsic String.eqb Ascii.eqb Bool.eqb].
  setoid_rewrite defined_decided. split.
  - intros [i [[_ H]|(pre & e & post & s1 & _ & _ & [[F _]|(s2 & F & _)])]]; [exact H|discriminate|discriminate].
  - intro H. exists defaultInfo. left. auto.
Qed.
(** ... false if the first argument that is not available is missing; the following
    ones are not looked at *)
Theorem C51_defined_false : forall args b l s s',
  (exists i, evaluates (call "defined" args) b l s (VBool false, i, true) s') <->
  exists pre e post s1, args = pre ++ e :: post /\ each (available b) pre s s1 /\ missing b e s1 s'.
Proof.
  intros. setoid_rewrite call_intrinsic; [|now left]. cbn [evalIntrinsic String.eqb Ascii.eqb Bool.eqb].
  setoid_rewrite defined_decided. split.
  - intros [i [[F _]|(pre & e & post & s1 & E & P & [[_ H]|(s2 & F & _)])]]; [discriminate| |discriminate]. eauto 10.
  - intros (pre & e & post & s1 & E & P & H). exists defaultInfo. right. exists pre, e, post, s1. auto.
Qed.
(** ... undecided if the first argument that is not available is undecided *)
Theorem C51_defined_pending : forall args b l s s',
  pends b l (call "defined" args) s s' <->
  exists pre e post s1 s2, args = pre ++ e :: post /\ each (available b) pre s s1 /\ pends b true e s1 s2 /\ each (anyhow b) post s2 s'.
Proof.
  intros. unfold pends at 1. setoid_rewrite call_intrinsic; [|now left]. cbn [evalIntrinsic String.eqb Ascii.eqb Bool.eqb].
  setoid_rewrite defined_decided. split.
  - intros (x & i & [[F _]|(pre & e & post & s1 & E & P & [[F H]|(s2 & F & H)])]); try discriminate. exists pre, e, post, s1, s2. intuition.
  - intros (pre & e & post & s1 & s2 & E & P & H). do 2 eexists. right. exists pre, e, post, s1. split; [exact E|]. split; [exact P|]. right. exists s2. split; [reflexivity|exact H].
Qed.
(** it never fails *)
Theorem C51_defined_total : forall args b l s v i s', ~ evaluates (call "defined" args) b l s (v, i, false) s'.
Proof.
  intros args b l s v i s' H. apply call_intrinsic in H; [|now left]. cbn [evalIntrinsic String.eqb Ascii.eqb Bool.eqb] in H.
  apply defined_decided in H. destruct H as [[F _]|(pre & e & post & s1 & _ & _ & [[F _]|(s2 & F & _)])]; discriminate.
Qed.

(** ** valid *)
(** all arguments have a value, one of them is nil *)
Definition someNil (b : binding) (es : list expr) (s s' : ST) : Prop :=
  exists pre e post s1 s2, es = pre ++ e :: post /\ each (valued b) pre s s1 /\ isNil b e s1 s2 /\ each (valued b) post s2 s'.
Lemma valid_step : forall self e es b res vl s r s',
  runs (fun f => validLoop ST (evalF f) self (e :: es) b res vl) s r s' <->
  exists s1,
    (nonNil b e s s1 /\ runs (fun f => validLoop ST (evalF f) self es b res vl) s1 r s') \/
    (isNil b e s s1 /\ runs (fun f => validLoop ST (evalF f) self es b res false) s1 r s') \/
    (pends b true e s s1 /\ runs (fun f => validLoop ST (evalF f) self es b false false) s1 r s') \/
    ((exists i, failing b true e s i s1) /\ res = true /\ r = (VBool false, defaultInfo, true) /\ s' = s1) \/
    ((exists i, failing b true e s i s1) /\ res = false /\ runs (fun f => validLoop ST (evalF f) self es b res false) s1 r s').
Proof.
  intros. cbn [validLoop]. rewrite runs_pushk.
  2:{ intros [i|v i|x i].
      - destruct res; [apply incr_const|]. intros f f' L. apply validLoop_le. intros. now apply evalF_le.
      - intros f f' L. apply validLoop_le. intros. now apply evalF_le.
      - intros f f' L. apply validLoop_le. intros. now apply evalF_le. }
  split; intros (s1 & H); exists s1.
  - destruct H as [(v & ie & G & K)|[(x & ie & H & K)|(v & ie & H & K)]].
    + assert (D : v = VNil \/ v <> VNil) by (destruct v; [left; reflexivity|right; discriminate..]).
      destruct D as [->|D].
      * right. left. rewrite Bool.andb_false_r in K. split; [eexists; exact G|exact K].
      * left. split; [exists v, ie; auto|].
        replace (vl && match v with VNil => false | _ => true end) with vl in K; [exact K|].
        destruct v; try now rewrite Bool.andb_true_r. now destruct D.
    + right. right. left. split; [exists x, ie; exact H|exact K].
    + right. right. right. destruct res; [left|right].
      * apply runs_ret in K. destruct K as [-> ->]. split; [exists ie, v; exact H|auto].
      * split; [exists ie, v; exact H|auto].
  - destruct H as [((v & i & G & U) & K)|[((i & G) & K)|[((x & i & H) & K)|[((i & v & H) & -> & -> & ->)|((i & v & H) & -> & K)]]]].
    + left. exists v, i. split; [exact G|]. cbn [ji].
      replace (vl && match v with VNil => false | _ => true end) with vl; [exact K|].
      destruct v; try now rewrite Bool.andb_true_r. now destruct U.
    + left. exists VNil, i. split; [exact G|]. rewrite Bool.andb_false_r. exact K.
    + right. left. exists x, i. split; [exact H|exact K].
    + right. right. exists v, i. split; [exact H|]. apply runs_ret. now split.
    + right. right. exists v, i. split; [exact H|exact K].
Qed.
Lemma nonNil_valued : forall b e s s', nonNil b e s s' -> valued b e s s'.
Proof. intros b e s s' (v & i & G & _). exists v, i. exact G. Qed.
Lemma isNil_valued : forall b e s s', isNil b e s s' -> valued b e s s'.
Proof. intros b e s s' (i & G). exists VNil, i. exact G. Qed.
Lemma valued_cases : forall b e s s', valued b e s s' -> nonNil b e s s' \/ isNil b e s s'.
Proof.
  intros b e s s' (v & i & G). destruct v; try (left; eexists; exists i; split; [exact G|discriminate]).
  right. exists i. exact G.
Qed.
Lemma valued_anyhow : forall b e s s', valued b e s s' -> anyhow b e s s'.
Proof. intros b e s s' (v & i & [H _]). eexists; exact H. Qed.
Lemma anyhow_cases' : forall b e s s', anyhow b e s s' -> valued b e s s' \/ pends b true e s s' \/ (exists i, failing b true e s i s').
Proof.
  intros b e s s' H. apply anyhow_cases in H. destruct H as [(v & i & G & _)|[H|[H|(v & i & G & _)]]]; auto; left; exists v, i; auto.
Qed.
Lemma each_imp : forall {X} (P Q : expr -> X -> X -> Prop), (forall e s s', P e s s' -> Q e s s') ->
  forall es s s', each P es s s' -> each Q es s s'.
Proof. intros X P Q I es s s' H. induction H; econstructor; eauto. Qed.
Lemma valid_undecided : forall self b es vl s r s',
  runs (fun f => validLoop ST (evalF f) self es b false vl) s r s' <->
  r = (VExpr self, defaultInfo, true) /\ each (anyhow b) es s s'.
Proof.
  intros self b. induction es as [|e es IH]; intros vl s r s'.
  - cbn [validLoop]. unfold keep. rewrite runs_ret. split.
    + intros [-> ->]. split; [reflexivity|constructor].
    + intros [-> H]. inversion H. auto.
  - rewrite valid_step. split.
    + intros (s1 & [(A & K)|[(A & K)|[(A & K)|[(_ & F & _)|((i & v & A) & _ & K)]]]]); [| | |discriminate|]; apply IH in K; destruct K as [-> K];
        (split; [reflexivity|econstructor; [|exact K]]); auto using valued_anyhow, nonNil_valued, isNil_valued, pends_anyhow.
      exists (v, i, false). exact A.
    + intros [-> H]. apply each_cons in H. destruct H as (s1 & A0 & H). exists s1.
      assert (K := fun vl => proj2 (IH vl s1 _ s') (conj eq_refl H)).
      destruct (anyhow_cases' _ _ _ _ A0) as [A|[A|A]]; [apply valued_cases in A; destruct A as [A|A]| |]; auto 10.
Qed.
Lemma valid_decided : forall self b es vl s r s',
  runs (fun f => validLoop ST (evalF f) self es b true vl) s r s' <->
  (r = (VBool vl, defaultInfo, true) /\ each (nonNil b) es s s') \/
  (r = (VBool false, defaultInfo, true) /\ someNil b es s s') \/
  (exists pre e post s1, es = pre ++ e :: post /\ each (valued b) pre s s1 /\
     ((r = (VBool false, defaultInfo, true) /\ exists i, failing b true e s1 i s') \/
      (exists s2, r = (VExpr self, defaultInfo, true) /\ pends b true e s1 s2 /\ each (anyhow b) post s2 s'))).
Proof.
  intros self b. induction es as [|e es IH]; intros vl s r s'.
  - cbn [validLoop]. unfold done. rewrite runs_ret. split.
    + intros [-> ->]. left. split; [reflexivity|constructor].
    + intros [[-> H]|[[_ (pre & e & post & s1 & s2 & E & _)]|(pre & e & post & s1 & E & _)]]; [inversion H; auto|destruct pre; discriminate..].
  - rewrite valid_step. split.
    + intros (s1 & [(A & K)|[(A & K)|[(A & K)|[(A & _ & -> & ->)|(_ & F & _)]]]]); [| | | |discriminate].
      * apply IH in K. destruct K as [[-> K]|[[-> (pre & e' & post & s2 & s3 & -> & P & K)]|(pre & e' & post & s2 & -> & P & K)]].
        -- left. split; [reflexivity|econstructor; eauto].
        -- right. left. split; [reflexivity|]. exists (e :: pre), e', post, s2, s3. split; [reflexivity|].
           split; [econstructor; eauto using nonNil_valued|exact K].
        -- right. right. exists (e :: pre), e', post, s2. split; [reflexivity|]. split; [econstructor; eauto using nonNil_valued|exact K].
      * apply IH in K. destruct K as [[-> K]|[[-> (pre & e' & post & s2 & s3 & -> & P & K)]|(pre & e' & post & s2 & -> & P & K)]].
        -- right. left. split; [reflexivity|]. exists [], e, es, s, s1. split; [reflexivity|]. split; [constructor|]. split; [exact A|].
           eapply each_imp; [|exact K]. auto using nonNil_valued.
        -- right. left. split; [reflexivity|]. exists (e :: pre), e', post, s2, s3. split; [reflexivity|].
           split; [econstructor; eauto using isNil_valued|exact K].
        -- right. right. exists (e :: pre), e', post, s2. split; [reflexivity|]. split; [econstructor; eauto using isNil_valued|exact K].
      * apply valid_undecided in K. destruct K as [-> K]. right. right. exists [], e, es, s.
        split; [reflexivity|]. split; [constructor|]. right. exists s1. auto.
      * right. right. exists [], e, es, s. split; [reflexivity|]. split; [constructor|]. left. auto.
    + intros [[-> H]|[[-> (pre & e' & post & s2 & s3 & E & P & N & Q)]|(pre & e' & post & s2 & E & P & K)]].
      * apply each_cons in H. destruct H as (s1 & A0 & H). exists s1. left. split; [exact A0|]. apply IH. left. auto.
      * destruct pre as [|e0 pre]; inversion E; subst.
        -- inversion P; subst. exists s3. right. left. split; [exact N|]. apply IH.
           assert (D : each (nonNil b) post s3 s' \/ someNil b post s3 s').
           { clear - Q. induction Q as [s|e es s s1 s2 H Q IH]; [left; constructor|].
             destruct IH as [IH|(pre & e0 & post & t1 & t2 & -> & P & N & Q')].
             - apply valued_cases in H. destruct H as [H|H]; [left; econstructor; eauto|].
               right. exists [], e, es, s, s1. split; [reflexivity|]. split; [constructor|]. split; assumption.
             - right. exists (e :: pre), e0, post, t1, t2. split; [reflexivity|]. split; [econstructor; eauto|]. split; assumption. }
           destruct D; auto.
        -- apply each_cons in P. destruct P as (s1 & A0 & P). exists s1.
           assert (G : forall vl, runs (fun f => validLoop ST (evalF f) self (pre ++ e' :: post) b true vl) s1 (VBool false, defaultInfo, true) s').
           { intro vl'. apply IH. right. left. split; [reflexivity|]. exists pre, e', post, s2, s3. auto. }
           apply valued_cases in A0. destruct A0 as [A0|A0]; auto.
      * destruct pre as [|e0 pre]; inversion E; subst.
        -- inversion P; subst. destruct K as [[-> K]|(s3 & -> & K & A)].
           ++ exists s'. right. right. right. left. auto.
           ++ exists s3. right. right. left. split; [exact K|]. apply valid_undecided. auto.
        -- apply each_cons in P. destruct P as (s1 & A0 & P). exists s1.
           assert (G : forall vl, runs (fun f => validLoop ST (evalF f) self (pre ++ e' :: post) b true vl) s1 r s').
           { intro vl'. apply IH. right. right. exists pre, e', post, s2. auto. }
           apply valued_cases in A0. destruct A0 as [A0|A0]; auto.
Qed.
(** valid(...) is true if all arguments have a value other than nil *)
Theorem C51_valid_true : forall args b l s s',
  (exists i, evaluates (call "valid" args) b l s (VBool true, i, true) s') <-> each (nonNil b) args s s'.
Proof.
  intros. setoid_rewrite call_intrinsic; [|cbn; tauto]. cbn [evalIntrinsic String.eqb Ascii.eqb Bool.eqb].
  setoid_rewrite valid_decided. split.
  - intros [i [[_ H]|[[F _]|(pre & e & post & s1 & _ & _ & [[F _]|(s2 & F & _)])]]]; [exact H|discriminate..].
  - intro H. exists defaultInfo. left. auto.
Qed.
(** ... false if all have a value and one is nil, or one fails after decided ones *)
Theorem C51_valid_false : forall args b l s s',
  (exists i, evaluates (call "valid" args) b l s (VBool false, i, true) s') <->
  someNil b args s s' \/
  exists pre e post s1, args = pre ++ e :: post /\ each (valued b) pre s s1 /\ exists i, failing b true e s1 i s'.
Proof.
  intros. setoid_rewrite call_intrinsic; [|cbn; tauto]. cbn [evalIntrinsic String.eqb Ascii.eqb Bool.eqb].
  setoid_rewrite valid_decided. split.
  - intros [i [[F _]|[[_ H]|(pre & e & post & s1 & E & P & [[_ H]|(s2 & F & _)])]]]; [discriminate|left; exact H|right|discriminate].
    exists pre, e, post, s1. auto.
  - intros [H|(pre & e & post & s1 & E & P & H)]; exists defaultInfo; right; [left; auto|right]. exists pre, e, post, s1. auto.
Qed.
Theorem C51_valid_pending : forall args b l s s',
  pends b l (call "valid" args) s s' <->
  exists pre e post s1 s2, args = pre ++ e :: post /\ each (valued b) pre s s1 /\ pends b true e s1 s2 /\ each (anyhow b) post s2 s'.
Proof.
  intros. unfold pends at 1. setoid_rewrite call_intrinsic; [|cbn; tauto]. cbn [evalIntrinsic String.eqb Ascii.eqb Bool.eqb].
  setoid_rewrite valid_decided. split.
  - intros (x & i & [[F _]|[[F _]|(pre & e & post & s1 & E & P & [[F H]|(s2 & F & H)])]]); try discriminate. exists pre, e, post, s1, s2. intuition.
  - intros (pre & e & post & s1 & s2 & E & P & H). do 2 eexists. right. right. exists pre, e, post, s1. split; [exact E|]. split; [exact P|]. right. exists s2. split; [reflexivity|exact H].
Qed.
Theorem C51_valid_total : forall args b l s v i s', ~ evaluates (call "valid" args) b l s (v, i, false) s'.
Proof.
  intros args b l s v i s' H. apply call_intrinsic in H; [|cbn; tauto]. cbn [evalIntrinsic String.eqb Ascii.eqb Bool.eqb] in H.
  apply valid_decided in H. destruct H as [[F _]|[[F _]|(pre & e & post & s1 & _ & _ & [[F _]|(s2 & F & _)])]]; discriminate.
Qed.

(** ** require *)
Lemma require_runs : forall a b l s r s',
  evaluates (call "require" [a]) b l s r s' <->
  (exists v i, gives b true a s v i s' /\ v <> VNil /\ r = (v, defaultInfo, true)) \/
  (pends b true a s s' /\ r = (VExpr (call "require" [a]), defaultInfo, true)) \/
  ((isNil b a s s' \/ exists i, failing b true a s i s') /\
   r = (VNil, setError "required expression undefined" defaultInfo, false)).
Proof.
  intros. rewrite call_intrinsic by (cbn; tauto). cbn [evalIntrinsic String.eqb Ascii.eqb Bool.eqb evalRequire].
  rewrite runs_pushk. 2:{ intros [i|v i|x i]; [|destruct v|]; apply incr_const. }
  split.
  - intros (s1 & [(v & ie & G & K)|[(x & ie & H & K)|(v & ie & H & K)]]).
    + destruct v; apply runs_ret in K; destruct K as [-> ->];
        try (left; eexists; exists ie; split; [exact G|]; split; [discriminate|reflexivity]).
      right. right. split; [left; exists ie; exact G|reflexivity].
    + apply runs_ret in K. destruct K as [-> ->]. right. left. split; [exists x, ie; exact H|reflexivity].
    + apply runs_ret in K. destruct K as [-> ->]. right. right. split; [right; exists ie, v; exact H|reflexivity].
  - intros [(v & i & G & D & ->)|[((x & i & H) & ->)|([(i & G)|(i & v & H)] & ->)]]; exists s'.
    + left. exists v, i. split; [exact G|]. destruct v; try (now destruct D); apply runs_ret; auto.
    + right. left. exists x, i. split; [exact H|]. apply runs_ret. auto.
    + left. exists VNil, i. split; [exact G|]. apply runs_ret. auto.
    + right. right. exists v, i. split; [exact H|]. apply runs_ret. auto.
Qed.
(** require(x) has the value of x unless this is nil, fails for nil or a failure, and
    waits for x *)
Theorem C51_require : forall a b l s s',
  (forall v, (exists i, gives b l (call "require" [a]) s v i s') <-> v <> VNil /\ exists i, gives b true a s v i s') /\
  ((exists i, failing b l (call "require" [a]) s i s') <-> isNil b a s s' \/ exists i, failing b true a s i s') /\
  (pends b l (call "require" [a]) s s' <-> pends b true a s s').
Proof.
  intros. unfold gives at 1, failing at 1, pends at 1. split; [intro v|]; [|split]; setoid_rewrite require_runs; split.
  - intros (i & [(w & iw & G & D & E)|[(_ & E)|(_ & E)]] & V); inversion E; subst; [eauto|now destruct (V (call "require" [a]))].
  - intros (D & i & G). exists defaultInfo. split; [left; exists v, i; auto|apply G].
  - intros (i & v & [(w & iw & G & D & E)|[(_ & E)|(H & E)]]); inversion E; subst; exact H.
  - intro H. eexists. eexists. right. right. split; [exact H|reflexivity].
  - intros (x & i & [(w & iw & [G V] & D & E)|[(H & E)|(_ & E)]]); inversion E; subst; [now destruct (V x)|exact H].
  - intro H. eexists. eexists. right. left. split; [exact H|reflexivity].
Qed.

(** ** optional *)
Lemma optional_runs : forall c t b l s r s',
  evaluates (call "optional" [c; t]) b l s r s' <->
  exists s1, 
  (exists v i, gives b false c s v i s1 /\
     (((f_undefined (join defaultInfo i) = true \/ falsy v) /\ r = (VNil, setUndef true defaultInfo, true) /\ s' = s1) \/
      (f_undefined (join defaultInfo i) = false /\ ~ falsy v /\
       exists w iw ok, evaluates t b false s1 (w, iw, ok) s' /\ r = (w, join iw (join defaultInfo i), ok)))) \/
  (exists x i, evaluates c b false s (VExpr x, i, true) s1 /\ r = (VExpr (call "optional" [keepArg x c; t]), join defaultInfo i, true) /\ s' = s1) \/
  (exists i, failing b false c s i s1) /\ r = (VNil, setUndef true defaultInfo, true) /\ s' = s1.
Proof.
  intros. rewrite call_intrinsic by (cbn; tauto). cbn [evalIntrinsic String.eqb Ascii.eqb Bool.eqb evalOptional].
  assert (IT : incr (fun f => evalF f t b false)) by (intros f f' L; now apply evalF_le).
  rewrite runs_pushk.
  2:{ intros [i|v i|x i]; try apply incr_const. destruct (f_undefined i || negb (toBool v)); [apply incr_const|].
      apply incr_bind; [exact IT|]. intros [[w iw] ok]. apply incr_const. }
  split; intros (s1 & H); exists s1.
  - destruct H as [(v & ie & G & K)|[(x & ie & H & K)|(v & ie & H & K)]]; cbn [ji] in K.
    + left. exists v, ie. split; [exact G|].
      destruct (f_undefined (join defaultInfo ie)) eqn:U; cbn [orb] in K; [left; apply runs_ret in K; destruct K as [-> ->]; auto|].
      destruct (toBool v) eqn:T; cbn [negb] in K.
      * right. split; [reflexivity|]. split; [intro F; apply PropCond.toBool_falsy in F; congruence|].
        apply runs_bind in K; [|exact IT|intros [[w iw] ok]; apply incr_const].
        destruct K as ([[w iw] ok] & s2 & K1 & K2). apply runs_ret in K2. destruct K2 as [-> ->]. exists w, iw, ok. split; [exact K1|reflexivity].
      * left. apply PropCond.toBool_falsy in T. apply runs_ret in K. destruct K as [-> ->]. auto.
    + right. left. apply runs_ret in K. destruct K as [-> ->]. exists x, ie. split; [exact H|auto].
    + right. right. apply runs_ret in K. destruct K as [-> ->]. split; [exists ie, v; exact H|auto].
  - destruct H as [(v & i & G & [(U & -> & ->)|(U & T & w & iw & ok & K & ->)])|[(x & i & H & -> & ->)|((i & v & H) & -> & ->)]].
    + left. exists v, i. split; [exact G|]. cbn [ji].
      replace (f_undefined (join defaultInfo i) || negb (toBool v)) with true; [apply runs_ret; auto|].
      destruct U as [U|U]; [now rewrite U|]. apply PropCond.toBool_falsy in U. rewrite U. now rewrite Bool.orb_true_r.
    + left. exists v, i. split; [exact G|]. cbn [ji]. rewrite U, (PropCond.toBool_truthy _ T). cbn [negb orb].
      apply runs_bind; [exact IT|intros [[? ?] ?]; apply incr_const|]. exists (w, iw, ok), s'. split; [exact K|]. apply runs_ret. auto.
    + right. left. exists x, i. split; [exact H|]. apply runs_ret. auto.
    + right. right. exists v, i. split; [exact H|]. apply runs_ret. auto.
Qed.
(** optional(c, x): if c fails, is undefined or false the result is undefined and x is
    not evaluated *)
Theorem C51_optional_no : forall c t b l s s1,
  ((exists i, failing b false c s i s1) \/ exists v i, gives b false c s v i s1 /\ (f_undefined i = true \/ falsy v)) ->
  forall r s', evaluates (call "optional" [c; t]) b l s r s' <-> s' = s1 /\ r = (VNil, setUndef true defaultInfo, true).
Proof.
  intros c t b l s s1 H r s'. rewrite optional_runs. split.
  - intros (s2 & [(v & i & G & K)|[(x & i & G & _)|((i & v & G) & -> & ->)]]).
    + destruct H as [(i' & v' & H)|(v' & i' & G' & U)].
      * destruct (evaluates_fun _ _ SW _ _ _ _ _ _ _ _ H (proj1 G)) as [E _]. discriminate.
      * destruct (evaluates_fun _ _ SW _ _ _ _ _ _ _ _ (proj1 G') (proj1 G)) as [E ->]. inversion E; subst v' i'.
        destruct K as [(_ & -> & ->)|(U' & T & _)]; [auto|]. destruct U as [U|U]; [|contradiction].
        exfalso. revert U'. unfold join. cbn. rewrite U. now rewrite ?Bool.orb_true_r.
    + destruct H as [(i' & v' & H)|(v' & i' & [G' V] & U)].
      * destruct (evaluates_fun _ _ SW _ _ _ _ _ _ _ _ H G) as [E _]. discriminate.
      * destruct (evaluates_fun _ _ SW _ _ _ _ _ _ _ _ G' G) as [E _]. inversion E; subst. now destruct (V x).
    + destruct H as [(i' & v' & H)|(v' & i' & [G' V] & U)].
      * destruct (evaluates_fun _ _ SW _ _ _ _ _ _ _ _ H G) as [_ E]. auto.
      * destruct (evaluates_fun _ _ SW _ _ _ _ _ _ _ _ G' G) as [E _]. discriminate.
  - intros [-> ->]. exists s1. destruct H as [H|(v & i & G & U)]; [right; right; auto|].
    left. exists v, i. split; [exact G|]. left. split; [|auto]. destruct U as [U|U]; [left|right; exact U].
    unfold join. cbn. rewrite U. now rewrite ?Bool.orb_true_r.
Qed.
(** ... if c is true it is the result of x *)
Theorem C51_optional_yes : forall c t b l s v i s1,
  gives b false c s v i s1 -> f_undefined i = false -> ~ falsy v ->
  forall r s', evaluates (call "optional" [c; t]) b l s r s' <->
    exists w iw ok, evaluates t b false s1 (w, iw, ok) s' /\ r = (w, join iw (join defaultInfo i), ok).
Proof.
  intros c t b l s v i s1 G U T r s'. rewrite optional_runs.
  assert (U' : f_undefined (join defaultInfo i) = false) by (unfold join; cbn; now rewrite U).
  split.
  - intros (s2 & [(v' & i' & G' & K)|[(x & i' & G' & _)|((i' & v' & G') & -> & ->)]]).
    + destruct (evaluates_fun _ _ SW _ _ _ _ _ _ _ _ (proj1 G) (proj1 G')) as [E ->]. inversion E; subst v' i'.
      destruct K as [([K|K] & _)|(_ & _ & K)]; [congruence|contradiction|exact K].
    + destruct (evaluates_fun _ _ SW _ _ _ _ _ _ _ _ (proj1 G) G') as [E _]. inversion E; subst. now destruct (proj2 G x).
    + destruct (evaluates_fun _ _ SW _ _ _ _ _ _ _ _ (proj1 G) G') as [E _]. discriminate.
  - intro K. exists s1. left. exists v, i. split; [exact G|]. right. auto.
Qed.
(** ... and it waits for c *)
Theorem C51_optional_pending : forall c t b l s s1, pends b false c s s1 ->
  pends b l (call "optional" [c; t]) s s1 /\
  forall r s', evaluates (call "optional" [c; t]) b l s r s' -> s' = s1 /\ exists c' i, r = (VExpr (call "optional" [c'; t]), i, true).
Proof.
  intros c t b l s s1 (x & i & H). split.
  - do 2 eexists. apply optional_runs. exists s1. right. left. exists x, i. eauto.
  - intros r s' K. apply optional_runs in K.
    destruct K as (s2 & [(v & i' & [G V] & K)|[(x' & i' & G & -> & ->)|((i' & v & G) & -> & ->)]]);
      destruct (evaluates_fun _ _ SW _ _ _ _ _ _ _ _ H G) as [E ->]; inversion E; subst; [now destruct (V x)|].
    split; [reflexivity|]. eauto.
Qed.

(** ** catch *)
(** the report of catch *)
Definition reportValue (v : value) (so : string) : value :=
  VMap [("error", dnode (VStr "") so); ("valid", dnode (VBool true) so); ("value", dnode v so)].
Definition reportError (text : string) (so : string) : value :=
  VMap [("error", dnode (VStr text) so); ("valid", dnode (VBool false) so)].
(** catch(x) is decided in a later round: it is the expression that reports *)
Theorem C51_catch_call : forall a b l s r s',
  evaluates (call "catch" [a]) b l s r s' <-> r = (VExpr (ECatch a EDefault), defaultInfo, true) /\ s' = s.
Proof.
  intros. rewrite call_intrinsic by (cbn; tauto). cbn [evalIntrinsic String.eqb Ascii.eqb Bool.eqb evalCatchCall].
  apply runs_ret.
Qed.
(** it never fails: a failure becomes a report with the text of the failure, a value
    one with the value *)
Theorem C51_catch : forall a b l s r s',
  evaluates (ECatch a EDefault) b l s r s' <->
  (exists v i, gives b false a s v i s' /\ r = (reportValue v (b_source b), defaultInfo, true)) \/
  (exists i, failing b false a s i s' /\ r = (reportError (i_text (f_issue i)) (b_source b), defaultInfo, true)) \/
  (exists x i, evaluates a b false s (VExpr x, i, true) s' /\ r = (VExpr (ECatch (keepArg x a) EDefault), i, true)).
Proof.
  intros. rewrite evaluates_runs. unfold stepE, eval1, evalCatch.
  rewrite runs_pushk. 2:{ intros [i|v i|x i]; apply incr_const. }
  split.
  - intros (s1 & [(v & ie & G & K)|[(x & ie & H & K)|(v & ie & H & K)]]); apply runs_ret in K; destruct K as [-> ->].
    + left. exists v, ie. split; [exact G|reflexivity].
    + right. right. exists x, ie. auto.
    + right. left. exists ie. split; [exists v; exact H|reflexivity].
  - intros [(v & i & G & ->)|[(i & (v & H) & ->)|(x & i & H & ->)]]; exists s'.
    + left. exists v, i. split; [exact G|]. now apply runs_ret.
    + right. right. exists v, i. split; [exact H|]. now apply runs_ret.
    + right. left. exists x, i. split; [exact H|]. now apply runs_ret.
Qed.
(** with a lambda: it gets the value or the text of the failure *)
Definition firstArgs (n : nat) (v err : value) (args : list value) : Prop :=
  (n = 1%nat /\ args = [v]) \/ (n = 2%nat /\ args = [v; err]).
Definition caught (b : binding) (a : expr) (s : ST) (v err : value) (s' : ST) : Prop :=
  (exists i, gives b false a s v i s' /\ err = VNil) \/
  (exists i, failing b false a s i s' /\ v = VNil /\ err = VStr (i_text (f_issue i))).
Lemma catch_lambda : forall a lx b l s lm lv il s1 v err s2 args,
  lx <> EDefault -> gives b false lx s lv il s1 -> lamOf lv = Some lm -> caught b a s1 v err s2 ->
  firstArgs (length (l_ps lm)) v err args ->
  exists f0 ii, forall f, (f0 <= f)%nat ->
    evalF (S f) (ECatch a lx) b l s =
    bind ST (lambdaEval ST (evalF f) lm (isInline lx) false false [] args b false)
      (fun x => let '(res, (w, i, ok)) := x in
                if negb ok then failI ST i else if negb res || isExpr w then keep ST (ECatch a lx) i else done ST w i) s2
    /\ ii = il.
Proof.
  intros a lx b l s lm lv il s1 v err s2 args D [[f1 E1] V1] L C A.
  assert (N : exists n, length (l_ps lm) = S n /\ (2 <? length (l_ps lm))%nat = false /\ firstn (length (l_ps lm)) [v; err] = args).
  { destruct A as [[-> ->]|[-> ->]]; [exists 0%nat|exists 1%nat]; auto. }
  destruct N as (n & N1 & N2 & N3).
  assert (P : exists f2 p, (forall f, (f2 <= f)%nat -> resolvePush ST (evalF f) a None b false s1 = Ret p s2) /\
    match p with PVal v _ => v | _ => VNil end = v /\ match p with PFail ie => VStr (i_text (f_issue ie)) | _ => VNil end = err /\ match p with PExpr _ _ => False | _ => True end).
  { destruct C as [(i & [[f2 E2] V2] & ->)|(i & (w & [f2 E2]) & -> & ->)]; exists f2.
    - exists (PVal v i). split; [|auto]. intros f F. unfold resolvePush, bind.
      rewrite (le_ret _ _ _ _ _ _ (evalF_le _ _ SW f2 f F _ _ _) E2). unfold ret. destruct v; try reflexivity. now destruct (V2 e).
    - exists (PFail i). split; [|auto]. intros f F. unfold resolvePush, bind.
      now rewrite (le_ret _ _ _ _ _ _ (evalF_le _ _ SW f2 f F _ _ _) E2). }
  destruct P as (f2 & p & P & Pv & Pe & Px).
  exists (Nat.max f1 f2), il. intros f F. split; [|reflexivity].
  change (evalF (S f)) with (stepE ST W f). unfold stepE, eval1, evalCatch.
  assert (Q : resolvePush ST (evalF f) lx None b false s = Ret (PVal lv il) s1).
  { unfold resolvePush, bind. rewrite (le_ret _ _ _ _ _ _ (evalF_le _ _ SW f1 f ltac:(lia) _ _ _) E1). unfold ret.
    destruct lv; try reflexivity. now destruct (V1 e). }
  assert (T : forall m, match lx with EDefault => m | _ => (bind ST (resolvePush ST (evalF f) lx None b false) (fun q =>
      match q with
      | PFail i => failI ST i
      | PExpr lx' i => keep ST (ECatch a lx') (join i i)
      | PVal lv i =>
          match lamOf lv with
          | None => fail ST "catch requires a lambda value" i
          | Some lm =>
              let np := length (l_ps lm) in
              if (2 <? np)%nat then fail ST "catch function takes a maximum of 2 arguments" i
              else
                bind ST (resolvePush ST (evalF f) a None b false) (fun p =>
                match p with
                | PExpr a' ie => keep ST (ECatch a' lx) ie
                | PFail _ | PVal _ _ =>
                    let v := match p with PVal v _ => v | _ => VNil end in
                    let err := match p with PFail ie => VStr (i_text (f_issue ie)) | _ => VNil end in
                    match np with
                    | O => panic ST
                    | _ =>
                        bind ST (lambdaEval ST (evalF f) lm (isInline lx) false false [] (firstn np [v; err]) b false) (fun x =>
                        let '(res, (w, i, ok)) := x in
                        if negb ok then failI ST i
                        else if negb res || isExpr w then keep ST (ECatch a lx) i
                        else done ST w i)
                    end
                end)
          end
      end)) end s = bind ST (lambdaEval ST (evalF f) lm (isInline lx) false false [] args b false)
      (fun x => let '(res, (w, i, ok)) := x in
                if negb ok then failI ST i else if negb res || isExpr w then keep ST (ECatch a lx) i else done ST w i) s2).
  { intro m.
    assert (Z : forall m m' : M ST R, lx <> EDefault -> (match lx with EDefault => m | _ => m' end) = m') by (intros; destruct lx; try reflexivity; contradiction).
    rewrite Z by exact D. unfold bind at 1. rewrite Q. rewrite L. cbv zeta. rewrite N2. unfold bind at 1. rewrite (P f) by lia.
    rewrite Pv, Pe, N3. rewrite N1. destruct p; [reflexivity|reflexivity|contradiction]. }
  etransitivity; [|apply (T (bind ST (resolvePush ST (evalF f) a None b false) (fun p =>
      match p with
      | PExpr a' i => keep ST (ECatch a' lx) i
      | PFail i => done ST (VMap (mof [("valid", dnode (VBool false) (b_source b)); ("error", dnode (VStr (i_text (f_issue i))) (b_source b))])) defaultInfo
      | PVal v _ => done ST (VMap (mof [("valid", dnode (VBool true) (b_source b)); ("error", dnode (VStr "") (b_source b)); ("value", dnode v (b_source b))])) defaultInfo
      end)))].
  destruct lx; reflexivity.
Qed.
(** the result of the lambda is the result; its failure is a failure; it may wait *)
Theorem C51_catch_lambda : forall a lx b l s lv lm il s1 v err s2 args,
  lx <> EDefault -> gives b false lx s lv il s1 -> lamOf lv = Some lm -> caught b a s1 v err s2 ->
  firstArgs (length (l_ps lm)) v err args ->
  (forall r s3, PropAgg.answers ST W lm (isInline lx) b args s2 r s3 -> evaluates (ECatch a lx) b l s (fst r, snd r, true) s3) /\
  (forall s3, PropAgg.waits ST W lm (isInline lx) b args s2 s3 -> pends b l (ECatch a lx) s s3) /\
  (forall s3, PropAgg.fails ST W lm (isInline lx) b args s2 s3 -> exists i, failing b l (ECatch a lx) s i s3).
Proof.
  intros a lx b l s lv lm il s1 v err s2 args D G L C A.
  destruct (catch_lambda _ _ _ l _ _ _ _ _ _ _ _ _ D G L C A) as (f0 & ii & H). split; [|split].
  - intros [w i] s3 K. pose proof K as (_ & _ & _ & V). destruct (PropAgg.answers_eval _ _ SW _ _ _ _ _ _ _ K) as [f1 E].
    exists (S (Nat.max f0 f1)). rewrite (proj1 (H _ (Nat.le_max_l f0 f1))). unfold bind. rewrite (E _ (Nat.le_max_r f0 f1)).
    cbn [fst snd negb orb] in *. destruct w; try reflexivity. now destruct (V e).
  - intros s3 K. destruct (PropAgg.waits_eval _ _ SW _ _ _ _ _ _ K) as (f1 & i & E).
    exists (ECatch a lx), i, (S (Nat.max f0 f1)). rewrite (proj1 (H _ (Nat.le_max_l f0 f1))). unfold bind. rewrite (E _ (Nat.le_max_r f0 f1)). reflexivity.
  - intros s3 K. destruct (PropAgg.fails_eval _ _ SW _ _ _ _ _ _ K) as (f1 & i & w & E).
    exists i, VNil, (S (Nat.max f0 f1)). rewrite (proj1 (H _ (Nat.le_max_l f0 f1))). unfold bind. rewrite (E _ (Nat.le_max_r f0 f1)). reflexivity.
Qed.
(** a lambda with more than two parameters is rejected before the expression is looked at *)
Theorem C51_catch_rejected : forall a lx b l s lv lm il s1,
  lx <> EDefault -> gives b false lx s lv il s1 -> lamOf lv = Some lm -> (2 < length (l_ps lm))%nat ->
  failing b l (ECatch a lx) s (setError "catch function takes a maximum of 2 arguments" il) s1.
Proof.
  intros a lx b l s lv lm il s1 D [[f E] V] L P. exists VNil. apply evaluates_step. exists f. unfold stepE, eval1, evalCatch.
  assert (Q : resolvePush ST (evalF f) lx None b false s = Ret (PVal lv il) s1).
  { unfold resolvePush, bind. rewrite E. unfold ret. destruct lv; try reflexivity. now destruct (V e). }
  apply Nat.ltb_lt in P.
  destruct lx; try contradiction; unfold bind at 1; rewrite Q, L; cbv zeta; rewrite P; reflexivity.
Qed.

(** ** stub *)
(** the first stub with a value for the path (C03) decides *)
Definition stubValue (b : binding) (path : list string) (s : ST) (r : R) (s' : ST) : Prop :=
  s' = s /\
  ((exists n, findInStubs (w_ctrl W) b path = FOk n /\ r = (val n, defaultInfo, true)) \/
   (findInStubs (w_ctrl W) b path = FNo /\ r = (VNil, setError "not found in any stub" defaultInfo, false))).
Lemma stubAt_runs : forall path b s r s',
  runs (fun _ => stubAt ST (w_ctrl W) path b) s r s' <-> stubValue b path s r s'.
Proof.
  intros. unfold stubAt, stubValue. destruct (findInStubs (w_ctrl W) b path) as [n| |].
  - unfold done. rewrite runs_ret. split; [intros [-> ->]; eauto 10|intros (-> & [(m & E & ->)|(E & _)]); inversion E; auto].
  - unfold fail. rewrite runs_ret. split; [intros [-> ->]; eauto 10|intros (-> & [(m & E & _)|(E & ->)]); inversion E; auto].
  - rewrite runs_panic. split; [tauto|intros (-> & [(m & E & _)|(E & _)]); discriminate].
Qed.
(** stub(): the path of the node; stub(a.b): this path *)
Theorem C51_stub_own : forall b l s r s',
  evaluates (call "stub" []) b l s r s' <-> stubValue b (b_path b) s r s'.
Proof.
  intros. rewrite call_intrinsic by (cbn; tauto). cbn [evalIntrinsic String.eqb Ascii.eqb Bool.eqb evalStub]. apply stubAt_runs.
Qed.
Theorem C51_stub_reference : forall tag path b l s r s',
  evaluates (call "stub" [ERef tag path]) b l s r s' <-> stubValue b path s r s'.
Proof.
  intros. rewrite call_intrinsic by (cbn; tauto). cbn [evalIntrinsic String.eqb Ascii.eqb Bool.eqb evalStub]. apply stubAt_runs.
Qed.
(** a computed path: a list of strings *)
Definition isReference (e : expr) : bool := match e with ERef _ _ => true | _ => false end.
Lemma stub_arg : forall a b l s r s', isReference a = false ->
  evaluates (call "stub" [a]) b l s r s' <->
  runs (fun f => bind ST (resolvePush ST (evalF f) a None b true) (fun p =>
      match p with
      | PExpr _ i => keep ST (call "stub" [a]) i
      | PFail i => failI ST i
      | PVal (VStr s) _ => stubAt ST (w_ctrl W) (pathComponents s true) b
      | PVal (VList l) i => match stringsOf l with
                            | Some path => stubAt ST (w_ctrl W) path b
                            | None => fail ST "stub() requires a string entries in list" i
                            end
      | PVal _ i => if f_undefined i then stubAt ST (w_ctrl W) (b_path b) b
                    else fail ST "stub() requires a string or reference argument" i
      end)) s r s'.
Proof.
  intros a b l s r s' H. rewrite call_intrinsic by (cbn; tauto). cbn [evalIntrinsic String.eqb Ascii.eqb Bool.eqb].
  apply runs_ext. intro f. destruct a; try reflexivity. discriminate.
Qed.
Lemma incr_stub : forall a b p, incr (fun _ : nat => match p with
      | PExpr _ i => keep ST (call "stub" [a]) i
      | PFail i => failI ST i
      | PVal (VStr s) _ => stubAt ST (w_ctrl W) (pathComponents s true) b
      | PVal (VList l) i => match stringsOf l with
                            | Some path => stubAt ST (w_ctrl W) path b
                            | None => fail ST "stub() requires a string entries in list" i
                            end
      | PVal _ i => if f_undefined i then stubAt ST (w_ctrl W) (b_path b) b
                    else fail ST "stub() requires a string or reference argument" i
      end).
Proof. intros. apply incr_const. Qed.
Lemma strings_stringsOf : forall path l, map val l = map VStr path -> stringsOf l = Some path.
Proof.
  induction path as [|p path IH]; intros [|n l] H; try discriminate; [reflexivity|]. cbn in *. injection H as H1 H2.
  now rewrite H1, (IH _ H2).
Qed.
Theorem C51_stub_list : forall a b l s ns path i s1, isReference a = false ->
  gives b true a s (VList ns) i s1 -> map val ns = map VStr path ->
  forall r s', evaluates (call "stub" [a]) b l s r s' <-> stubValue b path s1 r s'.
Proof.
  intros a b l s ns path i s1 R [G V] P r s'. rewrite (stub_arg _ _ _ _ _ _ R), runs_pushk by apply incr_stub.
  rewrite <- stubAt_runs. split.
  - intros (s2 & [(v & ie & [G' V'] & K)|[(x & ie & G' & K)|(v & ie & G' & K)]]);
      destruct (evaluates_fun _ _ SW _ _ _ _ _ _ _ _ G G') as [E ->]; inversion E; subst.
    now rewrite (strings_stringsOf _ _ P) in K.
  - intro K. exists s1. left. exists (VList ns), i. split; [split; assumption|]. now rewrite (strings_stringsOf _ _ P).
Qed.
Theorem C51_stub_string : forall a b l s t i s1, isReference a = false ->
  gives b true a s (VStr t) i s1 ->
  forall r s', evaluates (call "stub" [a]) b l s r s' <-> stubValue b (pathComponents t true) s1 r s'.
Proof.
  intros a b l s t i s1 R [G V] r s'. rewrite (stub_arg _ _ _ _ _ _ R), runs_pushk by apply incr_stub.
  rewrite <- stubAt_runs. split.
  - intros (s2 & [(v & ie & [G' V'] & K)|[(x & ie & G' & K)|(v & ie & G' & K)]]);
      destruct (evaluates_fun _ _ SW _ _ _ _ _ _ _ _ G G') as [E ->]; inversion E; subst.
    exact K.
  - intro K. exists s1. left. exists (VStr t), i. split; [split; assumption|]. exact K.
Qed.
Theorem C51_stub_argument_undecided : forall a b l s s1, isReference a = false ->
  (pends b true a s s1 -> pends b l (call "stub" [a]) s s1) /\
  (forall i, failing b true a s i s1 -> failing b l (call "stub" [a]) s i s1).
Proof.
  intros a b l s s1 R. split.
  - intros (x & i & H). do 2 eexists. rewrite (stub_arg _ _ _ _ _ _ R), runs_pushk by apply incr_stub.
    exists s1. right. left. exists x, i. split; [exact H|]. apply runs_ret. split; reflexivity.
  - intros i (v & H). exists VNil. rewrite (stub_arg _ _ _ _ _ _ R), runs_pushk by apply incr_stub.
    exists s1. right. right. exists v, i. split; [exact H|]. apply runs_ret. split; reflexivity.
Qed.
(** wrong numbers of arguments *)
Theorem C51_arguments : forall b l s,
  (forall args, length args <> 2%nat -> exists i, failing b l (call "optional" args) s i s) /\
  (forall args, length args <> 1%nat -> exists i, failing b l (call "require" args) s i s) /\
  (forall args, length args <> 1%nat -> exists i, failing b l (call "catch" args) s i s) /\
  (forall args, (1 < length args)%nat -> exists i, failing b l (call "stub" args) s i s).
Proof.
  intros b l s. unfold failing.
  split; [|split; [|split]]; intros args H; setoid_rewrite call_intrinsic; try (cbn; tauto);
    cbn [evalIntrinsic String.eqb Ascii.eqb Bool.eqb]; do 2 eexists.
  - destruct args as [|a [|c [|d args]]]; cbn in H; try lia; apply runs_ret; split; reflexivity.
  - destruct args as [|a [|c args]]; cbn in H; try lia; apply runs_ret; split; reflexivity.
  - destruct args as [|a [|c args]]; cbn in H; try lia; apply runs_ret; split; reflexivity.
  - destruct args as [|a [|c args]]; cbn in H; try lia.
    unfold evalStub. apply (runs_ext ST _ (fun _ => ret ST (VNil, setError "a maximum of one argument expected for 'stub'" defaultInfo, false))).
    + intro f. destruct a; reflexivity.
    + apply runs_ret. split; reflexivity.
Qed.
End C51.

(** ** Examples *)
Definition W0 := PropAgg.W0.
Notation X n := (ERef "" [n%string]).
(** x is 1, n is nil, u is not decided yet, m is nowhere *)
Definition b0 : binding := env0 [("n", nd VNil); ("u", nd (VExpr (X "z"))); ("x", nd (VInt 1))].
Definition ev (e : expr) : value :=
  match evalF _ W0 20 e b0 false st0 with Ret (v, _, true) _ => v | Ret _ _ => VStr "failed" | _ => VStr "?" end.
Example ex_defined : map ev [call "defined" [X "x"; X "n"]; call "defined" [X "x"; X "m"; X "u"]; call "defined" [X "x"; X "u"; X "m"]; call "defined" [EUndef]]
  = [VBool true; VBool false; VExpr (call "defined" [X "x"; X "u"; X "m"]); VBool false].
Proof. vm_compute. reflexivity. Qed.
Example ex_valid : map ev [call "valid" [X "x"]; call "valid" [X "x"; X "n"]; call "valid" [X "m"; X "u"]; call "valid" [X "n"; X "u"]]
  = [VBool true; VBool false; VBool false; VExpr (call "valid" [X "n"; X "u"])].
Proof. vm_compute. reflexivity. Qed.
Example ex_require : map ev [call "require" [X "x"]; call "require" [X "n"]; call "require" [X "m"]; call "require" [X "u"]]
  = [VInt 1; VStr "failed"; VStr "failed"; VExpr (call "require" [X "u"])].
Proof. vm_compute. reflexivity. Qed.
Example ex_optional : map ev [call "optional" [X "x"; EInt 7]; call "optional" [X "m"; EInt 7]; call "optional" [X "u"; EInt 7]]
  = [VInt 7; VNil; VExpr (call "optional" [X "u"; EInt 7])].
Proof. vm_compute. reflexivity. Qed.
Example ex_catch : map ev [ECatch (X "x") EDefault; ECatch (X "m") EDefault; ECatch (X "u") EDefault]
  = [reportValue (VInt 1) "template"; reportError "'m' not found" "template"; VExpr (ECatch (X "u") EDefault)].
Proof. vm_compute. reflexivity. Qed.
Example ex_catch_lambda : map (fun e => ev (ECatch e (PropAgg.lamE ["v"; "e"] (EList [X "v"; X "e"])))) [X "x"; X "m"]
  = [VList [dnode (VInt 1) "template"; dnode VNil "template"]; VList [dnode VNil "template"; dnode (VStr "'m' not found") "template"]].
Proof. vm_compute. reflexivity. Qed.
Example ex_each : each (available _ W0 b0) [X "x"; X "n"] st0 st0 /\ missing _ W0 b0 (X "m") st0 st0 /\ pends _ W0 b0 true (X "u") st0 st0.
Proof.
  split; [|split].
  - econstructor; [|econstructor; [|constructor]]; do 2 eexists; (split; [split; [exists 20%nat; vm_compute; reflexivity|intros e; discriminate]|reflexivity]).
  - left. do 2 eexists. exists 20%nat. vm_compute. reflexivity.
  - do 2 eexists. exists 20%nat. vm_compute. reflexivity.
Qed.
(** two stubs, the second one with b *)
Definition bs : binding := withPath "a" (withScope [] (newEnvironment
  [nd (VMap [("a", nd (VInt 1))]); nd (VMap [("a", nd (VInt 2)); ("b", nd (VInt 3))])] "template")).
Example ex_stub : map (fun e => match evalF _ W0 20 e bs false st0 with Ret (v, _, true) _ => v | Ret _ _ => VStr "failed" | _ => VStr "?" end)
  [call "stub" []; call "stub" [X "b"]; call "stub" [EStr "b"]; call "stub" [EList [EStr "b"]]; call "stub" [X "c"]]
  = [VInt 1; VInt 3; VInt 3; VInt 3; VStr "failed"].
Proof. vm_compute. reflexivity. Qed.

Print Assumptions C51_defined_true.
Print Assumptions C51_defined_false.
Print Assumptions C51_defined_pending.
Print Assumptions C51_defined_total.
Print Assumptions C51_valid_true.
Print Assumptions C51_valid_false.
Print Assumptions C51_valid_pending.
Print Assumptions C51_valid_total.
Print Assumptions C51_require.
Print Assumptions C51_optional_no.
Print Assumptions C51_optional_yes.
Print Assumptions C51_optional_pending.
Print Assumptions C51_catch_call.
Print Assumptions C51_catch.
Print Assumptions C51_catch_lambda.
Print Assumptions C51_catch_rejected.
Print Assumptions C51_stub_own.
Print Assumptions C51_stub_reference.
Print Assumptions C51_stub_list.
Print Assumptions C51_stub_string.
Print Assumptions C51_stub_argument_undecided.
Print Assumptions C51_arguments.
