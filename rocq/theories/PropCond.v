(** C20: conditional, default and validity operators, for every evaluator state and
    every environment; the parts are arbitrary expressions. *)
From Coq Require Import Lia.
From Verif Require Import Core Str Interp Find Cleanup Unresolved DeepEq Env Arith IP Comparison RangeSlice ListFns Flow Info Eval Control Engine EngineFacts Runs.

(** ** Specification *)
(** the values that count as false *)
Inductive falsy : value -> Prop :=
| F_nil : falsy VNil
| F_false : falsy (VBool false)
| F_empty : falsy (VStr "")
| F_zero : falsy (VInt 0)
| F_list : falsy (VList [])
| F_map : falsy (VMap []).
(** a result value, not an expression to be evaluated later *)
Definition isValue (v : value) : Prop := forall e, v <> VExpr e.
Definition delayed (v : value) : Prop := exists e, v = VExpr e.

Lemma toBool_falsy : forall v, toBool v = false <-> falsy v.
Proof.
  intro v. split.
  - destruct v; cbn; intro H; try discriminate; try constructor.
    + subst; constructor.
    + rewrite negb_false_iff, Z.eqb_eq in H. subst. constructor.
    + rewrite negb_false_iff, String.eqb_eq in H. subst. constructor.
    + destruct l; [constructor|discriminate].
    + destruct m; [constructor|discriminate].
  - now destruct 1.
Qed.
Lemma toBool_truthy : forall v, ~ falsy v -> toBool v = true.
Proof. intros v H. destruct (toBool v) eqn:E; [reflexivity|]. apply toBool_falsy in E. tauto. Qed.

Section C20.
Variable ST : Type.
Variable W : world ST.
Hypothesis SW : steadyWorld W.
Notation evaluates := (evaluates ST W).
Notation evalF := (evalF ST W).

(** the fuel does not matter: at most one result *)
Theorem C20_unique : forall e b l s r s' r' s'',
  evaluates e b l s r s' -> evaluates e b l s r' s'' -> r' = r /\ s'' = s'.
Proof. intros. eapply evaluates_fun; eauto. Qed.

(** ** c ? a : d *)
Lemma cond_runs : forall c a d b l s r s',
  evaluates (ECond c a d) b l s r s' <->
  exists v ic okc s1, evaluates c b false s (v, ic, okc) s1 /\
    ((okc = false /\ r = (VNil, join defaultInfo ic, false) /\ s' = s1) \/
     (okc = true /\ (exists x, v = VExpr x /\ r = (VExpr (ECond (keepArg x c) a d), join defaultInfo ic, true)) /\ s' = s1) \/
     (okc = true /\ isValue v /\
      exists w iw okw, evaluates (if toBool v then a else d) b false s1 (w, iw, okw) s' /\
        r = (w, join iw (join defaultInfo ic), okw))).
Proof.
  intros. rewrite evaluates_runs. unfold stepE, eval1, evalCond.
  rewrite (runs_bind ST (fun f => resolvePush ST (evalF f) c (Some defaultInfo) b false)
    (fun f p => match p with
      | PFail i => failI ST i
      | PVal v i => bind ST (if toBool v then evalF f a b false else evalF f d b false)
                      (fun r => let '(v, ic, ok) := r in ret ST (v, join ic i, ok))
      | PExpr c' i => keep ST (ECond c' a d) i end)).
  2: apply incr_push, SW.
  2: { intros [i|v i|x i]; try apply incr_const.
       apply incr_bind; [destruct (toBool v); apply incr_eval, SW|].
       intros [[w iw] ok]. apply incr_const. }
  split.
  - intros [p [s1 [H K]]]. apply runs_push in H; [|exact SW]. destruct H as [[[v ic] okc] [H ->]].
    exists v, ic, okc, s1. split; [exact H|]. unfold pushOf in K.
    destruct okc; [|left; apply runs_ret in K; destruct K as [-> ->]; auto].
    right. destruct v;
      try (right; split; [reflexivity|]; split; [intros e0; discriminate|];
           apply runs_bind in K;
             [|match goal with |- context [toBool ?v] => destruct (toBool v) end; apply incr_eval, SW
              |intros [[w iw] ok]; apply incr_const];
           destruct K as [[[w iw] ok] [s2 [K1 K2]]]; apply runs_ret in K2; destruct K2 as [-> ->];
           exists w, iw, ok; split; [|reflexivity];
           match type of K1 with context [toBool ?v] => destruct (toBool v) end; exact K1).
    left. apply runs_ret in K. destruct K as [-> ->]. split; [reflexivity|].
    split; [|reflexivity]. exists e. split; reflexivity.
  - intros [v [ic [okc [s1 [H K]]]]]. exists (pushOf c (Some defaultInfo) (v, ic, okc)), s1.
    split; [apply runs_push; [exact SW|]; exists (v, ic, okc); split; [exact H|reflexivity]|].
    destruct K as [[-> [-> ->]]|[[-> [[x [-> ->]] ->]]|[-> [V [w [iw [okw [K ->]]]]]]]].
    + apply runs_ret. split; reflexivity.
    + apply runs_ret. split; reflexivity.
    + assert (E : pushOf c (Some defaultInfo) (v, ic, true) = PVal v (join defaultInfo ic)).
      { unfold pushOf. destruct v; try reflexivity. now destruct (V e). }
      rewrite E. apply runs_bind.
      * destruct (toBool v); apply incr_eval, SW.
      * intros [[? ?] ?]. apply incr_const.
      * exists (w, iw, okw), s'. split; [destruct (toBool v); exact K|]. apply runs_ret. split; reflexivity.
Qed.

(** a true condition selects the first branch, a false one the second *)
Theorem C20_cond : forall c a d b l s v ic s1 r s2,
  evaluates c b false s (v, ic, true) s1 -> isValue v ->
  (evaluates (ECond c a d) b l s r s2 <->
   exists w iw ok, r = (w, join iw (join defaultInfo ic), ok) /\
     ((~ falsy v /\ evaluates a b false s1 (w, iw, ok) s2) \/
      (falsy v /\ evaluates d b false s1 (w, iw, ok) s2))).
Proof.
  intros c a d b l s v ic s1 r s2 H V. rewrite cond_runs. split.
  - intros [v' [ic' [okc [s1' [H' K]]]]].
    destruct (C20_unique _ _ _ _ _ _ _ _ H H') as [E ->]. inversion E; subst v' ic' okc.
    destruct K as [[F _]|[[_ [[x [F _]] _]]|[_ [_ [w [iw [okw [K ->]]]]]]]]; [discriminate|now destruct (V x)|].
    exists w, iw, okw. split; [reflexivity|].
    destruct (toBool v) eqn:T.
    + left. split; [|exact K]. intro F. apply toBool_falsy in F. congruence.
    + right. split; [|exact K]. now apply toBool_falsy.
  - intros [w [iw [ok [-> K]]]]. exists v, ic, true, s1. split; [exact H|].
    right. right. split; [reflexivity|]. split; [exact V|]. exists w, iw, ok. split; [|reflexivity].
    destruct K as [[F K]|[F K]]; [rewrite (toBool_truthy _ F)|rewrite (proj2 (toBool_falsy _) F)]; exact K.
Qed.
(** a failing condition fails, a delayed one is delayed; no branch is evaluated *)
Theorem C20_cond_undecided : forall c a d b l s v ic okc s1 r s2,
  evaluates c b false s (v, ic, okc) s1 -> okc = false \/ delayed v ->
  (evaluates (ECond c a d) b l s r s2 <->
   s2 = s1 /\ exists i, (okc = false /\ r = (VNil, i, false) \/
                         okc = true /\ exists c', r = (VExpr (ECond c' a d), i, true)) /\
                        i = join defaultInfo ic /\
                        (forall x c', v = VExpr x -> r = (VExpr (ECond c' a d), i, true) -> c' = keepArg x c)).
Proof.
  intros c a d b l s v ic okc s1 r s2 H U. rewrite cond_runs. split.
  - intros [v' [ic' [okc' [s1' [H' K]]]]].
    destruct (C20_unique _ _ _ _ _ _ _ _ H H') as [E ->]. inversion E; subst v' ic' okc'.
    destruct K as [[-> [-> ->]]|[[-> [[x [-> ->]] ->]]|[-> [V _]]]].
    + split; [reflexivity|]. exists (join defaultInfo ic). repeat split; auto. intros x c' _ F. discriminate.
    + split; [reflexivity|]. exists (join defaultInfo ic). split; [right; split; [reflexivity|eauto]|].
      split; [reflexivity|]. intros y c' F G. inversion F; subst y. inversion G. reflexivity.
    + destruct U as [U|[e ->]]; [discriminate|now destruct (V e)].
  - intros [-> [i [K [-> G]]]]. exists v, ic, okc, s1. split; [exact H|].
    destruct K as [[-> ->]|[-> [c' ->]]]; [left; auto|].
    destruct U as [U|[x ->]]; [discriminate|]. right. left. split; [reflexivity|].
    split; [|reflexivity]. exists x. split; [reflexivity|]. rewrite (G x c'); auto.
Qed.
(** the unchosen branch has no influence, not even on crashes or termination *)
Theorem C20_cond_unchosen : forall c a d x b l s v ic s1,
  evaluates c b false s (v, ic, true) s1 -> isValue v ->
  forall f, (~ falsy v -> evalF f (ECond c a d) b l s = evalF f (ECond c a x) b l s) /\
            (falsy v -> evalF f (ECond c a d) b l s = evalF f (ECond c x d) b l s).
Proof.
  intros c a d x b l s v ic s1 H V f.
  destruct f as [|f]; [split; reflexivity|].
  cbn [Engine.evalF]. unfold eval1, evalCond, resolvePush, bind.
  assert (E : evalF f c b false s = Fuel \/ evalF f c b false s = Ret (v, ic, true) s1).
  { destruct (evaluates_max _ _ SW _ _ _ _ _ _ f H) as [g [L E]].
    destruct (evalF_le _ _ SW _ _ L c b false s) as [F|F]; [now left|right]. now rewrite F. }
  destruct E as [-> | ->]; [split; reflexivity|]. unfold ret.
  split; intro F; [apply toBool_truthy in F|apply toBool_falsy in F];
    (destruct v; rewrite ?F; try reflexivity; now destruct (V e)).
Qed.

(** ** a || d *)
Theorem C20_or : forall a d b l s r s2,
  evaluates (EOr a d) b l s r s2 <->
  exists va ia oka s1, evaluates a b false s (va, ia, oka) s1 /\
    ((* a can be evaluated: its result; d is not evaluated *)
     (oka = true /\ f_undefined ia = false /\ isValue va /\ r = (va, ia, true) /\ s2 = s1) \/
     (* a has to wait: the whole expression waits *)
     (oka = true /\ f_undefined ia = false /\ delayed va /\ r = (VExpr (EOr a d), ia, true) /\ s2 = s1) \/
     (* a fails or is undefined: the result of d *)
     ((oka = false \/ f_undefined ia = true) /\
      exists vd id okd, evaluates d b false s1 (vd, id, okd) s2 /\
        r = (vd, setUndef (f_undefined id) (join (cleanError ia) id), okd))).
Proof.
  intros. rewrite evaluates_runs. unfold stepE, eval1, evalOr.
  rewrite (runs_bind ST (fun f => evalF f a b false)
    (fun f r => let '(va, ia, ok) := r in
       if ok && negb (f_undefined ia)
       then match va with VExpr _ => keep ST (EOr a d) ia | _ => done ST va ia end
       else bind ST (evalF f d b false) (fun r => let '(vb, ib, ok) := r in
              ret ST (vb, setUndef (f_undefined ib) (join (cleanError ia) ib), ok)))).
  2: apply incr_eval, SW.
  2: { intros [[va ia] ok]. destruct (ok && negb (f_undefined ia)); [apply incr_const|].
       apply incr_bind; [apply incr_eval, SW|]. intros [[? ?] ?]. apply incr_const. }
  split.
  - intros [[[va ia] ok] [s1 [H K]]]. exists va, ia, ok, s1. split; [exact H|].
    destruct ok; cbn [andb] in K; [destruct (f_undefined ia) eqn:U; cbn [negb] in K|].
    2: { destruct va; try (left; apply runs_ret in K; destruct K as [-> ->]; repeat split; auto; intros ?; discriminate).
         right. left. apply runs_ret in K. destruct K as [-> ->]. repeat split; auto. now exists e. }
    all: right; right; split; [auto|];
      apply runs_bind in K; [|apply incr_eval, SW|intros [[? ?] ?]; apply incr_const];
      destruct K as [[[vd id] okd] [s3 [K1 K2]]]; apply runs_ret in K2; destruct K2 as [-> ->];
      exists vd, id, okd; split; [exact K1|reflexivity].
  - intros [va [ia [oka [s1 [H K]]]]]. exists (va, ia, oka), s1. split; [exact H|].
    destruct K as [[-> [U [V [-> ->]]]]|[[-> [U [[e ->] [-> ->]]]]|[U [vd [id [okd [K ->]]]]]]].
    + rewrite U. cbn [andb negb]. destruct va; try (apply runs_ret; split; reflexivity). now destruct (V e).
    + rewrite U. apply runs_ret. split; reflexivity.
    + assert (E : oka && negb (f_undefined ia) = false).
      { destruct U as [-> | ->]; [reflexivity|now rewrite andb_false_r]. }
      rewrite E. apply runs_bind; [apply incr_eval, SW|intros [[? ?] ?]; apply incr_const|].
      exists (vd, id, okd), s2. split; [exact K|]. apply runs_ret. split; reflexivity.
Qed.
(** if a can be evaluated, d has no influence at all *)
Theorem C20_or_unchosen : forall a d x b l s va ia s1,
  evaluates a b false s (va, ia, true) s1 -> f_undefined ia = false -> isValue va ->
  forall f, evalF f (EOr a d) b l s = evalF f (EOr a x) b l s.
Proof.
  intros a d x b l s v ic s1 H U V f.
  destruct f as [|f]; [reflexivity|].
  cbn [Engine.evalF]. unfold eval1, evalOr, bind.
  assert (E : evalF f a b false s = Fuel \/ evalF f a b false s = Ret (v, ic, true) s1).
  { destruct (evaluates_max _ _ SW _ _ _ _ _ _ f H) as [g [L E]].
    destruct (evalF_le _ _ SW _ _ L a b false s) as [F|F]; [now left|right]. now rewrite F. }
  destruct E as [-> | ->]; [reflexivity|]. rewrite U. cbn [andb negb].
  destruct v; try reflexivity. now destruct (V e).
Qed.

(** ** a // d *)
Theorem C20_validor : forall a d b l s r s2,
  evaluates (EValidOr a d) b l s r s2 <->
  exists va ia oka s1, evaluates a b false s (va, ia, oka) s1 /\
    ((* a has a value other than nil *)
     (oka = true /\ isValue va /\ va <> VNil /\ r = (va, ia, true) /\ s2 = s1) \/
     (* a has to wait; if a yields itself the expression fails *)
     (exists x, oka = true /\ va = VExpr x /\ s2 = s1 /\
       r = if deepEqE x a then (VNil, ia, false) else (VExpr (EValidOr a d), ia, true)) \/
     (* a fails or yields nil *)
     ((oka = false \/ va = VNil) /\
      exists vd id okd, evaluates d b false s1 (vd, id, okd) s2 /\
        r = (vd, setUndef (f_undefined id) (join ia id), okd))).
Proof.
  intros. rewrite evaluates_runs. unfold stepE, eval1, evalValidOr.
  set (second := fun (f : nat) ia => bind ST (evalF f d b false) (fun r => let '(vb, ib, ok) := r in
              ret ST (vb, setUndef (f_undefined ib) (join ia ib), ok))).
  assert (IS : forall ia, incr (fun f => second f ia)).
  { intro ia. apply incr_bind; [apply incr_eval, SW|]. intros [[? ?] ?]. apply incr_const. }
  assert (RS : forall ia s1, runs (fun f => second f ia) s1 r s2 <->
            exists vd id okd, evaluates d b false s1 (vd, id, okd) s2 /\
              r = (vd, setUndef (f_undefined id) (join ia id), okd)).
  { intros ia s1. unfold second. rewrite runs_bind; [|apply incr_eval, SW|intros [[? ?] ?]; apply incr_const].
    split.
    - intros [[[vd id] okd] [s3 [K1 K2]]]. apply runs_ret in K2. destruct K2 as [-> ->].
      exists vd, id, okd. split; [exact K1|reflexivity].
    - intros [vd [id [okd [K ->]]]]. exists (vd, id, okd), s2. split; [exact K|]. apply runs_ret. split; reflexivity. }
  etransitivity; [apply (runs_bind ST (fun f => evalF f a b false)
    (fun f r => let '(va, ia, ok) := r in
       if ok then match va with
                  | VExpr x => if deepEqE x a then failI ST ia else keep ST (EValidOr a d) ia
                  | VNil => second f ia
                  | _ => done ST va ia end
       else second f ia))|].
  { apply incr_eval, SW. }
  { intros [[va ia] ok]. destruct ok; [|apply IS]. destruct va; try apply incr_const. apply IS. }
  split.
  - intros [[[va ia] ok] [s1 [H K]]]. exists va, ia, ok, s1. split; [exact H|].
    destruct ok; [|right; right; split; [auto|]; now apply RS].
    destruct va; try (left; apply runs_ret in K; destruct K as [-> ->]; repeat split; auto; discriminate).
    + right; right; split; [auto|]; now apply RS.
    + right. left. exists e. split; [reflexivity|]. split; [reflexivity|].
      destruct (deepEqE e a); apply runs_ret in K; destruct K as [-> ->]; auto.
  - intros [va [ia [oka [s1 [H K]]]]]. exists (va, ia, oka), s1. split; [exact H|].
    destruct K as [[-> [V [N [-> ->]]]]|[[x [-> [-> [-> ->]]]]|[U K]]].
    + destruct va; try (apply runs_ret; split; reflexivity); [congruence|now destruct (V e)].
    + destruct (deepEqE x a); apply runs_ret; split; reflexivity.
    + apply RS in K. destruct oka; [|exact K]. destruct U as [U| ->]; [discriminate|exact K].
Qed.
Theorem C20_validor_unchosen : forall a d x b l s va ia s1,
  evaluates a b false s (va, ia, true) s1 -> va <> VNil -> isValue va ->
  forall f, evalF f (EValidOr a d) b l s = evalF f (EValidOr a x) b l s.
Proof.
  intros a d x b l s v ic s1 H U V f.
  destruct f as [|f]; [reflexivity|].
  cbn [Engine.evalF]. unfold eval1, evalValidOr, bind.
  assert (E : evalF f a b false s = Fuel \/ evalF f a b false s = Ret (v, ic, true) s1).
  { destruct (evaluates_max _ _ SW _ _ _ _ _ _ f H) as [g [L E]].
    destruct (evalF_le _ _ SW _ _ L a b false s) as [F|F]; [now left|right]. now rewrite F. }
  destruct E as [-> | ->]; [reflexivity|].
  destruct v; try reflexivity; [congruence|now destruct (V e)].
Qed.

(** ** !a *)
Theorem C20_not : forall a b l s v ia s1, evaluates a b false s (v, ia, true) s1 -> isValue v ->
  exists t, evaluates (ENot a) b l s (VBool t, ia, true) s1 /\ (t = true <-> falsy v).
Proof.
  intros a b l s v ia s1 H V. exists (negb (toBool v)). split.
  - rewrite evaluates_runs. unfold stepE, eval1, evalNot.
    apply (runs_bind ST (fun f => resolvePush ST (evalF f) a None b false)).
    + apply incr_push, SW.
    + intros p. apply incr_const.
    + exists (PVal v ia), s1. split.
      * apply runs_push; [exact SW|]. exists (v, ia, true). split; [exact H|].
        unfold pushOf. destruct v; try reflexivity. now destruct (V e).
      * apply runs_ret. split; reflexivity.
  - rewrite negb_true_iff. apply toBool_falsy.
Qed.

(** ** a -or d, a -and d *)
Definition logical (conj : bool) (a d : expr) : expr := if conj then ELogAnd a d else ELogOr a d.
Lemma log_runs : forall conj a d b l s r s2,
  evaluates (logical conj a d) b l s r s2 <->
  runs (fun f => evalLog ST (evalF f) conj (logical conj a d) a d b) s r s2.
Proof. intros. rewrite evaluates_runs. destruct conj; reflexivity. Qed.
(** both operands evaluated: bitwise for integers, else the truth values *)
Theorem C20_logical : forall conj a d b l s va ia s1 vd id s2,
  evaluates a b false s (va, ia, true) s1 -> isValue va ->
  evaluates d b false s1 (vd, id, true) s2 -> isValue vd ->
  exists v, evaluates (logical conj a d) b l s (v, join ia id, true) s2 /\
    ((exists x y, va = VInt x /\ vd = VInt y /\ v = VInt (if conj then Z.land x y else Z.lor x y)) \/
     ((forall x y, ~ (va = VInt x /\ vd = VInt y)) /\
      exists t, v = VBool t /\
        (t = true <-> if conj then ~ falsy va /\ ~ falsy vd else ~ (falsy va /\ falsy vd)))).
Proof.
  intros conj a d b l s va ia s1 vd id s2 Ha Va Hd Vd.
  set (v := match va, vd with
            | VInt x, VInt y => VInt (if conj then Z.land x y else Z.lor x y)
            | _, _ => VBool (if conj then toBool va && toBool vd else toBool va || toBool vd)
            end).
  exists v. split.
  - apply log_runs. unfold evalLog.
    destruct (evaluates_max _ _ SW _ _ _ _ _ _ O Ha) as [f [_ E]].
    destruct (evaluates_max _ _ SW _ _ _ _ _ _ f Hd) as [g [L F]].
    pose proof (le_ret _ _ _ _ _ _ (evalF_le _ _ SW _ _ L a b false) E) as E'.
    exists g. unfold bind. rewrite E'. cbn [negb].
    subst v. destruct va; try (now destruct (Va e)); rewrite F; cbn [negb];
      destruct vd; try (now destruct (Vd e)); destruct conj; reflexivity.
  - assert (T : forall w, toBool w = true <-> ~ falsy w).
    { intro w. rewrite <- toBool_falsy. destruct (toBool w); split; congruence. }
    assert (TT : forall t, t = (if conj then toBool va && toBool vd else toBool va || toBool vd) ->
       (t = true <-> if conj then ~ falsy va /\ ~ falsy vd else ~ (falsy va /\ falsy vd))).
    { intros t ->. destruct conj; rewrite <- ?toBool_falsy; destruct (toBool va), (toBool vd); cbn [andb orb]; intuition congruence. }
    subst v. destruct va; try (right; split; [intros ? ? [? ?]; discriminate|]; eexists; split; [reflexivity|]; now apply TT).
    destruct vd; try (right; split; [intros ? ? [? ?]; discriminate|]; eexists; split; [reflexivity|]; now apply TT).
    left. do 2 eexists. repeat split.
Qed.
(** a decides: a failing second operand does not matter unless a is an integer *)
Theorem C20_logical_shortcut : forall (conj : bool) a d b l s va ia s1 vd id s2,
  evaluates a b false s (va, ia, true) s1 -> isValue va -> (forall z, va <> VInt z) ->
  (if conj then falsy va else ~ falsy va) ->
  evaluates d b false s1 (vd, id, false) s2 ->
  evaluates (logical conj a d) b l s (VBool (negb conj), join ia id, true) s2.
Proof.
  intros conj a d b l s va ia s1 vd id s2 Ha Va Z D Hd.
  apply log_runs. unfold evalLog.
  destruct (evaluates_max _ _ SW _ _ _ _ _ _ O Ha) as [f [_ E]].
  destruct (evaluates_max _ _ SW _ _ _ _ _ _ f Hd) as [g [L F]].
  pose proof (le_ret _ _ _ _ _ _ (evalF_le _ _ SW _ _ L a b false) E) as E'.
  exists g. unfold bind. rewrite E'. cbn [negb].
  assert (X : (if conj then negb (toBool va) else toBool va) = true).
  { destruct conj; [apply toBool_falsy in D; now rewrite D|now apply toBool_truthy]. }
  destruct va; try (now destruct (Va e)); rewrite F; cbn [negb]; rewrite ?X; try reflexivity.
  now destruct (Z z).
Qed.
(** the first operand fails: failure; it has to wait: the expression waits *)
Theorem C20_logical_first : forall conj a d b l s va ia oka s1 r s2,
  evaluates a b false s (va, ia, oka) s1 -> oka = false \/ delayed va ->
  (evaluates (logical conj a d) b l s r s2 <->
   s2 = s1 /\ r = if oka then (VExpr (logical conj a d), ia, true) else (VNil, defaultInfo, false)).
Proof.
  intros conj a d b l s va ia oka s1 r s2 Ha U. rewrite log_runs. split.
  - intros [f E]. unfold evalLog, bind in E.
    destruct (evaluates_max _ _ SW _ _ _ _ _ _ f Ha) as [g [L G]].
    destruct (evalF_le _ _ SW _ _ L a b false s) as [F|F]; rewrite F in E; [discriminate|].
    rewrite G in E. destruct oka; cbn [negb] in E; [|inversion E; auto].
    destruct U as [U|[x ->]]; [discriminate|]. inversion E; auto.
  - intros [-> ->]. destruct Ha as [f E]. exists f. unfold evalLog, bind. rewrite E.
    destruct oka; [|reflexivity]. destruct U as [U|[x ->]]; [discriminate|]. reflexivity.
Qed.
End C20.

(** ** Examples: the hypotheses hold in concrete cases *)
From Verif Require Import World0.
Notation ev0 := (Engine.evaluates _ (world0 noParse)).
Ltac runsAt f := exists f; vm_compute; reflexivity.
Definition ref (s : string) : expr := ERef "" [s].
Definition e1 : binding := env0 [("c", nd (VBool true)); ("n", nd VNil); ("x", nd (VInt 3))].
Example C20_example_cond : exists ic iw,
  ev0 (ref "c") e1 false st0 (VBool true, ic, true) st0 /\
  ev0 (ref "x") e1 false st0 (VInt 3, iw, true) st0 /\ isValue (VBool true) /\ ~ falsy (VBool true).
Proof. do 2 eexists. repeat split; [runsAt 3%nat|runsAt 3%nat|intros e; discriminate|intro H; inversion H]. Qed.
Example C20_example_or : exists i, ev0 (EOr (ref "y") (ref "x")) e1 false st0 (VInt 3, i, true) st0.
Proof. eexists. runsAt 4%nat. Qed.
Example C20_example_or_nil : exists i, ev0 (EOr (ref "n") (ref "x")) e1 false st0 (VNil, i, true) st0.
Proof. eexists. runsAt 4%nat. Qed.
Example C20_example_validor : exists i, ev0 (EValidOr (ref "n") (ref "x")) e1 false st0 (VInt 3, i, true) st0.
Proof. eexists. runsAt 4%nat. Qed.
Example C20_example_log : exists i, ev0 (ELogOr (ref "c") (ref "y")) e1 false st0 (VBool true, i, true) st0.
Proof. eexists. runsAt 4%nat. Qed.

(** A reference to a node that is not evaluated yet is delayed, but [x // 5] fails
    then, and so does [[x...]]; an enclosing || takes its default although x has a
    value in the end. *)
Definition pendEnv : binding := env0 [("x", nd (VExpr (ref "y"))); ("y", nd (VInt 3))].
Definition doneEnv : binding := env0 [("x", nd (VInt 3)); ("y", nd (VInt 3))].
Definition pendEnvL : binding := env0 [("x", nd (VExpr (ref "y"))); ("y", nd (VList [nd (VInt 3)]))].
Definition doneEnvL : binding := env0 [("x", nd (VList [nd (VInt 3)])); ("y", nd (VList [nd (VInt 3)]))].
Theorem C20_pending_refuted : exists (W : world (nat -> value)) i1 i2 i3, steadyWorld W /\
  Engine.evaluates _ W (ref "x") pendEnv false st0 (VExpr (ref "x"), i1, true) st0 /\
  Engine.evaluates _ W (EOr (EValidOr (ref "x") (EInt 5)) (EInt 7)) pendEnv false st0 (VInt 7, i2, true) st0 /\
  Engine.evaluates _ W (EOr (EValidOr (ref "x") (EInt 5)) (EInt 7)) doneEnv false st0 (VInt 3, i3, true) st0.
Proof.
  exists (world0 noParse). do 3 eexists. split; [apply world0_steady|].
  repeat split; runsAt 5%nat.
Qed.
Theorem C20_expansion_refuted : exists (W : world (nat -> value)) i1 i2 i3 i4, steadyWorld W /\
  Engine.evaluates _ W (EList [ref "x"]) pendEnvL false st0 (VExpr (EList [ref "x"]), i1, true) st0 /\
  Engine.evaluates _ W (EList [EExpand (ref "x")]) pendEnvL false st0 (VNil, i2, false) st0 /\
  Engine.evaluates _ W (EOr (EList [EExpand (ref "x")]) (EInt 7)) pendEnvL false st0 (VInt 7, i3, true) st0 /\
  exists l, Engine.evaluates _ W (EOr (EList [EExpand (ref "x")]) (EInt 7)) doneEnvL false st0 (VList l, i4, true) st0.
Proof.
  exists (world0 noParse). do 4 eexists. split; [apply world0_steady|].
  repeat split; try runsAt 5%nat. eexists. runsAt 5%nat.
Qed.
(** the same in the merge of a document: a is 7 in the end, although x is 3 *)
Definition table (s : string) : option expr :=
  let s := trimSpace s in
  if String.eqb s "(x // 5) || 7" then Some (EOr (EGroup (EValidOr (ref "x") (EInt 5))) (EInt 7))
  else if String.eqb s "y" then Some (ref "y")
  else None.
Definition doc7 : node := nd (VMap [("a", nd (VStr "(( (x // 5) || 7 ))")); ("x", nd (VStr "(( y ))")); ("y", nd (VInt 3))]).
Theorem C20_document_refuted : exists f n na nx s, flowF _ (world0 table) f doc7 (newEnvironment [] "template") true st0 = Ret n s /\
  find false true ["a"%string] n = FOk na /\ val na = VInt 7 /\
  find false true ["x"%string] n = FOk nx /\ val nx = VInt 3.
Proof. exists 10%nat. do 4 eexists. repeat (split; [vm_compute; reflexivity|]). vm_compute. reflexivity. Qed.

Print Assumptions C20_unique.
Print Assumptions C20_cond.
Print Assumptions C20_cond_undecided.
Print Assumptions C20_cond_unchosen.
Print Assumptions C20_or.
Print Assumptions C20_or_unchosen.
Print Assumptions C20_validor.
Print Assumptions C20_validor_unchosen.
Print Assumptions C20_not.
Print Assumptions C20_logical.
Print Assumptions C20_logical_shortcut.
Print Assumptions C20_logical_first.
Print Assumptions C20_pending_refuted.
Print Assumptions C20_expansion_refuted.
Print Assumptions C20_document_refuted.
