(** More fuel does not change a result: [le m m'] says that m' behaves like m
    wherever m ends.  All combinators of Eval.v, Control.v and Flow.v respect it. *)
From Coq Require Import Lia.
From Verif Require Import Core Str Interp Find Cleanup Unresolved DeepEq Env Arith IP Comparison RangeSlice ListFns Flow Info Eval Control Engine.

Definition le {ST A} (m m' : M ST A) : Prop := forall s, m s = Fuel \/ m s = m' s.

Section Le.
Variable ST : Type.
Notation M := (M ST).

Lemma le_refl : forall {A} (m : M A), le m m.
Proof. intros A m s. now right. Qed.
Lemma le_fuel : forall {A} (m : M A), le (fun _ => Fuel) m.
Proof. intros A m s. now left. Qed.
Lemma le_bind : forall {A B} (m m' : M A) (k k' : A -> M B),
  le m m' -> (forall a, le (k a) (k' a)) -> le (bind ST m k) (bind ST m' k').
Proof.
  intros A B m m' k k' H K s. unfold bind.
  destruct (H s) as [E | E]; rewrite E; [now left|].
  destruct (m' s); [apply K|now right|now left].
Qed.
Lemma le_trans : forall {A} (m1 m2 m3 : M A), le m1 m2 -> le m2 m3 -> le m1 m3.
Proof.
  intros A m1 m2 m3 H1 H2 s. destruct (H1 s) as [E|E]; [now left|].
  rewrite E. apply H2.
Qed.
Lemma le_ret : forall {A} (m m' : M A) s a s', le m m' -> m s = Ret a s' -> m' s = Ret a s'.
Proof. intros A m m' s a s' H E. destruct (H s) as [F|F]; congruence. Qed.
Lemma le_panic : forall {A} (m m' : M A) s, le m m' -> m s = Panic -> m' s = Panic.
Proof. intros A m m' s H E. destruct (H s) as [F|F]; congruence. Qed.
End Le.

Ltac mono1 :=
  lazymatch goal with
  | |- forall _, _ => intro
  | |- le ?m ?m => apply le_refl
  | |- le (fun _ => Fuel) _ => apply le_fuel
  | |- le (bind _ _ _) (bind _ _ _) => apply le_bind
  | |- le (match ?x with _ => _ end) _ => destruct x
  | |- le (let _ := _ in _) _ => cbv zeta
  end.
Ltac mono := repeat first [ progress mono1 | solve [auto] ].

Section Mono.
Variable ST : Type.
Notation M := (M ST).
Notation EV := (expr -> binding -> bool -> M R).

Section EvalMono.
Variable ctrl : bool.
Variable context : binding -> node.
Variable parse : string -> list string -> list string -> option expr.
Variable N : netx.
Variable lambdaText : value -> string.
Variable tagsOf : string -> ST -> list (string * nat * node).
Variable projGet : nat -> ST -> value.
Variable projSet : nat -> value -> ST -> ST.
Variables rec rec' : EV.
Variables flowT flowT' : node -> binding -> M (node * list unres).
Variables builtin builtin' : string -> list expr -> list value -> binding -> bool -> M (option (bool * R)).
Variables syncEval syncEval' : EV.
Hypothesis Hrec : forall e b l, le (rec e b l) (rec' e b l).
Hypothesis Hflow : forall n b, le (flowT n b) (flowT' n b).
Hypothesis Hbuiltin : forall n es vs b l, le (builtin n es vs b l) (builtin' n es vs b l).
Hypothesis Hsync : forall e b l, le (syncEval e b l) (syncEval' e b l).

Lemma resolvePush_le : forall e i b l, le (resolvePush ST rec e i b l) (resolvePush ST rec' e i b l).
Proof. intros. unfold resolvePush. mono. Qed.
Hint Resolve resolvePush_le : core.
Lemma resolveInt_le : forall e i b l, le (resolveInt ST rec e i b l) (resolveInt ST rec' e i b l).
Proof. intros. unfold resolveInt. mono. Qed.
Hint Resolve resolveInt_le : core.
Lemma resolveEach_le : forall es i b l, le (resolveEach ST rec es i b l) (resolveEach ST rec' es i b l).
Proof. induction es; intros; cbn [resolveEach]; mono. Qed.
Hint Resolve resolveEach_le : core.
Lemma resolveList_le : forall es b l, le (resolveList ST rec es b l) (resolveList ST rec' es b l).
Proof. intros. unfold resolveList. mono. Qed.
Hint Resolve resolveList_le : core.
Lemma operands_le : forall mk a b env k,
  le (operands ST rec mk a b env k) (operands ST rec' mk a b env k).
Proof. intros. unfold operands. mono. Qed.
Hint Resolve operands_le : core.
Lemma evalMod_le : forall a b env, le (evalMod ST rec a b env) (evalMod ST rec' a b env).
Proof. intros. unfold evalMod. mono. Qed.
Lemma evalOr_le : forall a b env, le (evalOr ST rec a b env) (evalOr ST rec' a b env).
Proof. intros. unfold evalOr. mono. Qed.
Lemma evalValidOr_le : forall a b env, le (evalValidOr ST rec a b env) (evalValidOr ST rec' a b env).
Proof. intros. unfold evalValidOr. mono. Qed.
Lemma evalCond_le : forall c a b env, le (evalCond ST rec c a b env) (evalCond ST rec' c a b env).
Proof. intros. unfold evalCond. mono. Qed.
Lemma evalLog_le : forall c e a b env, le (evalLog ST rec c e a b env) (evalLog ST rec' c e a b env).
Proof. intros. unfold evalLog. mono. Qed.
Lemma evalNot_le : forall a env, le (evalNot ST rec a env) (evalNot ST rec' a env).
Proof. intros. unfold evalNot. mono. Qed.
Hint Resolve evalMod_le evalOr_le evalValidOr_le evalCond_le evalLog_le evalNot_le : core.
Lemma evalBound_le : forall e env, le (evalBound ST rec e env) (evalBound ST rec' e env).
Proof. intros. unfold evalBound. mono. Qed.
Hint Resolve evalBound_le : core.
Lemma evalGetRange_le : forall a b z env, le (evalGetRange ST rec a b z env) (evalGetRange ST rec' a b z env).
Proof. intros. unfold evalGetRange. mono. Qed.
Hint Resolve evalGetRange_le : core.
Lemma evalRange_le : forall a b env, le (evalRange ST rec a b env) (evalRange ST rec' a b env).
Proof. intros. unfold evalRange. mono. Qed.
Lemma evalSlice_le : forall x a b env l, le (evalSlice ST ctrl rec x a b env l) (evalSlice ST ctrl rec' x a b env l).
Proof. intros. unfold evalSlice. mono. Qed.
Hint Resolve evalRange_le evalSlice_le : core.
Lemma projLoop_le : forall id q es env l, le (projLoop ST projSet rec id q es env l) (projLoop ST projSet rec' id q es env l).
Proof.
  induction es; intros; cbn [projLoop]; mono.
  all: try (intro s; apply Hrec).
Qed.
Hint Resolve projLoop_le : core.
Lemma evalProj_le : forall x id q env l, le (evalProj ST projSet rec x id q env l) (evalProj ST projSet rec' x id q env l).
Proof. intros. unfold evalProj. mono. Qed.
Lemma evalList_le : forall es env, le (evalList ST rec es env) (evalList ST rec' es env).
Proof. intros. unfold evalList. mono. Qed.
Lemma mapLoop_le : forall self l env loc acc, le (mapLoop ST rec self l env loc acc) (mapLoop ST rec' self l env loc acc).
Proof. induction l; intros; cbn [mapLoop]; mono. Qed.
Hint Resolve mapLoop_le evalProj_le evalList_le : core.
Lemma evalMap_le : forall m env l, le (evalMap ST rec m env l) (evalMap ST rec' m env l).
Proof. intros. unfold evalMap. mono. Qed.
Hint Resolve evalMap_le : core.
Lemma evalScope_le : forall m e env l, le (evalScope ST rec m e env l) (evalScope ST rec' m e env l).
Proof. intros. unfold evalScope. mono. Qed.
Lemma evalDyn_le : forall m e env l, le (evalDyn ST ctrl rec m e env l) (evalDyn ST ctrl rec' m e env l).
Proof. intros. unfold evalDyn. mono. Qed.
Lemma evalQual_le : forall m e env l, le (evalQual ST ctrl rec m e env l) (evalQual ST ctrl rec' m e env l).
Proof. intros. unfold evalQual. mono. Qed.
Lemma evalSubst_le : forall t env, le (evalSubst ST rec flowT t env) (evalSubst ST rec' flowT' t env).
Proof. intros. unfold evalSubst. mono. Qed.
Lemma evalMarker_le : forall ms e env l, le (evalMarker ST rec ms e env l) (evalMarker ST rec' ms e env l).
Proof. intros. unfold evalMarker. mono. Qed.
Lemma evalPrefer_le : forall e env l, le (evalPrefer ST rec e env l) (evalPrefer ST rec' e env l).
Proof. intros. unfold evalPrefer. mono. Qed.
Lemma evalDefaults_le : forall ps env l, le (evalDefaults ST rec ps env l) (evalDefaults ST rec' ps env l).
Proof. induction ps as [|[p [d|]] ps IH]; intros; cbn [evalDefaults]; mono. Qed.
Hint Resolve evalScope_le evalDyn_le evalQual_le evalSubst_le evalMarker_le evalPrefer_le evalDefaults_le : core.
Lemma evalLambda_le : forall ps va b env l, le (evalLambda ST ctrl context rec ps va b env l) (evalLambda ST ctrl context rec' ps va b env l).
Proof. intros. unfold evalLambda. mono. Qed.
Lemma evalLambdaRef_le : forall ps va b env l, le (evalLambdaRef ST parse rec ps va b env l) (evalLambdaRef ST parse rec' ps va b env l).
Proof. intros. unfold evalLambdaRef. mono. Qed.
Lemma lambdaEval_le : forall lm i c a na args env l, le (lambdaEval ST rec lm i c a na args env l) (lambdaEval ST rec' lm i c a na args env l).
Proof. intros. unfold lambdaEval. mono. Qed.
Hint Resolve evalLambda_le evalLambdaRef_le lambdaEval_le : core.
Lemma mapEach_le : forall c lm i l env acc, le (mapEach ST rec c lm i l env acc) (mapEach ST rec' c lm i l env acc).
Proof. induction l as [|[[kv k] n] l IH]; intros; cbn [mapEach]; mono. Qed.
Hint Resolve mapEach_le : core.
Lemma evalMapping_le : forall c a lx env, le (evalMapping ST rec c a lx env) (evalMapping ST rec' c a lx env).
Proof. intros. unfold evalMapping. mono. Qed.
Lemma sumEach_le : forall lm i l env acc, le (sumEach ST rec lm i l env acc) (sumEach ST rec' lm i l env acc).
Proof. induction l as [|[[kv k] n] l IH]; intros; cbn [sumEach]; mono. Qed.
Hint Resolve evalMapping_le sumEach_le : core.
Lemma evalSum_le : forall c a lx env, le (evalSum ST rec c a lx env) (evalSum ST rec' c a lx env).
Proof. intros. unfold evalSum. mono. Qed.
Lemma evalCatch_le : forall a lx env, le (evalCatch ST rec a lx env) (evalCatch ST rec' a lx env).
Proof. intros. unfold evalCatch. mono. Qed.
Lemma definedLoop_le : forall self l env r, le (definedLoop ST rec self l env r) (definedLoop ST rec' self l env r).
Proof. induction l; intros; cbn [definedLoop]; mono. Qed.
Lemma validLoop_le : forall self l env r v, le (validLoop ST rec self l env r v) (validLoop ST rec' self l env r v).
Proof. induction l; intros; cbn [validLoop]; mono. Qed.
Lemma evalOptional_le : forall f args env, le (evalOptional ST rec f args env) (evalOptional ST rec' f args env).
Proof. intros. unfold evalOptional. mono. Qed.
Lemma evalRequire_le : forall f args env, le (evalRequire ST rec f args env) (evalRequire ST rec' f args env).
Proof. intros. unfold evalRequire. mono. Qed.
Lemma evalStub_le : forall f args env, le (evalStub ST ctrl rec f args env) (evalStub ST ctrl rec' f args env).
Proof. intros. unfold evalStub. mono. Qed.
Lemma evalEval_le : forall args env l, le (evalEval ST parse rec args env l) (evalEval ST parse rec' args env l).
Proof. intros. unfold evalEval. mono. Qed.
Hint Resolve evalSum_le evalCatch_le definedLoop_le validLoop_le evalOptional_le evalRequire_le evalStub_le evalEval_le : core.
Lemma evalIntrinsic_le : forall n s f args env, le (evalIntrinsic ST ctrl rec n s f args env) (evalIntrinsic ST ctrl rec' n s f args env).
Proof. intros. unfold evalIntrinsic. mono. Qed.
Hint Resolve evalIntrinsic_le : core.
Lemma callArgs_le : forall f args c n lv env l,
  le (callArgs ST parse rec builtin f args c n lv env l) (callArgs ST parse rec' builtin' f args c n lv env l).
Proof. intros. unfold callArgs. mono. Qed.
Hint Resolve callArgs_le : core.
Lemma evalCall_le : forall f args c env l,
  le (evalCall ST ctrl parse rec builtin f args c env l) (evalCall ST ctrl parse rec' builtin' f args c env l).
Proof. intros. unfold evalCall. mono. Qed.
Hint Resolve evalCall_le : core.
Lemma eval1_le : forall e env l,
  le (eval1 ST ctrl context parse N lambdaText tagsOf projGet projSet rec flowT builtin syncEval e env l)
     (eval1 ST ctrl context parse N lambdaText tagsOf projGet projSet rec' flowT' builtin' syncEval' e env l).
Proof. intros. unfold eval1. destruct e; mono. Qed.

Lemma forBody_le : forall mk sb body env sc st,
  le (forBody ST rec mk sb body env sc st) (forBody ST rec' mk sb body env sc st).
Proof. intros. unfold forBody. mono. Qed.
Hint Resolve forBody_le : core.
Lemma forLoop_le : forall f mk sb body env rs cur st,
  le (forLoop ST rec f mk sb body env rs cur st) (forLoop ST rec' f mk sb body env rs cur st).
Proof. induction f; intros; cbn [forLoop]; mono. Qed.
Lemma caseFields_le : forall c env m f r v, le (caseFields ST rec c env m f r v) (caseFields ST rec' c env m f r v).
Proof. induction m as [|[k n] m IH]; intros; cbn [caseFields]; mono. Qed.
Hint Resolve caseFields_le : core.
Lemma switchCases_le : forall c env l, le (switchCases ST ctrl rec c env l) (switchCases ST ctrl rec' c env l).
Proof. induction l; intros; cbn [switchCases]; mono. Qed.
Hint Resolve forLoop_le switchCases_le : core.
Lemma controlFn_le : forall c env, le (controlFn ST ctrl rec c env) (controlFn ST ctrl rec' c env).
Proof. intros. unfold controlFn, flowFor, flowSwitch. mono. Qed.
End EvalMono.

Section FlowMono.
Variables interpol ctrl : bool.
Variable reg : registry.
Variable parse : string -> list string -> list string -> option expr.
Variable quote : string -> string.
Variable show : expr -> string.
Variable setTagX : string -> node -> list string -> bool -> ST -> bool * ST.
Variables ev ev' : EV.
Variables ctl ctl' : cctx -> binding -> M (node * bool).
Hypothesis Hev : forall e b l, le (ev e b l) (ev' e b l).
Hypothesis Hctl : forall c b, le (ctl c b) (ctl' c b).

Lemma flowControl_le : forall n u env,
  le (flowControl ST ctrl reg ctl n u env) (flowControl ST ctrl reg ctl' n u env).
Proof. intros. unfold flowControl. mono. Qed.
Lemma flowExpr_le : forall root e env so et,
  le (flowExpr ST interpol ctrl parse quote show ev root e env so et)
     (flowExpr ST interpol ctrl parse quote show ev' root e env so et).
Proof.
  intros. unfold flowExpr.
  destruct (match asTemplate e et with Some m => _ | None => None end); mono.
Qed.
Hint Resolve flowControl_le flowExpr_le : core.

Section RecMono.
Variables rec rec' : node -> binding -> bool -> bool -> M node.
Hypothesis Hrec : forall n b so et, le (rec n b so et) (rec' n b so et).
Lemma tagged_le : forall n b so et, le (tagged ST ctrl setTagX rec n b so et) (tagged ST ctrl setTagX rec' n b so et).
Proof. intros. unfold tagged. mono. Qed.
Hint Resolve tagged_le : core.
Lemma mapEntries_le : forall m mk mv p so env fl nm un,
  le (mapEntries ST ctrl reg setTagX rec m mk mv p so env fl nm un)
     (mapEntries ST ctrl reg setTagX rec' m mk mv p so env fl nm un).
Proof. induction m as [|[k v] m IH]; intros; cbn [mapEntries]; mono. Qed.
Lemma mergeKey_le : forall root v env st,
  le (mergeKey ST interpol quote show rec root v env st) (mergeKey ST interpol quote show rec' root v env st).
Proof. intros. unfold mergeKey. mono. Qed.
Hint Resolve mapEntries_le mergeKey_le : core.
Lemma flowMap_le : forall root m env so t,
  le (flowMap ST interpol ctrl reg quote show setTagX ctl rec root m env so t)
     (flowMap ST interpol ctrl reg quote show setTagX ctl' rec' root m env so t).
Proof. intros. unfold flowMap. mono. Qed.
Lemma stepName_le : forall i v k env u, le (stepName ST ctrl setTagX rec i v k env u) (stepName ST ctrl setTagX rec' i v k env u).
Proof. intros. unfold stepName. mono. Qed.
Hint Resolve flowMap_le stepName_le : core.
Lemma uniqueKeys_le : forall l i k env ks, le (uniqueKeys ST ctrl setTagX rec l i k env ks) (uniqueKeys ST ctrl setTagX rec' l i k env ks).
Proof. induction l; intros; cbn [uniqueKeys]; mono. Qed.
Lemma listEntries_le : forall l i k env u nm, le (listEntries ST ctrl setTagX rec l i k env u nm) (listEntries ST ctrl setTagX rec' l i k env u nm).
Proof. induction l; intros; cbn [listEntries]; mono. Qed.
Lemma spliceMerges_le : forall o root l env st,
  le (spliceMerges ST interpol quote show rec o root l env st) (spliceMerges ST interpol quote show rec' o root l env st).
Proof. induction l; intros; cbn [spliceMerges]; mono. Qed.
Lemma spliceControls_le : forall l env p, le (spliceControls ST ctrl reg rec l env p) (spliceControls ST ctrl reg rec' l env p).
Proof. induction l; intros; cbn [spliceControls]; mono. Qed.
Hint Resolve uniqueKeys_le listEntries_le spliceMerges_le spliceControls_le : core.
Lemma flowList_le : forall root l env t,
  le (flowList ST interpol ctrl reg quote show setTagX rec root l env t)
     (flowList ST interpol ctrl reg quote show setTagX rec' root l env t).
Proof. intros. unfold flowList. mono. Qed.
Hint Resolve flowList_le : core.
Lemma flowNode_le : forall root env so et,
  le (flowNode ST interpol ctrl reg parse quote show ev setTagX ctl rec root env so et)
     (flowNode ST interpol ctrl reg parse quote show ev' setTagX ctl' rec' root env so et).
Proof. intros. unfold flowNode. mono. Qed.
End RecMono.
Hint Resolve tagged_le flowNode_le : core.
Lemma flowF_le : forall f f', (f <= f')%nat -> forall root env so et,
  le (Flow.flowF ST interpol ctrl reg parse quote show ev setTagX ctl f root env so et)
     (Flow.flowF ST interpol ctrl reg parse quote show ev' setTagX ctl' f' root env so et).
Proof.
  induction f; intros f' L root env so et; cbn [Flow.flowF]; [apply le_fuel|].
  destruct f'; [lia|]. cbn [Flow.flowF]. apply flowNode_le. intros. apply IHf. lia.
Qed.
Lemma flow_le : forall f f', (f <= f')%nat -> forall root env so et,
  le (flow ST interpol ctrl reg parse quote show ev setTagX ctl f root env so et)
     (flow ST interpol ctrl reg parse quote show ev' setTagX ctl' f' root env so et).
Proof. intros. unfold flow. apply tagged_le. intros. now apply flowF_le. Qed.
Lemma flowLoop_le : forall r r' f f', (r <= r')%nat -> (f <= f')%nat -> forall so' n e so,
  le (flowLoop ST interpol ctrl reg parse quote show ev setTagX ctl f r so' n e so)
     (flowLoop ST interpol ctrl reg parse quote show ev' setTagX ctl' f' r' so' n e so).
Proof.
  induction r; intros r' f f' L L' so' n e so; cbn [flowLoop]; [apply le_fuel|].
  destruct r'; [lia|]. cbn [flowLoop]. apply le_bind; [now apply flow_le|].
  mono. apply IHr; lia.
Qed.
Lemma envFlow_le : forall r r' f f', (r <= r')%nat -> (f <= f')%nat -> forall n e so,
  le (envFlow ST interpol ctrl reg parse quote show ev setTagX ctl f r n e so)
     (envFlow ST interpol ctrl reg parse quote show ev' setTagX ctl' f' r' n e so).
Proof. intros. unfold envFlow. apply le_bind; [now apply flowLoop_le|]. mono. Qed.
End FlowMono.
End Mono.

(** the functions given by the world do not look at the fuel *)
Definition steadyWorld {ST} (W : world ST) : Prop :=
  (forall ev ev' ft ft', (forall e b l, le (ev e b l) (ev' e b l)) -> (forall n b, le (ft n b) (ft' n b)) ->
     forall n es vs b l, le (w_builtin W ev ft n es vs b l) (w_builtin W ev' ft' n es vs b l)) /\
  (forall ev ev', (forall e b l, le (ev e b l) (ev' e b l)) ->
     forall e b l, le (w_sync W ev e b l) (w_sync W ev' e b l)).

Section Engine.
Variable ST : Type.
Variable W : world ST.
Hypothesis SW : steadyWorld W.

Lemma flowWith_le : forall ev ev' f f', (forall e b l, le (ev e b l) (ev' e b l)) -> (f <= f')%nat -> forall n b so,
  le (flowWith ST W ev f n b so) (flowWith ST W ev' f' n b so).
Proof.
  intros ev ev' f f' H L n b so. unfold flowWith. apply envFlow_le; auto.
  intros. now apply controlFn_le.
Qed.
Lemma flowTpl_le : forall ev ev' f f', (forall e b l, le (ev e b l) (ev' e b l)) -> (f <= f')%nat -> forall n b,
  le (flowTpl ST W ev f n b) (flowTpl ST W ev' f' n b).
Proof. intros. unfold flowTpl. apply le_bind; [now apply flowWith_le|intro; apply le_refl]. Qed.
Lemma evalF_le : forall f f', (f <= f')%nat -> forall e b l, le (evalF ST W f e b l) (evalF ST W f' e b l).
Proof.
  induction f; intros f' L e b l; cbn [evalF]; [apply le_fuel|].
  destruct f'; [lia|]. cbn [evalF].
  assert (H : forall e b l, le (evalF ST W f e b l) (evalF ST W f' e b l)) by (intros; apply IHf; lia).
  destruct SW as [S1 S2].
  apply eval1_le; auto.
  - intros. apply flowTpl_le; [assumption|lia].
  - intros. apply S1; [assumption|]. intros. apply flowTpl_le; [assumption|lia].
Qed.
Lemma flowF_engine_le : forall f f', (f <= f')%nat -> forall n b so, le (flowF ST W f n b so) (flowF ST W f' n b so).
Proof. intros. unfold flowF. apply flowWith_le; [|assumption]. intros. now apply evalF_le. Qed.

(** enough fuel for both *)
Lemma evaluates_max : forall e b l s r s' f0, evaluates ST W e b l s r s' ->
  exists f, (f0 <= f)%nat /\ evalF ST W f e b l s = Ret r s'.
Proof.
  intros e b l s r s' f0 [f E]. exists (Nat.max f0 f). split; [lia|].
  eapply le_ret; [apply (evalF_le f)|exact E]. lia.
Qed.
Lemma evaluates_fun : forall e b l s r s' r' s'', evaluates ST W e b l s r s' -> evaluates ST W e b l s r' s'' ->
  r' = r /\ s'' = s'.
Proof.
  intros e b l s r s' r' s'' [f E] H.
  destruct (evaluates_max _ _ _ _ _ _ f H) as [g [L E']].
  pose proof (le_ret _ _ _ _ _ _ (evalF_le _ _ L e b l) E) as E2. rewrite E' in E2. now inversion E2.
Qed.
Lemma evaluates_nocrash : forall e b l s r s', evaluates ST W e b l s r s' -> crashes ST W e b l s -> False.
Proof.
  intros e b l s r s' H [f E].
  destruct (evaluates_max _ _ _ _ _ _ f H) as [g [L E']].
  pose proof (le_panic _ _ _ _ (evalF_le _ _ L e b l) E). congruence.
Qed.
(** one unfolding of the evaluation *)
Definition stepE (f : nat) : expr -> binding -> bool -> M ST R :=
  eval1 ST (w_ctrl W) (w_context W) (w_parse W) (w_net W) (w_lambdaText W) (w_tagsOf W)
        (w_projGet W) (w_projSet W) (evalF ST W f) (flowTpl ST W (evalF ST W f) f)
        (w_builtin W (evalF ST W f) (flowTpl ST W (evalF ST W f) f)) (w_sync W (evalF ST W f)).
Lemma evaluates_step : forall e b l s r s',
  evaluates ST W e b l s r s' <-> exists f, stepE f e b l s = Ret r s'.
Proof.
  intros. split.
  - intros [[|f] E]; [discriminate|]. now exists f.
  - intros [f E]. now exists (S f).
Qed.
End Engine.
