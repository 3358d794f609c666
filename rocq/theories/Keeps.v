(** An invariant of the state that every function of the world keeps is kept by
    every evaluation and every flow: [keeps I m] says that m leads from a state
    only to states related to it by I.  All functions of Eval.v, Control.v and
    Flow.v are covered. *)
From Coq Require Import Lia.
From Verif Require Import Core Str Interp Find Cleanup Unresolved DeepEq Env Arith IP Comparison RangeSlice ListFns Flow Info Eval Control Engine.

Definition keeps {ST A} (I : ST -> ST -> Prop) (m : M ST A) : Prop :=
  forall s a s', m s = Ret a s' -> I s s'.

Section Base.
Variable ST : Type.
Variable I : ST -> ST -> Prop.
Hypothesis Irefl : forall s, I s s.
Hypothesis Itrans : forall a b c, I a b -> I b c -> I a c.
Notation M := (M ST).
Lemma keeps_fuel : forall A, keeps I (fun _ => @Fuel ST A).
Proof. intros A s a s' E. discriminate E. Qed.
Lemma keeps_panic : forall A, keeps I (@panic ST A).
Proof. intros A s a s' E. discriminate E. Qed.
Lemma keeps_ret : forall A (x : A), keeps I (ret ST x).
Proof. intros A x s a s' E. inversion E. apply Irefl. Qed.
Lemma keeps_bind : forall {A B} (m : M A) (k : A -> M B),
  keeps I m -> (forall a, keeps I (k a)) -> keeps I (bind ST m k).
Proof.
  intros A B m k H K s a s' E. unfold bind in E. destruct (m s) eqn:X; try discriminate E.
  eapply Itrans; [eapply H, X|eapply K, E].
Qed.
End Base.

Section Keeps.
Variable ST : Type.
Variable I : ST -> ST -> Prop.
Hypothesis Irefl : forall s, I s s.
Hypothesis Itrans : forall a b c, I a b -> I b c -> I a c.
Let kret := keeps_ret ST I Irefl.
Let kbind := @keeps_bind ST I Itrans.
Let kpanic := keeps_panic ST I.
Let kfuel := keeps_fuel ST I.
Hint Resolve kret kpanic kfuel : core.
Ltac keep1 :=
  lazymatch goal with
  | |- forall _, _ => intro
  | |- keeps I (bind _ _ _) => apply kbind
  | |- keeps I (match ?x with _ => _ end) => destruct x
  | |- keeps I (let _ := _ in _) => cbv zeta
  end.
Ltac keep := repeat first [ progress keep1 | solve [auto] ].
Notation M := (M ST).
Notation EV := (expr -> binding -> bool -> M R).

Section EvalKeeps.
Variable ctrl : bool.
Variable context : binding -> node.
Variable parse : string -> list string -> list string -> option expr.
Variable N : netx.
Variable lambdaText : value -> string.
Variable tagsOf : string -> ST -> list (string * nat * node).
Variable projGet : nat -> ST -> value.
Variable projSet : nat -> value -> ST -> ST.
Variable rec : EV.
Variable flowT : node -> binding -> M (node * list unres).
Variable builtin : string -> list expr -> list value -> binding -> bool -> M (option (bool * R)).
Variable syncEval : EV.
Hypothesis Hrec : forall e b l, keeps I (rec e b l).
Hypothesis Hflow : forall n b, keeps I (flowT n b).
Hypothesis Hbuiltin : forall n es vs b l, keeps I (builtin n es vs b l).
Hypothesis Hsync : forall e b l, keeps I (syncEval e b l).
Hypothesis Hproj : forall id v s, I s (projSet id v s).

Lemma fail_keeps : forall t i, keeps I (fail ST t i).
Proof. intros. unfold fail. keep. Qed.
Lemma failI_keeps : forall i, keeps I (failI ST i).
Proof. intros. unfold failI. keep. Qed.
Lemma done_keeps : forall v i, keeps I (done ST v i).
Proof. intros. unfold done. keep. Qed.
Lemma keep_keeps : forall e i, keeps I (Eval.keep ST e i).
Proof. intros. unfold Eval.keep. keep. Qed.
Hint Resolve fail_keeps failI_keeps done_keeps keep_keeps : core.
Lemma arith_keeps : forall op a b i, keeps I (arith ST op a b i).
Proof. intros. unfold arith. keep. Qed.
Lemma concat_keeps : forall a b i, keeps I (concat ST lambdaText a b i).
Proof. intros. unfold concat. keep. Qed.
Lemma compare_keeps : forall op a b i, keeps I (Eval.compare ST lambdaText op a b i).
Proof. intros. unfold Eval.compare. keep. Qed.
Lemma refLoop_keeps : forall self sel rest pre step l, keeps I (refLoop ST ctrl self sel pre rest step l).
Proof. induction rest; intros; cbn [refLoop]; keep. Qed.
Hint Resolve arith_keeps concat_keeps compare_keeps refLoop_keeps : core.
Lemma refFind_keeps : forall self sel p l, keeps I (refFind ST ctrl self sel p l).
Proof. intros. unfold refFind. keep. Qed.
Hint Resolve refFind_keeps : core.
Lemma tagLoop_keeps : forall self tag sel p l tags o, keeps I (tagLoop ST ctrl self tag sel p l tags o).
Proof. induction tags as [|[[nm lv] n] tags IH]; intros; cbn [tagLoop]; keep. Qed.
Hint Resolve tagLoop_keeps : core.
Lemma evalRef_keeps : forall tag p env l, keeps I (evalRef ST ctrl context tagsOf tag p env l).
Proof.
  intros. unfold evalRef. destruct p as [|p0 pr]; [keep|]. cbv zeta.
  destruct (String.eqb tag ""); [keep|]. destruct (_ || _)%bool; [destruct (_ && _)%bool; keep|].
  intros st a st' E. destruct (tagsOf tag st) as [|[[nm lv] n] r]; [exact (fail_keeps _ _ _ _ _ E)|].
  repeat match type of E with (if ?c then _ else _) _ = _ => destruct c | (if ?c then _ else _) = _ => destruct c end;
    first [exact (fail_keeps _ _ _ _ _ E)|exact (done_keeps _ _ _ _ _ E)|exact (tagLoop_keeps _ _ _ _ _ _ _ _ _ _ E)].
Qed.
Hint Resolve evalRef_keeps : core.
Lemma evalMerge_keeps : forall p r1 r2 r3 n k env, keeps I (evalMerge ST ctrl p r1 r2 r3 n k env).
Proof. intros. unfold evalMerge. keep. Qed.
Lemma evalAuto_keeps : forall p env, keeps I (evalAuto ST ctrl context tagsOf p env).
Proof. intros. unfold evalAuto. keep. Qed.
Lemma staticScope_keeps : forall env, keeps I (staticScope ST ctrl context env).
Proof. intros. unfold staticScope. keep. Qed.
Lemma stubAt_keeps : forall p env, keeps I (stubAt ST ctrl p env).
Proof. intros. unfold stubAt. keep. Qed.
Lemma evalCatchCall_keeps : forall args, keeps I (evalCatchCall ST args).
Proof. intros. unfold evalCatchCall. keep. Qed.
Lemma evalSyncCall_keeps : forall args, keeps I (evalSyncCall ST args).
Proof. intros. unfold evalSyncCall. keep. Qed.
Lemma evalType_keeps : forall args, keeps I (evalType ST args).
Proof. intros. unfold evalType. keep. Qed.
Lemma callResult_keeps : forall self i r x, keeps I (callResult ST self i r x).
Proof. intros. unfold callResult. keep. Qed.
Hint Resolve evalRef_keeps evalMerge_keeps evalAuto_keeps staticScope_keeps stubAt_keeps evalCatchCall_keeps
  evalSyncCall_keeps evalType_keeps callResult_keeps : core.

Lemma resolvePush_keeps : forall e i b l, keeps I (resolvePush ST rec e i b l).
Proof. intros. unfold resolvePush. keep. Qed.
Hint Resolve resolvePush_keeps : core.
Lemma resolveInt_keeps : forall e i b l, keeps I (resolveInt ST rec e i b l).
Proof. intros. unfold resolveInt. keep. Qed.
Hint Resolve resolveInt_keeps : core.
Lemma resolveEach_keeps : forall es i b l, keeps I (resolveEach ST rec es i b l).
Proof. induction es; intros; cbn [resolveEach]; keep. Qed.
Hint Resolve resolveEach_keeps : core.
Lemma resolveList_keeps : forall es b l, keeps I (resolveList ST rec es b l).
Proof. intros. unfold resolveList. keep. Qed.
Hint Resolve resolveList_keeps : core.
Lemma operands_keeps : forall mk a b env k, (forall va vb i, keeps I (k va vb i)) ->
  keeps I (operands ST rec mk a b env k).
Proof. intros. unfold operands. keep. Qed.
Hint Resolve operands_keeps : core.
Lemma evalMod_keeps : forall a b env, keeps I (evalMod ST rec a b env).
Proof. intros. unfold evalMod. keep. Qed.
Lemma evalOr_keeps : forall a b env, keeps I (evalOr ST rec a b env).
Proof. intros. unfold evalOr. keep. Qed.
Lemma evalValidOr_keeps : forall a b env, keeps I (evalValidOr ST rec a b env).
Proof. intros. unfold evalValidOr. keep. Qed.
Lemma evalCond_keeps : forall c a b env, keeps I (evalCond ST rec c a b env).
Proof. intros. unfold evalCond. keep. Qed.
Lemma evalLog_keeps : forall c e a b env, keeps I (evalLog ST rec c e a b env).
Proof. intros. unfold evalLog. keep. Qed.
Lemma evalNot_keeps : forall a env, keeps I (evalNot ST rec a env).
Proof. intros. unfold evalNot. keep. Qed.
Hint Resolve evalMod_keeps evalOr_keeps evalValidOr_keeps evalCond_keeps evalLog_keeps evalNot_keeps : core.
Lemma evalBound_keeps : forall e env, keeps I (evalBound ST rec e env).
Proof. intros. unfold evalBound. keep. Qed.
Hint Resolve evalBound_keeps : core.
Lemma evalGetRange_keeps : forall a b z env, keeps I (evalGetRange ST rec a b z env).
Proof. intros. unfold evalGetRange. keep. Qed.
Hint Resolve evalGetRange_keeps : core.
Lemma evalRange_keeps : forall a b env, keeps I (evalRange ST rec a b env).
Proof. intros. unfold evalRange. keep. Qed.
Lemma evalSlice_keeps : forall x a b env l, keeps I (evalSlice ST ctrl rec x a b env l).
Proof. intros. unfold evalSlice. keep. Qed.
Hint Resolve evalRange_keeps evalSlice_keeps : core.
Lemma projLoop_keeps : forall id q es env l, keeps I (projLoop ST projSet rec id q es env l).
Proof.
  induction es; intros; cbn [projLoop]; keep.
  intros st x st' E. eapply Itrans; [apply Hproj|eapply Hrec, E].
Qed.
Hint Resolve projLoop_keeps : core.
Lemma evalProj_keeps : forall x id q env l, keeps I (evalProj ST projSet rec x id q env l).
Proof. intros. unfold evalProj. keep. Qed.
Lemma evalList_keeps : forall es env, keeps I (evalList ST rec es env).
Proof. intros. unfold evalList. keep. Qed.
Lemma mapLoop_keeps : forall self l env loc acc, keeps I (mapLoop ST rec self l env loc acc).
Proof. induction l; intros; cbn [mapLoop]; keep. Qed.
Hint Resolve mapLoop_keeps evalProj_keeps evalList_keeps : core.
Lemma evalMap_keeps : forall m env l, keeps I (evalMap ST rec m env l).
Proof. intros. unfold evalMap. keep. Qed.
Hint Resolve evalMap_keeps : core.
Lemma evalScope_keeps : forall m e env l, keeps I (evalScope ST rec m e env l).
Proof. intros. unfold evalScope. keep. Qed.
Lemma evalDyn_keeps : forall m e env l, keeps I (evalDyn ST ctrl rec m e env l).
Proof. intros. unfold evalDyn. keep. Qed.
Lemma evalQual_keeps : forall m e env l, keeps I (evalQual ST ctrl rec m e env l).
Proof. intros. unfold evalQual. keep. Qed.
Lemma evalSubst_keeps : forall t env, keeps I (evalSubst ST rec flowT t env).
Proof. intros. unfold evalSubst. keep. Qed.
Lemma evalMarker_keeps : forall ms e env l, keeps I (evalMarker ST rec ms e env l).
Proof. intros. unfold evalMarker. keep. Qed.
Lemma evalPrefer_keeps : forall e env l, keeps I (evalPrefer ST rec e env l).
Proof. intros. unfold evalPrefer. keep. Qed.
Lemma evalDefaults_keeps : forall ps env l, keeps I (evalDefaults ST rec ps env l).
Proof. induction ps as [|[p [d|]] ps IH]; intros; cbn [evalDefaults]; keep. Qed.
Hint Resolve evalScope_keeps evalDyn_keeps evalQual_keeps evalSubst_keeps evalMarker_keeps evalPrefer_keeps evalDefaults_keeps : core.
Lemma evalLambda_keeps : forall ps va b env l, keeps I (evalLambda ST ctrl context rec ps va b env l).
Proof. intros. unfold evalLambda. keep. Qed.
Lemma evalLambdaRef_keeps : forall ps va b env l, keeps I (evalLambdaRef ST parse rec ps va b env l).
Proof. intros. unfold evalLambdaRef. keep. Qed.
Lemma lambdaEval_keeps : forall lm i c a na args env l, keeps I (lambdaEval ST rec lm i c a na args env l).
Proof. intros. unfold lambdaEval. keep. Qed.
Hint Resolve evalLambda_keeps evalLambdaRef_keeps lambdaEval_keeps : core.
Lemma mapEach_keeps : forall c lm i l env acc, keeps I (mapEach ST rec c lm i l env acc).
Proof. induction l as [|[[kv k] n] l IH]; intros; cbn [mapEach]; keep. Qed.
Hint Resolve mapEach_keeps : core.
Lemma evalMapping_keeps : forall c a lx env, keeps I (evalMapping ST rec c a lx env).
Proof. intros. unfold evalMapping. keep. Qed.
Lemma sumEach_keeps : forall lm i l env acc, keeps I (sumEach ST rec lm i l env acc).
Proof. induction l as [|[[kv k] n] l IH]; intros; cbn [sumEach]; keep. Qed.
Hint Resolve evalMapping_keeps sumEach_keeps : core.
Lemma evalSum_keeps : forall c a lx env, keeps I (evalSum ST rec c a lx env).
Proof. intros. unfold evalSum. keep. Qed.
Lemma evalCatch_keeps : forall a lx env, keeps I (evalCatch ST rec a lx env).
Proof. intros. unfold evalCatch. keep. Qed.
Lemma definedLoop_keeps : forall self l env r, keeps I (definedLoop ST rec self l env r).
Proof. induction l; intros; cbn [definedLoop]; keep. Qed.
Lemma validLoop_keeps : forall self l env r v, keeps I (validLoop ST rec self l env r v).
Proof. induction l; intros; cbn [validLoop]; keep. Qed.
Lemma evalOptional_keeps : forall f args env, keeps I (evalOptional ST rec f args env).
Proof. intros. unfold evalOptional. keep. Qed.
Lemma evalRequire_keeps : forall f args env, keeps I (evalRequire ST rec f args env).
Proof. intros. unfold evalRequire. keep. Qed.
Lemma evalStub_keeps : forall f args env, keeps I (evalStub ST ctrl rec f args env).
Proof. intros. unfold evalStub. keep. Qed.
Lemma evalEval_keeps : forall args env l, keeps I (evalEval ST parse rec args env l).
Proof. intros. unfold evalEval. keep. Qed.
Hint Resolve evalSum_keeps evalCatch_keeps definedLoop_keeps validLoop_keeps evalOptional_keeps evalRequire_keeps evalStub_keeps evalEval_keeps : core.
Lemma evalIntrinsic_keeps : forall n s f args env, keeps I (evalIntrinsic ST ctrl rec n s f args env).
Proof. intros. unfold evalIntrinsic. keep. Qed.
Hint Resolve evalIntrinsic_keeps : core.
Lemma callArgs_keeps : forall f args c n lv env l,
  keeps I (callArgs ST parse rec builtin f args c n lv env l).
Proof. intros. unfold callArgs. keep. Qed.
Hint Resolve callArgs_keeps : core.
Lemma evalCall_keeps : forall f args c env l,
  keeps I (evalCall ST ctrl parse rec builtin f args c env l).
Proof. intros. unfold evalCall. keep. Qed.
Hint Resolve evalCall_keeps : core.
Lemma eval1_keeps : forall e env l,
  keeps I (eval1 ST ctrl context parse N lambdaText tagsOf projGet projSet rec flowT builtin syncEval e env l).
Proof. intros. unfold eval1. destruct e; keep. intros st x st' E. exact (done_keeps _ _ _ _ _ E). Qed.

Lemma forBody_keeps : forall mk sb body env sc st,
  keeps I (forBody ST rec mk sb body env sc st).
Proof. intros. unfold forBody. keep. Qed.
Hint Resolve forBody_keeps : core.
Lemma forLoop_keeps : forall f mk sb body env rs cur st,
  keeps I (forLoop ST rec f mk sb body env rs cur st).
Proof. induction f; intros; cbn [forLoop]; keep. Qed.
Lemma caseFields_keeps : forall c env m f r v, keeps I (caseFields ST rec c env m f r v).
Proof. induction m as [|[k n] m IH]; intros; cbn [caseFields]; keep. Qed.
Hint Resolve caseFields_keeps : core.
Lemma switchCases_keeps : forall c env l, keeps I (switchCases ST ctrl rec c env l).
Proof. induction l; intros; cbn [switchCases]; keep. Qed.
Hint Resolve forLoop_keeps switchCases_keeps : core.
Lemma controlFn_keeps : forall c env, keeps I (controlFn ST ctrl rec c env).
Proof. intros. unfold controlFn, flowFor, flowSwitch. keep. Qed.
End EvalKeeps.

Section FlowKeeps.
Variables interpol ctrl : bool.
Variable reg : registry.
Variable parse : string -> list string -> list string -> option expr.
Variable quote : string -> string.
Variable show : expr -> string.
Variable setTagX : string -> node -> list string -> bool -> ST -> bool * ST.
Variable ev : EV.
Variable ctl : cctx -> binding -> M (node * bool).
Hypothesis Hev : forall e b l, keeps I (ev e b l).
Hypothesis Hctl : forall c b, keeps I (ctl c b).
Hypothesis Htag : forall t n p sc s, I s (snd (setTagX t n p sc s)).

Lemma flowControl_keeps : forall n u env,
  keeps I (flowControl ST ctrl reg ctl n u env).
Proof. intros. unfold flowControl. keep. Qed.
Lemma lookupM_keeps : forall r, keeps I (lookupM ST r).
Proof. intros. unfold lookupM. keep. Qed.
Hint Resolve lookupM_keeps : core.
Lemma inheritedFlags_keeps : forall env, keeps I (inheritedFlags ST ctrl env).
Proof. intros. unfold inheritedFlags. keep. Qed.
Hint Resolve inheritedFlags_keeps : core.
Lemma override_keeps : forall n env so fl r rd m k, keeps I (override ST ctrl n env so fl r rd m k).
Proof. intros. unfold override. keep. Qed.
Hint Resolve override_keeps : core.
Lemma flowExpr_keeps : forall root e env so et,
  keeps I (flowExpr ST interpol ctrl parse quote show ev root e env so et).
Proof.
  intros. unfold flowExpr.
  destruct (match asTemplate e et with Some m => _ | None => None end); keep.
Qed.
Hint Resolve flowControl_keeps flowExpr_keeps : core.

Section RecKeeps.
Variable rec : node -> binding -> bool -> bool -> M node.
Hypothesis Hrec : forall n b so et, keeps I (rec n b so et).
Lemma tagged_keeps : forall n b so et, keeps I (tagged ST ctrl setTagX rec n b so et).
Proof.
  intros. unfold tagged. keep. intros st x st' E.
  match type of E with (let '(_, _) := (if ?c then ?u else ?v) in _) = _ =>
    assert (H : I st (snd (if c then u else v))) by (destruct c; apply Htag);
    destruct (if c then u else v) as [ok s2] end.
  cbn [snd] in H. destruct ok; inversion E; subst; exact H.
Qed.
Hint Resolve tagged_keeps : core.
Lemma mapEntries_keeps : forall m mk mv p so env fl nm un,
  keeps I (mapEntries ST ctrl reg setTagX rec m mk mv p so env fl nm un).
Proof. induction m as [|[k v] m IH]; intros; cbn [mapEntries]; keep. Qed.
Lemma mergeKey_keeps : forall root v env st,
  keeps I (mergeKey ST interpol quote show rec root v env st).
Proof. intros. unfold mergeKey. keep. Qed.
Hint Resolve mapEntries_keeps mergeKey_keeps : core.
Lemma flowMap_keeps : forall root m env so t,
  keeps I (flowMap ST interpol ctrl reg quote show setTagX ctl rec root m env so t).
Proof. intros. unfold flowMap. keep. Qed.
Lemma stepName_keeps : forall i v k env u, keeps I (stepName ST ctrl setTagX rec i v k env u).
Proof. intros. unfold stepName. keep. Qed.
Hint Resolve flowMap_keeps stepName_keeps : core.
Lemma uniqueKeys_keeps : forall l i k env ks, keeps I (uniqueKeys ST ctrl setTagX rec l i k env ks).
Proof. induction l; intros; cbn [uniqueKeys]; keep. Qed.
Lemma listEntries_keeps : forall l i k env u nm, keeps I (listEntries ST ctrl setTagX rec l i k env u nm).
Proof. induction l; intros; cbn [listEntries]; keep. Qed.
Lemma spliceMerges_keeps : forall o root l env st,
  keeps I (spliceMerges ST interpol quote show rec o root l env st).
Proof. induction l; intros; cbn [spliceMerges]; keep. Qed.
Lemma spliceControls_keeps : forall l env p, keeps I (spliceControls ST ctrl reg rec l env p).
Proof. induction l; intros; cbn [spliceControls]; keep. Qed.
Hint Resolve uniqueKeys_keeps listEntries_keeps spliceMerges_keeps spliceControls_keeps : core.
Lemma flowList_keeps : forall root l env t,
  keeps I (flowList ST interpol ctrl reg quote show setTagX rec root l env t).
Proof. intros. unfold flowList. keep. Qed.
Hint Resolve flowList_keeps : core.
Lemma flowNode_keeps : forall root env so et,
  keeps I (flowNode ST interpol ctrl reg parse quote show ev setTagX ctl rec root env so et).
Proof. intros. unfold flowNode. keep. Qed.
End RecKeeps.
Hint Resolve tagged_keeps flowNode_keeps : core.
Lemma flowF_keeps : forall f root env so et,
  keeps I (Flow.flowF ST interpol ctrl reg parse quote show ev setTagX ctl f root env so et).
Proof. induction f; intros; cbn [Flow.flowF]; [apply kfuel|]. now apply flowNode_keeps. Qed.
Lemma flow_keeps : forall f root env so et,
  keeps I (flow ST interpol ctrl reg parse quote show ev setTagX ctl f root env so et).
Proof. intros. unfold flow. apply tagged_keeps. intros. now apply flowF_keeps. Qed.
Hint Resolve flow_keeps : core.
Lemma flowLoop_keeps : forall r f so' n e so,
  keeps I (flowLoop ST interpol ctrl reg parse quote show ev setTagX ctl f r so' n e so).
Proof. induction r; intros; cbn [flowLoop]; [apply kfuel|]. keep. Qed.
Hint Resolve flowLoop_keeps : core.
Lemma envFlow_keeps : forall r f n e so,
  keeps I (envFlow ST interpol ctrl reg parse quote show ev setTagX ctl f r n e so).
Proof. intros. unfold envFlow. keep. Qed.
Hint Resolve envFlow_keeps : core.

Section CascadeKeeps.
Variable parseIssue : string -> issue.
Variables resetStream enter leave : ST -> ST.
Variable pushDocument : node -> ST -> ST.
Hypothesis Hreset : forall s, I s (resetStream s).
Hypothesis Henter : forall s, I s (enter s).
Hypothesis Hleave : forall s, I s (leave s).
Hypothesis Hpush : forall n s, I s (pushDocument n s).
Lemma change_keeps : forall f, (forall s, I s (f s)) -> keeps I (change ST f).
Proof. intros f H s a s' E. inversion E. apply H. Qed.
Hint Resolve change_keeps : core.
Lemma nestedFlow_keeps : forall f r o n st,
  keeps I (nestedFlow ST interpol ctrl reg parse quote show ev setTagX ctl parseIssue enter leave f r o n st).
Proof. intros. unfold nestedFlow. keep. Qed.
Hint Resolve nestedFlow_keeps : core.
Lemma prepareStubs_keeps : forall f r o p l,
  keeps I (prepareStubs ST interpol ctrl reg parse quote show ev setTagX ctl parseIssue resetStream enter leave f r o p l).
Proof. induction l; intros; cbn [prepareStubs]; keep. Qed.
Hint Resolve prepareStubs_keeps : core.
Lemma apply_keeps : forall f r o t p op,
  keeps I (apply ST interpol ctrl reg parse quote show ev setTagX ctl parseIssue enter leave pushDocument f r o t p op).
Proof. intros. unfold apply. keep. Qed.
Hint Resolve apply_keeps : core.
Lemma cascade_keeps : forall f r o t op l,
  keeps I (cascade ST interpol ctrl reg parse quote show ev setTagX ctl parseIssue resetStream enter leave pushDocument f r o t op l).
Proof. intros. unfold cascade. keep. Qed.
End CascadeKeeps.
End FlowKeeps.
End Keeps.

(** the functions given by the world keep the invariant, whatever evaluator and
    flow they are given that keep it *)
Definition keepsWorld {ST} (I : ST -> ST -> Prop) (W : world ST) : Prop :=
  (forall ev ft, (forall e b l, keeps I (ev e b l)) -> (forall n b, keeps I (ft n b)) ->
     forall n es vs b l, keeps I (w_builtin W ev ft n es vs b l)) /\
  (forall ev, (forall e b l, keeps I (ev e b l)) -> forall e b l, keeps I (w_sync W ev e b l)) /\
  (forall t n p sc s, I s (snd (w_setTag W t n p sc s))) /\
  (forall id v s, I s (w_projSet W id v s)).

Section Engine.
Variable ST : Type.
Variable I : ST -> ST -> Prop.
Hypothesis Irefl : forall s, I s s.
Hypothesis Itrans : forall a b c, I a b -> I b c -> I a c.
Variable W : world ST.
Hypothesis KW : keepsWorld I W.

Lemma flowWith_keeps : forall ev f, (forall e b l, keeps I (ev e b l)) -> forall n b so,
  keeps I (flowWith ST W ev f n b so).
Proof.
  intros. unfold flowWith. destruct KW as (K1 & K2 & K3 & K4). apply envFlow_keeps; auto.
  intros. apply controlFn_keeps; auto.
Qed.
Lemma flowTpl_keeps : forall ev f, (forall e b l, keeps I (ev e b l)) -> forall n b,
  keeps I (flowTpl ST W ev f n b).
Proof.
  intros. unfold flowTpl. apply keeps_bind; [exact Itrans|now apply flowWith_keeps|].
  intros. now apply keeps_ret.
Qed.
Lemma evalF_keeps : forall f e b l, keeps I (evalF ST W f e b l).
Proof.
  induction f; intros; cbn [evalF]; [apply keeps_fuel|].
  destruct KW as (K1 & K2 & K3 & K4). apply eval1_keeps; auto.
  - intros. now apply flowTpl_keeps.
  - intros. apply K1; auto. intros. now apply flowTpl_keeps.
Qed.
Lemma flowF_engine_keeps : forall f n b so, keeps I (flowF ST W f n b so).
Proof. intros. unfold flowF. apply flowWith_keeps. intros. apply evalF_keeps. Qed.
End Engine.
