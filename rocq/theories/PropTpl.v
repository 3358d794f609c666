(** C54: templates: substitution of a template, for every evaluator state and environment,
    and of templates with plain content. *)
From Coq Require Import Lia.
From Verif Require Import Core CoreFacts Str StrFacts DecSpec DeepEq DeepEqFacts Equiv EquivFacts Find FindFacts Interp PropInterp Cleanup Unresolved PropUnresolved Env Arith IP Comparison RangeSlice ListFns Flow FlowSpec FlowFacts FlowPass FlowMerge FlowStable Info Eval Control Engine EngineFacts Runs World0.
From Verif Require PropFail PropInfo PropFlow PropFlow2 PropAgg.
Import ListNotations.
Open Scope string_scope. Open Scope list_scope.

Section C54.
Variable ST : Type.
Variable W : world ST.
Hypothesis SW : steadyWorld W.
Notation evaluates := (evaluates ST W).
Notation evalF := (evalF ST W).
Notation ctrl := (w_ctrl W).
Notation context := (w_context W).
Notation gives := (PropFail.gives ST W).
Notation pends := (PropFail.pends ST W).
Notation failing := (PropFail.failing ST W).

(** ** Specification *)
(** the document [n] is processed in [b] until nothing changes any more (C45); its root
    is not overridden by stubs *)
Definition flowsTo (n : node) (b : binding) (s : ST) (n' : node) (s' : ST) : Prop := exists f, flowF ST W f n b false s = Ret n' s'.
(** the environment of a use: the one of the place of use, with the template as [_] *)
Definition useEnv (T : value) (res : binding) (b : binding) : binding :=
  withLocalScope [(SELF, resolverNode (dnode T (b_source b)) res)] b.
(** nodes that still have to be evaluated, or failed (C04) *)
Definition parsesW : string -> bool := parses (w_parse W).
Definition openAt (n : node) (p : list string) (x : node) : Prop := occurs n p x /\ openN parsesW x.
Definition hasReason (x : node) : Prop := i_text (a_issue (ann (report parsesW (w_parseIssue W) x))) <> "".

Lemma flow_fun : forall n b s n1 s1 n2 s2, flowsTo n b s n1 s1 -> flowsTo n b s n2 s2 -> n2 = n1 /\ s2 = s1.
Proof.
  intros n b s n1 s1 n2 s2 H1 H2. apply (runs_fun ST (fun f => flowF ST W f n b false) s n1 s1 n2 s2); [|exact H1|exact H2].
  intros f f' L. now apply flowF_engine_le.
Qed.
Definition substResult (t : expr) (n : node) : R :=
  let u := findUnresolved parsesW (w_parseIssue W) n [] in
  let i := setUndef (a_undefined (ann n)) defaultInfo in
  match u with
  | [] => (val n, setSource (src n) i, true)
  | _ =>
    if existsb (fun x => negb (String.eqb (i_text (a_issue (ann (u_node x)))) "")) u then
      let loc := existsb (fun x => a_error (ann (u_node x))) u in
      (if loc then VNil else VExpr (ESubst t), mkInfo None false false false "" "" loc (existsb (fun x => a_failed (ann (u_node x))) u)
                            (a_undefined (ann n)) false (newIssue "resolution of template failed") 0%N, false)
    else (VExpr (ESubst t), i, true)
  end.
Lemma subst_runs : forall t b l s path content orig res i s1, let T := VTemplate path content orig res in
  evaluates t b false s (T, i, true) s1 -> forall r s',
  evaluates (ESubst t) b l s r s' <-> exists n, flowsTo (nodeCopy content) (useEnv T res b) s1 n s' /\ r = substResult t n.
Proof.
  intros t b l s path content orig res i s1 T E r s'.
  assert (K : forall f n s2, evalF f t b false s = Ret (T, i, true) s1 -> flowF ST W f (nodeCopy content) (useEnv T res b) false s1 = Ret n s2 ->
    stepE ST W f (ESubst t) b l s = Ret (substResult t n) s2).
  { intros f n s2 E1 E2. unfold stepE, eval1, evalSubst. unfold bind at 1. rewrite E1. unfold T. cbn [negb isExpr orb].
    unfold flowTpl. fold (flowF ST W f). unfold bind at 1 2. fold (flowF ST W f).
    change (flowWith ST W (Engine.evalF ST W f) f (nodeCopy content)
      (withLocalScope [(SELF, resolverNode (dnode (VTemplate path content orig res) (b_source b)) res)] b) false s1)
      with (flowF ST W f (nodeCopy content) (useEnv T res b) false s1). rewrite E2. unfold ret at 1. unfold substResult. fold parsesW.
    destruct (findUnresolved parsesW (w_parseIssue W) n []); [reflexivity|].
    destruct (existsb (fun x => negb (String.eqb (i_text (a_issue (ann (u_node x)))) "")) (u :: l0)); reflexivity. }
  rewrite evaluates_step. destruct E as [f1 E]. split.
  - intros [f H]. 
    assert (H' : stepE ST W (Nat.max f f1) (ESubst t) b l s = Ret r s') by (exact (le_ret _ _ _ _ _ _ (evalF_le _ _ SW (S f) (S (Nat.max f f1)) ltac:(lia) (ESubst t) b l) H)).
    assert (E' := le_ret _ _ _ _ _ _ (evalF_le _ _ SW f1 (Nat.max f f1) ltac:(lia) _ _ _) E).
    destruct (flowF ST W (Nat.max f f1) (nodeCopy content) (useEnv T res b) false s1) as [n s2| |] eqn:E2.
    + rewrite (K _ _ _ E' E2) in H'. inversion H'; subst. exists n. split; [exists (Nat.max f f1); exact E2|reflexivity].
    + exfalso. unfold stepE, eval1, evalSubst in H'. unfold bind at 1 in H'. rewrite E' in H'. unfold T in H'. cbn [negb isExpr orb] in H'.
      unfold flowTpl in H'. unfold bind at 1 2 in H'.
      change (flowWith ST W (Engine.evalF ST W (Nat.max f f1)) (Nat.max f f1) (nodeCopy content)
        (withLocalScope [(SELF, resolverNode (dnode (VTemplate path content orig res) (b_source b)) res)] b) false s1)
        with (flowF ST W (Nat.max f f1) (nodeCopy content) (useEnv T res b) false s1) in H'. rewrite E2 in H'. discriminate.
    + exfalso. unfold stepE, eval1, evalSubst in H'. unfold bind at 1 in H'. rewrite E' in H'. unfold T in H'. cbn [negb isExpr orb] in H'.
      unfold flowTpl in H'. unfold bind at 1 2 in H'.
      change (flowWith ST W (Engine.evalF ST W (Nat.max f f1)) (Nat.max f f1) (nodeCopy content)
        (withLocalScope [(SELF, resolverNode (dnode (VTemplate path content orig res) (b_source b)) res)] b) false s1)
        with (flowF ST W (Nat.max f f1) (nodeCopy content) (useEnv T res b) false s1) in H'. rewrite E2 in H'. discriminate.
  - intros (n & [f2 F] & ->). exists (Nat.max f1 f2). apply K.
    + exact (le_ret _ _ _ _ _ _ (evalF_le _ _ SW f1 (Nat.max f1 f2) ltac:(lia) _ _ _) E).
    + exact (le_ret _ _ _ _ _ _ (flowF_engine_le _ _ SW f2 (Nat.max f1 f2) ltac:(lia) _ _ _) F).
Qed.

(** ** use of a template: *t *)
Lemma existsb_reason : forall n, existsb (fun x => negb (String.eqb (i_text (a_issue (ann (u_node x)))) "")) (findUnresolved parsesW (w_parseIssue W) n []) = true <->
  exists p x, openAt n p x /\ hasReason x.
Proof.
  intro n. rewrite existsb_exists. split.
  - intros (u & I & H). apply (fu_spec parsesW (w_parseIssue W)) in I. destruct I as (p & x & _ & O & P & E). exists p, x. split; [split; assumption|].
    unfold hasReason. rewrite <- E. apply negb_true_iff, String.eqb_neq in H. exact H.
  - intros (p & x & [O P] & H). exists (mkUnres (report parsesW (w_parseIssue W) x) p). split.
    + apply (fu_spec parsesW (w_parseIssue W)). exists p, x. auto.
    + apply negb_true_iff, String.eqb_neq. exact H.
Qed.
(** the result is the processed copy of the content, if nothing is open in it; it is
    undecided while something is open without a reason, and fails with a reason *)
Theorem C54_substitution : forall t b l s path content orig res i s1 n s2, let T := VTemplate path content orig res in
  gives b false t s T i s1 -> flowsTo (nodeCopy content) (useEnv T res b) s1 n s2 ->
  ((forall p x, ~ openAt n p x) -> exists j, gives b l (ESubst t) s (val n) j s2 /\ f_undefined j = a_undefined (ann n)) /\
  ((exists p x, openAt n p x) -> (forall p x, openAt n p x -> ~ hasReason x) -> pends b l (ESubst t) s s2) /\
  ((exists p x, openAt n p x /\ hasReason x) -> exists j, failing b l (ESubst t) s j s2).
Proof.
  intros t b l s path content orig res i s1 n s2 T [E V] F.
  assert (H : evaluates (ESubst t) b l s (substResult t n) s2) by (apply (subst_runs t b l s path content orig res i s1 E); eauto).
  pose proof (existsb_reason n) as X. unfold substResult in H. split; [|split].
  - intros N. assert (U : findUnresolved parsesW (w_parseIssue W) n [] = []).
    { apply (C04_success parsesW (w_parseIssue W)). intros p x O P. now apply (N p x). }
    rewrite U in H. eexists. split; [split; [exact H|]|reflexivity].
    intros e E'. apply (N [] n). split; [constructor|]. left. eauto.
  - intros (p & x & O & P) N. destruct (findUnresolved parsesW (w_parseIssue W) n []) as [|u us] eqn:U.
    + exfalso. exact (proj1 (C04_success parsesW (w_parseIssue W) n) U p x O P).
    + destruct (existsb (fun x => negb (String.eqb (i_text (a_issue (ann (u_node x)))) "")) (u :: us)) eqn:Y.
      * exfalso. destruct (proj1 X eq_refl) as (q & y & A & B). exact (N q y A B).
      * do 2 eexists. exact H.
  - intros Y. apply X in Y. destruct (findUnresolved parsesW (w_parseIssue W) n []) as [|u us] eqn:U; [discriminate|]. rewrite Y in H.
    eexists. eexists. exact H.
Qed.
(** there is no other way to a result *)
Theorem C54_only : forall t b l s path content orig res i s1 r s', let T := VTemplate path content orig res in
  gives b false t s T i s1 -> evaluates (ESubst t) b l s r s' ->
  exists n, flowsTo (nodeCopy content) (useEnv T res b) s1 n s' /\ (snd r = true -> (forall e, fst (fst r) <> VExpr e) -> fst (fst r) = val n /\ forall p x, ~ openAt n p x).
Proof.
  intros t b l s path content orig res i s1 r s' T [E V] H. apply (subst_runs t b l s path content orig res i s1 E) in H.
  destruct H as (n & F & ->). exists n. split; [exact F|]. intros H1 H2. unfold substResult in *.
  destruct (findUnresolved parsesW (w_parseIssue W) n []) as [|u us] eqn:U.
  - split; [reflexivity|]. intros p x [O P]. exact (proj1 (C04_success parsesW (w_parseIssue W) n) U p x O P).
  - destruct (existsb (fun x => negb (String.eqb (i_text (a_issue (ann (u_node x)))) "")) (u :: us)); [discriminate|]. now edestruct H2.
Qed.
(** anything but a template *)
Theorem C54_no_template : forall t b l s s1,
  (pends b false t s s1 -> pends b l (ESubst t) s s1) /\
  (forall i, failing b false t s i s1 -> failing b l (ESubst t) s i s1) /\
  (forall v i, gives b false t s v i s1 -> (forall p c o r, v <> VTemplate p c o r) -> failing b l (ESubst t) s (setError "template value required" i) s1).
Proof.
  intros t b l s s1. split; [|split].
  - intros (x & i & f & E). do 2 eexists. apply evaluates_step. exists f. unfold stepE, eval1, evalSubst, bind. rewrite E. reflexivity.
  - intros i (x & f & E). eexists. apply evaluates_step. exists f. unfold stepE, eval1, evalSubst, bind. rewrite E. reflexivity.
  - intros v i [[f E] V] N. exists VNil. apply evaluates_step. exists f. unfold stepE, eval1, evalSubst, bind. rewrite E. cbn [negb orb].
    destruct v; try reflexivity; [now destruct (V e)|now edestruct N].
Qed.
(** ** names in a template: [_] is the template, [_.x] the x of the place of definition,
    every other name is looked up at the place of use *)
Theorem C54_names : forall T res b,
  (exists n, findReference ctrl context [SELF] (useEnv T res b) = FOk n /\ val n = val (dnode T (b_source b))) /\
  (forall x rest, findReference ctrl context (SELF :: x :: rest) (useEnv T res b) = findReference ctrl context (x :: rest) res) /\
  (forall name rest, PropInfo.ordinary name ->
     findReference ctrl context (name :: rest) (useEnv T res b) = findReference ctrl context (name :: rest) b).
Proof.
  intros T res b.
  assert (G : resolveSymbol context (useEnv T res b) SELF = Some (resolverNode (dnode T (b_source b)) res)).
  { unfold resolveSymbol. cbn [String.eqb]. destruct b. reflexivity. }
  split; [|split].
  - exists (resolverNode (dnode T (b_source b)) res). split; [|destruct (dnode T (b_source b)); reflexivity].
    cbn [findReference]. destruct (useEnv T res b) eqn:U. rewrite G. reflexivity.
  - intros x rest. remember (useEnv T res b) as u eqn:U. remember (x :: rest) as q eqn:Q. cbn [findReference].
    assert (Rs : resolver (resolverNode (dnode T (b_source b)) res) = Some res) by (destruct (dnode T (b_source b)); reflexivity).
    destruct u. rewrite G. subst q. cbn [length Nat.eqb negb]. rewrite String.eqb_refl. cbn [andb]. rewrite Rs. reflexivity.
  - intros name rest O. unfold useEnv. rewrite (proj2 (PropInfo.C41_scope ctrl context name rest _ b O)).
    cbn [mget]. destruct O as (N & _). destruct (String.eqb_spec name SELF) as [E|E]; [now destruct N|reflexivity].
Qed.

(** ** templates with plain content *)
Notation plain := (plainDoc ordinaryKey (w_interpol W)).
Section Plain.
Variable fuel : nat.
Variable stubs : list node.
Hypothesis SP : Forall plain stubs.
Hypothesis SF : Forall fitsN stubs.
Notation pass := (passN ctrl stubs).
Notation FL := (flow ST (w_interpol W) ctrl stdReg (w_parse W) (w_quote W) (w_show W) (evalF fuel) (w_setTag W) (controlFn ST ctrl (evalF fuel))).
Notation LOOP := (flowLoop ST (w_interpol W) ctrl stdReg (w_parse W) (w_quote W) (w_show W) (evalF fuel) (w_setTag W) (controlFn ST ctrl (evalF fuel))).
Lemma okLk : forall p, okP p -> lookupStubs ctrl stubs p <> FPanic.
Proof. intros p. apply (lk_nopanic (w_interpol W) ctrl stubs SP SF). Qed.
Lemma okKey : forall p k, okP p -> ordinaryKey k -> okP (p ++ [k]).
Proof. intros. apply okP_app; [assumption|apply ok_ordinary; assumption]. Qed.
Lemma okIdx : forall p i, okP p -> (0 <= i <= max64)%Z -> okP (p ++ [idx i]).
Proof. intros. apply okP_app; [assumption|apply ok_index; assumption]. Qed.
Lemma okName : forall p x, okP p -> okP (p ++ [("name:" +++ x)%string]).
Proof. intros. apply okP_app; [assumption|apply ok_named]. Qed.
Lemma round : forall k n env so p s, plain n -> fitsN n -> (depth n <= k)%nat -> okP p -> benv stubs env p ->
  FL k n env so false s = Ret (pass so p n) s.
Proof.
  intros k n env so p s P Fi D O B. unfold flow.
  apply (good_tagged ST (w_interpol W) ctrl (w_setTag W) ordinaryKey stubs SP okP
    (Flow.flowF ST (w_interpol W) ctrl stdReg (w_parse W) (w_quote W) (w_show W) (evalF fuel) (w_setTag W) (controlFn ST ctrl (evalF fuel)) k) k); try assumption.
  apply (flowF_plain ST (w_interpol W) ctrl stdReg (w_parse W) (w_quote W) (w_show W) (evalF fuel) (w_setTag W) (controlFn ST ctrl (evalF fuel)) ordinaryKey ordinary_quiet stubs SP okP okLk okKey okIdx okName).
Qed.
Lemma plainPass : forall n so p, plain n -> plain (pass so p n).
Proof. intros n so p P. apply (pass_plain (w_interpol W) ctrl ordinaryKey stubs SP); exact P. Qed.
Lemma step1 : forall f k src0 n e so p s, plain n -> fitsN n -> (depth n <= f)%nat -> okP p -> benv stubs e p ->
  LOOP f (S k) src0 n e so s = (if deepEqN n (pass so p n) then Ret n s else LOOP f k src0 (pass so p n) e so s).
Proof.
  intros f k src0 n e so p s P Fi D O B. cbn [flowLoop]. unfold bind. rewrite (round f n _ so p); try assumption.
  2:{ destruct (val src0); try exact B. apply benv_list, B. }
  rewrite (proj1 (proj2 (plain_tag ordinaryKey (w_interpol W) _ (plainPass n so p P)))).
  unfold updateBinding. rewrite (mapBelow_plain ordinaryKey (w_interpol W) _ _ (plainPass n so p P)).
  destruct (deepEqN n (pass so p n)); reflexivity.
Qed.
Lemma more1 : forall f k src0 n e so p s r, plain n -> fitsN n -> (depth n <= f)%nat -> okP p -> benv stubs e p ->
  (pass so p n = n -> n = r) -> LOOP f k src0 (pass so p n) e so s = Ret r s -> LOOP f (S k) src0 n e so s = Ret r s.
Proof.
  intros f k src0 n e so p s r P Fi D O B E L. rewrite (step1 f k src0 n e so p s) by assumption.
  destruct (deepEqN n (pass so p n)) eqn:Q; [|exact L].
  apply (deepEq_plain ordinaryKey (w_interpol W)) in Q; [|exact P|apply plainPass, P]. rewrite <- E; congruence.
Qed.
Definition twice (so : bool) (p : list string) (n : node) : node := pass so p (pass so p n).
Lemma twice_loop : forall f rounds src0 n e so p s, plain n -> fitsN n -> steadyLists n -> okP p -> benv stubs e p ->
  (Nat.max (depth n) (Nat.max (depth (pass so p n)) (depth (twice so p n))) <= f)%nat -> (3 <= rounds)%nat ->
  LOOP f rounds src0 n e so s = Ret (twice so p n) s.
Proof.
  intros f rounds src0 n e so p s P Fi St O B D R.
  assert (P1 := plainPass n so p P). assert (P2 := plainPass _ so p P1).
  assert (F1 : fitsN (pass so p n)) by (apply (fits_pass ctrl stubs SF), Fi).
  assert (F2 : fitsN (twice so p n)) by (apply (fits_pass ctrl stubs SF), F1).
  pose proof (stable_first (w_interpol W) ctrl stubs SP SF n so p P Fi St O) as Sb.
  destruct (stable_pass ctrl stubs _ _ _ Sb) as [_ Sp].
  destruct rounds as [|[|[|k]]]; try lia.
  apply (more1 f _ src0 n e so p); auto; [lia|intros E; unfold twice; now rewrite !E|].
  apply (more1 f _ src0 (pass so p n) e so p); auto; [lia|].
  rewrite (step1 f k src0 (twice so p n) e so p) by (auto; lia). unfold twice. rewrite Sp, (deepEq_refl ordinaryKey (w_interpol W) _ P2). reflexivity.
Qed.
Lemma twice_merges : forall so p n, plain n -> fitsN n -> steadyLists n -> okP p -> merges ctrl stubs so p n (twice so p n).
Proof.
  intros so p n P Fi St O. pose proof (stable_first (w_interpol W) ctrl stubs SP SF n so p P Fi St O) as Sb.
  destruct (stable_pass ctrl stubs _ _ _ Sb) as [Sd _]. apply (merges_pass (w_interpol W) ctrl stubs SP SF); auto.
Qed.
End Plain.

(** the copy is the same plain document *)
Lemma plain_shape : forall v a s t r, plain (mkNode v a s t r) -> isLeaf v -> leaf (w_interpol W) v.
Proof.
  intros v a s t r P [L1 L2]. inversion P as [v0 s0 H|l a0 s0 Ha Hl|m s0 H1 H2 H3]; subst; [exact H|now edestruct L1|now edestruct L2].
Qed.
Lemma copy_leaf : forall v a s t r, leaf (w_interpol W) v -> nodeCopy (mkNode v a s t r) = mkNode v emptyAnn s None None.
Proof. intros v a s t r H. destruct H; reflexivity. Qed.
Lemma plain_list_inv : forall l a s t r, plain (mkNode (VList l) a s t r) -> Forall plain l.
Proof. intros l a s t r P. inversion P as [v0 s0 H|l0 a0 s0 Ha Hl|]; subst; [inversion H|exact Hl]. Qed.
Lemma plain_map_inv : forall m a s t r, plain (mkNode (VMap m) a s t r) -> msorted m /\ Forall (fun kv => ordinaryKey (fst kv)) m /\ Forall (fun kv => plain (snd kv)) m.
Proof. intros m a s t r P. inversion P as [v0 s0 H| |m0 s0 H1 H2 H3]; subst; [inversion H|auto]. Qed.
Definition copyKV (kv : string * node) : string * node := match kv with (k, x) => (k, nodeCopy x) end.
Lemma copy_list : forall l a s t r, nodeCopy (mkNode (VList l) a s t r) = mkNode (VList (map nodeCopy l)) emptyAnn s None None.
Proof. reflexivity. Qed.
Lemma copy_map : forall m a s t r, nodeCopy (mkNode (VMap m) a s t r) = mkNode (VMap (map copyKV m)) emptyAnn s None None.
Proof. reflexivity. Qed.
Lemma copy_same : forall n, plain n -> sameDoc (nodeCopy n) n.
Proof.
  unfold sameDoc. induction n as [v a s t r IH] using node_ind'. intro P. destruct (leaf_dec v) as [L|[[l ->]|[m ->]]].
  - rewrite copy_leaf by (eapply plain_shape; eassumption). destruct L as [L1 L2]. destruct v; try reflexivity.
  - apply plain_list_inv in P. rewrite copy_list. cbn [data]. f_equal. f_equal. cbn in IH.
    rewrite map_map. apply map_ext_in. intros x I. rewrite Forall_forall in *. auto.
  - apply plain_map_inv in P. destruct P as (_ & _ & P). rewrite copy_map. cbn [data]. f_equal. f_equal. cbn in IH.
    rewrite map_map. apply map_ext_in. intros [k x] I. cbn [copyKV]. f_equal. rewrite Forall_forall in *. exact (IH (k, x) I (P (k, x) I)).
Qed.
Lemma copy_keys : forall m, map fst (map copyKV m) = map fst m.
Proof. intro m. rewrite map_map. apply map_ext. now intros [k x]. Qed.
Lemma copy_sorted : forall m, msorted m -> msorted (map copyKV m).
Proof.
  induction m as [|[k x] m IH]; [trivial|]. intros [H1 H2]. cbn [map copyKV msorted]. split; [|now apply IH].
  rewrite copy_keys. exact H1.
Qed.
Lemma Forall_copy : forall (P : node -> Prop) m, Forall (fun kv => P (nodeCopy (snd kv))) m -> Forall (fun kv => P (snd kv)) (map copyKV m).
Proof. intros P m H. apply Forall_map. eapply Forall_impl; [|exact H]. now intros [k x]. Qed.
Lemma copy_plain : forall n, plain n -> plain (nodeCopy n).
Proof.
  induction n as [v a s t r IH] using node_ind'. intro P. destruct (leaf_dec v) as [L|[[l ->]|[m ->]]].
  - pose proof (plain_shape _ _ _ _ _ P L) as H. rewrite copy_leaf by exact H. now apply PD_leaf.
  - apply plain_list_inv in P. rewrite copy_list. apply PD_list; [now left|]. cbn in IH. apply Forall_map.
    rewrite Forall_forall in *. auto.
  - apply plain_map_inv in P. destruct P as (P1 & P2 & P3). rewrite copy_map. cbn in IH. apply PD_map.
    + apply copy_sorted, P1.
    + apply Forall_map. eapply Forall_impl; [|exact P2]. now intros [k x].
    + apply (Forall_copy plain). rewrite Forall_forall in *. intros kv I. apply (IH kv I), P3, I.
Qed.
Lemma copy_fits : forall n, plain n -> fitsN n -> fitsN (nodeCopy n).
Proof.
  induction n as [v a s t r IH] using node_ind'. intros P F. destruct (leaf_dec v) as [L|[[l ->]|[m ->]]].
  - rewrite copy_leaf by (eapply plain_shape; eassumption). destruct L as [L1 L2]. destruct v; exact F.
  - apply plain_list_inv in P. rewrite copy_list. apply fits_list. apply fits_list in F. destruct F as [F1 F2]. rewrite map_length.
    split; [exact F1|]. apply Forall_map. cbn in IH. rewrite Forall_forall in *. auto.
  - apply plain_map_inv in P. destruct P as (_ & _ & P3). rewrite copy_map. apply fits_map. apply fits_map in F. apply (Forall_copy fitsN).
    cbn in IH. rewrite Forall_forall in *. intros kv I. apply (IH kv I); auto.
Qed.
Lemma copy_named : forall n x, named n x -> named (nodeCopy n) x.
Proof.
  intros [v a s t r] x (m & c & E & I & V). cbn [val] in E. subst v. rewrite copy_map.
  exists (map copyKV m), (nodeCopy c). split; [reflexivity|]. split; [exact (in_map copyKV _ _ I)|].
  destruct c as [w]. cbn [val] in V. subst w. reflexivity.
Qed.
Lemma copy_nameless : forall n, nameless n -> nameless (nodeCopy n).
Proof.
  intros [v a s t r] N m c E I. destruct v; try discriminate E. rewrite copy_map in E. cbn [val] in E. injection E as E. subst m.
  apply in_map_iff in I. destruct I as ([k y] & E & I). cbn in E. injection E as -> _. exact (N _ _ eq_refl I).
Qed.
Lemma copy_steady : forall n, plain n -> steadyLists n -> steadyLists (nodeCopy n).
Proof.
  induction n as [v a s t r IH] using node_ind'. intros P S. destruct (leaf_dec v) as [L|[[l ->]|[m ->]]].
  - rewrite copy_leaf by (eapply plain_shape; eassumption). destruct L. now apply SL_leaf.
  - apply plain_list_inv in P. rewrite copy_list. apply steady_list in S. destruct S as [S1 S2].
    apply (SL_list _ (map nodeCopy l)); [reflexivity| |].
    + destruct S1 as [(names & F2 & ND)|(x & I & N)].
      * left. exists names. split; [|exact ND]. clear - F2. induction F2; [constructor|]. constructor; [now apply copy_named|assumption].
      * right. exists (nodeCopy x). split; [now apply in_map|now apply copy_nameless].
    + apply Forall_map. cbn in IH. rewrite Forall_forall in *. auto.
  - apply plain_map_inv in P. destruct P as (_ & _ & P3). rewrite copy_map. apply steady_map in S.
    apply (SL_map _ (map copyKV m)); [reflexivity|]. apply (Forall_copy steadyLists).
    cbn in IH. rewrite Forall_forall in *. intros kv I. apply (IH kv I); auto.
Qed.

(** ** the place a template is used at decides about the overriding *)
(** [usedAt b stubs path]: [b] is the environment of a field [path] that is merged with [stubs] *)
Definition usedAt (b : binding) (stubs : list node) (path : list string) : Prop :=
  b_stubs b = stubs /\ b_stubPath b = path /\ b_nomerge b = false.
(** plain documents: C01, C02 *)
Definition plainTemplate (n : node) : Prop := plain n /\ fitsN n /\ steadyLists n.
(** the content of a plain template is merged with what the stubs say about the place of
    use; the root itself is not overridden; the state is not touched *)
Theorem C54_plain : forall t b l s path content orig res i s1 stubs q, let T := VTemplate path content orig res in
  gives b false t s T i s1 -> plainTemplate content -> usedAt b stubs q -> okP q -> Forall plain stubs -> Forall fitsN stubs ->
  sameDoc (nodeCopy content) content /\
  exists r j, merges ctrl stubs false q (nodeCopy content) r /\ gives b l (ESubst t) s (val r) j s1.
Proof.
  intros t b l s path content orig res i s1 stubs q T G (P & Fi & St) (B1 & B2 & B3) O SP SF. split; [apply copy_same, P|].
  assert (P' := copy_plain _ P). assert (F' := copy_fits _ P Fi). assert (S' := copy_steady _ P St).
  set (r := twice stubs false q (nodeCopy content)).
  assert (Pr : plain r) by (apply plainPass; [exact SP|apply plainPass; [exact SP|exact P']]).
  exists r. assert (F : flowsTo (nodeCopy content) (useEnv T res b) s1 r s1).
  { set (f := (3 + Nat.max (depth (nodeCopy content)) (Nat.max (depth (passN ctrl stubs false q (nodeCopy content))) (depth r)))%nat).
    exists f. unfold flowF, flowWith, envFlow, bind.
    assert (Be : benv stubs (useEnv T res b) q).
    { unfold useEnv, withLocalScope, benv. destruct b. cbn in *. auto. }
    rewrite (twice_loop f stubs SP SF f f (nodeCopy content) (nodeCopy content) (useEnv T res b) false q s1 P' F' S' O Be) by (unfold f; fold r; lia).
    fold r. unfold ret, deactivateScopes. rewrite (mapBelow_plain ordinaryKey (w_interpol W) _ _ Pr). reflexivity. }
  destruct (C54_substitution t b l s path content orig res i s1 r s1 G F) as (H & _).
  destruct H as (j & H & _).
  - intros p x [H1 H2]. revert H1 H2. apply (C04_success parsesW (w_parseIssue W)). now apply (unresolved_plain ordinaryKey (w_interpol W)).
  - exists j. split; [|exact H]. apply (twice_merges stubs SP SF false q); assumption.
Qed.
(** a template with a single value gives that value, whatever the stubs say about the place *)
Theorem C54_scalar : forall t b l s path content orig res i s1 stubs q, let T := VTemplate path content orig res in
  gives b false t s T i s1 -> plainTemplate content -> isLeafN content -> usedAt b stubs q -> okP q -> Forall plain stubs -> Forall fitsN stubs ->
  exists j, gives b l (ESubst t) s (val content) j s1.
Proof.
  intros t b l s path content orig res i s1 stubs q T G P L U O SP SF.
  destruct (C54_plain t b l s path content orig res i s1 stubs q G P U O SP SF) as (_ & r & j & M & H). exists j.
  assert (E : val r = val content); [|now rewrite <- E].
  destruct P as (P & _). destruct content as [v a sr tg re]. rewrite copy_leaf in M by (apply (plain_shape _ _ _ _ _ P); exact L).
  destruct L as [L1 L2]. cbn [val] in *.
  inversion M as [? ? ? m ? m' E1|? ? ? l0 ? ? ? E1|? ? ? ? _ _ _ E|]; subst; [exact (False_ind _ (L2 _ E1))|exact (False_ind _ (L1 _ E1))|exact E].
Qed.
(** if no stub says anything about the place, the content is used as it is written *)
Theorem C54_verbatim : forall t b l s path content orig res i s1 stubs q, let T := VTemplate path content orig res in
  gives b false t s T i s1 -> plainTemplate content -> usedAt b stubs q -> okP q -> Forall plain stubs -> Forall fitsN stubs ->
  (forall more, undefined ctrl stubs (q ++ more)) ->
  exists r j, sameDoc r content /\ gives b l (ESubst t) s (val r) j s1.
Proof.
  intros t b l s path content orig res i s1 stubs q T G P U O SP SF N.
  destruct (C54_plain t b l s path content orig res i s1 stubs q G P U O SP SF) as (Sa & r & j & M & H). exists r, j. split; [|exact H].
  unfold sameDoc in *. rewrite <- Sa. eapply PropFlow.merges_keep; eassumption.
Qed.

(** ** definition of a template: nothing in it is evaluated *)
(** [reads v b e]: the text of the node is the expression [e] *)
Definition reads (v : node) (b : binding) (e : expr) : Prop :=
  ann v = emptyAnn /\ (exists t, val v = VStr t) /\
  exists sub, embeddedDynaml (w_quote W) v (w_interpol W) = Some sub /\ w_parse W sub (b_path b) (b_stubPath b) = Some e.
(** nothing in the stubs at the place of the node *)
Definition noStub (b : binding) : Prop := findInStubs ctrl b (b_stubPath b) = FNo.
Notation FL f := (Flow.flowF ST (w_interpol W) ctrl stdReg (w_parse W) (w_quote W) (w_show W) (evalF f) (w_setTag W) (controlFn ST ctrl (evalF f))).
Lemma entries_raw : forall rec m mk so env new und s, msorted m -> Forall (fun kv => a_undefined (ann (snd kv)) = false) m ->
  exists new', mapEntries ST ctrl stdReg (w_setTag W) rec m mk None false so env 0%N new und s = Ret (new', und) s /\
    forall k, mget k new' = if String.eqb k mk then mget k new else match mget k m with Some v => Some v | None => mget k new end.
Proof.
  intros rec m mk so env. induction m as [|[k0 v0] m IH]; intros new und s So U.
  - exists new. split; [reflexivity|]. intro k. now destruct (String.eqb k mk).
  - inversion U as [|? ? U1 U2]; subst. cbn [snd] in U1. destruct So as [S1 S2]. cbn [mapEntries].
    destruct (String.eqb k0 mk) eqn:E.
    + destruct (IH new und s S2 U2) as (n' & R & G). exists n'. split; [exact R|]. intro k. rewrite G.
      destruct (String.eqb k mk) eqn:K; [reflexivity|]. cbn [mget]. destruct (String.eqb_spec k k0) as [->|]; [congruence|reflexivity].
    + rewrite U1. destruct (IH (mset k0 v0 new) und s S2 U2) as (n' & R & G). exists n'. split; [exact R|]. intro k. rewrite G.
      destruct (String.eqb k mk) eqn:K.
      * apply mget_mset_other. intros ->. congruence.
      * cbn [mget]. destruct (String.eqb_spec k k0) as [->|N]; [|destruct (mget k m); [reflexivity|now apply mget_mset_other]].
        destruct (mget k0 m) eqn:Q; [|apply mget_mset_same]. exfalso. apply mget_In in Q. 
        assert (X : String.compare k0 k0 = Lt) by (apply S1; apply in_map_iff; eexists; split; [|exact Q]; reflexivity).
        rewrite scmp_refl in X. discriminate.
Qed.
Theorem C54_define_map : forall f n root m v b so et s, (2 <= n)%nat ->
  val root = VMap m -> ann root = emptyAnn -> msorted m -> mget "<<" m = Some v -> mget MERGEKEY m = None ->
  Forall (fun kv => fst kv = "<<" \/ quietKey (fst kv)) m -> Forall (fun kv => a_undefined (ann (snd kv)) = false) m ->
  reads v (withScope m b) (EMarker [TEMPLATE_M] None) -> noStub b ->
  exists r content, FL f n root b so et s = Ret r s /\
    val r = VTemplate (b_path b) (newNode (VMap content) (src root)) root b /\
    forall k, mget k content = if String.eqb k "<<" then None else mget k m.
Proof.
  intros f n root m v b so et s L V A So G1 G2 Q U (A2 & (t & Vv) & sub & E1 & E2) NS.
  destruct n as [|[|n]]; try lia.
  assert (GC : getControl ctrl stdReg root [] = CtlNone).
  { unfold getControl. rewrite V. destruct ctrl; [|reflexivity]. rewrite app_nil_r.
    assert (X : forall c o fi, exists fi', scanControl stdReg m c o fi = Some (c, o, fi')).
    { clear - Q. induction Q as [|[k x] m H Q IH]; intros c o fi; [eexists; reflexivity|]. cbn [scanControl]. cbn [fst] in H.
      destruct H as [->|[H _]]; [cbn; apply IH|]. unfold ctlKey. destruct (hasPrefix k "<<") eqn:P; [|apply IH].
      exfalso. apply H. now apply hasPrefix_spec. }
    destruct (X None [] []) as (fi & ->). reflexivity. }
  remember (S n) as n1 eqn:N1. cbn [Flow.flowF]. unfold flowNode at 1. rewrite A. cbn [a_redirect a_replace a_merged emptyAnn andb]. rewrite V. cbn [isExpr negb andb]. rewrite GC.
  unfold flowMap. unfold bind at 1. unfold inheritedFlags. unfold bind at 1. unfold lookupM. unfold noStub in NS. rewrite NS. unfold ret at 1 2. cbv beta iota.
  rewrite G1, G2. unfold mergeKey. unfold bind at 1 2.
  assert (R : FL f n1 v (withScope m b) false false s = Ret (substituteNodeV (VExpr (EMarker [TEMPLATE_M] None)) v) s).
  { rewrite N1. cbn [Flow.flowF]. unfold flowNode. rewrite A2. cbn [a_redirect a_replace a_merged emptyAnn]. rewrite Vv. cbn [isExpr negb andb].
    unfold flowString. rewrite E1. rewrite E2. destruct v. reflexivity. }
  rewrite R.
  assert (AU : a_undefined (ann (substituteNodeV (VExpr (EMarker [TEMPLATE_M] None)) v)) = false).
  { destruct v as [vv va vs vt vr]. cbn in A2. subst va. reflexivity. }
  assert (AV : val (substituteNodeV (VExpr (EMarker [TEMPLATE_M] None)) v) = VExpr (EMarker [TEMPLATE_M] None)) by (destruct v; reflexivity).
  rewrite AU, AV. cbn [asTemplate]. rewrite Vv. 
  change (mkHas TEMPLATE_M ([TEMPLATE_M], None)) with true. cbv beta iota. cbn [templateExpression snd]. unfold ret at 1. cbv beta iota.
  cbn [ms_flags ms_tag ms_template ms_processed ms_merged ms_val ms_env ms_redirect ms_replace ms_base ms_err ms_add andb negb].
  change (N.lor 0 (mkFlags ([TEMPLATE_M], None))) with 0%N.
  destruct (entries_raw (FL f n1) m "<<" true (withScope m b) [] [] s So U) as (content & EC & GT).
  unfold bind at 1. rewrite EC. cbv beta iota. rewrite A.
  cbn [a_redirect a_replace a_failed a_tag emptyAnn]. change (mkTagOf ([TEMPLATE_M], None)) with "". cbn [String.eqb].
  unfold bind. unfold flowControl. unfold getControl at 1.
  assert (VR : forall x, val (redirectNode x root None) = massage x) by (intro x; destruct root; reflexivity).
  rewrite VR. cbn [massage]. unfold ret. eexists. exists content. split; [reflexivity|]. split.
  - unfold updateNode. cbn [N.lor]. rewrite N.eqb_refl. cbn [String.eqb orb]. rewrite VR. cbn [massage]. f_equal. destruct b. reflexivity.
  - intro k. rewrite GT. destruct (String.eqb k "<<"); [reflexivity|]. destruct (mget k m); reflexivity.
Qed.
(** once defined, the template stays as it is *)
Theorem C54_defined : forall f n root path c o r b so et s, val root = VTemplate path c o r -> ann root = emptyAnn -> noStub b ->
  FL f (S n) root b so et s = Ret root s.
Proof.
  intros f n root path c o r b so et s V A NS. cbn [Flow.flowF]. unfold flowNode. rewrite A. cbn [a_redirect a_replace a_merged emptyAnn].
  rewrite V. cbn [isExpr negb andb]. unfold override. destruct (negb false && standardOverride root && so && negb (b_nomerge b)); [|reflexivity].
  unfold bind, lookupM. rewrite NS. reflexivity.
Qed.
(** a template written as a single expression: its content is the text of the expression *)
Theorem C54_define_expression : forall f n root x b so et s, val root = VExpr (EMarker [TEMPLATE_M] (Some x)) -> ann root = emptyAnn -> tmpl root = None -> noStub b ->
  exists r c env, FL f (S n) root b so et s = Ret r s /\
    val r = VTemplate (b_path b) c root env /\ val c = VStr ("(( " +++ w_show W x +++ " ))") /\
    b_scopes env = b_scopes b /\ b_path env = b_path b.
Proof.
  intros f n root x b so et s V A T NS. cbn [Flow.flowF]. unfold flowNode. rewrite A. cbn [a_redirect a_replace a_merged emptyAnn].
  rewrite V. cbn [isExpr negb andb]. unfold flowExpr. cbn [asTemplate].
  change (mkTagOf ([TEMPLATE_M], Some x)) with "". cbn [String.eqb negb andb].
  change (mkHas TEMPLATE_M ([TEMPLATE_M], Some x)) with true. cbv iota. cbn [templateExpression snd fst].
  set (env := if String.eqb (src root) (b_source b) then b else withSource (src root) b).
  change (mkFlags ([TEMPLATE_M], Some x)) with 0%N. unfold nflags. rewrite A. cbn [a_flags emptyAnn]. 
  change (N.lor (N.lor 0%N 0%N) (f_flags defaultInfo)) with 0%N. change (fDynamic 0%N) with false. cbn [andb negb]. rewrite T.
  cbn [a_replace a_preferred a_merged a_keyName a_redirect emptyAnn].
  unfold resultNode. cbn [f_source f_issue f_undefined f_preferred f_keyName f_redirect f_replace f_merged defaultInfo noIssue i_text String.eqb orb newNode massage].
  cbn [ann emptyAnn a_tag]. rewrite A. cbn [emptyAnn a_tag]. unfold updateNode. cbn [N.lor nflags newNode ann emptyAnn a_flags].
  change ((0 =? 0)%N) with true. cbn [String.eqb orb isExpr newNode val ann emptyAnn a_merged a_preferred a_replace negb].
  set (c := addFlags _ _). assert (VC : val c = VStr ("(( " +++ w_show W x +++ " ))")) by (unfold c; destruct root; reflexivity).
  assert (B1 : b_scopes env = b_scopes b /\ b_path env = b_path b) by (unfold env; destruct (String.eqb (src root) (b_source b)), b; split; reflexivity).
  assert (OV : forall nd, override ST ctrl nd b so 0%N false None false "" s = Ret nd s).
  { intro nd. unfold override. destruct (negb false && standardOverride nd && so && negb (b_nomerge b)); [|reflexivity].
    unfold bind, lookupM. rewrite NS. reflexivity. }
  eexists. exists c, env. split; [destruct so; cbn [negb orb]; [apply OV|reflexivity]|]. destruct B1 as [B1 B2]. rewrite B2. auto.
Qed.
End C54.

(** ** Examples *)
Definition tbl (s : string) : option expr := let s := trimSpace s in if String.eqb s "x" then Some (ERef "" ["x"]) else if String.eqb s "_.x" then Some (ERef "" ["_"; "x"]) else None.
Definition W1 := world0 tbl.
Definition nl (vs : list value) : value := VList (map nd vs).
Definition nm (m : list (string * value)) : value := VMap (map (fun kv => (fst kv, nd (snd kv))) m).
Fixpoint strip (f : nat) (v : value) : value :=
  match f with O => v | S f => match v with
  | VList l => VList (map (fun n => nd (strip f (val n))) l)
  | VMap m => VMap (map (fun kn => (fst kn, nd (strip f (val (snd kn))))) m)
  | _ => v end end.
Definition home : binding := env0 [("x", nd (VInt 100))].
Definition c1 : node := nd (nm [("p", VInt 1); ("q", nm [("r", VStr "y")])]).
Definition c2 : node := nd (VInt 7).
Definition c3 : node := nd (nm [("a", VStr "(( x ))"); ("b", VStr "(( _.x ))")]).
Definition tpl (c : node) : node := nd (VTemplate ["t"] c c home).
Definition use (stub : value) : binding := withScope [("t", tpl c1); ("u", tpl c2); ("v", tpl c3); ("x", nd (VInt 1))]
  (withPath "f" (newEnvironment [nd stub] "template")).
Definition ev (stub : value) (t : string) : value :=
  match evalF _ W1 20 (ESubst (ERef "" [t])) (use stub) false st0 with Ret (v, _, true) _ => strip 9 v | Ret _ _ => VStr "failed" | _ => VStr "?" end.
(** the fields are overridden at the place of use, a single value is not *)
Example ex_plain : ev (nm []) "t" = nm [("p", VInt 1); ("q", nm [("r", VStr "y")])] /\
  ev (nm [("f", nm [("p", VInt 5); ("q", nm [("r", VStr "z")])])]) "t" = nm [("p", VInt 5); ("q", nm [("r", VStr "z")])] /\
  ev (nm [("f", VInt 9)]) "u" = VInt 7.
Proof. vm_compute. repeat split; reflexivity. Qed.
(** x is looked up at the place of use, _.x at the place of definition *)
Example ex_names : ev (nm []) "v" = nm [("a", VInt 1); ("b", VInt 100)].
Proof. vm_compute. reflexivity. Qed.
Example ex_not : ev (nm []) "x" = VStr "failed".
Proof. vm_compute. reflexivity. Qed.
(** the hypotheses of [C54_plain] *)
Example ex_hyp : exists i, PropFail.gives _ W1 (use (nm [("f", nm [("p", VInt 5)])])) false (ERef "" ["t"]) st0 (VTemplate ["t"] c1 c1 home) i st0 /\
  usedAt (use (nm [("f", nm [("p", VInt 5)])])) [nd (nm [("f", nm [("p", VInt 5)])])] ["f"].
Proof. eexists. split; [split; [exists 20%nat; vm_compute; reflexivity|discriminate]|]. vm_compute. auto. Qed.
Ltac plainly := repeat (first [apply PD_list; [auto|] | apply PD_leaf; constructor; apply PropFlow2.lit_short | apply PD_leaf; constructor
           | apply PD_map; [cbn; repeat split; intros k' H; repeat (destruct H as [<-|H]; [reflexivity|]); destruct H
                           | repeat apply Forall_cons; try apply Forall_nil; apply PropFlow2.ord; reflexivity |]
           | apply Forall_cons | apply Forall_nil ]).
Example ex_plainTemplate : plainTemplate _ W1 c1 /\ plainTemplate _ W1 c2 /\ Forall (plainDoc ordinaryKey true) [nd (nm [("f", nm [("p", VInt 5)])])] /\
  Forall fitsN [nd (nm [("f", nm [("p", VInt 5)])])] /\ okP ["f"].
Proof.
  split; [|split; [|split; [|split]]].
  - split; [|split]; [plainly|cbn; unfold max64; repeat split; lia|].
    repeat (first [apply SL_leaf; discriminate | eapply SL_map; [reflexivity|] | apply Forall_cons | apply Forall_nil]).
  - split; [|split]; [plainly|cbn; trivial|apply SL_leaf; discriminate].
  - plainly.
  - repeat constructor; cbn; repeat split.
  - repeat constructor.
Qed.

(** definition and use in a document *)
Definition tbl2 (s : string) : option expr := let s := trimSpace s in
  if String.eqb s "&template" then Some (EMarker [TEMPLATE_M] None) else if String.eqb s "*t" then Some (ESubst (ERef "" ["t"]))
  else if String.eqb s "x" then Some (ERef "" ["x"]) else None.
Definition docT : node := nd (nm [("t", nm [("<<", VStr "(( &template ))"); ("a", VStr "(( x ))")]); ("u", nm [("use", VStr "(( *t ))"); ("x", VInt 3)]); ("x", VInt 1)]).
Example ex_document : exists n s r, flowF _ (world0 tbl2) 20 docT (newEnvironment [] "template") true st0 = Ret n s /\
  find false true ["u"; "use"] n = FOk r /\ strip 3 (val r) = nm [("a", VInt 3)] /\
  exists t p c o h, find false true ["t"] n = FOk t /\ val t = VTemplate p c o h /\ strip 3 (val c) = nm [("a", VStr "(( x ))")].
Proof. do 3 eexists. repeat (split; [vm_compute; reflexivity|]). do 5 eexists. repeat (split; [vm_compute; reflexivity|]). vm_compute. reflexivity. Qed.
Example ex_reads : reads _ (world0 tbl2) (nd (VStr "(( &template ))")) (newEnvironment [] "template") (EMarker [TEMPLATE_M] None) /\
  noStub _ (world0 tbl2) (newEnvironment [] "template").
Proof. split; [|reflexivity]. split; [reflexivity|]. split; [eexists; reflexivity|]. eexists. split; vm_compute; reflexivity. Qed.

Print Assumptions C54_substitution.
Print Assumptions C54_only.
Print Assumptions C54_no_template.
Print Assumptions C54_names.
Print Assumptions C54_plain.
Print Assumptions C54_scalar.
Print Assumptions C54_verbatim.
Print Assumptions C54_define_map.
Print Assumptions C54_defined.
Print Assumptions C54_define_expression.
