(** C52: the evaluation of references, for every environment, document and state. *)
From Coq Require Import Lia.
From Verif Require Import Core CoreFacts Str StrFacts DecSpec DeepEq Equiv EquivFacts Find FindFacts Interp Cleanup Unresolved Env Arith IP Comparison RangeSlice ListFns Flow Info Eval Control Engine EngineFacts Runs World0.
From Verif Require PropFail PropInfo PropNode PropAgg.
Import ListNotations.
Open Scope string_scope. Open Scope list_scope.

(** ** Specification *)
(** a value that can be looked into: no expression, no pending merge *)
Definition settled (ctrl : bool) (v : value) : Prop :=
  match v with VExpr _ => False | VMap m => settledM ctrl m | VList l => settledL l | _ => True end.
(** from [n] the whole path leads through settled nodes *)
Definition clear (raw ctrl : bool) (n : node) (path : list string) : Prop :=
  forall p q, path = p ++ q -> exists x, find raw ctrl p n = FOk x /\ settled ctrl (val x).
(** the first node on the path that is not settled *)
Definition blocked (raw ctrl : bool) (n : node) (path : list string) (x : node) : Prop :=
  find raw ctrl path n = FOk x /\ ~ settled ctrl (val x) /\
  forall p c q, path = p ++ c :: q -> exists y, find raw ctrl p n = FOk y /\ settled ctrl (val y).
Lemma settled_spec : forall ctrl v, isLocallyResolvedValue ctrl v = true <-> settled ctrl v.
Proof. intros ctrl v. destruct v; cbn; try (split; auto; fail); try (split; [discriminate|tauto]); [apply settledL_spec|apply settledM_spec]. Qed.

Section C52.
Variable ST : Type.
Variable W : world ST.
Hypothesis SW : steadyWorld W.
Notation evaluates := (evaluates ST W).
Notation crashes := (crashes ST W).
Notation evalF := (evalF ST W).
Notation ctrl := (w_ctrl W).
Notation context := (w_context W).
(** nothing left to be evaluated in it (C04_resolved) *)
Definition complete (v : value) : Prop := isResolvedV ctrl false v = true.


(** the outcome of looking up a path from [n]; [l]: incomplete values are accepted *)
Inductive outcome := OFound (c : node) | OMissing (path : list string) | OPending (x : node).
Inductive lookup (raw l : bool) (n : node) (path : list string) : outcome -> Prop :=
| L_found c : clear raw ctrl n path -> find raw ctrl path n = FOk c -> l = true \/ complete (val c) -> lookup raw l n path (OFound c)
| L_missing p st q : path = p ++ st :: q -> clear raw ctrl n p -> find raw ctrl (p ++ [st]) n = FNo -> lookup raw l n path (OMissing (p ++ [st]))
| L_blocked p q x : path = p ++ q -> blocked raw ctrl n p x -> lookup raw l n path (OPending x)
| L_incomplete c : clear raw ctrl n path -> find raw ctrl path n = FOk c -> l = false -> ~ complete (val c) -> lookup raw l n path (OPending c).
(** the result for the reference [self] whose path starts with [pre] *)
Definition notFound (path : list string) : string := "'" +++ joinS "." path +++ "' not found".
Definition result (self : expr) (pre : list string) (o : outcome) : R :=
  match o with
  | OFound c => (val c, setKeyName (a_keyName (ann c)) defaultInfo, true)
  | OMissing p => (VNil, setError (notFound (pre ++ p)) defaultInfo, false)
  | OPending x => (VExpr self, setFailed (a_failed (ann x) || a_error (ann x)) (setIssue "unresolved" defaultInfo), true)
  end.

(** ** walking along the path *)
Section Walk.
Variable raw : bool.
Variable self : expr.
Variable sel : list string -> fres.
Variable l : bool.
Lemma clear_here : forall n p, clear raw ctrl n p -> settled ctrl (val n).
Proof. intros n p H. destruct (H [] p eq_refl) as (x & F & X). cbn in F. inversion F; subst. exact X. Qed.
Lemma clear_nil : forall n, settled ctrl (val n) -> clear raw ctrl n [].
Proof. intros n X p q E. destruct p; [|discriminate]. cbn. eauto. Qed.
Lemma clear_cons : forall n s p m, nextStep raw ctrl s n = FOk m -> settled ctrl (val n) ->
  (clear raw ctrl n (s :: p) <-> clear raw ctrl m p).
Proof.
  intros n s p m H X. split.
  - intros C q r ->. destruct (C (s :: q) r eq_refl) as (x & F & Y). cbn in F. rewrite H in F. eauto.
  - intros C [|c q] r E; [cbn; eauto|]. injection E as <- E. cbn. rewrite H. now apply (C q r).
Qed.
Lemma lookup_cons : forall n s p m o, nextStep raw ctrl s n = FOk m -> settled ctrl (val n) ->
  (lookup raw l n (s :: p) o <-> exists o', lookup raw l m p o' /\
     o = match o' with OMissing q => OMissing (s :: q) | _ => o' end).
Proof.
  intros n s p m o H X.
  assert (F : forall q, find raw ctrl (s :: q) n = find raw ctrl q m) by (intro q; cbn; now rewrite H).
  split.
  - intro L. destruct L as [c C E D|p' st q E C N|p' q x E B|c C E D D'].
    + exists (OFound c). split; [|reflexivity]. constructor; [now apply (clear_cons n s)|now rewrite <- F|exact D].
    + destruct p' as [|s' p'].
      * exfalso. injection E as <- E. cbn in N. rewrite H in N. discriminate.
      * injection E as <- E. exists (OMissing (p' ++ [st])). split; [|reflexivity]. econstructor; [exact E| |now rewrite <- F].
        apply (clear_cons n s); assumption.
    + destruct p' as [|s' p'].
      * destruct B as (B & N & _). cbn in B. inversion B; subst. contradiction.
      * injection E as <- E. exists (OPending x). split; [|reflexivity]. eapply L_blocked; [exact E|].
        destruct B as (B & N & K). split; [now rewrite <- F|]. split; [exact N|]. intros a c b E'.
        destruct (K (s :: a) c b) as (y & Y & Z); [cbn; now f_equal|]. rewrite F in Y. eauto.
    + exists (OPending c). split; [|reflexivity]. eapply L_incomplete; [now apply (clear_cons n s)|now rewrite <- F|exact D|exact D'].
  - intros (o' & L & ->). destruct L as [c C E D|p' st q E C N|p' q x E B|c C E D D'].
    + constructor; [now apply (clear_cons n s p m)|now rewrite F|exact D].
    + subst p. change (s :: p' ++ [st]) with ((s :: p') ++ [st]). apply L_missing with (q := q); [reflexivity|now apply (clear_cons n s p' m)|exact (eq_trans (F _) N)].
    + subst p. apply L_blocked with (p := s :: p') (q := q); [reflexivity|]. destruct B as (B & N & K).
      split; [now rewrite F|]. split; [exact N|]. intros [|y a] c b E'; [cbn; eauto|]. injection E' as <- E'. rewrite F. eauto.
    + apply L_incomplete; [now apply (clear_cons n s p m)|now rewrite F|exact D|exact D'].
Qed.
Lemma walk : forall path pre n s r s', (forall q, q <> [] -> sel (pre ++ q) = find raw ctrl q n) -> settled ctrl (val n) ->
  (refLoop ST ctrl self sel pre path (Some n) l s = Ret r s' <->
   s' = s /\ exists o, lookup raw l n path o /\ r = result self pre o).
Proof.
  induction path as [|st path IH]; intros pre n s r s' S X; cbn [refLoop].
  - pose proof (clear_nil _ X) as C.
    assert (G : forall o, lookup raw l n [] o <->
      o = if negb l && negb (isResolvedV ctrl false (val n)) then OPending n else OFound n).
    { intro o. split.
      - intro L. destruct L as [c _ E D|p st q E _ _|p q x E B|c _ E D D'].
        + cbn in E. inversion E; subst. destruct D as [->| ->]; [reflexivity|]. now rewrite Bool.andb_false_r.
        + destruct p; discriminate.
        + destruct p; [|discriminate]. destruct B as (B & N & _). cbn in B. inversion B; subst. contradiction.
        + cbn in E. inversion E; subst. unfold complete in D'. destruct (isResolvedV ctrl false (val c)); [now destruct D'|reflexivity].
      - destruct (negb l && negb (isResolvedV ctrl false (val n))) eqn:E; intros ->.
        + apply andb_prop in E. rewrite !negb_true_iff in E. apply L_incomplete; [exact C|reflexivity|tauto|].
          unfold complete. destruct E as [_ ->]. discriminate.
        + apply L_found; [exact C|reflexivity|]. apply andb_false_iff in E. rewrite !negb_false_iff in E. exact E. }
    split.
    + intro H. assert (Y : s' = s) by (destruct (negb l && negb (isResolvedV ctrl false (val n))); inversion H; reflexivity).
      split; [exact Y|]. eexists. split; [now apply G|].
      destruct (negb l && negb (isResolvedV ctrl false (val n))); inversion H; [reflexivity|]. now destruct n.
    + intros (-> & o & L & ->). apply G in L. subst o.
      destruct (negb l && negb (isResolvedV ctrl false (val n))); [reflexivity|]. now destruct n.
  - rewrite S by discriminate. cbn [find]. destruct (nextStep raw ctrl st n) as [m| |] eqn:N.
    + destruct (isLocallyResolvedValue ctrl (val m)) eqn:L.
      * apply settled_spec in L.
        rewrite (IH (pre ++ [st]) m s r s');
          [|intros q Q; rewrite <- app_assoc, (S ([st] ++ q)) by discriminate; cbn; now rewrite N|exact L].
        split; intros (-> & H); (split; [reflexivity|]).
        -- destruct H as (o & H & ->). exists (match o with OMissing q => OMissing (st :: q) | _ => o end).
           split; [apply (lookup_cons n st path m); eauto|]. destruct o; try reflexivity. cbn. now rewrite <- app_assoc.
        -- destruct H as (o & H & ->). apply (lookup_cons n st path m) in H; [|exact N|exact X]. destruct H as (o' & H & ->).
           exists o'. split; [exact H|]. destruct o'; try reflexivity. cbn. now rewrite <- app_assoc.
      * assert (Q : ~ settled ctrl (val m)) by (intro Q; apply settled_spec in Q; congruence).
        split.
        -- intro H. inversion H; subst. split; [reflexivity|]. exists (OPending m). split; [|reflexivity].
           apply L_blocked with (p := [st]) (q := path); [reflexivity|]. split; [cbn; now rewrite N|]. split; [exact Q|].
           intros [|y a] c b E; [cbn; eauto|]. destruct a; discriminate.
        -- intros (-> & o & H & ->). apply (lookup_cons n st path m) in H; [|exact N|exact X]. destruct H as (o' & H & ->).
           destruct H as [c C E D|p st' q E C M|p q x E (B & Y & K)|c C E D D'];
             try (exfalso; apply Q; exact (clear_here _ _ C)).
           destruct p as [|c p]; [cbn in B; inversion B; subst; reflexivity|].
           destruct (K [] c p eq_refl) as (y & Y1 & Y2). cbn in Y1. inversion Y1; subst. contradiction.
    + split.
      * intro H. inversion H; subst. split; [reflexivity|]. exists (OMissing [st]). split; [|reflexivity].
        apply (L_missing raw l n (st :: path) [] st path); [reflexivity|now apply clear_nil|]. cbn. now rewrite N.
      * intros (-> & o & H & ->).
        assert (Z : forall q x, find raw ctrl (st :: q) n = FOk x -> False) by (intros q x; cbn; rewrite N; discriminate).
        destruct H as [c C E D|p st' q E C M|p q x E (B & Y & K)|c C E D D']; try (now destruct (Z _ _ E)).
        -- destruct p as [|s0 p]; [injection E as <- _; reflexivity|]. injection E as <- E.
           destruct (C [st] p eq_refl) as (y & Y1 & _). now destruct (Z _ _ Y1).
        -- destruct p as [|s0 p]; [cbn in B; inversion B; subst; contradiction|]. injection E as <- E. now destruct (Z _ _ B).
    + split; [discriminate|]. intros (_ & o & H & _). exfalso.
      assert (Z : forall q, find raw ctrl (st :: q) n = FPanic) by (intros q; cbn; now rewrite N).
      destruct H as [c C E D|p st' q E C M|p q x E (B & Y & K)|c C E D D'].
      * now rewrite Z in E.
      * destruct p as [|s0 p]; injection E as <- E; [|destruct (C [st] p eq_refl) as (y & Y1 & _)]; [cbn in M; rewrite N in M; discriminate|].
        now rewrite Z in Y1.
      * destruct p as [|s0 p]; [cbn in B; inversion B; subst; contradiction|]. injection E as <- E. now rewrite Z in B.
      * now rewrite Z in E.
Qed.
(** the same for a walk that starts before [n] *)
Lemma walk_first : forall path pre p n s r s', sel (pre ++ [p]) = FOk n ->
  (forall q, q <> [] -> sel ((pre ++ [p]) ++ q) = find raw ctrl q n) ->
  (refLoop ST ctrl self sel pre (p :: path) None l s = Ret r s' <->
   s' = s /\ exists o, lookup raw l n path o /\ r = result self (pre ++ [p]) o).
Proof.
  intros path pre p n s r s' E S. cbn [refLoop]. rewrite E. destruct (isLocallyResolvedValue ctrl (val n)) eqn:L.
  - apply walk; [exact S|]. now apply settled_spec.
  - assert (Q : ~ settled ctrl (val n)) by (intro Q; apply settled_spec in Q; congruence). split.
    + intro H. inversion H; subst. split; [reflexivity|]. exists (OPending n). split; [|reflexivity].
      apply L_blocked with (p := []) (q := path); [reflexivity|]. split; [reflexivity|]. split; [exact Q|]. intros [|y a] c b X; discriminate.
    + intros (-> & o & H & ->).
      destruct H as [c C F D|p' st' q F C M|p' q x F (B & Y & K)|c C F D D']; try (exfalso; apply Q; exact (clear_here _ _ C)).
      destruct p' as [|c p']; [cbn in B; inversion B; subst; reflexivity|].
      destruct (K [] c p' eq_refl) as (y & Y1 & Y2). cbn in Y1. inversion Y1; subst. contradiction.
Qed.
End Walk.

(** ** plain references *)
(** the definition of a name that is nearest to [b] (C41): in the nearest binding with
    a definition, the innermost scope *)
Definition nearest (name : string) (b : binding) (n : node) : Prop :=
  exists bs before e after pre sc post, PropInfo.outward b bs /\ bs = before ++ e :: after /\
    Forall (fun x => Forall (PropInfo.silent name) (b_scopes x)) before /\
    b_scopes e = pre ++ sc :: post /\ Forall (PropInfo.silent name) pre /\ PropInfo.defines name n sc.
Definition nowhere (name : string) (b : binding) : Prop :=
  exists bs, PropInfo.outward b bs /\ Forall (fun x => Forall (PropInfo.silent name) (b_scopes x)) bs.
Lemma nearest_find : forall name b n rest, PropInfo.ordinary name -> nearest name b n ->
  findReference ctrl context (name :: rest) b = find true ctrl rest n.
Proof.
  intros name b n rest O (bs & before & e & after & pre & sc & post & OW & E & B & S & P & D).
  revert before E B. induction OW as [b Hb|b o l Hb OW IH]; intros before E B.
  - destruct before as [|x before]; [injection E as <- _|destruct before; discriminate].
    now apply (PropInfo.C41_innermost ctrl context name rest pre sc post n b).
  - destruct before as [|x before]; injection E as <- E.
    + now apply (PropInfo.C41_innermost ctrl context name rest pre sc post n b).
    + inversion B; subst. rewrite PropInfo.C41_outer by assumption. rewrite Hb. now apply (IH before).
Qed.
Lemma nowhere_find : forall name b rest, PropInfo.ordinary name -> nowhere name b ->
  findReference ctrl context (name :: rest) b = FNo.
Proof.
  intros name b rest O (bs & OW & B). revert B. induction OW as [b Hb|b o l Hb OW IH]; intro B; inversion B; subst.
  - rewrite PropInfo.C41_outer by assumption. now rewrite Hb.
  - rewrite PropInfo.C41_outer by assumption. rewrite Hb. now apply IH.
Qed.
Lemma eqb_ne : forall a c, a <> c -> String.eqb a c = false.
Proof. intros a c H. now apply String.eqb_neq. Qed.
Lemma evaluates_const : forall e b l s r s' (m : M ST R), (forall f, stepE ST W f e b l = m) ->
  (evaluates e b l s r s' <-> m s = Ret r s').
Proof.
  intros e b l s r s' m H. rewrite evaluates_step. split; [intros [f E]; now rewrite H in E|intro E; exists O; now rewrite H].
Qed.
Definition named (name : string) : Prop := PropInfo.ordinary name /\ name <> "".
(** a name is looked up in the nearest scope that defines it, the rest of the path
    from the node found there *)
Theorem C52_reference : forall name rest b l s n, named name -> nearest name b n ->
  forall r s', evaluates (ERef "" (name :: rest)) b l s r s' <->
    s' = s /\ exists o, lookup true l n rest o /\ r = result (ERef "" (name :: rest)) [name] o.
Proof.
  intros name rest b l s n [O NE] H r s'.
  rewrite (evaluates_const _ _ _ _ _ _ (evalRef ST ctrl context (w_tagsOf W) "" (name :: rest) b l)) by reflexivity.
  cbn [evalRef String.eqb]. rewrite (eqb_ne _ _ NE). unfold refFind.
  apply (walk_first true _ _ l rest [] name n).
  - cbn [app]. rewrite (nearest_find _ _ _ _ O H). reflexivity.
  - intros q Q. cbn [app]. apply (nearest_find _ _ _ _ O H).
Qed.
Theorem C52_unknown : forall name rest b l s, named name -> nowhere name b ->
  forall r s', evaluates (ERef "" (name :: rest)) b l s r s' <->
    s' = s /\ r = (VNil, setError (notFound [name]) defaultInfo, false).
Proof.
  intros name rest b l s [O NE] H r s'.
  rewrite (evaluates_const _ _ _ _ _ _ (evalRef ST ctrl context (w_tagsOf W) "" (name :: rest) b l)) by reflexivity.
  cbn [evalRef String.eqb]. rewrite (eqb_ne _ _ NE). unfold refFind. cbn [refLoop app].
  rewrite (nowhere_find _ _ _ O H). unfold fail, ret. split; [intro E; inversion E; auto|intros [-> ->]; reflexivity].
Qed.

(** exactly one outcome, unless an index crashes on the way (C09_crash_characterized) *)
Theorem C52_one_outcome : forall raw l path n, (forall p q, path = p ++ q -> find raw ctrl p n <> FPanic) ->
  exists o, lookup raw l n path o /\ forall o', lookup raw l n path o' -> o' = o.
Proof.
  intros raw l. assert (U : forall path n, ~ settled ctrl (val n) -> forall o, lookup raw l n path o <-> o = OPending n).
  { intros path n Q o. split.
    - intro H. destruct H as [c C F D|p' st' q F C M|p' q x F (B & Y & K)|c C F D D']; try (exfalso; apply Q; exact (clear_here _ _ _ C)).
      destruct p' as [|c p']; [cbn in B; inversion B; subst; reflexivity|].
      destruct (K [] c p' eq_refl) as (y & Y1 & Y2). cbn in Y1. inversion Y1; subst. contradiction.
    - intros ->. apply L_blocked with (p := []) (q := path); [reflexivity|]. split; [reflexivity|]. split; [exact Q|]. intros [|y a] c b X; discriminate. }
  induction path as [|st path IH]; intros n P.
  - destruct (isLocallyResolvedValue ctrl (val n)) eqn:L.
    + apply settled_spec in L. exists (if negb l && negb (isResolvedV ctrl false (val n)) then OPending n else OFound n).
      assert (C : clear raw ctrl n []) by now apply clear_nil. split.
      * destruct (negb l && negb (isResolvedV ctrl false (val n))) eqn:E.
        -- apply andb_prop in E. rewrite !negb_true_iff in E. apply L_incomplete; [exact C|reflexivity|tauto|].
           unfold complete. destruct E as [_ ->]. discriminate.
        -- apply L_found; [exact C|reflexivity|]. apply andb_false_iff in E. rewrite !negb_false_iff in E. exact E.
      * intros o H. destruct H as [c _ E D|p st q E _ _|p q x E B|c _ E D D'].
        -- cbn in E. inversion E; subst. destruct D as [->| ->]; [reflexivity|]. now rewrite Bool.andb_false_r.
        -- destruct p; discriminate.
        -- destruct p; [|discriminate]. destruct B as (B & N & _). cbn in B. inversion B; subst. contradiction.
        -- cbn in E. inversion E; subst. unfold complete in D'. destruct (isResolvedV ctrl false (val c)); [now destruct D'|reflexivity].
    + exists (OPending n). assert (Q : ~ settled ctrl (val n)) by (intro Q; apply settled_spec in Q; congruence).
      split; [now apply U|]. intros o' H. now apply U in H.
  - destruct (isLocallyResolvedValue ctrl (val n)) eqn:L.
    2:{ exists (OPending n). assert (Q : ~ settled ctrl (val n)) by (intro Q; apply settled_spec in Q; congruence).
        split; [now apply U|]. intros o' H. now apply U in H. }
    apply settled_spec in L. destruct (nextStep raw ctrl st n) as [m| |] eqn:N.
    + destruct (IH m) as (o & H & K).
      { intros p q ->. specialize (P (st :: p) q eq_refl). cbn in P. now rewrite N in P. }
      exists (match o with OMissing q => OMissing (st :: q) | _ => o end). split.
      * apply (lookup_cons raw l n st path m); eauto.
      * intros o' G. apply (lookup_cons raw l n st path m) in G; [|exact N|exact L]. destruct G as (o2 & G & ->). now rewrite (K _ G).
    + exists (OMissing [st]). split.
      * apply (L_missing raw l n (st :: path) [] st path); [reflexivity|now apply clear_nil|]. cbn. now rewrite N.
      * intros o H.
        assert (Z : forall q x, find raw ctrl (st :: q) n = FOk x -> False) by (intros q x; cbn; rewrite N; discriminate).
        destruct H as [c C E D|p st' q E C M|p q x E (B & Y & K)|c C E D D']; try (now destruct (Z _ _ E)).
        -- destruct p as [|s0 p]; [injection E as <- _; reflexivity|]. injection E as <- E.
           destruct (C [st] p eq_refl) as (y & Y1 & _). now destruct (Z _ _ Y1).
        -- destruct p as [|s0 p]; [cbn in B; inversion B; subst; contradiction|]. injection E as <- E. now destruct (Z _ _ B).
    + exfalso. apply (P [st] path eq_refl). cbn. now rewrite N.
Qed.

(** ** references from the root of the document: .a.b *)
(** the scope at the bottom of the document *)
Definition documentRoot (b : binding) (n : node) : Prop :=
  exists root m, b_scopes b <> [] /\ rootScope b = Some root /\ sc_list root = None /\ sc_local root = Some m /\ n = newNode (VMap m) "scope".
Theorem C52_root : forall rest b l s n, rest <> [] -> documentRoot b n ->
  forall r s', evaluates (ERef "" ("" :: rest)) b l s r s' <->
    s' = s /\ exists o, lookup true l n rest o /\ r = result (ERef "" ("" :: rest)) [""] o.
Proof.
  intros rest b l s n NE (root & m & S & Rt & Sl & Lo & ->) r s'.
  rewrite (evaluates_const _ _ _ _ _ _ (evalRef ST ctrl context (w_tagsOf W) "" ("" :: rest) b l)) by reflexivity.
  cbn [evalRef String.eqb]. unfold refFind.
  assert (F : forall q, findFromRoot ctrl q b = find true ctrl q (newNode (VMap m) "scope")).
  { intro q. unfold findFromRoot. destruct (b_scopes b); [now destruct S|]. now rewrite Rt, Sl, Lo. }
  apply (walk_first true _ _ l rest [] ""); intros; cbn [app List.tl]; now rewrite F.
Qed.

(** ** a path below an expression: (x).a.b *)
Theorem C52_qualified : forall x path b l s v i s1, path <> [] ->
  PropFail.gives ST W b l x s v i s1 -> f_raw i = false -> settled ctrl v -> l = true \/ complete v ->
  forall r s', evaluates (EQual x path) b l s r s' <->
    s' = s1 /\ exists o, lookup false l (dnode v "") path o /\ r = result (ERef "" path) [] o.
Proof.
  intros x path b l s v i s1 NE [G V] Rw Sv C r s'. destruct path as [|p0 path]; [now destruct NE|].
  assert (E : forall f, evalF f x b l s = Ret (v, i, true) s1 ->
    stepE ST W f (EQual x (p0 :: path)) b l s =
    refLoop ST ctrl (ERef "" (p0 :: path)) (fun p => find false ctrl p (dnode v "")) [] (p0 :: path) (Some (dnode v "")) l s1).
  { intros f E. unfold stepE, eval1, evalQual. unfold bind at 1. rewrite E. cbn [negb]. rewrite Rw, Bool.orb_false_r.
    rewrite (proj2 (settled_spec _ _) Sv). cbn [negb].
    replace (negb l && negb (isResolvedV ctrl false v)) with false; [reflexivity|].
    destruct C as [->|C]; [reflexivity|]. unfold complete in C. now rewrite C, Bool.andb_false_r. }
  rewrite evaluates_runs. rewrite <- (walk false (ERef "" (p0 :: path)) (fun p => find false ctrl p (dnode v "")) l (p0 :: path) [] (dnode v "") s1 r s');
    [|reflexivity|destruct v; exact Sv].
  split.
  - intros [f K]. destruct G as [f' G].
    assert (K' : stepE ST W (Nat.max f f') (EQual x (p0 :: path)) b l s = Ret r s').
    { apply (le_ret _ _ _ _ _ _ (evalF_le _ _ SW (S f) (S (Nat.max f f')) ltac:(lia) _ _ _) K). }
    rewrite (E _ (le_ret _ _ _ _ _ _ (evalF_le _ _ SW f' (Nat.max f f') ltac:(lia) _ _ _) G)) in K'. exact K'.
  - intro K. destruct G as [f' G]. exists f'. rewrite (E _ G). exact K.
Qed.
Theorem C52_qualified_undecided : forall x path b l s s1,
  (forall i, PropFail.failing ST W b l x s i s1 -> PropFail.failing ST W b l (EQual x path) s i s1) /\
  (PropFail.pends ST W b l x s s1 -> PropFail.pends ST W b l (EQual x path) s s1).
Proof.
  intros x path b l s s1. split.
  - intros i (v & f & E). exists VNil. apply evaluates_step. exists f. unfold stepE, eval1, evalQual, bind. rewrite E. reflexivity.
  - intros (y & i & f & E). do 2 eexists. apply evaluates_step. exists f. unfold stepE, eval1, evalQual, bind. rewrite E. reflexivity.
Qed.

(** the base of a qualified reference must be complete *)
Theorem C52_qualified_incomplete : forall x path b s v i s1, PropFail.gives ST W b false x s v i s1 -> f_raw i = false -> settled ctrl v -> ~ complete v ->
  evaluates (EQual x path) b false s (VExpr (EQual x path), i, true) s1.
Proof.
  intros x path b s v i s1 [[f E] V] Rw Sv NC. apply evaluates_step. exists f. unfold stepE, eval1, evalQual, bind. rewrite E. cbn [negb].
  rewrite Rw, (proj2 (settled_spec _ _) Sv). unfold complete in NC. destruct (isResolvedV ctrl false v); [now destruct NC|reflexivity].
Qed.

(** ** computed steps: x.[i] *)
(** the path for an index value *)
Inductive stepOf : value -> string -> Prop :=
| St_index z : stepOf (VInt z) (idx z)
| St_name t : stepOf (VStr t) t.
Inductive pathOf : value -> value -> list string -> Prop :=
| Pa_index l z : pathOf (VList l) (VInt z) [idx z]
| Pa_name v t : pathOf v (VStr t) [t]
| Pa_single v n d p : val n = d -> (match d with VList _ => False | _ => True end) -> pathOf v d p -> pathOf v (VList [n]) p
| Pa_list v ns p : (2 <= length ns)%nat -> Forall2 (fun n st => stepOf (val n) st) ns p -> pathOf v (VList ns) p.
Lemma stepOf_spec : forall v st, qualStep v = Some st <-> stepOf v st.
Proof.
  intros v st. split.
  - destruct v; cbn; intro H; try discriminate; inversion H; subst; [exact (St_index z)|constructor].
  - now destruct 1.
Qed.
Lemma qualSteps_spec : forall ns p, qualSteps ns = Some p <-> Forall2 (fun n st => stepOf (val n) st) ns p.
Proof.
  induction ns as [|n ns IH]; intro p; cbn; split; intro H.
  - inversion H. constructor.
  - now inversion H.
  - destruct (qualStep (val n)) as [st|] eqn:E; [|discriminate]. destruct (qualSteps ns) as [q|]; [|discriminate]. inversion H; subst.
    constructor; [now apply stepOf_spec|]. now apply IH.
  - inversion H as [|a st b q A B]; subst. apply stepOf_spec in A. apply IH in B. now rewrite A, B.
Qed.
Lemma dynPath_spec : forall v d p, pathOf v d p -> dynPath v d = Some p.
Proof.
  intros v d p H. destruct H as [l z|v t|v n d p E N H|v ns p L F].
  - reflexivity.
  - reflexivity.
  - unfold dynPath. rewrite E. destruct H; try reflexivity; contradiction.
  - apply qualSteps_spec in F. destruct ns as [|a [|c ns]]; cbn in L; [lia|lia|]. unfold dynPath. exact F.
Qed.
(** the base of a computed step may be incomplete if it is a reference *)
Definition baseMode (x : expr) (l : bool) : bool := l || match x with ERef _ _ => true | _ => false end.
(** x.[i]: the element or field of x, if it is complete *)
Theorem C52_computed : forall x ix b l s v i s1 d id s2 path,
  PropFail.gives ST W b (baseMode x l) x s v i s1 -> f_raw i = false -> settled ctrl v ->
  PropFail.gives ST W b l ix s1 d id s2 -> complete d -> pathOf v d path ->
  forall o, lookup false true (dnode v "") path o ->
  exists j, evaluates (EDyn x ix) b l s
    (match o with
     | OFound c => if isResolvedV ctrl false (val c) then (val c, j, true) else (VExpr (EDyn x ix), j, true)
     | OMissing _ => (VNil, j, false)
     | OPending _ => (VExpr (EDyn x ix), j, true)
     end) s2.
Proof.
  intros x ix b l s v i s1 d id s2 path [[f1 G] V] Rw Sv [[f2 G2] V2] C P o L.
  assert (Wk : refLoop ST ctrl (ERef "" path) (fun p => find false ctrl p (dnode v "")) [] path (Some (dnode v "")) true s2
     = Ret (result (ERef "" path) [] o) s2).
  { apply (walk false (ERef "" path) (fun p => find false ctrl p (dnode v "")) true path []); [reflexivity|destruct v; exact Sv|]. eauto. }
  assert (NE : path <> []).
  { intros ->. clear -P. remember (@nil string) as q eqn:E. destruct P as [l z|v t|v n d p F N H|v ns p A B]; try discriminate.
    - destruct H; try discriminate; contradiction.
    - subst p. inversion B; subst. cbn in A. lia. }
  assert (Wk' : refFind ST ctrl (ERef "" path) (fun p => find false ctrl p (dnode v "")) path true s2 = Ret (result (ERef "" path) [] o) s2).
  { rewrite <- Wk. unfold refFind. destruct path; [now destruct NE|reflexivity]. }
  exists (match o with OFound c => setKeyName (a_keyName (ann c)) defaultInfo | _ => snd (fst (result (ERef "" path) [] o)) end).
  apply evaluates_step. exists (Nat.max f1 f2). unfold stepE, eval1, evalDyn, bind at 1.
  unfold baseMode in G. rewrite (le_ret _ _ _ _ _ _ (evalF_le _ _ SW f1 (Nat.max f1 f2) ltac:(lia) _ _ _) G). cbn [negb].
  rewrite (proj2 (settled_spec _ _) Sv). cbn [negb]. rewrite Rw, Bool.orb_false_r. unfold bind at 1.
  rewrite (le_ret _ _ _ _ _ _ (evalF_le _ _ SW f2 (Nat.max f1 f2) ltac:(lia) _ _ _) G2). cbn [negb].
  unfold complete in C. rewrite C. cbn [negb]. rewrite (dynPath_spec _ _ _ P). unfold bind. rewrite Wk'.
  destruct o as [c|p|y]; cbn [result]; cbn [negb].
  - destruct (isResolvedV ctrl false (val c)); reflexivity.
  - reflexivity.
  - cbn [isResolvedV]. reflexivity.
Qed.
(** an element of a list by its position, from the end for negative ones *)
Lemma dnode_list : forall ns, dnode (VList ns) "" = newNode (VList ns) "dynaml".
Proof. reflexivity. Qed.
Lemma complete_settled : forall v, complete v -> settled ctrl v.
Proof.
  intros v H. unfold complete in H. destruct v; cbn; auto; try discriminate.
  - intros n k w I E. cbn [isResolvedV] in H.
    assert (G : isResolvedN ctrl false n = true).
    { revert H I. induction l as [|x l IH]; [contradiction|]. intros H [<-|I]; apply andb_prop in H; tauto. }
    destruct n as [v a sr t r]. cbn in E. subst v. cbn [isResolvedN isResolvedV andb orb] in G. apply andb_prop in G. destruct G as [G _].
    apply settledM_spec in G. destruct G as (G1 & G2 & _). cbn in G1, G2. split; intros ->; tauto.
  - cbn [isResolvedV] in H. apply andb_prop in H. apply settledM_spec. tauto.
Qed.
Lemma complete_child : forall ns n, complete (VList ns) -> In n ns -> complete (val n).
Proof.
  intros ns n H I. unfold complete in *. cbn [isResolvedV] in H. revert H I. induction ns as [|x ns IH]; [contradiction|].
  intros H [<-|I]; apply andb_prop in H; [|tauto]. destruct x as [v a sr t r]. cbn [isResolvedN andb orb] in H. tauto.
Qed.
Lemma complete_field : forall m k n, complete (VMap m) -> mget k m = Some n -> complete (val n).
Proof.
  intros m k n H I. unfold complete in *. cbn [isResolvedV] in H. apply andb_prop in H. destruct H as [_ H].
  apply mget_In in I. revert H I. induction m as [|[k' x] m IH]; [contradiction|].
  intros H [E|I]; apply andb_prop in H; [|tauto]. inversion E; subst. destruct n as [v a sr t r]. cbn [isResolvedN andb orb] in H. tauto.
Qed.
Theorem C52_element : forall x ix b l s ns i s1 z id s2 p n,
  PropFail.gives ST W b (baseMode x l) x s (VList ns) i s1 -> f_raw i = false -> complete (VList ns) ->
  PropFail.gives ST W b l ix s1 (VInt z) id s2 -> in64 z -> in64 (Z.of_nat (length ns)) ->
  z = Z.of_nat p \/ z = Z.of_nat p - Z.of_nat (length ns) -> nth_error ns p = Some n ->
  exists j, evaluates (EDyn x ix) b l s (val n, j, true) s2.
Proof.
  intros x ix b l s ns i s1 z id s2 p n G Rw C G2 Z64 L64 Zp N.
  pose proof (complete_settled _ C) as Sv. pose proof (complete_child _ _ C (nth_error_In _ _ N)) as Cn.
  assert (Lp : (p < length ns)%nat) by (apply nth_error_Some; congruence).
  assert (F : nextStep false ctrl (idx z) (dnode (VList ns) "") = FOk n).
  { cbn [nextStep val dnode newNode massage]. unfold nextStep. cbn [dnode newNode val massage].
    cbn in Sv. rewrite (proj2 (settledL_spec _) Sv). cbn [orb]. unfold stepList. rewrite (stepIndex_idx z Z64).
    assert (Q : (if (z <? 0)%Z then wrap64 (Z.of_nat (length ns) + z) else z) = Z.of_nat p).
    { destruct Zp as [->| ->].
      - destruct (Z.ltb_spec (Z.of_nat p) 0); [lia|reflexivity].
      - destruct (Z.ltb_spec (Z.of_nat p - Z.of_nat (length ns)) 0); [|lia].
        replace (Z.of_nat (length ns) + (Z.of_nat p - Z.of_nat (length ns))) with (Z.of_nat p) by lia.
        apply wrap64_id. unfold in64 in *. lia. }
    rewrite Q. destruct (Z.leb_spec (Z.of_nat (length ns)) (Z.of_nat p)); [lia|].
    destruct (Z.ltb_spec (Z.of_nat p) 0); [lia|]. now rewrite Nat2Z.id, N. }
  destruct (C52_computed x ix b l s _ i s1 _ id s2 [idx z] G Rw Sv G2 eq_refl (Pa_index ns z) (OFound n)) as (j & E).
  - apply L_found; [|cbn [find]; now rewrite F|now left]. intros q r E. destruct q as [|c q]; [exists (dnode (VList ns) ""); split; [reflexivity|exact Sv]|].
    injection E as <- E. destruct q; [|discriminate]. exists n. cbn [find]. rewrite F. split; [reflexivity|now apply complete_settled].
  - unfold complete in Cn. rewrite Cn in E. exists j. exact E.
Qed.
(** a field of a map by its name *)
Theorem C52_field : forall x ix b l s m i s1 k id s2 n,
  PropFail.gives ST W b (baseMode x l) x s (VMap m) i s1 -> f_raw i = false -> complete (VMap m) ->
  PropFail.gives ST W b l ix s1 (VStr k) id s2 -> complete (VStr k) -> mget k m = Some n ->
  exists j, evaluates (EDyn x ix) b l s (val n, j, true) s2.
Proof.
  intros x ix b l s m i s1 k id s2 n G Rw C G2 Ck N.
  pose proof (complete_settled _ C) as Sv. pose proof (complete_field _ _ _ C N) as Cn.
  assert (F : nextStep false ctrl k (dnode (VMap m) "") = FOk n).
  { unfold nextStep. cbn [dnode newNode val massage]. cbn in Sv. rewrite (proj2 (settledM_spec _ _) Sv). cbn [orb]. now rewrite N. }
  destruct (C52_computed x ix b l s _ i s1 _ id s2 [k] G Rw Sv G2 Ck (Pa_name (VMap m) k) (OFound n)) as (j & E).
  - apply L_found; [|cbn [find]; now rewrite F|now left]. intros q r E. destruct q as [|c q]; [exists (dnode (VMap m) ""); split; [reflexivity|exact Sv]|].
    injection E as <- E. destruct q; [|discriminate]. exists n. cbn [find]. rewrite F. split; [reflexivity|now apply complete_settled].
  - unfold complete in Cn. rewrite Cn in E. exists j. exact E.
Qed.
Theorem C52_no_field : forall x ix b l s m i s1 k id s2,
  PropFail.gives ST W b (baseMode x l) x s (VMap m) i s1 -> f_raw i = false -> settled ctrl (VMap m) ->
  PropFail.gives ST W b l ix s1 (VStr k) id s2 -> complete (VStr k) -> mget k m = None ->
  exists j, PropFail.failing ST W b l (EDyn x ix) s j s2.
Proof.
  intros x ix b l s m i s1 k id s2 G Rw Sv G2 Ck N.
  assert (F : nextStep false ctrl k (dnode (VMap m) "") = FNo).
  { unfold nextStep. cbn [dnode newNode val massage]. cbn in Sv. rewrite (proj2 (settledM_spec _ _) Sv). cbn [orb]. now rewrite N. }
  destruct (C52_computed x ix b l s _ i s1 _ id s2 [k] G Rw Sv G2 Ck (Pa_name (VMap m) k) (OMissing [k])) as (j & E).
  - apply (L_missing false true (dnode (VMap m) "") [k] [] k []); [reflexivity| |cbn [app find]; now rewrite F].
    intros q r E. destruct q; [|discriminate]. exists (dnode (VMap m) ""). split; [reflexivity|exact Sv].
  - exists j, VNil. exact E.
Qed.
Theorem C52_computed_undecided : forall x ix b l s s1,
  (forall i, PropFail.failing ST W b (baseMode x l) x s i s1 -> PropFail.failing ST W b l (EDyn x ix) s i s1) /\
  (PropFail.pends ST W b (baseMode x l) x s s1 -> PropFail.pends ST W b l (EDyn x ix) s s1) /\
  (forall v i s2, PropFail.gives ST W b (baseMode x l) x s v i s1 -> settled ctrl v -> f_raw i = false ->
    ((exists j, PropFail.failing ST W b l ix s1 j s2) -> PropFail.failing ST W b l (EDyn x ix) s i s2) /\
    (PropFail.pends ST W b l ix s1 s2 -> PropFail.pends ST W b l (EDyn x ix) s s2)).
Proof.
  intros x ix b l s s1. split; [|split].
  - intros i (v & f & E). exists VNil. apply evaluates_step. exists f. unfold stepE, eval1, evalDyn, bind. unfold baseMode in E. rewrite E. reflexivity.
  - intros (y & i & f & E). do 2 eexists. apply evaluates_step. exists f. unfold stepE, eval1, evalDyn, bind. unfold baseMode in E. rewrite E. reflexivity.
  - intros v i s2 [[f E] V] Sv Rw. unfold baseMode in E. split.
    + intros (j & w & f' & E'). exists VNil. apply evaluates_step. exists (Nat.max f f'). unfold stepE, eval1, evalDyn, bind.
      rewrite (le_ret _ _ _ _ _ _ (evalF_le _ _ SW f (Nat.max f f') ltac:(lia) _ _ _) E). cbn [negb].
      rewrite (proj2 (settled_spec _ _) Sv). cbn [negb]. rewrite Rw, Bool.orb_false_r.
      rewrite (le_ret _ _ _ _ _ _ (evalF_le _ _ SW f' (Nat.max f f') ltac:(lia) _ _ _) E'). reflexivity.
    + intros (y & j & f' & E'). do 2 eexists. apply evaluates_step. exists (Nat.max f f'). unfold stepE, eval1, evalDyn, bind.
      rewrite (le_ret _ _ _ _ _ _ (evalF_le _ _ SW f (Nat.max f f') ltac:(lia) _ _ _) E). cbn [negb].
      rewrite (proj2 (settled_spec _ _) Sv). cbn [negb]. rewrite Rw, Bool.orb_false_r.
      rewrite (le_ret _ _ _ _ _ _ (evalF_le _ _ SW f' (Nat.max f f') ltac:(lia) _ _ _) E'). reflexivity.
Qed.

(** an index that selects nothing: a number for something that is no list, an empty list, or a value that is neither a number, a text nor a list *)
Inductive noStep : value -> value -> Prop :=
| Ns_index v z : (forall l, v <> VList l) -> noStep v (VInt z)
| Ns_single v n z : val n = VInt z -> (forall l, v <> VList l) -> noStep v (VList [n])
| Ns_empty v : noStep v (VList [])
| Ns_nil v : noStep v VNil
| Ns_bool v t : noStep v (VBool t)
| Ns_float v t : noStep v (VFloat t)
| Ns_map v m : noStep v (VMap m)
| Ns_element v ns n : (2 <= length ns)%nat -> In n ns -> (forall st, ~ stepOf (val n) st) -> noStep v (VList ns).
Lemma noStep_spec : forall v d, noStep v d -> dynPath v d = None.
Proof.
  intros v d H. destruct H as [v z N|v n z E N| | | | | |v ns n L I N]; try reflexivity.
  - cbn. destruct v; try reflexivity. now edestruct N.
  - unfold dynPath. rewrite E. destruct v; try reflexivity. now edestruct N.
  - assert (Q : qualSteps ns = None).
    { clear L. induction ns as [|x ns IH]; [destruct I|]. cbn [qualSteps]. destruct I as [->|I].
      - destruct (qualStep (val n)) as [st|] eqn:E; [|reflexivity]. exfalso. apply (N st). now apply stepOf_spec.
      - rewrite (IH I). now destruct (qualStep (val x)). }
    unfold dynPath. destruct ns as [|a [|c r]]; cbn in L; try lia. exact Q.
Qed.
Theorem C52_no_step : forall x ix b l s v i s1 d id s2,
  PropFail.gives ST W b (baseMode x l) x s v i s1 -> f_raw i = false -> settled ctrl v ->
  PropFail.gives ST W b l ix s1 d id s2 -> complete d -> noStep v d ->
  exists j, PropFail.failing ST W b l (EDyn x ix) s j s2.
Proof.
  intros x ix b l s v i s1 d id s2 [[f1 G] V] Rw Sv [[f2 G2] V2] C P. eexists _, VNil.
  apply evaluates_step. exists (Nat.max f1 f2). unfold stepE, eval1, evalDyn, bind at 1.
  unfold baseMode in G. rewrite (le_ret _ _ _ _ _ _ (evalF_le _ _ SW f1 (Nat.max f1 f2) ltac:(lia) _ _ _) G). cbn [negb].
  rewrite (proj2 (settled_spec _ _) Sv). cbn [negb]. rewrite Rw, Bool.orb_false_r. unfold bind at 1.
  rewrite (le_ret _ _ _ _ _ _ (evalF_le _ _ SW f2 (Nat.max f1 f2) ltac:(lia) _ _ _) G2). cbn [negb].
  unfold complete in C. rewrite C. cbn [negb]. rewrite (noStep_spec _ _ P). reflexivity.
Qed.

(** ** references with a tag: tag::path *)
Definition userTag (tag : string) : Prop := tag <> "" /\ tag <> "doc:0" /\ tag <> "doc.0".
Lemma tag_run : forall tag p0 path b l s r s', userTag tag -> p0 <> "" ->
  (evaluates (ERef tag (p0 :: path)) b l s r s' <->
   match w_tagsOf W tag s with
   | [] => fail ST "tag not found" defaultInfo s = Ret r s'
   | ts => tagLoop ST ctrl (ERef tag (p0 :: path)) tag (fun n _ => find false ctrl (p0 :: path) n) (p0 :: path) l ts None s = Ret r s'
   end).
Proof.
  intros tag p0 path b l s r s' (T1 & T2 & T3) P.
  rewrite (evaluates_const _ _ _ _ _ _ (evalRef ST ctrl context (w_tagsOf W) tag (p0 :: path) b l)) by reflexivity.
  unfold evalRef. rewrite (eqb_ne _ _ P). cbn [andb]. rewrite (eqb_ne _ _ T1), (eqb_ne _ _ T2), (eqb_ne _ _ T3). cbn [orb].
  destruct (w_tagsOf W tag s) as [|[[nm lv] n] ts]; reflexivity.
Qed.
Theorem C52_tag_unknown : forall tag p0 path b l s, userTag tag -> p0 <> "" -> w_tagsOf W tag s = [] ->
  exists i, PropFail.failing ST W b l (ERef tag (p0 :: path)) s i s.
Proof. intros tag p0 path b l s T P E. do 2 eexists. apply tag_run; [exact T|exact P|]. rewrite E. reflexivity. Qed.
(** the path is looked up below the tagged node *)
Definition tagHit (l : bool) (path : list string) (n : node) (c : node) : Prop :=
  find false ctrl path n = FOk c /\ settled ctrl (val c) /\ (l = true \/ complete (val c)).
Definition tagMiss (path : list string) (n : node) : Prop := find false ctrl path n = FNo.
Lemma loop_hit0 : forall self sel pre rest l c s step, rest <> [] -> (forall p : list string, sel p = FOk c) ->
  settled ctrl (val c) -> (l = true \/ complete (val c)) ->
  refLoop ST ctrl self sel pre rest step l s = Ret (val c, setKeyName (a_keyName (ann c)) defaultInfo, true) s.
Proof.
  intros self sel pre rest l c s step NE F S C. revert pre step. induction rest as [|p rest IH]; [now destruct NE|].
  intros pre step. cbn [refLoop]. rewrite F, (proj2 (settled_spec _ _) S). destruct rest as [|q rest].
  - cbn [refLoop]. replace (negb l && negb (isResolvedV ctrl false (val c))) with false; [now destruct c|].
    destruct C as [->|C]; [reflexivity|]. unfold complete in C. now rewrite C, Bool.andb_false_r.
  - apply IH. discriminate.
Qed.
Lemma loop_hit : forall self path pre rest l n c s step, rest <> [] -> tagHit l path n c ->
  refLoop ST ctrl self (fun _ => find false ctrl path n) pre rest step l s =
  Ret (val c, setKeyName (a_keyName (ann c)) defaultInfo, true) s.
Proof. intros self path pre rest l n c s step NE (F & S & C). now apply loop_hit0. Qed.
Lemma loop_miss : forall self path p rest l n s step, tagMiss path n ->
  exists i, refLoop ST ctrl self (fun _ => find false ctrl path n) [] (p :: rest) step l s = Ret (VNil, i, false) s.
Proof. intros self path p rest l n s step M. cbn [refLoop]. rewrite M. eexists. reflexivity. Qed.
Lemma tagLoop_misses : forall self tag p0 path l ms ts s,
  Forall (fun t => tagMiss (p0 :: path) (snd t)) ms ->
  tagLoop ST ctrl self tag (fun n _ => find false ctrl (p0 :: path) n) (p0 :: path) l (ms ++ ts) None s =
  tagLoop ST ctrl self tag (fun n _ => find false ctrl (p0 :: path) n) (p0 :: path) l ts None s.
Proof.
  intros self tag p0 path l ms ts s H. induction H as [|[[nm lv] n] ms M _ IH]; [reflexivity|].
  cbn [app tagLoop]. unfold bind at 1. unfold refFind at 1.
  destruct (loop_miss self (p0 :: path) p0 path l n s None M) as [i ->]. exact IH.
Qed.
Lemma tagLoop_misses2 : forall self tag p0 path l ms ts s lv0 v i,
  Forall (fun t => tagMiss (p0 :: path) (snd t) /\ snd (fst t) = lv0) ms ->
  tagLoop ST ctrl self tag (fun n _ => find false ctrl (p0 :: path) n) (p0 :: path) l (ms ++ ts) (Some (lv0, v, i)) s =
  tagLoop ST ctrl self tag (fun n _ => find false ctrl (p0 :: path) n) (p0 :: path) l ts (Some (lv0, v, i)) s.
Proof.
  intros self tag p0 path l ms ts s lv0 v i H. induction H as [|[[nm lv] n] ms [M L] _ IH]; [reflexivity|].
  cbn [snd fst] in M, L. subst lv. cbn [app tagLoop]. rewrite Nat.ltb_irrefl. unfold bind at 1. unfold refFind at 1.
  destruct (loop_miss self (p0 :: path) p0 path l n s None M) as [j ->]. exact IH.
Qed.
(** the first tagged node with the path decides if it has exactly this tag, or if no
    other one of its level has the path *)
Theorem C52_tag : forall tag p0 path b l s ms nm lv n more c, userTag tag -> p0 <> "" ->
  w_tagsOf W tag s = ms ++ (nm, lv, n) :: more ->
  Forall (fun t => tagMiss (p0 :: path) (snd t)) ms -> tagHit l (p0 :: path) n c ->
  nm = tag \/ (exists same higher, more = same ++ higher /\
    Forall (fun t => tagMiss (p0 :: path) (snd t) /\ snd (fst t) = lv) same /\
    match higher with [] => True | (_, h, _) :: _ => (lv < h)%nat end) ->
  forall r s', evaluates (ERef tag (p0 :: path)) b l s r s' <->
    s' = s /\ r = (val c, setKeyName (a_keyName (ann c)) defaultInfo, true).
Proof.
  intros tag p0 path b l s ms nm lv n more c T P E M H D r s'.
  rewrite (tag_run _ _ _ _ _ _ _ _ T P). rewrite E.
  assert (G : match ms ++ (nm, lv, n) :: more with
    | [] => fail ST "tag not found" defaultInfo s = Ret r s'
    | ts => tagLoop ST ctrl (ERef tag (p0 :: path)) tag (fun n _ => find false ctrl (p0 :: path) n) (p0 :: path) l ts None s = Ret r s'
    end <-> tagLoop ST ctrl (ERef tag (p0 :: path)) tag (fun n _ => find false ctrl (p0 :: path) n) (p0 :: path) l (ms ++ (nm, lv, n) :: more) None s = Ret r s').
  { destruct ms as [|[[a1 a2] a3] ms]; reflexivity. }
  rewrite G. clear G. rewrite tagLoop_misses by exact M.
  assert (G : tagLoop ST ctrl (ERef tag (p0 :: path)) tag (fun n _ => find false ctrl (p0 :: path) n) (p0 :: path) l ((nm, lv, n) :: more) None s
     = Ret (val c, setKeyName (a_keyName (ann c)) defaultInfo, true) s).
  { cbn [tagLoop]. unfold bind at 1. unfold refFind at 1.
    rewrite (loop_hit (ERef tag (p0 :: path)) (p0 :: path) [] (p0 :: path) l n c s None); [|discriminate|exact H].
    destruct (String.eqb_spec nm tag) as [->|NE]; [reflexivity|]. destruct D as [D|(same & higher & -> & S & Hi)]; [contradiction|].
    rewrite tagLoop_misses2 by exact S. destruct higher as [|[[a1 h] a3] higher]; [reflexivity|]. cbn [tagLoop].
    apply Nat.ltb_lt in Hi. now rewrite Hi. }
  rewrite G. split; [intro F; inversion F; auto|intros [-> ->]; reflexivity].
Qed.
(** two of the same level: ambiguous *)
Theorem C52_tag_ambiguous : forall tag p0 path b l s ms nm lv n same nm' n' more c c', userTag tag -> p0 <> "" ->
  w_tagsOf W tag s = ms ++ (nm, lv, n) :: same ++ (nm', lv, n') :: more ->
  Forall (fun t => tagMiss (p0 :: path) (snd t)) ms -> tagHit l (p0 :: path) n c -> nm <> tag ->
  Forall (fun t => tagMiss (p0 :: path) (snd t) /\ snd (fst t) = lv) same -> tagHit l (p0 :: path) n' c' -> nm' <> tag ->
  exists i, PropFail.failing ST W b l (ERef tag (p0 :: path)) s i s.
Proof.
  intros tag p0 path b l s ms nm lv n same nm' n' more c c' T P E M H NE S H' NE'.
  exists (setError "ambigious tag resolution" (setKeyName (a_keyName (ann c)) defaultInfo)), VNil.
  apply tag_run; [exact T|exact P|]. rewrite E.
  assert (G : tagLoop ST ctrl (ERef tag (p0 :: path)) tag (fun n _ => find false ctrl (p0 :: path) n) (p0 :: path) l (ms ++ (nm, lv, n) :: same ++ (nm', lv, n') :: more) None s
    = Ret (VNil, setError "ambigious tag resolution" (setKeyName (a_keyName (ann c)) defaultInfo), false) s).
  { rewrite tagLoop_misses by exact M. cbn [tagLoop]. unfold bind at 1. unfold refFind at 1.
    rewrite (loop_hit (ERef tag (p0 :: path)) (p0 :: path) [] (p0 :: path) l n c s None); [|discriminate|exact H].
    rewrite (eqb_ne _ _ NE). rewrite tagLoop_misses2 by exact S. cbn [tagLoop]. rewrite Nat.ltb_irrefl. unfold bind at 1. unfold refFind at 1.
    rewrite (loop_hit (ERef tag (p0 :: path)) (p0 :: path) [] (p0 :: path) l n' c' s None); [|discriminate|exact H'].
    rewrite (eqb_ne _ _ NE'), Nat.eqb_refl. reflexivity. }
  destruct ms as [|[[a1 a2] a3] ms]; exact G.
Qed.
(** no tagged node has the path *)
Theorem C52_tag_missing : forall tag p0 path b l s, userTag tag -> p0 <> "" ->
  Forall (fun t => tagMiss (p0 :: path) (snd t)) (w_tagsOf W tag s) ->
  exists i, PropFail.failing ST W b l (ERef tag (p0 :: path)) s i s.
Proof.
  intros tag p0 path b l s T P M. destruct (w_tagsOf W tag s) as [|t ts] eqn:E; [now apply C52_tag_unknown|].
  exists defaultInfo, VNil. apply tag_run; [exact T|exact P|]. rewrite E.
  rewrite <- (app_nil_r (t :: ts)). rewrite tagLoop_misses by exact M. reflexivity.
Qed.
(** the tagged node itself: tag::. *)
Theorem C52_tag_node : forall tag b l s nm lv n more, userTag tag ->
  w_tagsOf W tag s = (nm, lv, n) :: more -> more = [] \/ nm = tag ->
  forall r s', evaluates (ERef tag [""]) b l s r s' <-> s' = s /\ r = (val n, defaultInfo, true).
Proof.
  intros tag b l s nm lv n more (T1 & T2 & T3) E D r s'.
  rewrite (evaluates_const _ _ _ _ _ _ (evalRef ST ctrl context (w_tagsOf W) tag [""] b l)) by reflexivity.
  unfold evalRef. cbn [String.eqb andb]. rewrite (eqb_ne _ _ T1), (eqb_ne _ _ T2), (eqb_ne _ _ T3). cbn [orb]. rewrite E.
  replace (match more with [] => true | _ => false end || String.eqb nm tag) with true.
  - unfold done, ret. split; [intro F; inversion F; auto|intros [-> ->]; reflexivity].
  - destruct D as [->| ->]; [reflexivity|]. rewrite String.eqb_refl. now rewrite Bool.orb_true_r.
Qed.
End C52.

(** ** Examples *)
Definition doc0 : smap node := [("a", nd (VMap [("b", nd (VInt 1)); ("u", nd (VExpr (EInt 1)))])); ("l", nd (VList [nd (VInt 7); nd (VInt 8)]))].
Definition b1 : binding := withScope [("b", nd (VInt 5))] (env0 doc0).
Definition Wt : world (nat -> value) := mkWorld (nat -> value)
  true true (fun _ => newNode (VMap []) "__ctx") (fun s _ _ => None) (fun s => s) (fun _ => "")
  net0 (fun _ => "") (fun _ _ _ _ s => (true, s))
  (fun t _ => if String.eqb t "t" then [("t", 1%nat, nd (VMap [("x", nd (VInt 1))])); ("t.p", 2%nat, nd (VMap [("x", nd (VInt 2)); ("y", nd (VInt 3))]));
                                        ("t.q", 2%nat, nd (VMap [("z", nd (VInt 4)); ("y", nd (VInt 5))]))] else [])
  (fun i s => s i) (fun i v s j => if Nat.eqb i j then v else s j) (fun _ => noIssue)
  (fun _ _ _ _ _ _ _ => ret _ None) (fun _ _ _ _ => ret _ (VNil, defaultInfo, false)).
Definition ev (e : expr) : value :=
  match evalF _ Wt 20 e b1 false st0 with Ret (v, _, true) _ => v | Ret (_, i, _) _ => VStr (i_text (f_issue i)) | _ => VStr "?" end.
Example ex_references : map (fun p => ev (ERef "" p)) [["a"; "b"]; ["b"]; ["a"; "c"; "d"]; ["a"]; ["a"; "u"]; [""; "l"; "[1]"]; ["x"]]
  = [VInt 1; VInt 5; VStr "'a.c' not found"; VExpr (ERef "" ["a"]); VExpr (ERef "" ["a"; "u"]); VInt 8; VStr "'x' not found"].
Proof. vm_compute. reflexivity. Qed.
Example ex_computed : map ev [EDyn (ERef "" ["l"]) (EInt 0); EDyn (ERef "" ["l"]) (EInt (-1)); EDyn (ERef "" ["a"]) (EStr "b"); EQual (EMap [(EStr "k", EInt 3)]) ["k"]]
  = [VInt 7; VInt 8; VInt 1; VInt 3].
Proof. vm_compute. reflexivity. Qed.
Example ex_tags : map ev [ERef "t" ["x"]; ERef "t" ["y"]; ERef "t" ["z"]; ERef "t" ["w"]; ERef "s" ["x"]]
  = [VInt 1; VStr "ambigious tag resolution"; VInt 4; VStr ""; VStr "tag not found"].
Proof. vm_compute. reflexivity. Qed.
Example ex_nearest : nearest "b" b1 (nd (VInt 5)) /\ nowhere "x" b1 /\ named "b" /\
  lookup _ Wt true false (nd (VMap [("b", nd (VInt 1)); ("u", nd (VExpr (EInt 1)))])) ["b"] (OFound (nd (VInt 1))) /\
  lookup _ Wt true false (nd (VMap [("b", nd (VInt 1)); ("u", nd (VExpr (EInt 1)))])) ["c"; "d"] (OMissing ["c"]).
Proof.
  assert (OW : PropInfo.outward b1 [b1]) by (apply PropInfo.OW_last; reflexivity).
  assert (Sm : settled true (VMap [("b", nd (VInt 1)); ("u", nd (VExpr (EInt 1)))])) by (apply settled_spec; reflexivity).
  split; [|split; [|split; [|split]]].
  - exists [b1], [], b1, [], []. do 2 eexists. split; [exact OW|]. split; [reflexivity|]. split; [constructor|]. split; [reflexivity|].
    split; [constructor|]. eexists. split; reflexivity.
  - exists [b1]. split; [exact OW|]. repeat constructor; intros m E; inversion E; reflexivity.
  - split; [repeat split|]; discriminate.
  - apply L_found; [|reflexivity|right; reflexivity]. intros p q E. destruct p as [|c p]; [eexists; split; [reflexivity|exact Sm]|].
    injection E as <- E. destruct p; [|discriminate]. eexists. split; [reflexivity|exact Logic.I].
  - apply (L_missing _ _ true false _ ["c"; "d"] [] "c" ["d"]); [reflexivity| |reflexivity]. intros p q E. destruct p; [|discriminate].
    eexists. split; [reflexivity|exact Sm].
Qed.

Print Assumptions C52_reference.
Print Assumptions C52_unknown.
Print Assumptions C52_one_outcome.
Print Assumptions C52_root.
Print Assumptions C52_qualified.
Print Assumptions C52_qualified_undecided.
Print Assumptions C52_computed.
Print Assumptions C52_element.
Print Assumptions C52_field.
Print Assumptions C52_no_field.
Print Assumptions C52_computed_undecided.
Print Assumptions C52_tag_unknown.
Print Assumptions C52_tag.
Print Assumptions C52_tag_ambiguous.
Print Assumptions C52_tag_missing.
Print Assumptions C52_tag_node.

Print Assumptions C52_qualified_incomplete.
Print Assumptions C52_no_step.
