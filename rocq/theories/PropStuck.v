(** C61: expressions that wait for each other never get a value, and all of them are reported. *)
From Coq Require Import Lia.
From Verif Require Import Core CoreFacts Str StrFacts DecSpec Interp Find FindFacts EquivFacts PropInterp
  Cleanup Unresolved PropUnresolved DeepEq DeepEqFacts Env Flow FlowSpec FlowFacts FlowPass FlowMerge FlowStable
  Arith IP Comparison RangeSlice ListFns Info Eval Control Engine EngineFacts Runs DocSpec FlowDoc DocFacts DocEval StuckSpec FlowStuck.
From Verif Require PropRef PropInfo PropFlow PropFlow2 PropDoc.
From Verif Require Import World0.
Import ListNotations.
Open Scope string_scope. Open Scope list_scope.

Section Ev.
Variable ST : Type.
Variable W : world ST.
Notation interpol := (w_interpol W).
Notation ctrl := (w_ctrl W).
Notation text := (DocSpec.text interpol (w_parse W) (w_quote W)).
Notation evalF := (evalF ST W).
Variable D : node.
Variable K : list string -> Prop.
Notation waits := (StuckSpec.waits D K).
Hypothesis SK : StuckSpec.stuck text D K.
Let KT : forall p, K p -> exists d e, part D p d /\ text d e /\ waits p e := proj1 SK.
Let KW := proj2 SK.
Notation state := (FlowStuck.state interpol (w_parse W) (w_quote W) D K waits).
Notation encl := (FlowStuck.encl interpol (w_parse W) (w_quote W) D K waits).
Notation on := (FlowStuck.on K).
Notation way := (FlowStuck.way K).

Lemma encl_nearest : forall g p ss, encl g p ss -> forall q name, enclosing D p q name ->
  exists pre sc post mn s, ss = pre ++ sc :: post /\ Forall (PropInfo.silent name) pre /\ sc_local sc = Some mn /\ state g q (mkNode (VMap mn) emptyAnn s None None).
Proof.
  intros g p ss E. induction E as [|p k m mn s0 s sc ss E IH AD In0 A SL]; intros q name EN.
  - destruct EN as [(k & r & d & m & E & _) _]. destruct q; discriminate.
  - destruct EN as [(k' & r & dq & mq & Eq & AQ & VQ & IQ) INN]. destruct (snoc_split _ _ _ _ _ _ Eq) as [[-> _]|(r' & Er)].
    + exists [], sc, ss, mn, s. split; [reflexivity|]. split; [constructor|]. auto.
    + assert (NI : ~ In name (map fst m)).
      { eapply (INN p k [] _ m eq_refl); [|exact AD|reflexivity]. rewrite Er, app_length. cbn. lia. }
      destruct (IH q name) as (pre & sc0 & post & mn0 & s1 & -> & F0 & H).
      { split; [exists k', r', dq, mq; auto|]. intros q' k0 r0 d0 m0 E0 L0 P0 V0. apply (INN q' k0 (r0 ++ [k]) d0 m0); try assumption. now rewrite E0, <- app_assoc. }
      exists (sc :: pre), sc0, post, mn0, s1. split; [reflexivity|]. split; [|exact H]. constructor; [|exact F0].
      intros m1 S1. rewrite SL in S1. injection S1 as <-. apply mget_None. intro I. apply NI, In0, I.
Qed.
Lemma on_cons : forall p k r, K (p ++ k :: r) -> on (p ++ [k]) /\ K ((p ++ [k]) ++ r).
Proof.
  intros p k r H. assert (H' : K ((p ++ [k]) ++ r)) by (rewrite <- app_assoc; exact H). split; [|exact H'].
  destruct r as [|k' r]; [left; now rewrite app_nil_r in H'|right; exists k', r; exact H'].
Qed.
Notation lookup := (PropRef.lookup ST W true false).
Lemma quiet_map : forall (m mn : smap node), Forall (fun kv => ordinaryKey (fst kv)) m -> incl (map fst mn) (map fst m) -> PropRef.settled ctrl (VMap mn).
Proof.
  intros m mn Ko I. apply PropRef.settled_spec. cbn [isLocallyResolvedValue]. apply (quiet_resolved ctrl). eapply incl_quiet; eassumption.
Qed.
Lemma find_key : forall (mn : smap node) s k c, mget k mn = Some c -> nextStep true ctrl k (mkNode (VMap mn) emptyAnn s None None) = FOk c.
Proof. intros mn s k c G. unfold nextStep. cbn [val orb]. now rewrite G. Qed.
Lemma open_below : forall r p n, state true p n -> K (p ++ r) -> ~ PropRef.complete ST W (val n).
Proof.
  intros r p n A H C. destruct (state_at interpol (w_parse W) (w_quote W) D K waits KT KW r p n A H) as (c & x & O & _ & V).
  apply (proj1 (C04_resolved ctrl n) C r c O) in V. exact V.
Qed.
Lemma walk : forall rest r p n, state true p n -> K (p ++ r) -> (exists t, rest = r ++ t) \/ (exists t, r = rest ++ t) ->
  exists y, lookup n rest (PropRef.OPending y) /\ a_failed (ann y) || a_error (ann y) = false.
Proof.
  induction rest as [|st rest IH]; intros r p n A H M.
  - inversion A as [p0 d e G|p0 x a s _ _ _ PA|p0 m mn s s0 _ _ Ko _ In0 _ _]; subst; [discriminate G| |].
    + eexists. split; [eapply (pend_lookup ST W); reflexivity|]. destruct PA as [->|[i ->]]; reflexivity.
    + exists (mkNode (VMap mn) emptyAnn s None None). split; [|reflexivity]. apply PropRef.L_incomplete; [|reflexivity|reflexivity|exact (open_below r p _ A H)].
      apply PropRef.clear_nil. eapply quiet_map; eassumption.
  - inversion A as [p0 d e G|p0 x a s _ _ _ PA|p0 m mn s s0 Wp _ Ko _ In0 On St]; subst; [discriminate G| |].
    + eexists. split; [eapply (pend_lookup ST W); reflexivity|]. destruct PA as [->|[i ->]]; reflexivity.
    + destruct r as [|k r]; [rewrite app_nil_r in H; destruct (apart interpol (w_parse W) (w_quote W) D K waits KT KW p H Wp)|].
      assert (E : k = st /\ ((exists t, rest = r ++ t) \/ (exists t, r = rest ++ t))).
      { destruct M as [[t M]|[t M]]; injection M as <- M; (split; [reflexivity|]); [left|right]; eauto. }
      destruct E as [-> M']. destruct (on_cons _ _ _ H) as [O H']. destruct (key_mget st mn (On st O)) as (c & G).
      destruct (IH r (p ++ [st]) c (St st c O G) H' M') as (y & L & Q). exists y. split; [|exact Q].
      apply (PropRef.lookup_cons ST W true false (mkNode (VMap mn) emptyAnn s None None) st rest c); [apply find_key; exact G|eapply quiet_map; eassumption|].
      exists (PropRef.OPending y). auto.
Qed.
Definition pends (p : list string) (m : M ST R) (s : ST) : Prop :=
  forall r s', m s = Ret r s' -> s' = s /\ exists i x, r = (VExpr x, i, true) /\ plainInfo i /\ waits p x.
Lemma ref_waits : forall p name rest q b f s, PropRef.named name -> enclosing D p q name -> meets K q name rest -> encl true p (b_scopes b) ->
  pends p (evalF f (ERef "" (name :: rest)) b false) s.
Proof.
  intros p name rest q b f s NM EN (r & H & M) E r0 s' EV.
  destruct (encl_nearest _ _ _ E q name EN) as (pre & sc & post & mn & sr & ES & SIL & SL & A).
  destruct (on_cons _ _ _ H) as [O H'].
  inversion A as [p0 d e G|p0 x a s1 G|p0 m mn0 s1 s0 Wp _ Ko _ In0 On St]; subst; [discriminate G|].
  destruct (key_mget name mn (On name O)) as (n & G).
  assert (NR : PropRef.nearest name b n).
  { destruct (outward_ex b) as (bs & OW). assert (HB : exists l, bs = b :: l) by (inversion OW; eauto). destruct HB as (l & ->).
    exists (b :: l), [], b, l, pre, sc, post. split; [exact OW|]. split; [reflexivity|]. split; [constructor|]. split; [exact ES|]. split; [exact SIL|]. exists mn. auto. }
  destruct (walk rest r (q ++ [name]) n (St name n O G) H' M) as (y & LK & Q).
  destruct f as [|f]; [discriminate EV|].
  destruct (proj2 (PropRef.C52_reference ST W name rest b false s n NM NR (PropRef.result (ERef "" (name :: rest)) [name] (PropRef.OPending y)) s) (conj eq_refl (ex_intro _ _ (conj LK eq_refl)))) as ([|f0] & EV'); [discriminate EV'|].
  change (evalF (S f) (ERef "" (name :: rest)) b false s) with (evalF (S f0) (ERef "" (name :: rest)) b false s) in EV. rewrite EV' in EV.
  cbn [PropRef.result] in EV. injection EV as <- <-. split; [reflexivity|]. rewrite Q. do 2 eexists. split; [reflexivity|]. split; [repeat split|]. eapply wt_ref; [exact NM|exact EN|]. exists r. auto.
Qed.
Lemma waits_simple : forall p x, waits p x -> simple x.
Proof. intros p x X. destruct X; try exact Logic.I; match goal with B : binary _ |- _ => destruct B; exact Logic.I end. Qed.
Section Step.
Variable p : list string.
Variable rec : expr -> binding -> bool -> M ST R.
Variable b : binding.
(** the operand waits, or it has a value *)
Definition operand (x : expr) (w : Prop) : Prop :=
  forall s r s', rec x b false s = Ret r s' -> s' = s /\ exists v i, r = (v, i, true) /\ plainInfo i /\ ((w /\ exists x', v = VExpr x' /\ waits p x') \/ (~ w /\ constant x /\ forall e, v <> VExpr e)).
Lemma push_waits : forall x w io s r s', operand x w -> simple x -> plainOpt io -> resolvePush ST rec x io b false s = Ret r s' ->
  s' = s /\ exists i, plainInfo i /\ ((w /\ exists x', r = PExpr x' i /\ waits p x') \/ (~ w /\ constant x /\ exists v, r = PVal v i)).
Proof.
  intros x w io s r s' O SI PO E. unfold resolvePush, bind in E. destruct (rec x b false s) as [[[v i] ok] s1| |] eqn:E1; [|discriminate|discriminate].
  destruct (O _ _ _ E1) as (-> & v' & i' & Er & PI & H). injection Er as -> -> ->. unfold ret in E. injection E as <- <-. split; [reflexivity|].
  exists (match io with Some i0 => join i0 i' | None => i' end). split; [destruct io as [i0|]; [now apply join_plain|exact PI]|].
  destruct H as [(Hw & x' & -> & X)|(Hw & C & NE)]; [left; split; [exact Hw|]; exists x'; rewrite (keep_simple x' x SI); auto|right]. split; [exact Hw|]. split; [exact C|].
  destruct v'; eauto. now edestruct NE.
Qed.
Lemma operands_wait : forall mk k x y s (wx wy : Prop), binary mk -> operand x wx -> simple x -> operand y wy -> simple y -> wx \/ wy -> (wx -> waits p x) -> (wy -> waits p y) -> pends p (operands ST rec mk x y b k) s.
Proof.
  intros mk k x y s wx wy B OX SX OY SY WW HX HY r s' E. unfold operands, bind in E.
  destruct (resolvePush ST rec x None b false s) as [r1 s1| |] eqn:E1; [|discriminate|discriminate].
  destruct (push_waits x wx None _ _ _ OX SX Logic.I E1) as (-> & i & PI & H1).
  destruct H1 as [(Hw & x' & -> & X)|(Hw & CX & v & ->)].
  - destruct (resolvePush ST rec y (Some i) b false s) as [r2 s2| |] eqn:E2; [|discriminate|discriminate].
    destruct (push_waits y wy (Some i) _ _ _ OY SY PI E2) as (-> & i' & PI' & [(Hw' & y' & -> & Y)|(Hw' & CY & v & ->)]); unfold keep, ret in E; injection E as <- <-; (split; [reflexivity|]);
      do 2 eexists; (split; [reflexivity|]); (split; [exact PI'|]); [now apply wt_both|now apply wt_left].
  - destruct WW as [WX|WY]; [contradiction|]. destruct (resolvePush ST rec y (Some i) b false s) as [r2 s2| |] eqn:E2; [|discriminate|discriminate].
    destruct (push_waits y wy (Some i) _ _ _ OY SY PI E2) as (-> & i' & PI' & [(Hw' & y' & -> & Y)|(Hw' & _)]); [|contradiction]. unfold keep, ret in E; injection E as <- <-. split; [reflexivity|].
    do 2 eexists. split; [reflexivity|]. split; [exact PI'|now apply wt_right].
Qed.
Lemma wait_operand : forall x, (forall s, pends p (rec x b false) s) -> operand x True.
Proof.
  intros x H s r s' E. destruct (H _ _ _ E) as (-> & i & x' & -> & PI & X). split; [reflexivity|]. do 2 eexists. split; [reflexivity|]. split; [exact PI|]. left. split; [exact Logic.I|]. eauto.
Qed.
End Step.
Lemma const_eval : forall x f b s r s', constant x -> evalF f x b false s = Ret r s' -> s' = s /\ exists v, r = (v, defaultInfo, true) /\ forall e, v <> VExpr e.
Proof.
  intros x f b s r s' C E. destruct f as [|f]; [discriminate E|]. destruct C; cbn in E; unfold done, ret in E; injection E as <- <-; (split; [reflexivity|]); eexists; (split; [reflexivity|]); discriminate.
Qed.
Lemma const_operand : forall p x f b, constant x -> operand p (evalF f) b x False.
Proof.
  intros p x f b C s r s' E. destruct (const_eval _ _ _ _ _ _ C E) as (-> & v & -> & NE). split; [reflexivity|]. do 2 eexists. split; [reflexivity|]. split; [apply default_plain|]. right. auto.
Qed.
Lemma const_simple : forall x, constant x -> simple x.
Proof. intros x C. destruct C; exact Logic.I. Qed.
Lemma binary_step : forall mk f a b env, binary mk -> exists k, evalF (S f) (mk a b) env false = operands ST (evalF f) mk a b env k.
Proof. intros mk f a b env B. destruct B; eexists; reflexivity. Qed.
Lemma log_wait : forall p (conj : bool) (mk : expr -> expr -> expr) a b env f s, (mk = if conj then ELogAnd else ELogOr) ->
  ((forall s, pends p (evalF f a env false) s) /\ waits p (mk a b)) \/ (constant a /\ (forall s, pends p (evalF f b env false) s) /\ waits p (mk a b)) ->
  pends p (evalLog ST (evalF f) conj (mk a b) a b env) s.
Proof.
  intros p conj mk a b env f s _ H r s' E. unfold evalLog, bind in E. destruct (evalF f a env false s) as [[[v i] ok] s1| |] eqn:E1; [|discriminate|discriminate].
  destruct H as [[H X]|(C & H & X)].
  - destruct (H _ _ _ E1) as (-> & i' & x' & Er & PI & _). injection Er as -> -> ->. cbn [negb] in E. unfold keep, ret in E. injection E as <- <-. split; [reflexivity|]. eauto 6.
  - destruct (const_eval _ _ _ _ _ _ C E1) as (-> & v' & Er & NE). injection Er as -> -> ->. cbn [negb] in E.
    assert (R : exists vb ib okb s2, evalF f b env false s = Ret (vb, ib, okb) s2 /\ (forall x', vb = VExpr x' -> okb = true -> s' = s2 /\ r = (VExpr (mk a b), join defaultInfo ib, true))).
    { destruct v'; try (now edestruct NE); destruct (evalF f b env false s) as [[[vb ib] okb] s2| |] eqn:E2; try discriminate E; exists vb, ib, okb, s2; (split; [reflexivity|]);
        intros x' -> ->; cbn [negb] in E; unfold keep, ret in E; injection E as <- <-; auto. }
    destruct R as (vb & ib & okb & s2 & E2 & R). destruct (H _ _ _ E2) as (-> & i' & x' & Er & PI & _). injection Er as -> -> ->. destruct (R x' eq_refl eq_refl) as [-> ->].
    split; [reflexivity|]. do 2 eexists. split; [reflexivity|]. split; [apply join_plain; [apply default_plain|exact PI]|exact X].
Qed.
Lemma waits_eval : forall p x, waits p x -> forall f b s, encl true p (b_scopes b) -> pends p (evalF f x b false) s.
Proof.
  intros p x X. induction X as [name rest q NM EN M|e X IH|e X IH|a c X IH|c t e X IH|a c X IH|a c C X IH|a c X IH|a c C X IH|mk a c B X IH C|mk a c B C X IH|mk a c B X IH X2 IH2]; intros f b s E; [eapply ref_waits; eassumption|..];
    (destruct f as [|f]; [intros r s' E0; discriminate E0|]).
  - change (evalF (S f) (EGroup e) b false) with (evalF f e b false). now apply IH.
  - change (evalF (S f) (ENot e) b false) with (evalNot ST (evalF f) e b). intros r s' E0. unfold evalNot, bind in E0.
    destruct (resolvePush ST (evalF f) e None b false s) as [r1 s1| |] eqn:E1; [|discriminate|discriminate].
    destruct (push_waits p (evalF f) b e True None s r1 s1 (wait_operand p (evalF f) b e (fun s => IH f b s E)) (waits_simple _ _ X) Logic.I E1) as (-> & i & PI & [(_ & x' & -> & X')|(N & _)]); [|now destruct N].
    unfold keep, ret in E0. injection E0 as <- <-. split; [reflexivity|]. do 2 eexists. split; [reflexivity|]. split; [exact PI|now apply wt_not].
  - change (evalF (S f) (EOr a c) b false) with (evalOr ST (evalF f) a c b). intros r s' E0. unfold evalOr, bind in E0.
    destruct (evalF f a b false s) as [[[v i] ok] s1| |] eqn:E1; [|discriminate|discriminate]. destruct (IH f b s E _ _ E1) as (-> & i' & x' & Er & PI & _). injection Er as -> -> ->.
    destruct PI as (I1 & I2 & I3 & I4 & I5 & I6 & I7 & I8). rewrite I7 in E0. cbn [andb negb] in E0. unfold keep, ret in E0. injection E0 as <- <-. split; [reflexivity|]. do 2 eexists. split; [reflexivity|]. split; [repeat split; assumption|now apply wt_or].
  - change (evalF (S f) (ECond c t e) b false) with (evalCond ST (evalF f) c t e b). intros r s' E0. unfold evalCond, bind in E0.
    destruct (resolvePush ST (evalF f) c (Some defaultInfo) b false s) as [r1 s1| |] eqn:E1; [|discriminate|discriminate].
    destruct (push_waits p (evalF f) b c True (Some defaultInfo) s r1 s1 (wait_operand p (evalF f) b c (fun s => IH f b s E)) (waits_simple _ _ X) default_plain E1) as (-> & i & PI & [(_ & x' & -> & X')|(N & _)]); [|now destruct N].
    unfold keep, ret in E0. injection E0 as <- <-. split; [reflexivity|]. do 2 eexists. split; [reflexivity|]. split; [exact PI|now apply wt_cond].
  - change (evalF (S f) (ELogAnd a c) b false) with (evalLog ST (evalF f) true (ELogAnd a c) a c b). apply (log_wait p true ELogAnd); [reflexivity|]. left. split; [intro; now apply IH|now apply wt_and].
  - change (evalF (S f) (ELogAnd a c) b false) with (evalLog ST (evalF f) true (ELogAnd a c) a c b). apply (log_wait p true ELogAnd); [reflexivity|]. right. split; [exact C|]. split; [intro; now apply IH|now apply wt_and2].
  - change (evalF (S f) (ELogOr a c) b false) with (evalLog ST (evalF f) false (ELogOr a c) a c b). apply (log_wait p false ELogOr); [reflexivity|]. left. split; [intro; now apply IH|now apply wt_lor].
  - change (evalF (S f) (ELogOr a c) b false) with (evalLog ST (evalF f) false (ELogOr a c) a c b). apply (log_wait p false ELogOr); [reflexivity|]. right. split; [exact C|]. split; [intro; now apply IH|now apply wt_lor2].
  - destruct (binary_step mk f a c b B) as (k & ->). apply (operands_wait p (evalF f) b mk k a c s True False B); [apply wait_operand; intro; now apply IH|now apply waits_simple in X|now apply const_operand|now apply const_simple|now left|auto|intros []].
  - destruct (binary_step mk f a c b B) as (k & ->). apply (operands_wait p (evalF f) b mk k a c s False True B); [now apply const_operand|now apply const_simple|apply wait_operand; intro; now apply IH|now apply waits_simple in X|now right|intros []|auto].
  - destruct (binary_step mk f a c b B) as (k & ->). apply (operands_wait p (evalF f) b mk k a c s True True B); [apply wait_operand; intro; now apply IH|now apply waits_simple in X|apply wait_operand; intro; now apply IH2|now apply waits_simple in X2|now left|auto|auto].
Qed.
End Ev.

Section C61.
Variable ST : Type.
Variable W : world ST.
Variables resetStream enter leave : ST -> ST.
Variable pushDocument : node -> ST -> ST.
Notation interpol := (w_interpol W).
Notation plain := (plainDoc ordinaryKey interpol).
Notation text := (DocSpec.text interpol (w_parse W) (w_quote W)).
Notation process := (PropDoc.process ST W resetStream enter leave pushDocument).
Notation stuck := (StuckSpec.stuck text).
(** the position is reported with an expression, and in the document there is an expression, too *)
Definition reported (R : node) (u : list unres) (p : list string) : Prop :=
  (exists x, In x u /\ u_ctx x = p /\ exists e, val (u_node x) = VExpr e) /\ exists c e, part R p c /\ val c = VExpr e.
Lemma apply_stuck : forall f outer D K P o s n u s', Forall plain P -> stuck D K -> (exists p, K p) ->
  apply ST interpol (w_ctrl W) stdReg (w_parse W) (w_quote W) (w_show W) (evalF ST W f) (w_setTag W) (controlFn ST (w_ctrl W) (evalF ST W f))
    (w_parseIssue W) enter leave pushDocument f f outer D P o s = Ret (n, u) s' -> u <> [] /\ forall p, K p -> reported n u p.
Proof.
  intros f outer D K P o s n u s' PP SK KE E. unfold apply, bind in E.
  match type of E with context [nestedFlow ?a ?b ?c ?d ?e ?f ?g ?h ?i ?j ?k ?l ?m ?n0 ?o0 ?p ?q ?r s] => destruct (nestedFlow a b c d e f g h i j k l m n0 o0 p q r s) as [[n1 u1] s1| |] eqn:EN; [|discriminate|discriminate] end.
  assert (GM : forall p l x, ~ StuckSpec.waits D K p (EMarker l x)) by (intros p l x X; inversion X; subst; match goal with B : binary _ |- _ => destruct B; discriminate end).
  assert (EV : forall p b x s0 v i ok s2, K p -> StuckSpec.waits D K p x -> FlowStuck.encl interpol (w_parse W) (w_quote W) D K (StuckSpec.waits D K) true p (b_scopes b) -> evalF ST W f x b false s0 = Ret (v, i, ok) s2 ->
    ok = true /\ plainInfo i /\ exists x', v = VExpr x' /\ StuckSpec.waits D K p x').
  { intros p b x s0 v i ok s2 KP X EC EE. destruct (waits_eval ST W D K SK p x X f b s0 EC _ _ EE) as (-> & i' & x' & Er & PI & X'). injection Er as -> -> ->. eauto. }
  destruct (nested_stuck ST interpol (w_ctrl W) stdReg (w_parse W) (w_quote W) (w_show W) (evalF ST W f) (w_setTag W) (controlFn ST (w_ctrl W) (evalF ST W f)) P PP D K (StuckSpec.waits D K)
    GM (proj1 SK) (proj2 SK) EV KE _ _ _ _ _ _ _ _ _ _ EN) as (_ & NE & H).
  destruct u1 as [|x u1]; [now destruct NE|]. unfold ret in E. injection E as <- <- <-. split; [discriminate|exact H].
Qed.
(** If expressions in a document wait for each other, then, whatever else is in the document,
    the processing does not succeed: every one of them is reported and remains in the document *)
Theorem C61_stuck : forall D K outer, stuck D K -> (exists p, K p) ->
  forall f o s r u s', process f outer D o [] s = Ret (r, u) s' -> u <> [] /\ exists R, r = Some R /\ forall p, K p -> reported R u p.
Proof.
  intros D K outer SK KE f o s r u s' E. unfold PropDoc.process, cascade, bind, prepareStubs, ret, change in E.
  match type of E with context [apply ?a ?b ?c ?d ?e ?f ?g ?h ?i ?j ?k ?l ?m ?n ?o0 ?p ?q ?r ?x ?y ?z] => destruct (apply a b c d e f g h i j k l m n o0 p q r x y z) as [[n1 u1] s1| |] eqn:EA; [|discriminate|discriminate] end.
  destruct (apply_stuck _ _ _ _ _ _ _ _ _ _ (Forall_nil _) SK KE EA) as [NE H]. cbn [fst snd] in E. injection E as <- <- <-. split; [exact NE|]. eauto.
Qed.
(** The same with stubs, even if they define the fields *)
Theorem C61_stubs : forall stubs, Forall plain stubs -> Forall fitsN stubs -> Forall steadyLists stubs -> exists N,
  forall D K outer, stuck D K -> (exists p, K p) ->
  forall f o s r u s', (N <= f)%nat -> process f outer D o stubs s = Ret (r, u) s' -> u <> [] /\ exists R, r = Some R /\ forall p, K p -> reported R u p.
Proof.
  intros stubs H1 H2 H3. destruct (PropDoc.prep_all ST W resetStream enter leave stubs H1 H2 H3) as (N & P & P1 & _ & _ & P4). exists N.
  intros D K outer SK KE f o s r u s' HF E. unfold PropDoc.process, cascade, bind in E. destruct (P4 f outer (o_partial o) s HF) as [s1 E1]. rewrite E1 in E. unfold change in E.
  match type of E with context [apply ?a ?b ?c ?d ?e ?f ?g ?h ?i ?j ?k ?l ?m ?n ?o0 ?p ?q ?r ?x ?y ?z] => destruct (apply a b c d e f g h i j k l m n o0 p q r x y z) as [[n1 u1] s2| |] eqn:EA; [|discriminate|discriminate] end.
  destruct (apply_stuck _ _ _ _ _ _ _ _ _ _ P1 SK KE EA) as [NE H]. unfold ret in E. cbn [fst snd] in E. injection E as <- <- <-. split; [exact NE|]. eauto.
Qed.
(** In a document with a solution (C55) no expressions wait for each other *)
Theorem C61_solution : forall D D' rank outer K, DocSpec.doc interpol (w_parse W) (w_quote W) D D' -> (exists m, val D = VMap m) -> plain D' -> fitsN D' ->
  DocSpec.solution interpol text D D' rank outer -> stuck D K -> inhabited ST -> forall p, ~ K p.
Proof.
  intros D D' rank outer K DD DM PD FD SOL SK [s] p H.
  destruct (PropDoc.C55_document ST W resetStream enter leave pushDocument D D' rank outer DD DM PD FD SOL) as (N & RUN).
  destruct (RUN N (mkOpts false false false) s (le_n N)) as (R & s' & E & _).
  destruct (C61_stuck D K outer SK (ex_intro _ p H) _ _ _ _ _ _ E) as [NE _]. now apply NE.
Qed.
End C61.

(** ** Example: four fields that wait for each other or for the map around them, beside others *)
Definition tblK (s : string) : option expr := let s := trimSpace s in
  if String.eqb s "b + 1" then Some (EAdd (ERef "" ["b"]) (EInt 1)) else
  if String.eqb s "m.x || 5" then Some (EOr (ERef "" ["m"; "x"]) (EInt 5)) else
  if String.eqb s "a ? 1 :2" then Some (ECond (ERef "" ["a"]) (EInt 1) (EInt 2)) else
  if String.eqb s "n" then Some (ERef "" ["n"]) else
  if String.eqb s "d * 2" then Some (EMul (ERef "" ["d"]) (EInt 2)) else
  if String.eqb s "a" then Some (ERef "" ["a"]) else None.
Definition WK := world0 tblK.
Definition exK : node :=
  nd (PropDoc.nmD [("a", VStr "(( b + 1 ))"); ("b", VStr "(( m.x || 5 ))"); ("c", VStr "(( d * 2 ))"); ("d", VInt 4); ("l", PropDoc.nlD [VStr "(( a ))"]);
    ("m", PropDoc.nmD [("x", VStr "(( a ? 1 :2 ))"); ("y", VInt 3)]); ("n", PropDoc.nmD [("z", VStr "(( n ))")])]).
Definition exKStub : node := nd (PropDoc.nmD [("a", VInt 1); ("d", VInt 7)]).
Definition exKs (p : list string) : Prop := In p [["a"]; ["b"]; ["m"; "x"]; ["n"; "z"]].
Notation textK := (DocSpec.text true (w_parse WK) (w_quote WK)).
Ltac textly := eexists _, _, _; split; [reflexivity|]; split; [vm_compute; reflexivity|intros; reflexivity].
Ltac wayly := do 2 eexists; split; [apply PropDoc.atp_part; vm_compute; reflexivity|]; split;
  [cbn; repeat split; let HH := fresh in intros k' HH; repeat (destruct HH as [<-|HH]; [reflexivity|]); destruct HH|repeat apply Forall_cons; try apply Forall_nil; apply PropFlow2.ord; reflexivity].
Lemma exK_root : forall p q k r name, p = q ++ k :: r -> q = [] -> In name ["a"; "b"; "m"; "n"] ->
  (forall q' k' r' d m, p = q' ++ k' :: r' -> (0 < length q')%nat -> part exK q' d -> val d = VMap m -> ~ In name (map fst m)) -> enclosing exK p q name.
Proof.
  intros p q k r name E -> I H. split; [|exact H]. exists k, r, exK. eexists. split; [exact E|]. split; [constructor|]. split; [reflexivity|].
  cbn in I. repeat (destruct I as [<-|I]; [cbn; tauto|]). destruct I.
Qed.
Ltac rootly := eapply (exK_root _ [] _ _); [reflexivity|reflexivity|cbn; tauto|];
  intros q' k' r' d m E L A V; destruct q' as [|a0 [|b0 q']]; [cbn in L; lia| |]; cbn in E; injection E; intros; subst; try discriminate; try (destruct q'; discriminate).
Lemma exK_stuck : stuck textK exK exKs.
Proof.
  split.
  - intros p H. cbn in H. destruct H as [<-|[<-|[<-|[<-|[]]]]].
    + do 2 eexists. split; [apply PropDoc.atp_part; vm_compute; reflexivity|]. split; [textly|]. apply (wt_left _ _ _ EAdd); [constructor| |constructor].
      apply (wt_ref _ _ _ "b" [] []); [repeat split; discriminate| |exists []; split; [cbn; tauto|left; exists []; reflexivity]]. rootly.
    + do 2 eexists. split; [apply PropDoc.atp_part; vm_compute; reflexivity|]. split; [textly|]. apply wt_or.
      apply (wt_ref _ _ _ "m" ["x"] []); [repeat split; discriminate| |exists ["x"]; split; [cbn; tauto|left; exists []; reflexivity]]. rootly.
    + do 2 eexists. split; [apply PropDoc.atp_part; vm_compute; reflexivity|]. split; [textly|]. apply wt_cond.
      apply (wt_ref _ _ _ "a" [] []); [repeat split; discriminate| |exists []; split; [cbn; tauto|left; exists []; reflexivity]]. rootly.
      inversion A as [|n0 m0 k0 c p0 d0 V0 I0 A0|]; subst; try discriminate. cbn in V0. injection V0 as <-. inversion A0; subst. cbn in I0.
      repeat (destruct I0 as [I0|I0]; [try discriminate I0; injection I0 as <-; cbn in V; injection V as <-; cbn; intros [Z|[Z|[]]]; discriminate Z|]). destruct I0.
    + do 2 eexists. split; [apply PropDoc.atp_part; vm_compute; reflexivity|]. split; [textly|].
      apply (wt_ref _ _ _ "n" [] []); [repeat split; discriminate| |exists ["z"]; split; [cbn; tauto|right; exists ["z"]; reflexivity]]. rootly.
      inversion A as [|n0 m0 k0 c p0 d0 V0 I0 A0|]; subst; try discriminate. cbn in V0. injection V0 as <-. inversion A0; subst. cbn in I0.
      repeat (destruct I0 as [I0|I0]; [try discriminate I0; injection I0 as <-; cbn in V; injection V as <-; cbn; intros [Z|[]]; discriminate Z|]). destruct I0.
  - intros p k r H. cbn in H. destruct p as [|a [|b [|c p]]]; cbn in H.
    + wayly.
    + destruct H as [H|[H|[H|[H|[]]]]]; try discriminate H; injection H; intros; subst; wayly.
    + destruct H as [H|[H|[H|[H|[]]]]]; discriminate H.
    + destruct H as [H|[H|[H|[H|[]]]]]; discriminate H.
Qed.
Example exK_some : exists p, exKs p.
Proof. exists ["a"]. now left. Qed.
(** the run with the stub: also the element of the list, which refers to [a], remains; the rest is evaluated *)
Example exK_runs : exists R u s, PropDoc.process _ WK id id id (fun _ => id) 30 None exK (mkOpts false false false) [exKStub] st0 = Ret (Some R, u) s /\
  map u_ctx u = [["a"]; ["b"]; ["l"; "[0]"]; ["m"; "x"]; ["n"; "z"]] /\ exists m e, val R = VMap m /\ mget "c" m = Some e /\ val e = VInt 14.
Proof. do 3 eexists. split; [vm_compute; reflexivity|]. split; [reflexivity|]. do 2 eexists. split; [reflexivity|]. split; reflexivity. Qed.
(** the hypotheses of [C61_stubs] for the stub *)
Example exK_hyp : Forall (plainDoc ordinaryKey true) [exKStub] /\ Forall fitsN [exKStub] /\ Forall steadyLists [exKStub].
Proof.
  split; [apply Forall_cons; [PropDoc.plainly|apply Forall_nil]|]. split; [apply Forall_cons; [cbn; tauto|apply Forall_nil]|]. apply Forall_cons; [|apply Forall_nil].
  eapply SL_map; [reflexivity|]. repeat apply Forall_cons; try apply Forall_nil; apply SL_leaf; discriminate.
Qed.
Print Assumptions C61_stuck.
Print Assumptions C61_stubs.
Print Assumptions C61_solution.
