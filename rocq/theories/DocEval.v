(** Lemmas for C55: the evaluation of the expressions of a document in progress. *)
From Coq Require Import Lia.
From Verif Require Import Core CoreFacts Str StrFacts DecSpec Interp Find FindFacts EquivFacts PropInterp
  Cleanup Unresolved PropUnresolved DeepEq DeepEqFacts Env Flow FlowSpec FlowFacts FlowPass FlowMerge FlowStable
  Arith IP Comparison RangeSlice ListFns Info Eval Control Engine EngineFacts Runs FlowDoc DocSpec DocFacts.
From Verif Require PropRef PropInfo PropFlow.
Import ListNotations.
Open Scope string_scope. Open Scope list_scope.

Section Ev.
Variable ST : Type.
Variable W : world ST.
Notation interpol := (w_interpol W).
Notation ctrl := (w_ctrl W).
Notation parse := (w_parse W).
Notation quote := (w_quote W).
Notation plain := (plainDoc ordinaryKey interpol).
Notation text := (DocSpec.text interpol parse quote).
Notation evalF := (evalF ST W).
Variables D D' : node.
Hypothesis PD' : plain D'.
Hypothesis FD' : fitsN D'.
Variable stubs : list node.
Hypothesis KD : keyed D.
Variable rank : list string -> nat.
Variable outer : option binding.
Notation encl g := (FlowDoc.encl interpol ctrl parse quote stubs D D' rank g).
Notation denotes := (DocSpec.denotes interpol text D D' rank outer).
Notation denotesL := (DocSpec.denotesL interpol text D D' rank outer).

(** ** values *)
Definition decides (v0 v : value) : Prop := plain (lit v) /\ sameV v v0.
Definition nested (v : value) : Prop := match v with VList _ | VMap _ => True | _ => False end.
Lemma decides_scalar : forall v0 v, decides v0 v -> ~ nested v0 -> v = v0.
Proof.
  intros v0 v [_ S] N. unfold sameV, sameDoc, lit in S. cbn [data] in S. injection S as S. destruct v0; try (now destruct N); destruct v; try discriminate S; congruence.
Qed.
Lemma decides_leaf : forall v, leaf interpol v -> decides v v.
Proof. intros v L. split; [now apply PD_leaf|reflexivity]. Qed.
Lemma decides_list : forall l v, decides (VList l) v -> exists l0, v = VList l0 /\ Forall plain l0 /\ map data l0 = map data l.
Proof.
  intros l v [P S]. destruct (same_list (lit v) l (lit (VList l)) eq_refl S) as (l0 & E & M). cbn [val lit] in E. subst v.
  exists l0. split; [reflexivity|]. split; [exact (plain_list _ _ _ l0 P eq_refl)|exact M].
Qed.
Lemma list_decides : forall l0 l, Forall plain l0 -> map data l0 = map data l -> decides (VList l) (VList l0).
Proof. intros l0 l P M. split; [apply PD_list; [now left|exact P]|]. unfold sameV, sameDoc, lit. cbn [data]. now rewrite M. Qed.
Lemma decides_noexpr : forall v0 x, ~ decides v0 (VExpr x).
Proof. intros v0 x [P _]. eapply plain_noexpr; [exact P|reflexivity]. Qed.
Lemma plain_lit : forall n, plain n -> plain (lit (val n)).
Proof. intros n P. destruct P as [v s L|l a s A P|m s S K P]; [now apply PD_leaf|apply PD_list; auto|now apply PD_map]. Qed.
Lemma data_lit : forall n, data (lit (val n)) = data n.
Proof. intros [v a s t r]. reflexivity. Qed.
Lemma decides_node : forall n c, plain n -> sameDoc n c -> decides (val c) (val n).
Proof. intros n c P S. split; [now apply plain_lit|]. unfold sameV, sameDoc. now rewrite !data_lit. Qed.
Lemma decides_dnode : forall v0 v sr, decides v0 v -> plain (dnode v sr) /\ data (dnode v sr) = data (lit v0).
Proof.
  intros v0 v sr [P S]. assert (M : massage v = v) by (destruct v; try reflexivity; inversion P; subst; match goal with H : leaf _ _ |- _ => inversion H end).
  unfold dnode, newNode. rewrite M. split; [|exact S].
  inversion P as [v1 s1 L E|l a s1 A PP E|m s1 So K PP E]; subst; [now apply PD_leaf|apply PD_list; auto|now apply PD_map].
Qed.

(** ** infos *)
Definition silentInfo (i : info) : Prop := i_text (f_issue i) = "".
Lemma join_plain : forall i i', plainInfo i -> plainInfo i' -> plainInfo (join i i').
Proof.
  intros i i' (A1 & A2 & A3 & A4 & A5 & A6 & A7 & A8) (B1 & B2 & B3 & B4 & B5 & B6 & B7 & B8).
  unfold plainInfo, join. cbn. rewrite A1, A3, A4, A5, A6, A7, A8, B1, B2, B3, B4, B5, B6, B7, B8. repeat split; reflexivity.
Qed.
Lemma join_silent : forall i i', silentInfo i -> silentInfo i' -> silentInfo (join i i').
Proof. intros i i' A B. unfold silentInfo, join in *. cbn [f_issue]. now rewrite B. Qed.
Lemma default_plain : plainInfo defaultInfo.
Proof. repeat split. Qed.
Lemma default_silent : silentInfo defaultInfo.
Proof. reflexivity. Qed.
Lemma undef_plain : forall i i', plainInfo i -> plainInfo i' -> plainInfo (setUndef (f_undefined i') i).
Proof. intros i i' (A1 & A2 & A3 & A4 & A5 & A6 & A7 & A8) (B1 & B2 & B3 & B4 & B5 & B6 & B7 & B8). unfold plainInfo. cbn. repeat split; assumption. Qed.

(** ** the results of evaluations *)
Definition yields (p : list string) (S : expr -> Prop) (v0 : value) (j : nat) (m : M ST R) (s : ST) : Prop :=
  exists v i, m s = Ret (v, i, true) s /\ plainInfo i /\
    ((exists x, v = VExpr x /\ S x /\ (j <= rank p)%nat) \/ (silentInfo i /\ decides v0 v)).
Definition simple (x : expr) : Prop := match x with EExpand _ | ENameArg _ _ | EMarker _ _ => False | _ => True end.
(** from the expressions in [S] the evaluation does not leave [S] until it gives the value *)
Definition stays (N : nat) (p : list string) (v0 : value) (S : expr -> Prop) : Prop :=
  forall x, S x -> simple x /\ forall f g j b s, (N <= f)%nat -> (1 <= j)%nat -> encl g j p (b_scopes b) -> b_outer b = outer ->
    yields p S v0 j (evalF f x b false) s.
Lemma stays_le : forall N N' p v0 S, stays N p v0 S -> (N <= N')%nat -> stays N' p v0 S.
Proof. intros N N' p v0 S H L x X. destruct (H x X) as [A B]. split; [exact A|]. intros. eapply B; [lia|eassumption|eassumption|assumption]. Qed.
Lemma yields_sub : forall p (S S' : expr -> Prop) v0 j m s, yields p S v0 j m s -> (forall x, S x -> S' x) -> yields p S' v0 j m s.
Proof. intros p S S' v0 j m s (v & i & E & P & [(x & -> & X & J)|H]) I; [exists (VExpr x), i|exists v, i]; (split; [exact E|]; split; [exact P|]); [left; eauto|now right]. Qed.
Lemma keep_simple : forall x' x, simple x -> keepArg x' x = x'.
Proof. intros x' x S. destruct x; try reflexivity; destruct S. Qed.

Section Step.
Variable p : list string.
Variable j : nat.
Variable rec : expr -> binding -> bool -> M ST R.
Variable b : binding.
Variable s : ST.
Definition plainOpt (o : option info) : Prop := match o with Some i => plainInfo i | None => True end.
Definition silentOpt (o : option info) : Prop := match o with Some i => silentInfo i | None => True end.
Lemma push_yields : forall S v0 x io, yields p S v0 j (rec x b false) s -> simple x -> plainOpt io ->
  exists i, plainInfo i /\ ((exists x', resolvePush ST rec x io b false s = Ret (PExpr x' i) s /\ S x' /\ (j <= rank p)%nat) \/
    (exists v, resolvePush ST rec x io b false s = Ret (PVal v i) s /\ decides v0 v /\ (silentOpt io -> silentInfo i))).
Proof.
  intros S v0 x io (v & i & E & PI & H) SI PO. exists (match io with Some i0 => join i0 i | None => i end).
  split; [destruct io as [i0|]; [now apply join_plain|exact PI]|]. unfold resolvePush, bind. rewrite E. cbv beta iota.
  destruct H as [(x' & -> & X & J)|[SIL DE]].
  - left. exists x'. rewrite (keep_simple x' x SI). auto.
  - right. exists v. split; [|split; [exact DE|intro SO; destruct io; [now apply join_silent|exact SIL]]].
    destruct v; try reflexivity. exfalso. now apply decides_noexpr in DE.
Qed.
Lemma operands_yields : forall mk k Sa Sb a0 b0 v0 x y, yields p Sa a0 j (rec x b false) s -> simple x -> yields p Sb b0 j (rec y b false) s -> simple y -> Sa x -> Sb y ->
  (forall va vb i, decides a0 va -> decides b0 vb -> plainInfo i -> silentInfo i -> exists v i', k va vb i s = Ret (v, i', true) s /\ plainInfo i' /\ silentInfo i' /\ decides v0 v) ->
  yields p (fun z => exists x y, z = mk x y /\ Sa x /\ Sb y) v0 j (operands ST rec mk x y b k) s.
Proof.
  intros mk k Sa Sb a0 b0 v0 x y YX SX YY SY AX AY K. unfold yields, operands, bind.
  destruct (push_yields _ _ _ None YX SX Logic.I) as (i & PI & [(x' & -> & X & J)|(va & -> & DE & SI)]); cbv beta iota;
    destruct (push_yields _ _ _ (Some i) YY SY PI) as (i' & PI' & [(y' & -> & Y & J')|(vb & -> & DE' & SI')]); cbv beta iota.
  - exists (VExpr (mk x' y')), i'. split; [reflexivity|]. split; [exact PI'|]. left. exists (mk x' y'). split; [reflexivity|]. split; [eauto|exact J].
  - exists (VExpr (mk x' y)), i'. split; [reflexivity|]. split; [exact PI'|]. left. exists (mk x' y). split; [reflexivity|]. split; [eauto|exact J].
  - exists (VExpr (mk x y')), i'. split; [reflexivity|]. split; [exact PI'|]. left. exists (mk x y'). split; [reflexivity|]. split; [eauto|exact J'].
  - destruct (K va vb i' DE DE' PI' (SI' (SI Logic.I))) as (v & i2 & E & P2 & S2 & D2). exists v, i2. split; [exact E|]. split; [exact P2|]. now right.
Qed.
Lemma mod_yields : forall Sa Sb m n x y, n <> 0%Z -> yields p Sa (VInt m) j (rec x b false) s -> simple x -> yields p Sb (VInt n) j (rec y b false) s -> simple y -> Sa x -> Sb y ->
  yields p (fun z => exists x y, z = EMod x y /\ Sa x /\ Sb y) (VInt (wrap64 (Z.rem m n))) j (evalMod ST rec x y b) s.
Proof.
  intros Sa Sb m n x y NZ YX SX YY SY AX AY. unfold yields, evalMod, resolveInt, bind.
  destruct (push_yields _ _ _ None YX SX Logic.I) as (i & PI & [(x' & -> & X & J)|(va & -> & DE & SI)]); cbv beta iota.
  - change (@ret ST pushZ (ZExpr x' i) s) with (@Ret ST pushZ (ZExpr x' i) s). cbv beta iota.
    destruct (push_yields _ _ _ (Some i) YY SY PI) as (i' & PI' & [(y' & -> & Y & J')|(vb & -> & DE' & SI')]); cbv beta iota.
    + exists (VExpr (EMod x' y')), i'. split; [reflexivity|]. split; [exact PI'|]. left. exists (EMod x' y'). split; [reflexivity|]. split; [eauto|exact J].
    + apply decides_scalar in DE'; [subst vb|now intros []]. exists (VExpr (EMod x' y)), i'. split; [reflexivity|]. split; [exact PI'|]. left. exists (EMod x' y). split; [reflexivity|]. split; [eauto|exact J].
  - apply decides_scalar in DE; [subst va|now intros []]. change (@ret ST pushZ (ZVal m i) s) with (@Ret ST pushZ (ZVal m i) s). cbv beta iota.
    destruct (push_yields _ _ _ (Some i) YY SY PI) as (i' & PI' & [(y' & -> & Y & J')|(vb & -> & DE' & SI')]); cbv beta iota.
    + exists (VExpr (EMod x y')), i'. split; [reflexivity|]. split; [exact PI'|]. left. exists (EMod x y'). split; [reflexivity|]. split; [eauto|exact J'].
    + apply decides_scalar in DE'; [subst vb|now intros []]. exists (VInt (wrap64 (Z.rem m n))), i'. split; [|split; [exact PI'|right; split; [exact (SI' (SI Logic.I))|apply decides_leaf; constructor]]].
      unfold arith, op_mod, ret. destruct (Z.eqb_spec n 0); [contradiction|]. reflexivity.
Qed.
Lemma each_yields : forall Ss es vs, Forall2 (fun S x => (S x : Prop) /\ simple x) Ss es -> Forall2 (fun S xv => yields p S (snd xv) j (rec (fst xv) b false) s) Ss (combine es vs) -> length es = length vs ->
  forall io, plainOpt io -> exists i ves, plainInfo i /\
    ((resolveEach ST rec es io b false s = Ret (inr (ves, true, i)) s /\ map snd ves = es /\ Forall2 (fun v0 ve => decides v0 (fst ve)) vs ves /\ (silentOpt io -> silentInfo i)) \/
     (resolveEach ST rec es io b false s = Ret (inr (ves, false, i)) s /\ Forall2 (fun S x => (S x : Prop)) Ss (map snd ves) /\ (j <= rank p)%nat)).
Proof.
  intros Ss es vs F. revert vs. induction F as [|S x Ss es [SX SI] F IH]; intros [|v0 vs] Y L io PO; try discriminate L.
  - exists (match io with Some i => i | None => defaultInfo end), []. split; [destruct io; [exact PO|apply default_plain]|]. left. split; [reflexivity|]. split; [reflexivity|]. split; [constructor|].
    intro SO. destruct io; [exact SO|reflexivity].
  - cbn [combine] in Y. inversion Y as [|? ? ? ? Y1 Y2]; subst. cbn [fst snd] in Y1. cbn [length] in L.
    destruct (push_yields _ _ _ io Y1 SI PO) as (i & PI & [(x' & E & X & J)|(v & E & DE & SIL)]);
      destruct (IH vs Y2 ltac:(lia) (Some i) PI) as (i' & ves & PI' & [(E' & ME & FV & SIL')|(E' & FS & J')]); cbn [resolveEach]; unfold bind; rewrite E; cbv beta iota; rewrite E'; cbv beta iota.
    + exists i', ((VNil, x') :: ves). split; [exact PI'|]. right. split; [reflexivity|]. split; [|exact J]. cbn [map snd]. constructor; [exact X|]. rewrite ME.
      clear -F. induction F as [|S x Ss es [SX SI] F IH]; constructor; auto.
    + exists i', ((VNil, x') :: ves). split; [exact PI'|]. right. split; [reflexivity|]. split; [|exact J]. constructor; [exact X|exact FS].
    + exists i', ((v, x) :: ves). split; [exact PI'|]. left. split; [reflexivity|]. split; [cbn; now rewrite ME|]. split; [constructor; [exact DE|exact FV]|]. intro SO. apply SIL'. cbn. auto.
    + exists i', ((v, x) :: ves). split; [exact PI'|]. right. split; [reflexivity|]. split; [|exact J']. constructor; [exact SX|exact FS].
Qed.
Lemma expand_simple : forall ves, Forall simple (map snd ves) -> expandArgs ves = Some (map fst ves).
Proof.
  induction ves as [|[v x] ves IH]; intro F; [reflexivity|]. cbn [map snd] in F. inversion F; subst. cbn [expandArgs map fst]. rewrite IH by assumption.
  destruct x; try reflexivity. now match goal with H : simple _ |- _ => destruct H end.
Qed.
End Step.

Lemma counts_spec : forall v x, counts v x -> toBool v = x /\ ~ nested v.
Proof.
  intros v x C. destruct C; split; try (now intros []); try reflexivity.
  - cbn. destruct (Z.eqb_spec z 0); [contradiction|reflexivity].
  - cbn. destruct (String.eqb_spec s ""); [contradiction|reflexivity].
Qed.
Lemma writes_spec : forall v x, writes v x -> searchText v = Some x /\ ~ nested v.
Proof. intros v x C. destruct C; split; try (now intros []); try reflexivity. Qed.
Lemma step_def : forall f e b l, evalF (S f) e b l = stepE ST W f e b l.
Proof. reflexivity. Qed.

(** ** references *)
Lemma ref_found : forall p name b g j q c0 rest r c f s, PropRef.named name -> enclosing D p q name -> part D' (q ++ [name]) c0 ->
  leads text D (q ++ [name]) c0 rest r c -> settledBefore text D rank p (q ++ name :: r) -> (1 <= j)%nat -> encl g j p (b_scopes b) ->
  yields p (fun x => x = ERef "" (name :: rest)) (val c) j (evalF (S f) (ERef "" (name :: rest)) b false) s.
Proof.
  intros p name b g j q c0 rest r c f s NM EN AC L [RE BE] J E.
  destruct (encl_nearest ST W D D' stubs _ _ KD _ _ _ E q name EN) as (pre & sc & post & m & m' & mn & d & d' & ES & SIL & SL & A & AD & AD' & V & V' & I).
  destruct (apM_first ST W _ _ _ _ _ _ _ _ name A I) as (n & x & x' & G & I1 & I2 & B).
  assert (NR : PropRef.nearest name b n).
  { destruct (outward_ex b) as (bs & OW). assert (HB : exists l, bs = b :: l) by (inversion OW; eauto). destruct HB as (l & ->).
    exists (b :: l), [], b, l, pre, sc, post. split; [exact OW|]. split; [reflexivity|]. split; [constructor|]. split; [exact ES|]. split; [exact SIL|]. exists mn. auto. }
  pose proof (part_field _ _ _ _ _ _ AD' V' I2) as AX. pose proof (part_D' ST W _ PD' _ _ _ AX AC) as EC. subst c0.
  destruct (part_plain _ _ _ _ AC PD' FD') as [PC FC].
  assert (ST0 : stands ST W D stubs rank g j (q ++ [name]) x' n) by (right; exists x; split; [exact B|exact (part_field _ _ _ _ _ _ AD V I1)]).
  assert (EV : forall o, PropRef.lookup ST W true false n rest o -> evalF (S f) (ERef "" (name :: rest)) b false s = Ret (PropRef.result (ERef "" (name :: rest)) [name] o) s).
  { intros o LK. destruct (proj2 (PropRef.C52_reference ST W name rest b false s n NM NR _ s) (conj eq_refl (ex_intro _ o (conj LK eq_refl)))) as ([|f0] & H); [discriminate H|exact H]. }
  destruct (walk_found ST W D stubs rank g rest j _ _ _ _ _ L PC FC ST0 J) as [(n1 & P1 & S1 & LK)|[B1 (y & Q & LK)]]; rewrite <- ?app_assoc in *; cbn [app] in *.
  - exists (val n1), (setKeyName (a_keyName (ann n1)) defaultInfo). split; [exact (EV _ LK)|]. split; [|right; split; [reflexivity|now apply decides_node]].
    assert (K : a_keyName (ann n1) = "") by (destruct P1 as [v sr L1|l a sr [->| ->] P1|mm sr]; reflexivity). rewrite K. repeat split.
  - exists (VExpr (ERef "" (name :: rest))), (setFailed (a_failed (ann y) || a_error (ann y)) (setIssue "unresolved" defaultInfo)).
    split; [exact (EV _ LK)|]. split; [unfold quiet in Q; rewrite Q; repeat split|]. left. eexists. split; [reflexivity|]. split; [reflexivity|].
    destruct B1 as [(q1 & u & e & r1 & H1 & H2 & H3 & H4)|(q1 & u & e & r1 & H1 & H2 & H3 & H4)].
    + pose proof (RE q1 u e r1 H1 H2 H3). lia.
    + pose proof (BE q1 u e r1 H1 H2 H3). lia.
Qed.
Lemma ref_missing : forall p name b g j q c0 pre st post r c m f s, PropRef.named name -> enclosing D p q name -> part D' (q ++ [name]) c0 ->
  leads text D (q ++ [name]) c0 pre r c -> val c = VMap m -> ~ In st (map fst m) -> reachable text D rank p (q ++ name :: r) -> (1 <= j)%nat -> encl g j p (b_scopes b) ->
  exists v i ok, evalF (S f) (ERef "" (name :: pre ++ st :: post)) b false s = Ret (v, i, ok) s /\ plainInfo (cleanError i) /\
    ((ok = true /\ plainInfo i /\ v = VExpr (ERef "" (name :: pre ++ st :: post)) /\ (j <= rank p)%nat) \/ ok = false).
Proof.
  intros p name b g j q c0 rest st post r c mc f s NM EN AC L VC NI RE J E.
  destruct (encl_nearest ST W D D' stubs _ _ KD _ _ _ E q name EN) as (pre & sc & pst & m & m' & mn & d & d' & ES & SIL & SL & A & AD & AD' & V & V' & I).
  destruct (apM_first ST W _ _ _ _ _ _ _ _ name A I) as (n & x & x' & G & I1 & I2 & B).
  assert (NR : PropRef.nearest name b n).
  { destruct (outward_ex b) as (bs & OW). assert (HB : exists l, bs = b :: l) by (inversion OW; eauto). destruct HB as (l & ->).
    exists (b :: l), [], b, l, pre, sc, pst. split; [exact OW|]. split; [reflexivity|]. split; [constructor|]. split; [exact ES|]. split; [exact SIL|]. exists mn. auto. }
  pose proof (part_field _ _ _ _ _ _ AD' V' I2) as AX. pose proof (part_D' ST W _ PD' _ _ _ AX AC) as EC. subst c0.
  destruct (part_plain _ _ _ _ AC PD' FD') as [PC FC].
  assert (ST0 : stands ST W D stubs rank g j (q ++ [name]) x' n) by (right; exists x; split; [exact B|exact (part_field _ _ _ _ _ _ AD V I1)]).
  assert (EV : forall o, PropRef.lookup ST W true false n (rest ++ st :: post) o -> evalF (S f) (ERef "" (name :: rest ++ st :: post)) b false s = Ret (PropRef.result (ERef "" (name :: rest ++ st :: post)) [name] o) s).
  { intros o LK. destruct (proj2 (PropRef.C52_reference ST W name _ b false s n NM NR _ s) (conj eq_refl (ex_intro _ o (conj LK eq_refl)))) as ([|f0] & H); [discriminate H|exact H]. }
  destruct (walk_missing ST W D stubs rank g rest st post j _ _ _ _ _ _ L VC NI PC FC ST0 J) as [(pm & LK)|[(q1 & u & e & r1 & H1 & H2 & H3 & H4) (y & Q & LK)]]; rewrite <- ?app_assoc in *; cbn [app] in *.
  - eexists _, _, _. split; [exact (EV _ LK)|]. split; [repeat split|]. now right.
  - eexists _, _, _. split; [exact (EV _ LK)|]. unfold quiet in Q. rewrite Q. split; [repeat split|]. left. split; [reflexivity|]. split; [repeat split|]. split; [reflexivity|].
    pose proof (RE q1 u e r1 H1 H2 H3). lia.
Qed.
Lemma ref_unknown : forall p name b g j rest f s, PropRef.named name -> unknown D outer p name -> encl g j p (b_scopes b) -> b_outer b = outer ->
  exists i, evalF (S f) (ERef "" (name :: rest)) b false s = Ret (VNil, i, false) s /\ plainInfo (cleanError i).
Proof.
  intros p name b g j rest f s NM [U O] E OB.
  assert (NW : PropRef.nowhere name b).
  { exists [b]. split; [constructor; congruence|]. constructor; [|constructor]. eapply encl_silent; [exact E|exact U]. }
  destruct (proj2 (PropRef.C52_unknown ST W name rest b false s NM NW _ s) (conj eq_refl eq_refl)) as ([|f0] & H); [discriminate H|].
  eexists. split; [exact H|]. repeat split.
Qed.
Notation fails := (DocSpec.fails text D D' rank outer).
Lemma fails_eval : forall p e g j b f s, fails p e -> (1 <= j)%nat -> encl g j p (b_scopes b) -> b_outer b = outer ->
  exists v i ok, evalF (S f) e b false s = Ret (v, i, ok) s /\ plainInfo (cleanError i) /\
    ((ok = true /\ plainInfo i /\ v = VExpr e /\ (j <= rank p)%nat) \/ ok = false).
Proof.
  intros p e g j b f s H J E O. destruct H as [name rest NM U|name pre st post q c0 r c m NM EN AC L VC NI RE].
  - destruct (ref_unknown p name b g j rest f s NM U E O) as (i & -> & PC). exists VNil, i, false. split; [reflexivity|]. split; [exact PC|now right].
  - eapply ref_missing; eassumption.
Qed.
(** ** all expressions *)
Definition settles (p : list string) (e : expr) (v : value) : Prop := exists N S, S e /\ stays N p v S.
Lemma single : forall p e v N, simple e -> (forall f g j b s, (N <= f)%nat -> (1 <= j)%nat -> encl g j p (b_scopes b) -> b_outer b = outer ->
  yields p (fun x => x = e) v j (evalF f e b false) s) -> settles p e v.
Proof. intros p e v N SI H. exists N, (fun x => x = e). split; [reflexivity|]. intros x ->. split; [exact SI|exact H]. Qed.
Lemma constant : forall p e v, simple e -> leaf interpol v -> (forall f b s, evalF (S f) e b false s = Ret (v, defaultInfo, true) s) -> settles p e v.
Proof.
  intros p e v SI L H. apply (single p e v 1 SI). intros [|f] g j b s F J E O; [lia|]. exists v, defaultInfo. split; [apply H|]. split; [apply default_plain|]. right. split; [reflexivity|now apply decides_leaf].
Qed.
(** binary operators *)
Lemma binary : forall p mk a b a0 b0 v0, (forall x y, simple (mk x y)) ->
  (forall f x y env, exists k, evalF (S f) (mk x y) env false = operands ST (evalF f) mk x y env k /\
     forall s va vb i, decides a0 va -> decides b0 vb -> plainInfo i -> silentInfo i -> exists v i', k va vb i s = Ret (v, i', true) s /\ plainInfo i' /\ silentInfo i' /\ decides v0 v) ->
  settles p a a0 -> settles p b b0 -> settles p (mk a b) v0.
Proof.
  intros p mk a b a0 b0 v0 SM K (Na & Sa & A & HA) (Nb & Sb & B & HB). exists (S (Nat.max Na Nb)), (fun z => exists x y, z = mk x y /\ Sa x /\ Sb y).
  split; [eauto|]. intros z (x & y & -> & X & Y). split; [apply SM|]. intros [|f] g j env s F J E O; [lia|].
  destruct (HA x X) as [SX EX]. destruct (HB y Y) as [SY EY]. destruct (K f x y env) as (k & -> & HK).
  apply (operands_yields p j (evalF f) env s mk k Sa Sb a0 b0 v0); try assumption; [eapply EX|eapply EY|]; try eassumption; try lia. intros; now apply HK.
Qed.
Lemma arith_k : forall op x y z, op (VInt x) (VInt y) = Some (VInt z) -> forall s va vb i, decides (VInt x) va -> decides (VInt y) vb -> plainInfo i -> silentInfo i ->
  exists v i', arith ST op va vb i s = Ret (v, i', true) s /\ plainInfo i' /\ silentInfo i' /\ decides (VInt z) v.
Proof.
  intros op x y z E s va vb i DA DB PI SI. apply decides_scalar in DA; [subst va|now intros []]. apply decides_scalar in DB; [subst vb|now intros []].
  exists (VInt z), i. unfold arith. rewrite E. split; [reflexivity|]. split; [exact PI|]. split; [exact SI|]. apply decides_leaf. constructor.
Qed.
Lemma settles_group : forall p e v, settles p e v -> settles p (EGroup e) v.
Proof.
  intros p e v (N & S & X & H). exists (Datatypes.S N), (fun z => z = EGroup e \/ S z). split; [now left|]. intros z [->|Z].
  - split; [exact Logic.I|]. intros [|f] g j b s F J E O; [lia|]. change (evalF (Datatypes.S f) (EGroup e) b false) with (evalF f e b false).
    eapply yields_sub; [|intros x Hx; right; exact Hx]. destruct (H e X) as [_ EX]. eapply EX; try eassumption. lia.
  - destruct (H z Z) as [SZ EX]. split; [exact SZ|]. intros f g j b s F J E O. eapply yields_sub; [|intros x Hx; right; exact Hx]. eapply EX; try eassumption. lia.
Qed.
Lemma settles_not : forall p a w x, settles p a w -> counts w x -> settles p (ENot a) (VBool (negb x)).
Proof.
  intros p a w x (N & S & X & H) C. destruct (counts_spec _ _ C) as [TB NN]. exists (Datatypes.S N), (fun z => exists y, z = ENot y /\ S y). split; [eauto|]. intros z (y & -> & Y).
  split; [exact Logic.I|]. intros [|f] g j b s F J E O; [lia|]. destruct (H y Y) as [SY EY].
  assert (YI : yields p S w j (evalF f y b false) s) by (eapply EY; try eassumption; lia).
  change (evalF (Datatypes.S f) (ENot y) b false) with (evalNot ST (evalF f) y b). unfold yields, evalNot, bind.
  destruct (push_yields p j (evalF f) b s _ _ _ None YI SY Logic.I) as (i & PI & [(y' & -> & Y' & J')|(v & -> & DE & SI)]); cbv beta iota.
  - exists (VExpr (ENot y')), i. split; [reflexivity|]. split; [exact PI|]. left. exists (ENot y'). split; [reflexivity|]. split; [eauto|exact J'].
  - apply decides_scalar in DE; [subst v|exact NN]. exists (VBool (negb (toBool w))), i. split; [reflexivity|]. split; [exact PI|]. right. split; [exact (SI Logic.I)|]. rewrite TB. apply decides_leaf. constructor.
Qed.
Lemma settles_log : forall p (conj : bool) a b x y, settles p a (VBool x) -> settles p b (VBool y) ->
  settles p ((if conj then ELogAnd else ELogOr) a b) (VBool (if conj then x && y else x || y)).
Proof.
  intros p conj a b x y (Na & Sa & A & HA) (Nb & Sb & B & HB). destruct (HA a A) as [SA EA]. destruct (HB b B) as [SB EB].
  apply (single p _ _ (S (Nat.max Na Nb))); [destruct conj; exact Logic.I|]. intros [|f] g j env s F J E O; [lia|].

  assert (YA : yields p Sa (VBool x) j (evalF f a env false) s) by (eapply EA; try eassumption; lia).
  assert (YB : yields p Sb (VBool y) j (evalF f b env false) s) by (eapply EB; try eassumption; lia).
  set (self := (if conj then ELogAnd else ELogOr) a b).
  assert (Q : evalF (S f) self env false = evalLog ST (evalF f) conj self a b env) by (unfold self; destruct conj; reflexivity). rewrite Q. clear Q.
  unfold yields, evalLog, bind. destruct YA as (va & ia & -> & PA & [(a' & -> & A' & J')|[SIA DA]]); cbv beta iota; cbn [negb].
  - exists (VExpr self), ia. split; [reflexivity|]. split; [exact PA|]. left. exists self. auto.
  - apply decides_scalar in DA; [subst va|now intros []]. destruct YB as (vb & ib & -> & PB & [(b' & -> & B' & J')|[SIB DB]]); cbv beta iota; cbn [negb].
    + exists (VExpr self), (join ia ib). split; [reflexivity|]. split; [now apply join_plain|]. left. exists self. auto.
    + apply decides_scalar in DB; [subst vb|now intros []]. exists (VBool (if conj then x && y else x || y)), (join ia ib). split; [destruct conj; reflexivity|].
      split; [now apply join_plain|]. right. split; [now apply join_silent|]. apply decides_leaf. constructor.
Qed.
Lemma settles_cond : forall p c t f w (x : bool) v, settles p c w -> counts w x -> settles p (if x then t else f) v -> settles p (ECond c t f) v.
Proof.
  intros p c t f w x v (Nc & Sc & C & HC) CT (Nt & St & T & HT). destruct (counts_spec _ _ CT) as [TB NN].
  exists (S (Nat.max Nc Nt)), (fun z => (exists y, z = ECond y t f /\ Sc y) \/ St z). split; [left; eauto|]. intros z [(y & -> & Y)|Z].
  - split; [exact Logic.I|]. intros [|n] g j env s F J E O; [lia|]. destruct (HC y Y) as [SY EY].
    assert (YC : yields p Sc w j (evalF n y env false) s) by (eapply EY; try eassumption; lia).
    assert (YT : yields p St v j (evalF n (if x then t else f) env false) s) by (destruct (HT _ T) as [_ ET]; eapply ET; try eassumption; lia).
    change (evalF (S n) (ECond y t f) env false) with (evalCond ST (evalF n) y t f env). unfold yields, evalCond, bind.
    destruct (push_yields p j (evalF n) env s _ _ _ (Some defaultInfo) YC SY default_plain) as (i & PI & [(y' & -> & Y' & J')|(u & -> & DE & SI)]); cbv beta iota.
    + exists (VExpr (ECond y' t f)), i. split; [reflexivity|]. split; [exact PI|]. left. exists (ECond y' t f). split; [reflexivity|]. split; [left; eauto|exact J'].
    + apply decides_scalar in DE; [subst u|exact NN]. rewrite TB. destruct YT as (vt & it & ET & PT & H).
      assert (Q : (if x then evalF n t env false else evalF n f env false) s = Ret (vt, it, true) s) by (destruct x; exact ET). rewrite Q. cbv beta iota.
      exists vt, (join it i). split; [reflexivity|]. split; [now apply join_plain|]. destruct H as [(z & -> & Z & J')|[SIT DT]].
      * left. exists z. auto.
      * right. split; [apply join_silent; [exact SIT|exact (SI default_silent)]|exact DT].
  - destruct (HT z Z) as [SZ EZ]. split; [exact SZ|]. intros n g j b s F J E O. eapply yields_sub; [|intros u Hu; right; exact Hu]. eapply EZ; try eassumption. lia.
Qed.
Lemma settles_or : forall p a b v, settles p a v -> settles p (EOr a b) v.
Proof.
  intros p a b v (N & S & A & H). destruct (H a A) as [SA EA]. apply (single p (EOr a b) v (Datatypes.S N) Logic.I). intros [|f] g j env s F J E O; [lia|].
  assert (Y : yields p S v j (evalF f a env false) s) by (eapply EA; try eassumption; lia).
  change (evalF (Datatypes.S f) (EOr a b) env false) with (evalOr ST (evalF f) a b env). unfold yields, evalOr, bind.
  destruct Y as (va & ia & -> & PA & H1). cbv beta iota. assert (U : f_undefined ia = false) by (destruct PA as (_ & _ & _ & _ & _ & _ & U & _); exact U). rewrite U. cbn [andb negb].
  destruct H1 as [(x & -> & X & J')|[SI DE]].
  - exists (VExpr (EOr a b)), ia. split; [reflexivity|]. split; [exact PA|]. left. eauto.
  - exists va, ia. split; [destruct va; try reflexivity; exfalso; now apply decides_noexpr in DE|]. split; [exact PA|]. right. auto.
Qed.
(** the alternative to a failing or undecided first operand *)
Lemma settles_else : forall p a b v N, (forall f g j env s, (N <= f)%nat -> (1 <= j)%nat -> encl g j p (b_scopes env) -> b_outer env = outer ->
   exists va ia ok, evalF f a env false s = Ret (va, ia, ok) s /\ plainInfo (cleanError ia) /\
     ((ok = true /\ plainInfo ia /\ (exists x, va = VExpr x) /\ (j <= rank p)%nat) \/ ok = false)) ->
  settles p b v -> settles p (EOr a b) v.
Proof.
  intros p a b v Na HA (N & S & B & H). exists (Datatypes.S (Nat.max Na N)), (fun z => z = EOr a b \/ S z). split; [now left|]. intros z [->|Z].
  - split; [exact Logic.I|]. intros [|f] g j env s F J E O; [lia|]. destruct (H b B) as [_ EB].
    assert (Y : yields p S v j (evalF f b env false) s) by (eapply EB; try eassumption; lia).
    change (evalF (Datatypes.S f) (EOr a b) env false) with (evalOr ST (evalF f) a b env). unfold yields, evalOr, bind.
    destruct (HA f g j env s ltac:(lia) J E O) as (va & ia & ok & -> & PC & [(-> & PA & (x & ->) & J')| ->]); cbv beta iota.
    + assert (U : f_undefined ia = false) by (destruct PA as (_ & _ & _ & _ & _ & _ & U & _); exact U). rewrite U. cbn [andb negb].
      exists (VExpr (EOr a b)), ia. split; [reflexivity|]. split; [exact PA|]. left. eauto.
    + cbn [andb]. destruct Y as (vb & ib & -> & PB & H1). cbv beta iota. exists vb, (setUndef (f_undefined ib) (join (cleanError ia) ib)). split; [reflexivity|].
      split; [apply undef_plain; [now apply join_plain|exact PB]|]. destruct H1 as [(x & -> & X & J')|[SI DE]]; [left; eauto|]. right. split; [|exact DE].
      apply (join_silent (cleanError ia) ib); [reflexivity|exact SI].
  - destruct (H z Z) as [SZ EZ]. split; [exact SZ|]. intros f g j env s F J E O. eapply yields_sub; [|intros u Hu; right; exact Hu]. eapply EZ; try eassumption. lia.
Qed.
Lemma settles_list : forall p Ns Ss es vs, Forall2 (fun S x => (S x : Prop)) Ss es -> Forall2 (fun S v => stays Ns p v S) Ss vs -> settles p (EList es) (VList (map lit vs)).
Proof.
  intros p N Ss es vs FS FV. exists (S N), (fun z => exists es', z = EList es' /\ Forall2 (fun S x => (S x : Prop)) Ss es'). split; [eauto|]. clear es FS. intros z (es & -> & FS).
  split; [exact Logic.I|]. intros [|f] g j env s F J E O; [lia|].
  assert (H1 : Forall2 (fun S x => (S x : Prop) /\ simple x) Ss es).
  { clear -FS FV. revert es FS. induction FV as [|S v Ss vs H FV IH]; intros es FS; inversion FS; subst; constructor; [|auto]. split; [assumption|]. now apply H. }
  assert (H2 : Forall2 (fun S xv => yields p S (snd xv) j (evalF f (fst xv) env false) s) Ss (combine es vs) /\ length es = length vs).
  { clear H1. revert es FS. induction FV as [|S v Ss vs H FV IH]; intros es FS; inversion FS; subst; [split; [constructor|reflexivity]|].
    match goal with H0 : Forall2 _ Ss ?l |- _ => destruct (IH l H0) as [I1 I2] end. split; [|cbn; congruence]. cbn [combine]. constructor; [|exact I1]. cbn [fst snd].
    match goal with H0 : S ?y |- _ => destruct (H y H0) as [_ EX] end. eapply EX; try eassumption. lia. }
  destruct H2 as [H2 LE].
  change (evalF (S f) (EList es) env false) with (evalList ST (evalF f) es env). unfold yields, evalList, resolveList, bind.
  destruct (each_yields p j (evalF f) env s Ss es vs H1 H2 LE None Logic.I) as (i & ves & PI & [(-> & ME & FD & SI)|(-> & FE & J')]); cbv beta iota.
  - assert (EA : expandArgs ves = Some (map fst ves)).
    { apply expand_simple. rewrite ME. clear -H1. induction H1 as [|S x Ss es [_ SX] H IH]; constructor; auto. }
    unfold ret at 1. rewrite EA. cbv beta iota. exists (VList (map (fun v => dnode v (b_source env)) (map fst ves))), i. split; [reflexivity|]. split; [exact PI|]. right. split; [exact (SI Logic.I)|].
    apply list_decides.
    + clear -FD. induction FD as [|v0 [v x] vs ves DE FD IH]; constructor; [|exact IH]. apply (decides_dnode _ _ _ DE).
    + clear -FD. induction FD as [|v0 [v x] vs ves DE FD IH]; [reflexivity|]. cbn [map fst]. rewrite IH. f_equal. apply (decides_dnode _ _ _ DE).
  - assert (SM : Forall simple (map snd ves)).
    { clear -FE FV. revert FE. generalize (map snd ves). intros l FE. revert vs FV. induction FE as [|S x Ss l X FE IH]; intros vs FV; inversion FV; subst; constructor; [|eauto].
      match goal with H : stays _ _ _ S |- _ => now apply H end. }
    unfold ret at 1. rewrite (expand_simple _ SM). cbv beta iota. exists (VExpr (EList (map snd ves))), i. split; [reflexivity|]. split; [exact PI|]. left. eexists. split; [reflexivity|]. split; [eauto|exact J'].
Qed.
Lemma settles_ref : forall p name q c0 rest r c, PropRef.named name -> enclosing D p q name -> part D' (q ++ [name]) c0 ->
  leads text D (q ++ [name]) c0 rest r c -> settledBefore text D rank p (q ++ name :: r) -> settles p (ERef "" (name :: rest)) (val c).
Proof.
  intros p name q c0 rest r c NM EN AC L SB. apply (single p (ERef "" (name :: rest)) (val c) 1 Logic.I). intros [|f] g j b s F J E O; [lia|]. eapply ref_found; eassumption.
Qed.
Lemma itest_spec : forall op x y t, intTest op x y = Some t -> op_cmp (w_lambdaText W) op (VInt x) (VInt y) = Some (VBool t).
Proof.
  intros op x y t H. unfold intTest in H. unfold op_cmp, cmpOrd. cbn [existsb].
  destruct (String.eqb_spec op "=="); [cbn; now injection H as <-|]. destruct (String.eqb_spec op "!="); [cbn; now injection H as <-|].
  unfold Z.ltb, Z.leb in H. rewrite (Z.compare_antisym x y) in H.
  destruct (String.eqb_spec op "<"); [subst op; cbn in *; injection H as <-; now destruct (x ?= y)%Z|].
  destruct (String.eqb_spec op "<="); [subst op; cbn in *; injection H as <-; now destruct (x ?= y)%Z|].
  destruct (String.eqb_spec op ">"); [subst op; cbn in *; injection H as <-; now destruct (x ?= y)%Z|].
  destruct (String.eqb_spec op ">="); [subst op; cbn in *; injection H as <-; now destruct (x ?= y)%Z|]. discriminate H.
Qed.
Lemma stays_common : forall p es vs, Forall2 (fun e v => settles p e v) es vs -> exists N Ss, Forall2 (fun S x => (S x : Prop)) Ss es /\ Forall2 (fun S v => stays N p v S) Ss vs.
Proof.
  intros p es vs F. induction F as [|e v es vs (N & S & X & H) F (N' & Ss & F1 & F2)]; [exists 0%nat, []; split; constructor|].
  exists (Nat.max N N'), (S :: Ss). split; constructor; try assumption; [eapply stays_le; [exact H|lia]|].
  clear -F2. induction F2 as [|S' v' Ss vs H' F2 IH]; constructor; [eapply stays_le; [exact H'|lia]|exact IH].
Qed.
Lemma denotes_settles : forall p, (forall e v, denotes p e v -> settles p e v) /\ (forall es vs, denotesL p es vs -> Forall2 (fun e v => settles p e v) es vs).
Proof.
  intro p. apply denotes_mut.
  - apply constant; [exact Logic.I|constructor|reflexivity].
  - intro b. apply constant; [exact Logic.I|constructor|reflexivity].
  - intro z. apply constant; [exact Logic.I|constructor|reflexivity].
  - intros t L. apply constant; [exact Logic.I|now constructor|reflexivity].
  - intros name rest q c0 r c NM EN AC L SB. eapply settles_ref; eassumption.
  - intros e v _. apply settles_group.
  - intros a b x y _ IA _ IB. eapply binary; [reflexivity| |exact IA|exact IB]. intros f u w env. eexists. split; [reflexivity|]. now apply arith_k.
  - intros a b x y _ IA _ IB. eapply binary; [reflexivity| |exact IA|exact IB]. intros f u w env. eexists. split; [reflexivity|]. now apply arith_k.
  - intros a b x y _ IA _ IB. eapply binary; [reflexivity| |exact IA|exact IB]. intros f u w env. eexists. split; [reflexivity|]. now apply arith_k.
  - intros a b x y _ IA _ IB NZ. eapply binary; [reflexivity| |exact IA|exact IB]. intros f u w env. eexists. split; [reflexivity|]. apply arith_k. cbn. destruct (Z.eqb_spec y 0); [contradiction|reflexivity].
  - intros a b x y _ (Na & Sa & A & HA) _ (Nb & Sb & B & HB) NZ. exists (S (Nat.max Na Nb)), (fun z => exists x y, z = EMod x y /\ Sa x /\ Sb y).
    split; [eauto|]. intros z (u & w & -> & U & V). split; [exact Logic.I|]. intros [|f] g j env s F J E O; [lia|]. destruct (HA u U) as [SX EX]. destruct (HB w V) as [SY EY].
    change (evalF (S f) (EMod u w) env false) with (evalMod ST (evalF f) u w env). apply mod_yields; try assumption; [eapply EX|eapply EY]; try eassumption; lia.
  - intros a b v w x y _ IA _ IB WA WB LT. eapply binary; [reflexivity| |exact IA|exact IB]. intros f u t env. eexists. split; [reflexivity|].
    intros s va vb i DA DB PI SI. destruct (writes_spec _ _ WA) as [TA NA]. destruct (writes_spec _ _ WB) as [TB NB].
    apply decides_scalar in DA; [subst va|exact NA]. apply decides_scalar in DB; [subst vb|exact NB].
    exists (VStr (x +++ y)), i. split; [|split; [exact PI|split; [exact SI|apply decides_leaf; now constructor]]].
    unfold concat, op_concat, concatenateString. rewrite TA, TB. destruct w; try reflexivity. inversion WB.
  - intros a b l l' _ IA _ IB. eapply binary; [reflexivity| |exact IA|exact IB]. intros f u t env. eexists. split; [reflexivity|].
    intros s va vb i DA DB PI SI. destruct (decides_list _ _ DA) as (l1 & -> & P1 & M1). destruct (decides_list _ _ DB) as (l2 & -> & P2 & M2).
    exists (VList (l1 ++ l2)), i. split; [reflexivity|]. split; [exact PI|]. split; [exact SI|]. apply list_decides; [apply Forall_app; auto|]. now rewrite !map_app, M1, M2.
  - intros a b l v _ IA _ IB NN NL. eapply binary; [reflexivity| |exact IA|exact IB]. intros f u t env. eexists. split; [reflexivity|].
    intros s va vb i DA DB PI SI. destruct (decides_list _ _ DA) as (l1 & -> & P1 & M1). pose proof (decides_dnode _ _ (f_source i) DB) as [PD DT].
    exists (VList (l1 ++ [dnode vb (f_source i)])), i. split; [|split; [exact PI|split; [exact SI|apply list_decides; [apply Forall_app; auto|]; now rewrite !map_app, M1; cbn [map]; rewrite DT]]].
    unfold concat, op_concat, concatenateString, dnode. cbn [searchText].
    destruct vb; try reflexivity.
    + exfalso. apply NN. destruct DB as [_ SB]. unfold sameV, sameDoc, lit in SB. cbn [data] in SB. injection SB as SB. destruct v; try discriminate SB; reflexivity.
    + exfalso. destruct DB as [_ SB]. unfold sameV, sameDoc, lit in SB. cbn [data] in SB. injection SB as SB. destruct v; try discriminate SB. now eapply NL.
  - intros es vs _ F. destruct (stays_common p es vs F) as (N & Ss & F1 & F2). eapply settles_list; eassumption.
  - intros a v x _ IA C. eapply settles_not; eassumption.
  - intros a b x y _ IA _ IB. exact (settles_log p true a b x y IA IB).
  - intros a b x y _ IA _ IB. exact (settles_log p false a b x y IA IB).
  - intros a op b x y t _ IA _ IB T. eapply (binary p (fun a b => ECmp a op b)); [reflexivity| |exact IA|exact IB]. intros f u w env. eexists. split; [reflexivity|].
    intros s va vb i DA DB PI SI. apply decides_scalar in DA; [subst va|now intros []]. apply decides_scalar in DB; [subst vb|now intros []].
    exists (VBool t), (join i defaultInfo). unfold compare. rewrite (itest_spec _ _ _ _ T). split; [reflexivity|]. split; [apply join_plain; [exact PI|apply default_plain]|].
    split; [apply join_silent; [exact SI|reflexivity]|apply decides_leaf; constructor].
  - intros a b x y _ IA _ IB. eapply (binary p (fun a b => ECmp a "==" b)); [reflexivity| |exact IA|exact IB]. intros f u w env. eexists. split; [reflexivity|].
    intros s va vb i DA DB PI SI. apply decides_scalar in DA; [subst va|now intros []]. apply decides_scalar in DB; [subst vb|now intros []].
    exists (VBool (String.eqb x y)), (join i defaultInfo). split; [|split; [apply join_plain; [exact PI|apply default_plain]|split; [apply join_silent; [exact SI|reflexivity]|apply decides_leaf; constructor]]].
    reflexivity.
  - intros c t f w v _ IC C _ IT. exact (settles_cond p c t f w true v IC C IT).
  - intros c t f w v _ IC C _ IT. exact (settles_cond p c t f w false v IC C IT).
  - intros a b v _ IA. now apply settles_or.
  - intros a b v FA _ IB. apply (settles_else p _ b v 1); [|exact IB]. intros [|f] g j env s F J E O; [lia|].
    destruct (fails_eval p a g j env f s FA J E O) as (va & ia & ok & EV & PC & H). exists va, ia, ok. split; [exact EV|]. split; [exact PC|].
    destruct H as [(H1 & H2 & H3 & H4)|H]; [left|now right]. eauto 6.
  - constructor.
  - intros e es v vs _ IE _ IS. now constructor.
Qed.
End Ev.
