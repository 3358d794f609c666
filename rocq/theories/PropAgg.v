(** C50: the aggregations map, select, filter and sum, for every list or map, every
    lambda, every evaluator state and environment. *)
From Coq Require Import Lia.
From Verif Require Import Core CoreFacts Str Interp Find Cleanup Unresolved DeepEq Env Arith IP Comparison RangeSlice ListFns Flow Info Eval Control Engine EngineFacts Runs World0.
From Verif Require PropCond PropLambda.
Import ListNotations.
Notation falsy := PropCond.falsy.

(** ** Specification *)
(** what an element contributes: the lambda may answer with nothing (nil or undefined) *)
Definition nothing (r : value * info) : Prop := fst r = VNil \/ f_undefined (snd r) = true.
(** [keepIf P l l']: l' are the elements of l with P, in their order *)
Inductive keepIf {A} (P : A -> Prop) : list A -> list A -> Prop :=
| K_nil : keepIf P [] []
| K_yes x l l' : P x -> keepIf P l l' -> keepIf P (x :: l) (x :: l')
| K_no x l l' : ~ P x -> keepIf P l l' -> keepIf P (x :: l) l'.
(** the element with the answer of the lambda: it counts for map, it is chosen by
    select and filter *)
Definition counts {A} (p : A * (value * info)) : Prop := ~ nothing (snd p).
Definition chosen {A} (p : A * (value * info)) : Prop := ~ nothing (snd p) /\ ~ falsy (fst (snd p)).
(** the node of an answer *)
Definition answer (r : value * info) : node := dnode (fst r) (f_source (snd r)).
(** elements of a list or a map in the order they are visited, with the key: the
    position or the map key *)
Definition elements (v : value) (l : list (value * node)) : Prop :=
  match v with
  | VList ns => map snd l = ns /\ (forall i kn, nth_error l i = Some kn -> fst kn = VGoInt (Z.of_nat i))
  | VMap m => l = map (fun kv => (VStr (fst kv), snd kv)) m
  | _ => False
  end.
(** the arguments for a lambda with [n] parameters: element, or key and element *)
Definition arguments (n : nat) (key v : value) (args : list value) : Prop :=
  match n with
  | 1%nat => args = [v]
  | S (S k) => args = key :: repeat VNil k ++ [v]
  | O => False
  end.
Definition sumArguments (n : nat) (acc key v : value) (args : list value) : Prop :=
  match n with
  | 2%nat => args = [acc; v]
  | S (S (S k)) => args = acc :: key :: repeat VNil k ++ [v]
  | _ => False
  end.

Section C50.
Variable ST : Type.
Variable W : world ST.
Hypothesis SW : steadyWorld W.
Notation evaluates := (evaluates ST W).
Notation crashes := (crashes ST W).
Notation evalF := (evalF ST W).

(** the scope of the body: the bound parameters (C37_bound) and, for a lambda that is
    not written in place, "_" for the lambda itself *)
Definition bodyScope (lm : lam) (inline : bool) (b : binding) (inp : smap node) : binding :=
  withLocalScope (if inline then inp else mset SELF (resolverNode (dnode (lamVal lm) (b_source b)) (l_res lm)) inp) b.
(** the lambda applied to the arguments answers with a value, waits or fails *)
Definition answers (lm : lam) (inline : bool) (b : binding) (args : list value) (s : ST) (r : value * info) (s' : ST) : Prop :=
  exists inp, lambdaPrepare lm false false [] args (b_source b) = LBody inp /\
    evaluates (l_body lm) (bodyScope lm inline b inp) false s (fst r, snd r, true) s' /\ forall e, fst r <> VExpr e.
Definition waits (lm : lam) (inline : bool) (b : binding) (args : list value) (s s' : ST) : Prop :=
  exists inp e i, lambdaPrepare lm false false [] args (b_source b) = LBody inp /\
    evaluates (l_body lm) (bodyScope lm inline b inp) false s (VExpr e, i, true) s'.
Definition fails (lm : lam) (inline : bool) (b : binding) (args : list value) (s s' : ST) : Prop :=
  (exists i, lambdaPrepare lm false false [] args (b_source b) = LErr i /\ s' = s) \/
  (exists inp v i, lambdaPrepare lm false false [] args (b_source b) = LBody inp /\
    evaluates (l_body lm) (bodyScope lm inline b inp) false s (v, i, false) s').
(** the lambda applied to one element after the other *)
Inductive answersEach (lm : lam) (inline : bool) (b : binding) : list (value * node) -> ST -> list (value * info) -> ST -> Prop :=
| AE_nil s : answersEach lm inline b [] s [] s
| AE_cons k n l args s r s1 rs s2 : arguments (length (l_ps lm)) k (val n) args ->
    answers lm inline b args s r s1 -> answersEach lm inline b l s1 rs s2 ->
    answersEach lm inline b ((k, n) :: l) s (r :: rs) s2.

(** ** the loop *)
Fixpoint aggFold (c : mapctx) (l : list (value * option string * node)) (rs : list (value * info)) (acc : value) : option value :=
  match l, rs with
  | (_, key, n) :: l, (v, i) :: rs =>
      match aggAdd c key v n i acc with Some acc => aggFold c l rs acc | None => None end
  | _, _ => Some acc
  end.
Lemma mapArgs_arguments : forall n k v args, arguments n k v args -> mapArgs n k v = Some args.
Proof.
  intros [|[|n]] k v args H; cbn in H; [destruct H|subst; reflexivity|subst].
  unfold mapArgs, setLast. f_equal. cbn [repeat].
  replace (k :: VNil :: repeat VNil n) with ((k :: repeat VNil n) ++ [VNil]).
  - now rewrite removelast_last.
  - cbn. f_equal. symmetry. apply repeat_cons.
Qed.
Lemma sumArgs_arguments : forall n acc k v args, sumArguments n acc k v args -> sumArgs n acc k v = Some args.
Proof.
  intros [|[|[|n]]] acc k v args H; cbn in H; [destruct H|destruct H|subst; reflexivity|subst].
  unfold sumArgs, setLast. f_equal. cbn [repeat].
  replace (acc :: k :: VNil :: repeat VNil n) with ((acc :: k :: repeat VNil n) ++ [VNil]).
  - now rewrite removelast_last.
  - cbn. do 2 f_equal. symmetry. apply repeat_cons.
Qed.
Lemma answers_eval : forall lm inline b args s r s', answers lm inline b args s r s' ->
  exists f, forall g, (f <= g)%nat ->
    lambdaEval ST (evalF g) lm inline false false [] args b false s = Ret (true, (fst r, snd r, true)) s'.
Proof.
  intros lm inline b args s [v i] s' (inp & P & [f E] & V). cbn [fst snd] in *.
  exists f. intros g L. unfold lambdaEval. rewrite P. unfold bind.
  pose proof (le_ret _ _ _ _ _ _ (evalF_le _ _ SW f g L _ _ _) E) as E'. unfold bodyScope in E'. rewrite E'.
  unfold ret. cbn [negb]. destruct v; try reflexivity. now destruct (V e).
Qed.
Lemma waits_eval : forall lm inline b args s s', waits lm inline b args s s' ->
  exists f i, forall g, (f <= g)%nat ->
    lambdaEval ST (evalF g) lm inline false false [] args b false s = Ret (false, (VNil, i, true)) s'.
Proof.
  intros lm inline b args s s' (inp & e & i & P & [f E]).
  exists f, i. intros g L. unfold lambdaEval. rewrite P. unfold bind.
  pose proof (le_ret _ _ _ _ _ _ (evalF_le _ _ SW f g L _ _ _) E) as E'. unfold bodyScope in E'. now rewrite E'.
Qed.
Lemma fails_eval : forall lm inline b args s s', fails lm inline b args s s' ->
  exists f i v, forall g, (f <= g)%nat ->
    lambdaEval ST (evalF g) lm inline false false [] args b false s = Ret (false, (v, i, false)) s'.
Proof.
  intros lm inline b args s s' [(i & P & ->)|(inp & v & i & P & [f E])].
  - exists O, i, VNil. intros g L. unfold lambdaEval. now rewrite P.
  - do 3 eexists. intros g L. unfold lambdaEval. rewrite P. unfold bind.
    pose proof (le_ret _ _ _ _ _ _ (evalF_le _ _ SW f g L _ _ _) E) as E'. unfold bodyScope in E'. now rewrite E'.
Qed.

Definition strip (e : value * option string * node) : value * node := (fst (fst e), snd e).
Lemma mapEach_all : forall c lm inline b es s rs s', answersEach lm inline b (map strip es) s rs s' ->
  exists f, forall g, (f <= g)%nat -> forall acc,
    (forall r, aggFold c es rs acc = Some r -> mapEach ST (evalF g) c lm inline es b acc s = Ret (Some r, defaultInfo, true) s').
Proof.
  intros c lm inline b. induction es as [|[[k key] n] es IH]; intros s rs s' A; cbn [map strip fst snd] in A.
  - inversion A; subst. exists O. intros g _ acc r H. cbn in H. inversion H; subst. reflexivity.
  - inversion A as [|k' n' l args s0 r s1 rs' s2 G An E]; subst.
    destruct (IH _ _ _ E) as [f H], (answers_eval _ _ _ _ _ _ _ An) as [f' H'].
    exists (Nat.max f f'). intros g L acc x F. cbn [mapEach]. rewrite (mapArgs_arguments _ _ _ _ G).
    unfold bind at 1. rewrite (H' g) by lia. cbn [negb]. destruct r as [v i]. cbn [fst snd] in *.
    cbn [aggFold] in F. destruct An as (_ & _ & _ & V). cbn [fst] in V.
    destruct (aggAdd c key v n i acc) as [acc'|]; [|discriminate].
    destruct v; try (now apply H; [lia|]). now destruct (V e).
Qed.
(** the loop up to an element without a result *)
Lemma mapEach_app : forall c lm inline b es es2 s rs s1, answersEach lm inline b (map strip es) s rs s1 ->
  exists f, forall g, (f <= g)%nat -> forall acc r, aggFold c es rs acc = Some r ->
    mapEach ST (evalF g) c lm inline (es ++ es2) b acc s = mapEach ST (evalF g) c lm inline es2 b r s1.
Proof.
  intros c lm inline b. induction es as [|[[k key] n] es IH]; intros es2 s rs s1 A; cbn [map strip fst snd] in A.
  - inversion A; subst. exists O. intros g _ acc r H. cbn in H. inversion H; subst. reflexivity.
  - inversion A as [|k' n' l args s0 r s2 rs' s3 G An E]; subst.
    destruct (IH es2 _ _ _ E) as [f H], (answers_eval _ _ _ _ _ _ _ An) as [f' H'].
    exists (Nat.max f f'). intros g L acc x F. cbn [app mapEach]. rewrite (mapArgs_arguments _ _ _ _ G).
    unfold bind at 1. rewrite (H' g) by lia. cbn [negb]. destruct r as [v i]. cbn [fst snd] in *.
    cbn [aggFold] in F. destruct An as (_ & _ & _ & V). cbn [fst] in V.
    destruct (aggAdd c key v n i acc) as [acc'|]; [|discriminate].
    destruct v; try (now apply H; [lia|]). now destruct (V e).
Qed.

(** ** the expression around the loop *)
Record parts (c : mapctx) (a lx : expr) (b : binding) (s : ST) (v : value) (lm : lam) (s2 : ST) : Prop := {
  pt_source : exists ia s1, evaluates a b true s (v, ia, true) s1 /\
    exists il, evaluates lx b false s1 (lamVal lm, il, true) s2;
  pt_supports : supports c v = true;
  pt_params : forall l, v = VList l -> (length (l_ps lm) <= 2)%nat }.
Lemma mapping_parts : forall c a lx b s v lm s2 k, parts c a lx b s v lm s2 ->
  (exists f, forall g, (f <= g)%nat -> mapEach ST (evalF g) c lm (isInline lx) (entries v) b (emptyResult c v) s2 = k) ->
  exists f, forall g, (f <= g)%nat -> evalMapping ST (evalF g) c a lx b s =
    match k with
    | Ret (r, i, ok) s' => if ok then match r with Some v => Ret (v, i, true) s' | None => Ret (VExpr (EMapping c a lx), i, true) s' end else Ret (VNil, i, false) s'
    | Fuel => Fuel
    | Panic => Panic
    end.
Proof.
  intros c a lx b s v lm s2 k [(ia & s1 & [f1 E1] & il & [f2 E2]) SU PA] [f H].
  exists (Nat.max f (Nat.max f1 f2)). intros g L. unfold evalMapping, resolvePush, bind at 1, bind at 1.
  rewrite (le_ret _ _ _ _ _ _ (evalF_le _ _ SW f1 g ltac:(lia) _ _ _) E1). unfold ret at 1.
  assert (NV : forall e, v <> VExpr e) by (intros e ->; destruct c; discriminate).
  replace (match v with VExpr x => PExpr (keepArg x a) ia | _ => PVal v ia end) with (PVal v ia)
    by (destruct v; try reflexivity; now destruct (NV e)).
  unfold bind at 1, bind at 1.
  rewrite (le_ret _ _ _ _ _ _ (evalF_le _ _ SW f2 g ltac:(lia) _ _ _) E2). unfold ret at 1.
  replace (match lamVal lm with VExpr x => PExpr (keepArg x lx) il | _ => PVal (lamVal lm) il end) with (PVal (lamVal lm) il)
    by (now destruct lm).
  cbv beta iota. replace (lamOf (lamVal lm)) with (Some lm) by (now destruct lm). rewrite SU. cbn [negb].
  replace (isList v && (2 <? length (l_ps lm))%nat) with false.
  2: { destruct v; try reflexivity. cbn [isList andb]. symmetry. apply Nat.ltb_ge. now apply (PA l). }
  unfold bind at 1. rewrite (H g) by lia. destruct k as [[[r i] ok] s'| |]; try reflexivity.
  destruct ok; [|reflexivity]. now destruct r.
Qed.

(** ** accumulation *)
Lemma nothing_dec : forall r, nothing r \/ ~ nothing r.
Proof.
  intros [v i]. unfold nothing. cbn. destruct (f_undefined i); [tauto|].
  destruct v; try (right; intros [H|H]; discriminate). tauto.
Qed.
Lemma counts_dec : forall A (p : A * (value * info)), counts p \/ ~ counts p.
Proof. intros A [a r]. unfold counts. cbn. destruct (nothing_dec r); tauto. Qed.
Lemma chosen_dec : forall A (p : A * (value * info)), chosen p \/ ~ chosen p.
Proof.
  intros A [a r]. unfold chosen. cbn. destruct (nothing_dec r); [tauto|]. destruct (toBool (fst r)) eqn:E.
  - left. split; [assumption|]. intro F. apply PropCond.toBool_falsy in F. congruence.
  - right. intros [_ F]. apply F. now apply PropCond.toBool_falsy.
Qed.
Lemma keepIf_ex : forall {A} (P : A -> Prop), (forall x, P x \/ ~ P x) -> forall l, exists l', keepIf P l l'.
Proof. intros A P D. induction l as [|x l [l' H]]; [eexists; constructor|]. destruct (D x); eexists; [apply K_yes|apply K_no]; eauto. Qed.
Lemma add_nothing : forall c key v n i acc, nothing (v, i) -> aggAdd c key v n i acc = Some acc.
Proof. intros c key v n i acc [H|H]; cbn in H; unfold aggAdd; [subst; now rewrite orb_true_r|now rewrite H]. Qed.
Lemma add_some : forall c key v n i acc, ~ nothing (v, i) -> aggAdd c key v n i acc =
  match c with
  | MapToList => Some (addList acc (dnode v (f_source i)))
  | MapToMap => match key with
                | Some k => Some (addMap acc k (dnode v (f_source i)))
                | None => match val n with VStr s => Some (addMap acc s (dnode v (f_source i))) | _ => None end
                end
  | SelectToList | FilterList => Some (if toBool v then addList acc n else acc)
  | SelectToMap | FilterMap => Some (if toBool v then addMap acc (match key with Some k => k | None => "" end) n else acc)
  end.
Proof.
  intros c key v n i acc H. unfold aggAdd. destruct (f_undefined i) eqn:U; [destruct H; now right|].
  destruct v; try reflexivity. destruct H. now left.
Qed.
Lemma chosen_toBool : forall A (a : A) v i, ~ nothing (v, i) -> (chosen (a, (v, i)) <-> toBool v = true).
Proof.
  intros A a v i N. unfold chosen. cbn. split.
  - intros [_ F]. now apply PropCond.toBool_truthy.
  - intro T. split; [exact N|]. intro F. apply PropCond.toBool_falsy in F. congruence.
Qed.

Lemma fold_mapList : forall es rs kept acc, keepIf counts (combine (map strip es) rs) kept ->
  aggFold MapToList es rs (VList acc) = Some (VList (acc ++ map (fun p => answer (snd p)) kept)).
Proof.
  induction es as [|[[k key] n] es IH]; intros [|[v i] rs] kept acc H; cbn [map combine] in H;
    try (inversion H; subst; cbn; now rewrite app_nil_r).
  cbn [aggFold]. inversion H as [|x l l' C K|x l l' C K]; subst.
  - rewrite add_some by exact C. cbn [addList]. rewrite (IH _ l') by assumption. cbn [map]. now rewrite <- app_assoc.
  - rewrite add_nothing; [now apply IH|]. destruct (nothing_dec (v, i)) as [N|N]; [exact N|]. now destruct (C N).
Qed.
Lemma fold_selList : forall c es rs kept acc, c = SelectToList \/ c = FilterList -> keepIf chosen (combine (map strip es) rs) kept ->
  aggFold c es rs (VList acc) = Some (VList (acc ++ map (fun p => snd (fst p)) kept)).
Proof.
  intros c es rs kept acc Hc. revert rs kept acc. induction es as [|[[k key] n] es IH]; intros [|[v i] rs] kept acc H; cbn [map combine] in H;
    try (inversion H; subst; cbn; now rewrite app_nil_r).
  cbn [aggFold]. destruct (nothing_dec (v, i)) as [N|N].
  - rewrite add_nothing by assumption. inversion H as [|x l l' C K|x l l' C K]; subst; [now destruct C|]. now apply IH.
  - rewrite add_some by assumption.
    assert (T : chosen (strip (k, key, n), (v, i)) <-> toBool v = true) by now apply chosen_toBool.
    inversion H as [|x l l' C K|x l l' C K]; subst.
    + rewrite (proj1 T C). destruct Hc as [-> | ->]; cbn [addList]; rewrite (IH _ l') by assumption; cbn [map]; now rewrite <- app_assoc.
    + destruct (toBool v) eqn:E; [destruct (C (proj2 T eq_refl))|]. destruct Hc as [-> | ->]; now apply IH.
Qed.

(** maps: every pair is stored under its key, later ones replace earlier ones *)
Definition collects (kvs : list (string * node)) (m : smap node) : Prop :=
  forall k x, mget k m = Some x <-> exists l1 l2, kvs = l1 ++ (k, x) :: l2 /\ ~ In k (map fst l2).
Lemma collects_nil : collects [] [].
Proof. intros k x. split; [discriminate|]. intros ([|] & l2 & E & _); discriminate. Qed.
Lemma collects_snoc : forall kvs m k x, collects kvs m -> collects (kvs ++ [(k, x)]) (mset k x m).
Proof.
  intros kvs m k x C q y. rewrite mget_mset. destruct (String.eqb q k) eqn:E.
  - apply String.eqb_eq in E. subst q. split.
    + intro H. inversion H; subst. exists kvs, []. split; [reflexivity|intros []].
    + intros (l1 & l2 & E & N). destruct l2 as [|p l2] using rev_ind.
      * apply app_inj_tail in E. destruct E as [_ E]. now inversion E.
      * rewrite app_comm_cons, app_assoc in E. apply app_inj_tail in E. destruct E as [_ <-].
        destruct N. rewrite map_app, in_app_iff. right. now left.
  - apply String.eqb_neq in E. rewrite (C q y). split.
    + intros (l1 & l2 & -> & N). exists l1, (l2 ++ [(k, x)]). split; [now rewrite <- app_assoc|].
      rewrite map_app, in_app_iff. cbn. intros [I|[I|[]]]; congruence.
    + intros (l1 & l2 & F & N). destruct l2 as [|p l2 _] using rev_ind.
      * apply app_inj_tail in F. destruct F as [_ F]. inversion F. congruence.
      * rewrite app_comm_cons, app_assoc in F. apply app_inj_tail in F. destruct F as [-> <-].
        exists l1, l2. split; [reflexivity|]. intro I. apply N. rewrite map_app, in_app_iff. now left.
Qed.
(** the key of an element under which the result of map is stored *)
Definition keyOf (v : value) (k : value) (n : node) : option string :=
  match v with
  | VMap _ => match k with VStr s => Some s | _ => None end
  | _ => match val n with VStr s => Some s | _ => None end
  end.
Definition pairOf (v : value) (p : (value * node) * (value * info)) : string * node :=
  (match keyOf v (fst (fst p)) (snd (fst p)) with Some s => s | None => ""%string end, answer (snd p)).
Lemma fold_mapMap : forall v es rs kept kvs acc,
  Forall (fun e => match v with VMap _ => snd (fst e) = keyOf v (fst (fst e)) (snd e) /\ snd (fst e) <> None | _ => snd (fst e) = None end) es ->
  keepIf counts (combine (map strip es) rs) kept ->
  Forall (fun p => keyOf v (fst (fst p)) (snd (fst p)) <> None) kept ->
  collects kvs acc ->
  exists m, aggFold MapToMap es rs (VMap acc) = Some (VMap m) /\ collects (kvs ++ map (pairOf v) kept) m.
Proof.
  intros v. induction es as [|[[k key] n] es IH]; intros [|[w i] rs] kept kvs acc EK H FK C; cbn [map combine] in H;
    try (inversion H; subst; exists acc; cbn; rewrite app_nil_r; now split).
  inversion EK as [|e es' EK1 EK2]; subst. cbn [fst snd] in EK1.
  cbn [aggFold]. inversion H as [|x l l' N K|x l l' N K]; subst.
  - inversion FK as [|x' l2 FK1 FK2]; subst. rewrite add_some by exact N. cbn [strip fst snd] in FK1.
    assert (G : exists s, keyOf v k n = Some s /\
       match key with
       | Some k0 => Some (addMap (VMap acc) k0 (dnode w (f_source i)))
       | None => match val n with VStr s => Some (addMap (VMap acc) s (dnode w (f_source i))) | _ => None end
       end = Some (VMap (mset s (dnode w (f_source i)) acc))).
    { destruct (keyOf v k n) as [s|] eqn:E; [|now destruct FK1]. exists s. split; [reflexivity|].
      destruct v; try (subst key; unfold keyOf in E; destruct (val n); try discriminate; inversion E; subst; reflexivity).
      destruct EK1 as [-> _]. reflexivity. }
    destruct G as (sk & E1 & ->).
    destruct (IH rs l' (kvs ++ [(sk, dnode w (f_source i))]) (mset sk (dnode w (f_source i)) acc) EK2 K FK2 (collects_snoc _ _ _ _ C)) as (m & A & B).
    exists m. split; [exact A|]. cbn [map]. unfold pairOf at 1. cbn [strip fst snd]. rewrite E1.
    rewrite <- app_assoc in B. exact B.
  - rewrite add_nothing; [now apply IH|]. destruct (nothing_dec (w, i)) as [M|M]; [exact M|]. now destruct (N M).
Qed.
Lemma fold_selMap : forall c es rs kept kvs acc, c = SelectToMap \/ c = FilterMap ->
  Forall (fun e => exists s, fst (fst e) = VStr s /\ snd (fst e) = Some s) es ->
  keepIf chosen (combine (map strip es) rs) kept -> collects kvs acc ->
  exists m, aggFold c es rs (VMap acc) = Some (VMap m) /\
    collects (kvs ++ map (fun p => (match fst (fst p) with VStr s => s | _ => ""%string end, snd (fst p))) kept) m.
Proof.
  intros c es rs kept kvs acc Hc. revert rs kept kvs acc.
  induction es as [|[[k key] n] es IH]; intros [|[w i] rs] kept kvs acc EK H C; cbn [map combine] in H;
    try (inversion H; subst; exists acc; cbn; rewrite app_nil_r; now split).
  inversion EK as [|e es' [sk [EK1 EK3]] EK2]; subst. cbn [fst snd] in EK1, EK3. subst k key.
  cbn [aggFold]. destruct (nothing_dec (w, i)) as [N|N].
  - rewrite add_nothing by assumption. inversion H as [|x l l' D K|x l l' D K]; subst; [now destruct D|]. now apply IH.
  - rewrite add_some by assumption.
    assert (T : chosen (strip (VStr sk, Some sk, n), (w, i)) <-> toBool w = true) by now apply chosen_toBool.
    inversion H as [|x l l' D K|x l l' D K]; subst.
    + rewrite (proj1 T D).
      destruct (IH rs l' (kvs ++ [(sk, n)]) (mset sk n acc) EK2 K (collects_snoc _ _ _ _ C)) as (m & A & B).
      exists m. split; [destruct Hc as [-> | ->]; exact A|]. cbn [map strip fst snd]. rewrite <- app_assoc in B. exact B.
    + destruct (toBool w) eqn:E; [destruct (D (proj2 T eq_refl))|].
      destruct (IH rs kept kvs acc EK2 K C) as (m & A & B). exists m. split; [destruct Hc as [-> | ->]; exact A|exact B].
Qed.

Lemma indexed_elements : forall l z, map snd (map strip (indexed z l)) = l /\
  forall i kn, nth_error (map strip (indexed z l)) i = Some kn -> fst kn = VGoInt (z + Z.of_nat i).
Proof.
  induction l as [|n l IH]; intros z; cbn [indexed map]; [split; [reflexivity|intros [|i] kn H; discriminate]|].
  destruct (IH (z + 1)) as [A B]. split; [cbn; now rewrite A|].
  intros [|i] kn H; cbn [nth_error] in H.
  - inversion H; subst. cbn. f_equal. lia.
  - rewrite (B _ _ H). f_equal. lia.
Qed.
Lemma list_elements : forall l z, (forall i kn, nth_error l i = Some kn -> fst kn = VGoInt (z + Z.of_nat i)) ->
  l = map strip (indexed z (map snd l)).
Proof.
  induction l as [|[k n] l IH]; intros z H; [reflexivity|]. cbn [map snd indexed strip fst]. f_equal.
  - specialize (H O _ eq_refl). cbn [fst] in H. rewrite H. now rewrite Z.add_0_r.
  - apply IH. intros i kn E. rewrite (H (S i) kn E). f_equal. lia.
Qed.
Lemma elements_entries : forall v l, elements v l -> l = map strip (entries v).
Proof.
  intros v l H. destruct v; cbn in H; try contradiction.
  - destruct H as [<- H]. cbn [entries]. now apply list_elements.
  - subst l. cbn [entries]. rewrite map_map. apply map_ext. now intros [k n].
Qed.
Lemma entries_keys : forall v, elements v (map strip (entries v)) \/ entries v = [].
Proof. intros v. destruct v; try (now right); left; cbn [elements entries]; [apply (indexed_elements l 0)|rewrite map_map; apply map_ext; now intros [k n]]. Qed.
Lemma fold_entries : forall c a lx b l s v lm s2 es rs s' r, parts c a lx b s v lm s2 -> elements v es ->
  answersEach lm (isInline lx) b es s2 rs s' -> aggFold c (entries v) rs (emptyResult c v) = Some r ->
  evaluates (EMapping c a lx) b l s (r, defaultInfo, true) s'.
Proof.
  intros c a lx b l s v lm s2 es rs s' r P E A F. rewrite (elements_entries _ _ E) in A.
  destruct (mapEach_all c _ _ _ _ _ _ _ A) as [f H].
  destruct (mapping_parts _ _ _ _ _ _ _ _ (Ret (Some r, defaultInfo, true) s') P) as [f' H'].
  { exists f. intros g L. now apply H. }
  apply evaluates_step. exists f'. unfold stepE, eval1. now rewrite (H' f') by lia.
Qed.

(** ** C50: results *)
(** map[...] yields the answers in the order of the elements (of a map: in the order
    of its keys), without those that are nothing. *)
Theorem C50_map : forall a lx b l s v lm s2 es rs s', parts MapToList a lx b s v lm s2 -> elements v es ->
  answersEach lm (isInline lx) b es s2 rs s' ->
  exists kept, keepIf counts (combine es rs) kept /\
    evaluates (EMapping MapToList a lx) b l s (VList (map (fun p => answer (snd p)) kept), defaultInfo, true) s'.
Proof.
  intros a lx b l s v lm s2 es rs s' P E A.
  destruct (keepIf_ex counts (counts_dec _) (combine es rs)) as [kept K]. exists kept. split; [exact K|].
  eapply fold_entries; eauto. rewrite (elements_entries _ _ E) in K. cbn [emptyResult]. now rewrite (fold_mapList _ _ _ [] K).
Qed.
(** select[...] and filter[...] yield the elements themselves for which the answer is
    true, in their order. *)
Theorem C50_select : forall c a lx b l s v lm s2 es rs s', c = SelectToList \/ c = FilterList -> parts c a lx b s v lm s2 -> elements v es ->
  answersEach lm (isInline lx) b es s2 rs s' ->
  exists kept, keepIf chosen (combine es rs) kept /\
    evaluates (EMapping c a lx) b l s (VList (map (fun p => snd (fst p)) kept), defaultInfo, true) s'.
Proof.
  intros c a lx b l s v lm s2 es rs s' Hc P E A.
  destruct (keepIf_ex chosen (chosen_dec _) (combine es rs)) as [kept K]. exists kept. split; [exact K|].
  eapply fold_entries; eauto. rewrite (elements_entries _ _ E) in K.
  pose proof (fold_selList c (entries v) rs kept [] Hc K). destruct Hc as [-> | ->]; assumption.
Qed.
(** map{...} stores the answers, for a map under the key of the element, for a list under
    the element, which has to be a text; the last one wins. *)
Theorem C50_mapmap : forall a lx b l s v lm s2 es rs s' kept, parts MapToMap a lx b s v lm s2 -> elements v es ->
  answersEach lm (isInline lx) b es s2 rs s' -> keepIf counts (combine es rs) kept ->
  Forall (fun p => keyOf v (fst (fst p)) (snd (fst p)) <> None) kept ->
  exists m, collects (map (pairOf v) kept) m /\
    evaluates (EMapping MapToMap a lx) b l s (VMap m, defaultInfo, true) s'.
Proof.
  intros a lx b l s v lm s2 es rs s' kept P E A K FK.
  pose proof (elements_entries _ _ E) as EE.
  destruct (fold_mapMap v (entries v) rs kept [] []) as (m & F & C).
  - destruct v; try (cbn in E; contradiction).
    + cbn [entries]. clear. generalize 0. induction l0 as [|n l0 IH]; intro z; constructor; [reflexivity|]. apply IH.
    + cbn [entries]. apply Forall_forall. intros e I. apply in_map_iff in I. destruct I as ([k n] & <- & _). cbn. split; congruence.
  - now rewrite <- EE.
  - exact FK.
  - exact collects_nil.
  - exists m. split; [exact C|]. eapply fold_entries; eauto.
Qed.
(** select{...} and filter{...} of a map keep the chosen entries with their keys. *)
Theorem C50_selectmap : forall c a lx b l s m lm s2 es rs s', c = SelectToMap \/ c = FilterMap -> parts c a lx b s (VMap m) lm s2 -> elements (VMap m) es ->
  answersEach lm (isInline lx) b es s2 rs s' -> msorted m ->
  exists m' kept, keepIf chosen (combine m rs) kept /\
    (forall k n, mget k m' = Some n <-> In (k, n) (map fst kept)) /\
    evaluates (EMapping c a lx) b l s (VMap m', defaultInfo, true) s'.
Proof.
  intros c a lx b l s m lm s2 es rs s' Hc P E A MS.
  assert (KL : forall (m : smap node) rs kept, keepIf chosen (combine m rs) kept ->
     keepIf chosen (combine (map (fun kv => (VStr (fst kv), snd kv)) m) rs) (map (fun p => ((VStr (fst (fst p)), snd (fst p)), snd p)) kept)).
  { clear. induction m as [|kv m IH]; intros [|r rs] kept K; cbn [combine map] in *; [inversion K; constructor|inversion K; constructor|inversion K; constructor|].
    inversion K as [|x y z C K'|x y z C K']; subst; cbn [map fst snd]; [apply K_yes|apply K_no]; auto. }
  destruct (keepIf_ex chosen (chosen_dec _) (combine m rs)) as [kept K].
  destruct (fold_selMap c (entries (VMap m)) rs (map (fun p => ((VStr (fst (fst p)), snd (fst p)), snd p)) kept) [] []) as (m' & F & C); trivial.
  - cbn [entries]. apply Forall_forall. intros e I. apply in_map_iff in I. destruct I as ([k n] & <- & _). cbn. eauto.
  - rewrite <- (elements_entries _ _ E). cbn in E. subst es. now apply KL.
  - exact collects_nil.
  - exists m', kept. split; [exact K|]. split.
    + intros k n. rewrite (C k n). cbn [app]. rewrite map_map.
      assert (SB : forall (l : list ((string * node) * (value * info))), map (fun x => (match fst (fst ((VStr (fst (fst x)), snd (fst x)), snd x)) with VStr s => s | _ => ""%string end, snd (fst ((VStr (fst (fst x)), snd (fst x)), snd x)))) l = map fst l)
        by (intro; apply map_ext; intros [[k0 n0] r]; reflexivity).
      cbn [fst snd] in SB |- *. rewrite SB.
      assert (ND : NoDup (map fst (map fst kept))).
      { clear - K MS. apply msorted_NoDup in MS. unfold mkeys in MS. revert rs kept K. induction m as [|[k0 n0] m IH]; intros [|r rs] kept K; cbn [combine] in K; [inversion K; constructor|inversion K; constructor|inversion K; constructor|].
        inversion MS; subst. inversion K as [|x l l' C K'|x l l' C K']; subst; cbn [map fst]; [constructor|]; eauto.
        intro I. apply H1. clear - K' I. revert rs l' K' I. induction m as [|[k1 n1] m IH]; intros [|r rs] l' K I; cbn [combine] in K; [inversion K; subst; destruct I|inversion K; subst; destruct I|inversion K; subst; destruct I|].
        inversion K as [|x l l2 C K'|x l l2 C K']; subst; cbn [map fst] in *; [destruct I as [I|I]; [now left|]|]; right; eauto. }
      split.
      * intros (l1 & l2 & -> & _). rewrite in_app_iff. right. now left.
      * intro I. apply in_split in I. destruct I as (l1 & l2 & E2). exists l1, l2. split; [exact E2|].
        rewrite E2, map_app in ND. cbn [map fst] in ND. apply NoDup_remove_2 in ND. intro I. apply ND. rewrite in_app_iff. now right.
    + eapply fold_entries; eauto. destruct Hc as [-> | ->]; exact F.
Qed.
(** A waiting element delays the whole expression, a failing one lets it fail; no later
    element is visited. *)
Lemma fold_prefix : forall c lm inline b v es1 s2 rs s3, answersEach lm inline b es1 s2 rs s3 ->
  forall es2, map strip es2 = es1 -> supports c v = true -> incl es2 (entries v) ->
  (c = MapToMap -> Forall (fun p => ~ nothing (snd p) -> keyOf v (fst (fst p)) (snd (fst p)) <> None) (combine es1 rs)) ->
  exists r, aggFold c es2 rs (emptyResult c v) = Some r.
Proof.
  intros c lm inline b v es1 s2 rs s3 A. generalize (emptyResult c v).
  induction A as [|k n l args s r s1 rs s2' G An A IH]; intros acc es2 E SU IN FK; [destruct es2; [eexists; reflexivity|discriminate]|].
  destruct es2 as [|[[k' key] n'] es2]; [discriminate|]. cbn [map strip fst snd] in E. inversion E; subst. cbn [aggFold].
  destruct r as [w i].
  assert (X : exists acc', aggAdd c key w n i acc = Some acc').
  { destruct (nothing_dec (w, i)) as [N|N]; [rewrite add_nothing by assumption; eauto|]. rewrite add_some by assumption.
    destruct c; eauto. destruct key as [q|]; eauto. specialize (FK eq_refl). cbn [combine] in FK. inversion FK; subst. specialize (H1 N). cbn [fst snd] in H1.
    destruct v; try discriminate; unfold keyOf in H1; [destruct (val n); eauto; congruence|].
    specialize (IN _ (or_introl eq_refl)). cbn [entries] in IN. apply in_map_iff in IN. destruct IN as ([k0 n0] & X & _). discriminate. }
  destruct X as [acc' ->]. apply (IH acc' es2); trivial.
  - intros x I. apply IN. now right.
  - intro Hc. specialize (FK Hc). cbn [combine] in FK. now inversion FK.
Qed.
Theorem C50_wait : forall c a lx b l s v lm s2 es1 k n es2 rs s3 args s4,
  parts c a lx b s v lm s2 -> elements v (es1 ++ (k, n) :: es2) ->
  answersEach lm (isInline lx) b es1 s2 rs s3 ->
  (c = MapToMap -> Forall (fun p => ~ nothing (snd p) -> keyOf v (fst (fst p)) (snd (fst p)) <> None) (combine es1 rs)) ->
  arguments (length (l_ps lm)) k (val n) args -> waits lm (isInline lx) b args s3 s4 ->
  exists i, evaluates (EMapping c a lx) b l s (VExpr (EMapping c a lx), i, true) s4.
Proof.
  intros c a lx b l s v lm s2 es1 k n es2 rs s3 args s4 P E A FK G Wt.
  pose proof (elements_entries _ _ E) as EE. symmetry in EE. apply map_eq_app in EE.
  destruct EE as (f1 & f2 & EN & E1 & E2). destruct f2 as [|[[k' key] n'] f2]; [discriminate|].
  cbn [map strip fst snd] in E2. inversion E2; subst.
  destruct (fold_prefix c _ _ _ v _ _ _ _ A f1 eq_refl (pt_supports _ _ _ _ _ _ _ _ P)) as [r F].
  { rewrite EN. intros x I. apply in_or_app. now left. }
  { exact FK. }
  destruct (mapEach_app c _ _ _ _ ((k, key, n) :: f2) _ _ _ A) as [f H].
  destruct (waits_eval _ _ _ _ _ _ Wt) as (f' & i & H').
  destruct (mapping_parts _ _ _ _ _ _ _ _ (Ret (None, i, true) s4) P) as [f'' H''].
  { exists (Nat.max f f'). intros g L. rewrite EN, (H g ltac:(lia) _ _ F). cbn [mapEach].
    rewrite (mapArgs_arguments _ _ _ _ G). unfold bind. now rewrite (H' g) by lia. }
  exists i. apply evaluates_step. exists f''. unfold stepE, eval1. now rewrite (H'' f'') by lia.
Qed.
Theorem C50_fail : forall c a lx b l s v lm s2 es1 k n es2 rs s3 args s4,
  parts c a lx b s v lm s2 -> elements v (es1 ++ (k, n) :: es2) ->
  answersEach lm (isInline lx) b es1 s2 rs s3 ->
  (c = MapToMap -> Forall (fun p => ~ nothing (snd p) -> keyOf v (fst (fst p)) (snd (fst p)) <> None) (combine es1 rs)) ->
  arguments (length (l_ps lm)) k (val n) args -> fails lm (isInline lx) b args s3 s4 ->
  exists i, evaluates (EMapping c a lx) b l s (VNil, i, false) s4.
Proof.
  intros c a lx b l s v lm s2 es1 k n es2 rs s3 args s4 P E A FK G Wt.
  pose proof (elements_entries _ _ E) as EE. symmetry in EE. apply map_eq_app in EE.
  destruct EE as (f1 & f2 & EN & E1 & E2). destruct f2 as [|[[k' key] n'] f2]; [discriminate|].
  cbn [map strip fst snd] in E2. inversion E2; subst.
  destruct (fold_prefix c _ _ _ v _ _ _ _ A f1 eq_refl (pt_supports _ _ _ _ _ _ _ _ P)) as [r F].
  { rewrite EN. intros x I. apply in_or_app. now left. }
  { exact FK. }
  destruct (mapEach_app c _ _ _ _ ((k, key, n) :: f2) _ _ _ A) as [f H].
  destruct (fails_eval _ _ _ _ _ _ Wt) as (f' & i & w & H').
  destruct (mapping_parts _ _ _ _ _ _ _ _ (Ret (None, i, false) s4) P) as [f'' H''].
  { exists (Nat.max f f'). intros g L. rewrite EN, (H g ltac:(lia) _ _ F). cbn [mapEach].
    rewrite (mapArgs_arguments _ _ _ _ G). unfold bind. now rewrite (H' g) by lia. }
  exists i. apply evaluates_step. exists f''. unfold stepE, eval1. now rewrite (H'' f'') by lia.
Qed.

(** The element is bound to the last parameter, the key to the first one of several. *)
Theorem C50_bound : forall lm b k v args, NoDup (map fst (l_ps lm)) -> l_va lm = false ->
  arguments (length (l_ps lm)) k v args -> PropLambda.wfLam lm ->
  exists inp, lambdaPrepare lm false false [] args (b_source b) = LBody inp /\
    (forall p d, nth_error (l_ps lm) (length (l_ps lm) - 1) = Some (p, d) -> mget p inp = Some (dnode v (b_source b))) /\
    (forall p d, nth_error (l_ps lm) 0 = Some (p, d) -> (1 < length (l_ps lm))%nat -> mget p inp = Some (dnode k (b_source b))).
Proof.
  intros lm b k v args ND VA G WF.
  assert (LA : length args = length (l_ps lm)).
  { destruct (length (l_ps lm)) as [|[|n]]; cbn in G; [destruct G|now subst|subst; cbn; rewrite app_length, repeat_length; cbn; lia]. }
  destruct (PropLambda.C37_accepted lm false [] args (b_source b)) as [inp P]; trivial; try lia.
  - exact Logic.I.
  - intros (n & x & H & _). discriminate.
  - intros (n1 & n2 & v1 & v2 & i & p & d & _ & H & _). discriminate.
  - intros i p d x _ _ (n & H & _). discriminate.
  - intros i p H L. exfalso. assert (i < length (l_ps lm))%nat; [|lia]. apply nth_error_Some. congruence.
  - exists inp. split; [exact P|].
    destruct (PropLambda.C37_bound lm false false [] args (b_source b) inp ND Logic.I P) as [B _].
    split; intros p d H.
    + specialize (B _ _ _ H). unfold PropLambda.argAt in B. rewrite VA in B. cbn [andb] in B.
      replace (nth_error args (length (l_ps lm) - 1)) with (Some v) in B; [exact (proj1 B)|].
      rewrite <- LA. destruct (length (l_ps lm)) as [|[|n]]; cbn in G; [destruct G|now subst|subst].
      cbn [length]. rewrite app_length, repeat_length. cbn [length].
      replace (S (n + 1) - 1)%nat with (S n) by lia. cbn [nth_error].
      rewrite nth_error_app2; rewrite repeat_length; [|lia].
      now rewrite Nat.sub_diag.
    + intro L. specialize (B _ _ _ H). unfold PropLambda.argAt in B. rewrite VA in B. cbn [andb] in B.
      replace (nth_error args 0) with (Some k) in B; [exact (proj1 B)|].
      destruct (length (l_ps lm)) as [|[|n]]; [lia|lia|]. cbn in G. now subst.
Qed.

(** ** C50: rejected *)
(** Only lists and maps are aggregated; filter[] and select{}, filter{} do not accept the
    other kind; a lambda for a list has at most two parameters; the operand must be a
    lambda; the keys for map{} of a list must be texts. *)
Inductive rejected (c : mapctx) (v : value) (lm : lam) : Prop :=
| RJ_kind : (forall l, v <> VList l) -> (forall m, v <> VMap m) -> rejected c v lm
| RJ_map m : v = VMap m -> c = FilterList -> rejected c v lm
| RJ_list l : v = VList l -> c = SelectToMap \/ c = FilterMap -> rejected c v lm
| RJ_params l : v = VList l -> (2 < length (l_ps lm))%nat -> rejected c v lm.
Lemma two_parts : forall c a lx b s v ia s1 w il s2, evaluates a b true s (v, ia, true) s1 -> PropCond.isValue v ->
  evaluates lx b false s1 (w, il, true) s2 -> PropCond.isValue w ->
  exists f, forall g, (f <= g)%nat -> evalMapping ST (evalF g) c a lx b s =
    match lamOf w with
    | None => Ret (VNil, setError "mapping requires a lambda value" il, false) s2
    | Some lm => (if negb (supports c v) then fail ST "value not supported" ia
                  else if isList v && (2 <? length (l_ps lm))%nat
                  then failI ST (setError "mapping expression takes a maximum of 2 arguments" defaultInfo)
                  else bind ST (mapEach ST (evalF g) c lm (isInline lx) (entries v) b (emptyResult c v))
                    (fun x => let '(r, i, ok) := x in
                      if negb ok then failI ST i else match r with Some v => done ST v i | None => keep ST (EMapping c a lx) i end)) s2
    end.
Proof.
  intros c a lx b s v ia s1 w il s2 [f1 E1] Vv [f2 E2] Vw.
  exists (Nat.max f1 f2). intros g L. unfold evalMapping, resolvePush, bind at 1, bind at 1.
  rewrite (le_ret _ _ _ _ _ _ (evalF_le _ _ SW f1 g ltac:(lia) _ _ _) E1). unfold ret at 1.
  replace (match v with VExpr x => PExpr (keepArg x a) ia | _ => PVal v ia end) with (PVal v ia)
    by (destruct v; try reflexivity; now destruct (Vv e)).
  unfold bind at 1, bind at 1.
  rewrite (le_ret _ _ _ _ _ _ (evalF_le _ _ SW f2 g ltac:(lia) _ _ _) E2). unfold ret at 1.
  replace (match w with VExpr x => PExpr (keepArg x lx) il | _ => PVal w il end) with (PVal w il)
    by (destruct w; try reflexivity; now destruct (Vw e)).
  cbv beta iota. now destruct (lamOf w).
Qed.
Theorem C50_rejected : forall c a lx b l s v ia s1 lm il s2,
  evaluates a b true s (v, ia, true) s1 -> PropCond.isValue v -> evaluates lx b false s1 (lamVal lm, il, true) s2 ->
  rejected c v lm -> exists i, evaluates (EMapping c a lx) b l s (VNil, i, false) s2.
Proof.
  intros c a lx b l s v ia s1 lm il s2 A V E RJ.
  destruct (two_parts c _ _ _ _ _ _ _ _ _ _ A V E) as [f H]; [destruct lm; intros e X; discriminate|].
  replace (lamOf (lamVal lm)) with (Some lm) in H by now destruct lm.
  assert (G : supports c v = false \/ (supports c v = true /\ isList v && (2 <? length (l_ps lm))%nat = true)).
  { destruct RJ as [N1 N2|m -> ->|l0 -> [-> | ->]|l0 -> L]; try (now left).
    - left. destruct v; try reflexivity; [now destruct (N1 l0)|now destruct (N2 m)].
    - cbn [isList andb]. apply Nat.ltb_lt in L. destruct (supports c (VList l0)); [right|left]; auto. }
  destruct G as [G|[G1 G2]].
  - eexists. apply evaluates_step. exists f. unfold stepE, eval1. rewrite (H f) by lia. rewrite G. reflexivity.
  - eexists. apply evaluates_step. exists f. unfold stepE, eval1. rewrite (H f) by lia. rewrite G1, G2. reflexivity.
Qed.
Theorem C50_no_lambda : forall c a lx b l s v ia s1 w il s2,
  evaluates a b true s (v, ia, true) s1 -> PropCond.isValue v -> evaluates lx b false s1 (w, il, true) s2 -> PropCond.isValue w ->
  (forall lm, w <> lamVal lm) -> exists i, evaluates (EMapping c a lx) b l s (VNil, i, false) s2.
Proof.
  intros c a lx b l s v ia s1 w il s2 A V E V2 NL.
  destruct (two_parts c _ _ _ _ _ _ _ _ _ _ A V E V2) as [f H].
  replace (lamOf w) with (@None lam) in H.
  2: { destruct w; try reflexivity. now destruct (NL (mkLam ps varargs body static resolver)). }
  eexists. apply evaluates_step. exists f. unfold stepE, eval1. rewrite (H f) by lia. reflexivity.
Qed.
(** an operand that fails or waits decides: nothing is applied *)
Theorem C50_operand_fails : forall c a lx b l s v ia s1,
  evaluates a b true s (v, ia, false) s1 -> evaluates (EMapping c a lx) b l s (VNil, ia, false) s1.
Proof.
  intros c a lx b l s v ia s1 [f E]. apply evaluates_step. exists f. unfold stepE, eval1, evalMapping, resolvePush, bind.
  now rewrite E.
Qed.
Theorem C50_operand_waits : forall c a lx b l s e ia s1 lm il s2,
  evaluates a b true s (VExpr e, ia, true) s1 -> evaluates lx b false s1 (lamVal lm, il, true) s2 ->
  exists e' i, evaluates (EMapping c a lx) b l s (VExpr (EMapping c e' lx), i, true) s2.
Proof.
  intros c a lx b l s e ia s1 lm il s2 [f1 E1] [f2 E2]. do 2 eexists. apply evaluates_step.
  exists (Nat.max f1 f2). unfold stepE, eval1, evalMapping, resolvePush, bind.
  rewrite (le_ret _ _ _ _ _ _ (evalF_le _ _ SW f1 (Nat.max f1 f2) ltac:(lia) _ _ _) E1). unfold ret at 1. cbv beta iota.
  rewrite (le_ret _ _ _ _ _ _ (evalF_le _ _ SW f2 (Nat.max f1 f2) ltac:(lia) _ _ _) E2). destruct lm. reflexivity.
Qed.

(** ** C50: sum *)
(** the accumulated value after the elements *)
Inductive sums (lm : lam) (inline : bool) (b : binding) : list (value * node) -> value -> ST -> value -> ST -> Prop :=
| SM_nil acc s : sums lm inline b [] acc s acc s
| SM_cons k n l acc args s r s1 x s2 : sumArguments (length (l_ps lm)) acc k (val n) args ->
    answers lm inline b args s r s1 -> sums lm inline b l (fst r) s1 x s2 ->
    sums lm inline b ((k, n) :: l) acc s x s2.
Lemma sumEach_app : forall lm inline b l acc s x s', sums lm inline b l acc s x s' -> forall es es2, map strip es = l ->
  exists f, forall g, (f <= g)%nat ->
    sumEach ST (evalF g) lm inline (es ++ es2) b acc s = sumEach ST (evalF g) lm inline es2 b x s'.
Proof.
  induction 1 as [acc s|k n l acc args s r s1 x s2 G An A IH]; intros es es2 E.
  - destruct es; [|discriminate]. now exists O.
  - destruct es as [|[[k' key] n'] es]; [discriminate|]. cbn [map strip fst snd] in E. inversion E; subst.
    destruct (IH es es2 eq_refl) as [f H], (answers_eval _ _ _ _ _ _ _ An) as [f' H'].
    exists (Nat.max f f'). intros g L. cbn [app sumEach]. rewrite (sumArgs_arguments _ _ _ _ _ G).
    unfold bind at 1. rewrite (H' g) by lia. cbn [negb orb].
    replace (isExpr (fst r)) with false; [apply H; lia|].
    destruct An as (_ & _ & _ & V). destruct r as [[] i]; try reflexivity. now destruct (V e).
Qed.
Record sumParts (a ini lx : expr) (b : binding) (s : ST) (v v0 : value) (lm : lam) (s3 : ST) : Prop := {
  sp_parts : exists ia s1 i0 s2 il, evaluates a b true s (v, ia, true) s1 /\ evaluates ini b false s1 (v0, i0, true) s2 /\
    evaluates lx b false s2 (lamVal lm, il, true) s3;
  sp_init : PropCond.isValue v0;
  sp_kind : (exists l, v = VList l /\ (2 <= length (l_ps lm) <= 3)%nat) \/ exists m, v = VMap m }.
Lemma sum_parts : forall a ini lx b s v v0 lm s3 k, sumParts a ini lx b s v v0 lm s3 ->
  (exists f, forall g, (f <= g)%nat -> sumEach ST (evalF g) lm (isInline lx) (entries v) b v0 s3 = k) ->
  exists f, forall g, (f <= g)%nat -> evalSum ST (evalF g) a ini lx b s =
    match k with
    | Ret (res, (r, i, ok)) s' => if ok then Ret (if res then r else VExpr (ESum a ini lx), i, true) s' else Ret (VNil, i, false) s'
    | Fuel => Fuel
    | Panic => Panic
    end.
Proof.
  intros a ini lx b s v v0 lm s3 k [(ia & s1 & i0 & s2 & il & [f1 E1] & [f2 E2] & [f3 E3]) V0 K] [f H].
  exists (Nat.max f (Nat.max f1 (Nat.max f2 f3))). intros g L. unfold evalSum, resolvePush, bind at 1, bind at 1.
  rewrite (le_ret _ _ _ _ _ _ (evalF_le _ _ SW f1 g ltac:(lia) _ _ _) E1). unfold ret at 1.
  replace (match v with VExpr x => PExpr (keepArg x a) ia | _ => PVal v ia end) with (PVal v ia)
    by (destruct K as [(q & -> & _)|(q & ->)]; reflexivity).
  unfold bind at 1, bind at 1.
  rewrite (le_ret _ _ _ _ _ _ (evalF_le _ _ SW f2 g ltac:(lia) _ _ _) E2). unfold ret at 1.
  replace (match v0 with VExpr x => PExpr (keepArg x ini) (join ia i0) | _ => PVal v0 (join ia i0) end) with (PVal v0 (join ia i0))
    by (destruct v0; try reflexivity; now destruct (V0 e)).
  unfold bind at 1, bind at 1.
  rewrite (le_ret _ _ _ _ _ _ (evalF_le _ _ SW f3 g ltac:(lia) _ _ _) E3). unfold ret at 1.
  replace (match lamVal lm with VExpr x => PExpr (keepArg x lx) il | _ => PVal (lamVal lm) il end) with (PVal (lamVal lm) il)
    by (now destruct lm).
  cbv beta iota. replace (lamOf (lamVal lm)) with (Some lm) by (now destruct lm).
  specialize (H g ltac:(lia)).
  destruct K as [(q & -> & K1)|(q & ->)]; cbn [isList andb]; cbv zeta.
  - replace ((3 <? length (l_ps lm))%nat || (length (l_ps lm) <? 2)%nat) with false.
    2: { symmetry. apply orb_false_iff. split; apply Nat.ltb_ge; lia. }
    unfold bind at 1. rewrite H. destruct k as [[res [[r i] ok]] s'| |]; try reflexivity.
    destruct ok; [|reflexivity]. now destruct res.
  - unfold bind at 1. rewrite H. destruct k as [[res [[r i] ok]] s'| |]; try reflexivity.
    destruct ok; [|reflexivity]. now destruct res.
Qed.
(** sum[...] starts with the initial value and replaces it by the answer for every element. *)
Theorem C50_sum : forall a ini lx b l s v v0 lm s3 es x s4, sumParts a ini lx b s v v0 lm s3 -> elements v es ->
  sums lm (isInline lx) b es v0 s3 x s4 ->
  evaluates (ESum a ini lx) b l s (x, defaultInfo, true) s4.
Proof.
  intros a ini lx b l s v v0 lm s3 es x s4 P E A.
  destruct (sumEach_app _ _ _ _ _ _ _ _ A (entries v) [] (eq_sym (elements_entries _ _ E))) as [f H].
  destruct (sum_parts _ _ _ _ _ _ _ _ _ (Ret (true, (x, defaultInfo, true)) s4) P) as [f' H'].
  { exists f. intros g L. specialize (H g L). rewrite app_nil_r in H. rewrite H. reflexivity. }
  apply evaluates_step. exists f'. unfold stepE, eval1. now rewrite (H' f') by lia.
Qed.
Theorem C50_sum_wait : forall a ini lx b l s v v0 lm s3 es1 k n es2 x s4 args s5, sumParts a ini lx b s v v0 lm s3 ->
  elements v (es1 ++ (k, n) :: es2) -> sums lm (isInline lx) b es1 v0 s3 x s4 ->
  sumArguments (length (l_ps lm)) x k (val n) args -> waits lm (isInline lx) b args s4 s5 ->
  exists i, evaluates (ESum a ini lx) b l s (VExpr (ESum a ini lx), i, true) s5.
Proof.
  intros a ini lx b l s v v0 lm s3 es1 k n es2 x s4 args s5 P E A G Wt.
  pose proof (elements_entries _ _ E) as EE. symmetry in EE. apply map_eq_app in EE.
  destruct EE as (g1 & g2 & EN & E1 & E2). destruct g2 as [|[[k' key] n'] g2]; [discriminate|].
  cbn [map strip fst snd] in E2. inversion E2; subst.
  destruct (sumEach_app _ _ _ _ _ _ _ _ A g1 ((k, key, n) :: g2) eq_refl) as [f H].
  destruct (waits_eval _ _ _ _ _ _ Wt) as (f' & i & H').
  destruct (sum_parts _ _ _ _ _ _ _ _ _ (Ret (false, (VNil, i, true)) s5) P) as [f'' H''].
  { exists (Nat.max f f'). intros g L. rewrite EN, (H g ltac:(lia)). cbn [sumEach].
    rewrite (sumArgs_arguments _ _ _ _ _ G). unfold bind. now rewrite (H' g) by lia. }
  exists i. apply evaluates_step. exists f''. unfold stepE, eval1. now rewrite (H'' f'') by lia.
Qed.
Theorem C50_sum_fail : forall a ini lx b l s v v0 lm s3 es1 k n es2 x s4 args s5, sumParts a ini lx b s v v0 lm s3 ->
  elements v (es1 ++ (k, n) :: es2) -> sums lm (isInline lx) b es1 v0 s3 x s4 ->
  sumArguments (length (l_ps lm)) x k (val n) args -> fails lm (isInline lx) b args s4 s5 ->
  exists i, evaluates (ESum a ini lx) b l s (VNil, i, false) s5.
Proof.
  intros a ini lx b l s v v0 lm s3 es1 k n es2 x s4 args s5 P E A G Wt.
  pose proof (elements_entries _ _ E) as EE. symmetry in EE. apply map_eq_app in EE.
  destruct EE as (g1 & g2 & EN & E1 & E2). destruct g2 as [|[[k' key] n'] g2]; [discriminate|].
  cbn [map strip fst snd] in E2. inversion E2; subst.
  destruct (sumEach_app _ _ _ _ _ _ _ _ A g1 ((k, key, n) :: g2) eq_refl) as [f H].
  destruct (fails_eval _ _ _ _ _ _ Wt) as (f' & i & w & H').
  destruct (sum_parts _ _ _ _ _ _ _ _ _ (Ret (true, (VNil, i, false)) s5) P) as [f'' H''].
  { exists (Nat.max f f'). intros g L. rewrite EN, (H g ltac:(lia)). cbn [sumEach].
    rewrite (sumArgs_arguments _ _ _ _ _ G). unfold bind. now rewrite (H' g) by lia. }
  exists i. apply evaluates_step. exists f''. unfold stepE, eval1. now rewrite (H'' f'') by lia.
Qed.
End C50.

(** ** Examples *)
Definition W0 := world0 noParse.
Definition L0 : node := nd (VList [nd (VInt 3); nd (VInt 0); nd (VInt 5)]).
Definition ev0 (e : expr) : value :=
  match evalF _ W0 20 e (env0 [("l", L0)]%string) false st0 with Ret (v, _, true) _ => v | Ret _ _ => VStr "failed" | _ => VStr "?" end.
Definition vals (v : value) : list value := match v with VList l => map val l | VMap m => map (fun kv => val (snd kv)) m | _ => [v] end.
Definition lamE (ps : list string) (e : expr) : expr := ELambda (map (fun p => (p, None)) ps) false e.
Notation X n := (ERef "" [n%string]).
Example ex_map : vals (ev0 (EMapping MapToList (X "l") (lamE ["x"]%string (EAdd (X "x") (EInt 1))))) = [VInt 4; VInt 1; VInt 6].
Proof. vm_compute. reflexivity. Qed.
Example ex_map_index : vals (ev0 (EMapping MapToList (X "l") (lamE ["i"; "x"]%string (EMul (X "x") (X "i"))))) = [VInt 0; VInt 0; VInt 10].
Proof. vm_compute. reflexivity. Qed.
Example ex_select : vals (ev0 (EMapping SelectToList (X "l") (lamE ["x"]%string (X "x")))) = [VInt 3; VInt 5].
Proof. vm_compute. reflexivity. Qed.
Example ex_drop : vals (ev0 (EMapping MapToList (X "l") (lamE ["x"]%string (ECond (X "x") (X "x") ENil)))) = [VInt 3; VInt 5].
Proof. vm_compute. reflexivity. Qed.
Example ex_sum : ev0 (ESum (X "l") (EInt 10) (lamE ["s"; "x"]%string (EAdd (X "s") (X "x")))) = VInt 18.
Proof. vm_compute. reflexivity. Qed.
(** the hypotheses of C50_map on the first example *)
Definition lam1 : lam := mkLam [("x"%string, None)] false (EAdd (X "x") (EInt 1)) [] (env0 [("l", L0)]%string).
Example ex_parts : exists lm s2, parts _ W0 MapToList (X "l") (lamE ["x"]%string (EAdd (X "x") (EInt 1))) (env0 [("l", L0)]%string) st0 (val L0) lm s2 /\
  elements (val L0) [(VGoInt 0, nd (VInt 3)); (VGoInt 1, nd (VInt 0)); (VGoInt 2, nd (VInt 5))] /\
  exists rs, answersEach _ W0 lm true (env0 [("l", L0)]%string) [(VGoInt 0, nd (VInt 3)); (VGoInt 1, nd (VInt 0)); (VGoInt 2, nd (VInt 5))] s2 rs s2 /\
    map fst rs = [VInt 4; VInt 1; VInt 6].
Proof.
  assert (P : exists lm, evalF _ W0 20 (lamE ["x"]%string (EAdd (X "x") (EInt 1))) (env0 [("l", L0)]%string) false st0 = Ret (lamVal lm, defaultInfo, true) st0 /\
    l_ps lm = [("x"%string, None)] /\ l_va lm = false /\ l_body lm = EAdd (X "x") (EInt 1) /\ l_static lm = []).
  { eexists (mkLam _ _ _ _ _). repeat split; vm_compute; reflexivity. }
  destruct P as ([ps va body st res] & E & E1 & E2 & E3 & E4). cbn in E1, E2, E3, E4. subst ps va body st.
  exists (mkLam [("x"%string, None)] false (EAdd (X "x") (EInt 1)) [] res), st0. split; [|split].
  - split; [|reflexivity|intros l _; cbn; lia]. do 2 eexists. split; [exists 20%nat; vm_compute; reflexivity|]. eexists. exists 20%nat. exact E.
  - split; [reflexivity|]. intros [|[|[|[|i]]]] kn H; cbn in H; inversion H; reflexivity.
  - exists [(VInt 4, defaultInfo); (VInt 1, defaultInfo); (VInt 6, defaultInfo)]. split; [|reflexivity].
    assert (G : forall z, In z [3; 0; 5] -> answers _ W0 (mkLam [("x"%string, None)] false (EAdd (X "x") (EInt 1)) [] res) true
      (env0 [("l", L0)]%string) [VInt z] st0 (VInt (z + 1), defaultInfo) st0).
    { intros z I. eexists. split; [reflexivity|]. split; [|intros e Q; discriminate].
      destruct I as [<-|[<-|[<-|[]]]]; exists 10%nat; vm_compute; reflexivity. }
    eapply AE_cons; [reflexivity|apply (G 3); now left|].
    eapply AE_cons; [reflexivity|apply (G 0); right; now left|].
    eapply AE_cons; [reflexivity|apply (G 5); do 2 right; now left|]. apply AE_nil.
Qed.
(** A lambda without parameters crashes the program instead of being rejected. *)
Theorem C50_no_parameter_refuted : crashes _ W0 (EMapping MapToList (X "l") (lamE [] (EInt 1))) (env0 [("l", L0)]%string) false st0 /\
  crashes _ W0 (ESum (EMap [(EStr "a", EInt 1)]) (EInt 0) (lamE ["x"]%string (X "x"))) (env0 []) false st0.
Proof. split; exists 20%nat; vm_compute; reflexivity. Qed.

Print Assumptions C50_map.
Print Assumptions C50_select.
Print Assumptions C50_mapmap.
Print Assumptions C50_selectmap.
Print Assumptions C50_wait.
Print Assumptions C50_fail.
Print Assumptions C50_bound.
Print Assumptions C50_rejected.
Print Assumptions C50_no_lambda.
Print Assumptions C50_operand_fails.
Print Assumptions C50_operand_waits.
Print Assumptions C50_sum.
Print Assumptions C50_sum_wait.
Print Assumptions C50_sum_fail.
Print Assumptions C50_no_parameter_refuted.
