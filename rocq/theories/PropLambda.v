(** C37: application of lambda values (dynaml/lambda.go:234-375, dynaml/call.go). *)
From Coq Require Import Lia.
From Verif Require Import Core CoreFacts Str Interp Find Cleanup Unresolved DeepEq Env Arith IP Comparison RangeSlice ListFns Flow Info Eval Control Engine EngineFacts Runs World0.

(** ** Specification *)
Notation params := (list (string * option expr)).
(** the parameter [i] called [p] of a call with the named arguments [nargs] has the
    named argument [v]: given by name or by its number (from 1) *)
Definition namedFor (nargs : smap node) (i : nat) (p : string) (v : node) : Prop :=
  exists n, mget n nargs = Some v /\
    (parseInt32 n = None /\ n = p \/ parseInt32 n = Some (Z.of_nat i + 1)).
(** a named argument without parameter *)
Definition unknownArg (ps : params) (nargs : smap node) : Prop :=
  exists n v, mget n nargs = Some v /\
    match parseInt32 n with
    | None => ~ In n (map fst ps)
    | Some z => z < 1 \/ Z.of_nat (length ps) < z
    end.
(** a parameter given twice by name and number *)
Definition twiceArg (ps : params) (nargs : smap node) : Prop :=
  exists n1 n2 v1 v2 i p d, n1 <> n2 /\ mget n1 nargs = Some v1 /\ mget n2 nargs = Some v2 /\
    nth_error ps i = Some (p, d) /\
    (parseInt32 n1 = None /\ n1 = p \/ parseInt32 n1 = Some (Z.of_nat i + 1)) /\
    (parseInt32 n2 = None /\ n2 = p \/ parseInt32 n2 = Some (Z.of_nat i + 1)).
(** the names of the parameters differ, the defaults are values *)
Definition wfLam (lm : lam) : Prop :=
  NoDup (map fst (l_ps lm)) /\
  forall p d, In (p, Some d) (l_ps lm) -> exists v, d = EValue v.

(** ** Lemmas *)
Definition argTarget (ps : params) (n : string) : string + string :=
  match parseInt32 n with
  | Some i => if i - 1 <? 0 then inl "invalid argument index"%string
              else match nth_error ps (Z.to_nat (i - 1)) with
                   | Some (p, _) => inr p
                   | None => inl "argument index too large"%string
                   end
  | None => inr n
  end.
Lemma namedArgs_cons : forall ps n v r named,
  namedArgs ps ((n, v) :: r) named =
  match argTarget ps n with
  | inl t => inl t
  | inr n => match mget n named with
             | Some _ => inl "named argument given by name and index"%string
             | None => namedArgs ps r (mset n v named)
             end
  end.
Proof. reflexivity. Qed.

Lemma namedArgs_ok : forall ps nargs acc named, namedArgs ps nargs acc = inr named ->
  (msorted acc -> msorted named) /\
  forall p v, mget p named = Some v <->
    (mget p acc = Some v \/ exists n, In (n, v) nargs /\ argTarget ps n = inr p).
Proof.
  induction nargs as [|[n w] r IH]; intros acc named H.
  - cbn in H. inversion H; subst. split; [auto|]. intros p v. split; [auto|]. intros [E|[n [[] _]]]. exact E.
  - rewrite namedArgs_cons in H. destruct (argTarget ps n) as [t|q] eqn:T; [discriminate|].
    destruct (mget q acc) eqn:Q; [discriminate|]. apply IH in H. destruct H as [S H]. split.
    + intro SA. apply S. now apply msorted_mset.
    + intros p v. rewrite H, mget_mset. destruct (String.eqb_spec p q) as [->|N].
      * split.
        -- intros [E|[m [I E]]]; [inversion E; subst; right; exists n; split; [now left|exact T]|].
           right. exists m. split; [now right|exact E].
        -- intros [E|[m [[I|I] E]]]; [congruence| |right; eauto].
           inversion I; subst. now left.
      * split.
        -- intros [E|[m [I E]]]; [now left|]. right. exists m. split; [now right|exact E].
        -- intros [E|[m [[I|I] E]]]; [now left| |right; eauto].
           inversion I; subst. rewrite T in E. inversion E; congruence.
Qed.

(** success of the names *)
Lemma namedArgs_total : forall ps nargs acc,
  (exists named, namedArgs ps nargs acc = inr named) <->
  ((forall n v, In (n, v) nargs -> exists p, argTarget ps n = inr p /\ mget p acc = None) /\
   (forall pre post n v, nargs = pre ++ (n, v) :: post -> forall n' v', In (n', v') post ->
      argTarget ps n' <> argTarget ps n)).
Proof.
  intros ps. induction nargs as [|[n w] r IH]; intros acc.
  - split; [|intros _; cbn; eauto]. intros _. split; [intros ? ? []|].
    intros pre post n v E. destruct pre; discriminate.
  - rewrite namedArgs_cons. split.
    + intros [named H]. destruct (argTarget ps n) as [t|q] eqn:T; [discriminate|].
      destruct (mget q acc) eqn:Q; [discriminate|].
      destruct (proj1 (IH _) (ex_intro _ _ H)) as [A B]. split.
      * intros n' v' [I|I]; [inversion I; subst; eauto|].
        destruct (A _ _ I) as [p [E G]]. rewrite mget_mset in G.
        destruct (String.eqb_spec p q); [discriminate|]. eauto.
      * intros pre post n0 v0 E n' v' I. destruct pre as [|x pre]; cbn in E; inversion E; subst.
        -- destruct (A _ _ I) as [p [E1 G]]. rewrite mget_mset in G. rewrite E1, T.
           destruct (String.eqb_spec p q); [discriminate|]. congruence.
        -- eapply B; [reflexivity|exact I].
    + intros [A B]. destruct (A n w (or_introl eq_refl)) as [q [T Q]]. rewrite T, Q.
      apply IH. split.
      * intros n' v' I. destruct (A n' v' (or_intror I)) as [p [E G]]. exists p. split; [exact E|].
        rewrite mget_mset. destruct (String.eqb_spec p q) as [->|]; [|exact G].
        exfalso. apply (B [] r n w eq_refl n' v' I). now rewrite T, E.
      * intros pre post n0 v0 E. apply (B ((n, w) :: pre) post n0 v0). cbn. now rewrite E.
Qed.

Lemma paramIndex_some : forall ps n i, paramIndex ps n = Some i ->
  exists d, nth_error ps i = Some (n, d).
Proof.
  induction ps as [|[p d] ps IH]; intros n i H; cbn in H; [discriminate|].
  destruct (String.eqb_spec p n) as [->|N].
  - inversion H; subst. now exists d.
  - destruct (paramIndex ps n) as [j|] eqn:E; cbn in H; [|discriminate]. inversion H; subst.
    now apply IH.
Qed.
Lemma paramIndex_none : forall ps n, paramIndex ps n = None <-> ~ In n (map fst ps).
Proof.
  induction ps as [|[p d] ps IH]; intros n; cbn; [tauto|].
  destruct (String.eqb_spec p n) as [->|N]; [split; [discriminate|tauto]|].
  destruct (paramIndex ps n) eqn:E; cbn.
  - split; [discriminate|]. intro H. exfalso. assert (X : None = Some n0) by (rewrite <- E; symmetry; apply IH; tauto). discriminate.
  - split; [|reflexivity]. intros _ [F|F]; [congruence|]. now apply IH in F.
Qed.
Lemma paramIndex_nth : forall ps i p d, NoDup (map fst ps) -> nth_error ps i = Some (p, d) -> paramIndex ps p = Some i.
Proof.
  induction ps as [|[q e] ps IH]; intros i p d ND H; [destruct i; discriminate|].
  cbn in ND. inversion ND; subst. destruct i as [|i]; cbn in H |- *.
  - inversion H; subst. now rewrite String.eqb_refl.
  - destruct (String.eqb_spec q p) as [->|N].
    + exfalso. apply H2. apply nth_error_In in H. apply in_map_iff. now exists (p, d).
    + now rewrite (IH _ _ _ H3 H).
Qed.

(** bindNamed without variable arguments *)
Lemma bindNamed_ok : forall ps va k named inp out, bindNamed ps va k named inp = inr out ->
  (msorted inp -> msorted out) /\
  (forall n v, In (n, v) named -> exists i, paramIndex ps n = Some i /\ (k <= i)%nat) /\
  (NoDup (map fst named) -> forall p, mget p out = match mget p named with Some v => Some v | None => mget p inp end).
Proof.
  intros ps va k. induction named as [|[n v] r IH]; intros inp out H; cbn [bindNamed] in H.
  - inversion H; subst. split; [auto|]. split; [intros ? ? []|reflexivity].
  - destruct (paramIndex ps n) as [i|] eqn:E; [|discriminate].
    destruct (i <? k)%nat eqn:L; [discriminate|]. apply Nat.ltb_ge in L.
    match type of H with (if ?c then _ else _) = _ => destruct c; [discriminate|] end. destruct (IH _ _ H) as [S [A B]]. split; [|split].
    + intro SI. apply S. now apply msorted_mset.
    + intros n' v' [I|I]; [inversion I; subst; eauto|eauto].
    + intros ND p. cbn in ND. inversion ND; subst. rewrite (B H3 p), mget_mset. cbn [mget].
      destruct (String.eqb_spec p n) as [->|N]; [|reflexivity].
      destruct (mget n r) eqn:G; [|reflexivity]. exfalso. apply H2. apply mget_Some_key in G. exact G.
Qed.
Lemma bindNamed_total : forall ps k named inp,
  (forall n v, In (n, v) named -> exists i, paramIndex ps n = Some i /\ (k <= i)%nat) ->
  exists out, bindNamed ps false k named inp = inr out.
Proof.
  intros ps k. induction named as [|[n v] r IH]; intros inp H; cbn [bindNamed]; [eauto|].
  destruct (H n v (or_introl eq_refl)) as [i [-> L]].
  apply Nat.ltb_ge in L. rewrite L. cbn [andb]. apply IH. intros; eapply H. right. eauto.
Qed.

Lemma In_firstn : forall {A} n (l : list A) x, In x (firstn n l) -> In x l.
Proof.
  induction n; intros l x H; [destruct H|]. destruct l; [destruct H|].
  cbn in H. destruct H as [->|H]; [now left|right; now apply IHn].
Qed.
Lemma bindArgs_app : forall a1 ps a2 so inp, (length a1 <= length ps)%nat ->
  bindArgs ps (a1 ++ a2) so inp = bindArgs (skipn (length a1) ps) a2 so (bindArgs ps a1 so inp).
Proof.
  induction a1 as [|a r IH]; intros ps a2 so inp L; cbn.
  - now destruct a2, ps as [|[? ?] ?].
  - destruct ps as [|[p d] ps]; cbn in L; [lia|]. cbn. apply IH. lia.
Qed.
Lemma bindArgs_none : forall args ps so inp k,
  ~ In k (map fst (firstn (length args) ps)) -> mget k (bindArgs ps args so inp) = mget k inp.
Proof.
  induction args as [|a r IH]; intros ps so inp k H; [now destruct ps as [|[? ?] ?]|].
  destruct ps as [|[p d] ps]; [reflexivity|]. cbn in H |- *. rewrite IH by tauto.
  apply mget_mset_other. intros ->. tauto.
Qed.
Lemma bindArgs_some : forall args ps so inp i p d a, NoDup (map fst ps) ->
  nth_error ps i = Some (p, d) -> nth_error args i = Some a ->
  mget p (bindArgs ps args so inp) = Some (dnode a so).
Proof.
  induction args as [|a r IH]; intros ps so inp i p d x ND P A; [destruct i; discriminate|].
  destruct ps as [|[q e] ps]; [destruct i; discriminate|]. cbn in ND. inversion ND; subst.
  destruct i as [|i]; cbn in P, A |- *.
  - inversion P; inversion A; subst. rewrite bindArgs_none.
    + apply mget_mset_same.
    + intro I. apply H1. apply in_map_iff in I. destruct I as [y [E I]]. apply in_map_iff. exists y.
      split; [exact E|]. eapply In_firstn; exact I.
  - eapply IH; eauto.
Qed.

Lemma bindMissing_ok : forall ps named va so inp out, bindMissing ps named va so inp = Some (inr out) ->
  NoDup (map fst ps) ->
  (forall k, ~ In k (map fst ps) -> mget k out = mget k inp) /\
  (forall i p d, nth_error ps i = Some (p, d) ->
     (exists v, mget p named = Some v /\ mget p out = Some v) \/
     (mget p named = None /\ exists v, d = Some (EValue v) /\ mget p out = Some (dnode v so)) \/
     (mget p named = None /\ d = None /\ va = true /\ S i = length ps /\ mget p out = Some (dnode (VList []) so))).
Proof.
  induction ps as [|[p d] ps IH]; intros named va so inp out H ND.
  - cbn in H. inversion H; subst. split; [reflexivity|]. intros [|i] ? ? E; discriminate.
  - cbn [bindMissing] in H. cbn in ND. inversion ND as [|? ? NI ND']; subst.
    assert (G : forall x, bindMissing ps named va so (mset p x inp) = Some (inr out) ->
      (forall k, ~ In k (map fst ((p, d) :: ps)) -> mget k out = mget k inp) /\ mget p out = Some x /\
      (forall i p0 d0, nth_error ps i = Some (p0, d0) ->
         (exists v, mget p0 named = Some v /\ mget p0 out = Some v) \/
         (mget p0 named = None /\ exists v, d0 = Some (EValue v) /\ mget p0 out = Some (dnode v so)) \/
         (mget p0 named = None /\ d0 = None /\ va = true /\ S i = length ps /\ mget p0 out = Some (dnode (VList []) so)))).
    { intros x E. destruct (IH _ _ _ _ _ E ND') as [A B]. split; [|split].
      - intros k K. cbn in K. rewrite A by tauto. apply mget_mset_other. intros ->. tauto.
      - rewrite A by exact NI. apply mget_mset_same.
      - exact B. }
    destruct (mget p named) as [v|] eqn:N.
    + destruct (G _ H) as [A [B C]]. split; [exact A|]. intros [|i] q e E; cbn in E.
      * inversion E; subst. left. eauto.
      * destruct (C _ _ _ E) as [X|[X|[X1 [X2 [X3 [X4 X5]]]]]]; auto.
        right. right. repeat split; auto. cbn. congruence.
    + destruct d as [e|].
      * destruct e; try discriminate. destruct (G _ H) as [A [B C]]. split; [exact A|].
        intros [|i] q e E; cbn in E.
        -- inversion E; subst. right. left. split; [exact N|]. eauto.
        -- destruct (C _ _ _ E) as [X|[X|[X1 [X2 [X3 [X4 X5]]]]]]; auto.
           right. right. repeat split; auto. cbn. congruence.
      * destruct va; cbn [andb] in H; [|discriminate]. destruct ps as [|x ps']; [|discriminate].
        destruct (G _ H) as [A [B C]]. split; [exact A|].
        intros [|i] q e E; cbn in E; [|destruct i; discriminate].
        inversion E; subst. right. right. auto.
Qed.
Lemma bindMissing_total : forall ps named so inp,
  (forall p d, In (p, Some d) ps -> exists v, d = EValue v) ->
  (forall p, In (p, None) ps -> exists v, mget p named = Some v) ->
  exists out, bindMissing ps named false so inp = Some (inr out).
Proof.
  induction ps as [|[p d] ps IH]; intros named so inp D M; cbn [bindMissing]; [eauto|].
  destruct (mget p named) eqn:N.
  - apply IH; [intros; eapply D; right; eauto|intros; apply M; now right].
  - destruct d as [e|].
    + destruct (D p e (or_introl eq_refl)) as [v ->].
      apply IH; [intros; eapply D; right; eauto|intros; apply M; now right].
    + destruct (M p (or_introl eq_refl)) as [v E]. congruence.
Qed.
Lemma bindMissing_error : forall ps named so inp p,
  (forall p d, In (p, Some d) ps -> exists v, d = EValue v) ->
  In (p, None) ps -> mget p named = None ->
  exists t, bindMissing ps named false so inp = Some (inl t).
Proof.
  induction ps as [|[q d] ps IH]; intros named so inp p D I N; [destruct I|]. cbn [bindMissing].
  assert (D' : forall p d, In (p, Some d) ps -> exists v, d = EValue v) by (intros; eapply D; right; eauto).
  destruct I as [I|I].
  - inversion I; subst. rewrite N. cbn [andb]. eauto.
  - destruct (mget q named); [eapply IH; eauto|]. destruct d as [e|]; [|cbn [andb]; eauto].
    destruct (D q e (or_introl eq_refl)) as [v ->]. eapply IH; eauto.
Qed.

(** the names given in a call *)
Lemma argTarget_param : forall ps n p, NoDup (map fst ps) -> In p (map fst ps) ->
  (argTarget ps n = inr p <-> exists i d, nth_error ps i = Some (p, d) /\
     (parseInt32 n = None /\ n = p \/ parseInt32 n = Some (Z.of_nat i + 1))).
Proof.
  intros ps n p ND I. unfold argTarget. destruct (parseInt32 n) as [z|].
  - destruct (z - 1 <? 0) eqn:L.
    + apply Z.ltb_lt in L. split; [discriminate|]. intros [i [d [_ [[F _]|F]]]]; [discriminate|].
      inversion F. lia.
    + apply Z.ltb_ge in L. split.
      * destruct (nth_error ps (Z.to_nat (z - 1))) as [[q d]|] eqn:E; [|discriminate].
        intro F. inversion F; subst. exists (Z.to_nat (z - 1)), d. split; [exact E|]. right. f_equal. lia.
      * intros [i [d [E [[F _]|F]]]]; [discriminate|]. inversion F; subst.
        replace (Z.to_nat (Z.of_nat i + 1 - 1)) with i by lia. now rewrite E.
  - split.
    + intro F. inversion F; subst. apply in_map_iff in I. destruct I as [[q d] [E I]]. cbn in E. subst.
      apply In_nth_error in I. destruct I as [i I]. exists i, d. auto.
    + intros [i [d [E [[_ ->]|F]]]]; [reflexivity|discriminate].
Qed.
Lemma named_spec : forall ps nargs named, namedArgs ps nargs [] = inr named -> msorted nargs -> NoDup (map fst ps) ->
  forall i p d v, nth_error ps i = Some (p, d) -> (mget p named = Some v <-> namedFor nargs i p v).
Proof.
  intros ps nargs named H S ND i p d v P. destruct (namedArgs_ok _ _ _ _ H) as [_ A]. rewrite (A p v).
  assert (I : In p (map fst ps)).
  { apply in_map_iff. exists (p, d). split; [reflexivity|]. eapply nth_error_In; eauto. }
  assert (U : forall j d', nth_error ps j = Some (p, d') -> j = i).
  { intros j d' E. pose proof (paramIndex_nth _ _ _ _ ND E). pose proof (paramIndex_nth _ _ _ _ ND P). congruence. }
  split.
  - intros [F|[n [J E]]]; [discriminate|]. exists n. split; [now apply In_mget; [apply msorted_NoDup|]|].
    apply argTarget_param in E; auto. destruct E as [j [d' [E1 E2]]]. rewrite (U _ _ E1) in E2. exact E2.
  - intros [n [G E]]. right. exists n. split; [now apply mget_In|]. apply argTarget_param; auto.
    exists i, d. auto.
Qed.

(** the positional argument for the parameter [i]: the last parameter of a lambda
    with variable arguments takes the list of all remaining ones *)
Definition argAt (lm : lam) (args : list value) (so : string) (i : nat) : option value :=
  if l_va lm && Nat.eqb (S i) (length (l_ps lm))
  then if (i <? length args)%nat then Some (VList (map (fun a => newNode a so) (skipn i args))) else None
  else nth_error args i.

Lemma nth_error_firstn' : forall {A} m (l : list A) i, (i < m)%nat -> nth_error (firstn m l) i = nth_error l i.
Proof.
  induction m; intros l i H; [lia|]. destruct l; [now destruct i|].
  destruct i; [reflexivity|]. cbn. apply IHm. lia.
Qed.
Lemma packArgs_at : forall lm args so i, (i < length (l_ps lm))%nat ->
  nth_error (packArgs (length (l_ps lm)) (l_va lm) args so) i = argAt lm args so i.
Proof.
  intros lm args so i L. unfold packArgs, argAt. destruct (l_va lm); cbn [andb]; [|reflexivity].
  set (n := length (l_ps lm)) in *.
  destruct (Nat.ltb_spec (n - 1) (length args)).
  - destruct (Nat.eqb_spec (S i) n) as [E|E].
    + replace (n - 1)%nat with i by lia.
      destruct (Nat.ltb_spec i (length args)); [|lia].
      rewrite nth_error_app2; rewrite firstn_length_le by lia; [|lia].
      now rewrite Nat.sub_diag.
    + rewrite nth_error_app1 by (rewrite firstn_length_le; lia).
      apply nth_error_firstn'. lia.
  - destruct (Nat.eqb_spec (S i) n) as [E|E]; [|reflexivity].
    destruct (Nat.ltb_spec i (length args)); [lia|]. apply nth_error_None. lia.
Qed.

(** what the preparation computes if it succeeds *)
Lemma prepare_body : forall lm curry auto nargs args so inp,
  lambdaPrepare lm curry auto nargs args so = LBody inp ->
  let args' := packArgs (length (l_ps lm)) (l_va lm) args so in
  exists named i1, namedArgs (l_ps lm) nargs [] = inr named /\ (length args' <= length (l_ps lm))%nat /\
    bindNamed (l_ps lm) (l_va lm) (length args') named (l_static lm) = inr i1 /\
    bindMissing (skipn (length args') (l_ps lm)) named (l_va lm) so (bindArgs (l_ps lm) args' so i1) = Some (inr inp).
Proof.
  intros lm curry auto nargs args so inp H args'. unfold lambdaPrepare in H. fold args' in H.
  destruct (namedArgs (l_ps lm) nargs []) as [t|named] eqn:N; [discriminate|].
  destruct (Nat.ltb_spec (length (l_ps lm)) (length args')) as [L|L]; [discriminate|].
  destruct (bindNamed (l_ps lm) (l_va lm) (length args') named (l_static lm)) as [[t loc]|i1] eqn:B; [discriminate|].
  match type of H with (if ?c then _ else _) = _ => destruct c end.
  - destruct (restParams _ _ _). discriminate.
  - destruct (bindMissing (skipn (length args') (l_ps lm)) named (l_va lm) so (bindArgs (l_ps lm) args' so i1)) as [[t|x]|] eqn:M;
      inversion H; subst. exists named, i1. auto.
Qed.
Lemma NoDup_skipn : forall {A} n (l : list A), NoDup l -> NoDup (skipn n l).
Proof. induction n; intros l H; [exact H|]. destruct l; [constructor|]. inversion H; subst. now apply IHn. Qed.
Lemma map_skipn : forall {A B} (f : A -> B) n l, map f (skipn n l) = skipn n (map f l).
Proof. induction n; intros l; [reflexivity|]. destruct l; [reflexivity|]. apply IHn. Qed.
Lemma nth_error_skipn' : forall {A} n (l : list A) i, nth_error (skipn n l) i = nth_error l (n + i).
Proof. induction n; intros l i; [reflexivity|]. destruct l; [now destruct i|]. apply IHn. Qed.
Lemma NoDup_split : forall {A} n (l : list A) x, NoDup l -> In x (firstn n l) -> In x (skipn n l) -> False.
Proof.
  intros A n l x H. rewrite <- (firstn_skipn n l) in H.
  revert H. generalize (firstn n l) (skipn n l). clear.
  induction l as [|y l IH]; intros k H I J; [destruct I|].
  cbn in H. inversion H; subst. destruct I as [->|I]; [apply H2, in_or_app; now right|eauto].
Qed.

(** C37: what the parameters are bound to in the body *)
Theorem C37_bound : forall lm curry auto nargs args so inp,
  NoDup (map fst (l_ps lm)) -> msorted nargs ->
  lambdaPrepare lm curry auto nargs args so = LBody inp ->
  (forall i p d, nth_error (l_ps lm) i = Some (p, d) ->
     match argAt lm args so i with
     | Some a => mget p inp = Some (dnode a so) /\ forall v, ~ namedFor nargs i p v
     | None =>
         (exists v, namedFor nargs i p v /\ mget p inp = Some v) \/
         ((forall v, ~ namedFor nargs i p v) /\
          match d with
          | Some e => exists v, e = EValue v /\ mget p inp = Some (dnode v so)
          | None => l_va lm = true /\ S i = length (l_ps lm) /\ mget p inp = Some (dnode (VList []) so)
          end)
     end) /\
  (forall k, ~ In k (map fst (l_ps lm)) -> mget k inp = mget k (l_static lm)).
Proof.
  intros lm curry auto nargs args so inp ND SN H.
  destruct (prepare_body _ _ _ _ _ _ _ H) as [named [i1 [N [L [B M]]]]]. clear H.
  set (ps := l_ps lm) in *. set (args' := packArgs (length ps) (l_va lm) args so) in *.
  destruct (namedArgs_ok _ _ _ _ N) as [SN' _]. specialize (SN' I).
  destruct (bindNamed_ok _ _ _ _ _ _ B) as [_ [BN BG]]. specialize (BG (msorted_NoDup _ SN')).
  assert (ND' : NoDup (map fst (skipn (length args') ps))) by (rewrite map_skipn; now apply NoDup_skipn).
  destruct (bindMissing_ok _ _ _ _ _ _ M ND') as [MK MP]. split.
  - intros i p d P.
    assert (Li : (i < length ps)%nat) by (apply nth_error_Some; rewrite P; discriminate).
    assert (NS : forall v, mget p named = Some v <-> namedFor nargs i p v) by (intro; eapply named_spec; eauto).
    rewrite <- (packArgs_at lm args so i Li). fold ps args'.
    destruct (nth_error args' i) as [a|] eqn:A.
    + assert (La : (i < length args')%nat) by (apply nth_error_Some; rewrite A; discriminate).
      split.
      * rewrite MK.
        -- eapply bindArgs_some; eauto.
        -- rewrite map_skipn. intro J. apply (NoDup_split (length args') (map fst ps) p ND); [|exact J].
           apply nth_error_In with (n := i). rewrite nth_error_firstn' by exact La. now rewrite nth_error_map, P.
      * intros v F. apply NS in F. destruct (BN _ _ (mget_In _ _ _ F)) as [j [E G]].
        rewrite (paramIndex_nth _ _ _ _ ND P) in E. inversion E; subst. lia.
    + apply nth_error_None in A.
      assert (P' : nth_error (skipn (length args') ps) (i - length args') = Some (p, d)).
      { rewrite nth_error_skipn'. now replace (length args' + (i - length args'))%nat with i by lia. }
      destruct (MP _ _ _ P') as [[v [E G]]|[[E [v [-> G]]]|[E [-> [V [K G]]]]]].
      * left. exists v. split; [now apply NS|exact G].
      * right. split; [intros w F; apply NS in F; congruence|]. eauto.
      * right. split; [intros w F; apply NS in F; congruence|].
        split; [exact V|]. split; [|exact G]. rewrite skipn_length in K. lia.
  - intros k K. rewrite MK.
    + rewrite bindArgs_none.
      * rewrite BG. destruct (mget k named) eqn:E; [|reflexivity].
        exfalso. destruct (BN _ _ (mget_In _ _ _ E)) as [j [F _]].
        apply K. apply paramIndex_some in F. destruct F as [d F]. apply nth_error_In in F.
        apply in_map_iff. now exists (k, d).
      * intro J. apply K. apply in_map_iff in J. destruct J as [x [E J]]. apply in_map_iff.
        exists x. split; [exact E|]. eapply In_firstn; eauto.
    + rewrite map_skipn. intro J. apply K. rewrite <- (firstn_skipn (length args') (map fst ps)). apply in_or_app. now right.
Qed.

(** ** errors *)
Lemma argTarget_known : forall ps n, NoDup (map fst ps) ->
  ((match parseInt32 n with None => ~ In n (map fst ps) | Some z => z < 1 \/ Z.of_nat (length ps) < z end) <->
   (forall p, argTarget ps n = inr p -> ~ In p (map fst ps))).
Proof.
  intros ps n ND. unfold argTarget. destruct (parseInt32 n) as [z|].
  - destruct (z - 1 <? 0) eqn:L.
    + apply Z.ltb_lt in L. split; [intros _ p F; discriminate|]. intros _. left. lia.
    + apply Z.ltb_ge in L. destruct (nth_error ps (Z.to_nat (z - 1))) as [[q d]|] eqn:E.
      * split.
        -- intros [F|F]; [lia|]. exfalso.
           assert (Z.to_nat (z - 1) < length ps)%nat by (apply nth_error_Some; rewrite E; discriminate). lia.
        -- intro F. exfalso. apply (F q eq_refl). apply nth_error_In in E. apply in_map_iff. now exists (q, d).
      * apply nth_error_None in E. split; [intros _ p F; discriminate|]. intros _. right. lia.
  - split; [intros H p F; inversion F; now subst|]. intro H. now apply H.
Qed.
Lemma prepare_errs : forall lm curry auto nargs args so,
  let args' := packArgs (length (l_ps lm)) (l_va lm) args so in
  (forall named, namedArgs (l_ps lm) nargs [] = inr named -> (length args' <= length (l_ps lm))%nat ->
     exists e, bindNamed (l_ps lm) (l_va lm) (length args') named (l_static lm) = inl e) ->
  exists i, lambdaPrepare lm curry auto nargs args so = LErr i.
Proof.
  intros lm curry auto nargs args so args' H. unfold lambdaPrepare. fold args'.
  destruct (namedArgs (l_ps lm) nargs []) as [t|named] eqn:N; [eauto|].
  destruct (Nat.ltb_spec (length (l_ps lm)) (length args')) as [L|L]; [eauto|].
  destruct (H named eq_refl L) as [[t loc] ->]. eauto.
Qed.
Lemma bindNamed_bad : forall ps va k named inp n v,
  In (n, v) named -> (forall i, paramIndex ps n = Some i -> (i < k)%nat) ->
  exists e, bindNamed ps va k named inp = inl e.
Proof.
  intros ps va k named inp n v I H. destruct (bindNamed ps va k named inp) as [e|out] eqn:E; [eauto|].
  destruct (bindNamed_ok _ _ _ _ _ _ E) as [_ [A _]]. destruct (A _ _ I) as [i [P L]].
  specialize (H _ P). lia.
Qed.

(** too many positional arguments, unknown names, a parameter given twice: an error,
    and the body is not evaluated *)
Theorem C37_rejected : forall lm curry auto nargs args so,
  NoDup (map fst (l_ps lm)) -> msorted nargs ->
  (l_va lm = false /\ (length (l_ps lm) < length args)%nat) \/
  unknownArg (l_ps lm) nargs \/ twiceArg (l_ps lm) nargs \/
  (exists i p d a v, nth_error (l_ps lm) i = Some (p, d) /\ argAt lm args so i = Some a /\ namedFor nargs i p v) ->
  exists i, lambdaPrepare lm curry auto nargs args so = LErr i.
Proof.
  intros lm curry auto nargs args so ND SN H. apply prepare_errs. intros named N L.
  destruct (namedArgs_ok _ _ _ _ N) as [_ A].
  destruct H as [[V H]|[[n [v [G U]]]|[T|[i [p [d [a [v [P [AA NF]]]]]]]]]].
  - exfalso. rewrite V in L. cbn [packArgs] in L. lia.
  - pose proof (proj1 (argTarget_known _ _ ND) U) as K.
    destruct (argTarget (l_ps lm) n) as [t|p] eqn:T.
    + exfalso. destruct (proj1 (namedArgs_total (l_ps lm) nargs [])) as [B _]; [eauto|].
      destruct (B n v (mget_In _ _ _ G)) as [p [E _]]. congruence.
    + specialize (K p eq_refl). apply (bindNamed_bad _ _ _ _ _ p v).
      * apply mget_In. apply A. right. exists n. split; [now apply mget_In|exact T].
      * intros i F. exfalso. apply paramIndex_none in K. congruence.
  - exfalso. destruct T as [n1 [n2 [v1 [v2 [i [p [d [NE [G1 [G2 [P [T1 T2]]]]]]]]]]]].
    assert (I : In p (map fst (l_ps lm))).
    { apply in_map_iff. exists (p, d). split; [reflexivity|]. eapply nth_error_In; eauto. }
    assert (E1 : argTarget (l_ps lm) n1 = inr p) by (apply argTarget_param; auto; eauto).
    assert (E2 : argTarget (l_ps lm) n2 = inr p) by (apply argTarget_param; auto; eauto).
    destruct (proj1 (namedArgs_total (l_ps lm) nargs [])) as [_ B]; [eauto|].
    apply mget_In in G1. apply mget_In in G2.
    destruct (in_split _ _ G1) as [l1 [l2 E]]. rewrite E in G2. apply in_app_or in G2.
    destruct G2 as [G2|[G2|G2]].
    + destruct (in_split _ _ G2) as [l3 [l4 E']]. subst l1. rewrite <- app_assoc in E. cbn in E.
      apply (B l3 (l4 ++ (n1, v1) :: l2) n2 v2 E n1 v1); [apply in_or_app; right; now left|congruence].
    + inversion G2. congruence.
    + apply (B l1 l2 n1 v1 E n2 v2 G2). congruence.
  - assert (NS : mget p named = Some v) by (eapply named_spec; eauto).
    apply (bindNamed_bad _ _ _ _ _ p v); [now apply mget_In|].
    intros j E. rewrite (paramIndex_nth _ _ _ _ ND P) in E. inversion E; subst j.
    apply nth_error_Some. rewrite packArgs_at; [congruence|]. apply nth_error_Some. congruence.
Qed.

(** otherwise the call is accepted if every parameter without argument has a default *)
Theorem C37_accepted : forall lm auto nargs args so,
  wfLam lm -> msorted nargs -> l_va lm = false ->
  (length args <= length (l_ps lm))%nat ->
  ~ unknownArg (l_ps lm) nargs -> ~ twiceArg (l_ps lm) nargs ->
  (forall i p d v, nth_error (l_ps lm) i = Some (p, d) -> (i < length args)%nat -> ~ namedFor nargs i p v) ->
  (forall i p, nth_error (l_ps lm) i = Some (p, None) -> (length args <= i)%nat -> exists v, namedFor nargs i p v) ->
  exists inp, lambdaPrepare lm false auto nargs args so = LBody inp.
Proof.
  intros lm auto nargs args so [ND DV] SN V L U T PN MI.
  assert (N : exists named, namedArgs (l_ps lm) nargs [] = inr named).
  { apply namedArgs_total. split.
    - intros n v I. destruct (argTarget (l_ps lm) n) as [t|p] eqn:E; [|exists p; split; [reflexivity|reflexivity]].
      exfalso. apply U. exists n, v. split; [apply In_mget; [now apply msorted_NoDup|exact I]|].
      apply argTarget_known; [exact ND|]. intros p F. congruence.
    - intros pre post n v E n' v' I F. apply T.
      assert (In1 : mget n nargs = Some v).
      { apply In_mget; [now apply msorted_NoDup|]. rewrite E. apply in_or_app. right. now left. }
      assert (In2 : mget n' nargs = Some v').
      { apply In_mget; [now apply msorted_NoDup|]. rewrite E. apply in_or_app. right. now right. }
      assert (NE : n <> n').
      { intros <-. pose proof (msorted_NoDup _ SN) as Q. rewrite E in Q. unfold mkeys in Q. rewrite map_app in Q. cbn in Q.
        apply NoDup_remove_2 in Q. apply Q. apply in_or_app. right. apply in_map_iff. now exists (n, v'). }
      destruct (argTarget (l_ps lm) n) as [t|p] eqn:A.
      { exfalso. apply U. exists n, v. split; [exact In1|]. apply argTarget_known; [exact ND|]. intros p G. congruence. }
      assert (IP : In p (map fst (l_ps lm))).
      { destruct (in_dec string_dec p (map fst (l_ps lm))) as [Y|Y]; [exact Y|]. exfalso. apply U. exists n, v.
        split; [exact In1|]. apply argTarget_known; [exact ND|]. intros q G. congruence. }
      apply argTarget_param in A; auto. apply argTarget_param in F; auto.
      destruct A as [i [d [P1 A]]], F as [j [e [P2 F]]].
      assert (j = i) by (pose proof (paramIndex_nth _ _ _ _ ND P1); pose proof (paramIndex_nth _ _ _ _ ND P2); congruence).
      subst j. exists n, n', v, v', i, p, d. repeat split; auto. }
  destruct N as [named N]. destruct (namedArgs_ok _ _ _ _ N) as [SN' A].
  assert (NS : forall i p d v, nth_error (l_ps lm) i = Some (p, d) -> (mget p named = Some v <-> namedFor nargs i p v))
    by (intros; eapply named_spec; eauto).
  unfold lambdaPrepare. rewrite N, V. cbn [packArgs].
  destruct (Nat.ltb_spec (length (l_ps lm)) (length args)); [lia|].
  destruct (bindNamed_total (l_ps lm) (length args) named (l_static lm)) as [i1 B].
  { intros n v I. specialize (SN' Logic.I).
    assert (G : mget n named = Some v) by (apply In_mget; [now apply msorted_NoDup|exact I]).
    assert (IP : In n (map fst (l_ps lm))).
    { apply A in G. destruct G as [G|[m [J E]]]; [discriminate|].
      destruct (in_dec string_dec n (map fst (l_ps lm))) as [Y|Y]; [exact Y|]. exfalso. apply U. exists m, v.
      split; [apply In_mget; [now apply msorted_NoDup|exact J]|]. apply argTarget_known; [exact ND|]. intros q F. congruence. }
    apply in_map_iff in IP. destruct IP as [[q d] [E IP]]. cbn in E. subst q.
    apply In_nth_error in IP. destruct IP as [i P]. exists i. split; [now apply (paramIndex_nth _ _ _ d)|].
    destruct (Nat.le_gt_cases (length args) i); [assumption|]. exfalso.
    apply (PN _ _ _ v P); [lia|]. now apply (NS _ _ _ _ P). }
  rewrite B. cbn [orb negb andb].
  assert (MT : exists out, bindMissing (skipn (length args) (l_ps lm)) named false so (bindArgs (l_ps lm) args so i1) = Some (inr out)).
  { apply bindMissing_total.
    - intros p d I. apply (DV p). rewrite <- (firstn_skipn (length args) (l_ps lm)). apply in_or_app. now right.
    - intros p I. apply In_nth_error in I. destruct I as [j I]. rewrite nth_error_skipn' in I.
      destruct (MI _ _ I ltac:(lia)) as [v F]. exists v. now apply (NS _ _ _ _ I). }
  destruct MT as [out M].
  match goal with |- context [if ?c then _ else _] => destruct c eqn:C end; [|rewrite M; eauto].
  exfalso. rewrite !andb_true_iff in C. destruct C as [[[[_ C1] C2] _] C4].
  apply Nat.ltb_lt in C2. destruct named; [|discriminate]. unfold lastDefault in C4.
  destruct (rev (l_ps lm)) as [|[p d] r] eqn:R.
  { apply (f_equal (@length _)) in R. rewrite rev_length in R. cbn in R. lia. }
  destruct d as [d|]; [discriminate|].
  assert (P : nth_error (l_ps lm) (length (l_ps lm) - 1) = Some (p, None)).
  { rewrite <- (rev_involutive (l_ps lm)), R. cbn [rev]. rewrite nth_error_app2; rewrite !app_length, rev_length; cbn; [|lia].
    now replace (length r + 1 - 1 - length r)%nat with O by lia. }
  destruct (MI _ _ P ltac:(lia)) as [v F]. apply (NS _ _ _ _ P) in F. discriminate.
Qed.

(** a missing argument is an error; a call by position that ends before a last
    parameter without default is a partial application *)
Theorem C37_missing : forall lm auto nargs args so i p,
  wfLam lm -> msorted nargs -> l_va lm = false ->
  nth_error (l_ps lm) i = Some (p, None) -> (length args <= i)%nat -> (forall v, ~ namedFor nargs i p v) ->
  (exists e, lambdaPrepare lm false auto nargs args so = LErr e) \/
  (auto = true /\ nargs = [] /\ lastDefault (l_ps lm) = false /\
   exists c, lambdaPrepare lm false auto nargs args so = LCurry c).
Proof.
  intros lm auto nargs args so i p [ND DV] SN V P L NF.
  unfold lambdaPrepare. destruct (namedArgs (l_ps lm) nargs []) as [t|named] eqn:N; [eauto|].
  rewrite V. cbn [packArgs].
  assert (Li : (i < length (l_ps lm))%nat) by (apply nth_error_Some; congruence).
  destruct (Nat.ltb_spec (length (l_ps lm)) (length args)); [lia|].
  destruct (bindNamed (l_ps lm) false (length args) named (l_static lm)) as [[t loc]|i1] eqn:B; [eauto|].
  cbn [orb].
  match goal with |- context [if ?c then _ else _] => destruct c eqn:C end.
  - right. rewrite !andb_true_iff in C. destruct C as [[[[C0 C1] C2] _] C4].
    destruct named; [|discriminate]. split; [exact C0|]. split.
    + destruct nargs as [|[n w] r]; [reflexivity|]. exfalso. rewrite namedArgs_cons in N.
      destruct (argTarget (l_ps lm) n) as [t|q]; [discriminate|]. cbn [mget] in N.
      destruct (namedArgs_ok _ _ _ _ N) as [_ A].
      assert (F : mget q (mset q w []) = Some w) by apply mget_mset_same.
      assert (G : mget q (@nil (string * node)) = Some w) by (apply A; now left). discriminate.
    + split; [destruct (lastDefault (l_ps lm)); [discriminate|reflexivity]|].
      destruct (restParams (skipn (length args) (l_ps lm)) [] false). eauto.
  - left. destruct (bindMissing_error (skipn (length args) (l_ps lm)) named so (bindArgs (l_ps lm) args so i1) p) as [t ->].
    + intros q d I. apply (DV q). rewrite <- (firstn_skipn (length args) (l_ps lm)). apply in_or_app. now right.
    + apply nth_error_In with (n := (i - length args)%nat). rewrite nth_error_skipn'.
      now replace (length args + (i - length args))%nat with i by lia.
    + destruct (mget p named) as [v|] eqn:E; [|reflexivity]. exfalso. apply (NF v).
      eapply named_spec; eauto.
    + eauto.
Qed.

(** ** partial application *)
Lemma restParams_all : forall ps va, restParams ps [] va = (ps, match ps with [] => false | _ => va end).
Proof.
  induction ps as [|[p d] ps IH]; intro va; [reflexivity|]. cbn [restParams mget]. rewrite IH.
  destruct ps; reflexivity.
Qed.
Lemma skipn_twice : forall {A} (l : list A) a b, skipn a (skipn b l) = skipn (b + a) l.
Proof.
  intros A l a b. revert l. induction b; intro l; [reflexivity|].
  destruct l; [now rewrite !skipn_nil|]. apply IHb.
Qed.
(** the lambda value of a partial application by position *)
Theorem C37_partial_application : forall lm curry auto args so c,
  (l_va lm = true -> (length args < length (l_ps lm))%nat) ->
  lambdaPrepare lm curry auto [] args so = LCurry c ->
  l_ps c = skipn (length args) (l_ps lm) /\ l_body c = l_body lm /\ l_res c = l_res lm /\
  (* applied to the rest it behaves as the lambda applied to everything *)
  forall curry' auto' rest, lambdaPrepare c curry' auto' [] rest so = lambdaPrepare lm curry' auto' [] (args ++ rest) so.
Proof.
  intros lm curry auto args so c V H. unfold lambdaPrepare in H. cbn [namedArgs] in H.
  set (np := length (l_ps lm)) in *.
  assert (PA : packArgs np (l_va lm) args so = args).
  { unfold packArgs. destruct (l_va lm); [|reflexivity].
    destruct (Nat.ltb_spec (np - 1) (length args)); [|reflexivity]. specialize (V eq_refl). lia. }
  rewrite PA in H. destruct (Nat.ltb_spec np (length args)) as [|L]; [discriminate|].
  cbn [bindNamed] in H.
  assert (E : c = mkLam (skipn (length args) (l_ps lm)) (match skipn (length args) (l_ps lm) with [] => false | _ => l_va lm end)
                        (l_body lm) (bindArgs (l_ps lm) args so (l_static lm)) (l_res lm)).
  { match type of H with (if ?c then _ else _) = _ => destruct c end.
    - rewrite restParams_all in H. now inversion H.
    - destruct (bindMissing (skipn (length args) (l_ps lm)) [] (l_va lm) so (bindArgs (l_ps lm) args so (l_static lm))) as [[|]|]; discriminate. }
  clear H. subst c. cbn [l_ps l_body l_res]. repeat split. intros curry' auto' rest.
  unfold lambdaPrepare. cbn [namedArgs l_ps l_va l_static l_body l_res bindNamed].
  rewrite skipn_length. fold np.
  set (va' := match skipn (length args) (l_ps lm) with [] => false | _ => l_va lm end).
  assert (VA : l_va lm = true -> va' = true).
  { intro X. unfold va'. destruct (skipn (length args) (l_ps lm)) eqn:S; [|exact X].
    apply (f_equal (@length _)) in S. rewrite skipn_length in S. fold np in S. cbn in S. specialize (V X). lia. }
  assert (VA' : va' = l_va lm).
  { destruct (l_va lm) eqn:X; [now apply VA|]. unfold va'. now destruct (skipn _ _). }
  assert (PP : packArgs np (l_va lm) (args ++ rest) so = args ++ packArgs (np - length args) va' rest so).
  { rewrite VA'. unfold packArgs. destruct (l_va lm) eqn:X; [|reflexivity]. specialize (V eq_refl).
    rewrite app_length. destruct (Nat.ltb_spec (np - 1) (length args + length rest)), (Nat.ltb_spec (np - length args - 1) (length rest)); try lia; [|reflexivity].
    rewrite firstn_app, skipn_app, app_assoc_reverse.
    rewrite firstn_all2 by lia. rewrite (skipn_all2 args) by lia. cbn [app].
    now replace (np - 1 - length args)%nat with (np - length args - 1)%nat by lia. }
  rewrite PP. set (rest' := packArgs (np - length args) va' rest so). rewrite app_length.
  destruct (Nat.ltb_spec (np - length args) (length rest')), (Nat.ltb_spec np (length args + length rest')); try lia; [reflexivity|].
  rewrite (bindArgs_app args) by (fold np; lia).
  rewrite skipn_twice.
  assert (C : curry' || (auto' && true && (length rest' <? np - length args)%nat && negb va' && negb (lastDefault (skipn (length args) (l_ps lm)))) =
              curry' || (auto' && true && (length args + length rest' <? np)%nat && negb (l_va lm) && negb (lastDefault (l_ps lm)))).
  { f_equal. rewrite VA'. destruct (Nat.ltb_spec (length rest') (np - length args)), (Nat.ltb_spec (length args + length rest') np); try lia.
    f_equal. f_equal.
    unfold lastDefault. rewrite <- (firstn_skipn (length args) (l_ps lm)) at 2. rewrite rev_app_distr.
    destruct (rev (skipn (length args) (l_ps lm))) as [|[p d] r] eqn:R; [|reflexivity].
    apply (f_equal (@length _)) in R. rewrite rev_length, skipn_length in R. fold np in R. cbn in R. lia. }
  rewrite C. rewrite VA'. reflexivity.
Qed.

(** partial application with named arguments: the parameters that are not given
    remain in their order, the given ones are bound *)
Lemma restParams_filter : forall ps named va, fst (restParams ps named va) =
  filter (fun pd => match mget (fst pd) named with Some _ => false | None => true end) ps.
Proof.
  induction ps as [|[p d] ps IH]; intros named va; [reflexivity|]. cbn [restParams filter fst].
  specialize (IH named va). destruct (restParams ps named va) as [r v]. cbn [fst] in IH.
  destruct (mget p named); cbn [fst]; congruence.
Qed.
Theorem C37_partial_named : forall lm auto nargs args so c,
  NoDup (map fst (l_ps lm)) -> msorted nargs -> l_va lm = false ->
  lambdaPrepare lm true auto nargs args so = LCurry c ->
  l_body c = l_body lm /\ l_res c = l_res lm /\
  (exists open : string * option expr -> bool, l_ps c = filter open (skipn (length args) (l_ps lm)) /\
     forall i p d, nth_error (l_ps lm) i = Some (p, d) -> (open (p, d) = false <-> exists v, namedFor nargs i p v)) /\
  (forall i p d, nth_error (l_ps lm) i = Some (p, d) ->
     (forall a, nth_error args i = Some a -> mget p (l_static c) = Some (dnode a so)) /\
     (forall v, namedFor nargs i p v -> mget p (l_static c) = Some v)) /\
  (forall k, ~ In k (map fst (l_ps lm)) -> mget k (l_static c) = mget k (l_static lm)).
Proof.
  intros lm auto nargs args so c ND SN V H. unfold lambdaPrepare in H.
  destruct (namedArgs (l_ps lm) nargs []) as [t|named] eqn:N; [discriminate|].
  rewrite V in H. cbn [packArgs] in H.
  destruct (Nat.ltb_spec (length (l_ps lm)) (length args)) as [|L]; [discriminate|].
  destruct (bindNamed (l_ps lm) false (length args) named (l_static lm)) as [[t loc]|i1] eqn:B; [discriminate|].
  cbn [orb] in H. pose proof (restParams_filter (skipn (length args) (l_ps lm)) named false) as RF.
  destruct (restParams (skipn (length args) (l_ps lm)) named false) as [rest va]. cbn [fst] in RF.
  inversion H; subst c. cbn [l_ps l_body l_res l_static]. clear H.
  destruct (namedArgs_ok _ _ _ _ N) as [SN' _]. specialize (SN' Logic.I).
  destruct (bindNamed_ok _ _ _ _ _ _ B) as [_ [BN BG]]. specialize (BG (msorted_NoDup _ SN')).
  assert (NS : forall i p d v, nth_error (l_ps lm) i = Some (p, d) -> (mget p named = Some v <-> namedFor nargs i p v))
    by (intros; eapply named_spec; eauto).
  split; [reflexivity|]. split; [reflexivity|]. split; [|split].
  - eexists. split; [exact RF|]. intros i p d P. cbn [fst].
    destruct (mget p named) as [v|] eqn:E.
    + split; [|reflexivity]. intros _. exists v. now apply (NS _ _ _ _ P).
    + split; [discriminate|]. intros [v F]. apply (NS _ _ _ _ P) in F. congruence.
  - intros i p d P. split.
    + intros a A. eapply bindArgs_some; eauto.
    + intros v F. apply (NS _ _ _ _ P) in F. rewrite bindArgs_none.
      * now rewrite BG, F.
      * destruct (BN _ _ (mget_In _ _ _ F)) as [j [E K]]. rewrite (paramIndex_nth _ _ _ _ ND P) in E. inversion E; subst j.
        intro J. apply (NoDup_split (length args) (map fst (l_ps lm)) p ND).
        -- rewrite firstn_map. exact J.
        -- apply nth_error_In with (n := (i - length args)%nat). rewrite nth_error_skipn'.
           replace (length args + (i - length args))%nat with i by lia. now rewrite nth_error_map, P.
  - intros k K. rewrite bindArgs_none.
    + rewrite BG. destruct (mget k named) eqn:E; [|reflexivity]. exfalso.
      destruct (BN _ _ (mget_In _ _ _ E)) as [j [F _]]. apply paramIndex_some in F. destruct F as [d F].
      apply K. apply nth_error_In in F. apply in_map_iff. now exists (k, d).
    + intro J. apply K. apply in_map_iff in J. destruct J as [x [E J]]. apply in_map_iff.
      exists x. split; [exact E|]. eapply In_firstn; eauto.
Qed.

(** ** Calls as expressions *)
Section Call.
Variable ST : Type.
Variable W : world ST.
Hypothesis SW : steadyWorld W.
Notation evaluates := (evaluates ST W).
Notation evalF := (evalF ST W).
Definition isValue (v : value) : Prop := forall e, v <> VExpr e.
(** the arguments, evaluated from left to right *)
Inductive evalAll (b : binding) : list expr -> ST -> list value -> ST -> Prop :=
| EA_nil : forall s, evalAll b [] s [] s
| EA_cons : forall e es s v i s1 vs s2,
    evaluates e b false s (v, i, true) s1 -> isValue v -> evalAll b es s1 vs s2 ->
    evalAll b (e :: es) s (v :: vs) s2.
(** positional arguments without list expansion *)
Definition plainArg (e : expr) : Prop :=
  match e with EExpand _ | ENameArg _ _ => False | _ => True end.

Lemma evalAll_length : forall b es s vs s2, evalAll b es s vs s2 -> length vs = length es.
Proof. induction 1; cbn; congruence. Qed.
Lemma resolveEach_all : forall b es s vs s2, evalAll b es s vs s2 ->
  forall i, exists f i', forall g, (f <= g)%nat ->
    resolveEach ST (evalF g) es i b false s = Ret (inr (combine vs es, true, i')) s2.
Proof.
  induction 1 as [s|e es s v ie s1 vs s2 E V A IH]; intro i.
  - exists O. destruct i; eexists; intros; reflexivity.
  - destruct E as [f E]. destruct (IH (Some (match i with Some i => join i ie | None => ie end))) as [f' [i' H]].
    exists (Nat.max f f'), i'. intros g L. cbn [resolveEach]. unfold bind at 1. unfold resolvePush at 1. unfold bind at 1.
    rewrite (le_ret _ _ _ _ _ _ (evalF_le _ _ SW f g ltac:(lia) e b false) E). unfold ret at 1.
    specialize (H g ltac:(lia)).
    destruct v; try (unfold bind; rewrite H; reflexivity). now destruct (V e0).
Qed.
Lemma expand_plain : forall es vs, length vs = length es -> Forall plainArg es -> expandArgs (combine vs es) = Some vs.
Proof.
  induction es as [|e es IH]; intros [|v vs] L F; try discriminate; [reflexivity|].
  inversion F; subst. cbn in L. cbn [combine expandArgs]. rewrite IH by (auto; congruence).
  destruct e; try reflexivity. destruct H1.
Qed.
Lemma snd_combine : forall {A B} (l : list A) (r : list B), length l = length r -> map snd (combine l r) = r.
Proof. induction l; intros [|y r] H; try discriminate; [reflexivity|]. cbn. f_equal. apply IHl. cbn in H. congruence. Qed.
Lemma resolveList_all : forall b es s vs s2, evalAll b es s vs s2 -> Forall plainArg es ->
  exists f i', forall g, (f <= g)%nat ->
    resolveList ST (evalF g) es b false s = Ret (inr (vs, es, true, i')) s2.
Proof.
  intros b es s vs s2 A F. destruct (resolveEach_all _ _ _ _ _ A None) as [f [i' H]].
  exists f, i'. intros g L. unfold resolveList, bind. rewrite (H g L). unfold ret.
  pose proof (evalAll_length _ _ _ _ _ A).
  now rewrite expand_plain, snd_combine.
Qed.

Lemma push_lam : forall n f b s lm fi s1, evalF n f b false s = Ret (lamVal lm, fi, true) s1 ->
  resolvePush ST (evalF n) f (Some defaultInfo) b false s = Ret (PVal (lamVal lm) (join defaultInfo fi)) s1.
Proof. intros n f b s lm fi s1 H. unfold resolvePush, bind. rewrite H. destruct lm; reflexivity. Qed.

(** C37: the call of a lambda value evaluates the function, the arguments from left
    to right and then the body, in which the parameters are bound by C37_bound and
    "_" refers to the lambda; a body that has to wait delays the call *)
Theorem C37_call : forall f args b l s lm fi s1 vs s2 inp w iw ok s3,
  funcName f = ""%string ->
  evaluates f b false s (lamVal lm, fi, true) s1 ->
  evalAll b args s1 vs s2 -> Forall plainArg args ->
  lambdaPrepare lm false true [] vs (b_source b) = LBody inp ->
  evaluates (l_body lm)
    (withLocalScope (mset SELF (resolverNode (dnode (lamVal lm) (b_source b)) (l_res lm)) inp) b)
    false s2 (w, iw, ok) s3 ->
  exists i, evaluates (ECall f args false) b l s
    (if ok then match w with VExpr _ => VExpr (ECall f args false) | _ => w end else VNil, i, ok) s3.
Proof.
  intros f args b l s lm fi s1 vs s2 inp w iw ok s3 FN [n1 E1] A PA P [n2 E2].
  destruct (resolveList_all _ _ _ _ _ A PA) as [n3 [i' H]].
  set (n := Nat.max n1 (Nat.max n2 n3)).
  pose proof (le_ret _ _ _ _ _ _ (evalF_le _ _ SW n1 n ltac:(unfold n; lia) _ _ _) E1) as F1.
  pose proof (le_ret _ _ _ _ _ _ (evalF_le _ _ SW n2 n ltac:(unfold n; lia) _ _ _) E2) as F2.
  specialize (H n ltac:(unfold n; lia)).
  assert (SP : splitNamed args vs (b_source b) [] = ([], vs)).
  { destruct args as [|a r]; [now destruct vs|]. inversion PA; subst. destruct a; try reflexivity. destruct H2. }
  assert (G : exists i, callResult ST (ECall f args false) i'
     (fst (if negb ok then (false, (VNil, setError "evaluation of lambda expression failed" iw, ok))
           else match w with VExpr _ => (false, (VNil, iw, ok)) | _ => (true, (w, iw, ok)) end))
     (snd (if negb ok then (false, (VNil, setError "evaluation of lambda expression failed" iw, ok))
           else match w with VExpr _ => (false, (VNil, iw, ok)) | _ => (true, (w, iw, ok)) end)) s3 =
     Ret (if ok then match w with VExpr _ => VExpr (ECall f args false) | _ => w end else VNil, i, ok) s3).
  { destruct ok; [|eexists; reflexivity]. destruct w; eexists; reflexivity. }
  destruct G as [i G].
  exists i. exists (S n). cbn [Engine.evalF]. unfold eval1, evalCall. rewrite FN. cbn [String.eqb].
  unfold bind at 1. rewrite (push_lam _ _ _ _ _ _ _ F1). cbv beta iota.
  replace (lamOf (lamVal lm)) with (Some lm) by (destruct lm; reflexivity).
  unfold callArgs. unfold bind at 1. rewrite H. cbn [String.eqb].
  rewrite SP. cbn [String.eqb negb].
  unfold lambdaEval.
  match goal with |- context [lambdaPrepare ?x false true [] vs (b_source b)] =>
    replace x with lm by (destruct lm; reflexivity) end.
  rewrite P. unfold bind. rewrite F2. unfold ret at 1. exact G.
Qed.

(** a call that is not accepted fails before the body is evaluated; a partial
    application yields the lambda value of C37_partial_application *)
Theorem C37_call_rejected : forall f args b l s lm fi s1 vs s2 e,
  funcName f = ""%string ->
  evaluates f b false s (lamVal lm, fi, true) s1 ->
  evalAll b args s1 vs s2 -> Forall plainArg args ->
  lambdaPrepare lm false true [] vs (b_source b) = LErr e ->
  exists i, evaluates (ECall f args false) b l s (VNil, i, false) s2.
Proof.
  intros f args b l s lm fi s1 vs s2 e FN [n1 E1] A PA P.
  destruct (resolveList_all _ _ _ _ _ A PA) as [n3 [i' H]].
  set (n := Nat.max n1 n3).
  pose proof (le_ret _ _ _ _ _ _ (evalF_le _ _ SW n1 n ltac:(unfold n; lia) _ _ _) E1) as F1.
  specialize (H n ltac:(unfold n; lia)).
  assert (SP : splitNamed args vs (b_source b) [] = ([], vs)).
  { destruct args as [|a r]; [now destruct vs|]. inversion PA; subst. destruct a; try reflexivity. destruct H2. }
  eexists. exists (S n). cbn [Engine.evalF]. unfold eval1, evalCall. rewrite FN. cbn [String.eqb].
  unfold bind at 1. rewrite (push_lam _ _ _ _ _ _ _ F1). cbv beta iota.
  replace (lamOf (lamVal lm)) with (Some lm) by (destruct lm; reflexivity).
  unfold callArgs. unfold bind at 1. rewrite H. cbn [String.eqb].
  rewrite SP. cbn [String.eqb negb]. unfold lambdaEval.
  match goal with |- context [lambdaPrepare ?x false true [] vs (b_source b)] =>
    replace x with lm by (destruct lm; reflexivity) end.
  rewrite P. unfold bind, ret. cbn [fst snd]. reflexivity.
Qed.
Theorem C37_call_partial : forall f args b l s lm fi s1 vs s2 curry c,
  funcName f = ""%string ->
  evaluates f b false s (lamVal lm, fi, true) s1 ->
  evalAll b args s1 vs s2 -> Forall plainArg args ->
  lambdaPrepare lm curry true [] vs (b_source b) = LCurry c ->
  exists i, evaluates (ECall f args curry) b l s (lamVal c, i, true) s2.
Proof.
  intros f args b l s lm fi s1 vs s2 curry c FN [n1 E1] A PA P.
  destruct (resolveList_all _ _ _ _ _ A PA) as [n3 [i' H]].
  set (n := Nat.max n1 n3).
  pose proof (le_ret _ _ _ _ _ _ (evalF_le _ _ SW n1 n ltac:(unfold n; lia) _ _ _) E1) as F1.
  specialize (H n ltac:(unfold n; lia)).
  assert (SP : splitNamed args vs (b_source b) [] = ([], vs)).
  { destruct args as [|a r]; [now destruct vs|]. inversion PA; subst. destruct a; try reflexivity. destruct H2. }
  eexists. exists (S n). cbn [Engine.evalF]. unfold eval1, evalCall. rewrite FN. cbn [String.eqb].
  unfold bind at 1. rewrite (push_lam _ _ _ _ _ _ _ F1). cbv beta iota.
  replace (lamOf (lamVal lm)) with (Some lm) by (destruct lm; reflexivity).
  unfold callArgs. unfold bind at 1. rewrite H. cbn [String.eqb].
  rewrite SP. cbn [String.eqb negb]. unfold lambdaEval.
  match goal with |- context [lambdaPrepare ?x curry true [] vs (b_source b)] =>
    replace x with lm by (destruct lm; reflexivity) end.
  rewrite P. unfold bind, ret. cbn [fst snd]. reflexivity.
Qed.
(** a lambda expression yields the lambda with its defaults evaluated once *)
Theorem C37_lambda_value : forall ps va body b l s r s',
  evaluates (ELambda ps va body) b l s r s' ->
  snd r = false \/
  exists ps' sc, r = (VLambda ps' va body (b_static b) sc, defaultInfo, true) /\
    map fst ps' = map fst ps /\
    (forall p d, In (p, Some d) ps' -> exists v, d = EValue v) /\
    (forall i p, nth_error ps' i = Some (p, None) <-> nth_error ps i = Some (p, None)).
Proof.
  intros ps va body b l s r s' [[|f] H]; [discriminate|]. cbn [Engine.evalF] in H. unfold eval1, evalLambda in H.
  assert (G : forall qs s0 x s1, evalDefaults ST (evalF f) qs b l s0 = Ret (inr x) s1 ->
    map fst x = map fst qs /\ (forall p d, In (p, Some d) x -> exists v, d = EValue v) /\
    (forall i p, nth_error x i = Some (p, None) <-> nth_error qs i = Some (p, None))).
  { induction qs as [|[p d] qs IH]; intros s0 x s1 E; cbn [evalDefaults] in E.
    - unfold ret in E. inversion E; subst. split; [reflexivity|]. split; [intros ? ? []|tauto].
    - destruct d as [d|].
      + unfold bind at 1 in E. destruct (evalF f d b l s0) as [[[v i] ok] s2| |]; try discriminate.
        destruct ok; cbn [negb] in E; [|discriminate]. unfold bind at 1 in E.
        destruct (evalDefaults ST (evalF f) qs b l s2) as [[i2|q] s3| |] eqn:Q; try discriminate.
        unfold ret in E. inversion E; subst. destruct (IH _ _ _ Q) as [A [B C]].
        split; [cbn; now rewrite A|]. split.
        * intros q0 d0 [I|I]; [inversion I; eauto|eauto].
        * intros [|j] q0; cbn [nth_error]; [split; intro X; inversion X|apply C].
      + unfold bind at 1 in E.
        destruct (evalDefaults ST (evalF f) qs b l s0) as [[i2|q] s3| |] eqn:Q; try discriminate.
        unfold ret in E. inversion E; subst. destruct (IH _ _ _ Q) as [A [B C]].
        split; [cbn; now rewrite A|]. split.
        * intros q0 d0 [I|I]; [inversion I|eauto].
        * intros [|j] q0; cbn [nth_error]; [reflexivity|apply C]. }
  unfold bind at 1 in H. destruct (evalDefaults ST (evalF f) ps b l s) as [[i|x] s1| |] eqn:Q; try discriminate.
  - unfold failI, ret in H. inversion H. now left.
  - right. unfold bind in H. destruct (staticScope ST (w_ctrl W) (w_context W) b s1) as [sc s2| |]; try discriminate.
    unfold done, ret in H. inversion H; subst. exists x, sc. split; [reflexivity|]. eapply G; eauto.
Qed.
(** parameters and other local values are kept in a lambda that is written below them *)
Theorem C37_captured : forall ps va body m b l s r s', msorted m ->
  evaluates (ELambda ps va body) (withLocalScope m b) l s r s' -> snd r = false \/
  exists ps' st sc, r = (VLambda ps' va body st sc, defaultInfo, true) /\
    forall k, mget k st = match mget k m with Some n => Some n | None => mget k (b_static b) end.
Proof.
  intros ps va body m b l s r s' S H. apply C37_lambda_value in H as [H|(ps' & sc & E & _)]; [now left|]. right. exists ps', (b_static (withLocalScope m b)), sc. split; [exact E|].
  intro k. destruct b as [x1 x2 x3 x4 x5 x6 x7 sta x9 x10 x11 x12]. cbn [withLocalScope b_static]. clear - S. revert sta. induction m as [|[k' v] m IH]; intro sta; [reflexivity|].
  destruct S as [L S]. cbn [fold_left fst snd mget]. rewrite IH by exact S. rewrite mget_mset. destruct (String.eqb_spec k k') as [->|N]; [|reflexivity].
  destruct (mget k' m) as [n|] eqn:G; [|reflexivity]. exfalso. assert (I : In k' (map fst m)).
  { clear - G. induction m as [|[x y] m IH]; [discriminate G|]. cbn in *. destruct (String.eqb_spec k' x) as [->|]; [now left|right; auto]. }
  apply L in I. rewrite scmp_refl in I. discriminate I.
Qed.
End Call.

(** ** Examples *)
Definition addL : lam := mkLam [("a", None); ("b", None); ("c", Some (EValue (VInt 5)))]%string false
  (EAdd (EAdd (ERef "" ["a"%string]) (EMul (EInt 10) (ERef "" ["b"%string]))) (EMul (EInt 100) (ERef "" ["c"%string]))) [] (env0 []).
Definition var0 : lam := mkLam [("a", None); ("r", None)]%string true (ERef "" ["r"%string]) [] (env0 []).
Example C37_example_wf : wfLam addL.
Proof.
  split; [cbn; repeat constructor; cbn; intuition discriminate|].
  intros p d H. cbn in H. repeat (destruct H as [H|H]; [inversion H; eauto|]). destruct H.
Qed.
Example C37_example_call : exists i, Engine.evaluates _ (world0 noParse)
  (ECall (EValue (lamVal addL)) [EInt 1; EInt 2] false) (env0 []) false st0 (VInt 521, i, true) st0.
Proof. eexists. exists 8%nat. vm_compute. reflexivity. Qed.
Example C37_example_named : exists inp, lambdaPrepare addL false true [("1", nd (VInt 4)); ("b", nd (VInt 2))]%string [] "s" = LBody inp /\
  option_map val (mget "a" inp) = Some (VInt 4) /\ option_map val (mget "b" inp) = Some (VInt 2) /\ option_map val (mget "c" inp) = Some (VInt 5).
Proof. eexists. split; [vm_compute; reflexivity|]. repeat split. Qed.
Example C37_example_varargs : exists i l, Engine.evaluates _ (world0 noParse)
  (ECall (EValue (lamVal var0)) [EInt 1; EInt 2; EInt 3] false) (env0 []) false st0 (VList l, i, true) st0 /\ map val l = [VInt 2; VInt 3].
Proof. do 2 eexists. split; [exists 8%nat; vm_compute; reflexivity|reflexivity]. Qed.
Example C37_example_partial : exists c, lambdaPrepare addL true true [] [VInt 1] "s" = LCurry c /\ length (l_ps c) = 2%nat.
Proof. eexists. split; [vm_compute; reflexivity|reflexivity]. Qed.
Example C37_example_errors : (exists i, lambdaPrepare addL false true [] [VInt 1; VInt 2; VInt 3; VInt 4] "s" = LErr i) /\
  (exists i, lambdaPrepare addL false true [("z", nd (VInt 4))]%string [] "s" = LErr i) /\
  unknownArg (l_ps addL) [("z", nd (VInt 4))]%string.
Proof.
  split; [eexists; vm_compute; reflexivity|]. split; [eexists; vm_compute; reflexivity|].
  exists "z"%string, (nd (VInt 4)). split; [reflexivity|]. vm_compute. intuition discriminate.
Qed.

Print Assumptions C37_bound.
Print Assumptions C37_rejected.
Print Assumptions C37_accepted.
Print Assumptions C37_missing.
Print Assumptions C37_partial_application.
Print Assumptions C37_partial_named.
Print Assumptions C37_call.
Print Assumptions C37_call_rejected.
Print Assumptions C37_call_partial.
Print Assumptions C37_lambda_value.

Print Assumptions C37_captured.
