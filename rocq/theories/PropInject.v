(** C46: injected and default values of stubs.  C47: undefined fields and
    elements vanish.  One processing step of the merge engine, for every
    evaluator, parser and control function. *)
From Verif Require Import Core CoreFacts Str StrFacts Find Interp Cleanup Unresolved DeepEq Env Flow FlowSpec FlowFacts.

Section Inject.
Variable ST : Type.
Variables interpol ctrl : bool.
Variable reg : registry.
Variable parse : string -> list string -> list string -> option expr.
Variable quote : string -> string.
Variable show : expr -> string.
Variable evaluate : expr -> binding -> bool -> ST -> res ST (value * info * bool).
Variable setTagX : string -> node -> list string -> bool -> ST -> bool * ST.
Variable ctlFunction : cctx -> binding -> ST -> res ST (node * bool).
(** the processing of the parts of a node *)
Variable rec : node -> binding -> bool -> bool -> M ST node.
Notation FLOWNODE := (flowNode ST interpol ctrl reg parse quote show evaluate setTagX ctlFunction rec).
Notation FLOWMAP := (flowMap ST interpol ctrl reg quote show setTagX ctlFunction rec).
Notation FLOWLIST := (flowList ST interpol ctrl reg quote show setTagX rec).

(** the marker bits of a node: &default is bit 4, &inject bit 2, "injected" bit 6 *)
Definition marked (bit : N) (n : node) : Prop := N.testbit (nflags n) bit = true.
Definition isDefaultV (n : node) : Prop := marked 4 n /\ ~ marked 2 n.
Definition isInjectable (n : node) : Prop := marked 4 n \/ marked 2 n.
Definition isInjectedV (n : node) : Prop := marked 6 n.

Lemma bit_land f m b : m = N.pow 2 b -> negb (N.eqb (N.land f m) 0) = N.testbit f b.
Proof.
  intros ->. rewrite <- N.land_comm. destruct (N.testbit f b) eqn:E.
  - destruct (N.eqb_spec (N.land (2 ^ b) f) 0) as [H|H]; [|reflexivity].
    assert (X : N.testbit (N.land (2 ^ b) f) b = true) by (rewrite N.land_spec, N.pow2_bits_true, E; reflexivity).
    rewrite H, N.bits_0 in X. discriminate.
  - assert (X : N.land (2 ^ b) f = 0%N).
    { apply N.bits_inj. intro i. rewrite N.land_spec, N.bits_0, N.pow2_bits_eqb.
      destruct (N.eqb_spec b i) as [->|]; [rewrite E; reflexivity|reflexivity]. }
    rewrite X. reflexivity.
Qed.
Lemma injectable_spec n : fInject (nflags n) = true <-> isInjectable n.
Proof.
  unfold fInject, hasflag, isInjectable, marked. rewrite N.land_lor_distr_r.
  rewrite <- (bit_land (nflags n) 16 4 eq_refl), <- (bit_land (nflags n) 4 2 eq_refl).
  rewrite !negb_true_iff, !N.eqb_neq, N.lor_eq_0_iff.
  change FLAG_INJECT with 4%N. change FLAG_DEFAULT with 16%N.
  destruct (N.eq_dec (N.land (nflags n) 4) 0), (N.eq_dec (N.land (nflags n) 16) 0); tauto.
Qed.
Lemma injected_spec n : fInjected (nflags n) = true <-> isInjectedV n.
Proof. unfold fInjected, hasflag, isInjectedV, marked. rewrite (bit_land _ FLAG_INJECTED 6 eq_refl). tauto. Qed.
Lemma default_spec n : fDefault (nflags n) = true <-> isDefaultV n.
Proof.
  unfold fDefault, isDefaultV, marked. rewrite N.eqb_eq. split.
  - intro H. split.
    + assert (X : N.testbit (N.land (nflags n) (N.lor FLAG_DEFAULT FLAG_INJECT)) 4 = true) by (rewrite H; reflexivity).
      rewrite N.land_spec in X. apply andb_true_iff in X. tauto.
    + intro B. assert (X : N.testbit (N.land (nflags n) (N.lor FLAG_DEFAULT FLAG_INJECT)) 2 = true)
        by (rewrite N.land_spec, B; reflexivity).
      rewrite H in X. discriminate.
  - intros [A B]. apply N.bits_inj. intro i. rewrite N.land_spec.
    destruct (N.eq_dec i 4) as [->|H4]; [rewrite A; reflexivity|].
    destruct (N.eq_dec i 2) as [->|H2]; [destruct (N.testbit (nflags n) 2); [tauto|reflexivity]|].
    replace (N.lor FLAG_DEFAULT FLAG_INJECT) with (N.lor (2 ^ 4) (2 ^ 2))%N by reflexivity.
    rewrite N.lor_spec, !N.pow2_bits_eqb. change FLAG_DEFAULT with (2 ^ 4)%N. rewrite N.pow2_bits_eqb.
    destruct (N.eqb_spec 4 i); [congruence|]. destruct (N.eqb_spec 2 i); [congruence|].
    rewrite andb_false_r. reflexivity.
Qed.

(** ** leaves *)
(** the stubs have [v] at the stub path of the environment (see C03) / have nothing *)
Definition stubHas (env : binding) (v : node) : Prop := findInStubs ctrl env (b_stubPath env) = FOk v.
Definition stubNo (env : binding) : Prop := findInStubs ctrl env (b_stubPath env) = FNo.

Definition freshLeaf (root : node) : Prop :=
  leaf interpol (val root) /\ a_replace (ann root) = false /\ a_merged (ann root) = false /\
  a_redirect (ann root) = None /\ a_keyName (ann root) = "".

Lemma leaf_flow root env so et s : freshLeaf root ->
  FLOWNODE root env so et s = override ST ctrl root env so (nflags root) false None false "" s.
Proof.
  intros [L [R [Me [Re K]]]]. unfold flowNode. rewrite Re, R, Me, K. cbv beta iota.
  destruct (val root) as [| | | | |tx| | | | |] eqn:V; try (inversion L; fail); try reflexivity.
  cbn [isExpr negb andb]. cbv beta iota.
  unfold flowString. inversion L as [| | | | txt Hs]; subst.
  rewrite (literal_embedded quote interpol root _ V Hs). rewrite V. reflexivity.
Qed.
Lemma fresh_std root : freshLeaf root -> standardOverride root = true.
Proof. intros [L [R [Me [Re K]]]]. unfold standardOverride. rewrite R, Me, Re. reflexivity. Qed.

(** a leaf takes the value of the stubs, except the stub value is a mere default or
    the leaf itself has been injected *)
Theorem C46_overridden : forall root env et s v, freshLeaf root -> b_nomerge env = false ->
  stubHas env v -> ~ isDefaultV v -> ~ isInjectedV root -> templateOf v = None ->
  exists n, FLOWNODE root env true et s = Ret n s /\ val n = val v.
Proof.
  intros root env et s v L NM SH ND NI NT. rewrite leaf_flow by exact L. unfold override.
  rewrite (fresh_std _ L), NM. cbn [negb andb]. unfold bind. unfold stubHas in SH. rewrite SH. cbn [lookupM ret].
  rewrite <- default_spec in ND. rewrite <- injected_spec in NI. apply not_true_is_false in ND, NI.
  rewrite ND, NI. cbn [negb andb String.eqb]. unfold substituteNode. rewrite NT.
  eexists. split; [reflexivity|]. destruct v; reflexivity.
Qed.
Theorem C46_default_kept : forall root env et s v, freshLeaf root -> b_nomerge env = false ->
  stubHas env v -> isDefaultV v \/ isInjectedV root -> FLOWNODE root env true et s = Ret root s.
Proof.
  intros root env et s v L NM SH H. rewrite leaf_flow by exact L. unfold override.
  rewrite (fresh_std _ L), NM. cbn [negb andb]. unfold bind. unfold stubHas in SH. rewrite SH. cbn [lookupM ret].
  rewrite <- default_spec, <- injected_spec in H.
  destruct H as [-> | ->]; rewrite ?andb_false_r; reflexivity.
Qed.
Theorem C46_nothing : forall root env so et s, freshLeaf root ->
  (so = true -> b_nomerge env = false -> stubNo env) -> FLOWNODE root env so et s = Ret root s.
Proof.
  intros root env so et s L H. rewrite leaf_flow by exact L. unfold override.
  rewrite (fresh_std _ L). cbn [negb andb]. destruct so; [|reflexivity]. destruct (b_nomerge env); [reflexivity|].
  cbn [negb andb]. unfold bind. unfold stubNo in H. rewrite H by reflexivity. reflexivity.
Qed.

(** ** maps *)
(** the processing of field [k] with content [v] in [env] yielded [v'] *)
Definition becomes (env : binding) (so : bool) (k : string) (v v' : node) : Prop :=
  exists s1 s2, tagged ST ctrl setTagX rec v (withPath k env) so (requireTemplate reg k) s1 = Ret v' s2.
(** the field [k] of the result of the map: what it became, if it is defined *)
Lemma mget_mset_eq (k : string) (v : node) m : mget k (mset k v m) = Some v.
Proof. rewrite mget_mset. rewrite String.eqb_refl. reflexivity. Qed.
Lemma entries so env flags : fPropagateImplied flags = false ->
  forall m, quietMap m -> NoDup (mkeys m) -> forall nm un s nm' un' s',
  mapEntries ST ctrl reg setTagX rec m MERGEKEY None true so env flags nm un s = Ret (nm', un') s' ->
  (forall k, match mget k m with
             | Some v => exists v', becomes env so k v v' /\
                 mget k nm' = (if a_undefined (ann v') then mget k nm else Some v')
             | None => mget k nm' = mget k nm
             end) /\
  (forall k, mget k m = None -> mget k un' = mget k un).
Proof.
  intros NP m Q. induction Q as [|[k v] m Hk Q IH]; intros ND nm un s nm' un' s' H.
  - cbn in H. injection H as <- <- _. split; reflexivity.
  - inversion ND as [|? ? Nk ND']; subst. cbn [mkeys map fst] in Nk.
    assert (Nk' : mget k m = None).
    { destruct (mget k m) eqn:G; [|reflexivity]. exfalso. apply Nk. apply mget_In in G.
      change k with (fst (k, n)). apply in_map. exact G. }
    cbn in Hk. cbn [mapEntries] in H.
    assert (Ek : String.eqb k MERGEKEY = false) by (apply eqb_false_neq; apply quiet_neq; exact Hk).
    rewrite Ek in H. unfold bind in H at 1.
    destruct (tagged ST ctrl setTagX rec v (withPath k env) so (requireTemplate reg k) s) as [v' s1| |] eqn:T; try discriminate.
    destruct (a_undefined (ann v')) eqn:U.
    + destruct (IH ND' _ _ _ _ _ _ H) as [A B]. split.
      * intro j. cbn [mget]. destruct (String.eqb_spec j k) as [->|Nj].
        -- exists v'. split; [exists s, s1; exact T|]. rewrite U.
           specialize (A k). rewrite Nk' in A. exact A.
        -- exact (A j).
      * intros j. cbn [mget]. destruct (String.eqb_spec j k) as [->|Nj]; [discriminate|]. intro Hj.
        rewrite (B j Hj), mget_mset. destruct (String.eqb_spec j k); [congruence|reflexivity].
    + rewrite NP in H. destruct (IH ND' _ _ _ _ _ _ H) as [A B]. split.
      * intro j. cbn [mget]. destruct (String.eqb_spec j k) as [->|Nj].
        -- exists v'. split; [exists s, s1; exact T|]. rewrite U.
           specialize (A k). rewrite Nk' in A. rewrite A. apply mget_mset_eq.
        -- specialize (A j). destruct (mget j m).
           ++ destruct A as [w [Bw Cw]]. exists w. split; [exact Bw|]. rewrite Cw.
              destruct (a_undefined (ann w)); [|reflexivity]. rewrite mget_mset.
              destruct (String.eqb_spec j k); [congruence|reflexivity].
           ++ rewrite A, mget_mset. destruct (String.eqb_spec j k); [congruence|reflexivity].
      * intros j. cbn [mget]. destruct (String.eqb_spec j k) as [->|Nj]; [discriminate|]. intro Hj. exact (B j Hj).
Qed.

(** the stub of the map offers [w] for the key [k] *)
Definition offered (env : binding) (k : string) (w : node) : Prop :=
  exists st sm, stubHas env st /\ val st = VMap sm /\ mget k sm = Some w /\ isInjectable w.
(** the map has no field [k], or one that becomes undefined *)
Definition missing (env : binding) (so : bool) (m : smap node) (k : string) : Prop :=
  mget k m = None \/
  exists v v', mget k m = Some v /\ becomes (withScope m env) so k v v' /\ a_undefined (ann v') = true.
(** the field [k] of the result *)
Inductive fieldOf (env : binding) (so : bool) (m : smap node) (k : string) : option node -> Prop :=
| F_own v v' : mget k m = Some v -> becomes (withScope m env) so k v v' -> a_undefined (ann v') = false ->
    fieldOf env so m k (Some v')
| F_injected w : missing env so m k -> offered env k w ->
    fieldOf env so m k (Some (addFlags (substituteNode w) (N.lor FLAG_INJECT FLAG_INJECTED)))
| F_gone : missing env so m k -> (forall w, ~ offered env k w) -> fieldOf env so m k None.
Lemma inject_get sm : NoDup (mkeys sm) -> forall nm k,
  mget k (injectMap sm nm) =
  match mget k nm with
  | Some v => Some v
  | None => match mget k sm with
            | Some w => if fInject (nflags w) then Some (addFlags (substituteNode w) (N.lor FLAG_INJECT FLAG_INJECTED)) else None
            | None => None
            end
  end.
Proof.
  unfold injectMap. induction sm as [|[j w] sm IH]; intros ND nm k; cbn [fold_left mget fst snd].
  - destruct (mget k nm); reflexivity.
  - inversion ND as [|? ? Nk ND']; subst. rewrite IH by exact ND'.
    assert (Nj : mget j sm = None).
    { destruct (mget j sm) eqn:G; [|reflexivity]. exfalso. apply Nk. apply mget_In in G.
      change j with (fst (j, n)). apply in_map. exact G. }
    destruct (String.eqb_spec k j) as [->|Ne].
    + rewrite Nj. destruct (fInject (nflags w)); cbn [andb].
      * destruct (mget j nm) eqn:G; [rewrite G; reflexivity|]. rewrite mget_mset_eq. reflexivity.
      * destruct (mget j nm); reflexivity.
    + destruct (fInject (nflags w) && match mget j nm with None => true | Some _ => false end); [|reflexivity].
      rewrite mget_mset. destruct (String.eqb_spec k j); [congruence|reflexivity].
Qed.
Lemma quiet_mset k v m : quietKey k -> quietMap m -> quietMap (mset k v m).
Proof.
  intros Hk H. unfold quietMap in *. rewrite Forall_forall in *. intros [j w] I.
  assert (G : (j, w) = (k, v) \/ In (j, w) m).
  { clear -I. induction m as [|[a b] m IH]; cbn in I; [left; destruct I as [I|[]]; auto|].
    destruct (String.compare k a); cbn in I.
    - destruct I as [I|I]; [left; auto|right; right; exact I].
    - destruct I as [I|[I|I]]; [left; auto|right; left; exact I|right; right; exact I].
    - destruct I as [I|I]; [right; left; exact I|]. destruct (IH I) as [E|E]; [left; exact E|right; right; exact E]. }
  destruct G as [G|G]; [injection G as -> ->; exact Hk|exact (H _ G)].
Qed.
Lemma quiet_entries so env flags : forall m, quietMap m -> forall nm un s nm' un' s', quietMap nm -> quietMap un ->
  mapEntries ST ctrl reg setTagX rec m MERGEKEY None true so env flags nm un s = Ret (nm', un') s' ->
  quietMap nm' /\ quietMap un'.
Proof.
  intros m Q. induction Q as [|[k v] m Hk Q IH]; intros nm un s nm' un' s' Qn Qu H.
  - cbn in H. injection H as <- <- _. auto.
  - cbn in Hk. cbn [mapEntries] in H.
    assert (Ek : String.eqb k MERGEKEY = false) by (apply eqb_false_neq; apply quiet_neq; exact Hk).
    rewrite Ek in H. unfold bind in H at 1.
    destruct (tagged ST ctrl setTagX rec v (withPath k env) so (requireTemplate reg k) s) as [v' s1| |] eqn:T; try discriminate.
    destruct (a_undefined (ann v')); eapply IH; try exact H; try assumption; apply quiet_mset; assumption.
Qed.
Lemma quiet_inject sm : quietMap sm -> forall nm, quietMap nm -> quietMap (injectMap sm nm).
Proof.
  unfold injectMap. induction 1 as [|[j w] sm Hj Q IH]; intros nm Qn; cbn [fold_left]; [exact Qn|].
  apply IH. destruct (_ && _); [apply quiet_mset; assumption|exact Qn].
Qed.
Lemma quiet_flowControl n m un env s : val n = VMap m -> quietMap m -> quietMap un ->
  flowControl ST ctrl reg ctlFunction n un env s = Ret n s.
Proof.
  intros E Q U. unfold flowControl, getControl. rewrite E. destruct ctrl; [|reflexivity].
  assert (QQ : quietMap (m ++ un)) by (apply Forall_app; split; assumption).
  destruct (quiet_scan reg (m ++ un) QQ []) as [f ->]. reflexivity.
Qed.
Lemma inherited_bits f : fPropagateImplied (N.land f (N.lor FLAG_TEMPORARY FLAG_STATE)) = false /\
  fInjected (N.land f (N.lor FLAG_TEMPORARY FLAG_STATE)) = false.
Proof.
  unfold fPropagateImplied, fInjected, hasflag. rewrite <- !N.land_assoc.
  change (N.land (N.lor FLAG_TEMPORARY FLAG_STATE) (N.lor FLAG_IMPLIED FLAG_DEFAULT)) with 0%N.
  change (N.land (N.lor FLAG_TEMPORARY FLAG_STATE) FLAG_INJECTED) with 0%N. rewrite N.land_0_r. split; reflexivity.
Qed.

Lemma val_updateNode n f t : val (updateNode n f t) = val n.
Proof. unfold updateNode. destruct n as [v a s0 t0 r0]. destruct (N.eqb _ _), (_ || _); reflexivity. Qed.

(** one step for a map without merge keys and control fields: every field becomes
    what its content becomes; an undefined one vanishes; and for the missing
    ones the stub map may inject a value *)
Theorem C46_map : forall root m env so s n s', val root = VMap m -> msorted m -> quietMap m ->
  a_failed (ann root) = false ->
  (forall st sm, stubHas env st -> val st = VMap sm -> msorted sm /\ quietMap sm) ->
  FLOWMAP root m env so false s = Ret n s' ->
  exists r, val n = VMap r /\ forall k, fieldOf env so m k (mget k r).
Proof.
  intros root m env so s n s' V So Q Fa HS H. unfold flowMap in H. unfold bind in H at 1.
  assert (IH : exists flags stub, inheritedFlags ST ctrl env s = Ret (flags, stub) s /\
     fPropagateImplied flags = false /\ fInjected flags = false /\
     match stub with Some st => stubHas env st | None => stubNo env end).
  { revert H. unfold inheritedFlags, bind, stubHas, stubNo. destruct (findInStubs ctrl env (b_stubPath env)) as [st| |]; cbn [lookupM ret].
    - intros _. eexists _, _. split; [reflexivity|]. split; [apply inherited_bits|]. split; [apply inherited_bits|]. reflexivity.
    - intros _. exists 0%N, None. repeat split.
    - discriminate. }
  destruct IH as [flags [stub [EI [F1 [F2 FS]]]]]. rewrite EI in H. cbv beta iota zeta in H.
  rewrite !(quiet_mget _ m Q) in H by apply notquiet_merge.
  unfold bind in H at 1. unfold ret in H at 1.
  cbn [ms_processed ms_template ms_add ms_val ms_env ms_flags ms_base ms_merged ms_replace ms_redirect ms_err ms_tag negb andb] in H.
  unfold bind in H at 1.
  destruct (mapEntries ST ctrl reg setTagX rec m MERGEKEY None true so (withScope m env) flags [] [] s) as [[nm un] s1| |] eqn:EM; try discriminate.
  pose proof (msorted_NoDup m So) as ND.
  destruct (entries so (withScope m env) flags F1 m Q ND _ _ _ _ _ _ EM) as [A _].
  destruct (quiet_entries so (withScope m env) flags m Q _ _ _ _ _ _ (Forall_nil _) (Forall_nil _) EM) as [Qn Qu].
  assert (RES : exists r, quietMap r /\
     (match stub with Some st => match val st with VMap sm => if fInjected flags then nm else injectMap sm nm | _ => nm end | None => nm end) = r /\
     (r = nm /\ (forall st sm, stub = Some st -> val st <> VMap sm) \/ exists st sm, stub = Some st /\ val st = VMap sm /\ r = injectMap sm nm)).
  { destruct stub as [st|]; [|exists nm; split; [exact Qn|split; [reflexivity|left; split; [reflexivity|discriminate]]]].
    rewrite F2. destruct (val st) as [| | | | | | |sm| | |] eqn:VS;
      try (exists nm; split; [exact Qn|split; [reflexivity|left; split; [reflexivity|intros st' sm' E; injection E as <-; congruence]]]; fail).
    exists (injectMap sm nm). split; [apply quiet_inject; [apply (HS st sm FS VS)|exact Qn]|]. split; [reflexivity|].
    right. exists st, sm. auto. }
  destruct RES as [r [Qr [ER C]]]. rewrite ER in H.
  unfold bind in H at 1. rewrite Fa in H. cbv beta iota in H.
  match type of H with context [flowControl _ _ _ _ ?x un ?e s1] => set (X := x) in *; set (EE := e) in * end.
  assert (VX : val X = VMap r).
  { unfold X. destruct root as [v0 a0 s0 t0 r0]. cbn [ann]. destruct (a_replace a0); reflexivity. }
  rewrite (quiet_flowControl X r un EE s1 VX Qr Qu) in H. unfold ret in H. injection H as <- <-.
  exists r. split; [rewrite val_updateNode; exact VX|].
  intro k. pose proof (A k) as Ak. cbn [mget] in Ak.
  assert (SE : forall st, stubHas env st -> stub = Some st).
  { intros st Hst. unfold stubHas, stubNo in *. destruct stub as [st0|]; congruence. }
  assert (KEEP : forall v', mget k nm = Some v' -> mget k r = Some v').
  { intros v' Hk. destruct C as [[-> _]|[st [sm [E1 [E2 ->]]]]]; [exact Hk|].
    rewrite (inject_get sm (msorted_NoDup sm (proj1 (HS st sm ltac:(rewrite E1 in FS; exact FS) E2)))), Hk. reflexivity. }
  assert (MISS : mget k nm = None -> missing env so m k).
  { intro Hk. destruct (mget k m) as [v|] eqn:G; [right|left; exact G].
    destruct Ak as [v' [B E]]. exists v, v'. split; [exact G|]. split; [exact B|].
    destruct (a_undefined (ann v')); [reflexivity|congruence]. }
  destruct (mget k nm) as [x|] eqn:G.
  - rewrite (KEEP x eq_refl). destruct (mget k m) as [v|] eqn:Gm; [|discriminate].
    destruct Ak as [v' [B E]]. destruct (a_undefined (ann v')) eqn:U; [discriminate|]. injection E as <-.
    exact (F_own env so m k v x Gm B U).
  - specialize (MISS eq_refl).
    destruct C as [[-> C]|[st [sm [E1 [E2 ->]]]]].
    + rewrite G. apply F_gone; [exact MISS|]. intros w [st [sm [H1 [H2 _]]]]. exact (C st sm (SE st H1) H2).
    + assert (Hst : stubHas env st) by (rewrite E1 in FS; exact FS).
      rewrite (inject_get sm (msorted_NoDup sm (proj1 (HS st sm Hst E2)))), G.
      assert (ONE : forall w, offered env k w -> mget k sm = Some w /\ fInject (nflags w) = true).
      { intros w [st' [sm' [H1 [H2 [H3 H4]]]]]. apply SE in H1. assert (st' = st) by congruence. subst st'.
        assert (sm' = sm) by congruence. subst sm'. split; [exact H3|]. apply injectable_spec, H4. }
      destruct (mget k sm) as [w|] eqn:Gs.
      * destruct (fInject (nflags w)) eqn:FI.
        -- apply F_injected; [exact MISS|]. exists st, sm. repeat split; try assumption. apply injectable_spec, FI.
        -- apply F_gone; [exact MISS|]. intros w' O. destruct (ONE w' O) as [Y1 Y2]. congruence.
      * apply F_gone; [exact MISS|]. intros w' O. destruct (ONE w' O) as [Y1 Y2]. congruence.
Qed.
(** the three cases of [fieldOf] exclude each other and cover everything, so the
    fields of the template always win: an offered value never replaces a defined field *)
Theorem C46_own_wins : forall root m env so s n s' k w r, val root = VMap m -> msorted m -> quietMap m ->
  a_failed (ann root) = false ->
  (forall st sm, stubHas env st -> val st = VMap sm -> msorted sm /\ quietMap sm) ->
  FLOWMAP root m env so false s = Ret n s' -> val n = VMap r -> offered env k w ->
  (exists v v', mget k m = Some v /\ becomes (withScope m env) so k v v' /\ a_undefined (ann v') = false /\ mget k r = Some v') \/
  (missing env so m k /\ exists x, mget k r = Some x /\ val x = val (substituteNode w) /\ isInjectedV x /\ isInjectable x).
Proof.
  intros root m env so s n s' k w r V So Q Fa HS H Vn O.
  destruct (C46_map root m env so s n s' V So Q Fa HS H) as [r' [Vr F]].
  assert (r' = r) by congruence. subst r'. specialize (F k). destruct (mget k r) as [x|] eqn:G.
  - inversion F as [v v' G1 G2 G3 G4|w' Mi O' G4|]; subst.
    + left. exists v, x. auto.
    + right. split; [exact Mi|]. eexists. split; [reflexivity|].
      assert (w' = w).
      { destruct O as [st [sm [H1 [H2 [H3 _]]]]], O' as [st' [sm' [H1' [H2' [H3' _]]]]]. unfold stubHas in *. congruence. }
      subst w'. split; [destruct (substituteNode w); reflexivity|].
      unfold isInjectedV, isInjectable, marked, nflags. destruct (substituteNode w) as [v0 a0 s0 t0 r0]. cbn [addFlags withAnn ann aAddFlags a_flags].
      rewrite !N.lor_spec. split; [|right]; apply orb_true_r.
  - inversion F as [| |Mi N]; subst. exfalso. exact (N w O).
Qed.

(** ** lists *)
(** elements without merge, control and key fields *)
Definition quietElem (n : node) : Prop := forall m, val n = VMap m -> quietMap m.
(** the element [v] at some step became [v']; an element of which the name is not
    yet known stays as it is *)
Definition elemBecomes (env : binding) (v v' : node) : Prop :=
  v' = v \/ v' = mergedNode v \/
  exists w step s1 s2, (w = v \/ w = mergedNode v) /\
    tagged ST ctrl setTagX rec w (withPath step env) false false s1 = Ret v' s2.
Lemma splice_quiet orig root env st s : forall l, Forall quietElem l -> forall acc,
  spliceMerges ST interpol quote show rec orig root l env
    (mkPS acc (ps_process st) (ps_merged st) (ps_keyName st) (ps_replaced st) (ps_redirect st) (ps_flags st) (ps_tag st) (ps_template st)) s =
  Ret (mkPS (acc ++ l) (ps_process st) (ps_merged st) (ps_keyName st) (ps_replaced st) (ps_redirect st) (ps_flags st) (ps_tag st) (ps_template st)) s.
Proof.
  induction 1 as [|v l Hv Hl IH]; intro acc; cbn [spliceMerges]; [rewrite app_nil_r; reflexivity|].
  assert (E0 : entryMerge v = None).
  { destruct (val v) eqn:Ev; try (unfold entryMerge; rewrite Ev; reflexivity). apply (quiet_entry v m Ev (Hv m Ev)). }
  rewrite E0.
  assert (E : processKeyTag v = (v, "")).
  { unfold processKeyTag. destruct (val v) eqn:Ev; try reflexivity. rewrite quiet_noTag; [reflexivity|exact (Hv m Ev)]. }
  rewrite E. cbn [String.eqb ps_spliced ps_process ps_merged ps_keyName ps_replaced ps_redirect ps_flags ps_tag ps_template].
  rewrite IH, <- app_assoc. reflexivity.
Qed.
Lemma controls_quiet env process s : forall l, Forall quietElem l ->
  spliceControls ST ctrl reg rec l env process s = Ret (l, process) s.
Proof.
  induction 1 as [|v l Hv Hl IH]; cbn [spliceControls]; [reflexivity|].
  assert (E : getControl ctrl reg v [] = CtlNone).
  { destruct (val v) eqn:Ev; try (unfold getControl; rewrite Ev; reflexivity). apply (quiet_getControl ctrl reg v m Ev (Hv m Ev)). }
  rewrite E. unfold bind. rewrite IH. reflexivity.
Qed.
Lemma listEntries_gen env key unique nomerge : forall l i s nl s',
  listEntries ST ctrl setTagX rec l i key env unique nomerge s = Ret nl s' ->
  exists outs, Forall2 (elemBecomes env) l outs /\ nl = filter (fun v => negb (a_undefined (ann v))) outs.
Proof.
  induction l as [|v l IH]; intros i s nl s' H; cbn [listEntries] in H.
  - unfold ret in H. injection H as <- _. exists []. split; [constructor|reflexivity].
  - unfold bind in H at 1. destruct (stepName ST ctrl setTagX rec i v key env unique s) as [[[[step keyed] resolved] u] s1| |]; try discriminate.
    set (w := if negb keyed && nomerge then mergedNode v else v) in *. cbv beta iota zeta in H. unfold bind in H at 1.
    destruct ((if resolved then tagged ST ctrl setTagX rec w (withPath step env) false false else ret ST w) s1) as [v' s2| |] eqn:T; try discriminate.
    unfold bind in H at 1.
    destruct (listEntries ST ctrl setTagX rec l (i + 1) key env unique nomerge s2) as [rest s3| |] eqn:L; try discriminate.
    destruct (IH _ _ _ _ L) as [outs [F ->]]. unfold ret in H. injection H as <- <-.
    assert (Hw : w = v \/ w = mergedNode v) by (unfold w; destruct (negb keyed && nomerge); auto).
    exists (v' :: outs). split.
    + constructor; [|exact F]. destruct resolved.
      * right. right. exists w, step, s1, s2. auto.
      * unfold ret in T. injection T as <- _. destruct Hw as [->| ->]; [left|right; left]; reflexivity.
    + cbn [filter]. destruct (a_undefined (ann v')); reflexivity.
Qed.

(** one step for a list: the elements become what their contents become, in the
    same order, and the undefined ones vanish; before them the stub may inject elements *)
Theorem C47_list : forall root l env s n s', val root = VList l -> Forall quietElem l ->
  a_merged (ann root) = false ->
  FLOWLIST root l env false s = Ret n s' ->
  exists outs extra env', b_scopes env' = b_scopes env /\ b_path env' = b_path env /\
    val n = VList (extra ++ filter (fun v => negb (a_undefined (ann v))) outs) /\
    Forall2 (elemBecomes env') l outs /\
    (forall x, In x extra -> isInjectable x) /\
    (stubNo env \/ isInjectedV root -> extra = []) /\
    (forall st sl, stubHas env st -> val st = VList sl -> ~ isInjectedV root ->
       forall x, In x sl -> isInjectable x -> In x extra).
Proof.
  intros root l env s n s' V Q Me H. unfold flowList in H. rewrite Me in H. unfold bind in H at 1.
  assert (IH : exists flags stub, inheritedFlags ST ctrl env s = Ret (flags, stub) s /\
     match stub with Some st => stubHas env st | None => stubNo env end).
  { revert H. unfold inheritedFlags, bind, stubHas, stubNo. destruct (findInStubs ctrl env (b_stubPath env)) as [st| |]; cbn [lookupM ret].
    - intros _. eexists _, _. split; reflexivity.
    - intros _. exists 0%N, None. split; reflexivity.
    - discriminate. }
  destruct IH as [flags [stub [EI FS]]]. rewrite EI in H. cbv beta iota zeta in H.
  unfold bind in H at 1.
  pose proof (splice_quiet root l env (mkPS [] true false (a_keyName (ann root)) (a_replace (ann root)) (a_redirect (ann root)) flags (a_tag (ann root)) false) s l Q []) as SQ.
  cbn [app ps_template ps_spliced ps_process ps_flags ps_keyName ps_redirect ps_merged ps_replaced ps_tag] in SQ. rewrite SQ in H.
  cbn [app ps_template ps_spliced ps_process ps_flags ps_keyName ps_redirect ps_merged ps_replaced ps_tag] in H.
  unfold bind in H at 1. unfold bind in H at 1. rewrite (controls_quiet env true s l Q) in H. unfold ret in H at 1. cbn [fst snd] in H.
  set (fl := if fNoMerge (nflags root) || existsb useMerge l then N.lor flags FLAG_NOMERGE else flags) in *.
  cbv beta iota zeta in H. unfold bind in H at 1.
  set (env' := match a_redirect (ann root) with Some p => redirectOverwrite p env | None => env end) in *.
  unfold bind in H at 1.
  destruct ((if String.eqb (a_keyName (ann root)) NO_LIST_KEY then ret ST false else uniqueKeys ST ctrl setTagX rec l 0 (a_keyName (ann root)) env' []) s) as [uq s1| |]; try discriminate.
  unfold bind in H at 1.
  destruct (listEntries ST ctrl setTagX rec l 0 (a_keyName (ann root)) env' uq (fNoMerge fl) s1) as [nl s2| |] eqn:L; try discriminate.
  destruct (listEntries_gen _ _ _ _ _ _ _ _ _ L) as [outs [F ->]].
  unfold ret in H at 1.
  set (nl := filter (fun v => negb (a_undefined (ann v))) outs) in *.
  assert (EN : b_scopes env' = b_scopes env /\ b_path env' = b_path env).
  { unfold env'. destruct (a_redirect (ann root)) as [[|x y]|]; destruct env; split; reflexivity. }
  destruct EN as [EN1 EN2].
  assert (VR : forall x n' fl', val x = VList n' -> val (if negb (N.eqb (N.lor fl' (nflags x)) (nflags x)) then addFlags x fl'
       else if String.eqb (a_tag (ann root)) "" || String.eqb (a_tag (ann root)) (a_tag (ann x)) then x else setTag x (a_tag (ann root))) = VList n').
  { intros x n' fl' Hx. destruct x as [v0 a0 s0 t0 r0]. cbn [val] in Hx. subst v0.
    repeat match goal with |- val (if ?c then _ else _) = _ => destruct c; [reflexivity|] end. reflexivity. }
  assert (VM : forall n' : list node, val (if a_replace (ann root) then replaceNode (VList n') (if String.eqb (a_keyName (ann root)) "" then root else keyNameNode root (a_keyName (ann root))) (a_redirect (ann root))
     else match a_redirect (ann root) with
          | Some _ => redirectNode (VList n') (if String.eqb (a_keyName (ann root)) "" then root else keyNameNode root (a_keyName (ann root))) (a_redirect (ann root))
          | None => substituteNodeV (VList n') (if String.eqb (a_keyName (ann root)) "" then root else keyNameNode root (a_keyName (ann root)))
          end) = VList n').
  { intro n'. set (y := if String.eqb (a_keyName (ann root)) "" then root else keyNameNode root (a_keyName (ann root))).
    destruct y as [v0 a0 s0 t0 r0]. destruct (a_replace (ann root)); [reflexivity|]. destruct (a_redirect (ann root)); reflexivity. }
  assert (FIN : exists extra fl', (match stub with
                        | Some s0 => if fInjected (nflags root) then (VList nl, fl)
                                    else (VList (match val s0 with
                                                 | VList sl => filter (fun v => fInject (nflags v)) sl ++ nl
                                                 | _ => nl
                                                 end), N.lor fl FLAG_INJECTED)
                        | None => (VList nl, fl)
                        end) = (VList (extra ++ nl), fl') /\
     (forall x, In x extra -> isInjectable x) /\ (stubNo env \/ isInjectedV root -> extra = []) /\
    (forall st sl, stubHas env st -> val st = VList sl -> ~ isInjectedV root ->
       forall x, In x sl -> isInjectable x -> In x extra)).
  { destruct stub as [st|].
    - destruct (fInjected (nflags root)) eqn:FI.
      + exists [], fl. split; [reflexivity|]. split; [intros x []|]. split; [reflexivity|].
        intros st' sl _ _ N. exfalso. apply N. apply injected_spec, FI.
      + destruct (val st) as [| | | | | |sl| | | |] eqn:VS;
        try (exists [], (N.lor fl FLAG_INJECTED); split; [reflexivity|]; split; [intros x []|]; split; [reflexivity|];
             intros st' sl' Hst Vst; unfold stubHas in *; congruence).
        exists (filter (fun v => fInject (nflags v)) sl), (N.lor fl FLAG_INJECTED). split; [reflexivity|].
        split; [intros x Hx; apply filter_In in Hx; apply injectable_spec; tauto|].
        split; [intros [N|N]; [unfold stubHas, stubNo in *; congruence|apply injected_spec in N; congruence]|].
        intros st' sl' Hst Vst _ x Hx J. unfold stubHas in *. assert (st' = st) by congruence. subst st'.
        assert (sl' = sl) by congruence. subst sl'. apply filter_In. split; [exact Hx|apply injectable_spec, J].
    - exists [], fl. split; [reflexivity|]. split; [intros x []|]. split; [reflexivity|].
      intros st' sl Hst. unfold stubHas, stubNo in *. congruence. }
  destruct FIN as [extra [fl' [E [P1 [P2 P3]]]]].
  rewrite E in H. cbv beta iota zeta in H.
  exists outs, extra, env'. split; [exact EN1|]. split; [exact EN2|]. split; [|split; [exact F|split; [exact P1|split; [exact P2|exact P3]]]].
  match type of H with (if negb (N.eqb (N.lor fl' (nflags ?x)) _) then _ else _) _ = _ => set (X := x) in * end.
  pose proof (VR X (extra ++ nl) fl' (VM (extra ++ nl))) as VX.
  destruct (negb (N.eqb (N.lor fl' (nflags X)) (nflags X))); [unfold ret in H; injection H as <- _; exact VX|].
  destruct (String.eqb (a_tag (ann root)) "" || String.eqb (a_tag (ann root)) (a_tag (ann X)));
    unfold ret in H; injection H as <- _; exact VX.
Qed.
(** without offers of the stubs: the fields of the result are exactly the fields
    of the map that become something defined *)
Theorem C47_map : forall root m env so s n s', val root = VMap m -> msorted m -> quietMap m ->
  a_failed (ann root) = false -> stubNo env ->
  FLOWMAP root m env so false s = Ret n s' ->
  exists r, val n = VMap r /\ forall k,
    (forall v', mget k r = Some v' -> a_undefined (ann v') = false /\
       exists v, mget k m = Some v /\ becomes (withScope m env) so k v v') /\
    (mget k r = None -> missing env so m k).
Proof.
  intros root m env so s n s' V So Q Fa HS H.
  assert (NO : forall k w, ~ offered env k w).
  { intros k w [st [sm [H1 _]]]. unfold stubHas, stubNo in *. congruence. }
  destruct (C46_map root m env so s n s' V So Q Fa) as [r [Vr F]].
  - intros st sm H1. unfold stubHas, stubNo in *. congruence.
  - exact H.
  - exists r. split; [exact Vr|]. intro k. specialize (F k). split.
    + intros v' E. rewrite E in F. inversion F as [v v0 G1 G2 G3|w G1 G2|]; subst; [|exfalso; exact (NO k w G2)].
      split; [exact G3|]. exists v. auto.
    + intro E. rewrite E in F. inversion F; subst; assumption.
Qed.
End Inject.

(** a template { a: 1, u: (( ~~ )) } with the stub { a: (( &default(5) )), b: (( &inject(7) )) }
    (evaluated) becomes { a: 1, b: 7 } *)
Definition inReg : registry := mkReg (fun _ => None) (fun _ => false) (fun _ _ => false).
Definition inEval (e : expr) (b : binding) (l : bool) : M unit (value * info * bool) :=
  ret unit (VNil, mkInfo None false false false "" "" false false true false noIssue 0%N, true).
Definition inFlow := flow unit false false inReg (fun _ _ _ => None) (fun s => s) (fun _ => "") inEval
  (fun _ _ _ _ s => (true, s)) (fun _ _ => panic unit).
Definition inT : node := newNode (VMap [("a", newNode (VInt 1) "t"); ("u", newNode (VExpr EUndef) "t")]) "t".
Definition inS : node := newNode (VMap [("a", addFlags (newNode (VInt 5) "s") FLAG_DEFAULT);
                                        ("b", addFlags (newNode (VInt 7) "s") FLAG_INJECT)]) "s".
Definition inEnv : binding := newNested [inS] "t" None.
Example C46_example :
  quietMap [("a", newNode (VInt 1) "t"); ("u", newNode (VExpr EUndef) "t")] /\
  isDefaultV (addFlags (newNode (VInt 5) "s") FLAG_DEFAULT) /\
  isInjectable (addFlags (newNode (VInt 7) "s") FLAG_INJECT) /\
  offered false inEnv "b" (addFlags (newNode (VInt 7) "s") FLAG_INJECT) /\
  match inFlow 9 inT inEnv true false tt with
  | Ret n _ => data n = newNode (VMap [("a", newNode (VInt 1) ""); ("b", newNode (VInt 7) "")]) ""
  | _ => False
  end.
Proof.
  split; [|split; [|split; [|split]]].
  - repeat apply Forall_cons; try apply Forall_nil; split; intros [r E]; discriminate.
  - split; [reflexivity|discriminate].
  - right. reflexivity.
  - exists inS, [("a", addFlags (newNode (VInt 5) "s") FLAG_DEFAULT); ("b", addFlags (newNode (VInt 7) "s") FLAG_INJECT)].
    repeat split. right. reflexivity.
  - vm_compute. reflexivity.
Qed.
(** the list [1, (( ~~ )), 3] becomes [1, 3]; an injected element of the stub is put first *)
Example C47_example :
  match inFlow 9 (newNode (VList [newNode (VInt 1) "t"; newNode (VExpr EUndef) "t"; newNode (VInt 3) "t"]) "t")
               (newNested [newNode (VList [addFlags (newNode (VInt 7) "s") FLAG_INJECT; newNode (VInt 8) "s"]) "s"] "t" None)
               true false tt with
  | Ret n _ => data n = newNode (VList [newNode (VInt 7) ""; newNode (VInt 1) ""; newNode (VInt 3) ""]) ""
  | _ => False
  end.
Proof. vm_compute. reflexivity. Qed.

Print Assumptions C46_overridden.
Print Assumptions C46_default_kept.
Print Assumptions C46_nothing.
Print Assumptions C46_map.
Print Assumptions C46_own_wins.
Print Assumptions C47_list.
Print Assumptions C47_map.
