(** The merge engine on documents in which expressions wait for each other (C61): whatever else
    is in the document, every round keeps them waiting.  The evaluation is a parameter. *)
From Coq Require Import Lia.
From Verif Require Import Core CoreFacts Str StrFacts DecSpec Interp Find FindFacts EquivFacts PropInterp
  Cleanup Unresolved PropUnresolved DeepEq DeepEqFacts Env Flow FlowSpec FlowFacts FlowPass FlowMerge FlowStable DocSpec FlowDoc DocFacts StuckSpec.
From Verif Require PropFlow PropInfo.
Import ListNotations.
Open Scope string_scope. Open Scope list_scope.

Section Stuck.
Variable ST : Type.
Variables interpol ctrl : bool.
Variable reg : registry.
Variable parse : string -> list string -> list string -> option expr.
Variable quote : string -> string.
Variable show : expr -> string.
Variable evaluate : expr -> binding -> bool -> ST -> res ST (value * info * bool).
Variable setTagX : string -> node -> list string -> bool -> ST -> bool * ST.
Variable ctlFunction : cctx -> binding -> ST -> res ST (node * bool).
Notation plain := (plainDoc ordinaryKey interpol).
Notation F := (flowF ST interpol ctrl reg parse quote show evaluate setTagX ctlFunction).
Notation T := (tagged ST ctrl setTagX).
Notation LOOP := (flowLoop ST interpol ctrl reg parse quote show evaluate setTagX ctlFunction).
Notation text := (DocSpec.text interpol parse quote).
Variable stubs : list node.
Hypothesis SP : Forall plain stubs.
Variable D : node.
Variable K : list string -> Prop.
(** the expressions that may stand at a position *)
Variable good : list string -> expr -> Prop.
Hypothesis GM : forall p l x, ~ good p (EMarker l x).
Hypothesis KT : forall p, K p -> exists d e, part D p d /\ text d e /\ good p e.
Definition way (p : list string) : Prop := exists k r, K (p ++ k :: r).
Hypothesis KW : forall p k r, K (p ++ k :: r) -> exists m s, part D p (mkNode (VMap m) emptyAnn s None None) /\ msorted m /\ Forall (fun kv => ordinaryKey (fst kv)) m.
Definition on (p : list string) : Prop := K p \/ way p.

(** ** the document on the way *)
Lemma part_split : forall p n q c, part n (p ++ q) c -> exists x, part n p x /\ part x q c.
Proof.
  induction p as [|k p IH]; intros n q c A; cbn [app] in A; [exists n; split; [constructor|exact A]|].
  inversion A as [|n0 m k0 x p0 d V I A'|n0 l i x p0 d V I A']; subst.
  - destruct (IH _ _ _ A') as (y & H1 & H2). exists y. split; [eapply part_key; eassumption|exact H2].
  - destruct (IH _ _ _ A') as (y & H1 & H2). exists y. split; [eapply part_index; eassumption|exact H2].
Qed.
Lemma way_up : forall p k, way (p ++ [k]) -> way p.
Proof. intros p k (k' & r & H). rewrite <- app_assoc in H. exists k, (k' :: r). exact H. Qed.
Lemma on_up : forall p k, on (p ++ [k]) -> way p.
Proof. intros p k [H|H]; [exists k, []; exact H|now apply way_up in H]. Qed.
Lemma map_child : forall m s k x, part (mkNode (VMap m) emptyAnn s None None) [k] x -> In (k, x) m.
Proof.
  intros m s k x A. inversion A as [|n0 m0 k0 y p0 d V I A'|n0 l i y p0 d V I A']; subst; [|discriminate V].
  cbn in V. injection V as <-. inversion A'; subst. exact I.
Qed.
Lemma unique : forall p, on p -> forall x y, part D p x -> part D p y -> x = y.
Proof.
  intro p. induction p as [|k p IH] using rev_ind; intros O x y A B.
  - inversion A; inversion B; subst. reflexivity.
  - pose proof (on_up _ _ O) as (k' & r & W). destruct (KW _ _ _ W) as (m & s & A0 & So & _).
    assert (OP : on p) by (right; exists k', r; exact W).
    destruct (part_split _ _ _ _ A) as (u & U1 & U2). destruct (part_split _ _ _ _ B) as (v & V1 & V2).
    pose proof (IH OP _ _ U1 A0). pose proof (IH OP _ _ V1 A0). subst u v.
    apply map_child in U2. apply map_child in V2. apply msorted_NoDup in So. apply In_mget in U2; [|exact So]. apply In_mget in V2; [|exact So]. congruence.
Qed.
Lemma apart : forall p, K p -> way p -> False.
Proof.
  intros p H W. destruct (KT _ H) as (d & e & A & (t & s & sub & -> & _) & _). destruct W as (k & r & W). destruct (KW _ _ _ W) as (m & s' & A' & _).
  pose proof (unique p (or_introl H) _ _ A A') as E. discriminate E.
Qed.
Lemma on_field : forall p k m s, on (p ++ [k]) -> part D p (mkNode (VMap m) emptyAnn s None None) -> In k (map fst m).
Proof.
  intros p k m s O A. pose proof (on_up _ _ O) as W.
  assert (X : exists x, part D (p ++ [k]) x) by (destruct O as [H|(k' & r & H)]; [destruct (KT _ H) as (d & e & B & _)|destruct (KW _ _ _ H) as (m' & s' & B & _)]; eauto).
  destruct X as (x & X). destruct (part_split _ _ _ _ X) as (u & U1 & U2). rewrite (unique p (or_intror W) _ _ U1 A) in U2. apply map_child in U2. apply in_map_iff. exists (k, x). auto.
Qed.

(** ** the states *)
(** [state g p n]: [n] stands at [p]; [g]: the texts have been read *)
Inductive state (g : bool) : list string -> node -> Prop :=
| st_text p d e : g = false -> K p -> part D p d -> text d e -> good p e -> state g p d
| st_expr p x a s : g = true -> K p -> good p x -> pendAnn a -> state g p (mkNode (VExpr x) a s None None)
| st_way p m mn s s0 : way p -> part D p (mkNode (VMap m) emptyAnn s0 None None) -> Forall (fun kv => ordinaryKey (fst kv)) m -> msorted mn ->
    incl (map fst mn) (map fst m) -> (forall k, on (p ++ [k]) -> In k (map fst mn)) ->
    (forall k c, on (p ++ [k]) -> mget k mn = Some c -> state g (p ++ [k]) c) -> state g p (mkNode (VMap mn) emptyAnn s None None).
Inductive encl (g : bool) : list string -> list scope -> Prop :=
| en_root : encl g [] []
| en_map p k m mn s0 s sc ss : encl g p ss -> part D p (mkNode (VMap m) emptyAnn s0 None None) -> incl (map fst mn) (map fst m) ->
    state g p (mkNode (VMap mn) emptyAnn s None None) -> sc_local sc = Some mn -> encl g (p ++ [k]) (sc :: ss).
Hypothesis EV : forall p b x s v i ok s', K p -> good p x -> encl true p (b_scopes b) -> evaluate x b false s = Ret (v, i, ok) s' ->
  ok = true /\ plainInfo i /\ exists x', v = VExpr x' /\ good p x'.

Lemma state_quiet : forall g p n, state g p n -> quietAnn n.
Proof.
  intros g p n A. destruct A as [p d e _ _ _ (t & s & sub & -> & _) _|p x a s _ _ _ PA|p m mn s s0 _ _ _ _ _ _ _]; [split; reflexivity|now apply pend_quiet|split; reflexivity].
Qed.
Lemma start_state : forall p d, on p -> part D p d -> state false p d.
Proof.
  intros p d. revert p. induction d as [v a s t r IH] using node_ind'. intros p O A. destruct O as [H|W].
  - destruct (KT _ H) as (d & e & B & TX & G). pose proof (unique p (or_introl H) _ _ A B) as ->. eapply st_text; eauto.
  - pose proof W as (k & q & H). destruct (KW _ _ _ H) as (m & s' & B & So & Ko). pose proof (unique p (or_intror W) _ _ A B) as E. injection E as -> -> -> -> ->.
    apply (st_way false p m m s' s'); try assumption; [apply incl_refl|intros k' O'; eapply on_field; eassumption|].
    intros k' c O' G. apply mget_In in G. cbn in IH. rewrite Forall_forall in IH. apply (IH _ G _ O'). eapply part_field; [exact A|reflexivity|exact G].
Qed.

(** ** one round *)
Definition here (b : binding) : Prop := b_stubs b = stubs /\ b_nomerge b = false.
Lemma text_round : forall p d e env so et s rec, K p -> text d e -> good p e ->
  flowNode ST interpol ctrl reg parse quote show evaluate setTagX ctlFunction rec d env so et s = Ret (mkNode (VExpr e) emptyAnn (src d) None None) s.
Proof.
  intros p d e env so et s rec H (t & s0 & sub & -> & E & P) G. unfold flowNode. cbn [ann emptyAnn a_redirect a_replace a_merged val isExpr negb andb].
  unfold flowString. rewrite E, P. reflexivity.
Qed.

Lemma expr_round : forall p x a sr env so s rec n' s', K p -> good p x -> encl true p (b_scopes env) -> pendAnn a ->
  flowNode ST interpol ctrl reg parse quote show evaluate setTagX ctlFunction rec (mkNode (VExpr x) a sr None None) env so false s = Ret n' s' -> state true p n'.
Proof.
  intros p x a sr env so s rec n' s' H GX EN PA.
  assert (NM : forall l y, x <> EMarker l y) by (intros l y ->; now apply GM in GX).
  assert (AA : a_redirect a = None /\ a_replace a = false /\ a_merged a = false /\ a_tag a = "" /\ a_flags a = 0%N /\ a_preferred a = false /\ a_keyName a = "")
    by (destruct PA as [-> |[i ->]]; repeat split; reflexivity).
  destruct AA as (A1 & A2 & A3 & A4 & A5 & A6 & A7).
  unfold flowNode. cbn [ann val isExpr negb andb]. rewrite A1, A2. unfold flowExpr. cbn [src ann nflags tmpl].
  replace (asTemplate x false) with (@None marker) by (destruct x; try reflexivity; now edestruct NM).
  set (env1 := if String.eqb sr (b_source env) then env else withSource sr env).
  assert (EN1 : encl true p (b_scopes env1)) by (unfold env1; destruct (String.eqb sr (b_source env)), env; exact EN).
  unfold bind. destruct (evaluate x env1 false s) as [[[v i] ok] s1| |] eqn:Ev; [|discriminate|discriminate].
  destruct (EV p env1 x s v i ok s1 H GX EN1 Ev) as (-> & PI & x' & -> & GX').
  destruct PI as (I1 & I2 & I3 & I4 & I5 & I6 & I7 & I8).
  rewrite I8. unfold nflags. cbn [ann]. rewrite A5. change (N.lor 0 0) with 0%N. change (fDynamic 0%N) with false. cbn [andb negb].
  rewrite I2, A2. cbn [orb].
  unfold resultNode. rewrite I7, I4, A6, I5, A7, I1, A1, I3, A3, I6. cbn [String.eqb orb src ann]. rewrite A4.
  assert (UP : forall n, updateNode n 0%N "" = n) by (intro n; unfold updateNode; cbn [N.lor]; rewrite N.eqb_refl; reflexivity).
  cbn [tmpl]. cbv beta iota. rewrite !UP.
  set (sr1 := if String.eqb (f_source i) "" then sr else f_source i).
  assert (G : exists a', pendAnn a' /\ (if String.eqb (i_text (f_issue i)) "" then newNode (VExpr x') sr1 else issueNode env1 (newNode (VExpr x') sr1) false false (f_issue i)) = mkNode (VExpr x') a' sr1 None None).
  { destruct (String.eqb (i_text (f_issue i)) ""); [exists emptyAnn; split; [now left|reflexivity]|]. eexists. split; [|reflexivity]. right. eexists. reflexivity. }
  destruct G as (a' & PA' & G). rewrite G. cbn [val isExpr orb]. rewrite ?Bool.andb_true_r. cbn [negb]. cbv iota.
  intro E. assert (n' = mkNode (VExpr x') a' sr1 None None) as -> by (inversion E; reflexivity). now apply st_expr.
Qed.
(** the entries of a map *)
Lemma entries_round : forall rec env p g (mn : smap node), NoDup (map fst mn) -> Forall (fun kv => quietKey (fst kv)) mn ->
  (forall k c env' s n' s', on (p ++ [k]) -> In (k, c) mn -> env' = withPath k env -> rec c env' true false s = Ret n' s' -> state g (p ++ [k]) c -> state true (p ++ [k]) n') ->
  (forall k c, on (p ++ [k]) -> In (k, c) mn -> state g (p ++ [k]) c) ->
  forall s acc und r und' s', mapEntries ST ctrl reg setTagX rec mn MERGEKEY None true true env 0%N acc und s = Ret (r, und') s' -> msorted acc ->
  msorted r /\ incl (map fst r) (map fst acc ++ map fst mn) /\ incl (map fst und') (map fst und ++ map fst mn) /\
  (forall k, ~ In k (map fst mn) -> mget k r = mget k acc) /\
  (forall k c, on (p ++ [k]) -> In (k, c) mn -> exists c', mget k r = Some c' /\ state true (p ++ [k]) c').
Proof.
  intros rec env p g mn. induction mn as [|[k v] mn IH]; intros ND Q R ST0 s acc und r und' s' E So.
  - cbn [mapEntries] in E. inversion E; subst. rewrite !app_nil_r. split; [exact So|]. split; [apply incl_refl|]. split; [apply incl_refl|]. split; [auto|]. intros k c _ [].
  - cbn [map fst] in *. inversion ND as [|? ? NI ND']; subst. inversion Q as [|? ? Qk Qm]; subst. cbn [fst] in Qk.
    cbn [mapEntries] in E. rewrite (proj2 (eqb_false_neq k MERGEKEY) (proj2 (quiet_neq k Qk))) in E.
    unfold requireTemplate, ctlKey in E. rewrite (quiet_ctl k Qk) in E. unfold bind in E.
    destruct (T rec v (withPath k env) true false s) as [n1 s1| |] eqn:E1; [|discriminate|discriminate]. change (fPropagateImplied 0%N) with false in E. cbv iota in E.
    assert (R' : forall k0 c env' s n' s', on (p ++ [k0]) -> In (k0, c) mn -> env' = withPath k0 env -> rec c env' true false s = Ret n' s' -> state g (p ++ [k0]) c -> state true (p ++ [k0]) n')
      by (intros; eapply R; try eassumption; now right).
    assert (S' : forall k0 c, on (p ++ [k0]) -> In (k0, c) mn -> state g (p ++ [k0]) c) by (intros; apply ST0; [assumption|now right]).
    assert (ON : on (p ++ [k]) -> state true (p ++ [k]) n1).
    { intro O. unfold tagged, bind in E1. destruct (rec v (withPath k env) true false s) as [n2 s2| |] eqn:E2; [|discriminate|discriminate].
      assert (S2 : state true (p ++ [k]) n2) by (eapply R; [exact O|left; reflexivity|reflexivity|exact E2|apply ST0; [exact O|now left]]).
      pose proof (state_quiet _ _ _ S2) as [Q1 _]. rewrite Q1 in E1. cbn [String.eqb negb] in E1. rewrite Bool.andb_false_r in E1. inversion E1; subst. exact S2. }
    destruct (a_undefined (ann n1)) eqn:U.
    + destruct (IH ND' Qm R' S' _ _ _ _ _ _ E So) as (H1 & H2 & H3 & H4 & H5).
      split; [exact H1|]. split; [intros y Y; apply H2 in Y; apply in_app_or in Y; apply in_or_app; destruct Y; [now left|right; now right]|].
      split; [intros y Y; apply H3 in Y; apply in_app_or in Y; apply in_or_app; destruct Y as [Y|Y]; [|right; now right]; apply mkeys_mset in Y; destruct Y as [->|Y]; [right; now left|now left]|].
      split; [intros k0 N0; apply H4; intro I0; apply N0; now right|].
      intros k0 c O [I|I]; [|now apply (H5 k0 c)]. injection I as -> ->. pose proof (state_quiet _ _ _ (ON O)) as [_ Q2]. congruence.
    + destruct (IH ND' Qm R' S' _ _ _ _ _ _ E (msorted_mset _ _ _ So)) as (H1 & H2 & H3 & H4 & H5).
      split; [exact H1|]. split; [intros y Y; apply H2 in Y; apply in_app_or in Y; apply in_or_app; destruct Y as [Y|Y]; [|right; now right]; apply mkeys_mset in Y; destruct Y as [->|Y]; [right; now left|now left]|].
      split; [intros y Y; apply H3 in Y; apply in_app_or in Y; apply in_or_app; destruct Y; [now left|right; now right]|].
      split; [intros k0 N0; rewrite H4 by (intro I0; apply N0; now right); apply mget_mset_other; intros ->; apply N0; now left|].
      intros k0 c O [I|I]; [|now apply (H5 k0 c)]. injection I as -> ->. exists n1. split; [|now apply ON]. rewrite H4 by exact NI. apply mget_mset_same.
Qed.
Lemma incl_quiet : forall (m mm : smap node), Forall (fun kv => ordinaryKey (fst kv)) m -> incl (map fst mm) (map fst m) -> quietMap mm.
Proof.
  intros m mm Ko E. unfold quietMap. apply (Forall_map fst). rewrite Forall_forall. intros k I. apply E in I. apply in_map_iff in I. destruct I as ([k' x] & <- & I).
  rewrite Forall_forall in Ko. apply (Ko _ I).
Qed.
Lemma quiet_app : forall m m' : smap node, quietMap m -> quietMap m' -> quietMap (m ++ m').
Proof. intros m m' H1 H2. unfold quietMap in *. apply Forall_app. auto. Qed.
Lemma round : forall g p n, state g p n -> forall fuel env so s n' s', encl g p (b_scopes env) -> here env ->
  F fuel n env so false s = Ret n' s' -> state true p n'.
Proof.
  intros g p n A. induction A as [p d e -> H AD TX GX|p x a sr -> H GX PA|p m mn sr s0 W AD Ko So In0 On St IH]; intros fuel env so s n' s' EN L E;
    (destruct fuel as [|fuel]; [discriminate E|]); cbn [flowF] in E.
  - rewrite (text_round p d e _ _ _ _ _ H TX GX) in E. inversion E; subst. apply st_expr; [reflexivity|exact H|exact GX|now left].
  - eapply expr_round; eassumption.
  - unfold flowNode in E. cbn [ann emptyAnn a_redirect a_replace a_merged val isExpr negb andb] in E.
    pose proof (incl_quiet m mn Ko In0) as Q.
    rewrite (quiet_getControl ctrl reg (mkNode (VMap mn) emptyAnn sr None None) mn eq_refl Q) in E.
    unfold flowMap in E. unfold bind at 1 in E.
    destruct (inheritedFlags ST ctrl env s) as [[fl o] s1| |] eqn:IE; [|discriminate E|discriminate E].
    assert (IP : fl = 0%N /\ s1 = s /\ match o with Some w => plain w | None => True end).
    { unfold inheritedFlags, bind, lookupM, findInStubs in IE. rewrite (proj1 L) in IE. fold (lk ctrl stubs (b_stubPath env)) in IE.
      destruct (lk ctrl stubs (b_stubPath env)) as [w| |] eqn:El; try discriminate IE; inversion IE; subst; [|auto].
      assert (P : plain w) by (eapply (plain_lk interpol ctrl stubs SP); exact El). split; [|auto]. unfold nflags. destruct (plain_ann ordinaryKey interpol w P) as [-> | ->]; reflexivity. }
    destruct IP as (-> & -> & IP). cbv beta iota in E. cbn [ann emptyAnn a_tag a_redirect a_replace] in E.
    rewrite !(quiet_mget _ mn Q) in E by apply notquiet_merge.
    unfold bind at 1 in E. unfold ret at 1 in E.
    cbn [ms_processed ms_template ms_add ms_val ms_env ms_flags ms_base ms_merged ms_replace ms_redirect ms_err ms_tag negb andb] in E.
    unfold bind at 1 in E.
    destruct (mapEntries ST ctrl reg setTagX (F fuel) mn MERGEKEY None true true (withScope mn env) 0%N [] [] s) as [[r und] s2| |] eqn:EM; [|discriminate E|discriminate E].
    assert (BS : exists sc, b_scopes (withScope mn env) = sc :: b_scopes env /\ sc_local sc = Some mn) by (destruct env; eexists; split; reflexivity). destruct BS as (sc & BS & SL).
    destruct (entries_round (F fuel) (withScope mn env) p g mn) with (s := s) (acc := @nil (string * node)) (und := @nil (string * node)) (r := r) (und' := und) (s' := s2) as (H1 & H2 & H3 & _ & H5).
    { apply msorted_NoDup, So. } { exact Q. }
    { intros k c env' s3 n3 s4 O I -> E3 S3. apply (IH k c O (In_mget _ _ _ (msorted_NoDup _ So) I) fuel (withPath k (withScope mn env)) true s3 n3 s4); [| |exact E3].
      - assert (BS' : b_scopes (withPath k (withScope mn env)) = sc :: b_scopes env) by (destruct env; exact BS). rewrite BS'.
        eapply (en_map g p k m mn s0 sr); [exact EN|exact AD|exact In0| |exact SL]. eapply st_way; eassumption.
      - destruct env. exact L. }
    { intros k c O I. apply (St k c O). apply In_mget; [apply msorted_NoDup, So|exact I]. }
    { exact EM. } { exact Logic.I. }
    cbn [app map] in H2, H3.
    assert (I2 : incl (map fst r) (map fst m)) by (intros y Y; apply In0, H2, Y).
    match type of E with context [redirectNode (VMap ?X) _ None] => replace X with r in E end.
    2: { destruct o as [w|]; [|reflexivity]. destruct (val w) eqn:Vw; try reflexivity. change (fInjected 0%N) with false. cbv iota.
      symmetry. apply (injectMap_plain interpol ordinaryKey). apply (plain_map ordinaryKey interpol w m0 IP Vw). }
    change (a_failed emptyAnn) with false in E. cbv beta iota in E. unfold bind in E.
    assert (C : forall s, flowControl ST ctrl reg ctlFunction (redirectNode (VMap r) (mkNode (VMap mn) emptyAnn sr None None) None) und (withScope mn env) s
       = Ret (mkNode (VMap r) emptyAnn sr None None) s).
    { intro s3. unfold flowControl, getControl. replace (val (redirectNode (VMap r) (mkNode (VMap mn) emptyAnn sr None None) None)) with (VMap r) by reflexivity.
      assert (Q2 : quietMap (r ++ und)) by (apply quiet_app; (eapply incl_quiet; [exact Ko|]); [exact I2|intros y Y; apply In0, H3, Y]).
      destruct ctrl; [|reflexivity]. destruct (quiet_scan reg _ Q2 []) as [f Ef]. rewrite Ef. reflexivity. }
    rewrite C in E. assert (n' = mkNode (VMap r) emptyAnn sr None None) as -> by (inversion E; reflexivity).
    apply (st_way true p m r sr s0); try assumption.
    + intros k O. pose proof (On k O) as I. apply in_map_iff in I. destruct I as ([k' c] & <- & I). cbn [fst] in *. destruct (H5 k' c O I) as (c' & G & _). exact (mget_Some_key _ _ _ G).
    + intros k c O G. pose proof (On k O) as I. apply in_map_iff in I. destruct I as ([k' c0] & <- & I). cbn [fst] in *. destruct (H5 k' c0 O I) as (c' & G' & S'). rewrite G in G'. injection G' as <-. exact S'.
Qed.

(** ** the whole processing *)
Lemma mget_mapsnd : forall (f : node -> node) k (m : smap node), mget k (map (fun kv => match kv with (k, e) => (k, f e) end) m) = match mget k m with Some c => Some (f c) | None => None end.
Proof. intros f k m. induction m as [|[k' c] m IH]; [reflexivity|]. cbn. destruct (String.eqb k k'); [reflexivity|exact IH]. Qed.
Lemma keys_mapsnd : forall (f : node -> node) (m : smap node), map fst (map (fun kv => match kv with (k, e) => (k, f e) end) m) = map fst m.
Proof. intros f m. induction m as [|[k c] m IH]; [reflexivity|]. cbn. now rewrite IH. Qed.
Lemma sorted_mapsnd : forall (f : node -> node) (m : smap node), msorted m -> msorted (map (fun kv => match kv with (k, e) => (k, f e) end) m).
Proof. intros f m. induction m as [|[k c] m IH]; [auto|]. intros [H1 H2]. cbn. rewrite keys_mapsnd. auto. Qed.
Lemma state_resolver : forall f p n, state true p n -> state true p (mapHere (mapResolver f) n).
Proof.
  intros f p n A. induction A as [p d e G|p x a s G H GX PA|p m mn s s0 W AD Ko So In0 On St IH]; [discriminate G|now apply st_expr|].
  cbn [mapHere]. apply (st_way true p m _ s s0); try assumption; [now apply sorted_mapsnd|now rewrite keys_mapsnd|intros k O; rewrite keys_mapsnd; now apply On|].
  intros k c O G. rewrite mget_mapsnd in G. destruct (mget k mn) as [c0|] eqn:E; [|discriminate]. injection G as <-. now apply IH.
Qed.
Lemma state_below : forall f n, on [] -> state true [] n -> state true [] (mapBelow (mapResolver f) n).
Proof.
  intros f n O A. inversion A as [p d e G|p x a s G H GX PA|p m mn s s0 W AD Ko So In0 On St]; subst; [discriminate G|exact A|]. exact (state_resolver f _ _ A).
Qed.
Lemma deep_get : forall k (m m' : smap node) c, tree_eqb (encV (VMap m)) (encV (VMap m')) = true -> mget k m = Some c -> exists c', mget k m' = Some c' /\ deepEqN c c' = true.
Proof.
  intros k m. induction m as [|[k1 c1] m IH]; intros m' c E G; [discriminate|]. destruct m' as [|[k2 c2] m']; [cbn [encV map] in E; rewrite tree_eqb_TN in E; cbn in E; discriminate|].
  cbn [encV map] in E. rewrite tree_eqb_TN in E. cbn [Z.eqb Pos.eqb andb] in E. rewrite trees_cons in E. apply andb_true_iff in E. destruct E as [E1 E2].
  rewrite tree_eqb_TN, !trees_cons in E1. rewrite !andb_true_iff in E1. destruct E1 as (_ & EK & E1 & _).
  assert (k1 = k2) as -> by (cbn [tree_eqb] in EK; now apply String.eqb_eq in EK). cbn [mget] in *. destruct (String.eqb k k2).
  - injection G as <-. eauto.
  - apply IH; [|exact G]. cbn [encV]. rewrite tree_eqb_TN. exact E2.
Qed.
Lemma deep_val : forall n n', deepEqN n n' = true -> tree_eqb (encV (val n)) (encV (val n')) = true.
Proof.
  intros [v a s t r] [v' a' s' t' r'] H. unfold deepEqN in H. cbn [encN val] in *. rewrite tree_eqb_TN, trees_cons in H.
  rewrite !andb_true_iff in H. exact (proj1 (proj2 H)).
Qed.
(** the texts are read in the first round *)
Lemma changes : forall r p n n', K (p ++ r) -> state false p n -> state true p n' -> deepEqN n n' = true -> False.
Proof.
  induction r as [|k r IH]; intros p n n' H A B E; apply deep_val in E.
  - rewrite app_nil_r in H. inversion A as [p0 d e _ _ _ (t & s & sub & -> & _) _|p0 x a s G|p0 m mn s s0 W]; subst; [|discriminate G|exact (apart p H W)].
    inversion B as [p0 d e0 G|p0 x a s1 _ _ _ _|p0 m mn s1 s0 W]; subst; [discriminate G| |exact (apart p H W)]. cbn [val encV] in E. rewrite tree_eqb_TN in E. discriminate E.
  - assert (W : way p) by (exists k, r; exact H). assert (H' : K ((p ++ [k]) ++ r)) by (rewrite <- app_assoc; exact H).
    assert (O : on (p ++ [k])) by (destruct r as [|k' r]; [left; now rewrite app_nil_r in H'|right; exists k', r; exact H']).
    inversion A as [p0 d e _ KP _ _ _|p0 x a s G|p0 m mn s s0 _ _ _ _ _ On St]; subst; [exact (apart p KP W)|discriminate G|].
    inversion B as [p0 d e0 G|p0 x a s1 _ KP _ _|p0 m' mn' s1 s0' _ _ _ _ _ On' St']; subst; [discriminate G|exact (apart p KP W)|].
    cbn [val] in E. destruct (key_mget k mn (On k O)) as (c & G). destruct (deep_get k _ _ _ E G) as (c' & G' & E').
    eapply (IH (p ++ [k])); [exact H'|exact (St k c O G)|exact (St' k c' O G')|exact E'].
Qed.
Hypothesis SOME : exists p, K p.
Lemma on_root : on [].
Proof. destruct SOME as ([|k p] & H); [now left|right; exists k, p; exact H]. Qed.
Lemma loop_step : forall g fuel k n e s r s', state g [] n -> here e -> b_scopes e = [] -> LOOP fuel (S k) D n e true s = Ret r s' ->
  exists n' s1, state true [] n' /\ (if deepEqN n n' then Ret n s1 else LOOP fuel k D n' e true s1) = Ret r s'.
Proof.
  intros g fuel k n e s r s' A L BS E. cbn [flowLoop] in E.
  assert (VD : match val D with VList l => withListScope l e | _ => e end = e).
  { pose proof on_root as O. assert (X : exists x, part D [] x /\ forall l, val x <> VList l).
    { destruct O as [H|(k0 & r0 & H)]; [destruct (KT _ H) as (d & e0 & B & (t & s0 & sub & -> & _) & _)|destruct (KW _ _ _ H) as (m & s0 & B & _)]; (eexists; split; [exact B|discriminate]). }
    destruct X as (x & X & NL). assert (x = D) as -> by (inversion X; reflexivity). destruct (val D) eqn:V; try reflexivity. now edestruct NL. }
  rewrite VD in E. unfold flow, bind in E. destruct (T (F fuel) n e true false s) as [n1 s1| |] eqn:E1; [|discriminate|discriminate].
  assert (A1 : state true [] n1).
  { unfold tagged, bind in E1. destruct (F fuel n e true false s) as [n2 s2| |] eqn:E2; [|discriminate|discriminate].
    assert (S2 : state true [] n2) by (eapply round; [exact A| |exact L|exact E2]; rewrite BS; constructor).
    pose proof (state_quiet _ _ _ S2) as [Q1 _]. rewrite Q1 in E1. cbn [String.eqb negb] in E1. rewrite Bool.andb_false_r in E1. inversion E1; subst. exact S2. }
  pose proof (state_quiet _ _ _ A1) as [_ Q2]. rewrite Q2 in E. exists (updateBinding ctrl n1), s1. split; [apply state_below; [apply on_root|exact A1]|].
  destruct (deepEqN n (updateBinding ctrl n1)); exact E.
Qed.
Lemma loop_stuck : forall rounds fuel n e s r s', state true [] n -> here e -> b_scopes e = [] -> LOOP fuel rounds D n e true s = Ret r s' -> state true [] r.
Proof.
  induction rounds as [|k IH]; intros fuel n e s r s' A L BS E; [discriminate|].
  destruct (loop_step true _ _ _ _ _ _ _ A L BS E) as (n' & s1 & A' & E'). destruct (deepEqN n n'); [inversion E'; subst; exact A|]. eapply IH; eassumption.
Qed.
Lemma loop_first : forall rounds fuel e s r s', here e -> b_scopes e = [] -> LOOP fuel rounds D D e true s = Ret r s' -> state true [] r.
Proof.
  intros [|k] fuel e s r s' L BS E; [discriminate|]. pose proof (start_state [] D on_root (part_here D)) as A.
  destruct (loop_step false _ _ _ _ _ _ _ A L BS E) as (n' & s1 & A' & E'). destruct (deepEqN D n') eqn:Q; [|eapply loop_stuck; eassumption].
  exfalso. destruct SOME as (p & H). exact (changes p [] D n' H A A' Q).
Qed.
Lemma state_at : forall r p n, state true p n -> K (p ++ r) -> exists c x, occurs n r c /\ part n r c /\ val c = VExpr x.
Proof.
  induction r as [|k r IH]; intros p n A H.
  - rewrite app_nil_r in H. inversion A as [p0 d e G|p0 x a s _ _ _ _|p0 m mn s s0 W]; subst; [discriminate G| |destruct (apart p H W)].
    do 2 eexists. split; [apply O_here|]. split; [apply part_here|reflexivity].
  - assert (W : way p) by (exists k, r; exact H). assert (H' : K ((p ++ [k]) ++ r)) by (rewrite <- app_assoc; exact H).
    assert (O : on (p ++ [k])) by (destruct r as [|k' r]; [left; now rewrite app_nil_r in H'|right; exists k', r; exact H']).
    inversion A as [p0 d e0 G|p0 x a s1 _ KP _ _|p0 m mn s1 s0' _ _ _ _ _ On St]; subst; [discriminate G|destruct (apart p KP W)|].
    destruct (key_mget k mn (On k O)) as (c & G). destruct (IH _ _ (St k c O G) H') as (d & x & H1 & H2 & H3). apply mget_In in G. exists d, x.
    split; [eapply O_key; [reflexivity|exact G|exact H1]|]. split; [eapply part_key; [reflexivity|exact G|exact H2]|exact H3].
Qed.
Variable parseIssue : string -> issue.
Variables enter leave : ST -> ST.
Lemma nested_stuck : forall fuel rounds outer s n u s', nestedFlow ST interpol ctrl reg parse quote show evaluate setTagX ctlFunction parseIssue enter leave fuel rounds outer D stubs s = Ret (n, u) s' ->
  state true [] n /\ u <> [] /\ forall p, K p -> (exists x, In x u /\ u_ctx x = p /\ exists e, val (u_node x) = VExpr e) /\ exists c e, part n p c /\ val c = VExpr e.
Proof.
  intros fuel rounds outer s n u s' E. unfold nestedFlow, change, bind, envFlow in E. unfold bind in E.
  destruct (LOOP fuel rounds D D (newNested stubs (src D) outer) true (enter s)) as [r s1| |] eqn:EL; [|discriminate|discriminate].
  assert (A : state true [] r) by (eapply loop_first; [| |exact EL]; [split; reflexivity|reflexivity]).
  assert (A' : state true [] (deactivateScopes r)) by (apply state_below; [apply on_root|exact A]).
  unfold ret in E. inversion E; subst. split; [exact A'|].
  assert (X : forall p, K p -> (exists x, In x (findUnresolved (parses parse) parseIssue (deactivateScopes r) []) /\ u_ctx x = p /\ exists e, val (u_node x) = VExpr e) /\ exists c e, part (deactivateScopes r) p c /\ val c = VExpr e).
  { intros p H. destruct (state_at p [] _ A' H) as (c & e & H1 & H2 & H3). split; [|eauto].
    destruct (C04_complete (parses parse) parseIssue (deactivateScopes r) p c H1) as (x & X1 & X2 & X3 & _); [|exists x; split; [exact X1|]; split; [exact X2|]; exists e; congruence].
    unfold openN. left. eauto. }
  split; [|exact X]. destruct SOME as (p & H). destruct (X p H) as [(x & I & _) _]. intro Z. rewrite Z in I. destruct I.
Qed.
End Stuck.
