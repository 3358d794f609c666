(** The merge engine on documents with expressions and plain stubs: rounds, progress and the fixpoint.
    The documents consist of maps and lists; an entry is a plain document or the text of
    an expression.  The evaluation of the expressions is a parameter. *)
From Coq Require Import Lia.
From Verif Require Import Core CoreFacts Str StrFacts DecSpec Interp Find FindFacts EquivFacts PropInterp
  Cleanup Unresolved PropUnresolved DeepEq DeepEqFacts Env Flow FlowSpec FlowFacts FlowPass FlowMerge FlowStable DocSpec.
From Verif Require PropFlow FlowDet.

Section Doc.
Variable ST : Type.
Variables interpol ctrl : bool.
Variable reg : registry.
Variable parse : string -> list string -> list string -> option expr.
Variable quote : string -> string.
Variable show : expr -> string.
Variable evaluate : expr -> binding -> bool -> ST -> res ST (value * info * bool).
Variable setTagX : string -> node -> list string -> bool -> ST -> bool * ST.
Variable ctlFunction : cctx -> binding -> ST -> res ST (node * bool).
Notation plain := (plainDoc ordinaryKey interpol).
Notation F := (flowF ST interpol ctrl reg parse quote show evaluate setTagX ctlFunction).
Notation T := (tagged ST ctrl setTagX).
Notation LOOP := (flowLoop ST interpol ctrl reg parse quote show evaluate setTagX ctlFunction).

Notation text := (DocSpec.text interpol parse quote).
Notation steady := (DocSpec.steady interpol parse quote).
Variable stubs : list node.
Hypothesis SP : Forall plain stubs.
Hypothesis SF : Forall fitsN stubs.
Notation Lk := (lk ctrl stubs).
Notation pass := (passN ctrl stubs).
Notation docS := (DocSpec.docS interpol parse quote ctrl stubs).
Notation docSM := (DocSpec.docSM interpol parse quote ctrl stubs).
Notation docSL := (DocSpec.docSL interpol parse quote ctrl stubs).
(** the stubs have nothing at or below [q] *)
Definition gone (q : list string) : Prop := forall r, Lk (q ++ r) = FNo.
(** another round does not change the data *)
Definition calm (p : list string) (n : node) : Prop :=
  data (pass true p n) = data n /\ pass true p (pass true p n) = pass true p n.
Definition listAnn (a : annotation) : Prop := a = emptyAnn \/ a = injectedAnn.
(** the document and its solution *)
Variables D D' : node.
Hypothesis PD' : plain D'.
Hypothesis FD' : fitsN D'.
(** the order in which the expressions can be evaluated *)
Variable rank : list string -> nat.
(** the expressions that may stand at a position during the processing *)
Variable good : list string -> expr -> Prop.
Hypothesis GT : forall p d e, part D p d -> text d e -> good p e.
Hypothesis GM : forall p l x, ~ good p (EMarker l x).
(** the binding outside *)
Variable outer : option binding.

(** ** the states of the document during the processing *)
Definition pendAnn (a : annotation) : Prop := a = emptyAnn \/ exists i, a = aAddIssue false false i emptyAnn.
(** the parts of the document that are merged as a whole: leaves, and lists that stubs may reach *)
Definition ownShape (p : list string) (d : node) : Prop := (forall m, val d <> VMap m) /\ (gone p -> forall l, val d <> VList l).
(** [ap j p d d' n]: [n] is the state of the node [d] at [p] with the solution [d'] after
    at least [j] rounds: first the texts are read, then the expressions get their values in
    the order of the ranks *)
Inductive ap (j : nat) : list string -> node -> node -> node -> Prop :=
| ap_fresh p d d' : j = 0%nat -> plain d -> fitsN d -> ownShape p d ->
    (gone p /\ sameDoc d d') \/ (okP p /\ steadyLists d /\ sameDoc (pass true p d) d') -> ap j p d d' d
| ap_kept p d d' n : plain d -> ownShape p d -> plain n -> sameDoc n d' -> calm p n -> ap j p d d' n
| ap_raw p d d' e : text d e -> j = 0%nat -> ap j p d d' d
| ap_pend p d d' e x a s : text d e -> good p x -> pendAnn a -> (1 <= j <= S (rank p))%nat -> ap j p d d' (mkNode (VExpr x) a s None None)
| ap_done p d d' e n : text d e -> plain n -> sameDoc n d' -> calm p n -> ap j p d d' n
| ap_map p m m' mn s d' : val d' = VMap m' -> msorted m -> Forall (fun kv => ordinaryKey (fst kv)) m -> apM j p m m' mn ->
    ap j p (mkNode (VMap m) emptyAnn s None None) d' (mkNode (VMap mn) emptyAnn s None None)
| ap_list p l l' ln a s d' : val d' = VList l' -> listAnn a -> Forall steady l -> gone p -> apL j p 0 l l' ln ->
    ap j p (mkNode (VList l) a s None None) d' (mkNode (VList ln) a s None None)
with apM (j : nat) : list string -> smap node -> smap node -> smap node -> Prop :=
| apM_nil p : apM j p [] [] []
| apM_cons p k x m x' m' n mn : ap j (p ++ [k]) x x' n -> apM j p m m' mn -> apM j p ((k, x) :: m) ((k, x') :: m') ((k, n) :: mn)
with apL (j : nat) : list string -> nat -> list node -> list node -> list node -> Prop :=
| apL_nil p i : apL j p i [] [] []
| apL_cons p i x l x' l' n ln : ap j (p ++ [idx (Z.of_nat i)]) x x' n -> apL j p (S i) l l' ln -> apL j p i (x :: l) (x' :: l') (n :: ln).
Scheme ap_mind := Minimality for ap Sort Prop with apM_mind := Minimality for apM Sort Prop with apL_mind := Minimality for apL Sort Prop.
Combined Scheme ap_mut from ap_mind, apM_mind, apL_mind.

(** [encl j p ss]: the scopes around the position [p] *)
Inductive encl (j : nat) : list string -> list scope -> Prop :=
| en_root : encl j [] []
| en_map p k m m' mn d d' sc ss : encl j p ss -> part D p d -> part D' p d' -> val d = VMap m -> val d' = VMap m' -> apM j p m m' mn ->
    sc_local sc = Some mn -> encl j (p ++ [k]) (sc :: ss)
| en_list p i l d ss : encl j p ss -> part D p d -> val d = VList l -> encl j (p ++ [idx (Z.of_nat i)]) ss.
(** no information but an issue *)
Definition plainInfo (i : info) : Prop :=
  f_redirect i = None /\ f_replace i = false /\ f_merged i = false /\ f_preferred i = false /\ f_keyName i = "" /\
  f_failed i = false /\ f_undefined i = false /\ f_flags i = 0%N.
(** an expression is evaluated to the value of the solution, or it is undecided; the
    latter is not possible if the expressions of lower rank have values.  If the stubs define
    the field, any value will do, and the evaluation may fail *)
Hypothesis EV : forall j p b d d' e x s, (1 <= j)%nat -> part D p d -> text d e -> part D' p d' -> good p x -> encl j p (b_scopes b) -> b_outer b = outer ->
  exists v i ok, evaluate x b false s = Ret (v, i, ok) s /\ f_replace i = false /\ f_flags i = 0%N /\
    ((ok = true /\ plainInfo i /\ exists x', v = VExpr x' /\ good p x' /\ (j <= rank p)%nat) \/
     (ok = true /\ plainInfo i /\ i_text (f_issue i) = "" /\ forall sr, plain (mkNode v emptyAnn sr None None) /\ (gone p -> sameDoc (mkNode v emptyAnn sr None None) d')) \/
     (ok = false /\ exists w, Lk p = FOk w)).
Hypothesis SV : forall p d e d' w, part D p d -> text d e -> part D' p d' -> Lk p = FOk w -> sameDoc w d'.

(** ** facts about plain documents that depend on the data only *)
Lemma fits_data : forall n n', data n = data n' -> fitsN n' -> fitsN n.
Proof.
  induction n as [v a s t r IH] using node_ind'. intros [v' a' s' t' r'] E Fi. cbn [data] in E. injection E as E.
  destruct v, v'; try discriminate E; try exact Logic.I.
  - injection E as E. apply fits_list in Fi. destruct Fi as [F1 F2]. apply fits_list. cbn in IH. split.
    + rewrite <- (map_length data), E, map_length. exact F1.
    + revert l0 E F1 F2. induction l as [|x l IHl]; intros [|y l0] E F1 F2; try discriminate E; [constructor|].
      cbn in E. injection E as E1 E2. inversion IH; subst. inversion F2; subst. constructor; [eauto|].
      apply (IHl H2 l0); try assumption. cbn [length] in F1. lia.
  - injection E as E. apply fits_map in Fi. apply fits_map. cbn in IH.
    revert m0 E Fi. induction m as [|[k x] m IHm]; intros [|[k' y] m0] E Fi; try discriminate E; [constructor|].
    cbn in E. injection E as _ E1 E2. inversion IH; subst. inversion Fi; subst. cbn [snd] in *. constructor; [cbn; eauto|].
    now apply (IHm H2 m0).
Qed.
Lemma depth_data : forall n n', data n = data n' -> depth n = depth n'.
Proof.
  induction n as [v a s t r IH] using node_ind'. intros [v' a' s' t' r'] E. cbn [data] in E. injection E as E.
  destruct v, v'; try discriminate E; try reflexivity.
  - injection E as E. cbn [depth]. f_equal. cbn in IH. revert l0 E.
    induction l as [|x l IHl]; intros [|y l0] E; try discriminate E; [reflexivity|]. cbn in E. injection E as E1 E2. inversion IH; subst. f_equal; [auto|].
    now apply IHl.
  - injection E as E. cbn [depth]. f_equal. cbn in IH. revert m0 E.
    induction m as [|[k x] m IHm]; intros [|[k' y] m0] E; try discriminate E; [reflexivity|]. cbn in E. injection E as E0 E1 E2. inversion IH; subst. cbn [snd] in *. f_equal; [auto|].
    now apply IHm.
Qed.
Lemma part_snoc : forall n p c, part n p c -> forall k x, part c [k] x -> part n (p ++ [k]) x.
Proof.
  induction 1 as [n|n m0 k0 c p d V I A IH|n l0 i c p d V I A IH]; intros k x H; cbn [app]; [exact H| |].
  - eapply part_key; [exact V|exact I|eauto].
  - eapply part_index; [exact V|exact I|eauto].
Qed.
Lemma part_field : forall n p c m k x, part n p c -> val c = VMap m -> In (k, x) m -> part n (p ++ [k]) x.
Proof. intros n p c m k x A V I. apply (part_snoc _ _ _ A). eapply part_key; [exact V|exact I|constructor]. Qed.
Lemma part_elem : forall n p c l i x, part n p c -> val c = VList l -> nth_error l i = Some x -> part n (p ++ [idx (Z.of_nat i)]) x.
Proof. intros n p c l i x A V I. apply (part_snoc _ _ _ A). eapply part_index; [exact V|exact I|constructor]. Qed.
Lemma part_plain : forall n p c, part n p c -> plain n -> fitsN n -> plain c /\ fitsN c.
Proof.
  induction 1 as [n|n m0 k0 c p d V I A IH|n l0 i c p d V I A IH]; intros P Fi; [auto| |].
  - destruct (plain_map ordinaryKey interpol n m0 P V) as (_ & _ & Pm). destruct n as [v]. cbn [val] in V. subst v. apply fits_map in Fi.
    rewrite Forall_forall in *. apply IH; [exact (Pm _ I)|exact (Fi _ I)].
  - pose proof (plain_list ordinaryKey interpol n l0 P V) as Pm. destruct n as [v]. cbn [val] in V. subst v. apply fits_list in Fi. destruct Fi as [_ Fi].
    rewrite Forall_forall in *. apply nth_error_In in I. apply IH; [exact (Pm _ I)|exact (Fi _ I)].
Qed.

(** ** the stubs *)
Lemma gone_here : forall p, gone p -> Lk p = FNo.
Proof. intros p G. specialize (G []). now rewrite app_nil_r in G. Qed.
Lemma gone_on : forall p r, gone p -> gone (p ++ r).
Proof. intros p r G r'. rewrite <- app_assoc. apply G. Qed.
Lemma find_more : forall p r n, find false ctrl p n = FNo -> find false ctrl (p ++ r) n = FNo.
Proof. induction p as [|k p IH]; intros r n H; [discriminate H|]. cbn [app find] in *. destruct (nextStep false ctrl k n) as [c| |]; [now apply IH|exact H|exact H]. Qed.
Lemma none_gone : forall p, okP p -> Lk p = FNo -> gone p.
Proof.
  intros p O H r. apply (proj1 (lk_none interpol ctrl stubs SP p O)) in H. unfold lk.
  assert (NF : forall s, In s stubs -> find false ctrl p s = FNo).
  { intros s I. pose proof (find_nopanic ctrl p O s) as NP. destruct (find false ctrl p s) as [v| |] eqn:E; [|reflexivity|congruence]. exfalso. exact (H s v I E). }
  enough (G : forall l, (forall s, In s l -> find false ctrl p s = FNo) -> lookupStubs ctrl l (p ++ r) = FNo) by exact (G stubs NF).
  clear. induction l as [|s l IH]; intro NF; [reflexivity|]. cbn [lookupStubs].
  rewrite (find_more p r s (NF s (or_introl eq_refl))). apply IH. intros s' I. apply NF. now right.
Qed.
Lemma pass_gone : forall n so p, gone p -> pass so p n = n.
Proof.
  induction n as [v a s t r IH] using node_ind'. intros so p G.
  destruct (leaf_dec v) as [L|[[l ->]|[m ->]]].
  - rewrite pass_leaf by exact L. rewrite (gone_here _ G). destruct so; reflexivity.
  - rewrite pass_list, (gone_here _ G). do 2 f_equal. cbn in IH. generalize (uniq l []) as u. generalize 0%Z as i.
    induction l as [|x l IHl]; intros i u; [reflexivity|]. inversion IH; subst. cbn [passL]. f_equal; [|now apply IHl]. match goal with H : forall so p, _ |- _ => apply H end. now apply gone_on.
  - rewrite pass_map. do 2 f_equal. cbn in IH. unfold passM. induction m as [|[k x] m IHm]; [reflexivity|]. inversion IH; subst. cbn [map fst snd] in *. f_equal; [|now apply IHm]. f_equal.
    match goal with H : forall so p, _ |- _ => apply H end. now apply gone_on.
Qed.
(** the environment for the node at [p]: in lists the stubs are looked up elsewhere, but have nothing there *)
Definition here (b : binding) (p : list string) (so : bool) : Prop :=
  b_stubs b = stubs /\ b_nomerge b = false /\ b_outer b = outer /\ ((b_stubPath b = p /\ so = true /\ okP p) \/ (gone p /\ gone (b_stubPath b))).
Lemma here_benv : forall b p so, here b p so -> benv stubs b (b_stubPath b).
Proof. intros b p so (L1 & L2 & _). repeat split; assumption. Qed.
Lemma here_key : forall b p so k m, here b p so -> ordinaryKey k -> here (withPath k (withScope m b)) (p ++ [k]) true.
Proof.
  intros b p so k m (H1 & H2 & H3 & H) K. destruct b. split; [exact H1|]. split; [exact H2|]. split; [exact H3|]. cbn in *. destruct H as [(<- & _ & O)|[G1 G2]].
  - left. split; [reflexivity|]. split; [reflexivity|]. apply okP_app; [exact O|now apply ok_ordinary].
  - right. split; now apply gone_on.
Qed.
Lemma here_gone : forall b p so, here b p so -> gone p -> gone (b_stubPath b).
Proof. intros b p so (_ & _ & _ & [(-> & _)|[_ G]]) G'; assumption. Qed.
Lemma here_elem : forall b p so k st so', here b p so -> gone p -> here (withPath st b) (p ++ [k]) so'.
Proof.
  intros b p so k st so' H G. pose proof (here_gone _ _ _ H G) as G'. destruct H as (H1 & H2 & H3 & _). destruct b. split; [exact H1|]. split; [exact H2|]. split; [exact H3|].
  right. split; [now apply gone_on|]. cbn. now apply gone_on.
Qed.
Lemma plain_round : forall fuel n env p so s, plain n -> fitsN n -> (depth n <= fuel)%nat -> here env p so ->
  exists n', F fuel n env so false s = Ret n' s /\ ((gone p /\ n' = n) \/ (okP p /\ n' = pass true p n)).
Proof.
  intros fuel n env p so s P Fi Dp H. pose proof (here_benv _ _ _ H) as B. destruct H as (_ & _ & _ & [(E & -> & O)|[G1 G2]]).
  - exists (pass true p n). split; [|right; auto]. rewrite E in B.
    apply (flowF_plain ST interpol ctrl reg parse quote show evaluate setTagX ctlFunction ordinaryKey ordinary_quiet stubs SP okP
      (lk_nopanic interpol ctrl stubs SP SF) (fun q k O0 K0 => okP_app q k O0 (ok_ordinary k K0)) (fun q i O0 I0 => okP_app q (idx i) O0 (ok_index i I0)) (fun q x O0 => okP_app q _ O0 (ok_named x))); assumption.
  - exists n. split; [|left; auto].
    rewrite (flowF_plain ST interpol ctrl reg parse quote show evaluate setTagX ctlFunction ordinaryKey ordinary_quiet stubs SP gone) with (p := b_stubPath env); try assumption.
    + now rewrite pass_gone.
    + intros q G. pose proof (gone_here _ G) as E. unfold lk in E. rewrite E. discriminate.
    + intros q k G _. now apply gone_on.
    + intros q i G _. now apply gone_on.
    + intros q x G. now apply gone_on.
Qed.
Lemma calm_gone : forall p n, gone p -> calm p n.
Proof. intros p n G. unfold calm. rewrite !(pass_gone _ _ _ G). auto. Qed.
Lemma calm_stable : forall p n, okP p -> stable ctrl stubs true p n -> calm p n.
Proof. intros p n O S. now apply (stable_pass ctrl stubs). Qed.
Lemma kept_round : forall fuel n env p so s d', plain n -> fitsN d' -> sameDoc n d' -> calm p n -> (depth d' <= fuel)%nat -> here env p so ->
  exists n', F fuel n env so false s = Ret n' s /\ plain n' /\ sameDoc n' d' /\ calm p n'.
Proof.
  intros fuel n env p so s d' P Fi Sd C Dp H.
  destruct (plain_round fuel n env p so s P (fits_data _ _ Sd Fi) ltac:(rewrite (depth_data _ _ Sd); exact Dp) H) as (n' & E & [[G ->]|[O ->]]).
  - exists n. split; [exact E|]. split; [exact P|]. split; [exact Sd|exact C].
  - exists (pass true p n). split; [exact E|]. split; [apply (pass_plain interpol ctrl ordinaryKey stubs SP), P|]. destruct C as [C1 C2]. split; [unfold sameDoc in *; congruence|].
    unfold calm. rewrite C2. auto.
Qed.
Lemma fresh_round : forall fuel d env p so s d', plain d -> fitsN d -> (gone p /\ sameDoc d d') \/ (okP p /\ steadyLists d /\ sameDoc (pass true p d) d') ->
  (depth d <= fuel)%nat -> here env p so -> exists n', F fuel d env so false s = Ret n' s /\ plain n' /\ sameDoc n' d' /\ calm p n'.
Proof.
  intros fuel d env p so s d' P Fi X Dp H. destruct (plain_round fuel d env p so s P Fi Dp H) as (n' & E & Y). exists n'. split; [exact E|].
  destruct X as [[G Sd]|(O & St & Sd)].
  - assert (n' = d) by (destruct Y as [[_ Y]|[_ Y]]; [exact Y|rewrite Y; now apply pass_gone]). subst n'. split; [exact P|]. split; [exact Sd|now apply calm_gone].
  - assert (n' = pass true p d) by (destruct Y as [[G Y]|[_ Y]]; [rewrite Y; symmetry; now apply pass_gone|exact Y]). subst n'.
    split; [apply (pass_plain interpol ctrl ordinaryKey stubs SP), P|]. split; [exact Sd|]. apply calm_stable; [exact O|]. now apply (stable_first interpol ctrl stubs SP SF).
Qed.
(** what the stubs make of a value, resp. of a failed expression *)
Lemma over_value : forall n env p so fl s, here env p so -> a_flags (ann n) = 0%N -> standardOverride n = true -> fOverridden fl = 0%N ->
  override ST ctrl n env so fl false None false "" s = Ret (if so then match Lk p with FOk w => w | _ => n end else n) s.
Proof.
  intros n env p so fl s H A SO FO. unfold override. rewrite SO. destruct H as (H1 & H2 & _ & H). rewrite H2. destruct so; cbn [negb andb]; [|reflexivity].
  unfold bind, lookupM, findInStubs. rewrite H1. fold (Lk (b_stubPath env)).
  assert (E : Lk (b_stubPath env) = Lk p) by (destruct H as [(-> & _)|[G1 G2]]; [reflexivity|now rewrite (gone_here _ G1), (gone_here _ G2)]). rewrite E.
  assert (NP : Lk p <> FPanic) by (destruct H as [(_ & _ & O)|[G _]]; [now apply (lk_nopanic interpol ctrl stubs SP SF)|rewrite (gone_here _ G); discriminate]).
  destruct (Lk p) as [w| |] eqn:El; [|reflexivity|congruence].
  assert (P : plain w) by (eapply (plain_lk interpol ctrl stubs SP); exact El).
  assert (Dw : fDefault (nflags w) = false) by (unfold nflags; destruct (plain_ann ordinaryKey interpol w P) as [-> | ->]; reflexivity).
  unfold ret at 1. cbv beta iota. rewrite Dw. unfold nflags. rewrite A. change (fInjected 0%N) with false. cbn [negb andb]. rewrite FO, (plain_subst interpol ordinaryKey w P). cbn [String.eqb]. rewrite addFlags0. reflexivity.
Qed.
Lemma taken : forall p d e d' w, part D p d -> text d e -> part D' p d' -> okP p -> Lk p = FOk w -> plain w /\ sameDoc w d' /\ calm p w.
Proof.
  intros p d e d' w AD TX AD' O E. split; [eapply (plain_lk interpol ctrl stubs SP); exact E|]. split; [eapply SV; eassumption|].
  apply calm_stable; [exact O|]. apply (stable_self interpol ctrl stubs SP SF); try assumption; [eapply (plain_lk interpol ctrl stubs SP); exact E|eapply (fits_lk ctrl stubs SF); exact E].
Qed.

(** ** one round *)
Definition quietAnn (n : node) : Prop := a_tag (ann n) = "" /\ a_undefined (ann n) = false.
Lemma pend_quiet : forall v a s, pendAnn a -> quietAnn (mkNode v a s None None).
Proof. intros v a s [-> |[i ->]]; split; reflexivity. Qed.
Lemma ap_quiet : forall j p d d' n, ap j p d d' n -> quietAnn n.
Proof.
  intros j p d d' n A. destruct A as [p d d' _ P _ _ _|p d d' n _ _ P _ _|p d d' e TX _|p d d' e x a s _ _ PA _|p d d' e n _ P _ _|p m m' mn s d' _ _ _ _|p l l' ln a s d' _ LA _ _ _].
  - destruct (plain_tag _ _ _ P) as (H1 & H2 & _). now split.
  - destruct (plain_tag _ _ _ P) as (H1 & H2 & _). now split.
  - destruct TX as (t & s & sub & -> & _). split; reflexivity.
  - now apply pend_quiet.
  - destruct (plain_tag _ _ _ P) as (H1 & H2 & _). now split.
  - split; reflexivity.
  - destruct LA as [-> | ->]; split; reflexivity.
Qed.
Lemma tagged_quiet : forall rec n env so et s n', rec n env so et s = Ret n' s -> quietAnn n' -> T rec n env so et s = Ret n' s.
Proof.
  intros rec n env so et s n' H [Q _]. unfold tagged, bind. rewrite H, Q. cbn [String.eqb negb]. rewrite Bool.andb_false_r. reflexivity.
Qed.
(** an expression node *)
Lemma expr_round : forall j p d d' e x a sr env so s rec, (1 <= j)%nat -> part D p d -> text d e -> part D' p d' -> good p x -> encl j p (b_scopes env) -> here env p so -> pendAnn a ->
  exists n', flowNode ST interpol ctrl reg parse quote show evaluate setTagX ctlFunction rec (mkNode (VExpr x) a sr None None) env so false s = Ret n' s /\ ap (S j) p d d' n'.
Proof.
  intros j p d d' e x a sr env so s rec J AD TX AD' GX EN L PA.
  assert (NM : forall l y, x <> EMarker l y) by (intros l y ->; now apply GM in GX).
  assert (AA : a_redirect a = None /\ a_replace a = false /\ a_merged a = false /\ a_tag a = "" /\ a_flags a = 0%N /\ a_preferred a = false /\ a_keyName a = "")
    by (destruct PA as [-> |[i ->]]; repeat split; reflexivity).
  destruct AA as (A1 & A2 & A3 & A4 & A5 & A6 & A7).
  unfold flowNode. cbn [ann val isExpr negb andb]. rewrite A1, A2. unfold flowExpr. cbn [src ann nflags tmpl]. 
  replace (asTemplate x false) with (@None marker) by (destruct x; try reflexivity; now edestruct NM).
  set (env1 := if String.eqb sr (b_source env) then env else withSource sr env).
  assert (EN1 : encl j p (b_scopes env1)) by (unfold env1; destruct (String.eqb sr (b_source env)), env; exact EN).
  assert (BO : b_outer env1 = outer) by (destruct L as (_ & _ & L & _); unfold env1; destruct (String.eqb sr (b_source env)), env; exact L).
  destruct (EV j p env1 d d' e x s J AD TX AD' GX EN1 BO) as (v & i & ok & Ev & I2 & I8 & Vv).
  unfold bind. rewrite Ev.
  rewrite I8. unfold nflags. cbn [ann]. rewrite A5. change (N.lor 0 0) with 0%N. change (fDynamic 0%N) with false. cbn [andb negb].
  rewrite I2, A2. cbn [orb]. rewrite Bool.andb_true_r.
  destruct Vv as [(-> & PI & Vv)|[(-> & PI & Vv)|(-> & w & Lw)]]; cbn [negb]; cbv iota.
  3: { rewrite A1, A3, A7.
    assert (SR : so = true /\ okP p) by (destruct L as (_ & _ & _ & [(_ & -> & O)|[G _]]); [auto|rewrite (gone_here _ G) in Lw; discriminate]). destruct SR as [-> O]. cbn [negb].
    assert (QA : a_flags (ann (issueNode env1 (mkNode (VExpr x) a sr None None) true false (f_issue i))) = 0%N /\ standardOverride (issueNode env1 (mkNode (VExpr x) a sr None None) true false (f_issue i)) = true)
      by (destruct PA as [-> |[i0 ->]]; split; reflexivity).
    cbn [tmpl]. cbv beta iota. rewrite (over_value _ env p true 0%N s L (proj1 QA) (proj2 QA) eq_refl), Lw.
    exists w. split; [reflexivity|]. destruct (taken _ _ _ _ _ AD TX AD' O Lw) as (T1 & T2 & T3). now apply (ap_done _ _ _ _ e). }
  - destruct PI as (I1 & _ & I3 & I4 & I5 & I6 & I7 & _). unfold resultNode. rewrite I7, I4, A6, I5, A7, I1, A1, I3, A3, I6. cbn [String.eqb orb src ann]. rewrite A4.
    assert (UP : forall n, updateNode n 0%N "" = n) by (intro n; unfold updateNode; cbn [N.lor]; rewrite N.eqb_refl; reflexivity).
    cbn [tmpl]. cbv beta iota. rewrite !UP.
    set (sr1 := if String.eqb (f_source i) "" then sr else f_source i).
    destruct Vv as (x' & -> & GX' & RK).
    assert (G : exists a', pendAnn a' /\ (if String.eqb (i_text (f_issue i)) "" then newNode (VExpr x') sr1 else issueNode env1 (newNode (VExpr x') sr1) false false (f_issue i)) = mkNode (VExpr x') a' sr1 None None).
    { destruct (String.eqb (i_text (f_issue i)) ""); [exists emptyAnn; split; [now left|reflexivity]|]. eexists. split; [|reflexivity]. right. eexists. reflexivity. }
    destruct G as (a' & PA' & G). rewrite G. cbn [val isExpr orb].
    eexists. split; [reflexivity|]. apply (ap_pend _ _ _ _ e); [exact TX|exact GX'|exact PA'|lia].
  - destruct PI as (I1 & _ & I3 & I4 & I5 & I6 & I7 & _). unfold resultNode. rewrite I7, I4, A6, I5, A7, I1, A1, I3, A3, I6. cbn [String.eqb orb src ann]. rewrite A4.
    assert (UP : forall n, updateNode n 0%N "" = n) by (intro n; unfold updateNode; cbn [N.lor]; rewrite N.eqb_refl; reflexivity).
    cbn [tmpl]. cbv beta iota. rewrite !UP.
    set (sr1 := if String.eqb (f_source i) "" then sr else f_source i).
    destruct Vv as [IT Vv]. rewrite IT. cbn [String.eqb]. destruct (Vv sr1) as [Pv Sv].
    assert (G : (match v with VStr _ => flowString interpol parse quote (newNode v sr1) env1 | _ => newNode v sr1 end) = mkNode v emptyAnn sr1 None None).
    { inversion Pv as [v0 s0 Lf|l0 a0 s0 _ _|m0 s0 _ _ _]; subst; try reflexivity. destruct Lf as [| | | |t Ht]; try reflexivity.
      unfold flowString. rewrite (literal_embedded quote interpol (newNode (VStr t) sr1) t eq_refl Ht). reflexivity. }
    rewrite G. cbn [ann val a_merged emptyAnn a_preferred a_replace].
    assert (IE : isExpr v = false) by (inversion Pv as [v0 s0 Lf|l0 a0 s0 _ _|m0 s0 _ _ _]; subst; try reflexivity; destruct Lf; reflexivity).
    rewrite IE. cbn [orb].
    assert (R : (if negb so || false then ret ST (mkNode v emptyAnn sr1 None None) else override ST ctrl (mkNode v emptyAnn sr1 None None) env so 0%N false None false "") s
      = Ret (if so then match Lk p with FOk w => w | _ => mkNode v emptyAnn sr1 None None end else mkNode v emptyAnn sr1 None None) s).
    { destruct so; cbn [negb orb]; [|reflexivity]. now apply (over_value _ env p true 0%N s L). }
    rewrite R. eexists. split; [reflexivity|]. destruct L as (_ & _ & _ & [(_ & -> & O)|[Gp _]]).
    + destruct (Lk p) as [w| |] eqn:El.
      * destruct (taken _ _ _ _ _ AD TX AD' O El) as (T1 & T2 & T3). now apply (ap_done _ _ _ _ e).
      * pose proof (none_gone _ O El) as Gp. apply (ap_done _ _ _ _ e); [exact TX|exact Pv|now apply Sv|now apply calm_gone].
      * exfalso. now apply (lk_nopanic interpol ctrl stubs SP SF p O).
    + rewrite (gone_here _ Gp). assert (GG : (if so then mkNode v emptyAnn sr1 None None else mkNode v emptyAnn sr1 None None) = mkNode v emptyAnn sr1 None None) by (destruct so; reflexivity). rewrite GG.
      apply (ap_done _ _ _ _ e); [exact TX|exact Pv|now apply Sv|now apply calm_gone].
Qed.
Lemma apM_keys : forall j p m m' mn, apM j p m m' mn -> map fst mn = map fst m /\ map fst m' = map fst m.
Proof. intros j p m m' mn A. induction A as [|? ? ? ? ? ? ? ? _ _ [E1 E2]]; [auto|]. cbn. split; congruence. Qed.
Lemma keys_quiet : forall (m mm : smap node), Forall (fun kv => ordinaryKey (fst kv)) m -> map fst mm = map fst m -> quietMap mm.
Proof.
  intros m mm Ko E. unfold quietMap. apply (Forall_map fst). rewrite E. apply Forall_map. eapply Forall_impl; [|exact Ko]. intros kv H. apply H.
Qed.
Lemma plain_noexpr : forall n e, plain n -> val n <> VExpr e.
Proof. intros n e P V. inversion P as [v s Lf| |]; subst; cbn in V; try discriminate. subst v. inversion Lf. Qed.
(** the maps among the states *)
Lemma ap_vmap : forall j p d d' n mn, ap j p d d' n -> val n = VMap mn -> quietMap mn.
Proof.
  intros j p d d' n mn A. destruct A as [p d d' _ P _ _ _|p d d' n _ _ P _ _|p d d' e TX _|p d d' e x a s _ _ PA _|p d d' e n _ P _ _|p m m' mn0 s d' _ _ Ko A|p l l' ln a s d' _ LA _ _ _]; intro V.
  - apply (K_quiet ordinaryKey ordinary_quiet). apply (plain_map ordinaryKey interpol _ _ P V).
  - apply (K_quiet ordinaryKey ordinary_quiet). apply (plain_map ordinaryKey interpol _ _ P V).
  - destruct TX as (t & s & sub & -> & _). discriminate.
  - discriminate.
  - apply (K_quiet ordinaryKey ordinary_quiet). apply (plain_map ordinaryKey interpol _ _ P V).
  - cbn in V. injection V as <-. eapply keys_quiet; [exact Ko|]. apply (apM_keys _ _ _ _ _ A).
  - discriminate.
Qed.
Lemma apM_get : forall j p m m' mn k n, apM j p m m' mn -> In (k, n) mn -> exists x x', In (k, x) m /\ In (k, x') m' /\ ap j (p ++ [k]) x x' n.
Proof.
  intros j p m m' mn k n A. induction A as [|p k0 x m x' m' n0 mn B A IH]; intro I; [destruct I|]. destruct I as [I|I].
  - injection I as -> ->. exists x, x'. split; [now left|]. split; [now left|exact B].
  - destruct (IH I) as (y & y' & I1 & I2 & H). exists y, y'. split; [now right|]. split; [now right|exact H].
Qed.
Lemma ap_exprText : forall j p d d' n e0, ap j p d d' n -> val n = VExpr e0 -> exists e, text d e.
Proof.
  intros j p d d' n e0 A. destruct A as [p d d' _ P _ _ _|p d d' n _ _ P _ _|p d d' e TX _|p d d' e x a s TX _ PA _|p d d' e n TX P _ _|p m m' mn0 s d' _ _ Ko A|p l l' ln a s d' _ LA _ _ _]; intro V.
  - exfalso. eapply plain_noexpr; eassumption.
  - exfalso. eapply plain_noexpr; eassumption.
  - eauto.
  - eauto.
  - eauto.
  - discriminate.
  - discriminate.
Qed.
(** ** the elements of a list *)
Lemma keyed_map : forall raw (l : list node) k v c, findKeyed raw ctrl l k v = FOk c -> exists m, val c = VMap m.
Proof.
  intros raw l k v c. induction l as [|n l IH]; cbn; [discriminate|]. unfold keyField. destruct (val n) eqn:V; try exact IH.
  destruct (raw || mapResolved ctrl m); [|exact IH]. destruct (mget k m) as [y|]; [|exact IH]. destruct (val y); try exact IH.
  destruct (String.eqb s v); [|exact IH]. intro E. injection E as <-. eauto.
Qed.
Lemma ap_name : forall j p d d' n, ap j p d d' n -> steady d ->
  match find true ctrl ["name"] n with FOk c => isExpr (val c) = false | FNo => True | FPanic => False end.
Proof.
  intros j p d d' n A St.
  assert (LL : forall l, match stepList true ctrl l "name" "" with FOk c => isExpr (val c) = false | FNo => True | FPanic => False end).
  { intro l. unfold stepList. replace (stepIndex "name") with (@None (option Z)) by reflexivity. change (stepKey "" "name") with ("name", "name"). cbv iota beta.
    destruct (findKeyed true ctrl l "name" "name") as [c| |] eqn:Fk; [|exact Logic.I|].
    - destruct (keyed_map _ _ _ _ _ Fk) as (m & ->). reflexivity.
    - exfalso. clear -Fk. induction l as [|y l IH]; cbn in Fk; [discriminate|]. destruct (keyField true ctrl "name" y); [destruct (String.eqb _ _); [discriminate|]|]; auto. }
  cbn [find]. unfold nextStep.
  destruct (val n) eqn:V; try exact Logic.I.
  - cbn [orb].
    assert (KN : a_keyName (ann n) = "").
    { destruct A as [p d d' _ P _ _ _|p d d' n _ _ P _ _|p d d' e TX _|p d d' e x a s TX _ PA _|p d d' e n TX P _ _|p m m' mn0 s d' _ _ Ko A|p l0 l' ln a s d' _ LA _ _ _]; try discriminate V.
      - destruct (plain_ann _ _ _ P) as [-> | ->]; reflexivity.
      - destruct (plain_ann _ _ _ P) as [-> | ->]; reflexivity.
      - destruct TX as (t & s & sub & -> & _). discriminate.
      - destruct (plain_ann _ _ _ P) as [-> | ->]; reflexivity.
      - destruct LA as [-> | ->]; reflexivity. }
    rewrite KN. pose proof (LL l) as H. destruct (stepList true ctrl l "name" ""); exact H.
  - cbn [orb]. destruct (mget "name" m) as [c|] eqn:G; [|exact Logic.I]. apply mget_In in G.
    destruct A as [p d d' _ P _ _ _|p d d' n _ _ P _ _|p d d' e TX _|p d d' e x a s TX _ PA _|p d d' e n TX P _ _|p m0 m' mn0 s d' _ _ Ko A|p l0 l' ln a s d' _ LA _ _ _]; try discriminate V.
    + destruct (plain_map _ _ _ _ P V) as (_ & _ & Pm). rewrite Forall_forall in Pm. specialize (Pm _ G). cbn in Pm.
      destruct (val c) eqn:Vc; try reflexivity. exfalso. eapply plain_noexpr; eassumption.
    + destruct (plain_map _ _ _ _ P V) as (_ & _ & Pm). rewrite Forall_forall in Pm. specialize (Pm _ G). cbn in Pm.
      destruct (val c) eqn:Vc; try reflexivity. exfalso. eapply plain_noexpr; eassumption.
    + destruct TX as (t & s & sub & -> & _). discriminate.
    + destruct (plain_map _ _ _ _ P V) as (_ & _ & Pm). rewrite Forall_forall in Pm. specialize (Pm _ G). cbn in Pm.
      destruct (val c) eqn:Vc; try reflexivity. exfalso. eapply plain_noexpr; eassumption.
    + cbn in V. injection V as ->. destruct (apM_get _ _ _ _ _ _ _ A G) as (y & y' & I1 & _ & B).
      destruct (val c) eqn:Vc; try reflexivity. exfalso. destruct (ap_exprText _ _ _ _ _ _ B Vc) as (e' & TX).
      exact (St m0 y e' eq_refl I1 TX).
Qed.
Lemma stepName_ap : forall rec i j p d d' n env u s, ap j p d d' n -> steady d ->
  exists st k q, stepName ST ctrl setTagX rec i n "" env u s = Ret (st, k, true, q) s.
Proof.
  intros rec i j p d d' n env u s A St. pose proof (ap_name _ _ _ _ _ A St) as H. unfold stepName.
  change (if ("" =? "")%string then "name" else "") with "name".
  destruct (if u then findString false ctrl "name" n else None) as [x|]; [do 3 eexists; reflexivity|].
  destruct (find true ctrl ["name"] n) as [c| |]; [|do 3 eexists; reflexivity|destruct H].
  destruct (val c) eqn:V; try discriminate H; try (do 3 eexists; reflexivity). destruct u; do 3 eexists; reflexivity.
Qed.
Lemma ap_entry : forall j p d d' n, ap j p d d' n -> entryMerge n = None /\ processKeyTag n = (n, "") /\ getControl ctrl reg n [] = CtlNone.
Proof.
  intros j p d d' n A. destruct (val n) eqn:V;
    try (unfold entryMerge, processKeyTag, getControl; rewrite V; repeat split; reflexivity).
  pose proof (ap_vmap _ _ _ _ _ _ A V) as Q. split; [now apply (quiet_entry n m)|]. split; [|now apply (quiet_getControl ctrl reg n m)].
  unfold processKeyTag. rewrite V. rewrite quiet_noTag by exact Q. reflexivity.
Qed.
Lemma apL_each : forall j p i l l' ln, apL j p i l l' ln -> forall P : node -> Prop, (forall q d d' n, ap j q d d' n -> P n) -> Forall P ln.
Proof. intros j p i l l' ln A P H. induction A as [|p i x l x' l' n ln B A IH]; constructor; eauto. Qed.
Lemma splice_ap : forall rec orig root env s l, Forall (fun n => entryMerge n = None /\ processKeyTag n = (n, "") /\ getControl ctrl reg n [] = CtlNone) l -> forall acc,
  spliceMerges ST interpol quote show rec orig root l env (mkPS acc true false "" false None 0%N "" false) s = Ret (mkPS (acc ++ l) true false "" false None 0%N "" false) s.
Proof.
  intros rec orig root env s. induction 1 as [|v l (H1 & H2 & H3) _ IH]; intro acc; cbn [spliceMerges]; [now rewrite app_nil_r|].
  rewrite H1, H2. cbn [String.eqb ps_spliced ps_process ps_merged ps_keyName ps_replaced ps_redirect ps_flags ps_tag ps_template].
  rewrite IH, <- app_assoc. reflexivity.
Qed.
Lemma controls_ap : forall rec env s l, Forall (fun n => entryMerge n = None /\ processKeyTag n = (n, "") /\ getControl ctrl reg n [] = CtlNone) l ->
  spliceControls ST ctrl reg rec l env true s = Ret (l, true) s.
Proof.
  intros rec env s. induction 1 as [|v l (H1 & H2 & H3) _ IH]; cbn [spliceControls]; [reflexivity|]. rewrite H3. unfold bind. rewrite IH. reflexivity.
Qed.
Lemma useMerge_ap : forall l, Forall (fun n => entryMerge n = None /\ processKeyTag n = (n, "") /\ getControl ctrl reg n [] = CtlNone) l -> existsb useMerge l = false.
Proof. induction 1 as [|v l (H1 & H2 & H3) _ IH]; cbn; [reflexivity|]. unfold useMerge at 1. now rewrite H1, IH. Qed.
Lemma uniqueKeys_ap : forall rec env s j p l l' ln i, apL j p i l l' ln -> Forall steady l -> forall z seen,
  exists u, uniqueKeys ST ctrl setTagX rec ln z "" env seen s = Ret u s.
Proof.
  intros rec env s j p l l' ln i A. induction A as [|p i x l x' l' n ln B A IH]; intros St z seen; cbn [uniqueKeys]; [eauto|].
  inversion St as [|? ? Sx Sl]; subst. unfold bind. destruct (stepName_ap rec z _ _ _ _ _ env true s B Sx) as (st & k & q & ->).
  cbn [negb orb]. destruct (negb q || existsb (String.eqb st) seen); [eexists; reflexivity|]. now apply IH.
Qed.
Lemma round : forall j,
  (forall p d d' n, ap j p d d' n -> forall fuel env so s, part D p d -> part D' p d' -> encl j p (b_scopes env) -> here env p so -> (depth d <= fuel)%nat -> (depth d' <= fuel)%nat ->
     exists n', F fuel n env so false s = Ret n' s /\ ap (S j) p d d' n') /\
  (forall p m m' mn, apM j p m m' mn -> forall fuel env s acc, (forall k x, In (k, x) m -> part D (p ++ [k]) x) -> (forall k x, In (k, x) m' -> part D' (p ++ [k]) x) ->
     (forall k, encl j (p ++ [k]) (b_scopes env)) -> (forall k, ordinaryKey k -> here (withPath k env) (p ++ [k]) true) -> Forall (fun kv => (depth (snd kv) <= fuel)%nat) m -> Forall (fun kv => (depth (snd kv) <= fuel)%nat) m' ->
     msorted m -> Forall (fun kv => ordinaryKey (fst kv)) m -> (forall x k, In x (mkeys acc) -> In k (map fst m) -> String.compare x k = Lt) ->
     exists mn', mapEntries ST ctrl reg setTagX (F fuel) mn MERGEKEY None true true env 0%N acc [] s = Ret (acc ++ mn', []) s /\ apM (S j) p m m' mn') /\
  (forall p i l l' ln, apL j p i l l' ln -> forall fuel env s z u, (forall k x, nth_error l k = Some x -> part D (p ++ [idx (Z.of_nat (i + k))]) x) ->
     (forall k x, nth_error l' k = Some x -> part D' (p ++ [idx (Z.of_nat (i + k))]) x) ->
     (forall k, encl j (p ++ [idx (Z.of_nat k)]) (b_scopes env)) -> (forall k st, here (withPath st env) (p ++ [idx (Z.of_nat k)]) false) -> Forall (fun x => (depth x <= fuel)%nat) l -> Forall (fun x => (depth x <= fuel)%nat) l' -> Forall steady l ->
     exists ln', listEntries ST ctrl setTagX (F fuel) ln z "" env u false s = Ret ln' s /\ apL (S j) p i l l' ln').
Proof.
  intro j. apply ap_mut.
  - intros p d d' J P Fi Ow X fuel env so s AD AD' EN L Dd Dp. destruct (fresh_round fuel d env p so s d' P Fi X Dd L) as (n' & E & Pn & Sn & Cn).
    exists n'. split; [exact E|now apply ap_kept].
  - intros p d d' n P Ow Pn Sd C fuel env so s AD AD' EN L Dd Dp. destruct (part_plain _ _ _ AD' PD' FD') as [_ Fi].
    destruct (kept_round fuel n env p so s d' Pn Fi Sd C Dp L) as (n' & E & Pn' & Sn & Cn). exists n'. split; [exact E|now apply ap_kept].
  - intros p d d' e TX J fuel env so s AD AD' EN L Dd Dp. destruct fuel as [|fuel]; [pose proof (depth_pos d'); lia|].
    pose proof TX as (t & sr & sub & E1 & E2 & E3). exists (mkNode (VExpr e) emptyAnn sr None None). split.
    + cbn [flowF]. unfold flowNode. rewrite E1. cbn [ann emptyAnn a_redirect a_replace a_merged val isExpr negb andb].
      unfold flowString. rewrite <- E1, E2, E3, E1. reflexivity.
    + apply (ap_pend _ _ _ _ e); [exact TX|exact (GT _ _ _ AD TX)|now left|lia].
  - intros p d d' e x a sr TX GX PA RK fuel env so s AD AD' EN L Dd Dp. destruct fuel as [|fuel]; [pose proof (depth_pos d'); lia|].
    cbn [flowF]. apply (expr_round j p d d' e x); try assumption. lia.
  - intros p d d' e n TX P Sd C fuel env so s AD AD' EN L Dd Dp. destruct (part_plain _ _ _ AD' PD' FD') as [_ Fi].
    destruct (kept_round fuel n env p so s d' P Fi Sd C Dp L) as (n' & E & Pn & Sn & Cn). exists n'. split; [exact E|now apply (ap_done _ _ _ _ e)].
  - intros p m m' mn sr d' V So Ko A IH fuel env so s AD AD' EN L Dd Dp. destruct fuel as [|fuel]; [pose proof (depth_pos d'); lia|].
    cbn [flowF]. unfold flowNode. cbn [ann emptyAnn a_redirect a_replace a_merged val isExpr negb andb].
    destruct (apM_keys _ _ _ _ _ A) as [KE KE'].
    assert (Q : forall mm : smap node, map fst mm = map fst m -> quietMap mm) by (intros mm E; now apply (keys_quiet m)).
    rewrite (quiet_getControl ctrl reg (mkNode (VMap mn) emptyAnn sr None None) mn eq_refl (Q mn KE)).
    destruct (IH fuel (withScope mn env) s []) as (mn' & E & A').
    { intros k x I. eapply part_field; [exact AD|reflexivity|exact I]. }
    { intros k x I. eapply part_field; [exact AD'|exact V|exact I]. }
    { intro k. assert (BS : exists sc, b_scopes (withScope mn env) = sc :: b_scopes env /\ sc_local sc = Some mn) by (destruct env; eexists; split; reflexivity). destruct BS as (sc & BS & SL). rewrite BS. eapply en_map; [exact EN|exact AD|exact AD'|reflexivity|exact V|exact A|exact SL]. }
    { intros k Kk. now apply (here_key env p so). }
    { rewrite Forall_forall. intros [k x] I. pose proof (depth_map m emptyAnn sr None None k x I). cbn [snd]. lia. }
    { rewrite Forall_forall. intros [k x] I. destruct d' as [v' a' s' t' r']. cbn [val] in V. subst v'.
      pose proof (depth_map m' a' s' t' r' k x I). cbn [snd]. lia. }
    { exact So. }
    { exact Ko. }
    { intros x k []. }
    exists (mkNode (VMap mn') emptyAnn sr None None). split; [|now apply (ap_map _ _ m m')].
    assert (IH0 : exists o, inheritedFlags ST ctrl env s = Ret (0%N, o) s /\ match o with Some w => plain w | None => True end).
    { destruct L as (L1 & L2 & L3 & [(L4 & L5 & L6)|[G1 G2]]).
      - eexists. split; [apply (inherited ST interpol ctrl ordinaryKey stubs SP okP (lk_nopanic interpol ctrl stubs SP SF) env p s); [repeat split; assumption|exact L6]|].
        destruct (Lk p) as [w| |] eqn:El; try exact Logic.I. eapply (plain_lk interpol ctrl stubs SP); exact El.
      - exists None. split; [|exact Logic.I]. unfold inheritedFlags, bind, lookupM, findInStubs. rewrite L1. fold (Lk (b_stubPath env)). rewrite (gone_here _ G2). reflexivity. }
    destruct IH0 as (o & IE & IP).
    unfold flowMap. unfold bind at 1. rewrite IE. cbv beta iota. cbn [ann emptyAnn a_tag a_redirect a_replace].
    rewrite !(quiet_mget _ mn (Q mn KE)) by apply notquiet_merge.
    unfold bind at 1. unfold ret at 1.
    cbn [ms_processed ms_template ms_add ms_val ms_env ms_flags ms_base ms_merged ms_replace ms_redirect ms_err ms_tag negb andb].
    unfold bind at 1. rewrite E. cbn [app].
    match goal with |- context [redirectNode (VMap ?X) _ None] => replace X with mn' end.
    2: { destruct o as [w|]; [|reflexivity]. destruct (val w) eqn:Vw; try reflexivity. change (fInjected 0%N) with false. cbv iota.
      symmetry. apply (injectMap_plain interpol ordinaryKey). apply (plain_map ordinaryKey interpol w m0 IP Vw). }
    change (a_failed emptyAnn) with false. cbv beta iota. unfold bind.
    destruct (apM_keys _ _ _ _ _ A') as [KE2 _].
    assert (C : flowControl ST ctrl reg ctlFunction (redirectNode (VMap mn') (mkNode (VMap mn) emptyAnn sr None None) None) [] (withScope mn env) s
       = Ret (mkNode (VMap mn') emptyAnn sr None None) s).
    { unfold flowControl. rewrite (quiet_getControl ctrl reg _ mn'); [reflexivity|reflexivity|apply Q, KE2]. }
    rewrite C. reflexivity.
  - intros p l l' ln a sr d' V LA St G A IH fuel env so s AD AD' EN L Dd Dp. destruct fuel as [|fuel]; [pose proof (depth_pos d'); lia|].
    assert (AA : a_redirect a = None /\ a_replace a = false /\ a_merged a = false /\ a_keyName a = "" /\ a_tag a = "" /\ fNoMerge (a_flags a) = false)
      by (destruct LA as [-> | ->]; repeat split; reflexivity).
    destruct AA as (A1 & A2 & A3 & A4 & A5 & A6).
    pose proof (apL_each _ _ _ _ _ _ A _ (ap_entry j)) as En.
    destruct (uniqueKeys_ap (F fuel) env s _ _ _ _ _ _ A St 0%Z []) as (u & UK).
    destruct (IH fuel env s 0%Z u) as (ln' & E & A').
    { intros k x I. cbn [plus]. eapply part_elem; [exact AD|reflexivity|exact I]. }
    { intros k x I. cbn [plus]. eapply part_elem; [exact AD'|exact V|exact I]. }
    { intro k. eapply en_list; [exact EN|exact AD|reflexivity]. }
    { intros k st. now apply (here_elem env p so). }
    { rewrite Forall_forall. intros x I. pose proof (depth_list l a sr None None x I). lia. }
    { rewrite Forall_forall. intros x I. destruct d' as [v' a' s' t' r']. cbn [val] in V. subst v'.
      pose proof (depth_list l' a' s' t' r' x I). lia. }
    { exact St. }
    exists (mkNode (VList ln') a sr None None). split; [|now apply (ap_list _ _ l l')].
    cbn [flowF]. unfold flowNode. cbn [ann val isExpr negb andb]. rewrite A1, A2, A3. unfold flowList. cbn [ann]. rewrite A3.
    unfold bind at 1. unfold inheritedFlags. unfold bind at 1. unfold lookupM, findInStubs. rewrite (proj1 L). fold (Lk (b_stubPath env)). rewrite (gone_here _ (here_gone _ _ _ L G)).
    unfold ret at 1 2. cbv beta iota. unfold nflags at 1. cbn [ann]. rewrite A6, (useMerge_ap _ En). cbn [orb]. cbv iota.
    rewrite A4, A2, A1, A5. unfold bind at 1.
    rewrite (splice_ap (F fuel) _ ln env s ln En []).
    cbn [app ps_template ps_spliced ps_process ps_flags ps_keyName ps_redirect ps_merged ps_replaced ps_tag].
    unfold bind at 1. unfold bind at 1. rewrite (controls_ap (F fuel) env s ln En). cbn [ret fst snd].
    unfold bind at 1. change (fNoMerge 0%N) with false. change (String.eqb "" NO_LIST_KEY) with false. cbv beta iota.
    unfold bind at 1. rewrite UK. unfold bind at 1. rewrite E. cbn [ret String.eqb]. cbv beta iota.
    destruct LA as [-> | ->]; reflexivity.
  - intros p fuel env s acc _ _ _ _ _ _ _ _ _. exists []. split; [cbn; now rewrite app_nil_r|constructor].
  - intros p k x m x' m' n mn A IH1 _ IH2 fuel env s acc HD HD' EN L Dd Dp So Ko Ac.
    inversion Dp as [|? ? Dk Dm]; subst. inversion Dd as [|? ? Ek Em]; subst. inversion Ko as [|? ? Kk Km]; subst. cbn [fst snd] in *. destruct So as [So1 So2].
    cbn [mapEntries].
    rewrite (proj2 (eqb_false_neq k MERGEKEY) (proj2 (quiet_neq k (proj1 Kk)))).
    unfold requireTemplate, ctlKey. rewrite (quiet_ctl k (proj1 Kk)). unfold bind.
    destruct (IH1 fuel (withPath k env) true s) as (n' & E & A').
    { apply HD. now left. } { apply HD'. now left. } { destruct env. exact (EN k). } { exact (L k Kk). } { exact Ek. } { exact Dk. }
    pose proof (ap_quiet _ _ _ _ _ A') as Qn. rewrite (tagged_quiet _ _ _ _ _ _ _ E Qn). rewrite (proj2 Qn).
    change (fPropagateImplied 0%N) with false. cbv iota.
    rewrite mset_below by (intros y I; apply Ac; [exact I|now left]).
    destruct (IH2 fuel env s (acc ++ [(k, n')])) as (mn' & E' & B).
    { intros k0 y I. apply HD. now right. } { intros k0 y I. apply HD'. now right. } { exact EN. } { exact L. } { exact Em. } { exact Dm. } { exact So2. } { exact Km. }
    { intros y k' Iy Ik. unfold mkeys in Iy. rewrite map_app in Iy. apply in_app_or in Iy. destruct Iy as [Iy|[<-|[]]].
      - apply Ac; [exact Iy|now right].
      - now apply So1. }
    exists ((k, n') :: mn'). split; [|now constructor]. rewrite E'. rewrite <- app_assoc. reflexivity.
  - intros p i fuel env s z u _ _ _ _ _ _ _. exists []. split; [reflexivity|constructor].
  - intros p i x l x' l' n ln A IH1 A2 IH2 fuel env s z u HD HD' EN L Dd Dp St.
    inversion Dp as [|? ? Dk Dm]; subst. inversion Dd as [|? ? Ek Em]; subst. inversion St as [|? ? Sx Sl]; subst. cbn [listEntries]. unfold bind.
    destruct (stepName_ap (F fuel) z _ _ _ _ _ env u s A Sx) as (st & k & q & ->). rewrite Bool.andb_false_r. cbv iota beta.
    destruct (IH1 fuel (withPath st env) false s) as (n' & E & A').
    { specialize (HD 0%nat x eq_refl). now rewrite Nat.add_0_r in HD. } { specialize (HD' 0%nat x' eq_refl). now rewrite Nat.add_0_r in HD'. }
    { destruct env. exact (EN i). } { exact (L i st). } { exact Ek. } { exact Dk. }
    pose proof (ap_quiet _ _ _ _ _ A') as Qn. rewrite (tagged_quiet _ _ _ _ _ _ _ E Qn).
    destruct (IH2 fuel env s (z + 1)%Z u) as (ln' & E' & B).
    { intros k0 y I. replace (S i + k0)%nat with (i + S k0)%nat by lia. now apply HD. }
    { intros k0 y I. replace (S i + k0)%nat with (i + S k0)%nat by lia. now apply HD'. }
    { exact EN. } { exact L. } { exact Em. } { exact Dm. } { exact Sl. }
    exists (n' :: ln'). split; [|now constructor]. rewrite E'. unfold ret. rewrite (proj2 Qn). reflexivity.
Qed.
(** ** the document itself *)
Lemma text_str : forall d e, text d e -> exists t, val d = VStr t /\ ~ literalText interpol t.
Proof.
  intros d e (t & s & sub & -> & E & _). exists t. split; [reflexivity|]. intro L.
  rewrite (literal_embedded quote interpol (mkNode (VStr t) emptyAnn s None None) t eq_refl L) in E. discriminate.
Qed.
Lemma plain_str : forall n t, plain n -> val n = VStr t -> literalText interpol t.
Proof. intros n t P V. inversion P as [v s Lf| |]; subst; cbn in V; try discriminate. subst v. inversion Lf; assumption. Qed.
Lemma plain_steady : forall d, plain d -> steady d.
Proof.
  intros d P m c e V I TX. destruct (plain_map _ _ _ _ P V) as (_ & _ & Pm). rewrite Forall_forall in Pm. specialize (Pm _ I). cbn in Pm.
  destruct (text_str _ _ TX) as (t & Vc & NL). apply NL. eapply plain_str; eassumption.
Qed.
Lemma plain_ap : forall d p d' so, plain d -> fitsN d -> okP p \/ gone p -> (gone p \/ (so = true /\ steadyLists d)) -> sameDoc (pass so p d) d' -> ap 0 p d d' d.
Proof.
  induction d as [v a s t r IH] using node_ind'. intros p d' so P Fi OG X Sd.
  assert (Y : (gone p /\ sameDoc (mkNode v a s t r) d') \/ (okP p /\ so = true /\ steadyLists (mkNode v a s t r) /\ sameDoc (pass so p (mkNode v a s t r)) d')).
  { destruct OG as [O|G]; [|left; split; [exact G|now rewrite (pass_gone _ _ _ G) in Sd]]. destruct X as [G|[E S]]; [left; split; [exact G|now rewrite (pass_gone _ _ _ G) in Sd]|]. right. auto. }
  clear X OG Sd.
  destruct (leaf_dec v) as [[L1 L2]|[[l ->]|[m ->]]].
  - apply ap_fresh; try assumption; [reflexivity|split; [exact L2|intros _; exact L1]|]. destruct Y as [Y|(O & -> & St & Sd)]; [now left|right; auto].
  - destruct Y as [[G Sd]|(O & -> & St & Sd)].
    + inversion P as [v0 s0 Lf|l0 a0 s0 La Pl|]; subst; [inversion Lf|]. destruct d' as [v' a' s' t' r']. unfold sameDoc in Sd. cbn [data] in Sd. injection Sd as Sd.
      destruct v'; try discriminate Sd. injection Sd as Sd. apply (ap_list _ _ l l0); try assumption; [reflexivity| |].
      { eapply Forall_impl; [|exact Pl]. intros x Px. now apply plain_steady. }
      apply fits_list in Fi. destruct Fi as [_ Fi]. cbn in IH. clear P. enough (GG : forall i, apL 0 p i l l0 l) by apply GG. revert l0 Sd.
      induction l as [|x l IHl]; intros [|x' l0] Sd i; try discriminate Sd; [constructor|].
      cbn in Sd. injection Sd as Sd1 Sd2. inversion IH as [|? ? IHx IHr]; subst. inversion Pl; subst. inversion Fi; subst. constructor; [|now apply IHl].
      pose proof (gone_on _ [idx (Z.of_nat i)] G) as G'. apply (IHx _ _ false); try assumption; [now right|now left|]. now rewrite (pass_gone _ _ _ G').
    + destruct (Lk p) as [w| |] eqn:El.
      * apply ap_fresh; try assumption; [reflexivity|split; [discriminate|intro G; rewrite (gone_here _ G) in El; discriminate]|right; auto].
      * pose proof (none_gone _ O El) as G. rewrite (pass_gone _ _ _ G) in Sd.
        inversion P as [v0 s0 Lf|l0 a0 s0 La Pl|]; subst; [inversion Lf|]. destruct d' as [v' a' s' t' r']. unfold sameDoc in Sd. cbn [data] in Sd. injection Sd as Sd.
        destruct v'; try discriminate Sd. injection Sd as Sd. apply (ap_list _ _ l l0); try assumption; [reflexivity| |].
        { eapply Forall_impl; [|exact Pl]. intros x Px. now apply plain_steady. }
        apply fits_list in Fi. destruct Fi as [_ Fi]. cbn in IH. clear P St. enough (GG : forall i, apL 0 p i l l0 l) by apply GG. revert l0 Sd.
        induction l as [|x l IHl]; intros [|x' l0] Sd i; try discriminate Sd; [constructor|].
        cbn in Sd. injection Sd as Sd1 Sd2. inversion IH as [|? ? IHx IHr]; subst. inversion Pl; subst. inversion Fi; subst. constructor; [|now apply IHl].
        pose proof (gone_on _ [idx (Z.of_nat i)] G) as G'. apply (IHx _ _ false); try assumption; [now right|now left|]. now rewrite (pass_gone _ _ _ G').
      * exfalso. now apply (lk_nopanic interpol ctrl stubs SP SF p O).
  - inversion P as [v0 s0 Lf| |m0 s0 So Ko Pm]; subst; [inversion Lf|].
    assert (Z : sameDoc (mkNode (VMap (passM ctrl stubs p m)) emptyAnn s None None) d' /\ (okP p \/ gone p) /\ (gone p \/ Forall (fun kv => steadyLists (snd kv)) m)).
    { rewrite <- (pass_map ctrl stubs true p m). destruct Y as [[G Sd]|(O & -> & St & Sd)]; [rewrite (pass_gone _ _ _ G); auto|]. split; [exact Sd|]. split; [now left|]. right. now apply steady_map in St. }
    destruct Z as (Sd & OG & X). destruct d' as [v' a' s' t' r']. unfold sameDoc in Sd. cbn [data] in Sd. injection Sd as Sd.
    destruct v'; try discriminate Sd. injection Sd as Sd. apply (ap_map _ _ m m0); try assumption; [reflexivity|].
    apply fits_map in Fi. cbn in IH. clear P So Y. revert m0 Sd. induction m as [|[k x] m IHm]; intros [|[k' x'] m0] Sd; try discriminate Sd; [constructor|].
    cbn in Sd. injection Sd as -> Sd1 Sd2. inversion IH as [|? ? IHx IHr]; subst. inversion Pm; subst. inversion Fi; subst. inversion Ko; subst. cbn [fst snd] in *. constructor.
    + apply (IHx _ _ true); try assumption.
      * destruct OG as [O|G]; [left; apply okP_app; [exact O|now apply ok_ordinary]|right; now apply gone_on].
      * destruct X as [G|X]; [left; now apply gone_on|right; split; [reflexivity|]]. inversion X; assumption.
    + apply IHm; try assumption. destruct X as [G|X]; [now left|right]. inversion X; assumption.
Qed.
Lemma undefined_gone : forall p, okP p \/ gone p -> undefined ctrl stubs p -> gone p.
Proof. intros p [O|G] U; [|exact G]. apply none_gone; [exact O|]. now apply (lk_none interpol ctrl stubs SP p O). Qed.
Lemma none_undefined : forall q, Lk q = FNo -> undefined ctrl stubs q.
Proof.
  intros q H s v I Fd. enough (G : forall l, Forall plain l -> lookupStubs ctrl l q = FNo -> In s l -> False) by exact (G stubs SP H I).
  clear -Fd. induction l as [|s0 l IH]; intros P N I; [destruct I|]. inversion P as [|? ? P0 Pl]; subst. cbn [lookupStubs] in N. destruct I as [-> |I].
  - rewrite Fd in N. rewrite (plain_implied ordinaryKey interpol v) in N; [discriminate N|]. eapply (plain_find ordinaryKey interpol ctrl); [|exact Fd]. exact P0.
  - apply IH; try assumption. destruct (find false ctrl q s0) as [w| |] eqn:E; try assumption; [|discriminate N].
    rewrite (plain_implied ordinaryKey interpol w) in N; [discriminate N|]. eapply (plain_find ordinaryKey interpol ctrl); [|exact E]. exact P0.
Qed.
Lemma merges_same : forall d p d', plain d -> fitsN d -> okP p \/ gone p -> merges ctrl stubs true p d d' -> sameDoc (pass true p d) d'.
Proof.
  intros d p d' P Fi OG M. destruct OG as [O|G].
  - eapply (FlowDet.merges_fun interpol ctrl stubs); [exact P| |exact M]. apply (merges_pass interpol ctrl stubs SP SF); try assumption. reflexivity.
  - rewrite (pass_gone _ _ _ G). unfold sameDoc. symmetry. eapply (PropFlow.merges_keep ctrl); [|exact M]. intro more. apply none_undefined, G.
Qed.
Lemma docS_ap : (forall p d d', docS p d d' -> okP p \/ gone p -> ap 0 p d d' d) /\ (forall p m m', docSM p m m' -> okP p \/ gone p -> Forall (fun kv => ordinaryKey (fst kv)) m -> apM 0 p m m' m) /\
  (forall p i l l', docSL p i l l' -> gone p -> apL 0 p i l l' l).
Proof.
  apply docS_mut.
  - intros p d d' P Fi SU M OG. apply (plain_ap d p d' true); try assumption; [|now apply merges_same].
    destruct SU as [St|U]; [right; auto|left; now apply undefined_gone].
  - intros p d d' e TX _. now apply (ap_raw _ _ _ _ e).
  - intros p m m' s d' V So Ko _ IH OG. apply (ap_map _ _ m m'); try assumption. now apply IH.
  - intros p l l' s d' V St U _ IH OG. pose proof (undefined_gone p OG U) as G. apply (ap_list _ _ l l'); try assumption; [now left|now apply IH].
  - intros p _ _. constructor.
  - intros p k x m x' m' _ IH1 _ IH2 OG Ko. inversion Ko; subst. cbn [fst] in *. constructor; [|now apply IH2]. apply IH1.
    destruct OG as [O|G]; [left; apply okP_app; [exact O|now apply ok_ordinary]|right; now apply gone_on].
  - intros p i _. constructor.
  - intros p i x l x' l' _ IH1 _ IH2 G. constructor; [|now apply IH2]. apply IH1. right. now apply gone_on.
Qed.

(** ** the end *)
Lemma ap_final : forall j,
  (forall p d d' n, ap j p d d' n -> part D p d -> (1 <= j)%nat -> (forall q t e, part D q t -> text t e -> (S (rank q) < j)%nat) -> plain n /\ sameDoc n d' /\ calm p n) /\
  (forall p m m' mn, apM j p m m' mn -> (forall k x, In (k, x) m -> part D (p ++ [k]) x) -> (1 <= j)%nat -> (forall q t e, part D q t -> text t e -> (S (rank q) < j)%nat) ->
     Forall (fun kv => plain (snd kv)) mn /\ Forall2 (fun x y => fst y = fst x /\ sameDoc (snd x) (snd y)) mn m' /\ Forall (fun kv => calm (p ++ [fst kv]) (snd kv)) mn) /\
  (forall p i l l' ln, apL j p i l l' ln -> (forall k x, nth_error l k = Some x -> part D (p ++ [idx (Z.of_nat (i + k))]) x) -> (1 <= j)%nat -> (forall q t e, part D q t -> text t e -> (S (rank q) < j)%nat) ->
     Forall plain ln /\ map data ln = map data l').
Proof.
  intro j. apply ap_mut.
  - intros p d d' J P Fi Ow X _ J' _. lia.
  - intros p d d' n P Ow Pn Sd C _ _ _. auto.
  - intros p d d' e TX J _ J' _. lia.
  - intros p d d' e x a s TX GX PA RK AD J H. specialize (H p d e AD TX). lia.
  - intros p d d' e n TX P Sd C _ _ _. auto.
  - intros p m m' mn s d' V So Ko A IH AD J H.
    destruct (IH (fun k x I => part_field _ _ _ m k x AD eq_refl I) J H) as (P & Sd & C). destruct (apM_keys _ _ _ _ _ A) as [KE _].
    split.
    + apply PD_map; [| |exact P].
      * clear - So KE. revert mn KE. induction m as [|[k x] m IHm]; intros [|[k' y] mn] KE; try discriminate KE; [exact Logic.I|].
        cbn in KE. injection KE as -> KE. destruct So as [So1 So2]. split; [rewrite KE; exact So1|now apply IHm].
      * apply (Forall_map fst). rewrite KE. apply Forall_map. exact Ko.
    + split; [eapply PropFlow.data_map; [reflexivity|exact V|exact Sd]|]. unfold calm. rewrite pass_map, pass_map. clear - C. cbn [data]. split; do 2 f_equal.
      * unfold passM. rewrite map_map. apply map_ext_in. intros [k x] I. cbn [fst snd]. rewrite Forall_forall in C. specialize (C _ I). cbn in C. now rewrite (proj1 C).
      * unfold passM. rewrite map_map. apply map_ext_in. intros [k x] I. cbn [fst snd]. rewrite Forall_forall in C. specialize (C _ I). cbn in C. now rewrite (proj2 C).
  - intros p l l' ln a s d' V LA St G A IH AD J H.
    destruct (IH (fun k x I => part_elem _ _ _ l k x AD eq_refl I) J H) as [P Sd]. split.
    + apply PD_list; assumption.
    + split; [|now apply calm_gone]. destruct d' as [v' a' s' t' r']. cbn [val] in V. subst v'. unfold sameDoc. cbn [data]. now rewrite Sd.
  - intros p _ _ _. split; [constructor|split; constructor].
  - intros p k x m x' m' n mn _ IH1 _ IH2 HD J H. destruct (IH1 (HD k x (or_introl eq_refl)) J H) as (P1 & S1 & C1).
    destruct (IH2 (fun k0 y I => HD k0 y (or_intror I)) J H) as (P2 & S2 & C2). split; [|split]; constructor; cbn; auto.
  - intros p i _ _ _. split; constructor.
  - intros p i x l x' l' n ln _ IH1 _ IH2 HD J H.
    assert (H0 := HD 0%nat x eq_refl). rewrite Nat.add_0_r in H0. destruct (IH1 H0 J H) as (P1 & S1 & _).
    assert (H1 : forall k y, nth_error l k = Some y -> part D (p ++ [idx (Z.of_nat (S i + k))]) y)
      by (intros k y I; replace (S i + k)%nat with (i + S k)%nat by lia; now apply HD).
    destruct (IH2 H1 J H) as [P2 S2]. split; [now constructor|]. cbn [map]. now rewrite S1, S2.
Qed.
(** ** equal documents *)
Lemma deep_val : forall n n', deepEqN n n' = true -> tree_eqb (encV (val n)) (encV (val n')) = true.
Proof.
  intros [v a s t r] [v' a' s' t' r'] H. unfold deepEqN in H. cbn [encN val] in *. rewrite tree_eqb_TN, trees_cons in H.
  rewrite !andb_true_iff in H. tauto.
Qed.
Lemma eq_str : forall t v, tree_eqb (encV (VStr t)) (encV v) = true -> v = VStr t.
Proof.
  intros t v H. destruct v; cbn [encV] in H; rewrite tree_eqb_TN in H; cbn [Z.eqb Pos.eqb andb] in H; try discriminate H.
  rewrite trees_cons in H. apply andb_true_iff in H. destruct H as [H _]. cbn [tree_eqb] in H. apply String.eqb_eq in H. now subst.
Qed.
Lemma eq_expr : forall e v, tree_eqb (encV (VExpr e)) (encV v) = true -> exists e', v = VExpr e'.
Proof.
  intros e v H. destruct v; cbn [encV] in H; rewrite tree_eqb_TN in H; cbn [Z.eqb Pos.eqb andb] in H; try discriminate H. eauto.
Qed.
Lemma transfer : forall i j,
  (forall p d d' n, ap i p d d' n -> forall n', ap j p d d' n' -> deepEqN n n' = true -> ap j p d d' n) /\
  (forall p m m' mn, apM i p m m' mn -> forall mn', apM j p m m' mn' -> tree_eqb (encV (VMap mn)) (encV (VMap mn')) = true -> apM j p m m' mn) /\
  (forall p k l l' ln, apL i p k l l' ln -> forall ln', apL j p k l l' ln' -> tree_eqb (encV (VList ln)) (encV (VList ln')) = true -> apL j p k l l' ln).
Proof.
  intros i j. apply ap_mut.
  - intros p d d' J P Fi Ow X n' A E. inversion A as [? ? ? J0 _ _ _ _|? ? ? n _ _ Pn Sd C|? ? ? e TX J0|? ? ? e x a s TX GX PA RK|? ? ? e n TX _ _ _|? m m' mn s ? V' So Ko A2|? l l' ln a s ? V' LA St G A2]; subst.
    + assumption.
    + rewrite (deepEq_plain ordinaryKey interpol _ _ P Pn E) at 2. exact A.
    + destruct (text_str _ _ TX) as (t & V & NL). exfalso. apply NL. eapply plain_str; eassumption.
    + destruct (text_str _ _ TX) as (t & V & NL). exfalso. apply NL. eapply plain_str; eassumption.
    + destruct (text_str _ _ TX) as (t & V & NL). exfalso. apply NL. eapply plain_str; eassumption.
    + destruct Ow as [NM _]. now edestruct NM.
    + destruct Ow as [_ NL]. now edestruct (NL G).
  - intros p d d' n P Ow Pn Sd C n' _ _. now apply ap_kept.
  - intros p d d' e TX J n' A E. destruct (text_str _ _ TX) as (t & V & NL). apply deep_val in E. rewrite V in E. apply eq_str in E.
    destruct A as [p d d' J0 P Fi Ow X|p d d' n P Ow Pn Sd C|p d d' e' TX' J'|p d d' e' x a s TX' GX PA RK|p d d' e' n TX' P Sd C|p m m' mn s d' V' So Ko A|p l l' ln a s d' V' LA St G A].
    + exfalso. apply NL. eapply plain_str; eassumption.
    + exfalso. apply NL. eapply plain_str; eassumption.
    + now apply (ap_raw _ _ _ _ e').
    + discriminate E.
    + exfalso. apply NL. eapply plain_str; eassumption.
    + discriminate E.
    + discriminate E.
  - intros p d d' e x a s TX GX PA RK n' A E. apply deep_val in E. cbn [val] in E. apply eq_expr in E. destruct E as (e1 & E).
    destruct A as [p d d' J0 P Fi Ow X|p d d' n P Ow Pn Sd C|p d d' e' TX' J'|p d d' e' x' a' s' TX' GX' PA' RK'|p d d' e' n TX' P Sd C|p m m' mn s' d' V' So Ko A|p l l' ln a0 s0 d' V' LA St G A].
    + exfalso. eapply plain_noexpr; eassumption.
    + exfalso. eapply plain_noexpr; eassumption.
    + destruct (text_str _ _ TX') as (t & V & _). congruence.
    + now apply (ap_pend _ _ _ _ e).
    + exfalso. eapply plain_noexpr; eassumption.
    + discriminate E.
    + discriminate E.
  - intros p d d' e n TX P Sd C n' _ _. now apply (ap_done _ _ _ _ e).
  - intros p m m' mn s d' V So Ko A IH n' A' E. apply deep_val in E. cbn [val] in E.
    inversion A' as [? ? ? J0 P Fi NM X|? ? ? n P NM Pn Sd C|? ? ? e TX J|? ? ? e x a s0 TX GX PA RK|? ? ? e n TX P Sd C|? ? m2 mn' ? ? V' _ _ A2|]; subst.
    + destruct NM as [NM _]. now edestruct NM.
    + destruct NM as [NM _]. now edestruct NM.
    + destruct (text_str _ _ TX) as (t & V2 & _). discriminate V2.
    + destruct (text_str _ _ TX) as (t & V2 & _). discriminate V2.
    + destruct (text_str _ _ TX) as (t & V2 & _). discriminate V2.
    + rewrite V in V'. injection V' as <-. apply (ap_map _ _ m m'); try assumption. apply (IH mn'); assumption.
  - intros p l l' ln a s d' V LA St G A IH n' A' E. apply deep_val in E. cbn [val] in E.
    inversion A' as [? ? ? J0 P Fi NM X|? ? ? n P NM Pn Sd C|? ? ? e TX J|? ? ? e x a0 s0 TX GX PA RK|? ? ? e n TX P Sd C| |? ? l2 ln' ? ? ? V' _ _ _ A2]; subst.
    + destruct NM as [_ NM]. now edestruct (NM G).
    + destruct NM as [_ NM]. now edestruct (NM G).
    + destruct (text_str _ _ TX) as (t & V2 & _). discriminate V2.
    + destruct (text_str _ _ TX) as (t & V2 & _). discriminate V2.
    + destruct (text_str _ _ TX) as (t & V2 & _). discriminate V2.
    + rewrite V in V'. injection V' as <-. apply (ap_list _ _ l l'); try assumption. apply (IH ln'); assumption.
  - intros p mn' A _. inversion A; subst. constructor.
  - intros p k x m x' m' n mn A IH1 A2 IH2 mn' A' E. inversion A' as [|? ? ? ? ? ? n2 mn2 B1 B2]; subst.
    cbn [encV map] in E. rewrite tree_eqb_TN in E. cbn [Z.eqb Pos.eqb andb] in E. rewrite trees_cons in E. apply andb_true_iff in E. destruct E as [E1 E2].
    rewrite tree_eqb_TN, !trees_cons in E1. rewrite !andb_true_iff in E1. destruct E1 as (_ & _ & E1 & _). constructor.
    + apply (IH1 n2); assumption.
    + apply (IH2 mn2); [assumption|]. cbn [encV]. rewrite tree_eqb_TN. exact E2.
  - intros p k ln' A _. inversion A; subst. constructor.
  - intros p k x l x' l' n ln A IH1 A2 IH2 ln' A' E. inversion A' as [|? ? ? ? ? ? n2 ln2 B1 B2]; subst.
    cbn [encV map] in E. rewrite tree_eqb_TN in E. cbn [Z.eqb Pos.eqb andb] in E. rewrite trees_cons in E. apply andb_true_iff in E. destruct E as [E1 E2].
    constructor.
    + apply (IH1 n2); assumption.
    + apply (IH2 ln2); [assumption|]. cbn [encV]. rewrite tree_eqb_TN. exact E2.
Qed.
(** ** nothing in it has an environment *)
Lemma ap_resolver : forall f j, (forall p d d' n, ap j p d d' n -> mapHere (mapResolver f) n = n) /\
  (forall p m m' mn, apM j p m m' mn -> map (fun kv => match kv with (k, e) => (k, mapHere (mapResolver f) e) end) mn = mn) /\
  (forall p i l l' ln, apL j p i l l' ln -> map (mapHere (mapResolver f)) ln = ln).
Proof.
  intros f j. apply ap_mut.
  - intros p d d' _ P _ _ _. apply (mapHere_plain ordinaryKey interpol), P.
  - intros p d d' n _ _ P _ _. apply (mapHere_plain ordinaryKey interpol), P.
  - intros p d d' e (t & s & sub & -> & _) _. reflexivity.
  - intros. reflexivity.
  - intros p d d' e n _ P _ _. apply (mapHere_plain ordinaryKey interpol), P.
  - intros p m m' mn s d' _ _ _ _ IH. cbn [mapHere]. now rewrite IH.
  - intros p l l' ln a s d' _ _ _ _ _ IH. cbn [mapHere]. now rewrite IH.
  - reflexivity.
  - intros p k x m x' m' n mn _ IH1 _ IH2. cbn [map]. now rewrite IH1, IH2.
  - reflexivity.
  - intros p i x l x' l' n ln _ IH1 _ IH2. cbn [map]. now rewrite IH1, IH2.
Qed.
Lemma ap_below : forall f j p d d' n, ap j p d d' n -> mapBelow (mapResolver f) n = n.
Proof.
  intros f j p d d' n A. destruct A as [p d d' _ P _ _ _|p d d' n _ _ P _ _|p d d' e (t & s & sub & -> & _) _|p d d' e x a s _ _ _ _|p d d' e n _ P _ _|p m m' mn s d' _ _ _ A|p l l' ln a s d' _ _ _ _ A]; try reflexivity.
  - apply (mapBelow_plain ordinaryKey interpol), P.
  - apply (mapBelow_plain ordinaryKey interpol), P.
  - apply (mapBelow_plain ordinaryKey interpol), P.
  - cbn [mapBelow]. now rewrite (proj1 (proj2 (ap_resolver f j)) _ _ _ _ A).
  - cbn [mapBelow]. now rewrite (proj2 (proj2 (ap_resolver f j)) _ _ _ _ _ A).
Qed.

(** ** the loop *)
Variable top : nat.
Hypothesis TOP : forall q t e, part D q t -> text t e -> (rank q < top)%nat.
Hypothesis DM : exists m, val D = VMap m.
Definition start (e : binding) : Prop := here e [] true /\ b_scopes e = [].
Lemma loop_step : forall fuel k n e s j, ap j [] D D' n -> start e -> (depth D <= fuel)%nat -> (depth D' <= fuel)%nat ->
  exists n', F fuel n e true false s = Ret n' s /\ ap (S j) [] D D' n' /\
    LOOP fuel (S k) D n e true s = if deepEqN n n' then Ret n s else LOOP fuel k D n' e true s.
Proof.
  intros fuel k n e s j A [L BS] Dd Dp. destruct (proj1 (round j) _ _ _ _ A fuel e true s (part_here D) (part_here D') ltac:(rewrite BS; constructor) L Dd Dp) as (n' & E & A').
  exists n'. split; [exact E|]. split; [exact A'|]. cbn [flowLoop]. unfold bind. destruct DM as (m & V). rewrite V. unfold flow.
  pose proof (ap_quiet _ _ _ _ _ A') as Q. rewrite (tagged_quiet _ _ _ _ _ _ _ E Q). rewrite (proj2 Q).
  unfold updateBinding. rewrite (ap_below _ _ _ _ _ _ A'). destruct (deepEqN n n'); reflexivity.
Qed.
Lemma ap_top : forall j n, ap j [] D D' n -> (top < j)%nat -> plain n /\ sameDoc n D' /\ calm [] n.
Proof.
  intros j n A J. apply (proj1 (ap_final j) _ _ _ _ A (part_here D)); [lia|]. intros q t e H1 H2. pose proof (TOP q t e H1 H2). lia.
Qed.
Lemma stuck : forall fuel n e s j n', ap j [] D D' n -> start e -> (depth D <= fuel)%nat -> (depth D' <= fuel)%nat -> F fuel n e true false s = Ret n' s -> deepEqN n n' = true ->
  forall k, ap (k + j) [] D D' n.
Proof.
  intros fuel n e s j n' A ST0 Dd Dp E Q. induction k as [|k IH]; [exact A|]. destruct ST0 as [L BS].
  destruct (proj1 (round (k + j)) _ _ _ _ IH fuel e true s (part_here D) (part_here D') ltac:(rewrite BS; constructor) L Dd Dp) as (n2 & E2 & A2).
  rewrite E in E2. injection E2 as <-. exact (proj1 (transfer (k + j) (S (k + j))) _ _ _ _ IH n' A2 Q).
Qed.
Lemma final_round : forall fuel n e s n', plain n -> sameDoc n D' -> start e -> (depth D' <= fuel)%nat -> F fuel n e true false s = Ret n' s -> n' = pass true [] n.
Proof.
  intros fuel n e s n' P Sd [L BS] Dp E.
  destruct (plain_round fuel n e [] true s P (fits_data _ _ Sd FD') ltac:(rewrite (depth_data _ _ Sd); exact Dp) L) as (n2 & E2 & Y). rewrite E in E2. injection E2 as <-.
  destruct Y as [[G ->]|[_ ->]]; [symmetry; now apply pass_gone|reflexivity].
Qed.
Lemma loop_ends : forall k j n fuel e s, ap j [] D D' n -> start e -> (depth D <= fuel)%nat -> (depth D' <= fuel)%nat -> (S (S top) < k + j)%nat -> (2 <= k)%nat \/ pass true [] n = n /\ plain n /\ sameDoc n D' /\ (1 <= k)%nat ->
  exists r, LOOP fuel k D n e true s = Ret r s /\ plain r /\ sameDoc r D'.
Proof.
  induction k as [|k IH]; intros j n fuel e s A ST0 Dd Dp K K1; [lia|].
  destruct (loop_step fuel k n e s j A ST0 Dd Dp) as (n' & E & A' & ->). destruct (deepEqN n n') eqn:Q.
  - exists n. split; [reflexivity|].
    destruct (ap_top (S top + j) n (stuck fuel n e s j n' A ST0 Dd Dp E Q _) ltac:(lia)) as (H1 & H2 & _). auto.
  - destruct K1 as [K1|(EQ & P & Sd & _)].
    + destruct k as [|[|k]]; [lia| |apply (IH (S j)); try assumption; lia].
      destruct (ap_top j n A ltac:(lia)) as (P & Sd & C1 & C2). pose proof (final_round _ _ _ _ _ P Sd ST0 Dp E) as ->.
      apply (IH (S j)); try assumption; try lia. right. split; [exact C2|]. split; [apply (pass_plain interpol ctrl ordinaryKey stubs SP), P|]. split; [|lia]. unfold sameDoc in *. congruence.
    + exfalso. pose proof (final_round _ _ _ _ _ P Sd ST0 Dp E) as ->. rewrite EQ in Q. rewrite (deepEq_refl ordinaryKey interpol n P) in Q. discriminate.
Qed.
Lemma loop_result : forall rounds fuel e s, docS [] D D' -> start e -> (depth D <= fuel)%nat -> (depth D' <= fuel)%nat -> (S (S (S top)) <= rounds)%nat ->
  exists r, LOOP fuel rounds D D e true s = Ret r s /\ plain r /\ sameDoc r D'.
Proof. intros rounds fuel e s H L Dd Dp R. apply (loop_ends rounds 0); try assumption; try lia. apply docS_ap; [exact H|left; constructor]. Qed.
End Doc.
