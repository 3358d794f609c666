(** C01, C02: the processing of plain documents by the merge engine. *)
From Coq Require Import Lia Floats.SpecFloat.
From Verif Require Import Core CoreFacts Str StrFacts DecSpec Interp Find FindFacts EquivFacts PropInterp
  Cleanup Unresolved PropUnresolved DeepEq DeepEqFacts Env Flow FlowSpec FlowFacts FlowPass FlowMerge FlowStable.

(** ** the relation [merges] along map keys *)
Section Paths.
Variables interpol ctrl : bool.
Notation plain := (plainDoc ordinaryKey interpol).

Lemma data_val a b : val a = val b -> data a = data b.
Proof. destruct a, b. cbn [val]. intros ->. reflexivity. Qed.
Lemma data_list a l l' b : val a = VList l -> val b = VList l' -> map data l = map data l' -> data a = data b.
Proof. destruct a, b. cbn [val]. intros -> -> E. cbn [data]. rewrite E. reflexivity. Qed.
Lemma data_map a m m' b : val a = VMap m -> val b = VMap m' ->
  Forall2 (fun x y => fst y = fst x /\ data (snd x) = data (snd y)) m m' -> data a = data b.
Proof.
  destruct a, b. cbn [val]. intros -> -> E. cbn [data]. f_equal. f_equal.
  induction E as [|[k c] [k' c'] m m' [E1 E2] E IH]; cbn [map]; [reflexivity|]. cbn in *. subst. rewrite E2, IH. reflexivity.
Qed.

Lemma merges_map q over p t m r : merges ctrl q over p t r -> val t = VMap m ->
  exists m', val r = VMap m' /\ Forall2 (fun x y => fst y = fst x /\ merges ctrl q true (p ++ [fst x]) (snd x) (snd y)) m m'.
Proof.
  intros H E. destruct H as [? ? ? m0 ? m' E1 E2 F|? ? ? ? ? ? ? E1| ? ? ? ? _ N|? ? ? ? _ N]; try (exfalso; eapply N; eassumption).
  - rewrite E in E1. inversion E1; subst. eauto.
  - congruence.
Qed.

Lemma F2_In {A B} (R : A -> B -> Prop) l l' : Forall2 R l l' -> forall x, In x l -> exists y, In y l' /\ R x y.
Proof. induction 1; intros z Hz; [destruct Hz|]. destruct Hz as [->|Hz]; [eexists; split; [left; reflexivity|assumption]|].
  destruct (IHForall2 _ Hz) as [w [? ?]]. exists w. split; [right|]; assumption. Qed.
Lemma F2_In' {A B} (R : A -> B -> Prop) l l' : Forall2 R l l' -> forall y, In y l' -> exists x, In x l /\ R x y.
Proof. induction 1; intros z Hz; [destruct Hz|]. destruct Hz as [->|Hz]; [eexists; split; [left; reflexivity|assumption]|].
  destruct (IHForall2 _ Hz) as [w [? ?]]. exists w. split; [right|]; assumption. Qed.

Lemma merges_at q t path c : at_ t path c -> forall p r, merges ctrl q true p t r ->
  exists c', at_ r path c' /\ merges ctrl q true (p ++ path) c c'.
Proof.
  induction 1 as [n|n m k c path d E I A IH]; intros p r H.
  - exists r. rewrite app_nil_r. split; [constructor|exact H].
  - destruct (merges_map _ _ _ _ _ _ H E) as [m' [E' F]].
    destruct (F2_In _ _ _ F _ I) as [[k' y] [Iy [K1 My]]]. cbn in *. subst k'.
    destruct (IH _ _ My) as [c' [A' M']]. exists c'. split.
    + econstructor; eassumption.
    + rewrite <- app_assoc in M'. exact M'.
Qed.
Lemma merges_lacks q t path : lacks t path -> forall p r, merges ctrl q true p t r -> lacks r path.
Proof.
  induction 1 as [n m k path E N|n m k c path E I L IH]; intros p r H.
  - destruct (merges_map _ _ _ _ _ _ H E) as [m' [E' F]]. econstructor; [exact E'|].
    intros c Hc. destruct (F2_In' _ _ _ F _ Hc) as [[k' y] [Iy [K1 _]]]. cbn in *. subst. eapply N, Iy.
  - destruct (merges_map _ _ _ _ _ _ H E) as [m' [E' F]].
    destruct (F2_In _ _ _ F _ I) as [[k' y] [Iy [K1 My]]]. cbn in *. subst k'.
    eapply lacks_below; [exact E'|exact Iy|]. eapply IH, My.
Qed.
Lemma lacks_more n path more : lacks n path -> lacks n (path ++ more).
Proof. induction 1; cbn; [eapply lacks_key|eapply lacks_below]; eassumption. Qed.
Lemma at_more n path c : at_ n path c -> forall more d, at_ c more d -> at_ n (path ++ more) d.
Proof. induction 1; intros; cbn; [assumption|]. econstructor; eauto. Qed.

Lemma find_at n path c : at_ n path c -> plain n -> find false ctrl path n = FOk c.
Proof.
  induction 1 as [n|n m k c path d E I A IH]; intro P; cbn [find]; [reflexivity|].
  destruct (plain_map _ _ _ _ P E) as [S0 [Hk Hp]].
  assert (R : mapResolved ctrl m = true).
  { apply quiet_resolved. eapply (K_quiet ordinaryKey); [intros ? [? _]; assumption|exact Hk]. }
  unfold nextStep. rewrite E, R. cbn [orb].
  rewrite (In_mget k c m (msorted_NoDup _ S0) I). apply IH. rewrite Forall_forall in Hp. apply (Hp _ I).
Qed.
Lemma find_lacks n path : lacks n path -> plain n -> find false ctrl path n = FNo.
Proof.
  induction 1 as [n m k path E N|n m k c path E I L IH]; intro P; cbn [find];
    destruct (plain_map _ _ _ _ P E) as [S0 [Hk Hp]]; unfold nextStep; rewrite E.
  - destruct (false || mapResolved ctrl m); [|reflexivity].
    destruct (mget k m) as [c|] eqn:G; [|reflexivity]. apply mget_In in G. exfalso. eapply N, G.
  - destruct (false || mapResolved ctrl m); [|reflexivity]. rewrite (In_mget k c m (msorted_NoDup _ S0) I). apply IH.
    rewrite Forall_forall in Hp. apply (Hp _ I).
Qed.

Lemma defined_same q p v w : definedBy ctrl q p v -> definedBy ctrl q p w -> v = w.
Proof.
  intros [b1 [s1 [a1 [E1 [F1 N1]]]]] [b2 [s2 [a2 [E2 [F2 N2]]]]]. subst q. revert b2 E2 N2.
  induction b1 as [|x b1 IH]; intros [|y b2] E N2; cbn in E; inversion E; subst.
  - congruence.
  - exfalso. eapply N2; [left; reflexivity|exact F1].
  - exfalso. eapply N1; [left; reflexivity|exact F2].
  - eapply IH; [|eassumption|]; intros; [eapply N1|eapply N2]; try right; eassumption.
Qed.
Lemma defined_cons q p v s : (forall w, find false ctrl p s <> FOk w) -> definedBy ctrl q p v -> definedBy ctrl (s :: q) p v.
Proof.
  intros N [b [x [a [-> [F N1]]]]]. exists (s :: b), x, a. repeat split; [exact F|].
  intros c w [<-|I]; [apply N|eapply N1, I].
Qed.
Lemma defined_head q p v s : find false ctrl p s = FOk v -> definedBy ctrl (s :: q) p v.
Proof. intro F. exists [], s, q. repeat split; [exact F|]. intros b w []. Qed.
Lemma defined_undefined q p v : definedBy ctrl q p v -> undefined ctrl q p -> False.
Proof. intros [b [s [a [-> [F _]]]]] U. eapply U; [|exact F]. apply in_or_app. right. left. reflexivity. Qed.

Lemma merges_leaf q p t r : isLeafN t -> merges ctrl q true p t r ->
  (undefined ctrl q p /\ val r = val t) \/ (exists v, definedBy ctrl q p v /\ sameDoc r v).
Proof.
  intros [N1 N2] H. inversion H as [? ? ? ? ? ? E1|? ? ? ? ? ? ? E1|? ? ? ? _ _ U E|? ? w ? _ _ D E]; subst.
  - exfalso. eapply N2, E1.
  - exfalso. eapply N1, E1.
  - left. auto.
  - right. eauto.
Qed.

(** without a definition at or below the path nothing changes *)
Lemma merges_keep n : forall q over p r, (forall more, undefined ctrl q (p ++ more)) -> merges ctrl q over p n r -> sameDoc r n.
Proof.
  induction n as [v a s t r0 IH] using node_ind'. intros q over p r U H.
  inversion H as [? ? ? m ? m' E1 E2 F|? ? ? l steps ? l' E1 E2 _ ML|? ? ? ? L1 L2 _ E|? ? w ? L1 L2 D _]; subst.
  - cbn [val] in E1. subst v. cbn in IH. symmetry. eapply (data_map _ m m'); [reflexivity|exact E2|].
    clear E2 H. induction F as [|x y m m' [K1 M1] F IHF]; [constructor|]. inversion IH; subst.
    constructor; [|apply IHF; assumption]. split; [exact K1|]. symmetry. eapply H1; [|exact M1].
    intro more. rewrite <- app_assoc. apply U.
  - cbn [val] in E1. subst v. cbn in IH. symmetry. eapply (data_list _ l l'); [reflexivity|exact E2|].
    clear E2. revert IH U. clear - ML. intros IH U.
    induction ML as [p|p st steps x l y l' M1 ML IHM]; [reflexivity|]. inversion IH; subst. cbn [map]. f_equal.
    + symmetry. eapply H1; [|exact M1]. intro more. rewrite <- app_assoc. apply U.
    + apply IHM; assumption.
  - apply data_val, E.
  - exfalso. eapply defined_undefined; [exact D|]. rewrite <- (app_nil_r p). apply U.
Qed.

Lemma prep_undefined after q path : prepared ctrl after q -> Forall plain q ->
  Forall (fun a => lacks a path) after -> forall more, undefined ctrl q (path ++ more).
Proof.
  intros H Pq L more. assert (A : Forall (fun a => lacks a path) q).
  { clear Pq. induction H as [|s p r q H IH M1]; [constructor|]. inversion L; subst. constructor; [|apply IH; assumption].
    eapply merges_lacks; eassumption. }
  intros s v I. rewrite Forall_forall in A, Pq.
  rewrite (find_lacks s (path ++ more)); [discriminate|apply lacks_more, A, I|apply Pq, I].
Qed.

Lemma prep_defined before s after path v : at_ s path v ->
  Forall (fun b => lacks b path \/ exists w, at_ b path w /\ isLeafN w) before ->
  Forall (fun a => lacks a path) after ->
  forall q, prepared ctrl (before ++ s :: after) q -> Forall plain q ->
  exists w, definedBy ctrl q path w /\ sameDoc w v.
Proof.
  intros A B L. induction B as [|b before Hb B IH]; cbn [app]; intros q H Pq.
  - inversion H as [|? s' ? q' H1 M1]; subst. inversion Pq; subst.
    destruct (merges_at _ _ _ _ A _ _ M1) as [v' [A' M']]. cbn [app] in M'.
    exists v'. split; [apply defined_head, find_at; assumption|].
    eapply merges_keep; [|exact M']. eapply prep_undefined; eassumption.
  - inversion H as [|? b' ? q' H1 M1]; subst. inversion Pq; subst.
    destruct (IH q' H1) as [w [D S0]]; [assumption|]. destruct Hb as [Lb|[u [Au Lu]]].
    + exists w. split; [|exact S0]. apply defined_cons; [|exact D]. intro x.
      rewrite (find_lacks b' path); [discriminate| |assumption]. eapply merges_lacks; eassumption.
    + destruct (merges_at _ _ _ _ Au _ _ M1) as [u' [Au' Mu']]. cbn [app] in Mu'.
      exists u'. split; [apply defined_head, find_at; assumption|].
      destruct (merges_leaf _ _ _ _ Lu Mu') as [[Un _]|[x [D' Sx]]]; [exfalso; eapply defined_undefined; eassumption|].
      rewrite (defined_same _ _ _ _ D' D) in Sx. unfold sameDoc in *. congruence.
Qed.
End Paths.

Section Run.
Variable ST : Type.
Variables interpol ctrl : bool.
Variable reg : registry.
Variable parse : string -> list string -> list string -> option expr.
Variable quote : string -> string.
Variable show : expr -> string.
Variable evaluate : expr -> binding -> bool -> ST -> res ST (value * info * bool).
Variable setTagX : string -> node -> list string -> bool -> ST -> bool * ST.
Variable ctlFunction : cctx -> binding -> ST -> res ST (node * bool).
Variable parseIssue : string -> issue.
Variables resetStream enter leave : ST -> ST.
Variable pushDocument : node -> ST -> ST.
Notation FL := (flow ST interpol ctrl reg parse quote show evaluate setTagX ctlFunction).
Notation LOOP := (flowLoop ST interpol ctrl reg parse quote show evaluate setTagX ctlFunction).
Notation ENVFLOW := (envFlow ST interpol ctrl reg parse quote show evaluate setTagX ctlFunction).
Notation NESTED := (nestedFlow ST interpol ctrl reg parse quote show evaluate setTagX ctlFunction parseIssue enter leave).
Notation PREP := (prepareStubs ST interpol ctrl reg parse quote show evaluate setTagX ctlFunction parseIssue resetStream enter leave).
Notation APPLY := (apply ST interpol ctrl reg parse quote show evaluate setTagX ctlFunction parseIssue enter leave pushDocument).
Notation CASCADE := (cascade ST interpol ctrl reg parse quote show evaluate setTagX ctlFunction parseIssue resetStream enter leave pushDocument).

Section Loop.
Variable K : string -> Prop.
Hypothesis KQ : forall k, K k -> quietKey k.
Notation plain := (plainDoc K interpol).
Variable stubs : list node.
Hypothesis SP : Forall plain stubs.
Variable okPath : list string -> Prop.
Hypothesis ok_lk : forall p, okPath p -> lookupStubs ctrl stubs p <> FPanic.
Hypothesis ok_key : forall p k, okPath p -> K k -> okPath (p ++ [k]).
Hypothesis ok_idx : forall p i, okPath p -> 0 <= i <= max64 -> okPath (p ++ [idx i]).
Hypothesis ok_name : forall p x, okPath p -> okPath (p ++ [("name:" +++ x)%string]).
Hypothesis ok_nil : okPath [].
Notation pass := (passN ctrl stubs).

Lemma benv_source l v e p : benv stubs e p ->
  benv stubs (match v with VList l' => withListScope l e | _ => e end) p.
Proof. intro B. destruct v; try exact B. apply benv_list, B. Qed.

Lemma flow_round fuel n env s : plain n -> fitsN n -> (depth n <= fuel)%nat -> benv stubs env [] ->
  FL fuel n env true false s = Ret (pass true [] n) s.
Proof.
  intros P Fi D B. unfold flow.
  apply (good_tagged ST interpol ctrl setTagX K stubs SP okPath (flowF ST interpol ctrl reg parse quote show evaluate setTagX ctlFunction fuel) fuel); try assumption.
  apply (flowF_plain ST interpol ctrl reg parse quote show evaluate setTagX ctlFunction K KQ stubs SP okPath ok_lk ok_key ok_idx ok_name).
Qed.
Lemma plain_pass n so p : plain n -> plain (pass so p n).
Proof. intro P. apply (pass_plain interpol ctrl K stubs SP); exact P. Qed.

Lemma loop_step fuel k src0 n e s : plain n -> fitsN n -> (depth n <= fuel)%nat -> benv stubs e [] ->
  LOOP fuel (S k) src0 n e true s =
  (if deepEqN n (pass true [] n) then Ret n s else LOOP fuel k src0 (pass true [] n) e true s).
Proof.
  intros P Fi D B. cbn [flowLoop]. unfold bind.
  rewrite flow_round; try assumption.
  2:{ destruct (val src0); try exact B. apply benv_list, B. }
  rewrite (proj1 (proj2 (plain_tag K interpol _ (plain_pass n true [] P)))).
  unfold updateBinding. rewrite (mapBelow_plain K interpol _ _ (plain_pass n true [] P)).
  destruct (deepEqN n (pass true [] n)); reflexivity.
Qed.
Lemma loop_fix fuel k src0 n e s : plain n -> fitsN n -> (depth n <= fuel)%nat -> benv stubs e [] ->
  pass true [] n = n -> LOOP fuel (S k) src0 n e true s = Ret n s.
Proof.
  intros P Fi D B E. rewrite loop_step by assumption. rewrite E, (deepEq_refl K interpol n P). reflexivity.
Qed.
(** a step towards a fixpoint: equal documents are already the fixpoint *)
Lemma loop_more fuel k src0 n e s r : plain n -> fitsN n -> (depth n <= fuel)%nat -> benv stubs e [] ->
  (pass true [] n = n -> n = r) ->
  LOOP fuel k src0 (pass true [] n) e true s = Ret r s -> LOOP fuel (S k) src0 n e true s = Ret r s.
Proof.
  intros P Fi D B E L. rewrite loop_step by assumption.
  destruct (deepEqN n (pass true [] n)) eqn:Q; [|exact L].
  apply (deepEq_plain K interpol) in Q; [|exact P|apply plain_pass, P]. rewrite <- E; congruence.
Qed.
End Loop.

Lemma newNested_benv stubs src0 outer : benv stubs (newNested stubs src0 outer) [].
Proof. repeat split. Qed.

Lemma nested_of_loop K fuel rounds outer n stubs r s : plainDoc K interpol r ->
  (forall s, LOOP fuel rounds n n (newNested stubs (src n) outer) true s = Ret r s) ->
  NESTED fuel rounds outer n stubs s = Ret (r, []) (leave (enter s)).
Proof.
  intros P L. unfold nestedFlow, bind, change, envFlow, bind. rewrite L. cbn.
  unfold deactivateScopes. rewrite (mapBelow_plain K interpol _ _ P).
  rewrite (unresolved_plain K interpol _ _ _ P). reflexivity.
Qed.

Lemma apply_of_nested (K : string -> Prop) (KQ : forall k, K k -> quietKey k) fuel rounds outer n stubs r o s s' : plainDoc K interpol r ->
  NESTED fuel rounds outer n stubs s = Ret (r, []) s' ->
  APPLY fuel rounds outer n stubs o s = Ret (r, []) (pushDocument r s').
Proof.
  intros P L. unfold apply, bind. rewrite L. unfold change.
  assert (D : (if o_temporary o then r else dropTemporary r) = r)
    by (destruct (o_temporary o); [reflexivity|apply (dropTemporary_plain K interpol), P]).
  rewrite D.
  assert (U : (if o_escapes o then r else unescapeDoc quote (match outer with Some _ => interpol | None => false end) r) = r).
  { destruct (o_escapes o); [reflexivity|]. apply (unescapeDoc_plain K interpol KQ); [|exact P]. destruct outer; [auto|discriminate]. }
  rewrite U. reflexivity.
Qed.

(** ** C01 *)
Lemma lookup_nil p : lookupStubs ctrl [] p = FNo.
Proof. reflexivity. Qed.
Lemma pass_nil n : forall so p, passN ctrl [] so p n = n.
Proof.
  induction n as [v a s t r IH] using node_ind'. intros so p.
  destruct v as [| | | | | |l|m| | |]; try (rewrite pass_leaf by (split; intros; cbn; discriminate); destruct so; reflexivity).
  - rewrite pass_list. cbn in IH. cbn [lk lookupStubs]. f_equal. f_equal.
    generalize 0 as i. generalize (uniq l []) as u. clear - IH.
    induction IH as [|x l Hx Hl IHl]; intros u i; cbn; [reflexivity|]. rewrite Hx, IHl. reflexivity.
  - rewrite pass_map. cbn in IH. f_equal. f_equal. unfold passM. clear - IH.
    induction IH as [|[k c] m Hc Hm IHm]; cbn; [reflexivity|]. cbn in Hc. rewrite Hc, IHm. reflexivity.
Qed.

Lemma alone_loop fuel rounds outer n s : plainDoc quietKey interpol n -> fitsN n -> (depth n <= fuel)%nat -> (1 <= rounds)%nat ->
  LOOP fuel rounds n n (newNested [] (src n) outer) true s = Ret n s.
Proof.
  intros P Fi D R. destruct rounds as [|k]; [lia|].
  apply (loop_fix quietKey (fun k H => H) [] (Forall_nil _) (fun _ => True)); auto.
  - intros p _. rewrite lookup_nil. discriminate.
  - apply newNested_benv.
  - apply pass_nil.
Qed.

Theorem C01_plain_document_unchanged : forall T, plainDoc quietKey interpol T -> fitsN T ->
  exists N, forall fuel rounds outer o s, (N <= fuel)%nat -> (1 <= rounds)%nat ->
    exists s', CASCADE fuel rounds outer T o [] s = Ret (Some T, []) s'.
Proof.
  intros T P Fi. exists (depth T). intros fuel rounds outer o s HF HR.
  assert (NF : forall s, NESTED fuel rounds outer T [] s = Ret (T, []) (leave (enter s))).
  { intro s0. apply (nested_of_loop quietKey); [exact P|]. intro s1. apply alone_loop; assumption. }
  eexists. unfold cascade, bind, prepareStubs, ret, change.
  rewrite (apply_of_nested quietKey (fun k H => H) _ _ _ _ _ _ _ _ _ P (NF _)). reflexivity.
Qed.

(** ** C02 *)
Section Two.
Notation plain := (plainDoc ordinaryKey interpol).
Variable stubs : list node.
Hypothesis SP : Forall plain stubs.
Hypothesis SF : Forall fitsN stubs.
Notation pass := (passN ctrl stubs).

Lemma depth_finite n so p : (depth (pass so p n) <= depth n + list_max (map depth stubs) + depth (pass so p n))%nat.
Proof. lia. Qed.

Definition result (n : node) : node := pass true [] (pass true [] n).
Definition need (n : node) : nat := Nat.max (depth n) (Nat.max (depth (pass true [] n)) (depth (result n))).

Lemma two_loop fuel rounds outer n s : plain n -> fitsN n -> steadyLists n -> (need n <= fuel)%nat -> (3 <= rounds)%nat ->
  LOOP fuel rounds n n (newNested stubs (src n) outer) true s = Ret (result n) s.
Proof.
  intros P Fi ST0 D R. unfold need in D.
  assert (P1 : plain (pass true [] n)) by (apply (pass_plain interpol ctrl ordinaryKey stubs SP), P).
  assert (P2 : plain (result n)) by (apply (pass_plain interpol ctrl ordinaryKey stubs SP), P1).
  assert (F1 : fitsN (pass true [] n)) by (apply (fits_pass ctrl stubs SF), Fi).
  assert (F2 : fitsN (result n)) by (apply (fits_pass ctrl stubs SF), F1).
  assert (O0 : okP []) by constructor.
  pose proof (stable_first interpol ctrl stubs SP SF n true [] P Fi ST0 O0) as Sb.
  destruct (stable_pass ctrl stubs _ _ _ Sb) as [_ Sp].
  destruct rounds as [|[|[|k]]]; try lia.
  assert (OL : forall p, okP p -> lookupStubs ctrl stubs p <> FPanic) by (intros p; apply (lk_nopanic interpol ctrl stubs SP SF)).
  assert (OK : forall p k, okP p -> ordinaryKey k -> okP (p ++ [k])) by (intros; apply okP_app; [assumption|apply ok_ordinary; assumption]).
  assert (OI : forall p i, okP p -> 0 <= i <= max64 -> okP (p ++ [idx i])) by (intros; apply okP_app; [assumption|apply ok_index; assumption]).
  assert (ON : forall p x, okP p -> okP (p ++ [("name:" +++ x)%string])) by (intros; apply okP_app; [assumption|apply ok_named]).
  assert (B : benv stubs (newNested stubs (src n) outer) []) by apply newNested_benv.
  apply (loop_more ordinaryKey ordinary_quiet stubs SP okP); auto; [lia|intros E; unfold result; rewrite E, E; reflexivity|].
  apply (loop_more ordinaryKey ordinary_quiet stubs SP okP); auto; [lia|].
  apply (loop_fix ordinaryKey ordinary_quiet stubs SP okP); auto. unfold result in *. lia.
Qed.

Lemma two_merges n : plain n -> fitsN n -> steadyLists n -> merges ctrl stubs true [] n (result n).
Proof.
  intros P Fi ST0. assert (O0 : okP []) by constructor.
  pose proof (stable_first interpol ctrl stubs SP SF n true [] P Fi ST0 O0) as Sb.
  destruct (stable_pass ctrl stubs _ _ _ Sb) as [Sd _].
  apply (merges_pass interpol ctrl stubs SP SF); auto.
Qed.
Lemma result_plain n : plain n -> plain (result n).
Proof. intro P. unfold result. do 2 apply (pass_plain interpol ctrl ordinaryKey stubs SP). exact P. Qed.
Lemma result_fits n : fitsN n -> fitsN (result n).
Proof. intro P. unfold result. do 2 apply (fits_pass ctrl stubs SF). exact P. Qed.

Lemma two_nested n : plain n -> fitsN n -> steadyLists n ->
  forall fuel rounds outer s, (need n <= fuel)%nat -> (3 <= rounds)%nat ->
    NESTED fuel rounds outer n stubs s = Ret (result n, []) (leave (enter s)).
Proof.
  intros P Fi S0 fuel rounds outer s HF HR. apply (nested_of_loop ordinaryKey); [apply result_plain, P|].
  intro s1. apply two_loop; assumption.
Qed.
End Two.

Lemma prep_plain stubs : Forall (plainDoc ordinaryKey interpol) stubs -> Forall fitsN stubs -> Forall steadyLists stubs ->
  exists N q, Forall (plainDoc ordinaryKey interpol) q /\ Forall fitsN q /\ prepared ctrl stubs q /\
    forall fuel rounds outer partial s, (N <= fuel)%nat -> (3 <= rounds)%nat ->
      exists s', PREP fuel rounds outer partial stubs s = Ret (inl q) s'.
Proof.
  induction stubs as [|t r IH]; intros P Fi S0.
  - exists 0%nat, []. repeat split; try constructor. intros. eexists. reflexivity.
  - inversion P; subst. inversion Fi; subst. inversion S0; subst.
    destruct IH as [N [q [Q1 [Q2 [Q3 Q4]]]]]; try assumption.
    exists (Nat.max N (need q t)), (result q t :: q).
    assert (RP : plainDoc ordinaryKey interpol (result q t)) by (apply result_plain; assumption).
    split; [|split; [|split]].
    + constructor; assumption.
    + constructor; [|assumption]. apply result_fits; assumption.
    + constructor; [assumption|]. apply two_merges; assumption.
    + intros fuel rounds outer partial s HF HR. cbn [prepareStubs]. unfold bind.
      destruct (Q4 fuel rounds outer partial s) as [s1 E1]; [lia|exact HR|]. rewrite E1.
      unfold change. eexists. rewrite (two_nested q Q1 Q2 t); try assumption; [|lia].
      rewrite (dropLocal_plain ordinaryKey interpol _ RP). reflexivity.
Qed.

Lemma cascade_plain : forall T stubs,
  Forall (plainDoc ordinaryKey interpol) (T :: stubs) -> Forall fitsN (T :: stubs) -> Forall steadyLists (T :: stubs) ->
  exists N r P, prepared ctrl stubs P /\ merges ctrl P true [] T r /\ Forall (plainDoc ordinaryKey interpol) P /\
    forall fuel rounds outer o s, (N <= fuel)%nat -> (3 <= rounds)%nat ->
      exists s', CASCADE fuel rounds outer T o stubs s = Ret (Some r, []) s'.
Proof.
  intros T stubs P Fi S0. inversion P; subst. inversion Fi; subst. inversion S0; subst.
  destruct (prep_plain stubs) as [N [q [Q1 [Q2 [Q3 Q4]]]]]; try assumption.
  exists (Nat.max N (need q T)), (result q T), q. split; [exact Q3|]. split; [apply two_merges; assumption|]. split; [exact Q1|].
  intros fuel rounds outer o s HF HR. unfold cascade, bind.
  destruct (Q4 fuel rounds outer (o_partial o) s) as [s1 E1]; [lia|exact HR|]. rewrite E1.
  unfold change. eexists.
  rewrite (apply_of_nested ordinaryKey ordinary_quiet _ _ _ _ _ _ _ _ _ (result_plain q Q1 T ltac:(assumption))
            (two_nested q Q1 Q2 T ltac:(assumption) ltac:(assumption) ltac:(assumption) fuel rounds outer _ ltac:(lia) HR)).
  reflexivity.
Qed.

(** The cascade of a plain template and plain stubs: every stub is merged with the
    ones after it, the template with all of them. *)
Theorem C02_cascade : forall T stubs,
  Forall (plainDoc ordinaryKey interpol) (T :: stubs) -> Forall fitsN (T :: stubs) -> Forall steadyLists (T :: stubs) ->
  exists N r P, prepared ctrl stubs P /\ merges ctrl P true [] T r /\
    forall fuel rounds outer o s, (N <= fuel)%nat -> (3 <= rounds)%nat ->
      exists s', CASCADE fuel rounds outer T o stubs s = Ret (Some r, []) s'.
Proof.
  intros T stubs H1 H2 H3. destruct (cascade_plain T stubs H1 H2 H3) as [N [r [P [A [B [_ C]]]]]]. eauto 6.
Qed.

(** The last stub that defines the field wins. *)
Theorem C02_last_wins : forall T before s after path t v,
  Forall (plainDoc ordinaryKey interpol) (T :: before ++ s :: after) ->
  Forall fitsN (T :: before ++ s :: after) -> Forall steadyLists (T :: before ++ s :: after) ->
  at_ T path t -> isLeafN t -> at_ s path v ->
  Forall (fun b => lacks b path \/ exists w, at_ b path w /\ isLeafN w) before ->
  Forall (fun a => lacks a path) after ->
  exists N r v', at_ r path v' /\ sameDoc v' v /\
    forall fuel rounds outer o s0, (N <= fuel)%nat -> (3 <= rounds)%nat ->
      exists s', CASCADE fuel rounds outer T o (before ++ s :: after) s0 = Ret (Some r, []) s'.
Proof.
  intros T before s after path t v H1 H2 H3 A L B Hb Ha.
  destruct (cascade_plain _ _ H1 H2 H3) as [N [r [P [Pr [M1 [PP C]]]]]].
  destruct (merges_at _ _ _ _ _ A _ _ M1) as [t' [A' M']]. cbn [app] in M'.
  destruct (prep_defined interpol ctrl before s after path v B Hb Ha P Pr PP) as [w [D S0]].
  exists N, r, t'. split; [exact A'|]. split; [|exact C].
  destruct (merges_leaf _ _ _ _ _ L M') as [[Un _]|[x [D' Sx]]]; [exfalso; eapply defined_undefined; eassumption|].
  rewrite (defined_same _ _ _ _ _ D' D) in Sx. unfold sameDoc in *. congruence.
Qed.

(** A part of the template no stub defines stays as it is. *)
Theorem C02_untouched : forall T stubs path t,
  Forall (plainDoc ordinaryKey interpol) (T :: stubs) -> Forall fitsN (T :: stubs) -> Forall steadyLists (T :: stubs) ->
  at_ T path t -> Forall (fun a => lacks a path) stubs ->
  exists N r t', at_ r path t' /\ sameDoc t' t /\
    forall fuel rounds outer o s0, (N <= fuel)%nat -> (3 <= rounds)%nat ->
      exists s', CASCADE fuel rounds outer T o stubs s0 = Ret (Some r, []) s'.
Proof.
  intros T stubs path t H1 H2 H3 A L.
  destruct (cascade_plain _ _ H1 H2 H3) as [N [r [P [Pr [M1 [PP C]]]]]].
  destruct (merges_at _ _ _ _ _ A _ _ M1) as [t' [A' M']]. cbn [app] in M'.
  exists N, r, t'. split; [exact A'|]. split; [|exact C].
  eapply merges_keep; [|exact M']. eapply prep_undefined; eassumption.
Qed.

(** Keys of stubs never get into the template's maps, and no key gets lost. *)
Theorem C02_keys_kept : forall T stubs,
  Forall (plainDoc ordinaryKey interpol) (T :: stubs) -> Forall fitsN (T :: stubs) -> Forall steadyLists (T :: stubs) ->
  exists N r, (forall path n m, at_ T path n -> val n = VMap m ->
                 exists n' m', at_ r path n' /\ val n' = VMap m' /\ map fst m' = map fst m) /\
              (forall path n l, at_ T path n -> val n = VList l ->
                 exists n' l', at_ r path n' /\ val n' = VList l' /\ length l' = length l) /\
    forall fuel rounds outer o s0, (N <= fuel)%nat -> (3 <= rounds)%nat ->
      exists s', CASCADE fuel rounds outer T o stubs s0 = Ret (Some r, []) s'.
Proof.
  intros T stubs H1 H2 H3. destruct (cascade_plain _ _ H1 H2 H3) as [N [r [P [Pr [M1 [PP C]]]]]].
  exists N, r. split; [|split; [|exact C]].
  - intros path n m A E. destruct (merges_at _ _ _ _ _ A _ _ M1) as [n' [A' M']].
    destruct (merges_map _ _ _ _ _ _ _ M' E) as [m' [E' F]]. exists n', m'. split; [exact A'|]. split; [exact E'|].
    clear - F. induction F as [|x y m m' [K1 _] F IH]; cbn; [reflexivity|]. rewrite K1, IH. reflexivity.
  - intros path n l A E. destruct (merges_at _ _ _ _ _ A _ _ M1) as [n' [A' M']].
    inversion M' as [? ? ? ? ? ? E1|? ? ? l0 steps ? l' E1 E2 _ ML|? ? ? ? N1|? ? ? ? N1]; subst; try congruence;
      try (exfalso; eapply N1; eassumption).
    rewrite E in E1. inversion E1; subst l0. exists n', l'. split; [exact A'|]. split; [exact E2|].
    clear - ML. induction ML; cbn; congruence.
Qed.
End Run.

Print Assumptions C01_plain_document_unchanged.
Print Assumptions C02_cascade.
Print Assumptions C02_last_wins.
Print Assumptions C02_untouched.
Print Assumptions C02_keys_kept.
