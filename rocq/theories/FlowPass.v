(** One round of the merge engine on plain documents. *)
From Coq Require Import Lia Floats.SpecFloat.
From Verif Require Import Core CoreFacts Str StrFacts DecSpec Interp Find FindFacts EquivFacts PropInterp
  Cleanup Unresolved PropUnresolved DeepEq DeepEqFacts Env Flow FlowSpec FlowFacts.

Section Engine.
Variable ST : Type.
Variables interpol ctrl : bool.
Variable reg : registry.
Variable parse : string -> list string -> list string -> option expr.
Variable quote : string -> string.
Variable show : expr -> string.
Variable evaluate : expr -> binding -> bool -> ST -> res ST (value * info * bool).
Variable setTagX : string -> node -> list string -> bool -> ST -> bool * ST.
Variable ctlFunction : cctx -> binding -> ST -> res ST (node * bool).
Variable K : string -> Prop.
Hypothesis KQ : forall k, K k -> quietKey k.
Notation plain := (plainDoc K interpol).
Variable stubs : list node.
Hypothesis SP : Forall plain stubs.
(** paths for which lookups do not crash *)
Variable okPath : list string -> Prop.
Hypothesis ok_lk : forall p, okPath p -> lookupStubs ctrl stubs p <> FPanic.
Hypothesis ok_key : forall p k, okPath p -> K k -> okPath (p ++ [k]).
Hypothesis ok_idx : forall p i, okPath p -> 0 <= i <= max64 -> okPath (p ++ [idx i]).
Hypothesis ok_name : forall p x, okPath p -> okPath (p ++ [("name:" +++ x)%string]).

Notation Lk := (lk ctrl stubs).
Notation pass := (passN ctrl stubs).
Notation F := (flowF ST interpol ctrl reg parse quote show evaluate setTagX ctlFunction).
Notation T := (tagged ST ctrl setTagX).

Definition benv (env : binding) (p : list string) : Prop :=
  b_stubs env = stubs /\ b_stubPath env = p /\ b_nomerge env = false.

Lemma benv_path env p k : benv env p -> benv (withPath k env) (p ++ [k]).
Proof. destruct env. unfold benv. cbn. intros [-> [-> ->]]. auto. Qed.
Lemma benv_scope env p m : benv env p -> benv (withScope m env) p.
Proof. destruct env. unfold benv. cbn. auto. Qed.
Lemma benv_list env p m : benv env p -> benv (withListScope m env) p.
Proof. destruct env. unfold benv. cbn. auto. Qed.
Lemma benv_lk env p : benv env p -> findInStubs ctrl env (b_stubPath env) = Lk p.
Proof. intros [H1 [H2 _]]. unfold findInStubs, lk. rewrite H1, H2. reflexivity. Qed.

Lemma inherited env p s : benv env p -> okPath p ->
  inheritedFlags ST ctrl env s = Ret (0%N, match Lk p with FOk n => Some n | _ => None end) s.
Proof.
  intros B O. unfold inheritedFlags, bind. rewrite (benv_lk env p B).
  pose proof (ok_lk p O) as NP. fold (Lk p) in NP. destruct (Lk p) as [n| |] eqn:E; cbn; [|reflexivity|congruence].
  assert (P : plain n) by (eapply (plain_lookup K); [exact SP|exact E]).
  unfold nflags. destruct (plain_ann K interpol n P) as [-> | ->]; reflexivity.
Qed.

(** overriding a leaf *)
Lemma addFlags0 n : addFlags n 0%N = n.
Proof. destruct n as [v [] s t r]. unfold addFlags, aAddFlags, withAnn. cbn. rewrite N.lor_0_r. reflexivity. Qed.
Lemma plain_subst n : plain n -> substituteNode n = n.
Proof.
  intro H. unfold substituteNode, templateOf.
  destruct H as [v s Hv| |]; cbn; try reflexivity. destruct Hv; reflexivity.
Qed.
Lemma over_leaf n env so p s : ann n = emptyAnn -> benv env p -> okPath p ->
  override ST ctrl n env so (nflags n) (a_replace (ann n)) (a_redirect (ann n)) (a_merged (ann n)) (a_keyName (ann n)) s =
  Ret (if so then match Lk p with FOk ov => ov | _ => n end else n) s.
Proof.
  intros A B O. unfold override, standardOverride, nflags. rewrite A. cbn [emptyAnn a_merged a_replace a_redirect a_keyName a_flags negb andb].
  destruct B as [B1 [B2 B3]]. rewrite B3. destruct so; cbn [andb negb]; [|reflexivity].
  unfold bind. rewrite (benv_lk env p (conj B1 (conj B2 B3))).
  pose proof (ok_lk p O) as NP. fold (Lk p) in NP. destruct (Lk p) as [ov| |] eqn:E; cbn [lookupM]; [|reflexivity|congruence].
  unfold ret. assert (P : plain ov) by (eapply (plain_lookup K); [exact SP|exact E]).
  assert (D : fDefault (nflags ov) = false)
    by (unfold nflags; destruct (plain_ann K interpol ov P) as [-> | ->]; reflexivity).
  unfold nflags in D. rewrite D. cbn [negb andb]. change (fInjected 0%N) with false. cbn [negb].
  rewrite (plain_subst ov P). cbn [String.eqb]. change (fOverridden 0%N) with 0%N. rewrite addFlags0. reflexivity.
Qed.

(** tagged *)
Lemma tagged_plain rec n env so et s r : rec n env so et s = Ret r s -> a_tag (ann r) = "" ->
  T rec n env so et s = Ret r s.
Proof.
  intros H E. unfold tagged, bind. rewrite H. rewrite E. cbn [String.eqb negb]. rewrite andb_false_r. reflexivity.
Qed.

Lemma pass_plain n : plain n -> forall so p, plain (pass so p n).
Proof.
  induction n as [v a s t r IH] using node_ind'. intros H so p.
  destruct v as [| | | | | |l|m| | |];
    try (rewrite pass_leaf by (split; intros; cbn; discriminate);
         destruct so; [|exact H]; destruct (Lk p) eqn:E; [|exact H|exact H];
         eapply (plain_lookup K); [exact SP|exact E]).
  - rewrite pass_list. cbn in IH. inversion H as [? ? Hl|? ? ? Ha Hl|]; subst; [inversion Hl|].
    apply PD_list.
    + destruct (Lk p); [|assumption|assumption]. right. destruct Ha as [-> | ->]; reflexivity.
    + generalize 0 as i. generalize (uniq l []) as u. clear H Ha.
      induction l as [|x l IHl]; intros u i; cbn; [constructor|].
      inversion IH; subst. inversion Hl; subst. constructor; auto.
  - rewrite pass_map. cbn in IH. inversion H as [? ? Hl| |? ? Hs Hk Hm]; subst; [inversion Hl|].
    apply PD_map.
    + eapply msorted_keys_eq; [|exact Hs]. unfold passM, mkeys. rewrite map_map. reflexivity.
    + unfold passM. rewrite Forall_map. exact Hk.
    + unfold passM. rewrite Forall_map. cbn. rewrite Forall_forall in *. intros kv I. apply (IH kv I). apply Hm, I.
Qed.

(** list elements *)
Lemma key_name_eqb : (if String.eqb "" "" then "name" else "")%string = "name".
Proof. reflexivity. Qed.
Lemma findString_name n : plain n -> findString false ctrl "name" n = nameOf n.
Proof.
  intro H. unfold findString, nameOf. cbn [find].
  destruct (val n) as [| | | | | |l|m| | |] eqn:E; try (unfold nextStep; rewrite E; reflexivity).
  - unfold nextStep. rewrite E. destruct (false || listResolved l); [|reflexivity].
    unfold stepList. change (stepIndex "name") with (@None (option Z)).
    replace (stepKey (a_keyName (ann n)) "name") with ("name", "name")
      by (destruct (plain_ann K interpol n H) as [-> | ->]; reflexivity).
    pose proof (plain_list K interpol n l H E) as Hl. clear H E.
    induction Hl as [|x l Hx Hl IH]; cbn [findKeyed]; [reflexivity|].
    unfold keyField at 1. destruct (val x) eqn:Ex; try exact IH.
    destruct (false || mapResolved ctrl m); [|exact IH]. destruct (mget "name" m) as [c|]; [|exact IH].
    destruct (val c); try exact IH. destruct (String.eqb s "name"); [|exact IH]. rewrite Ex. reflexivity.
  - unfold nextStep. rewrite E. pose proof (plain_map K interpol n m H E) as [_ [Hk _]].
    rewrite (quiet_resolved ctrl m (K_quiet K KQ m Hk)). cbn [orb].
    destruct (mget "name" m); reflexivity.
Qed.
Lemma find_name_str n : plain n -> match find true ctrl ["name"] n with
  | FOk c => isExpr (val c) = false /\ (forall x, val c = VStr x -> nameOf n = Some x)
  | FNo => nameOf n = None
  | FPanic => False end.
Proof.
  intro H. cbn [find]. unfold nextStep, nameOf. destruct (val n) as [| | | | | |l|m| | |] eqn:E; try reflexivity.
  - cbn [orb]. unfold stepList. change (stepIndex "name") with (@None (option Z)).
    replace (stepKey (a_keyName (ann n)) "name") with ("name", "name")
      by (destruct (plain_ann K interpol n H) as [-> | ->]; reflexivity).
    pose proof (plain_list K interpol n l H E) as Hl. clear H E.
    induction Hl as [|x l Hx Hl IH]; cbn [findKeyed]; [reflexivity|].
    destruct (keyField true ctrl "name" x) as [t|] eqn:Ef; [|exact IH].
    destruct (String.eqb t "name"); [|exact IH].
    unfold keyField in Ef. destruct (val x) eqn:Ex; try discriminate. split; [reflexivity|]. intros; discriminate.
  - cbn [orb]. pose proof (plain_map K interpol n m H E) as [_ [_ Hp]].
    destruct (mget "name" m) as [c|] eqn:Em; [|reflexivity].
    assert (Pc : plain c). { rewrite Forall_forall in Hp. apply mget_In in Em. apply (Hp _ Em). }
    split; [|intros x ->; reflexivity].
    destruct Pc as [v s Hv| |]; try reflexivity. destruct Hv; reflexivity.
Qed.

Lemma stepName_plain rec i n env u s : plain n ->
  exists keyed resolved unique,
    stepName ST ctrl setTagX rec i n "" env u s = Ret (stepF u i n, keyed, resolved, unique) s /\
    resolved = true /\ (u = true -> unique = match nameOf n with Some _ => true | None => false end).
Proof.
  intro H. unfold stepName, stepF. cbn [String.eqb]. rewrite (findString_name n H).
  pose proof (find_name_str n H) as G. destruct u.
  - destruct (nameOf n) as [x|] eqn:En.
    + do 3 eexists. split; [reflexivity|]. auto.
    + destruct (find true ctrl ["name"] n) as [c| |] eqn:Ef; [|do 3 eexists; split; [reflexivity|auto]|contradiction].
      destruct G as [G1 G2]. destruct (val c) eqn:Ec; try (do 3 eexists; split; [reflexivity|auto]).
      * specialize (G2 _ eq_refl). discriminate.
      * discriminate.
  - destruct (find true ctrl ["name"] n) as [c| |] eqn:Ef; [|do 3 eexists; split; [reflexivity|split; [reflexivity|discriminate]]|contradiction].
    destruct G as [G1 G2]. destruct (val c) eqn:Ec; try (do 3 eexists; split; [reflexivity|split; [reflexivity|discriminate]]).
    discriminate.
Qed.

Lemma name_step_eqb x y : String.eqb ("name:" +++ x) ("name:" +++ y) = String.eqb x y.
Proof.
  destruct (String.eqb_spec x y) as [->|N]; [apply String.eqb_refl|].
  apply eqb_false_neq. intro E. apply N. apply (sapp_inj_l "name:" x y E).
Qed.
Lemma uniqueKeys_plain rec env s : forall l i seen, Forall plain l ->
  uniqueKeys ST ctrl setTagX rec l i "" env (map (fun x => ("name:" +++ x)%string) seen) s = Ret (uniq l seen) s.
Proof.
  induction l as [|v l IH]; intros i seen H; cbn [uniqueKeys uniq]; [reflexivity|].
  inversion H as [|? ? Hv Hl]; subst. unfold bind.
  destruct (stepName_plain rec i v env true s Hv) as [k [r [u [-> [-> Hu]]]]]. rewrite (Hu eq_refl).
  unfold stepF. destruct (nameOf v) as [x|] eqn:En; cbn [negb orb]; [|reflexivity].
  assert (E : existsb (String.eqb ("name:" +++ x)) (map (fun y => ("name:" +++ y)%string) seen) = existsb (String.eqb x) seen).
  { induction seen as [|y seen IHs]; cbn [map existsb]; [reflexivity|]. rewrite name_step_eqb, IHs. reflexivity. }
  rewrite E. destruct (existsb (String.eqb x) seen); cbn [negb andb]; [reflexivity|].
  apply (IH (i + 1) (x :: seen) Hl).
Qed.

(** the engine on a plain document *)
Definition good (rec : node -> binding -> bool -> bool -> M ST node) (d : nat) : Prop :=
  forall n env so p s, plain n -> fitsN n -> (depth n <= d)%nat -> okPath p -> benv env p ->
    rec n env so false s = Ret (pass so p n) s.

Lemma good_tagged rec d n env so p s : good rec d -> plain n -> fitsN n -> (depth n <= d)%nat -> okPath p -> benv env p ->
  T rec n env so false s = Ret (pass so p n) s.
Proof.
  intros G H1 H2 H3 H4 H5. apply tagged_plain; [apply (G n env so p s); assumption|].
  apply (plain_tag K interpol). apply pass_plain, H1.
Qed.

Lemma listEntries_plain rec d env p s u : good rec d -> okPath p -> benv env p ->
  forall l i, Forall plain l -> Forall fitsN l -> Forall (fun n => (depth n <= d)%nat) l ->
    0 <= i -> i + Z.of_nat (length l) <= max64 ->
  listEntries ST ctrl setTagX rec l i "" env u false s = Ret (passL ctrl stubs u p l i) s.
Proof.
  intros G O B. induction l as [|v l IH]; intros i Hp Hf Hd H0 H1; cbn [listEntries passL]; [reflexivity|].
  inversion Hp as [|? ? Pv Pl]; subst. inversion Hf as [|? ? Fv Fl]; subst. inversion Hd as [|? ? Dv Dl]; subst.
  cbn [length] in H1. unfold bind.
  destruct (stepName_plain rec i v env u s Pv) as [k [r [q [-> [-> _]]]]].
  rewrite andb_false_r.
  assert (O' : okPath (p ++ [stepF u i v])).
  { unfold stepF. destruct (if u then nameOf v else None); [apply ok_name, O|apply ok_idx; [exact O|lia]]. }
  rewrite (good_tagged rec d v _ false (p ++ [stepF u i v]) s G Pv Fv Dv O' (benv_path _ _ _ B)).
  rewrite IH by (assumption || lia).
  unfold ret. replace (a_undefined (ann (pass false (p ++ [stepF u i v]) v))) with false; [reflexivity|].
  symmetry. apply (plain_tag K interpol). apply pass_plain, Pv.
Qed.

Lemma splice_plain rec orig root env st s : forall l, Forall plain l -> forall acc,
  spliceMerges ST interpol quote show rec orig root l env
    (mkPS acc (ps_process st) (ps_merged st) (ps_keyName st) (ps_replaced st) (ps_redirect st) (ps_flags st) (ps_tag st) (ps_template st)) s =
  Ret (mkPS (acc ++ l) (ps_process st) (ps_merged st) (ps_keyName st) (ps_replaced st) (ps_redirect st) (ps_flags st) (ps_tag st) (ps_template st)) s.
Proof.
  induction 1 as [|v l Hv Hl IH]; intro acc; cbn [spliceMerges]; [rewrite app_nil_r; reflexivity|].
  rewrite (plain_noent K KQ interpol v Hv).
  assert (E : processKeyTag v = (v, "")).
  { unfold processKeyTag. destruct (val v) eqn:Ev; try reflexivity.
    rewrite quiet_noTag; [reflexivity|]. apply (K_quiet K KQ). apply (plain_map K interpol v m Hv Ev). }
  rewrite E. cbn [String.eqb ps_spliced ps_process ps_merged ps_keyName ps_replaced ps_redirect ps_flags ps_tag ps_template].
  rewrite IH, <- app_assoc. reflexivity.
Qed.
Lemma noControl n : plain n -> getControl ctrl reg n [] = CtlNone.
Proof.
  intro H. destruct (val n) eqn:E; try (unfold getControl; rewrite E; reflexivity).
  apply (quiet_getControl ctrl reg n m E). apply (K_quiet K KQ). apply (plain_map K interpol n m H E).
Qed.
Lemma spliceControls_plain rec env process s : forall l, Forall plain l ->
  spliceControls ST ctrl reg rec l env process s = Ret (l, process) s.
Proof.
  induction 1 as [|v l Hv Hl IH]; cbn [spliceControls]; [reflexivity|].
  rewrite (noControl v Hv). unfold bind. rewrite IH. reflexivity.
Qed.
Lemma useMerge_plain l : Forall plain l -> existsb useMerge l = false.
Proof.
  induction 1 as [|v l Hv Hl IH]; cbn; [reflexivity|]. rewrite IH. unfold useMerge.
  rewrite (plain_noent K KQ interpol v Hv). reflexivity.
Qed.

Lemma filter_inject l : Forall plain l -> filter (fun v => fInject (nflags v)) l = [].
Proof.
  induction 1 as [|v l Hv Hl IH]; cbn [filter]; [reflexivity|]. rewrite IH.
  unfold nflags. destruct (plain_ann K interpol v Hv) as [-> | ->]; reflexivity.
Qed.

Lemma flowList_plain rec d l a src0 env p so s :
  good rec d -> plain (mkNode (VList l) a src0 None None) -> fitsN (mkNode (VList l) a src0 None None) ->
  (depth (mkNode (VList l) a src0 None None) <= S d)%nat -> okPath p -> benv env p ->
  flowList ST interpol ctrl reg quote show setTagX rec (mkNode (VList l) a src0 None None) l env false s =
  Ret (pass so p (mkNode (VList l) a src0 None None)) s.
Proof.
  intros G P Fi D O B. rewrite pass_list. inversion P as [? ? Hl| ? ? ? Ha Hl |]; subst; [inversion Hl|].
  apply fits_list in Fi. destruct Fi as [Fl Fi].
  assert (Dl : Forall (fun n => (depth n <= d)%nat) l).
  { rewrite Forall_forall. intros x I. pose proof (depth_list l a src0 None None x I). lia. }
  unfold flowList. cbn [ann a_merged].
  assert (Am : a_merged a = false /\ a_keyName a = "" /\ a_replace a = false /\ a_redirect a = None /\ a_tag a = "")
    by (destruct Ha as [-> | ->]; repeat split).
  destruct Am as [-> [Ek [Er [Ed Et]]]]. unfold bind at 1. rewrite (inherited env p s B O).
  assert (Nm : fNoMerge (nflags (mkNode (VList l) a src0 None None)) || existsb useMerge l = false).
  { rewrite (useMerge_plain l Hl), orb_false_r. unfold nflags. cbn [ann]. destruct Ha as [-> | ->]; reflexivity. }
  rewrite Nm. unfold bind at 1. rewrite Ek, Er, Ed, Et.
  rewrite (splice_plain rec _ l env (mkPS [] true false "" false None 0%N "" false) s l Hl []).
  cbn [app ps_template ps_spliced ps_process ps_flags ps_keyName ps_redirect ps_merged ps_replaced ps_tag].
  unfold bind at 1. unfold bind at 1. rewrite (spliceControls_plain rec env true s l Hl). cbn [ret fst snd].
  unfold bind at 1. change (fNoMerge 0%N) with false. change (String.eqb "" NO_LIST_KEY) with false. cbv beta iota.
  unfold bind at 1. pose proof (uniqueKeys_plain rec env s l 0 [] Hl) as UK. cbn [map] in UK. rewrite UK.
  unfold bind at 1.
  rewrite (listEntries_plain rec d env p s (uniq l []) G O B l 0 Hl Fi Dl) by lia.
  cbn [ret String.eqb].
  assert (Ia : fInjected (nflags (mkNode (VList l) a src0 None None)) = true -> a = injectedAnn).
  { unfold nflags. cbn [ann]. destruct Ha as [-> | ->]; [discriminate|reflexivity]. }
  pose proof (ok_lk p O) as NP. fold (Lk p) in NP.
  destruct (Lk p) as [st| |] eqn:El; [| |congruence].
  - assert (Ps : plain st) by (eapply (plain_lookup K); [exact SP|exact El]).
    destruct (fInjected (nflags (mkNode (VList l) a src0 None None))) eqn:Ej.
    + rewrite (Ia eq_refl). reflexivity.
    + assert (Ea : a = emptyAnn) by (destruct Ha as [-> | ->]; [reflexivity|discriminate]). subst a.
      assert (Es : match val st with
                   | VList sl => filter (fun v => fInject (nflags v)) sl ++ passL ctrl stubs (uniq l []) p l 0
                   | _ => passL ctrl stubs (uniq l []) p l 0
                   end = passL ctrl stubs (uniq l []) p l 0).
      { destruct (val st) eqn:Ev; try reflexivity. rewrite (filter_inject l0 (plain_list K interpol st l0 Ps Ev)). reflexivity. }
      rewrite Es. reflexivity.
  - destruct Ha as [-> | ->]; reflexivity.
Qed.

Lemma mset_below (k : string) (v : node) m : (forall x, In x (mkeys m) -> String.compare x k = Lt) ->
  mset k v m = m ++ [(k, v)].
Proof.
  induction m as [|[k' v'] m IH]; intro H; [reflexivity|]. cbn [mset app].
  rewrite (proj2 (scmp_gt k k') (H k' (or_introl eq_refl))). rewrite IH; [reflexivity|].
  intros x I. apply H. right. exact I.
Qed.
Lemma mapEntries_plain rec d env p s : good rec d -> okPath p -> benv env p ->
  forall m acc, msorted m -> (forall x k, In x (mkeys acc) -> In k (mkeys m) -> String.compare x k = Lt) ->
    Forall (fun kv => K (fst kv)) m ->
    Forall (fun kv => plain (snd kv)) m -> Forall (fun kv => fitsN (snd kv)) m ->
    Forall (fun kv => (depth (snd kv) <= d)%nat) m ->
  mapEntries ST ctrl reg setTagX rec m MERGEKEY None true true env 0%N acc [] s =
  Ret (acc ++ passM ctrl stubs p m, []) s.
Proof.
  intros G O B. induction m as [|[k v] m IH]; intros acc Hs Ha Hk Hp Hf Hd; cbn [mapEntries].
  - cbn. rewrite app_nil_r. reflexivity.
  - inversion Hk as [|? ? Kk Km]; subst. inversion Hp as [|? ? Pk Pm]; subst.
    inversion Hf as [|? ? Fk Fm]; subst. inversion Hd as [|? ? Dk Dm]; subst. cbn [fst snd] in *.
    destruct Hs as [Hs1 Hs2].
    rewrite (proj2 (eqb_false_neq k MERGEKEY) (proj2 (quiet_neq k (KQ k Kk)))).
    unfold bind. unfold requireTemplate, ctlKey. rewrite (quiet_ctl k (KQ k Kk)).
    rewrite (good_tagged rec d v _ true (p ++ [k]) s G Pk Fk Dk (ok_key p k O Kk) (benv_path _ _ _ B)).
    assert (E : a_undefined (ann (pass true (p ++ [k]) v)) = false)
      by (apply (plain_tag K interpol), pass_plain, Pk). rewrite E.
    change (fPropagateImplied 0%N) with false. cbv iota.
    rewrite mset_below by (intros x I; apply Ha; [exact I|left; reflexivity]).
    rewrite IH; try assumption.
    + rewrite <- app_assoc. reflexivity.
    + intros x k' Ix Ik. unfold mkeys in Ix. rewrite map_app in Ix. apply in_app_or in Ix. destruct Ix as [Ix|[<-|[]]].
      * apply Ha; [exact Ix|right; exact Ik].
      * apply Hs1, Ik.
Qed.

Lemma injectMap_plain sm : Forall (fun kv => plain (snd kv)) sm -> forall m, injectMap sm m = m.
Proof.
  unfold injectMap. induction 1 as [|[k v] sm Hv Hl IH]; intro m; cbn [fold_left snd fst]; [reflexivity|].
  replace (fInject (nflags v)) with false; [apply IH|].
  unfold nflags. destruct (plain_ann K interpol v Hv) as [-> | ->]; reflexivity.
Qed.

Lemma flowMap_plain rec d m src0 env p so s :
  good rec d -> plain (mkNode (VMap m) emptyAnn src0 None None) -> fitsN (mkNode (VMap m) emptyAnn src0 None None) ->
  (depth (mkNode (VMap m) emptyAnn src0 None None) <= S d)%nat -> okPath p -> benv env p ->
  flowMap ST interpol ctrl reg quote show setTagX ctlFunction rec (mkNode (VMap m) emptyAnn src0 None None) m env true false s =
  Ret (pass so p (mkNode (VMap m) emptyAnn src0 None None)) s.
Proof.
  intros G P Fi D O B. rewrite pass_map.
  destruct (plain_map K interpol _ m P eq_refl) as [Hs [Hk Hm]]. apply fits_map in Fi.
  assert (Dl : Forall (fun kv => (depth (snd kv) <= d)%nat) m).
  { rewrite Forall_forall. intros [k x] I. pose proof (depth_map m emptyAnn src0 None None k x I). cbn. lia. }
  pose proof (K_quiet K KQ m Hk) as Q.
  unfold flowMap. unfold bind at 1. rewrite (inherited env p s B O).
  cbn [ann emptyAnn a_tag a_redirect a_replace].
  rewrite !(quiet_mget _ m Q) by apply notquiet_merge.
  unfold bind at 1. unfold ret at 1.
  cbn [ms_processed ms_template ms_add ms_val ms_env ms_flags ms_base ms_merged ms_replace ms_redirect ms_err ms_tag negb andb].
  unfold bind at 1. rewrite (mapEntries_plain rec d (withScope m env) p s G O (benv_scope _ _ _ B) m [] Hs) by (assumption || (intros ? ? [])).
  cbn [app].
  assert (E : (match (match Lk p with FOk n => Some n | _ => None end) with
               | Some st => match val st with
                            | VMap sm => if fInjected 0%N then passM ctrl stubs p m else injectMap sm (passM ctrl stubs p m)
                            | _ => passM ctrl stubs p m
                            end
               | None => passM ctrl stubs p m
               end) = passM ctrl stubs p m).
  { destruct (Lk p) as [st| |] eqn:El; try reflexivity.
    assert (Ps : plain st) by (eapply (plain_lookup K); [exact SP|exact El]).
    destruct (val st) eqn:Ev; try reflexivity. change (fInjected 0%N) with false. cbv iota.
    apply injectMap_plain. apply (plain_map K interpol st m0 Ps Ev). }
  rewrite E. unfold bind. cbn [a_failed].
  assert (C : flowControl ST ctrl reg ctlFunction
                (redirectNode (VMap (passM ctrl stubs p m)) (mkNode (VMap m) emptyAnn src0 None None) None)
                [] (withScope m env) s = Ret (mkNode (VMap (passM ctrl stubs p m)) emptyAnn src0 None None) s).
  { unfold flowControl. rewrite (quiet_getControl ctrl reg _ (passM ctrl stubs p m)); [reflexivity|reflexivity|].
    unfold quietMap, passM. rewrite Forall_map. exact Q. }
  change (a_failed emptyAnn) with false. cbv iota. rewrite C. reflexivity.
Qed.

Lemma flowF_plain : forall fuel, good (F fuel) fuel.
Proof.
  induction fuel as [|f IH]; intros n env so p s P Fi D O B; [pose proof (depth_pos n); lia|].
  cbn [flowF]. unfold flowNode.
  assert (A : a_redirect (ann n) = None /\ a_replace (ann n) = false /\ a_merged (ann n) = false)
    by (destruct (plain_ann K interpol n P) as [-> | ->]; repeat split).
  destruct A as [A1 [A2 A3]]. rewrite A1, A2, A3. rewrite andb_false_r.
  destruct P as [v s0 Hv|l a s0 Ha Hl|m s0 Hs Hk Hm].
  - cbn [val]. assert (IL : isLeaf (val (mkNode v emptyAnn s0 None None)))
      by (inversion Hv; subst; split; intros; cbn; discriminate).
    rewrite (pass_leaf ctrl stubs so p _ IL).
    pose proof (over_leaf (mkNode v emptyAnn s0 None None) env so p s eq_refl B O) as OL.
    cbn [ann emptyAnn a_replace a_redirect a_merged a_keyName] in OL.
    destruct Hv as [|b|z|g Hg Hz|t Ht]; try exact OL.
    unfold flowString. rewrite (literal_embedded quote interpol (mkNode (VStr t) emptyAnn s0 None None) t eq_refl Ht). cbn [val isExpr]. exact OL.
  - cbn [val]. apply (flowList_plain (F f) f l a s0 env p so s IH); try assumption. apply PD_list; assumption.
  - cbn [val]. rewrite noControl by (apply PD_map; assumption).
    apply (flowMap_plain (F f) f m s0 env p so s IH); try assumption. apply PD_map; assumption.
Qed.
End Engine.
