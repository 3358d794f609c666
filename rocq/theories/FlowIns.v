(** The merge engine on templates with merge expressions (C56): rounds and fixpoint. *)
From Coq Require Import Lia.
From Verif Require Import Core CoreFacts Str StrFacts DecSpec Interp Find FindFacts EquivFacts PropInterp
  Cleanup Unresolved PropUnresolved DeepEq DeepEqFacts Env Flow FlowSpec FlowFacts FlowPass FlowMerge FlowStable
  Info Eval MergeSpec.
Import ListNotations.
Open Scope string_scope. Open Scope list_scope.

(** ** finished documents: plain values with annotations that do not matter any more *)
Definition quietA (a : annotation) : Prop :=
  a_failed a = false /\ a_undefined a = false /\ a_tag a = "" /\
  (a_flags a = 0%N \/ a_flags a = FLAG_INJECTED \/ a_flags a = FLAG_NOMERGE \/ a_flags a = N.lor FLAG_NOMERGE FLAG_INJECTED).
Lemma plain_flags K i n : plainDoc K i n -> a_flags (ann n) = 0%N \/ a_flags (ann n) = FLAG_INJECTED.
Proof. intro P. destruct (plain_ann K i n P) as [-> | ->]; cbn; auto. Qed.
Lemma plain_quiet K i n : plainDoc K i n -> quietA (ann n).
Proof. intro P. unfold quietA. destruct (plain_ann K i n P) as [-> | ->]; cbn; auto 6. Qed.
Section Fin.
Variable interpol : bool.
Notation plain := (plainDoc ordinaryKey interpol).
Inductive fin : node -> Prop :=
| fin_leaf v a s : leaf interpol v -> quietA a -> fin (mkNode v a s None None)
| fin_list l a s : quietA a -> Forall fin l -> fin (mkNode (VList l) a s None None)
| fin_map m a s : quietA a -> Forall (fun kv => ordinaryKey (fst kv)) m -> Forall (fun kv => fin (snd kv)) m -> fin (mkNode (VMap m) a s None None).
Lemma fin_lv l a s t r : fin (mkNode (VList l) a s t r) -> Forall fin l.
Proof. inversion 1 as [? ? ? L|?|?]; subst; [inversion L|assumption]. Qed.
Lemma fin_mv m a s t r : fin (mkNode (VMap m) a s t r) -> Forall (fun kv => ordinaryKey (fst kv)) m /\ Forall (fun kv => fin (snd kv)) m.
Proof. inversion 1 as [? ? ? L|?|?]; subst; [inversion L|auto]. Qed.
Lemma fin_ann n : fin n -> quietA (ann n).
Proof. now destruct 1. Qed.
Lemma fin_plain n : plain n -> fin n.
Proof.
  induction n as [v a s t r IH] using node_ind'. intro P. pose proof (plain_quiet _ _ _ P) as Q. cbn [ann] in Q.
  inversion P as [? ? L|l ? ? Ha Hl|m ? Hs Hk Hm]; subst.
  - now apply fin_leaf.
  - apply fin_list; [exact Q|]. cbn in IH. rewrite Forall_forall in *. auto.
  - apply fin_map; [exact Q|exact Hk|]. cbn in IH. rewrite Forall_forall in *. auto.
Qed.
Lemma fin_withAnn n a s : fin n -> quietA a -> fin (mkNode (val n) a s None None).
Proof. destruct 1; intro; constructor; assumption. Qed.

Lemma mapHere_fin f n : fin n -> mapHere (mapResolver f) n = n.
Proof.
  induction n as [v an s t r IH] using node_ind'. intro P. cbn [mapHere]. f_equal.
  destruct v as [|x|x|x|x|x|l|m|x| |]; try (inversion P as [? ? ? Hx| |]; subst; inversion Hx; fail); try reflexivity.
  - f_equal. pose proof (fin_lv _ _ _ _ _ P) as Pl. cbn in IH. clear P.
    induction l as [|x l IHl]; [reflexivity|]. inversion IH; subst. inversion Pl; subst. cbn [map]. f_equal; auto.
  - f_equal. pose proof (fin_mv _ _ _ _ _ P) as [_ Pl]. cbn in IH. clear P.
    induction m as [|[k x] l IHl]; [reflexivity|]. inversion IH; subst. inversion Pl; subst. cbn [map]. cbn [snd] in *.
    f_equal; [f_equal|]; auto.
Qed.
Lemma mapBelow_id f n : mapHere f n = n -> mapBelow f n = n.
Proof. destruct n as [v]. destruct v; cbn; congruence. Qed.
Lemma unresolved_fin parses parseIssue n : fin n -> forall ctx, findUnresolved parses parseIssue n ctx = [].
Proof.
  induction n as [v an s t r IH] using node_ind'. intros P ctx. cbn [findUnresolved].
  assert (HA : a_failed an = false) by apply (fin_ann _ P).
  rewrite HA. cbn [andb].
  destruct v as [|x|x|x|x|x|l|m|x| |]; try (inversion P as [? ? ? Hx| |]; subst; inversion Hx; fail); try reflexivity.
  - unfold embedded. cbn [val]. inversion P as [? ? ? Hx| |]; subst; inversion Hx as [| | | |? Ht]; subst.
    rewrite (literal_enclosed _ _ Ht). reflexivity.
  - pose proof (fin_lv _ _ _ _ _ P) as Pl. cbn in IH. clear P.
    match goal with |- order_groups ?g = [] => assert (E : g = []); [|rewrite E; reflexivity] end.
    generalize 0%Z as i. induction l as [|x l IHl]; intro i; [reflexivity|]. inversion IH; subst. inversion Pl; subst.
    rewrite H1 by assumption. cbn [app]. apply IHl; assumption.
  - pose proof (fin_mv _ _ _ _ _ P) as [_ Pl]. cbn in IH. clear P.
    match goal with |- order_groups ?g = [] => assert (E : g = []); [|rewrite E; reflexivity] end.
    induction m as [|[k x] l IHl]; [reflexivity|]. inversion IH; subst. inversion Pl; subst. cbn [snd] in *.
    rewrite H1 by assumption. cbn [app]. apply IHl; assumption.
Qed.
Lemma cleanup_fin (test : unit -> node -> bool * unit) n :
  (forall x, fin x -> test tt x = (true, tt)) -> fin n -> cleanup unit test tt n = n.
Proof.
  intro HT. induction n as [v an s t r IH] using node_ind'. intro P. cbn [cleanup]. f_equal.
  destruct v as [|x|x|x|x|x|l|m|x| |]; try reflexivity.
  - f_equal. pose proof (fin_lv _ _ _ _ _ P) as Pl. cbn in IH. clear P.
    induction l as [|x l IHl]; [reflexivity|]. inversion IH; subst. inversion Pl; subst. rewrite HT by assumption. f_equal; auto.
  - f_equal. pose proof (fin_mv _ _ _ _ _ P) as [_ Pl]. cbn in IH. clear P.
    induction m as [|[k x] l IHl]; [reflexivity|]. inversion IH; subst. inversion Pl; subst. cbn [snd] in *.
    rewrite HT by assumption. f_equal; [f_equal|]; auto.
Qed.
Lemma dropTemporary_fin n : fin n -> dropTemporary n = n.
Proof.
  apply cleanup_fin. intros x P. unfold discardTemporary, nflags. destruct (fin_ann _ P) as (_ & _ & _ & [-> | [-> | [-> | ->]]]); reflexivity.
Qed.
Lemma unescape_fin quote i n : (i = true -> interpol = true) -> fin n -> unescape1 quote i n = n.
Proof.
  intro Hi. induction n as [v an s t r IH] using node_ind'. intro P. cbn [unescape1].
  destruct v as [|x|x|x|x|x|l|m|x| |]; try reflexivity.
  - unfold unescapeDynaml. cbn [val]. inversion P as [? ? ? Hx| |]; subst; inversion Hx as [| | | |? Ht]; subst.
    rewrite (literal_enclosed _ _ Ht), (literal_unescape quote interpol i x Hi Ht), String.eqb_refl. reflexivity.
  - unfold unescapeDynaml. cbn [val]. do 2 f_equal.
    pose proof (fin_lv _ _ _ _ _ P) as Pl. cbn in IH. clear P.
    induction l as [|x l IHl]; [reflexivity|]. inversion IH; subst. inversion Pl; subst. cbn [map]. f_equal; auto.
  - pose proof (fin_mv _ _ _ _ _ P) as [Pk Pl]. cbn in IH. clear P.
    assert (E : map (fun p : string * node => match p with (k, e) => (k, unescape1 quote i e) end) m = m).
    { clear Pk. induction m as [|[k x] l IHl]; [reflexivity|]. inversion IH; subst. inversion Pl; subst. cbn [map]. cbn [snd] in *.
      f_equal; [f_equal|]; auto. }
    rewrite E. unfold unescapeDynaml. cbn [val].
    assert (Ex : existsb (fun p : string * node => escapedKey (fst p)) m = false).
    { clear - Pk. induction Pk as [|[k x] l Hk Hl IHl]; [reflexivity|]. cbn. rewrite IHl.
      rewrite (quiet_unescaped k (ordinary_quiet k Hk)). reflexivity. }
    rewrite Ex. reflexivity.
Qed.
Lemma unescapeDoc_fin quote i n : (i = true -> interpol = true) -> fin n -> unescapeDoc quote i n = n.
Proof.
  intros Hi P. destruct n as [v an s t r]. destruct v as [|x|x|x|x|x|l|m|x| |]; try reflexivity; cbn [unescapeDoc]; do 2 f_equal.
  - pose proof (fin_lv _ _ _ _ _ P) as Pl. clear P. induction Pl; [reflexivity|]. cbn [map].
    rewrite (unescape_fin quote i x Hi H). f_equal. assumption.
  - pose proof (fin_mv _ _ _ _ _ P) as [_ Pl]. clear P. induction Pl as [|[k x] l H Hl IHl]; [reflexivity|]. cbn [map fst snd] in *.
    rewrite (unescape_fin quote i x Hi H). f_equal. assumption.
Qed.
Lemma nonan_tann a : nonan (tann a) = true.
Proof.
  assert (T : forall l, forallb nonan (map TS l) = true) by (induction l; auto).
  assert (O : forall o, nonan (topt tss o) = true).
  { intros [l|]; [|reflexivity]. unfold topt, tss, tl. rewrite nonan_TN. cbn [forallb]. now rewrite nonan_TN, T. }
  unfold tann, tl. rewrite nonan_TN. cbn [forallb]. rewrite !O. reflexivity.
Qed.
Lemma nonan_fin n : fin n -> nonan (encN n) = true.
Proof.
  induction n as [v an s t r IH] using node_ind'. intro P. cbn [encN].
  assert (TR : t = None /\ r = None) by (inversion P; auto). destruct TR as [-> ->].
  assert (E : forall x, nonan (TN 21 [x; tann an; TS s; TN 1 []; TN 1 []]) = nonan x).
  { intro x. rewrite nonan_TN. cbn [forallb]. rewrite nonan_tann. cbn. now rewrite andb_true_r. }
  rewrite E. clear E.
  destruct v as [|x|x|x|x|x|l|m|x| |]; try (inversion P as [? ? ? Hx| |]; subst; inversion Hx; fail); try reflexivity.
  - inversion P as [? ? ? Hx| |]; subst; inversion Hx as [| | |? Hf _|]; subst. cbn. destruct x; try reflexivity. congruence.
  - pose proof (fin_lv _ _ _ _ _ P) as Pl. cbn in IH. clear P. cbn [encV]. rewrite nonan_TN.
    induction l as [|x l IHl]; [reflexivity|]. inversion IH; subst. inversion Pl; subst. cbn [map forallb]. rewrite H1 by assumption. cbn [andb]. auto.
  - pose proof (fin_mv _ _ _ _ _ P) as [_ Pl]. cbn in IH. clear P. cbn [encV]. rewrite nonan_TN.
    induction m as [|[k x] l IHl]; [reflexivity|]. inversion IH; subst. inversion Pl; subst. cbn [snd] in *. cbn [map forallb]. rewrite nonan_TN. cbn [forallb nonan]. rewrite H1 by assumption. cbn [andb]. auto.
Qed.
Lemma deepEq_fin n : fin n -> deepEqN n n = true.
Proof. intro P. apply tree_eqb_refl, nonan_fin, P. Qed.
End Fin.

(** ** texts, keys *)
Lemma not_stringsym : forall k, ordinaryKey k -> k <> "<<" /\ k <> MERGEKEY.
Proof. intros k O. apply quiet_neq, ordinary_quiet, O. Qed.
Definition own (m : smap node) : smap node := filter (fun kv => negb (String.eqb (fst kv) "<<")) m.
Definition insert (o base : smap node) : smap node := fold_left (fun acc kv => mset (fst kv) (snd kv) acc) o base.
(** the keys of a template map: ordinary ones and the merge key *)
Definition okKeys (m : smap node) : Prop := Forall (fun kv => fst kv = "<<" \/ ordinaryKey (fst kv)) m.
Lemma own_In m k (x : node) : In (k, x) (own m) <-> In (k, x) m /\ k <> "<<".
Proof.
  unfold own. rewrite filter_In. cbn [fst]. rewrite negb_true_iff. rewrite String.eqb_neq. reflexivity.
Qed.
Lemma own_ordinary m : okKeys m -> Forall (fun kv => ordinaryKey (fst kv)) (own m).
Proof.
  intro H. unfold okKeys in H. rewrite Forall_forall in *. intros [k x] I. apply own_In in I. destruct I as [I N].
  destruct (H _ I) as [E|O]; [contradiction|exact O].
Qed.
Lemma own_id m : Forall (fun kv => ordinaryKey (fst kv)) m -> own m = m.
Proof.
  induction 1 as [|[k x] m H _ IH]; [reflexivity|]. unfold own in *. cbn [filter fst] in *.
  rewrite (proj2 (String.eqb_neq k "<<") (proj1 (not_stringsym k H))). cbn [negb]. now f_equal.
Qed.
Lemma insert_get : forall o base k, mget k (insert o base) = match mget k (rev o) with Some y => Some y | None => mget k base end.
Proof.
  induction o as [|[k0 x] o IH] using rev_ind; intros base k; [reflexivity|]. unfold insert in *. rewrite fold_left_app. cbn [fold_left fst snd].
  rewrite rev_app_distr. cbn [rev app mget]. rewrite mget_mset. destruct (String.eqb_spec k k0) as [->|N]; [reflexivity|]. apply IH.
Qed.
Lemma insert_sorted : forall o base, msorted base -> msorted (insert o base).
Proof. induction o as [|[k x] o IH]; intros base H; [exact H|]. cbn [insert fold_left]. apply IH, msorted_mset, H. Qed.
Lemma insert_keys : forall o base k, In k (mkeys (insert o base)) <-> In k (mkeys o) \/ In k (mkeys base).
Proof.
  induction o as [|[k0 x] o IH]; intros base k; [cbn; tauto|]. cbn [insert fold_left]. fold (insert o (mset k0 x base)). cbn [fst snd]. rewrite IH, mkeys_mset. cbn. intuition congruence.
Qed.
Lemma mget_rev : forall (o : smap node) k, NoDup (mkeys o) -> mget k (rev o) = mget k o.
Proof.
  intros o k N. destruct (mget k o) as [y|] eqn:E.
  - apply In_mget; [unfold mkeys; rewrite map_rev; now apply NoDup_rev|]. apply -> in_rev. now apply mget_In.
  - apply mget_None. apply mget_None in E. intro I. apply E. unfold mkeys in *. rewrite map_rev in I. now apply in_rev.
Qed.
Lemma insert_nil : forall o, msorted o -> insert o [] = o.
Proof.
  enough (H : forall o acc, msorted o -> (forall x k, In x (mkeys acc) -> In k (mkeys o) -> String.compare x k = Lt) -> insert o acc = acc ++ o).
  { intros o S. rewrite H; [reflexivity|exact S|intros ? ? []]. }
  induction o as [|[k x] o IH]; intros acc S A; [cbn; now rewrite app_nil_r|]. cbn [insert fold_left fst snd]. destruct S as [S1 S2].
  rewrite mset_below by (intros y I; apply A; [exact I|now left]). fold (insert o (acc ++ [(k, x)])). rewrite IH; [now rewrite <- app_assoc|exact S2|].
  intros y k' I1 I2. unfold mkeys in I1. rewrite map_app in I1. apply in_app_or in I1. destruct I1 as [I1|[<-|[]]]; [apply A; [exact I1|now right]|apply S1, I2].
Qed.

Section Ins.
Variable ST : Type.
Variables interpol ctrl : bool.
Variable reg : registry.
Variable parse : string -> list string -> list string -> option expr.
Variable quote : string -> string.
Variable show : expr -> string.
Variable ev : nat -> expr -> binding -> bool -> ST -> res ST (value * info * bool).
Variable setTagX : string -> node -> list string -> bool -> ST -> bool * ST.
Variable ctl : nat -> cctx -> binding -> ST -> res ST (node * bool).
Notation plain := (plainDoc ordinaryKey interpol).
Variable stubs : list node.
Hypothesis SP : Forall plain stubs.
Hypothesis SF : Forall fitsN stubs.
Hypothesis EVM : forall e q rd rp rq nn env s, (2 <= e)%nat -> ev e (EMerge q rd rp rq nn "") env false s = evalMerge ST ctrl q rd rp rq nn "" env s.
Hypothesis EVF : forall e q rd rp rq d env n s, (2 <= e)%nat -> findInStubs ctrl env q = FOk n -> isExpr (val n) = false ->
  ev e (EOr (EMerge q rd rp rq false "") d) env false s = evalMerge ST ctrl q rd rp rq false "" env s.
Hypothesis EVN : forall e q rd rp rq d x env s, (2 <= e)%nat -> literal interpol d x -> findInStubs ctrl env q = FNo ->
  ev e (EOr (EMerge q rd rp rq false "") d) env false s =
  Ret (x, mkInfo (if rd : bool then Some q else None) false false false "" "" false false false false noIssue 0%N, true) s.
Notation Lk := (lk ctrl stubs).
Notation pass := (passN ctrl stubs).
Notation F e := (flowF ST interpol ctrl reg parse quote show (ev e) setTagX (ctl e)).
Notation T := (tagged ST ctrl setTagX).
Notation LOOP e := (flowLoop ST interpol ctrl reg parse quote show (ev e) setTagX (ctl e)).
Notation fin := (fin interpol).
Notation benv := (benv stubs).

Definition env2 (env : binding) (pa p : list string) : Prop := benv env p /\ b_path env = pa.
Lemma env2_path env pa p k : env2 env pa p -> env2 (withPath k env) (pa ++ [k]) (p ++ [k]).
Proof. intros [B <-]. split; [now apply benv_path|]. destruct env. reflexivity. Qed.
Lemma env2_scope env pa p m : env2 env pa p -> env2 (withScope m env) pa p.
Proof. intros [B <-]. split; [now apply benv_scope|]. destruct env. reflexivity. Qed.
Lemma env2_redirect env pa p q : q <> [] -> env2 env pa p -> env2 (redirectOverwrite q env) pa q.
Proof. intros N [[B1 [B2 B3]] <-]. destruct env. cbn in *. destruct q; [congruence|]. repeat split; assumption. Qed.
Lemma env2_source env pa p q : env2 env pa p -> env2 (withSource q env) pa p.
Proof. intros [[B1 [B2 B3]] <-]. destruct env. cbn in *. repeat split; assumption. Qed.

Definition calm (n : node) : Prop := (forall f, mapHere (mapResolver f) n = n) /\ a_undefined (ann n) = false /\ a_tag (ann n) = "".
Lemma fin_calm n : fin n -> calm n.
Proof. intro H. split; [intro f; now apply (mapHere_fin interpol)|]. destruct (fin_ann _ _ H) as (_ & U & T & _). auto. Qed.
(** [comes pa p n n']: in one round the node [n] at the position becomes [n'] *)
Definition comes (pa p : list string) (n n' : node) : Prop :=
  exists N, forall e f env s, (N <= e)%nat -> (N <= f)%nat -> env2 env pa p -> F e f n env true false s = Ret n' s.
(** [lifeI I pa p n r w]: in at most [w] rounds the node becomes the steady node [r]; [I] holds in all rounds *)
Inductive lifeI (I : node -> Prop) (pa p : list string) : node -> node -> nat -> Prop :=
| li_rest n : I n -> fin n -> comes pa p n n -> lifeI I pa p n n 0
| li_go n n' r w : I n -> calm n -> comes pa p n n' -> deepEqN n n' = false -> lifeI I pa p n' r w -> lifeI I pa p n r (S w).
Definition anyN (_ : node) : Prop := True.
Notation life := (lifeI anyN).
Lemma life_rest pa p n : fin n -> comes pa p n n -> life pa p n n 0.
Proof. apply li_rest. exact Logic.I. Qed.
Lemma life_go pa p n n' r w : calm n -> comes pa p n n' -> deepEqN n n' = false -> life pa p n' r w -> life pa p n r (S w).
Proof. apply li_go. exact Logic.I. Qed.
Lemma life_weaken (I I' : node -> Prop) pa p n r w : (forall x, I x -> I' x) -> lifeI I pa p n r w -> lifeI I' pa p n r w.
Proof. intro H. induction 1; [apply li_rest|eapply li_go]; eauto. Qed.
Lemma life_any I pa p n r w : lifeI I pa p n r w -> life pa p n r w.
Proof. apply life_weaken. intros. exact Logic.I. Qed.
Lemma life_here I pa p n r w : lifeI I pa p n r w -> I n.
Proof. now destruct 1. Qed.
Lemma life_calm I pa p n r w : lifeI I pa p n r w -> calm n.
Proof. destruct 1; [now apply fin_calm|assumption]. Qed.
Lemma life_fin I pa p n r w : lifeI I pa p n r w -> fin r.
Proof. induction 1; assumption. Qed.
Lemma life_step I pa p n r w : lifeI I pa p n r w -> exists n' w', comes pa p n n' /\ lifeI I pa p n' r w' /\ (w = 0%nat /\ w' = 0%nat /\ n' = n /\ r = n \/ (w' < w)%nat /\ deepEqN n n' = false).
Proof.
  intro H. destruct H as [n HI Fi C|n n' r w HI Ca C D L].
  - exists n, 0%nat. split; [exact C|]. split; [now apply li_rest|auto 6].
  - exists n', w. split; [exact C|]. split; [exact L|]. right. split; [lia|exact D].
Qed.

(** ** maps *)
Definition stepsTo (pa q : list string) (o o' : smap node) : Prop :=
  Forall2 (fun x y => fst y = fst x /\ calm (snd y) /\ comes (pa ++ [fst x]) (q ++ [fst x]) (snd x) (snd y)) o o'.
Lemma entries_step : forall pa q m o', okKeys m -> stepsTo pa q (own m) o' -> exists N, forall e f env mk base s, (N <= e)%nat -> (N <= f)%nat ->
  env2 env pa q -> (mk = "<<" \/ mk = MERGEKEY /\ own m = m) ->
  mapEntries ST ctrl reg setTagX (F e f) m mk None true true env 0%N base [] s = Ret (insert o' base, []) s.
Proof.
  intros pa q. induction m as [|[k x] m IH]; intros o' K St.
  - inversion St; subst. exists 0%nat. reflexivity.
  - inversion K as [|? ? Kk Km]; subst. cbn [fst] in Kk. unfold own in St. cbn [filter fst] in St. fold (own m) in St.
    destruct (String.eqb_spec k "<<") as [->|NE]; cbn [negb] in St.
    + destruct (IH o' Km St) as (N & H). exists N. intros e f env mk base s L1 L2 E [->|[-> O]].
      * cbn [mapEntries]. cbn [String.eqb Ascii.eqb Bool.eqb]. apply H; auto.
      * exfalso. assert (I : In ("<<", x) (own (("<<", x) :: m))) by (rewrite O; now left). apply own_In in I. destruct I as [_ I]. now apply I.
    + destruct Kk as [?|Kk]; [contradiction|]. inversion St as [|? [k' y] ? o1 [E1 [Cy (N1 & C)]] St']; subst. cbn [fst snd] in *. subst k'.
      destruct (IH o1 Km St') as (N & H). exists (Nat.max N N1). intros e f env mk base s L1 L2 E MK. cbn [mapEntries].
      assert (MK' : String.eqb k mk = false). { apply String.eqb_neq. destruct (not_stringsym k Kk). destruct MK as [->|[-> _]]; assumption. }
      rewrite MK'. unfold bind. unfold requireTemplate, ctlKey. rewrite (quiet_ctl k (ordinary_quiet _ Kk)).
      rewrite (tagged_plain ST ctrl setTagX (F e f) x (withPath k env) true false s y); [|apply C; [lia|lia|now apply env2_path]|apply Cy].
      destruct Cy as (_ & U & _). rewrite U. change (fPropagateImplied 0%N) with false. cbv iota.
      rewrite (H e f env mk (mset k y base) s); [reflexivity|lia|lia|exact E|].
      destruct MK as [->|[-> O]]; [now left|right]. split; [reflexivity|]. unfold own in O. cbn [filter fst] in O. rewrite (proj2 (String.eqb_neq k "<<") NE) in O. cbn [negb] in O. injection O as O. exact O.
Qed.
Definition mapAnn (p q : list string) (a : annotation) : Prop :=
  quietA a /\ a_replace a = false /\ a_merged a = false /\ (a_redirect a = None /\ q = p \/ a_redirect a = Some q /\ q <> []).
Lemma okNP : forall p, okP p -> lookupStubs ctrl stubs p <> FPanic.
Proof. intros p O. exact (lk_nopanic interpol ctrl stubs SP SF p O). Qed.
Lemma inherit env pa p s : env2 env pa p -> okP p -> inheritedFlags ST ctrl env s = Ret (0%N, match Lk p with FOk n => Some n | _ => None end) s.
Proof. intros [B _] O. exact (inherited ST interpol ctrl ordinaryKey stubs SP okP okNP env p s B O). Qed.
Lemma inject_id q : okP q -> forall newMap : smap node,
  (match (match Lk q with FOk n => Some n | _ => None end) with
   | Some st => match val st with VMap sm => if fInjected 0%N then newMap else injectMap sm newMap | _ => newMap end
   | None => newMap end) = newMap.
Proof.
  intros O newMap. destruct (Lk q) as [st| |] eqn:El; try reflexivity.
  assert (Ps : plain st) by (eapply (plain_lookup ordinaryKey); [exact SP|exact El]).
  destruct (val st) eqn:Ev; try reflexivity. change (fInjected 0%N) with false. cbv iota.
  apply (injectMap_plain interpol ordinaryKey). apply (plain_map ordinaryKey interpol st m Ps Ev).
Qed.
Lemma steps_keys pa q o o' : stepsTo pa q o o' -> mkeys o' = mkeys o.
Proof. induction 1 as [|x y o o' [E _] _ IH]; [reflexivity|]. unfold mkeys in *. cbn [map]. now rewrite E, IH. Qed.
Lemma steps_ordinary pa q o o' : stepsTo pa q o o' -> Forall (fun kv => ordinaryKey (fst kv)) o -> Forall (fun kv => ordinaryKey (fst kv)) o'.
Proof. induction 1 as [|x y o o' [E _] _ IH]; intro H; inversion H; subst; constructor; [now rewrite E|auto]. Qed.
Lemma quiet_of m : Forall (fun kv : string * node => ordinaryKey (fst kv)) m -> quietMap m.
Proof. apply K_quiet. exact ordinary_quiet. Qed.
Lemma update_same n t : a_tag (ann n) = t -> updateNode n 0%N t = n.
Proof. intros <-. unfold updateNode. rewrite N.lor_0_l, N.eqb_refl, String.eqb_refl, orb_true_r. reflexivity. Qed.
Lemma map_step pa p q m m' a s0 : msorted m -> Forall (fun kv => ordinaryKey (fst kv)) m -> mapAnn p q a -> okP q -> stepsTo pa q m m' ->
  comes pa p (mkNode (VMap m) a s0 None None) (mkNode (VMap m') a s0 None None).
Proof.
  intros So K (Q & Rp & Me & Rd) O St. pose proof (quiet_of _ K) as QM.
  assert (OK : okKeys m) by (unfold okKeys; rewrite Forall_forall in *; intros kv I; right; auto).
  pose proof (own_id m K) as OI. destruct (entries_step pa q m m' OK) as (N & H); [now rewrite OI|].
  exists (S N). intros e f env s L1 L2 E. destruct f as [|f]; [lia|]. cbn [flowF]. unfold flowNode. cbn [ann val isExpr]. rewrite Rp, Me. cbn [andb negb].
  rewrite (quiet_getControl ctrl reg _ m); [|reflexivity|exact QM].
  set (env1 := match a_redirect a with Some r => redirectOverwrite r env | None => env end).
  assert (E1 : env2 env1 pa q). { unfold env1. destruct Rd as [[-> ->]|[-> NE]]; [exact E|now apply (env2_redirect env pa p)]. }
  clearbody env1. unfold flowMap. unfold bind at 1. rewrite (inherit env1 pa q s E1 O). cbn [ann].
  rewrite !(quiet_mget _ m QM) by apply notquiet_merge.
  unfold bind at 1. unfold ret at 1.
  cbn [ms_processed ms_template ms_add ms_val ms_env ms_flags ms_base ms_merged ms_replace ms_redirect ms_err ms_tag negb andb].
  unfold bind at 1. rewrite (H e f (withScope m env1) MERGEKEY [] s); [|lia|lia|now apply env2_scope|auto].
  assert (So' : msorted m') by (eapply msorted_keys_eq; [|exact So]; symmetry; eapply steps_keys, St).
  rewrite (insert_nil m' So'). rewrite (inject_id q O m'). rewrite Rp. unfold bind. destruct Q as (QF & QU & QT & QG). rewrite QF.
  assert (RN : redirectNode (VMap m') (mkNode (VMap m) a s0 None None) (a_redirect a) = mkNode (VMap m') a s0 None None) by (destruct a; reflexivity).
  unfold flowControl. rewrite RN. rewrite (quiet_getControl ctrl reg _ m'); [|reflexivity|exact (quiet_of _ (steps_ordinary _ _ _ _ St K))].
  unfold ret. rewrite update_same; reflexivity.
Qed.

Definition enc1 (p : string * node) : tree := match p with (k, n) => TN 3 [TS k; encN n] end.
Lemma deepEq_maps m m' a a' s s' : trees_eqb (map enc1 m) (map enc1 m') = false -> deepEqN (mkNode (VMap m) a s None None) (mkNode (VMap m') a' s' None None) = false.
Proof.
  intro H. unfold deepEqN. cbn [encN]. rewrite tree_eqb_TN. apply andb_false_iff. right. rewrite trees_cons. apply andb_false_iff. left. cbn [encV].
  rewrite tree_eqb_TN. apply andb_false_iff. right. exact H.
Qed.
Lemma enc1_eq k k' n n' : tree_eqb (enc1 (k, n)) (enc1 (k', n')) = String.eqb k k' && deepEqN n n'.
Proof. unfold enc1. rewrite tree_eqb_TN, !trees_cons. cbn [Z.eqb Pos.eqb andb]. unfold deepEqN. change (trees_eqb [] []) with true. rewrite andb_true_r. reflexivity. Qed.

Inductive lives (J : string -> node -> Prop) (pa q : list string) : smap node -> smap node -> nat -> Prop :=
| lives_nil : lives J pa q [] [] 0
| lives_cons k x r w m m' W : lifeI (J k) (pa ++ [k]) (q ++ [k]) x r w -> lives J pa q m m' W -> lives J pa q ((k, x) :: m) ((k, r) :: m') (w + W).
Lemma lives_step J pa q m m' W : lives J pa q m m' W -> exists m1 W1, stepsTo pa q m m1 /\ lives J pa q m1 m' W1 /\
  (W = 0%nat /\ W1 = 0%nat /\ m1 = m /\ m' = m \/ (W1 < W)%nat /\ trees_eqb (map enc1 m) (map enc1 m1) = false).
Proof.
  induction 1 as [|k x r w m m' W L Ls (m1 & W1 & S1 & L1 & D1)].
  - exists [], 0%nat. split; [constructor|]. split; [constructor|auto 6].
  - destruct (life_step _ _ _ _ _ _ L) as (x1 & w1 & C & Lx & D). exists ((k, x1) :: m1), (w1 + W1)%nat. split; [|split].
    + constructor; [|exact S1]. split; [reflexivity|]. split; [eapply life_calm, Lx|exact C].
    + now constructor.
    + cbn [map]. rewrite trees_cons, enc1_eq, String.eqb_refl. cbn [andb]. destruct D as [(-> & -> & -> & ->)|[D DE]].
      * destruct D1 as [(-> & -> & -> & ->)|[D1 DE]]; [left; auto|right]. split; [lia|]. rewrite DE. apply andb_false_r.
      * right. rewrite DE. split; [|reflexivity]. destruct D1 as [(-> & -> & -> & ->)|[D1 _]]; lia.
Qed.
Lemma lives_fin J pa q m m' W : lives J pa q m m' W -> Forall (fun kv => fin (snd kv)) m'.
Proof. induction 1; constructor; [cbn; eapply life_fin; eassumption|assumption]. Qed.
Lemma lives_keys J pa q m m' W : lives J pa q m m' W -> mkeys m' = mkeys m.
Proof. induction 1 as [|k x r w m m' W _ _ IH]; [reflexivity|]. unfold mkeys in *. cbn [map fst]. now f_equal. Qed.
Lemma lives_calm J pa q m m' W : lives J pa q m m' W -> Forall (fun kv => calm (snd kv)) m.
Proof. induction 1; constructor; [cbn; eapply life_calm; eassumption|assumption]. Qed.
Lemma lives_here J pa q m m' W : lives J pa q m m' W -> Forall (fun kv => J (fst kv) (snd kv)) m.
Proof. induction 1; constructor; [cbn; eapply life_here; eassumption|assumption]. Qed.
Lemma calm_map m a s : quietA a -> Forall (fun kv => calm (snd kv)) m -> calm (mkNode (VMap m) a s None None).
Proof.
  intros (_ & U & Tg & _) C. split; [|split; assumption]. intro f. cbn [mapHere]. do 2 f_equal.
  induction C as [|[k x] m [Cx _] _ IH]; [reflexivity|]. cbn [map snd] in *. now rewrite Cx, IH.
Qed.
Lemma map_life (I : node -> Prop) J pa p q a s0 : mapAnn p q a -> okP q -> forall W m m', msorted m -> Forall (fun kv => ordinaryKey (fst kv)) m ->
  (forall m1, mkeys m1 = mkeys m -> Forall (fun kv => J (fst kv) (snd kv)) m1 -> I (mkNode (VMap m1) a s0 None None)) ->
  lives J pa q m m' W -> exists w, lifeI I pa p (mkNode (VMap m) a s0 None None) (mkNode (VMap m') a s0 None None) w.
Proof.
  intros A O. induction W as [W IH] using lt_wf_ind. intros m m' So K HI L.
  destruct (lives_step _ _ _ _ _ _ L) as (m1 & W1 & St & L1 & D).
  pose proof (map_step pa p q m m1 a s0 So K A O St) as C.
  pose proof (HI m eq_refl (lives_here _ _ _ _ _ _ L)) as HI0.
  destruct D as [(-> & -> & -> & ->)|[D DE]].
  - exists 0%nat. apply li_rest; [exact HI0| |exact C]. apply fin_map; [apply A|exact K|eapply lives_fin, L].
  - assert (So1 : msorted m1) by (eapply msorted_keys_eq; [|exact So]; symmetry; eapply steps_keys, St).
    destruct (IH W1 D m1 m' So1 (steps_ordinary _ _ _ _ St K)) as (w & Lw); [|exact L1|].
    { intros m2 K2. apply HI. rewrite K2. eapply steps_keys, St. }
    exists (S w). eapply li_go; [exact HI0| |exact C|now apply deepEq_maps|exact Lw].
    apply calm_map; [apply A|eapply lives_calm, L].
Qed.

(** ** plain parts *)
Lemma plain_comes pa p n : plain n -> fitsN n -> okP p -> comes pa p n (pass true p n).
Proof.
  intros P Fi O. exists (depth n). intros e f env s L1 L2 [B _].
  refine (flowF_plain ST interpol ctrl reg parse quote show (ev e) setTagX (ctl e) ordinaryKey ordinary_quiet stubs SP okP okNP _ _ _ f n env true p s P Fi L2 O B).
  - intros q k Oq Kk. apply okP_app; [exact Oq|now apply ok_ordinary].
  - intros q i Oq Hi. apply okP_app; [exact Oq|now apply ok_index].
  - intros q x Oq. apply okP_app; [exact Oq|apply ok_named].
Qed.
Lemma plain_lifeI (I : node -> Prop) pa p n : plain n -> fitsN n -> okP p -> pass true p (pass true p n) = pass true p n -> I n -> I (pass true p n) -> exists w, lifeI I pa p n (pass true p n) w.
Proof.
  intros P Fi O E I1 I2. pose proof (pass_plain interpol ctrl ordinaryKey stubs SP n P true p) as PP.
  assert (R : lifeI I pa p (pass true p n) (pass true p n) 0).
  { apply li_rest; [exact I2|apply fin_plain, PP|]. rewrite <- E at 2. apply plain_comes; [exact PP|now apply fits_pass|exact O]. }
  destruct (deepEqN n (pass true p n)) eqn:D.
  - exists 0%nat. assert (EN : n = pass true p n) by (eapply (deepEq_plain ordinaryKey interpol); eassumption). rewrite EN at 1. exact R.
  - exists 1%nat. eapply li_go; [exact I1|apply fin_calm, fin_plain, P|now apply plain_comes|exact D|exact R].
Qed.
Lemma plain_life pa p n : plain n -> fitsN n -> okP p -> pass true p (pass true p n) = pass true p n -> exists w, life pa p n (pass true p n) w.
Proof. intros P Fi O E. apply plain_lifeI; try assumption; exact Logic.I. Qed.
Lemma self_life pa p n : okP p -> Lk p = FOk n -> exists r w, life pa p n r w /\ data r = data n.
Proof.
  intros O E. pose proof (plain_lk interpol ctrl stubs SP p n E) as P. pose proof (fits_lk ctrl stubs SF p n E) as Fi.
  destruct (stable_pass ctrl stubs n true p (stable_self interpol ctrl stubs SP SF n true p P Fi O E)) as [E1 E2].
  destruct (plain_life pa p n P Fi O E2) as (w & L). exists (pass true p n), w. auto.
Qed.

(** ** expressions *)
Lemma read_comes pa p t e : textAt interpol parse quote pa p t e -> comes pa p t (mkNode (VExpr e) emptyAnn (src t) None None).
Proof.
  intros (x & s0 & sub & -> & E & P). exists 1%nat. intros ee f env s L1 L2 [[B1 [B2 B3]] B4]. destruct f as [|f]; [lia|].
  cbn [flowF]. unfold flowNode. cbn [ann val isExpr emptyAnn a_redirect a_replace a_merged andb negb]. unfold flowString. rewrite E, B4, B2, P. reflexivity.
Qed.
Lemma rested pa p v a s : fin (mkNode v a s None None) -> a_replace a = true \/ a_merged a = true -> comes pa p (mkNode v a s None None) (mkNode v a s None None).
Proof.
  intros Fi H. exists 1%nat. intros ee f env s1 L1 L2 _. destruct f as [|f]; [lia|]. cbn [flowF]. unfold flowNode. cbn [ann val].
  destruct (a_replace a) eqn:R.
  - unfold override, standardOverride. cbn [ann]. rewrite R. cbn [negb andb]. destruct (a_merged a); reflexivity.
  - destruct H as [H|H]; [discriminate|]. rewrite H. assert (X : isExpr v = false) by (inversion Fi as [? ? ? L| |]; subst; [destruct L|..]; reflexivity). rewrite X. reflexivity.
Qed.
(** the result of a merge with the value [v] of the stubs *)
Definition tookA (rd rp : bool) (q : list string) (v : node) : annotation :=
  mkAnn (if rd then Some q else None) rp false (negb rp) "" false false false noIssue "" (nflags v).
Definition tookN (rd rp : bool) (q : list string) (v : node) (s0 : string) : node :=
  mkNode (val v) (tookA rd rp q v) (if String.eqb (src v) "" then s0 else src v) None None.
Lemma massage_plain v : plain v -> massage (val v) = val v.
Proof. destruct 1 as [x s L| |]; try reflexivity. destruct L; reflexivity. Qed.
Lemma expr_plain v : plain v -> isExpr (val v) = false.
Proof. destruct 1 as [x s L| |]; try reflexivity. destruct L; reflexivity. Qed.
Lemma merge_found e f pa p env so s s0 q rd rp rq x v : (2 <= e)%nat -> (1 <= f)%nat -> env2 env pa p -> plain v -> findInStubs ctrl env q = FOk v ->
  (x = EMerge q rd rp rq false "" \/ exists d, x = EOr (EMerge q rd rp rq false "") d) ->
  F e f (mkNode (VExpr x) emptyAnn s0 None None) env so false s = Ret (tookN rd rp q v s0) s.
Proof.
  intros L1 L2 E P Fd X. destruct f as [|f]; [lia|]. cbn [flowF]. unfold flowNode. cbn [ann val isExpr emptyAnn a_redirect a_replace a_merged andb negb].
  unfold flowExpr. cbn [src ann nflags emptyAnn a_flags]. set (env1 := if String.eqb s0 (b_source env) then env else withSource s0 env).
  assert (F1 : findInStubs ctrl env1 q = FOk v) by (unfold env1; destruct (String.eqb s0 (b_source env)); [exact Fd|destruct env; exact Fd]).
  assert (AT : asTemplate x false = None) by (destruct X as [->|[d ->]]; reflexivity). rewrite AT.
  assert (EX : ev e x env1 false s = evalMerge ST ctrl q rd rp rq false "" env1 s).
  { destruct X as [->|[d ->]]; [now apply EVM|]. eapply EVF; [exact L1|exact F1|now apply expr_plain]. }
  unfold bind. rewrite EX. unfold evalMerge. rewrite F1. unfold done, ret. cbn [f_keyName setKeyName defaultInfo f_redirect f_flags f_replace].
  assert (FL : nflags v = 0%N \/ nflags v = FLAG_INJECTED) by apply (plain_flags _ _ _ P).
  rewrite N.lor_0_l. assert (DY : fDynamic (nflags v) = false) by (destruct FL as [-> | ->]; reflexivity). rewrite DY. cbn [andb negb tmpl].
  unfold resultNode. cbn [f_source f_issue i_text noIssue String.eqb f_undefined f_preferred orb f_keyName f_redirect f_replace f_merged a_redirect emptyAnn a_replace a_merged a_keyName a_preferred src ann a_tag f_failed].
  unfold newNode. rewrite (massage_plain v P).
  assert (FS : forall a s2, match val v with VStr _ => flowString interpol parse quote (mkNode (val v) a s2 None None) env1 | _ => mkNode (val v) a s2 None None end = mkNode (val v) a s2 None None).
  { intros a s2. destruct (val v) eqn:V; try reflexivity. unfold flowString. rewrite (literal_embedded quote interpol (mkNode (VStr s1) a s2 None None) s1 eq_refl); [reflexivity|].
    destruct P as [? ? L| |]; cbn in V; subst; try discriminate V. now inversion L. }
  rewrite FS. unfold tookN, tookA.
  assert (X2 : isExpr (val v) = false) by now apply expr_plain.
  assert (UP : forall a, a_flags a = 0%N -> a_tag a = "" -> updateNode (mkNode (val v) a (if String.eqb (src v) "" then s0 else src v) None None) (nflags v) "" =
     mkNode (val v) (aAddFlags (nflags v) a) (if String.eqb (src v) "" then s0 else src v) None None).
  { intros a Z1 Z2. generalize (if String.eqb (src v) "" then s0 else src v). intro s2. destruct a. cbn in Z1, Z2. subst. unfold updateNode.
    destruct FL as [FL|FL]; rewrite FL; reflexivity. }
  destruct rd, rp; cbn [redirectNode replaceNode mergedNode withAnn replaceValue val massage ann]; rewrite ?(massage_plain v P);
    (rewrite UP by reflexivity); cbn [ann a_merged aAddFlags val a_preferred a_replace]; rewrite X2; cbn; try reflexivity;
    rewrite ?orb_false_r; destruct so; try reflexivity; unfold override, standardOverride; cbn; rewrite ?andb_false_r; reflexivity.
Qed.
Lemma okS q : Forall okStepS q -> okP q.
Proof. apply Forall_impl. intros s [H|(i & H & ->)]; [left; now apply notBracket|now apply ok_index]. Qed.
Lemma found_lk env pa p q v : env2 env pa p -> okP q -> definedBy ctrl stubs q v -> findInStubs ctrl env q = FOk v.
Proof. intros [[B _] _] O D. unfold findInStubs. rewrite B. exact (proj2 (lk_defined interpol ctrl stubs SP q v O) D). Qed.
Lemma absent_lk env pa p q : env2 env pa p -> okP q -> undefined ctrl stubs q -> findInStubs ctrl env q = FNo.
Proof. intros [[B _] _] O D. unfold findInStubs. rewrite B. exact (proj2 (lk_none interpol ctrl stubs SP q O) D). Qed.
Lemma defined_plain q v : okP q -> definedBy ctrl stubs q v -> plain v.
Proof. intros O D. eapply plain_lk; [exact SP|]. now apply (lk_defined interpol ctrl stubs SP q v O). Qed.
Lemma deepEq_vals v v' a a' s s' t t' r r' : tree_eqb (encV v) (encV v') = false -> deepEqN (mkNode v a s t r) (mkNode v' a' s' t' r') = false.
Proof. intro H. unfold deepEqN. cbn [encN]. rewrite tree_eqb_TN. apply andb_false_iff. right. rewrite trees_cons, H. reflexivity. Qed.
Lemma deepEq_expr x v a a' s s' t t' r r' : isExpr v = false -> deepEqN (mkNode (VExpr x) a s t r) (mkNode v a' s' t' r') = false.
Proof. intro H. apply deepEq_vals. destruct v; try reflexivity. discriminate H. Qed.
Lemma deepEq_text x v a a' s s' t t' r r' : deepEqN (mkNode (VStr x) a s t r) (mkNode (VExpr v) a' s' t' r') = false.
Proof. apply deepEq_vals. reflexivity. Qed.
Lemma calm_leaf v s : (forall f, mapResolver f v = v) -> (forall l, v <> VList l) -> (forall m, v <> VMap m) -> calm (mkNode v emptyAnn s None None).
Proof. intros H N1 N2. split; [|split; reflexivity]. intro f. cbn [mapHere]. f_equal. destruct v; try apply H; [now edestruct N1|now edestruct N2]. Qed.
Lemma took_quiet rd rp q v : plain v -> quietA (tookA rd rp q v).
Proof. intro P. destruct (plain_quiet _ _ _ P) as (_ & _ & _ & H). repeat split. exact H. Qed.
(** a text whose expression has the value node [r] in the next round *)
Lemma text_life pa p t e r : textAt interpol parse quote pa p t e -> comes pa p (mkNode (VExpr e) emptyAnn (src t) None None) r ->
  fin r -> comes pa p r r -> exists w, life pa p t r w.
Proof.
  intros TX C Fi R. pose proof (read_comes _ _ _ _ TX) as C0. destruct TX as (x & s0 & sub & -> & _). exists 2%nat.
  eapply life_go; [apply calm_leaf; [reflexivity|discriminate|discriminate]|exact C0|apply deepEq_text|].
  eapply life_go; [apply calm_leaf; [reflexivity|discriminate|discriminate]|exact C| |now apply life_rest].
  destruct r as [v a s t r]. cbn [src]. apply deepEq_expr. inversion Fi as [? ? ? L| |]; subst; try reflexivity. destruct L; reflexivity.
Qed.
(** the result with an empty place of the stubs *)
Definition tookNone (rd mg : bool) (q : list string) (v : value) (s0 : string) : node :=
  mkNode v (mkAnn (if rd then Some q else None) false false mg "" false false false noIssue "" 0%N) s0 None None.
Lemma none_comes pa p q rd rp rq s0 : comes pa p (mkNode (VExpr (EMerge q rd rp rq true "")) emptyAnn s0 None None) (tookNone rd true q VNil s0).
Proof.
  exists 2%nat. intros e f env s L1 L2 E. destruct f as [|f]; [lia|]. cbn [flowF]. unfold flowNode. cbn [ann val isExpr emptyAnn a_redirect a_replace a_merged andb negb].
  unfold flowExpr. cbn [src ann nflags emptyAnn a_flags asTemplate]. unfold bind. rewrite EVM by exact L1. destruct rd; reflexivity.
Qed.
Lemma literal_leaf d x : literal interpol d x -> leaf interpol x.
Proof. destruct 1; constructor. assumption. Qed.
Lemma default_comes pa p q rd rp rq d x s0 : okP q -> (if rd : bool then q <> [] else q = p) -> undefined ctrl stubs q -> literal interpol d x ->
  comes pa p (mkNode (VExpr (EOr (EMerge q rd rp rq false "") d)) emptyAnn s0 None None) (tookNone rd false q x s0).
Proof.
  intros O Q U L. exists 2%nat. intros e f env s L1 L2 E. destruct f as [|f]; [lia|]. cbn [flowF]. unfold flowNode. cbn [ann val isExpr emptyAnn a_redirect a_replace a_merged andb negb].
  unfold flowExpr. cbn [src ann nflags emptyAnn a_flags asTemplate]. unfold bind.
  set (env1 := if String.eqb s0 (b_source env) then env else withSource s0 env).
  assert (E1 : env2 env1 pa p) by (unfold env1; destruct (String.eqb s0 (b_source env)); [exact E|now apply env2_source]). clearbody env1.
  rewrite (EVN e q rd rp rq d x env1 s L1 L (absent_lk _ _ _ _ E1 O U)). cbn [f_flags N.lor fDynamic]. change (fDynamic 0%N) with false. cbn [andb negb tmpl].
  pose proof (literal_leaf _ _ L) as LX.
  assert (FS : forall s2, match x with VStr _ => flowString interpol parse quote (newNode x s2) env1 | _ => newNode x s2 end = newNode x s2).
  { intros s2. destruct x; try reflexivity. unfold flowString. rewrite (literal_embedded quote interpol (newNode (VStr s1) s2) s1 eq_refl); [reflexivity|]. now inversion LX. }
  unfold resultNode. cbn [f_source f_issue i_text noIssue String.eqb f_undefined f_preferred orb f_keyName f_redirect f_replace f_merged a_redirect emptyAnn a_replace a_merged a_keyName a_preferred src ann a_tag f_failed].
  rewrite FS. clear FS.
  assert (MX : massage x = x) by (destruct LX; reflexivity). assert (IX : isExpr x = false) by (destruct LX; reflexivity).
  unfold newNode. rewrite MX. unfold tookNone. destruct rd.
  - cbn [redirectNode withAnn replaceValue val]. rewrite MX. unfold updateNode. cbn [nflags ann a_flags aSetRedirect emptyAnn N.lor N.eqb String.eqb orb]. cbn [nflags ann a_flags aSetRedirect emptyAnn N.lor N.eqb String.eqb orb a_merged a_preferred val]. rewrite IX. cbn [orb negb].
    unfold override, standardOverride. cbn. destruct q; [congruence|]. reflexivity.
  - subst q. unfold updateNode. cbn [nflags ann a_flags aSetRedirect emptyAnn N.lor N.eqb String.eqb orb]. cbn [nflags ann a_flags aSetRedirect emptyAnn N.lor N.eqb String.eqb orb a_merged a_preferred val]. rewrite IX. cbn [orb negb].
    unfold override, standardOverride. cbn [ann a_merged negb andb a_replace a_redirect emptyAnn]. destruct (b_nomerge env); cbn [negb andb]; [reflexivity|].
    unfold bind. assert (BP : b_stubPath env = p) by apply E. rewrite BP, (absent_lk _ _ _ _ E O U). reflexivity.
Qed.
Lemma leaf_rest pa p v rd q s : leaf interpol v -> (if rd : bool then q <> [] else q = p) -> okP q -> undefined ctrl stubs q -> comes pa p (tookNone rd false q v s) (tookNone rd false q v s).
Proof.
  intros L Q O U. exists 1%nat. intros e f env s1 L1 L2 E. destruct f as [|f]; [lia|]. cbn [flowF]. unfold flowNode, tookNone. cbn [ann val a_redirect a_replace a_merged a_keyName].
  assert (IX : isExpr v = false) by (destruct L; reflexivity). rewrite IX. cbn [negb andb].
  assert (OV : forall env', env2 env' pa q -> override ST ctrl (mkNode v (mkAnn (if rd then Some q else None) false false false "" false false false noIssue "" 0%N) s None None) env' true
     (nflags (mkNode v (mkAnn (if rd then Some q else None) false false false "" false false false noIssue "" 0%N) s None None)) false (if rd then Some q else None) false "" s1 =
     Ret (mkNode v (mkAnn (if rd then Some q else None) false false false "" false false false noIssue "" 0%N) s None None) s1).
  { intros env' E'. unfold override, standardOverride. cbn [ann a_merged negb andb a_replace a_redirect]. destruct rd.
    - destruct q; [congruence|]. reflexivity.
    - destruct (b_nomerge env'); cbn [negb andb]; [reflexivity|]. unfold bind. assert (BP : b_stubPath env' = q) by apply E'. rewrite BP, (absent_lk _ _ _ _ E' O U). reflexivity. }
  assert (E' : env2 (match (if rd then Some q else None) with Some r => redirectOverwrite r env | None => env end) pa q).
  { destruct rd; [now apply (env2_redirect env pa p)|subst q; exact E]. }
  specialize (OV _ E'). destruct L; try exact OV.
  unfold flowString. match goal with |- context [embeddedDynaml quote ?n interpol] => rewrite (literal_embedded quote interpol n s0 eq_refl H) end. cbn [val isExpr]. exact OV.
Qed.
Lemma value_life pa p t e v : okP p -> textAt interpol parse quote pa p t e -> yields interpol ctrl stubs p e v -> exists r w, life pa p t r w /\ data r = data v.
Proof.
  intros O TX Y.
  assert (FOUND : forall q rd rp rq v, Forall okStepS q -> definedBy ctrl stubs q v -> (e = EMerge q rd rp rq false "" \/ exists d, e = EOr (EMerge q rd rp rq false "") d) ->
     exists r w, life pa p t r w /\ data r = data v).
  { intros q rd rp rq u Oq D X. apply okS in Oq. pose proof (defined_plain _ _ Oq D) as P. exists (tookN rd rp q u (src t)).
    assert (Fi : fin (tookN rd rp q u (src t))) by (apply fin_withAnn; [apply fin_plain, P|now apply took_quiet]).
    destruct (text_life pa p t e (tookN rd rp q u (src t)) TX) as (w & L).
    - exists 2%nat. intros e0 f env s L1 L2 E. eapply merge_found; [exact L1|lia|exact E|exact P|eapply found_lk; eassumption|exact X].
    - exact Fi.
    - apply rested; [exact Fi|]. destruct rp; [now left|now right].
    - exists w. split; [exact L|]. destruct u as [? ? ? ? ?]. reflexivity. }
  inversion Y as [q rd rp rq u Oq D|q rd rp rq s0|q rd rp rq d u Oq D|q rd rp rq d x s0 Oq Q U L]; subst.
  - eapply FOUND; eauto.
  - exists (tookNone rd true q VNil (src t)). assert (Fi : fin (tookNone rd true q VNil (src t))) by (apply fin_leaf; [constructor|repeat split; now left]).
    destruct (text_life pa p t _ (tookNone rd true q VNil (src t)) TX) as (w & Lw); [apply none_comes|exact Fi|apply rested; [exact Fi|now right]|]. exists w. auto.
  - eapply FOUND; eauto.
  - apply okS in Oq. exists (tookNone rd false q x (src t)). assert (Fi : fin (tookNone rd false q x (src t))) by (apply fin_leaf; [eapply literal_leaf, L|repeat split; now left]).
    destruct (text_life pa p t _ (tookNone rd false q x (src t)) TX) as (w & Lw); [now apply default_comes|exact Fi|apply leaf_rest; [eapply literal_leaf, L|assumption..]|]. exists w. auto.
Qed.

(** ** maps with a merge field *)
Lemma merge_scan m : okKeys m -> forall f, exists f', scanControl reg m None [] f = Some (None, [], f').
Proof.
  induction 1 as [|[k v] m Hk H IH]; intro f; cbn [scanControl]; [eauto|]. cbn [fst] in Hk. destruct Hk as [->|Hk].
  - cbn. apply IH.
  - unfold ctlKey. rewrite (quiet_ctl _ (ordinary_quiet _ Hk)). apply IH.
Qed.
Lemma merge_getControl n m : val n = VMap m -> okKeys m -> getControl ctrl reg n [] = CtlNone.
Proof.
  intros E H. unfold getControl. rewrite E. destruct ctrl; [|reflexivity]. rewrite app_nil_r.
  destruct (merge_scan m H []) as [f ->]. reflexivity.
Qed.
Definition put (x : node) (m : smap node) : smap node := map (fun kv => (fst kv, if String.eqb (fst kv) "<<" then x else snd kv)) m.
Lemma put_keys x m : mkeys (put x m) = mkeys m.
Proof. unfold put, mkeys. now rewrite map_map. Qed.
Lemma put_sorted x m : msorted m -> msorted (put x m).
Proof. apply msorted_keys_eq. symmetry. apply put_keys. Qed.
Lemma put_ok x m : okKeys m -> okKeys (put x m).
Proof. unfold okKeys, put. rewrite Forall_map. exact (fun H => H). Qed.
Lemma put_own x m : own (put x m) = own m.
Proof.
  unfold own, put. induction m as [|[k v] m IH]; [reflexivity|]. cbn [map filter fst snd]. destruct (String.eqb k "<<"); cbn [negb]; rewrite IH; reflexivity.
Qed.
Lemma put_get x m y : mget "<<" m = Some y -> mget "<<" (put x m) = Some x.
Proof.
  unfold put. induction m as [|[k v] m IH]; [discriminate|]. cbn [map mget fst snd]. destruct (String.eqb_spec k "<<") as [->|N]; [reflexivity|].
  destruct (String.eqb_spec "<<" k); [congruence|exact IH].
Qed.
Lemma ok_nomerge m : okKeys m -> mget MERGEKEY m = None.
Proof.
  intro H. apply mget_None. intro I. unfold mkeys in I. apply in_map_iff in I. destruct I as ([k x] & E & I). cbn in E. subst k.
  unfold okKeys in H. rewrite Forall_forall in H. destruct (H _ I) as [E|O]; [discriminate E|]. destruct (not_stringsym _ O) as [_ N]. now apply N.
Qed.
(** the entries are only stored *)
Lemma entries_keep rec y env s : calm y -> forall m acc, okKeys m -> Forall (fun kv => calm (snd kv)) (own m) ->
  mapEntries ST ctrl reg setTagX rec m "<<" (Some y) false true env 0%N acc [] s = Ret (insert (put y m) acc, []) s.
Proof.
  intros (_ & Uy & _). induction m as [|[k x] m IH]; intros acc K C; [reflexivity|]. inversion K as [|? ? Kk Km]; subst. unfold own in C. cbn [filter fst] in C.
  cbn [mapEntries put map fst snd insert fold_left]. fold (put y m). destruct (String.eqb_spec k "<<") as [->|NE]; cbn [negb] in C.
  - rewrite Uy. change (fPropagateImplied 0%N) with false. cbv iota. now apply IH.
  - inversion C as [|? ? (_ & U & _) C']; subst. cbn [snd] in U. rewrite U. change (fPropagateImplied 0%N) with false. cbv iota. now apply IH.
Qed.
Lemma read_rec pa p t x : textAt interpol parse quote pa p t x -> forall e f env so s, (1 <= f)%nat -> env2 env pa p ->
  F e f t env so false s = Ret (mkNode (VExpr x) emptyAnn (src t) None None) s.
Proof.
  intros (t0 & s0 & sub & -> & E & P) e f env so s L [[B1 [B2 B3]] B4]. destruct f as [|f]; [lia|].
  cbn [flowF]. unfold flowNode. cbn [ann val isExpr emptyAnn a_redirect a_replace a_merged andb negb]. unfold flowString. rewrite E, B4, B2, P. reflexivity.
Qed.
Lemma map_fresh e f m env s0 s : okKeys m -> F e (S f) (mkNode (VMap m) emptyAnn s0 None None) env true false s =
  flowMap ST interpol ctrl reg quote show setTagX (ctl e) (F e f) (mkNode (VMap m) emptyAnn s0 None None) m env true false s.
Proof.
  intro K. cbn [flowF]. unfold flowNode. cbn [ann val isExpr emptyAnn a_redirect a_replace a_merged andb negb].
  rewrite (merge_getControl _ m); [reflexivity|reflexivity|exact K].
Qed.
Lemma mergekey_read pa p m x q rd rp rq s0 : msorted m -> okKeys m -> mget "<<" m = Some x -> textAt interpol parse quote pa p x (EMerge q rd rp rq false "") ->
  okP p -> Forall (fun kv => calm (snd kv)) (own m) ->
  comes pa p (mkNode (VMap m) emptyAnn s0 None None) (mkNode (VMap (put (mkNode (VExpr (EMerge q rd rp rq false "")) emptyAnn (src x) None None) m)) emptyAnn s0 None None).
Proof.
  intros So K G TX O C. exists 2%nat. intros e f env s L1 L2 E. destruct f as [|f]; [lia|]. rewrite (map_fresh e f m env s0 s K).
  unfold flowMap. unfold bind at 1. rewrite (inherit env pa p s E O). cbn [ann]. rewrite G, (ok_nomerge m K).
  unfold bind at 1. unfold mergeKey. unfold bind at 1. rewrite (read_rec pa p x _ TX e f (withScope m env) false s); [|lia|now apply env2_scope].
  assert (INI : (match val x with VStr _ => true | _ => false end) = true) by (destruct TX as (t0 & s1 & sub & -> & _); reflexivity). rewrite INI.
  cbn [ann a_undefined emptyAnn val asTemplate ms_template simpleMerge]. unfold ret at 1.
  cbn [ms_processed ms_template ms_add ms_val ms_env ms_flags ms_base ms_merged ms_replace ms_redirect ms_err ms_tag negb andb a_redirect a_replace a_tag].
  unfold bind at 1. rewrite entries_keep; [|apply calm_leaf; [reflexivity|discriminate|discriminate]|exact K|exact C].
  rewrite (insert_nil _ (put_sorted _ m So)). rewrite (inject_id p O). unfold bind. cbn [a_failed emptyAnn].
  unfold flowControl. rewrite (merge_getControl _ (put (mkNode (VExpr (EMerge q rd rp rq false "")) emptyAnn (src x) None None) m)); [|reflexivity|now apply put_ok].
  reflexivity.
Qed.
(** what remains of a map with the fields [mn] after the insertion *)
Definition insAnn (rd rp : bool) (q : list string) : annotation :=
  mkAnn (if rd then Some q else None) rp false false "" false false false noIssue "" (if rp then 0%N else FLAG_INJECTED).
Lemma mergekey_found pa p m q rd rq sx v bm o' s0 : let xe := mkNode (VExpr (EMerge q rd false rq false "")) emptyAnn sx None None in
  msorted m -> okKeys m -> mget "<<" m = Some xe -> okP p -> okP q -> (if rd : bool then q <> [] else q = p) -> definedBy ctrl stubs q v -> val v = VMap bm ->
  stepsTo pa q (own m) o' ->
  comes pa p (mkNode (VMap m) emptyAnn s0 None None) (mkNode (VMap (insert o' bm)) (insAnn rd false q) s0 None None).
Proof.
  intros xe So K G O Oq Q D V St. destruct (entries_step pa q m o' K St) as (N & H). exists (S (S N)). intros e f env s L1 L2 E. destruct f as [|f]; [lia|].
  rewrite (map_fresh e f m env s0 s K). unfold flowMap. unfold bind at 1. rewrite (inherit env pa p s E O). cbn [ann]. rewrite G, (ok_nomerge m K).
  pose proof (defined_plain _ _ Oq D) as P.
  assert (Ev : env2 (withScope m env) pa p) by now apply env2_scope.
  unfold bind at 1. unfold mergeKey. unfold bind at 1. unfold xe at 1.
  rewrite (merge_found e f pa p (withScope m env) false s sx q rd false rq _ v); [|lia|lia|exact Ev|exact P|eapply found_lk; eassumption|now left].
  unfold tookN. cbn [ann tookA a_undefined val]. rewrite V. cbn [a_redirect a_merged a_replace negb orb andb ms_merged ms_env ms_redirect ms_flags ms_tag ms_template ms_processed ann].
  set (env' := if rd then redirectOverwrite q (withScope m env) else withScope m env).
  assert (E' : env2 env' pa q). { unfold env'. destruct rd; [now apply (env2_redirect _ pa p)|subst q; exact Ev]. }
  assert (RR : match a_redirect (tookA rd false q v) with Some r => (Some r, redirectOverwrite r (withScope m env)) | None => (a_redirect emptyAnn, withScope m env) end
     = (if rd then Some q else None, env')) by (unfold env'; destruct rd; reflexivity).
  rewrite RR. unfold ret at 1. change (a_merged (tookA rd false q v)) with true. change (a_replace (tookA rd false q v)) with false.
  cbn [ms_processed ms_template ms_add ms_val ms_env ms_flags ms_base ms_merged ms_replace ms_redirect ms_err ms_tag negb andb orb a_replace a_tag emptyAnn].
  unfold bind at 1. rewrite (H e f env' "<<" bm s); [|lia|lia|exact E'|now left].
  unfold bind. cbn [a_failed emptyAnn]. unfold flowControl.
  assert (KB : Forall (fun kv => ordinaryKey (fst kv)) (insert o' bm)).
  { rewrite Forall_forall. intros [k y] I. cbn [fst]. assert (IK : In k (mkeys (insert o' bm))) by (apply in_map_iff; exists (k, y); auto).
    apply insert_keys in IK. destruct IK as [IK|IK].
    - rewrite (steps_keys _ _ _ _ St) in IK. apply in_map_iff in IK. destruct IK as ([k1 y1] & <- & I1). pose proof (own_ordinary m K) as OO. rewrite Forall_forall in OO. exact (OO _ I1).
    - destruct (plain_map _ _ _ _ P V) as (_ & PK & _). apply in_map_iff in IK. destruct IK as ([k1 y1] & <- & I1). rewrite Forall_forall in PK. exact (PK _ I1). }
  rewrite (quiet_getControl ctrl reg _ (insert o' bm)); [|reflexivity|exact (quiet_of _ KB)]. reflexivity.
Qed.
Lemma mergekey_replaced pa p m q rd rq sx v bm s0 : let xe := mkNode (VExpr (EMerge q rd true rq false "")) emptyAnn sx None None in
  msorted m -> okKeys m -> mget "<<" m = Some xe -> okP p -> okP q -> definedBy ctrl stubs q v -> val v = VMap bm ->
  comes pa p (mkNode (VMap m) emptyAnn s0 None None) (mkNode (VMap bm) (insAnn rd true q) s0 None None).
Proof.
  intros xe So K G O Oq D V. exists 3%nat. intros e f env s L1 L2 E. destruct f as [|f]; [lia|].
  rewrite (map_fresh e f m env s0 s K). unfold flowMap. unfold bind at 1. rewrite (inherit env pa p s E O). cbn [ann]. rewrite G, (ok_nomerge m K).
  pose proof (defined_plain _ _ Oq D) as P.
  assert (Ev : env2 (withScope m env) pa p) by now apply env2_scope.
  unfold bind at 1. unfold mergeKey. unfold bind at 1. unfold xe at 1.
  rewrite (merge_found e f pa p (withScope m env) false s sx q rd true rq _ v); [|lia|lia|exact Ev|exact P|eapply found_lk; eassumption|now left].
  unfold tookN. cbn [ann tookA a_undefined val]. rewrite V. cbn [a_redirect a_merged a_replace negb orb andb ms_merged ms_env ms_redirect ms_flags ms_tag ms_template ms_processed ann].
  assert (KB : Forall (fun kv => ordinaryKey (fst kv)) bm) by apply (plain_map _ _ _ _ P V).
  change (a_merged (tookA rd true q v)) with false. change (a_replace (tookA rd true q v)) with true.
  assert (RR : exists env', match a_redirect (tookA rd true q v) with Some r => (Some r, redirectOverwrite r (withScope m env)) | None => (a_redirect emptyAnn, withScope m env) end
     = (if rd then Some q else None, env')) by (destruct rd; eexists; reflexivity). destruct RR as (env' & RR).
  rewrite RR. unfold ret at 1.
  cbn [ms_processed ms_template ms_add ms_val ms_env ms_flags ms_base ms_merged ms_replace ms_redirect ms_err ms_tag negb andb orb a_replace a_tag emptyAnn].
  unfold bind at 1. unfold ret at 1. rewrite (inject_id p O bm). unfold bind. cbn [a_failed emptyAnn]. unfold flowControl.
  rewrite (quiet_getControl ctrl reg _ bm); [|reflexivity|exact (quiet_of _ KB)]. destruct rd; reflexivity.
Qed.
Lemma mergekey_absent pa p m rp sx o' s0 : let xe := mkNode (VExpr (EMerge p false rp false false "")) emptyAnn sx None None in
  msorted m -> okKeys m -> mget "<<" m = Some xe -> okP p -> undefined ctrl stubs p -> stepsTo pa p (own m) o' ->
  comes pa p (mkNode (VMap m) emptyAnn s0 None None) (mkNode (VMap o') emptyAnn s0 None None).
Proof.
  intros xe So K G O U St. destruct (entries_step pa p m o' K St) as (N & H). exists (S (S N)). intros e f env s L1 L2 E. destruct f as [|f]; [lia|].
  rewrite (map_fresh e f m env s0 s K). unfold flowMap. unfold bind at 1. rewrite (inherit env pa p s E O). cbn [ann]. rewrite G, (ok_nomerge m K).
  assert (Ev : env2 (withScope m env) pa p) by now apply env2_scope.
  unfold bind at 1. unfold mergeKey. unfold bind at 1.
  assert (FX : exists a, F e f xe (withScope m env) false false s = Ret (mkNode (VExpr (EMerge p false rp false false "")) a sx None None) s /\ a_undefined a = false).
  { destruct f as [|f]; [lia|]. unfold xe. cbn [flowF]. unfold flowNode. cbn [ann val isExpr emptyAnn a_redirect a_replace a_merged andb negb].
    unfold flowExpr. cbn [src ann nflags emptyAnn a_flags asTemplate]. unfold bind.
    set (env1 := if String.eqb sx (b_source (withScope m env)) then withScope m env else withSource sx (withScope m env)).
    assert (E1 : env2 env1 pa p) by (unfold env1; destruct (String.eqb sx (b_source (withScope m env))); [exact Ev|now apply env2_source]). clearbody env1.
    rewrite EVM by lia. unfold evalMerge. rewrite (absent_lk _ _ _ _ E1 O U). eexists. split; reflexivity. }
  destruct FX as (a & -> & UA). cbn [ann val]. rewrite UA. cbn [asTemplate ms_template]. unfold xe at 1. cbn [val simpleMerge negb]. unfold ret at 1.
  cbn [ms_processed ms_template ms_add ms_val ms_env ms_flags ms_base ms_merged ms_replace ms_redirect ms_err ms_tag negb andb orb a_replace a_tag emptyAnn a_redirect].
  unfold bind at 1. rewrite (H e f (withScope m env) "<<" [] s); [|lia|lia|exact Ev|now left].
  assert (So' : msorted o') by (eapply msorted_keys_eq; [|exact (msorted_filter (fun kv => negb (String.eqb (fst kv) "<<")) m So)]; symmetry; exact (steps_keys _ _ _ _ St)).
  rewrite (insert_nil o' So'). rewrite (inject_id p O o').
  unfold bind. cbn [a_failed emptyAnn]. unfold flowControl.
  rewrite (quiet_getControl ctrl reg _ o'); [|reflexivity|exact (quiet_of _ (steps_ordinary _ _ _ _ St (own_ordinary m K)))]. reflexivity.
Qed.

(** ** templates *)
Lemma lives_of J pa q (Q : string -> node -> node -> Prop) : forall m, (forall k y, In (k, y) m -> exists r w, lifeI (J k) (pa ++ [k]) (q ++ [k]) y r w /\ Q k y r) ->
  exists m' W, lives J pa q m m' W /\ Forall2 (fun x y => fst y = fst x /\ Q (fst x) (snd x) (snd y)) m m'.
Proof.
  induction m as [|[k x] m IH]; intro H; [exists [], 0%nat; split; constructor|].
  destruct IH as (m' & W & L & R); [intros k0 y I; apply H; now right|]. destruct (H k x (or_introl eq_refl)) as (r & w & Lx & Qx).
  exists ((k, r) :: m'), (w + W)%nat. split; constructor; auto.
Qed.
Lemma steps_of J pa q (Q : string -> node -> node -> Prop) : forall o, (forall k x, In (k, x) o -> exists r w, lifeI (J k) (pa ++ [k]) (q ++ [k]) x r w /\ Q k x r) ->
  exists o1, stepsTo pa q o o1 /\ forall k y, In (k, y) o1 -> exists x r w, In (k, x) o /\ lifeI (J k) (pa ++ [k]) (q ++ [k]) y r w /\ Q k x r.
Proof.
  induction o as [|[k x] o IH]; intro H; [exists []; split; [constructor|intros ? ? []]|].
  destruct IH as (o1 & St & R); [intros k0 y I; apply H; now right|]. destruct (H k x (or_introl eq_refl)) as (r & w & Lx & Qx).
  destruct (life_step _ _ _ _ _ _ Lx) as (x1 & w1 & C & L1 & _). exists ((k, x1) :: o1). split.
  - constructor; [|exact St]. split; [reflexivity|]. split; [eapply life_calm, L1|exact C].
  - intros k0 y [E|I].
    + injection E as <- <-. exists x, r, w1. split; [now left|auto].
    + destruct (R k0 y I) as (x0 & r0 & w0 & I0 & L0 & Q0). exists x0, r0, w0. split; [now right|auto].
Qed.
Lemma pass_life pa p : okP p -> forall k n, plain n -> fitsN n -> Nat.iter (S k) (pass true p) n = Nat.iter k (pass true p) n ->
  exists w, life pa p n (Nat.iter k (pass true p) n) w.
Proof.
  intro O. induction k as [|k IH]; intros n P Fi E.
  - exists 0%nat. cbn in *. apply life_rest; [apply fin_plain, P|]. rewrite <- E at 2. now apply plain_comes.
  - pose proof (pass_plain interpol ctrl ordinaryKey stubs SP n P true p) as PP.
    assert (IT : forall j, Nat.iter (S j) (pass true p) n = Nat.iter j (pass true p) (pass true p n)) by (induction j as [|j IHj]; [reflexivity|cbn in *; now rewrite IHj]).
    destruct (IH (pass true p n) PP) as (w & L); [now apply fits_pass|rewrite <- !IT; exact E|]. rewrite <- IT in L.
    destruct (deepEqN n (pass true p n)) eqn:D.
    + assert (EN : n = pass true p n) by (eapply (deepEq_plain ordinaryKey interpol); eassumption). exists w. rewrite EN at 1. exact L.
    + exists (S w). eapply life_go; [apply fin_calm, fin_plain, P|now apply plain_comes|exact D|exact L].
Qed.
Lemma trees_keys : forall m m', trees_eqb (map enc1 m) (map enc1 m') = true -> mkeys m = mkeys m'.
Proof.
  induction m as [|[k x] m IH]; intros [|[k' x'] m'] H; try reflexivity; try discriminate H. cbn [map] in H. rewrite trees_cons, enc1_eq in H.
  apply andb_prop in H. destruct H as [H1 H2]. apply andb_prop in H1. destruct H1 as [H1 _]. apply String.eqb_eq in H1. unfold mkeys in *. cbn [map fst]. f_equal; auto.
Qed.
Lemma keys_differ m m' a a' s s' : In "<<" (mkeys m) -> ~ In "<<" (mkeys m') -> deepEqN (mkNode (VMap m) a s None None) (mkNode (VMap m') a' s' None None) = false.
Proof.
  intros I N. apply deepEq_maps. destruct (trees_eqb (map enc1 m) (map enc1 m')) eqn:E; [|reflexivity]. apply trees_keys in E. rewrite E in I. contradiction.
Qed.
Lemma put_differs x t a s : forall m, mget "<<" m = Some (mkNode (VStr t) a s None None) -> isExpr (val x) = true ->
  trees_eqb (map enc1 m) (map enc1 (put x m)) = false.
Proof.
  induction m as [|[k y] m IH]; intros G X; [discriminate G|]. cbn [map put fst snd]. fold (put x m). rewrite trees_cons, enc1_eq. cbn [mget] in G.
  destruct (String.eqb_spec "<<" k) as [<-|N].
  - injection G as ->. rewrite String.eqb_refl. destruct x as [v ? ? ? ?]. destruct v; try discriminate X. rewrite deepEq_text. reflexivity.
  - rewrite IH by assumption. apply andb_false_r.
Qed.
Lemma ordinary_nomerge m : Forall (fun kv : string * node => ordinaryKey (fst kv)) m -> ~ In "<<" (mkeys m).
Proof.
  intros H I. unfold mkeys in I. apply in_map_iff in I. destruct I as ([k x] & E & I). cbn in E. subst k. rewrite Forall_forall in H. specialize (H _ I). cbn in H.
  destruct (not_stringsym _ H) as [N _]. now apply N.
Qed.
Lemma yaml_calm n : fromYaml n -> calm n.
Proof.
  intro H. split; [|destruct H; split; reflexivity]. intro f. revert H. induction n as [v a s t r IH] using node_ind'. intro H. cbn [mapHere]. f_equal.
  inversion H as [? ? L|l ? Hl|m ? Hm]; subst.
  - destruct L as [->|[[? ->]|[[? ->]|[[? ->]|[? ->]]]]]; reflexivity.
  - f_equal. cbn in IH. clear H. induction Hl as [|x l Hx _ IHl]; [reflexivity|]. inversion IH; subst. cbn [map]. f_equal; auto.
  - f_equal. cbn in IH. clear H. induction Hm as [|[k x] l Hx _ IHl]; [reflexivity|]. inversion IH; subst. cbn [map snd] in *. f_equal; [f_equal|]; auto.
Qed.
(** a map with a merge field is first read and then filled *)
Lemma read_life (IV : node -> Prop) pa p m x q rd rp rq s0 r w : msorted m -> okKeys m -> mget "<<" m = Some x -> textAt interpol parse quote pa p x (EMerge q rd rp rq false "") -> okP p ->
  Forall (fun kv => calm (snd kv)) (own m) ->
  (forall sx m2, m2 = put (mkNode (VExpr (EMerge q rd rp rq false "")) emptyAnn sx None None) m -> msorted m2 -> okKeys m2 -> own m2 = own m -> mget "<<" m2 = Some (mkNode (VExpr (EMerge q rd rp rq false "")) emptyAnn sx None None) ->
     exists n' , comes pa p (mkNode (VMap m2) emptyAnn s0 None None) n' /\ (exists m', val n' = VMap m' /\ ~ In "<<" (mkeys m') /\ tmpl n' = None /\ resolver n' = None) /\ lifeI IV pa p n' r w) ->
  (forall m1, okKeys m1 -> own m1 = own m -> IV (mkNode (VMap m1) emptyAnn s0 None None)) ->
  lifeI IV pa p (mkNode (VMap m) emptyAnn s0 None None) r (S (S w)).
Proof.
  intros So K G TX O C NEXT HI. pose proof (mergekey_read pa p m x q rd rp rq s0 So K G TX O C) as C1.
  destruct (NEXT (src x) _ eq_refl (put_sorted _ _ So) (put_ok _ _ K) (put_own _ _) (put_get _ _ _ G)) as (n' & C2 & (m' & V & N & T1 & R1) & L).
  assert (CX : calm x /\ exists t s, x = mkNode (VStr t) emptyAnn s None None).
  { destruct TX as (t & s & sub & -> & _). split; [apply calm_leaf; [reflexivity|discriminate|discriminate]|eauto]. }
  destruct CX as (CX & t & s & EX).
  assert (ALL : forall y, calm y -> Forall (fun kv => calm (snd kv)) (put y m)).
  { intros y Cy. unfold put. rewrite Forall_map. rewrite Forall_forall in *. intros [k z] I. cbn [fst snd]. destruct (String.eqb_spec k "<<") as [->|NE]; [exact Cy|].
    apply (C (k, z)). apply own_In. auto. }
  eapply li_go; [now apply HI| |exact C1| |eapply li_go; [apply HI; [now apply put_ok|apply put_own]| |exact C2| |exact L]].
  - apply calm_map; [repeat split; now left|]. rewrite Forall_forall in *. intros [k z] I. cbn [snd]. destruct (String.eqb_spec k "<<") as [->|NE].
    + rewrite (In_mget "<<" z m (msorted_NoDup m So) I) in G. injection G as ->. exact CX.
    + apply (C (k, z)). apply own_In. auto.
  - apply deepEq_maps. eapply put_differs; [|reflexivity]. rewrite G, EX. reflexivity.
  - apply calm_map; [repeat split; now left|]. apply ALL. apply calm_leaf; [reflexivity|discriminate|discriminate].
  - destruct n' as [v' a' s' t' r']. cbn [val tmpl resolver] in V, T1, R1. subst. apply keys_differ; [|exact N]. rewrite put_keys. eapply mget_Some_key, G.
Qed.
Notation mdoc := (MergeSpec.mdoc interpol ctrl parse quote stubs).
Notation fills := (MergeSpec.fills interpol ctrl parse quote stubs).
Lemma ok_of m : (forall k, In k (map fst m) -> k <> "<<" -> ordinaryKey k) -> okKeys m.
Proof.
  intro H. unfold okKeys. rewrite Forall_forall. intros [k x] I. cbn [fst]. destruct (String.eqb_spec k "<<") as [->|N]; [now left|right].
  apply H; [apply in_map_iff; exists (k, x); auto|exact N].
Qed.
Lemma own_keys m k : In k (mkeys (own m)) <-> In k (mkeys m) /\ k <> "<<".
Proof.
  unfold mkeys. rewrite !in_map_iff. split.
  - intros ([k0 x] & <- & I). apply own_In in I. destruct I as [I N]. split; [exists (k0, x); auto|exact N].
  - intros [([k0 x] & <- & I) N]. exists (k0, x). split; [reflexivity|]. apply own_In. auto.
Qed.
Lemma F2_in {A B} (R : A -> B -> Prop) l l' y : Forall2 R l l' -> In y l' -> exists x, In x l /\ R x y.
Proof. induction 1 as [|a b l l' Hab _ IH]; intro I; [destruct I|]. destruct I as [<-|I]; [exists a; split; [now left|exact Hab]|]. destruct (IH I) as (x & I1 & R1). exists x. split; [now right|exact R1]. Qed.
Lemma F2_keys (Q : string -> node -> node -> Prop) m m' : Forall2 (fun x y => fst y = fst x /\ Q (fst x) (snd x) (snd y)) m m' -> mkeys m' = mkeys m.
Proof. induction 1 as [|x y m m' [E _] _ IH]; [reflexivity|]. unfold mkeys in *. cbn [map]. now rewrite E, IH. Qed.
Lemma own_mget m k : k <> "<<" -> mget k (own m) = mget k m.
Proof.
  intro N. induction m as [|[k0 x] m IH]; [reflexivity|]. unfold own in *. cbn [filter fst mget]. destruct (String.eqb_spec k0 "<<") as [->|N0]; cbn [negb mget].
  - rewrite IH. now rewrite (proj2 (String.eqb_neq _ _) N).
  - now rewrite IH.
Qed.
Lemma fields_life (IV : node -> Prop) J pa p q bm s0 m : msorted m -> okKeys m -> okP p -> okP q -> basis interpol ctrl parse quote stubs pa p m q bm ->
  (forall k x, In (k, x) m -> k <> "<<" -> exists r w, lifeI (J k) (pa ++ [k]) (q ++ [k]) x r w /\ fills (pa ++ [k]) (q ++ [k]) x r) ->
  (forall k y, ~ In k (mkeys m) -> J k y) ->
  (forall m1 a, okKeys m1 -> a_replace a = false -> (forall k, In k (mkeys (own m)) -> exists y, mget k m1 = Some y /\ J k y) -> IV (mkNode (VMap m1) a s0 None None)) ->
  exists r w, lifeI IV pa p (mkNode (VMap m) emptyAnn s0 None None) r w /\ fills pa p (mkNode (VMap m) emptyAnn s0 None None) r.
Proof.
  intros So K O Oq B IH TJ HI. pose proof (msorted_NoDup m So) as ND.
  assert (SOWN : msorted (own m)) by exact (msorted_filter (fun kv => negb (String.eqb (fst kv) "<<")) m So).
  assert (UNI : forall k x x', In (k, x) m -> In (k, x') m -> x = x').
  { intros k x x' I I'. apply (In_mget k x m ND) in I. apply (In_mget k x' m ND) in I'. congruence. }
  assert (IHo : forall k x, In (k, x) (own m) -> exists r w, lifeI (J k) (pa ++ [k]) (q ++ [k]) x r w /\ fills (pa ++ [k]) (q ++ [k]) x r).
  { intros k x I. apply own_In in I. destruct I as [I N]. exact (IH k x I N). }
  assert (CALM : Forall (fun kv => calm (snd kv)) (own m)).
  { rewrite Forall_forall. intros [k x] I. destruct (IHo k x I) as (r & w & L & _). eapply life_calm, L. }
  assert (HIr : forall m1, okKeys m1 -> own m1 = own m -> IV (mkNode (VMap m1) emptyAnn s0 None None)).
  { intros m1 K1 O1. apply HI; [exact K1|reflexivity|]. intros k Ik. pose proof Ik as Ik'. apply own_keys in Ik' as [_ NE].
    apply in_map_iff in Ik as ([k1 y] & E & Ik). cbn [fst] in E. subst k1. exists y. split.
    - rewrite <- (own_mget m1 k NE), O1. apply (In_mget k y (own m) (msorted_NoDup _ SOWN) Ik).
    - destruct (IHo k y Ik) as (r & w & L & _). eapply life_here, L. }
  (* the common end *)
  assert (FIN : forall base a, mapAnn p q a -> msorted base -> Forall (fun kv => ordinaryKey (fst kv)) base -> basis interpol ctrl parse quote stubs pa p m q bm ->
     (forall k, In k (mkeys base) <-> (In k (mkeys m) /\ k <> "<<") \/ In k (mkeys bm)) ->
     (forall k y, In (k, y) base -> (exists x r w, In (k, x) (own m) /\ lifeI (J k) (pa ++ [k]) (q ++ [k]) y r w /\ fills (pa ++ [k]) (q ++ [k]) x r) \/
        (~ In k (mkeys m) /\ exists r w, lifeI (J k) (pa ++ [k]) (q ++ [k]) y r w /\ forall z, In (k, z) bm -> data r = data z)) ->
     exists r w, lifeI IV pa p (mkNode (VMap base) a s0 None None) r w /\ fills pa p (mkNode (VMap m) emptyAnn s0 None None) r).
  { intros base a A SB KB BB KEYS ENT.
    set (Q := fun k (y r : node) => (exists x, In (k, x) (own m) /\ fills (pa ++ [k]) (q ++ [k]) x r) \/ (~ In k (mkeys m) /\ forall z, In (k, z) bm -> data r = data z)).
    destruct (lives_of J pa q Q base) as (R & W & L & F2).
    { intros k y I. destruct (ENT k y I) as [(x & r & w & I1 & L & FF)|(N & r & w & L & D)]; exists r, w; (split; [exact L|]); [left; exists x; auto|right; auto]. }
    destruct (map_life IV J pa p q a s0 A Oq W base R SB KB) as (w & LM); [|exact L|].
    { intros m1 E1 J1. assert (S1 : msorted m1) by (eapply msorted_keys_eq; [symmetry; exact E1|exact SB]). apply HI; [|apply A|].
      - apply ok_of. intros k Ik _. change (In k (mkeys m1)) in Ik. rewrite E1 in Ik. apply in_map_iff in Ik as ([k1 y1] & <- & Ik). rewrite Forall_forall in KB. exact (KB _ Ik).
      - intros k Ik. apply own_keys in Ik. assert (Ib : In k (mkeys base)) by (apply KEYS; now left). rewrite <- E1 in Ib. apply in_map_iff in Ib as ([k1 y1] & E2 & Ib). cbn [fst] in E2. subst k1.
        exists y1. split; [apply (In_mget k y1 m1 (msorted_NoDup _ S1) Ib)|]. rewrite Forall_forall in J1. exact (J1 _ Ib). } exists (mkNode (VMap R) a s0 None None), w. split; [exact LM|].
    pose proof (F2_keys _ _ _ F2) as KR.
    eapply F_fields; [exact BB|reflexivity| | | |].
    - eapply msorted_keys_eq; [symmetry; exact KR|exact SB].
    - intro k. change (map fst R) with (mkeys R). rewrite KR. apply KEYS.
    - intros k x y I N I'. destruct (F2_in _ _ _ _ F2 I') as ([k0 y0] & I0 & E & QQ). cbn [fst snd] in *. subst k0. destruct QQ as [(x' & I1 & FF)|[NK _]].
      + apply own_In in I1. destruct I1 as [I1 _]. now rewrite (UNI k x x' I I1).
      + exfalso. apply NK. apply in_map_iff. exists (k, x). auto.
    - intros k y z NK I Iz. destruct (F2_in _ _ _ _ F2 I) as ([k0 y0] & I0 & E & QQ). cbn [fst snd] in *. subst k0. destruct QQ as [(x' & I1 & FF)|[_ D]].
      + exfalso. apply NK. apply own_In in I1. destruct I1 as [I1 _]. apply in_map_iff. exists (k, x'). auto.
      + exact (D z Iz). }
  pose proof (own_ordinary m K) as OO.
  assert (GET : forall x, In ("<<", x) m -> mget "<<" m = Some x) by (intros x I; now apply In_mget).
  destruct B as [NK|x q rd rq v bm IM TX OS Q D V|x rp IM TX U].
  - (* no merge field *)
    assert (KM : Forall (fun kv : string * node => ordinaryKey (fst kv)) m).
    { unfold okKeys in K. rewrite Forall_forall in *. intros [k y] I. destruct (K _ I) as [E|H]; [|exact H]. exfalso. apply NK. apply in_map_iff. exists (k, y). cbn in *. auto. }
    apply (FIN m emptyAnn); [repeat split; auto|exact So|exact KM|now constructor| |].
    + intro k. cbn. split; [intro I; left; split; [exact I|intros ->; contradiction]|tauto].
    + intros k y I. left. rewrite (own_id m KM). destruct (IH k y I) as (r & w & L & FF); [intros ->; apply NK; apply in_map_iff; exists ("<<", y); auto|]. exists y, r, w. auto.
  - (* fields of the stubs are inserted *)
    pose proof (defined_plain _ _ Oq D) as P. destruct (plain_map _ _ _ _ P V) as (SB & KB & PB).
    destruct (steps_of J pa q (fun k x r => fills (pa ++ [k]) (q ++ [k]) x r) (own m) IHo) as (o1 & St & H1).
    pose proof (steps_keys _ _ _ _ St) as K1. assert (NDo : NoDup (mkeys o1)) by (rewrite K1; now apply msorted_NoDup).
    assert (KI : Forall (fun kv => ordinaryKey (fst kv)) (insert o1 bm)).
    { rewrite Forall_forall. intros [k y] I1. cbn [fst]. assert (IK : In k (mkeys (insert o1 bm))) by (apply in_map_iff; exists (k, y); auto).
      apply insert_keys in IK. destruct IK as [IK|IK]; apply in_map_iff in IK; destruct IK as ([k1 y1] & <- & I2).
      - pose proof (steps_ordinary _ _ _ _ St OO) as X. rewrite Forall_forall in X. exact (X _ I2).
      - rewrite Forall_forall in KB. exact (KB _ I2). }
    destruct (FIN (insert o1 bm) (insAnn rd false q)) as (r & w & L & FF).
    + split; [repeat split; right; now left|]. split; [reflexivity|]. split; [reflexivity|]. cbn. destruct rd; [now right|left; auto].
    + now apply insert_sorted.
    + exact KI.
    + eapply B_found; eassumption.
    + intro k. rewrite insert_keys, K1, own_keys. reflexivity.
    + intros k y I1. apply (In_mget k y _ (msorted_NoDup _ (insert_sorted o1 bm SB))) in I1. rewrite insert_get, (mget_rev o1 k NDo) in I1.
      destruct (mget k o1) as [y1|] eqn:G1.
      * injection I1 as ->. left. exact (H1 k y (mget_In _ _ _ G1)).
      * right. apply mget_None in G1. rewrite K1, own_keys in G1. apply mget_In in I1.
        assert (OK : ordinaryKey k) by (rewrite Forall_forall in KB; exact (KB _ I1)). split; [intro IK; apply G1; split; [exact IK|apply not_stringsym, OK]|].
        assert (LK : Lk (q ++ [k]) = FOk y).
        { eapply (lk_step interpol ctrl stubs SP SF q k v); [exact Oq|now apply ok_ordinary|now apply (lk_defined interpol ctrl stubs SP q v Oq)|].
          unfold nextStep. rewrite V, (quiet_resolved ctrl bm (quiet_of _ KB)). cbn [orb]. rewrite (In_mget k y bm (msorted_NoDup _ SB) I1). reflexivity. }
        destruct (self_life (pa ++ [k]) (q ++ [k]) y) as (r & w & L & DR); [now apply okP_app; [|apply ok_ordinary]|exact LK|]. exists r, w. split; [eapply life_weaken; [|exact L]; intros; now apply TJ; intro IK; apply G1; split; [exact IK|apply not_stringsym, OK]|].
        intros z Iz. assert (z = y) by (apply (In_mget k y bm (msorted_NoDup _ SB)) in I1; apply (In_mget k z bm (msorted_NoDup _ SB)) in Iz; congruence). now subst.
    + exists r, (S (S w)). split; [|exact FF]. eapply read_life; [exact So|exact K|exact (GET x IM)|exact TX|exact O|exact CALM| |exact HIr].
      intros sx m2 -> S2 K2 O2 G2. exists (mkNode (VMap (insert o1 bm)) (insAnn rd false q) s0 None None). split; [|split; [|exact L]].
      * eapply mergekey_found; try eassumption. now rewrite O2.
      * exists (insert o1 bm). split; [reflexivity|]. split; [now apply ordinary_nomerge|auto].
  - (* nothing to insert *)
    destruct (steps_of J pa p (fun k x r => fills (pa ++ [k]) (p ++ [k]) x r) (own m) IHo) as (o1 & St & H1).
    pose proof (steps_keys _ _ _ _ St) as K1.
    destruct (FIN o1 emptyAnn) as (r & w & L & FF).
    + repeat split; auto.
    + eapply msorted_keys_eq; [symmetry; exact K1|exact SOWN].
    + exact (steps_ordinary _ _ _ _ St OO).
    + eapply B_absent; eassumption.
    + intro k. rewrite K1, own_keys. cbn. tauto.
    + intros k y I1. left. exact (H1 k y I1).
    + exists r, (S (S w)). split; [|exact FF]. eapply read_life; [exact So|exact K|exact (GET x IM)|exact TX|exact O|exact CALM| |exact HIr].
      intros sx m2 -> S2 K2 O2 G2. exists (mkNode (VMap o1) emptyAnn s0 None None). split; [|split; [|exact L]].
      * eapply mergekey_absent; try eassumption. now rewrite O2.
      * exists o1. split; [reflexivity|]. split; [apply ordinary_nomerge; exact (steps_ordinary _ _ _ _ St OO)|auto].
Qed.
(** ** lists of named elements *)
Definition namedI (x : string) (n : node) : Prop :=
  exists m c, val n = VMap m /\ okKeys m /\ mget "name" m = Some c /\ val c = VStr x /\ a_replace (ann n) = false.
Lemma named_so e f x n env s : namedI x n -> F e f n env false false s = F e f n env true false s.
Proof.
  intros (m & c & V & K & _ & _ & R). destruct f as [|f]; [reflexivity|]. cbn [flowF]. unfold flowNode. rewrite V, R. cbn [isExpr negb andb].
  destruct (a_merged (ann n)); [reflexivity|]. rewrite (merge_getControl n m V K). reflexivity.
Qed.
Lemma named_noEntry x n : namedI x n -> entryMerge n = None.
Proof.
  intros (m & c & V & K & G & _). unfold entryMerge. rewrite V. destruct m as [|[k v] [|]]; try reflexivity. cbn [mget] in G.
  destruct (String.eqb_spec "name" k) as [<-|]; [reflexivity|discriminate G].
Qed.
Lemma ok_noTag m : okKeys m -> forall f no key, keyTags m f no key = (f, no, key).
Proof.
  induction 1 as [|[k v] m Hk H IH]; intros f no key; cbn [keyTags]; [reflexivity|]. cbn [fst] in Hk.
  destruct Hk as [->|Hk]; [apply IH|]. rewrite (quiet_keyTag _ (ordinary_quiet _ Hk)). apply IH.
Qed.
Lemma ok_keyTag n m : val n = VMap m -> okKeys m -> processKeyTag n = (n, "").
Proof. intros V K. unfold processKeyTag. rewrite V, (ok_noTag m K). reflexivity. Qed.
Lemma named_step x n rec i env s : namedI x n -> stepName ST ctrl setTagX rec i n "" env true s = Ret (nm x, true, true, true) s.
Proof.
  intros (m & c & V & K & G & Vc & _). unfold stepName. cbn [String.eqb]. unfold findString. cbn [find]. unfold nextStep. rewrite V, G. cbn [orb].
  destruct (mapResolved ctrl m); rewrite Vc; reflexivity.
Qed.
Inductive esteps (pa q : list string) : list string -> list node -> list node -> Prop :=
| es_nil : esteps pa q [] [] []
| es_cons x n n1 names l l1 : namedI x n -> calm n1 -> comes (pa ++ [nm x]) (q ++ [nm x]) n n1 -> esteps pa q names l l1 ->
    esteps pa q (x :: names) (n :: l) (n1 :: l1).
Lemma esteps_named pa q names l l1 : esteps pa q names l l1 -> Forall2 namedI names l.
Proof. induction 1; constructor; assumption. Qed.
Lemma nm_inj x y : nm x = nm y -> x = y.
Proof. unfold nm. intro H. cbn in H. now injection H. Qed.
Lemma unique_named rec env s : forall names l, Forall2 namedI names l -> NoDup names -> forall i keys, (forall x, In x names -> ~ In (nm x) keys) ->
  uniqueKeys ST ctrl setTagX rec l i "" env keys s = Ret true s.
Proof.
  induction 1 as [|x n names l H _ IH]; intros ND i keys NK; [reflexivity|]. inversion ND as [|? ? Nx ND']; subst. cbn [uniqueKeys]. unfold bind.
  rewrite (named_step x n rec i env s H). cbn [negb orb].
  assert (E : existsb (String.eqb (nm x)) keys = false).
  { destruct (existsb (String.eqb (nm x)) keys) eqn:E; [|reflexivity]. exfalso. apply existsb_exists in E as (y & I & E). apply String.eqb_eq in E. subst y. eapply NK; [now left|exact I]. }
  rewrite E. apply IH; [exact ND'|]. intros y Iy [E1|I1]; [apply nm_inj in E1; subst; contradiction|]. eapply NK; [right; exact Iy|exact I1].
Qed.
Lemma list_entries pa q : forall names l l1, esteps pa q names l l1 -> exists N, forall e f env i nomerge s, (N <= e)%nat -> (N <= f)%nat -> env2 env pa q ->
  listEntries ST ctrl setTagX (F e f) l i "" env true nomerge s = Ret l1 s.
Proof.
  induction 1 as [|x n n1 names l l1 H Ca (N1 & C) _ (N & IH)]; [exists 0%nat; reflexivity|].
  exists (Nat.max N N1). intros e f env i nomerge s L1 L2 E. cbn [listEntries]. unfold bind. rewrite (named_step x n (F e f) i env s H). cbn [negb andb].
  rewrite (tagged_plain ST ctrl setTagX (F e f) n (withPath (nm x) env) false false s n1);
    [|rewrite (named_so e f x n _ _ H); apply C; [lia|lia|now apply env2_path]|apply Ca].
  rewrite (IH e f env (i + 1)%Z nomerge s); [|lia|lia|exact E]. unfold ret. destruct Ca as (_ & -> & _). reflexivity.
Qed.
Lemma splice_named e f orig root env s r : forall names l, Forall2 namedI names l -> forall st,
  spliceMerges ST interpol quote show (F e f) orig root (l ++ r) env st s =
  spliceMerges ST interpol quote show (F e f) orig root r env
    (mkPS (ps_spliced st ++ l) (ps_process st) (ps_merged st) (ps_keyName st) (ps_replaced st) (ps_redirect st) (ps_flags st) (ps_tag st) (ps_template st)) s.
Proof.
  induction 1 as [|x n names l H _ IH]; intro st; [cbn [app]; rewrite app_nil_r; destruct st; reflexivity|].
  cbn [app spliceMerges]. rewrite (named_noEntry _ _ H). destruct H as (m & c & V & K & _). rewrite (ok_keyTag n m V K). cbn [String.eqb].
  rewrite IH. cbn [ps_spliced ps_process ps_merged ps_keyName ps_replaced ps_redirect ps_flags ps_tag ps_template]. rewrite <- app_assoc. reflexivity.
Qed.
Definition quietE (n : node) : Prop := exists m, val n = VMap m /\ okKeys m.
Lemma named_quietE x n : namedI x n -> quietE n.
Proof. intros (m & c & V & K & _). exists m. auto. Qed.
Lemma controls_none e f env process s : forall l, Forall quietE l -> spliceControls ST ctrl reg (F e f) l env process s = Ret (l, process) s.
Proof.
  induction 1 as [|n l (m & V & K) _ IH]; [reflexivity|]. cbn [spliceControls]. rewrite (merge_getControl n m V K). unfold bind. rewrite IH. reflexivity.
Qed.
Lemma all_quietE names l : Forall2 namedI names l -> Forall quietE l.
Proof. induction 1; constructor; [eapply named_quietE; eassumption|assumption]. Qed.
Lemma no_useMerge names l : Forall2 namedI names l -> existsb useMerge l = false.
Proof. induction 1 as [|x n names l H _ IH]; [reflexivity|]. cbn [existsb]. unfold useMerge at 1. now rewrite (named_noEntry _ _ H). Qed.

Definition listAnn (p q : list string) (a : annotation) : Prop := mapAnn p q a /\ a_keyName a = "".
Definition injA (q : list string) (a : annotation) : annotation := match Lk q with FOk _ => aAddFlags FLAG_INJECTED a | _ => a end.
Lemma noInject st sl : plain st -> val st = VList sl -> filter (fun v => fInject (nflags v)) sl = [].
Proof.
  intros P V. assert (H : Forall plain sl). { destruct P as [? ? L| |]; cbn in V; subst; try discriminate V; [inversion L|]. now injection V as <-. }
  clear P V. induction H as [|n l H _ IH]; [reflexivity|]. cbn [filter]. unfold nflags. destruct (plain_flags _ _ _ H) as [-> | ->]; exact IH.
Qed.
Lemma fin_flags v a s0 fl tg s : a_tag a = "" -> tg = "" ->
  (if negb (N.lor fl (nflags (mkNode v a s0 None None)) =? nflags (mkNode v a s0 None None))%N then ret ST (addFlags (mkNode v a s0 None None) fl)
   else if String.eqb tg "" || String.eqb tg (a_tag (ann (mkNode v a s0 None None))) then ret ST (mkNode v a s0 None None) else ret ST (setTag (mkNode v a s0 None None) tg)) s
  = Ret (mkNode v (aAddFlags fl a) s0 None None) s.
Proof.
  intros T1 ->. unfold nflags. cbn [ann]. destruct (N.eqb_spec (N.lor fl (a_flags a)) (a_flags a)) as [E|_]; cbn [negb]; [|reflexivity].
  cbn [String.eqb orb]. unfold ret. rewrite N.lor_comm in E. unfold aAddFlags. rewrite E. destruct a; reflexivity.
Qed.
Definition keepFlags (a : annotation) : flags := if fNoMerge (a_flags a) then N.lor 0 FLAG_NOMERGE else 0%N.
Lemma keep_same a : quietA a -> aAddFlags (keepFlags a) a = a.
Proof. intros (_ & _ & _ & Q). destruct a. cbn in *. destruct Q as [-> | [-> | [-> | ->]]]; reflexivity. Qed.
Lemma keep_inj a : quietA a -> aAddFlags (N.lor (keepFlags a) FLAG_INJECTED) a = aAddFlags FLAG_INJECTED a.
Proof. intros (_ & _ & _ & Q). destruct a. cbn in *. destruct Q as [-> | [-> | [-> | ->]]]; reflexivity. Qed.
Lemma inj_same a : quietA a -> fInjected (a_flags a) = true -> aAddFlags FLAG_INJECTED a = a.
Proof. intros (_ & _ & _ & Q) H. destruct a. cbn in *. destruct Q as [-> | [-> | [-> | ->]]]; try discriminate H; reflexivity. Qed.
Lemma list_step pa p q names l l1 a s0 : NoDup names -> listAnn p q a -> okP q -> esteps pa q names l l1 ->
  comes pa p (mkNode (VList l) a s0 None None) (mkNode (VList l1) (injA q a) s0 None None).
Proof.
  intros ND ((Q & Rp & Me & Rd) & KN) O St. pose proof (esteps_named _ _ _ _ _ St) as NA. destruct (list_entries _ _ _ _ _ St) as (N & H).
  exists (S N). intros e f env s L1 L2 E. destruct f as [|f]; [lia|]. cbn [flowF]. unfold flowNode. cbn [ann val isExpr]. rewrite Rp, Me. cbn [andb negb].
  set (env1 := match a_redirect a with Some r => redirectOverwrite r env | None => env end).
  assert (E1 : env2 env1 pa q). { unfold env1. destruct Rd as [[-> ->]|[-> NE]]; [exact E|now apply (env2_redirect env pa p)]. }
  unfold flowList. cbn [ann]. rewrite Me. unfold bind at 1. rewrite (inherit env1 pa q s E1 O).
  unfold bind at 1. rewrite <- (app_nil_r l) at 3. rewrite (splice_named e f _ l env1 s [] names l NA).
  cbn [spliceMerges ps_spliced ps_process ps_merged ps_keyName ps_replaced ps_redirect ps_flags ps_tag ps_template app]. unfold ret at 1.
  cbn [spliceMerges ps_spliced ps_process ps_merged ps_keyName ps_replaced ps_redirect ps_flags ps_tag ps_template app].
  unfold bind at 1. unfold bind at 1. rewrite (controls_none e f env1 true s l (all_quietE _ _ NA)). unfold ret at 1. cbn [fst snd].
  rewrite (no_useMerge _ _ NA), orb_false_r. rewrite KN.
  set (env3 := match a_redirect a with Some p0 => redirectOverwrite p0 env1 | None => env1 end).
  assert (E3 : env2 env3 pa q). { unfold env3. destruct Rd as [[-> ->]|[-> NE]]; [exact E1|now apply (env2_redirect env1 pa q)]. }
  clearbody env1 env3. unfold bind at 1. unfold bind at 1. cbn [String.eqb Ascii.eqb Bool.eqb NO_LIST_KEY].
  rewrite (unique_named (F e f) env3 s names l NA ND 0%Z []); [|intros ? ? []].
  unfold bind at 1. rewrite (H e f env3 0%Z _ s); [|lia|lia|exact E3]. unfold ret at 1. cbn [String.eqb].
  rewrite Rp. unfold injA.
  assert (RN : match a_redirect a with Some _ => redirectNode (VList l1) (mkNode (VList l) a s0 None None) (a_redirect a) | None => substituteNodeV (VList l1) (mkNode (VList l) a s0 None None) end
     = mkNode (VList l1) a s0 None None) by (destruct (a_redirect a) eqn:X; destruct a; cbn in *; subst; reflexivity).
  assert (QT : a_tag a = "") by apply Q.
  change (nflags (mkNode (VList l) a s0 None None)) with (a_flags a). fold (keepFlags a).
  destruct (Lk q) as [st| |] eqn:El.
  - assert (X : forall ml fl, (ml, fl) = (if fInjected (a_flags a) then (VList l1, keepFlags a) else
       (VList match val st with VList sl => filter (fun v : node => fInject (nflags v)) sl ++ l1 | _ => l1 end, N.lor (keepFlags a) FLAG_INJECTED)) ->
       ml = VList l1 /\ aAddFlags fl a = aAddFlags FLAG_INJECTED a).
    { intros ml fl Eq. destruct (fInjected (a_flags a)) eqn:Ei; injection Eq as -> ->.
      - split; [reflexivity|]. now rewrite (keep_same a Q), (inj_same a Q Ei).
      - split; [|now apply keep_inj]. f_equal. destruct (val st) eqn:Vs; try reflexivity. rewrite (noInject st _ (plain_lk interpol ctrl stubs SP q st El) Vs). reflexivity. }
    destruct (if fInjected (a_flags a) then _ else _) as [ml fl]. destruct (X ml fl eq_refl) as [-> XA]. rewrite RN.
    rewrite <- XA. now apply fin_flags.
  - rewrite RN. etransitivity; [apply fin_flags; exact QT|]. change (Ret (mkNode (VList l1) (aAddFlags (keepFlags a) a) s0 None None) s = Ret (mkNode (VList l1) a s0 None None) s). now rewrite (keep_same a Q).
  - exfalso. eapply okNP; eassumption.
Qed.

Inductive elives (pa q : list string) : list string -> list node -> list node -> nat -> Prop :=
| el_nil : elives pa q [] [] [] 0
| el_cons x n r w names l l' W : lifeI (namedI x) (pa ++ [nm x]) (q ++ [nm x]) n r w -> elives pa q names l l' W ->
    elives pa q (x :: names) (n :: l) (r :: l') (w + W).
Lemma elives_step pa q names l l' W : elives pa q names l l' W -> exists l1 W1, esteps pa q names l l1 /\ elives pa q names l1 l' W1 /\
  (W = 0%nat /\ W1 = 0%nat /\ l1 = l /\ l' = l \/ (W1 < W)%nat /\ trees_eqb (map encN l) (map encN l1) = false).
Proof.
  induction 1 as [|x n r w names l l' W L Ls (l1 & W1 & S1 & L1 & D1)].
  - exists [], 0%nat. split; [constructor|]. split; [constructor|auto 6].
  - destruct (life_step _ _ _ _ _ _ L) as (x1 & w1 & C & Lx & D). exists (x1 :: l1), (w1 + W1)%nat. split; [|split].
    + constructor; [eapply life_here, L|eapply life_calm, Lx|exact C|exact S1].
    + now constructor.
    + cbn [map]. rewrite trees_cons. fold (deepEqN n x1). destruct D as [(-> & -> & -> & ->)|[D DE]].
      * destruct D1 as [(-> & -> & -> & ->)|[D1 DE]]; [left; auto|right]. split; [lia|]. rewrite DE. apply andb_false_r.
      * right. rewrite DE. split; [|reflexivity]. destruct D1 as [(-> & -> & -> & ->)|[D1 _]]; lia.
Qed.
Lemma elives_fin pa q names l l' W : elives pa q names l l' W -> Forall fin l'.
Proof. induction 1; constructor; [eapply life_fin; eassumption|assumption]. Qed.
Lemma elives_calm pa q names l l' W : elives pa q names l l' W -> Forall calm l.
Proof. induction 1; constructor; [eapply life_calm; eassumption|assumption]. Qed.
Lemma elives_app pa q n1 l1 r1 W1 n2 l2 r2 W2 : elives pa q n1 l1 r1 W1 -> elives pa q n2 l2 r2 W2 -> elives pa q (n1 ++ n2) (l1 ++ l2) (r1 ++ r2) (W1 + W2).
Proof. intros H1 H2. induction H1; [exact H2|]. cbn [app]. rewrite <- Nat.add_assoc. now constructor. Qed.
Lemma calm_list l a s : quietA a -> Forall calm l -> calm (mkNode (VList l) a s None None).
Proof.
  intros (_ & U & Tg & _) C. split; [|split; assumption]. intro f. cbn [mapHere]. do 2 f_equal.
  induction C as [|x m [Cx _] _ IH]; [reflexivity|]. cbn [map]. now rewrite Cx, IH.
Qed.
Lemma deepEq_lists l l' a a' s s' : trees_eqb (map encN l) (map encN l') = false -> deepEqN (mkNode (VList l) a s None None) (mkNode (VList l') a' s' None None) = false.
Proof. intro H. apply deepEq_vals. cbn [encV]. rewrite tree_eqb_TN. apply andb_false_iff. right. exact H. Qed.
Lemma list_life pa p q a s0 names : NoDup names -> listAnn p q a -> injA q a = a -> okP q -> forall W l l', elives pa q names l l' W ->
  exists w, life pa p (mkNode (VList l) a s0 None None) (mkNode (VList l') a s0 None None) w.
Proof.
  intros ND A IA O. induction W as [W IH] using lt_wf_ind. intros l l' L.
  destruct (elives_step _ _ _ _ _ _ L) as (l1 & W1 & St & L1 & D).
  pose proof (list_step pa p q names l l1 a s0 ND A O St) as C. rewrite IA in C.
  destruct D as [(-> & -> & -> & ->)|[D DE]].
  - exists 0%nat. apply life_rest; [|exact C]. apply fin_list; [apply A|eapply elives_fin, L].
  - destruct (IH W1 D l1 l' L1) as (w & Lw). exists (S w). eapply life_go; [|exact C|now apply deepEq_lists|exact Lw].
    apply calm_list; [apply A|eapply elives_calm, L].
Qed.
(** a fresh list: it may get the flag "injected" in the first round *)
Lemma fresh_life pa p s0 names l l' W : NoDup names -> okP p -> elives pa p names l l' W ->
  exists a w, life pa p (mkNode (VList l) emptyAnn s0 None None) (mkNode (VList l') a s0 None None) w.
Proof.
  intros ND O L.
  assert (A0 : listAnn p p emptyAnn) by (split; [split; [repeat split; now left|repeat split; now left]|reflexivity]).
  destruct (Lk p) as [st| |] eqn:El.
  - destruct (elives_step _ _ _ _ _ _ L) as (l1 & W1 & St & L1 & _). pose proof (list_step pa p p names l l1 emptyAnn s0 ND A0 O St) as C.
    unfold injA in C. rewrite El in C. fold injectedAnn in C.
    assert (A1 : listAnn p p injectedAnn) by (split; [split; [repeat split; right; now left|repeat split; now left]|reflexivity]).
    destruct (list_life pa p p injectedAnn s0 names ND A1) with (W := W1) (l := l1) (l' := l') as (w & Lw); [unfold injA; rewrite El; reflexivity|exact O|exact L1|].
    exists injectedAnn, (S w). eapply life_go; [|exact C| |exact Lw].
    + apply calm_list; [apply A0|eapply elives_calm, L].
    + unfold deepEqN. cbn [encN]. rewrite tree_eqb_TN. apply andb_false_iff. right. rewrite !trees_cons. apply andb_false_iff. right. apply andb_false_iff. left. reflexivity.
  - destruct (list_life pa p p emptyAnn s0 names ND A0) with (W := W) (l := l) (l' := l') as (w & Lw); [unfold injA; rewrite El; reflexivity|exact O|exact L|]. eauto.
  - exfalso. eapply okNP; eassumption.
Qed.
Lemma elives_of pa q (Q : string -> node -> node -> Prop) : forall names l,
  Forall2 (fun x n => exists r w, lifeI (namedI x) (pa ++ [nm x]) (q ++ [nm x]) n r w /\ Q x n r) names l ->
  exists l' W, elives pa q names l l' W /\ length l' = length l /\ forall t y, In (t, y) (combine l l') -> exists x, Q x t y.
Proof.
  induction 1 as [|x n names l (r & w & L & Qr) _ (l' & W & Ls & Len & IH)]; [exists [], 0%nat; split; [constructor|split; [reflexivity|intros ? ? []]]|].
  exists (r :: l'), (w + W)%nat. split; [now constructor|]. split; [cbn; now rewrite Len|]. intros t y [E|I]; [injection E as <- <-; eauto|auto].
Qed.

(** a list with a merge entry is first read ... *)
Definition entryN (x : node) (s : string) : node := mkNode (VMap [("<<", x)]) emptyAnn s None None.
Lemma entry_ok x s : quietE (entryN x s).
Proof. exists [("<<", x)]. split; [reflexivity|]. constructor; [now left|constructor]. Qed.
Lemma splice_read rec orig root xi ex sx sy r env st s : rec xi env false false s = Ret (mkNode (VExpr ex) emptyAnn sx None None) s ->
  (exists t, val xi = VStr t) -> asTemplate ex (ps_template st) = None ->
  ann orig = emptyAnn -> tmpl orig = None -> resolver orig = None ->
  spliceMerges ST interpol quote show rec orig root (entryN xi sy :: r) env st s =
  spliceMerges ST interpol quote show rec orig root r env
    (mkPS (ps_spliced st ++ [entryN (mkNode (VExpr ex) emptyAnn sx None None) (src orig)]) false (ps_merged st) (ps_keyName st) (ps_replaced st) (ps_redirect st) (ps_flags st) (ps_tag st) (ps_template st)) s.
Proof.
  intros R (t & V) AT A T1 R1. cbn [spliceMerges]. change (entryMerge (entryN xi sy)) with (Some (xi, "<<")). cbv beta iota zeta. unfold bind at 1. rewrite R. cbv beta iota zeta. rewrite V.
  cbn [val ann a_keyName emptyAnn String.eqb simpleMerge ps_template]. rewrite AT. cbn [ps_spliced ps_process ps_merged ps_keyName ps_replaced ps_redirect ps_flags ps_tag ps_template].
  destruct orig as [v0 a0 s2 t0 r0]. cbn [ann tmpl resolver] in A, T1, R1. subst a0 t0 r0.
  change (substituteNodeV (VMap [("<<", mkNode (VExpr ex) emptyAnn sx None None)]) (mkNode v0 emptyAnn s2 None None)) with (entryN (mkNode (VExpr ex) emptyAnn sx None None) s2).
  destruct (entry_ok (mkNode (VExpr ex) emptyAnn sx None None) s2) as (m & Vm & K). rewrite (ok_keyTag _ m Vm K). reflexivity.
Qed.
Lemma list_read pa p npre npost pre post x s' s0 q rd rp rq : textAt interpol parse quote pa p x (EMerge q rd rp rq false "") -> okP p ->
  Forall2 namedI npre pre -> Forall2 namedI npost post ->
  comes pa p (mkNode (VList (pre ++ entryN x s' :: post)) emptyAnn s0 None None)
             (mkNode (VList (pre ++ entryN (mkNode (VExpr (EMerge q rd rp rq false "")) emptyAnn (src x) None None) s0 :: post)) emptyAnn s0 None None).
Proof.
  intros TX O N1 N2. exists 2%nat. intros e f env s L1 L2 E. destruct f as [|f]; [lia|]. cbn [flowF]. unfold flowNode. cbn [ann val isExpr emptyAnn a_redirect a_replace a_merged andb negb].
  unfold flowList. cbn [ann a_merged emptyAnn]. unfold bind at 1. rewrite (inherit env pa p s E O).
  set (orig := mkNode (VList (pre ++ entryN x s' :: post)) emptyAnn s0 None None). set (rl := pre ++ entryN x s' :: post) at 2.
  unfold bind at 1. rewrite (splice_named e f orig rl env s (entryN x s' :: post) npre pre N1).
  rewrite (splice_read (F e f) orig rl x (EMerge q rd rp rq false "") (src x) s' post env _ s);
    [|apply (read_rec pa p x _ TX); [lia|exact E]|destruct TX as (t0 & s1 & sub & -> & _); eexists; reflexivity|reflexivity|reflexivity|reflexivity|reflexivity].
  cbn [ps_template ps_spliced ps_process ps_merged ps_keyName ps_replaced ps_redirect ps_flags ps_tag app]. change (src orig) with s0.
  rewrite <- (app_nil_r post) at 1. rewrite (splice_named e f orig rl env s [] npost post N2).
  cbn [spliceMerges ps_spliced ps_process ps_merged ps_keyName ps_replaced ps_redirect ps_flags ps_tag ps_template app]. unfold ret at 1.
  cbn [ps_spliced ps_process ps_merged ps_keyName ps_replaced ps_redirect ps_flags ps_tag ps_template].
  unfold bind at 1. unfold bind at 1. rewrite controls_none.
  - unfold ret at 1. cbn [fst snd]. unfold bind at 1. unfold ret at 1.
    assert (UM : existsb useMerge (pre ++ entryN x s' :: post) = false).
    { rewrite existsb_app. cbn [existsb]. rewrite (no_useMerge _ _ N1), (no_useMerge _ _ N2). unfold useMerge. change (entryMerge (entryN x s')) with (Some (x, "<<")). destruct TX as (t0 & s1 & sub & -> & _). reflexivity. }
    rewrite UM. unfold orig. rewrite <- !app_assoc. reflexivity.
  - rewrite !Forall_app. split; [split; [eapply all_quietE, N1|constructor; [apply entry_ok|constructor]]|eapply all_quietE, N2].
Qed.
(** ... and then filled *)
Definition listA (rd : bool) (q : list string) (found : bool) : annotation :=
  mkAnn (if rd then Some q else None) false false false "" false false false noIssue ""
    (N.lor (if rd then 0 else FLAG_NOMERGE) (if found then FLAG_INJECTED else 0))%N.
Lemma splice_found rec orig root xi sy r env st s res il : rec xi env false false s = Ret res s -> val res = VList il -> a_keyName (ann res) = "" -> a_replace (ann res) = false -> ps_keyName st = "" ->
  spliceMerges ST interpol quote show rec orig root (entryN xi sy :: r) env st s =
  spliceMerges ST interpol quote show rec orig root r env
    (mkPS (ps_spliced st ++ newEntries il root "") (ps_process st) true "" false (a_redirect (ann res)) (ps_flags st) (ps_tag st) (ps_template st)) s.
Proof.
  intros R V K Rp KS. cbn [spliceMerges]. change (entryMerge (entryN xi sy)) with (Some (xi, "<<")). cbv beta iota zeta. unfold bind at 1. rewrite R. cbv beta iota zeta. rewrite V, K, Rp. cbn [String.eqb]. rewrite KS. reflexivity.
Qed.
Lemma splice_skip rec orig root q rd rp sx sy r env st s a s1 : 
  rec (mkNode (VExpr (EMerge q rd rp false false "")) emptyAnn sx None None) env false false s = Ret (mkNode (VExpr (EMerge q rd rp false false "")) a s1 None None) s -> a_keyName a = "" ->
  spliceMerges ST interpol quote show rec orig root (entryN (mkNode (VExpr (EMerge q rd rp false false "")) emptyAnn sx None None) sy :: r) env st s =
  spliceMerges ST interpol quote show rec orig root r env st s.
Proof.
  intros R K. cbn [spliceMerges]. change (entryMerge (entryN (mkNode (VExpr (EMerge q rd rp false false "")) emptyAnn sx None None) sy)) with (Some (mkNode (VExpr (EMerge q rd rp false false "")) emptyAnn sx None None, "<<")).
  cbv beta iota zeta. unfold bind at 1. rewrite R. cbv beta iota zeta. cbn [val ann]. rewrite K. cbn [String.eqb simpleMerge val negb]. destruct st; reflexivity.
Qed.
Lemma list_filled pa p npre npost nnew pre post new q rd rq sx sy s0 v il l1 : okP p -> okP q -> (if rd : bool then q <> [] else q = p) ->
  definedBy ctrl stubs q v -> val v = VList il ->
  let xe := entryN (mkNode (VExpr (EMerge q rd false rq false "")) emptyAnn sx None None) sy in
  newEntries il (pre ++ xe :: post) "" = new -> NoDup (npre ++ nnew ++ npost) ->
  Forall2 namedI npre pre -> Forall2 namedI nnew new -> Forall2 namedI npost post -> esteps pa q (npre ++ nnew ++ npost) (pre ++ new ++ post) l1 ->
  comes pa p (mkNode (VList (pre ++ xe :: post)) emptyAnn s0 None None) (mkNode (VList l1) (listA rd q true) s0 None None).
Proof.
  intros O Oq Q D V xe NE ND N1 N2 N3 St. destruct (list_entries _ _ _ _ _ St) as (N & H). pose proof (defined_plain _ _ Oq D) as P.
  exists (S (S N)). intros e f env s L1 L2 E. destruct f as [|f]; [lia|]. cbn [flowF]. unfold flowNode. cbn [ann val isExpr emptyAnn a_redirect a_replace a_merged andb negb].
  unfold flowList. cbn [ann a_merged emptyAnn]. unfold bind at 1. rewrite (inherit env pa p s E O).
  set (orig := mkNode (VList (pre ++ xe :: post)) emptyAnn s0 None None). set (rl := pre ++ xe :: post) at 2.
  unfold bind at 1. rewrite (splice_named e f orig rl env s (xe :: post) npre pre N1).
  unfold xe at 1. rewrite (splice_found (F e f) orig rl _ sy post env _ s (tookN rd false q v sx) il);
    [|eapply merge_found; [lia|lia|exact E|exact P|eapply found_lk; eassumption|now left]|exact V|reflexivity|reflexivity|reflexivity].
  unfold tookN. cbn [ann]. cbn [tookA a_keyName a_replace a_redirect String.eqb ps_template ps_spliced ps_process ps_merged ps_keyName ps_replaced ps_redirect ps_flags ps_tag app a_tag emptyAnn].
  rewrite (NE : newEntries il rl "" = new). rewrite <- (app_nil_r post) at 1. rewrite (splice_named e f orig rl env s [] npost post N3).
  cbn [spliceMerges ps_spliced ps_process ps_merged ps_keyName ps_replaced ps_redirect ps_flags ps_tag ps_template app]. unfold ret at 1.
  cbn [ps_spliced ps_process ps_merged ps_keyName ps_replaced ps_redirect ps_flags ps_tag ps_template].
  rewrite <- app_assoc. assert (NA : Forall2 namedI (npre ++ nnew ++ npost) (pre ++ new ++ post)) by (repeat apply Forall2_app; assumption).
  unfold bind at 1. unfold bind at 1. rewrite (controls_none e f env true s _ (all_quietE _ _ NA)). unfold ret at 1. cbn [fst snd].
  assert (UM : existsb useMerge (pre ++ xe :: post) = negb rd).
  { rewrite existsb_app. cbn [existsb]. rewrite (no_useMerge _ _ N1), (no_useMerge _ _ N3). cbn. now rewrite orb_false_r. }
  rewrite UM. change (nflags orig) with 0%N. change (fNoMerge 0%N) with false. cbn [orb].
  set (env3 := match (if rd then Some q else None) with Some p0 => redirectOverwrite p0 env | None => env end).
  assert (E3 : env2 env3 pa q). { unfold env3. destruct rd; [now apply (env2_redirect env pa p)|subst q; exact E]. }
  clearbody env3. unfold bind at 1. unfold bind at 1. cbn [String.eqb Ascii.eqb Bool.eqb NO_LIST_KEY].
  rewrite (unique_named (F e f) env3 s _ _ NA ND 0%Z []); [|intros ? ? []].
  unfold bind at 1. rewrite (H e f env3 0%Z _ s); [|lia|lia|exact E3]. unfold ret at 1. unfold orig, listA. destruct rd; reflexivity.
Qed.
Lemma list_absent pa p npre npost pre post rp sx sy s0 l1 : okP p -> undefined ctrl stubs p ->
  let xe := entryN (mkNode (VExpr (EMerge p false rp false false "")) emptyAnn sx None None) sy in
  NoDup (npre ++ npost) -> Forall2 namedI npre pre -> Forall2 namedI npost post -> esteps pa p (npre ++ npost) (pre ++ post) l1 ->
  comes pa p (mkNode (VList (pre ++ xe :: post)) emptyAnn s0 None None) (mkNode (VList l1) (listA false p false) s0 None None).
Proof.
  intros O U xe ND N1 N3 St. destruct (list_entries _ _ _ _ _ St) as (N & H).
  exists (S (S N)). intros e f env s L1 L2 E. destruct f as [|f]; [lia|]. cbn [flowF]. unfold flowNode. cbn [ann val isExpr emptyAnn a_redirect a_replace a_merged andb negb].
  unfold flowList. cbn [ann a_merged emptyAnn]. unfold bind at 1. rewrite (inherit env pa p s E O).
  set (orig := mkNode (VList (pre ++ xe :: post)) emptyAnn s0 None None). set (rl := pre ++ xe :: post) at 2.
  unfold bind at 1. rewrite (splice_named e f orig rl env s (xe :: post) npre pre N1).
  assert (FX : exists a, F e f (mkNode (VExpr (EMerge p false rp false false "")) emptyAnn sx None None) env false false s = Ret (mkNode (VExpr (EMerge p false rp false false "")) a sx None None) s /\ a_keyName a = "").
  { destruct f as [|f]; [lia|]. cbn [flowF]. unfold flowNode. cbn [ann val isExpr emptyAnn a_redirect a_replace a_merged andb negb].
    unfold flowExpr. cbn [src ann nflags emptyAnn a_flags asTemplate]. unfold bind.
    set (env1 := if String.eqb sx (b_source env) then env else withSource sx env).
    assert (E1 : env2 env1 pa p) by (unfold env1; destruct (String.eqb sx (b_source env)); [exact E|now apply env2_source]). clearbody env1.
    rewrite EVM by lia. unfold evalMerge. rewrite (absent_lk _ _ _ _ E1 O U). eexists. split; reflexivity. }
  destruct FX as (a & FX & UA). unfold xe at 1. rewrite (splice_skip (F e f) orig rl p false rp sx sy post env _ s a sx FX UA). cbn [ps_template ps_spliced ps_process ps_merged ps_keyName ps_replaced ps_redirect ps_flags ps_tag app a_tag emptyAnn a_keyName].
  rewrite <- (app_nil_r post) at 1. rewrite (splice_named e f orig _ env s [] npost post N3).
  cbn [spliceMerges ps_spliced ps_process ps_merged ps_keyName ps_replaced ps_redirect ps_flags ps_tag ps_template app]. unfold ret at 1.
  cbn [ps_spliced ps_process ps_merged ps_keyName ps_replaced ps_redirect ps_flags ps_tag ps_template].
  assert (NA : Forall2 namedI (npre ++ npost) (pre ++ post)) by (repeat apply Forall2_app; assumption).
  unfold bind at 1. unfold bind at 1. rewrite (controls_none e f env true s _ (all_quietE _ _ NA)). unfold ret at 1. cbn [fst snd].
  assert (UM : existsb useMerge (pre ++ xe :: post) = true).
  { rewrite existsb_app. cbn [existsb]. rewrite (no_useMerge _ _ N1), (no_useMerge _ _ N3). reflexivity. }
  rewrite UM. change (nflags orig) with 0%N. change (fNoMerge 0%N) with false. cbn [orb].
  unfold bind at 1. unfold bind at 1. cbn [String.eqb Ascii.eqb Bool.eqb NO_LIST_KEY a_redirect emptyAnn].
  rewrite (unique_named (F e f) env s _ _ NA ND 0%Z []); [|intros ? ? []].
  unfold bind at 1. rewrite (H e f env 0%Z _ s); [|lia|lia|exact E]. unfold ret at 1.
  rewrite (proj2 (lk_none interpol ctrl stubs SP p O) U). reflexivity.
Qed.
(** the elements that are inserted *)
Lemma keyField_namedI c x n : namedI x n -> keyField true c "name" n = Some x.
Proof. intros (m & d & V & _ & G & Vd & _). unfold keyField. rewrite V. cbn [orb]. now rewrite G, Vd. Qed.
Lemma keyed_ex c k v : forall l, (exists n, findKeyed true c l k v = FOk n) <-> exists y, In y l /\ keyField true c k y = Some v.
Proof.
  induction l as [|y l IH]; cbn [findKeyed]; [split; [intros [? H]; discriminate H|intros (? & [] & _)]|].
  destruct (keyField true c k y) as [w|] eqn:Y.
  - destruct (String.eqb_spec w v) as [->|NE].
    + split; [intros _; exists y; split; [now left|exact Y]|eauto].
    + rewrite IH. split; [intros (z & I & K); exists z; split; [now right|exact K]|]. intros (z & [<-|I] & K); [congruence|eauto].
  - rewrite IH. split; [intros (z & I & K); exists z; split; [now right|exact K]|]. intros (z & [<-|I] & K); [congruence|eauto].
Qed.
Lemma keyed_cases c k v l : (exists n, findKeyed true c l k v = FOk n) \/ findKeyed true c l k v = FNo.
Proof.
  induction l as [|y l IH]; cbn [findKeyed]; [now right|]. destruct (keyField true c k y) as [w|]; [|exact IH]. destruct (String.eqb w v); [left; eauto|exact IH].
Qed.
Lemma simple_step n : simpleName n -> stepIndex n = None /\ stepKey "name" n = ("name", n).
Proof.
  intros [S1 S2]. split; [now apply notBracket|]. unfold stepKey. destruct (cutColon n) as [[a b]|] eqn:C; [|reflexivity].
  apply cutColon_spec in C as [E _]. exfalso. apply (S2 a b). exact E.
Qed.
Lemma plain_namedI n x : plain n -> named n x -> namedI x n.
Proof.
  intros P (m & c & V & I & Vc). destruct (plain_map _ _ _ _ P V) as (So & K & _). exists m, c. split; [exact V|]. split; [unfold okKeys; rewrite Forall_forall in *; auto|].
  split; [now apply In_mget; [apply msorted_NoDup|]|]. split; [exact Vc|]. destruct (plain_ann _ _ _ P) as [-> | ->]; reflexivity.
Qed.
Lemma namedI_named n x : namedI x n -> named n x.
Proof. intros (m & c & V & _ & G & Vc & _). exists m, c. split; [exact V|]. split; [now apply mget_In|exact Vc]. Qed.
Lemma element_namedI pa p n t : element interpol parse quote pa p n t -> (forall k m, val t = VMap m -> In k (mkeys m) -> k = "<<" \/ ordinaryKey k) -> namedI n t.
Proof.
  intros (m & s & c & -> & So & I & _) K. exists m. eexists. split; [reflexivity|]. split.
  - unfold okKeys. rewrite Forall_forall. intros [k x] I1. cbn [fst]. apply (K k m eq_refl). apply in_map_iff. exists (k, x). auto.
  - split; [apply In_mget; [now apply msorted_NoDup|exact I]|split; reflexivity].
Qed.
Lemma element_name pa p n t x : element interpol parse quote pa p n t -> (named t x <-> x = n).
Proof.
  intros (m & s & c & -> & So & I & _). split.
  - intros (m' & c' & V & I' & Vc). cbn [val] in V. injection V as <-. pose proof (In_mget _ _ m (msorted_NoDup m So) I). pose proof (In_mget _ _ m (msorted_NoDup m So) I').
    assert (Ec : mkNode (VStr n) emptyAnn c None None = c') by congruence. subst c'. cbn in Vc. now injection Vc.
  - intros ->. exists m. eexists. split; [reflexivity|]. split; [exact I|reflexivity].
Qed.
Lemma new_spec x s pre post : forall il inames, Forall plain il -> Forall2 named il inames -> Forall simpleName inames ->
  (forall t, In t (pre ++ post) -> exists n, namedI n t /\ forall y, named t y -> y = n) ->
  exists new nnew, newOnes (pre ++ post) il new /\ newEntries il (pre ++ entryN x s :: post) "" = map mergedNode new /\ Forall plain new /\ (forall e, In e new -> In e il) /\
    Forall2 named new nnew /\ (forall n, In n nnew -> In n inames) /\ (NoDup inames -> NoDup nnew) /\ (forall n y, In n nnew -> In y (pre ++ post) -> ~ named y n).
Proof.
  intros il inames P Nm. revert P. induction Nm as [|e n il inames He _ IH]; intros P Si OWN.
  - exists [], []. split; [constructor|]. split; [reflexivity|]. split; [constructor|]. split; [intros ? []|]. split; [constructor|]. split; [intros ? []|]. split; [intros _; constructor|intros ? ? []].
  - inversion P as [|? ? Pe Pil]; subst. inversion Si as [|? ? Sn Sil]; subst. destruct (IH Pil Sil OWN) as (new & nnew & H1 & H2 & H3 & H4 & H5 & H6 & H7 & H8).
    pose proof (plain_namedI e n Pe He) as NI. destruct (simple_step n Sn) as [X1 X2].
    assert (FS : findString true false "name" e = Some n).
    { destruct NI as (m & d & V & _ & G & Vd & _). unfold findString. cbn [find]. unfold nextStep. rewrite V. cbn [orb]. rewrite G, Vd. reflexivity. }
    assert (FD : forall b, find true false [n] (keyNameNode (newNode (VList b) "some map") "name") = findKeyed true false b "name" n).
    { intro b. cbn [find]. unfold nextStep. cbn [keyNameNode newNode val withAnn massage orb ann a_keyName]. unfold stepList. rewrite X1. cbn. rewrite X2. destruct (findKeyed true false b "name" n); reflexivity. }
    assert (NEW : newEntries (e :: il) (pre ++ entryN x s :: post) "" =
      map mergedNode ((if match findKeyed true false (pre ++ entryN x s :: post) "name" n with FOk _ => false | _ => true end then [e] else [])
        ++ filter (fun v => match findString true false "name" v with Some name => match find true false [name] (keyNameNode (newNode (VList (pre ++ entryN x s :: post)) "some map") "name") with FOk _ => false | _ => true end | None => true end) il)).
    { unfold newEntries. cbn [String.eqb filter]. rewrite FS, FD. destruct (findKeyed true false (pre ++ entryN x s :: post) "name" n); reflexivity. }
    unfold newEntries in H2. cbn [String.eqb] in H2. rewrite NEW, map_app, H2. clear NEW.
    pose proof (keyed_ex false "name" n (pre ++ entryN x s :: post)) as KE.
    assert (OK : (exists y, In y (pre ++ entryN x s :: post) /\ keyField true false "name" y = Some n) <-> exists y, In y (pre ++ post) /\ named y n).
    { split.
      - intros (y & I & K). apply in_app_or in I. destruct I as [I|[<-|I]]; [|discriminate K|];
          (assert (Iy : In y (pre ++ post)) by (apply in_or_app; auto); destruct (OWN y Iy) as (n' & Ny & _); exists y; split; [exact Iy|]; rewrite (keyField_namedI false n' y Ny) in K; injection K as <-; now apply namedI_named).
      - intros (y & I & K). destruct (OWN y I) as (n' & Ny & U). rewrite (U n K). exists y. split; [apply in_app_or in I; apply in_or_app; destruct I; [now left|right; now right]|now apply keyField_namedI]. }
    destruct (keyed_cases false "name" n (pre ++ entryN x s :: post)) as [K|K].
    + exists new, nnew. destruct (proj1 OK (proj1 KE K)) as (y & Iy & Ny). destruct K as (c & ->). split; [eapply N_skip; [exact He|eauto|exact H1]|]. split; [reflexivity|].
      split; [exact H3|]. split; [intros; right; auto|]. split; [exact H5|]. split; [intros; right; auto|]. split; [|exact H8]. intro ND. inversion ND; auto.
    + assert (NO : forall y, In y (pre ++ post) -> ~ named y n).
      { intros y I Ny. destruct (proj2 KE (proj2 OK (ex_intro _ y (conj I Ny)))) as (c & X). congruence. }
      exists (e :: new), (n :: nnew). rewrite K. split; [eapply N_keep; eassumption|]. split; [reflexivity|]. split; [now constructor|].
      split; [intros e' [<-|I]; [now left|right; auto]|]. split; [now constructor|]. split; [intros n' [<-|I]; [now left|right; auto]|]. split.
      * intro ND. inversion ND as [|? ? Nn ND']; subst. constructor; [intro I; apply Nn, H6, I|auto].
      * intros n' y [<-|I] Iy; [now apply NO|now apply H8].
Qed.
Lemma NoDup_mid {A} (a b c : list A) : NoDup (a ++ c) -> NoDup b -> (forall x, In x b -> ~ In x (a ++ c)) -> NoDup (a ++ b ++ c).
Proof.
  revert b c. induction a as [|x a IH]; intros b c H1 H2 H3; cbn [app] in *.
  - induction b as [|y b IHb]; [exact H1|]. inversion H2; subst. cbn. constructor; [|apply IHb; [assumption|intros z I; apply H3; now right]].
    intro I. apply in_app_or in I. destruct I as [I|I]; [contradiction|]. apply (H3 y); [now left|exact I].
  - inversion H1; subst. constructor; [|apply IH; [assumption|assumption|intros z I J; apply (H3 z I); now right]].
    intro I. apply in_app_or in I. destruct I as [I|I]; [apply H4, in_or_app; auto|]. apply in_app_or in I. destruct I as [I|I]; [|apply H4, in_or_app; auto].
    apply (H3 x I). now left.
Qed.

Lemma plain_fills pa p t : plain t -> fitsN t -> steadyLists t -> okP p -> exists r w, life pa p t r w /\ fills pa p t r.
Proof.
  intros P Fi Sl O. pose proof (stable_first interpol ctrl stubs SP SF t true p P Fi Sl O) as S1. destruct (stable_pass ctrl stubs _ _ _ S1) as [E1 E2].
  destruct (pass_life pa p O 2 t P Fi E2) as (w & L). exists (Nat.iter 2 (pass true p) t), w. split; [exact L|]. apply F_plain; [exact P|].
  apply (merges_pass interpol ctrl stubs SP SF); try assumption.
Qed.
(** the name of an element stays *)
Lemma name_life pa p n c : okP p -> literalText interpol n -> exists r w,
  lifeI (fun y => val y = VStr n) ((pa ++ [nm n]) ++ ["name"]) ((p ++ [nm n]) ++ ["name"]) (mkNode (VStr n) emptyAnn c None None) r w /\
  fills ((pa ++ [nm n]) ++ ["name"]) ((p ++ [nm n]) ++ ["name"]) (mkNode (VStr n) emptyAnn c None None) r.
Proof.
  intros O L. set (t := mkNode (VStr n) emptyAnn c None None). set (p' := (p ++ [nm n]) ++ ["name"]).
  assert (P : plain t) by (apply PD_leaf; now constructor).
  assert (O' : okP p') by (apply okP_app; [apply okP_app; [exact O|apply ok_named]|apply ok_nameStep]).
  assert (V : val (pass true p' t) = VStr n).
  { cbn. destruct (Lk p') as [ov| |] eqn:El; try reflexivity. exact (lk_name interpol ctrl stubs SP p n ov O El). }
  destruct (plain_lifeI (fun y => val y = VStr n) ((pa ++ [nm n]) ++ ["name"]) p' t P Logic.I O') as (w & Lw); [|reflexivity|exact V|].
  - unfold t. cbn. destruct (Lk p') as [ov| |] eqn:El; [|cbn; rewrite ?El; reflexivity|cbn; rewrite ?El; reflexivity].
    pose proof (lk_name interpol ctrl stubs SP p n ov O El) as Vo. destruct ov as [v ? ? ? ?]. cbn [val] in Vo. subst v. cbn. rewrite ?El. reflexivity.
  - exists (pass true p' t), w. split; [exact Lw|]. apply F_plain; [exact P|]. apply (merges_pass interpol ctrl stubs SP SF); try assumption; reflexivity.
Qed.
(** an element of a list: it is called the same in all rounds *)
Lemma element_fields pa p n m s0 bm : element interpol parse quote (pa ++ [nm n]) (p ++ [nm n]) n (mkNode (VMap m) emptyAnn s0 None None) -> okKeys m -> okP p ->
  basis interpol ctrl parse quote stubs (pa ++ [nm n]) (p ++ [nm n]) m (p ++ [nm n]) bm ->
  (forall k x, In (k, x) m -> k <> "<<" -> exists r w, life ((pa ++ [nm n]) ++ [k]) ((p ++ [nm n]) ++ [k]) x r w /\ fills ((pa ++ [nm n]) ++ [k]) ((p ++ [nm n]) ++ [k]) x r) ->
  exists r w, lifeI (namedI n) (pa ++ [nm n]) (p ++ [nm n]) (mkNode (VMap m) emptyAnn s0 None None) r w /\ fills (pa ++ [nm n]) (p ++ [nm n]) (mkNode (VMap m) emptyAnn s0 None None) r.
Proof.
  intros (m' & s1 & c & E & So & I & L & _) K O B IH. injection E as <- <-.
  assert (O1 : okP (p ++ [nm n])) by (apply okP_app; [exact O|apply ok_named]).
  assert (IN : In "name" (mkeys m)) by (apply in_map_iff; eexists; split; [|exact I]; reflexivity).
  apply (fields_life (namedI n) (fun k y => k = "name" -> val y = VStr n) (pa ++ [nm n]) (p ++ [nm n]) (p ++ [nm n]) bm); try assumption.
  - intros k x Ik N. destruct (String.eqb_spec k "name") as [->|NE].
    + assert (EX : x = mkNode (VStr n) emptyAnn c None None) by (pose proof (In_mget _ _ m (msorted_NoDup m So) I); pose proof (In_mget _ _ m (msorted_NoDup m So) Ik); congruence). subst x.
      destruct (name_life pa p n c O L) as (r & w & Lw & FF). exists r, w. split; [|exact FF]. eapply life_weaken; [|exact Lw]. intros y Hy _. exact Hy.
    + destruct (IH k x Ik N) as (r & w & Lw & FF). exists r, w. split; [|exact FF]. eapply life_weaken; [|exact Lw]. intros y _ ->. now destruct NE.
  - intros k y N ->. contradiction.
  - intros m1 a K1 R1 HK. destruct (HK "name") as (y & G & Vy); [apply own_keys; split; [exact IN|discriminate]|].
    exists m1, y. split; [reflexivity|]. split; [exact K1|]. split; [exact G|]. split; [now apply Vy|exact R1].
Qed.
Lemma mdoc_keys pa p t : mdoc pa p t -> forall k m, val t = VMap m -> In k (mkeys m) -> k = "<<" \/ ordinaryKey k.
Proof.
  assert (G : forall m : smap node, (forall k, In k (map fst m) -> k <> "<<" -> ordinaryKey k) -> forall k, In k (mkeys m) -> k = "<<" \/ ordinaryKey k).
  { intros m H k I. destruct (String.eqb_spec k "<<") as [->|N]; [now left|right; now apply H]. }
  intros H k m V I. destruct H as [pa p t P Fi Sl|pa p t e v TX Y|pa p m1 s0 q bm So Ko B H|pa p m1 s0 x q rd rq v bm So Ko I1 TX OS D V1 YM| |]; try discriminate V.
  - right. destruct (plain_map _ _ _ _ P V) as (_ & K & _). apply in_map_iff in I as ([k1 x] & <- & I). rewrite Forall_forall in K. exact (K _ I).
  - destruct TX as (? & ? & ? & -> & _). discriminate V.
  - cbn in V. injection V as <-. now apply (G m1).
  - cbn in V. injection V as <-. now apply (G m1).
Qed.
Lemma mdoc_sorted pa p m s : mdoc pa p (mkNode (VMap m) emptyAnn s None None) -> msorted m.
Proof.
  inversion 1 as [? ? ? P Fi Sl|? ? ? ? ? TX Y|? ? ? ? q bm So Ko B H0|? ? ? ? x q rd rq v bm So Ko I1 TX OS D V1 YM| |]; subst; try assumption.
  - exact (proj1 (plain_map _ _ _ _ P eq_refl)).
  - destruct TX as (? & ? & ? & E & _). discriminate E.
Qed.
Lemma F2_flip {A B} (R : A -> B -> Prop) (R' : B -> A -> Prop) l l' : Forall2 R l l' -> (forall x y, In x l -> R x y -> R' y x) -> Forall2 R' l' l.
Proof. induction 1 as [|x y l l' H _ IH]; intro K; constructor; [apply K; [now left|exact H]|apply IH; intros; apply K; [now right|assumption]]. Qed.
Lemma F2_split {A B} (R : A -> B -> Prop) : forall l1 l2 l', Forall2 R l' (l1 ++ l2) -> exists l1' l2', l' = l1' ++ l2' /\ Forall2 R l1' l1 /\ Forall2 R l2' l2.
Proof.
  induction l1 as [|x l1 IH]; intros l2 l' H; [exists [], l'; split; [reflexivity|split; [constructor|exact H]]|].
  cbn [app] in H. inversion H as [|y ? l0 ? Hy H0]; subst. destruct (IH _ _ H0) as (a & b & -> & Ha & Hb). exists (y :: a), b. split; [reflexivity|]. split; [now constructor|exact Hb].
Qed.
Lemma merged_rest pa p n x : plain n -> named n x -> lifeI (namedI x) pa p (mergedNode n) (mergedNode n) 0 /\ data (mergedNode n) = data n.
Proof.
  intros P N. pose proof (plain_namedI n x P N) as NI. destruct n as [v a s t r].
  assert (TR : t = None /\ r = None) by (inversion P; auto). destruct TR as [-> ->].
  assert (Fi : fin (mergedNode (mkNode v a s None None))).
  { apply (fin_withAnn interpol (mkNode v a s None None)); [apply fin_plain, P|]. destruct (plain_quiet _ _ _ P) as (Q1 & Q2 & Q3 & Q4). repeat split; assumption. }
  split; [|reflexivity]. apply li_rest; [|exact Fi|].
  - destruct NI as (m & c & V & K & G & Vc & R). exists m, c. repeat split; assumption.
  - apply rested; [exact Fi|now right].
Qed.
Lemma text_fun pa p t e e' : textAt interpol parse quote pa p t e -> textAt interpol parse quote pa p t e' -> e = e'.
Proof. intros (x & s & sub & -> & E & P) (x' & s' & sub' & E0 & E' & P'). injection E0 as <- <-. rewrite E in E'. injection E' as <-. congruence. Qed.
(** the own elements of a list *)
Definition owned (pa q : list string) (x : string) (t r : node) : Prop :=
  element interpol parse quote (pa ++ [nm x]) (q ++ [nm x]) x t /\ fills (pa ++ [nm x]) (q ++ [nm x]) t r.
Lemma owned_fills pa q l l' : (forall t y, In (t, y) (combine l l') -> exists x, owned pa q x t y) ->
  forall t n y, In (t, y) (combine l l') -> named t n -> fills (pa ++ [nm n]) (q ++ [nm n]) t y.
Proof. intros H t n y I N. destruct (H t y I) as (x & EL & FF). apply (element_name _ _ _ _ n EL) in N. now subst. Qed.
Lemma deepEq_entry pre pre' post post' n s n' s' a a' s0 s1 l : length pre = length pre' -> l = pre' ++ entryN n' s' :: post' -> deepEqN n n' = false ->
  deepEqN (mkNode (VList (pre ++ entryN n s :: post)) a s0 None None) (mkNode (VList l) a' s1 None None) = false.
Proof.
  intros Len -> D. apply deepEq_lists. revert pre' Len. induction pre as [|x pre IH]; intros [|x' pre'] Len; try discriminate Len; cbn [app map]; rewrite trees_cons.
  - apply andb_false_iff. left. fold (deepEqN (entryN n s) (entryN n' s')). unfold entryN. apply deepEq_maps. cbn [map]. rewrite trees_cons, enc1_eq, D. reflexivity.
  - cbn in Len. rewrite IH by lia. apply andb_false_r.
Qed.
Lemma trees_len : forall l l', trees_eqb l l' = true -> length l = length l'.
Proof.
  induction l as [|x l IH]; intros [|y l'] H; try reflexivity; try discriminate H. rewrite trees_cons in H. apply andb_prop in H as [_ H]. cbn. f_equal. auto.
Qed.
(** an element that is no merge entry differs from one *)
Lemma deepEq_noentry pre post n s a a' s0 s1 l names : Forall2 namedI names l ->
  deepEqN (mkNode (VList (pre ++ entryN n s :: post)) a s0 None None) (mkNode (VList l) a' s1 None None) = false.
Proof.
  intro NA. apply deepEq_lists. destruct (trees_eqb (map encN (pre ++ entryN n s :: post)) (map encN l)) eqn:E; [exfalso|reflexivity].
  revert names l NA E. induction pre as [|x pre IH]; intros names l NA E; destruct NA as [|y t names l NY NA]; cbn [app map] in E; try discriminate E; rewrite trees_cons in E; apply andb_prop in E as [E1 E2].
  - destruct NY as (m & c & V & _ & G & _). destruct t as [v ta ts tt tr]. cbn [val] in V. subst v. unfold entryN in E1. cbn [encN] in E1.
    rewrite tree_eqb_TN in E1. apply andb_prop in E1 as [_ E1]. rewrite trees_cons in E1. apply andb_prop in E1 as [E1 _]. cbn [encV] in E1. rewrite tree_eqb_TN in E1. apply andb_prop in E1 as [_ E1].
    apply (trees_keys [("<<", n)] m) in E1. apply mget_Some_key in G. rewrite <- E1 in G. destruct G as [G|[]]. discriminate G.
  - eapply IH; eassumption.
Qed.
Lemma combine_app {A B} (a b : list A) : forall (a' : list B) (b' : list B), length a = length a' -> combine (a ++ b) (a' ++ b') = combine a a' ++ combine b b'.
Proof. induction a as [|x a IH]; intros [|x' a'] b' H; try discriminate H; [reflexivity|]. cbn. f_equal. apply IH. cbn in H. lia. Qed.
Lemma mdoc_both pa p t : mdoc pa p t -> okP p -> (exists r w, life pa p t r w /\ fills pa p t r) /\
  (forall n pa0 p0, pa = pa0 ++ [nm n] -> p = p0 ++ [nm n] -> element interpol parse quote pa p n t -> exists r w, lifeI (namedI n) pa p t r w /\ fills pa p t r).
Proof.
  assert (PRE : forall p0 x, okP (p0 ++ [x]) -> okP p0) by (intros p0 x H; apply Forall_app in H; apply H).
  induction 1 as [pa p t P Fi Sl|pa p t e v TX Y|pa p m s0 q bm So Ko B H IH|pa p m s0 x q rd rq v bm So Ko I TX OS D V YM
    |pa p l s0 names HE ND H IH|pa p pre x s' post s0 q il names inames HX HE ND HI NDI SI H IH]; intro O.
  - split; [now apply plain_fills|]. intros n pa0 p0 -> -> EL. pose proof EL as (m & s1 & c & -> & So & I & _).
    destruct (plain_map _ _ _ _ P eq_refl) as (_ & K & Pm). rewrite Forall_forall in K, Pm.
    apply (element_fields pa0 p0 n m s1 []).
    + exact EL.
    + unfold okKeys. rewrite Forall_forall. intros kv Ik. right. auto.
    + exact (PRE _ _ O).
    + apply B_none. intro Ik. apply in_map_iff in Ik as ([k y] & E & Ik). cbn [fst] in E. subst k. specialize (K _ Ik). cbn in K. destruct (not_stringsym _ K) as [N _]. now apply N.
    + intros k y Ik _. apply plain_fills; [exact (Pm _ Ik)| | |apply okP_app; [exact O|apply ok_ordinary; exact (K _ Ik)]].
      * apply fits_map in Fi. rewrite Forall_forall in Fi. exact (Fi _ Ik).
      * pose proof (steady_map _ _ _ _ _ Sl) as St. rewrite Forall_forall in St. exact (St _ Ik).
  - split.
    + destruct (value_life pa p t e v O TX Y) as (r & w & L & D). exists r, w. split; [exact L|]. eapply F_value; eassumption.
    + intros n pa0 p0 -> -> (m & s1 & c & -> & _). exfalso. destruct TX as (? & ? & ? & E & _). discriminate E.
  - assert (Oq : okP q). { destruct B; try exact O. now apply okS. }
    assert (IH' : forall k x, In (k, x) m -> k <> "<<" -> exists r w, life (pa ++ [k]) (q ++ [k]) x r w /\ fills (pa ++ [k]) (q ++ [k]) x r).
    { intros k x I N. apply IH; [exact I|exact N|]. apply okP_app; [exact Oq|]. apply ok_ordinary, Ko; [apply in_map_iff; exists (k, x); auto|exact N]. }
    split.
    + apply (fields_life anyN (fun _ => anyN) pa p q bm); try assumption; [now apply ok_of|intros; exact Logic.I|intros; exact Logic.I].
    + intros n pa0 p0 -> -> EL.
      assert (QP : q = p0 ++ [nm n]).
      { destruct EL as (m' & s1 & c & E & _ & _ & _ & EM). injection E as <- <-. destruct B as [NK|x q rd rq v bm IM TX OS Q D V|x rp IM TX U]; try reflexivity.
        destruct (EM x IM) as (rq' & TX'). pose proof (text_fun _ _ _ _ _ TX TX') as E. injection E as -> -> ->. reflexivity. }
      subst q. apply (element_fields pa0 p0 n m s0 bm); try assumption; [now apply ok_of|exact (PRE _ _ O)].
  - pose proof (okS _ OS) as Oq. pose proof (defined_plain _ _ Oq D) as P. destruct (plain_map _ _ _ _ P V) as (SB & KB & PB).
    assert (Fi : fin (mkNode (VMap bm) (insAnn rd true q) s0 None None)).
    { apply fin_map; [repeat split; now left|exact KB|]. rewrite Forall_forall in *. intros kv Ik. apply fin_plain. auto. }
    split.
    + exists (mkNode (VMap bm) (insAnn rd true q) s0 None None), 2%nat. split.
      * eapply read_life; [exact So|now apply ok_of|apply (In_mget "<<" x m (msorted_NoDup m So) I)|exact TX|exact O| | |intros; exact Logic.I].
        -- rewrite Forall_forall. intros [k y] Ik. apply own_In in Ik. destruct Ik as [Ik N]. apply yaml_calm. exact (YM k y Ik N).
        -- intros sx m2 -> S2 K2 O2 G2. exists (mkNode (VMap bm) (insAnn rd true q) s0 None None). split; [|split; [|now apply life_rest; [|apply rested; [|left]]]].
           ++ eapply mergekey_replaced; eassumption.
           ++ exists bm. split; [reflexivity|]. split; [now apply ordinary_nomerge|auto].
      * eapply F_replace; try eassumption. unfold sameDoc. destruct v as [vv ? ? ? ?]. cbn [val] in V. subst vv. reflexivity.
    + intros n pa0 p0 -> -> (m' & s1 & c & E & _ & _ & _ & EM). injection E as <- <-. destruct (EM x I) as (rq' & TX').
      exfalso. pose proof (text_fun _ _ _ _ _ TX TX') as E. discriminate E.
  - (* a list of named elements *)
    split; [|intros n pa0 p0 -> -> (m' & s1 & c & E & _); discriminate E].
    assert (F2 : Forall2 (fun x t => exists r w, lifeI (namedI x) (pa ++ [nm x]) (p ++ [nm x]) t r w /\ owned pa p x t r) names l).
    { eapply F2_flip; [exact HE|]. cbn beta. intros t n It EL. destruct (IH t n It) as [_ H2]; [now apply (element_name _ _ _ _ n EL)|apply okP_app; [exact O|apply ok_named]|].
      destruct (H2 n pa p eq_refl eq_refl EL) as (r & w & L & FF). exists r, w. split; [exact L|]. split; assumption. }
    destruct (elives_of pa p (owned pa p) names l F2) as (l' & W & L & Len & OW).
    destruct (fresh_life pa p s0 names l l' W ND O L) as (a & w & Lw). exists (mkNode (VList l') a s0 None None), w. split; [exact Lw|].
    eapply F_list; [|exact ND|reflexivity|exact Len|apply owned_fills, OW].
    clear - HE. induction HE as [|t n l names EL _ IH]; constructor; [now apply (element_name _ _ _ _ n EL)|exact IH].
  - (* a list with a merge entry *)
    split; [|intros n pa0 p0 -> -> (m' & s1 & c & E & _); discriminate E].
    assert (Oq : okP q). { destruct HX; try exact O. now apply okS. }
    assert (F2 : Forall2 (fun x t => exists r w, lifeI (namedI x) (pa ++ [nm x]) (q ++ [nm x]) t r w /\ owned pa q x t r) names (pre ++ post)).
    { eapply F2_flip; [exact HE|]. cbn beta. intros t n It EL. destruct (IH t n It) as [_ H2]; [now apply (element_name _ _ _ _ n EL)|apply okP_app; [exact Oq|apply ok_named]|].
      destruct (H2 n pa q eq_refl eq_refl EL) as (r & w & L & FF). exists r, w. split; [exact L|]. split; assumption. }
    assert (OWN : forall t, In t (pre ++ post) -> exists n, namedI n t /\ (forall y, named t y -> y = n) /\ In n names).
    { clear - F2. induction F2 as [|n t names l (r & w & L & EL & _) _ IH]; [intros ? []|]. intros t' [<-|I].
      - exists n. split; [eapply life_here, L|]. split; [intros y Hy; now apply (element_name _ _ _ _ y EL)|now left].
      - destruct (IH t' I) as (n' & H1 & H2 & H3). exists n'. split; [exact H1|]. split; [exact H2|now right]. }
    assert (OWN2 : forall n, In n names -> exists t, In t (pre ++ post) /\ named t n).
    { clear - F2. induction F2 as [|n t names l (r & w & L & EL & _) _ IH]; [intros ? []|]. intros n' [<-|I].
      - exists t. split; [now left|]. now apply (element_name _ _ _ _ n EL).
      - destruct (IH n' I) as (t' & H1 & H2). exists t'. split; [now right|exact H2]. }
    destruct (F2_split _ _ _ _ F2) as (npre & npost & -> & F2a & F2b).
    destruct (elives_of pa q (owned pa q) npre pre F2a) as (rpre & Wa & La & Lena & OWa).
    destruct (elives_of pa q (owned pa q) npost post F2b) as (rpost & Wb & Lb & Lenb & OWb).
    assert (NPa : Forall2 namedI npre pre) by (clear - F2a; induction F2a as [|n t names l (r & w & L & _) _ IH]; constructor; [eapply life_here, L|exact IH]).
    assert (NPb : Forall2 namedI npost post) by (clear - F2b; induction F2b as [|n t names l (r & w & L & _) _ IH]; constructor; [eapply life_here, L|exact IH]).
    assert (FILLS : forall t n y, In (t, y) (combine (pre ++ post) (rpre ++ rpost)) -> named t n -> fills (pa ++ [nm n]) (q ++ [nm n]) t y).
    { apply owned_fills. intros t y I. rewrite combine_app in I by (now symmetry). apply in_app_or in I. destruct I as [I|I]; [now apply OWa|now apply OWb]. }
    assert (CAa : Forall calm pre) by (eapply elives_calm, La). assert (CAb : Forall calm post) by (eapply elives_calm, Lb).
    (* the two rounds before the elements are merged *)
    assert (READ : forall q' rd rp rq l1 a r w, textAt interpol parse quote pa p x (EMerge q' rd rp rq false "") ->
       comes pa p (mkNode (VList (pre ++ entryN (mkNode (VExpr (EMerge q' rd rp rq false "")) emptyAnn (src x) None None) s0 :: post)) emptyAnn s0 None None) (mkNode (VList l1) a s0 None None) ->
       (exists names1, Forall2 namedI names1 l1) -> life pa p (mkNode (VList l1) a s0 None None) r w ->
       life pa p (mkNode (VList (pre ++ entryN x s' :: post)) emptyAnn s0 None None) r (S (S w))).
    { intros q' rd rp rq l1 a r w TX C (names1 & NA) L. pose proof (list_read pa p npre npost pre post x s' s0 q' rd rp rq TX O NPa NPb) as C0.
      assert (CX : calm x /\ exists t s, x = mkNode (VStr t) emptyAnn s None None).
      { destruct TX as (t & s & sub & -> & _). split; [apply calm_leaf; [reflexivity|discriminate|discriminate]|eauto]. }
      destruct CX as (CX & t & s & EX).
      eapply life_go; [|exact C0| |eapply life_go; [|exact C| |exact L]].
      - apply calm_list; [repeat split; now left|]. apply Forall_app. split; [exact CAa|]. constructor; [|exact CAb]. apply calm_map; [repeat split; now left|]. constructor; [exact CX|constructor].
      - eapply deepEq_entry; [reflexivity|reflexivity|]. rewrite EX. apply deepEq_text.
      - apply calm_list; [repeat split; now left|]. apply Forall_app. split; [exact CAa|]. constructor; [|exact CAb]. apply calm_map; [repeat split; now left|]. constructor; [|constructor].
        apply calm_leaf; [reflexivity|discriminate|discriminate].
      - eapply deepEq_noentry, NA. }
    assert (AFTER : forall names1 l1 l' W, elives pa q names1 l1 l' W -> Forall2 namedI names1 l1).
    { clear. induction 1 as [|n t r w names l l' W L _ IH]; constructor; [eapply life_here, L|exact IH]. }
    destruct HX as [q rd rq v il TX OS Q D V|rp TX U].
    + pose proof (defined_plain _ _ Oq D) as P. assert (PIL : Forall plain il). { destruct P as [? ? L| |]; cbn in V; subst; try discriminate V; [inversion L|]. now injection V as <-. }
      destruct (new_spec (mkNode (VExpr (EMerge q rd false rq false "")) emptyAnn (src x) None None) s0 pre post il inames PIL HI SI) as (new & nnew & HN & NE & PN & _ & NN & _ & NDN & DIS).
      { intros t It. destruct (OWN t It) as (n & H1 & H2 & _). eauto. }
      assert (LN : elives pa q nnew (map mergedNode new) (map mergedNode new) 0 /\ Forall2 sameDoc (map mergedNode new) new).
      { clear - NN PN. induction NN as [|e n new nnew He _ IH]; [split; constructor|]. inversion PN as [|? ? Pe PN']; subst. destruct (IH PN') as [I1 I2].
        destruct (merged_rest (pa ++ [nm n]) (q ++ [nm n]) e n Pe He) as [M1 M2]. cbn [map]. split; [exact (el_cons _ _ _ _ _ _ _ _ _ _ M1 I1)|constructor; [exact M2|exact I2]]. }
      destruct LN as [LN SN].
      assert (NDA : NoDup (npre ++ nnew ++ npost)).
      { apply NoDup_mid; [exact ND|apply NDN, NDI|]. intros n In1 In2. destruct (OWN2 n In2) as (t & It & Nt). exact (DIS n t In1 It Nt). }
      assert (NPn : Forall2 namedI nnew (map mergedNode new)) by (eapply AFTER, LN).
      pose proof (elives_app _ _ _ _ _ _ _ _ _ _ La (elives_app _ _ _ _ _ _ _ _ _ _ LN Lb)) as LL.
      destruct (elives_step _ _ _ _ _ _ LL) as (l1 & W1 & St & L1 & _).
      assert (A : listAnn p q (listA rd q true)).
      { split; [|reflexivity]. split; [|repeat split; destruct rd; [right; auto|left; auto]]. repeat split. destruct rd; [right; now left|right; right; right; reflexivity]. }
      destruct (list_life pa p q (listA rd q true) s0 (npre ++ nnew ++ npost) NDA A) with (W := W1) (l := l1) (l' := rpre ++ map mergedNode new ++ rpost) as (w & Lw);
        [unfold injA; destruct (Lk q); try reflexivity; destruct rd; reflexivity|exact Oq|exact L1|].
      exists (mkNode (VList (rpre ++ map mergedNode new ++ rpost)) (listA rd q true) s0 None None), (S (S w)). split.
      * eapply READ; [exact TX| |exists (npre ++ nnew ++ npost); eapply AFTER, L1|exact Lw].
        eapply list_filled; try eassumption.
      * eapply F_entries; [eapply E_found; eassumption|exact HN|reflexivity|exact Lena|exact Lenb|exact SN|exact FILLS].
    + pose proof (elives_app _ _ _ _ _ _ _ _ _ _ La Lb) as LL. destruct (elives_step _ _ _ _ _ _ LL) as (l1 & W1 & St & L1 & _).
      assert (A : listAnn p p (listA false p false)) by (split; [|reflexivity]; split; [repeat split; right; right; now left|repeat split; left; auto]).
      destruct (list_life pa p p (listA false p false) s0 (npre ++ npost) ND A) with (W := W1) (l := l1) (l' := rpre ++ rpost) as (w & Lw);
        [unfold injA; rewrite (proj2 (lk_none interpol ctrl stubs SP p O) U); reflexivity|exact O|exact L1|].
      exists (mkNode (VList (rpre ++ rpost)) (listA false p false) s0 None None), (S (S w)). split.
      * eapply READ; [exact TX| |exists (npre ++ npost); eapply AFTER, L1|exact Lw]. eapply list_absent; eassumption.
      * inversion HI; subst. eapply (F_entries _ _ _ _ _ pa p pre x s' post s0 p [] [] _ rpre [] rpost); [eapply E_absent; eassumption|constructor|reflexivity|exact Lena|exact Lenb|constructor|exact FILLS].
Qed.
Lemma mdoc_life pa p t : mdoc pa p t -> okP p -> exists r w, life pa p t r w /\ fills pa p t r.
Proof. intros H O. exact (proj1 (mdoc_both pa p t H O)). Qed.

(** ** the loop *)
Lemma loop_life n r w : life [] [] n r w -> exists N, forall e f rounds src0 env s, (N <= e)%nat -> (N <= f)%nat -> (N <= rounds)%nat ->
  (exists m, val src0 = VMap m) -> env2 env [] [] -> LOOP e f rounds src0 n env true s = Ret r s.
Proof.
  induction 1 as [n _ Fi (N & C)|n n' r w _ Ca (N & C) D L (N' & IH)].
  - exists (S N). intros e f rounds src0 env s L1 L2 L3 (m & V) E. destruct rounds as [|k]; [lia|]. cbn [flowLoop]. rewrite V. unfold bind, flow.
    destruct (fin_calm _ Fi) as (CM & CU & CT).
    rewrite (tagged_plain ST ctrl setTagX _ n env true false s n); [|apply C; [lia|lia|exact E]|exact CT]. rewrite CU.
    unfold updateBinding. rewrite (mapBelow_id _ _ (CM _)). rewrite (deepEq_fin interpol n Fi). reflexivity.
  - exists (S (Nat.max N N')). intros e f rounds src0 env s L1 L2 L3 (m & V) E. destruct rounds as [|k]; [lia|]. cbn [flowLoop]. rewrite V. unfold bind, flow.
    destruct (life_calm _ _ _ _ _ _ L) as (CM & CU & CT).
    rewrite (tagged_plain ST ctrl setTagX _ n env true false s n'); [|apply C; [lia|lia|exact E]|exact CT]. rewrite CU.
    unfold updateBinding. rewrite (mapBelow_id _ _ (CM _)). rewrite D. apply IH; [lia|lia|lia|eauto|exact E].
Qed.
End Ins.
