(** C28: functions on maps: concatenation, deepmerge, keys, length, makemap,
    list_to_map.  (merge() runs the whole merge engine on its arguments and is
    covered by the flow model.) *)
From Coq Require Import Lia Floats.SpecFloat.
From Verif Require Import Core CoreFacts Str StrFacts DecSpec DeepEq DeepEqFacts Equiv EquivFacts PropNode Comparison PropCompare ListFns PropList.

(* ------------------------------------------------------------------ *)
(** * Specification *)

(** [r] has the entries of [a] overridden by those of [b] *)
Definition overrides (a b r : smap node) : Prop :=
  forall k, mget k r = match mget k b with Some y => Some y | None => mget k a end.

Definition is_map (n : node) : Prop := exists m, val n = VMap m.

(** [c] is the deep merge of [a] and [b]: where both are maps, the keys are
    united and common entries are merged; everywhere else [b] replaces [a] *)
Inductive deep_merged : node -> node -> node -> Prop :=
| DM_over a b : ~ (is_map a /\ is_map b) -> deep_merged a b b
| DM_map a b c m m' r :
    val a = VMap m -> val b = VMap m' -> val c = VMap r -> deep_merged_maps m m' r -> deep_merged a b c
with deep_merged_maps : smap node -> smap node -> smap node -> Prop :=
| DMM m m' r :
    (forall k, In k (mkeys r) <-> In k (mkeys m) \/ In k (mkeys m')) ->
    (forall k x, mget k m = Some x -> mget k m' = None -> mget k r = Some x) ->
    (forall k y, mget k m = None -> mget k m' = Some y -> mget k r = Some y) ->
    (forall k x y, mget k m = Some x -> mget k m' = Some y -> exists z, mget k r = Some z /\ deep_merged x y z) ->
    deep_merged_maps m m' r.

(* ------------------------------------------------------------------ *)
(** * Concatenation *)

Lemma cat_sorted b : forall a, msorted a -> msorted (concatenateMap a b).
Proof.
  induction b as [|[k v] b IH]; intros a S; cbn; [exact S|]. apply IH. apply msorted_mset. exact S.
Qed.
Lemma cat_get b k : NoDup (mkeys b) -> forall a,
  mget k (concatenateMap a b) = match mget k b with Some y => Some y | None => mget k a end.
Proof.
  induction b as [|[k' v] b IH]; intros N a; [reflexivity|].
  inversion N as [|? ? N1 N2]; subst. change (concatenateMap a ((k', v) :: b)) with (concatenateMap (mset k' v a) b).
  rewrite IH by exact N2. cbn [mget].
  destruct (String.eqb_spec k k') as [->|D].
  - assert (E : mget k' b = None) by (apply mget_None; exact N1). rewrite E. apply mget_mset_same.
  - rewrite mget_mset_other by exact D. reflexivity.
Qed.
Lemma cat_self m : msorted m -> concatenateMap [] m = m.
Proof.
  intro S. apply msorted_ext; [apply cat_sorted; exact I|exact S|].
  intro k. rewrite cat_get by (apply msorted_NoDup; exact S). destruct (mget k m); reflexivity.
Qed.

Section C.
Variable lambdaText : value -> string.
Variable source : string.

(** C28: concatenating maps unites the keys; the right map wins *)
Theorem C28_concat : forall m m', msorted m -> msorted m' -> exists r,
  op_concat lambdaText source (VMap m) (VMap m') = OVal (VMap r) /\ msorted r /\ overrides m m' r.
Proof.
  intros m m' S S'. eexists. split; [reflexivity|]. rewrite cat_self by exact S.
  split; [apply cat_sorted; exact S|]. intro k. apply cat_get. apply msorted_NoDup. exact S'.
Qed.
(** C28: concatenation of maps is associative and idempotent; nil is neutral on
    the right and anything else is rejected *)
Theorem C28_concat_assoc : forall a b c ab bc, msorted a -> msorted b -> msorted c ->
  op_concat lambdaText source (VMap a) (VMap b) = OVal ab -> op_concat lambdaText source (VMap b) (VMap c) = OVal bc ->
  op_concat lambdaText source ab (VMap c) = op_concat lambdaText source (VMap a) bc.
Proof.
  intros a b c ab bc Sa Sb Sc H1 H2. destruct (C28_concat a b Sa Sb) as [r1 [E1 [S1 O1]]].
  destruct (C28_concat b c Sb Sc) as [r2 [E2 [S2 O2]]]. rewrite E1 in H1. rewrite E2 in H2.
  injection H1 as <-. injection H2 as <-.
  destruct (C28_concat r1 c S1 Sc) as [r3 [E3 [S3 O3]]]. destruct (C28_concat a r2 Sa S2) as [r4 [E4 [S4 O4]]].
  rewrite E3, E4. do 2 f_equal. apply msorted_ext; [exact S3|exact S4|].
  intro k. rewrite O3, O4, O1, O2. destruct (mget k c); reflexivity.
Qed.
Theorem C28_concat_self : forall a, msorted a -> op_concat lambdaText source (VMap a) (VMap a) = OVal (VMap a).
Proof.
  intros a S. destruct (C28_concat a a S S) as [r [E [S' O]]]. rewrite E. do 2 f_equal.
  apply msorted_ext; [exact S'|exact S|]. intro k. rewrite O. destruct (mget k a); reflexivity.
Qed.
Theorem C28_concat_other : forall a v, (forall m, v <> VMap m) ->
  op_concat lambdaText source (VMap a) v = if match v with VNil => true | _ => false end then OVal (VMap a) else OErr.
Proof. intros a v H. destruct v; try reflexivity. exfalso. eapply H. reflexivity. Qed.

(** C28: keys lists exactly the keys, each once, in sorted order *)
Theorem C28_keys : forall m, msorted m -> exists l,
  func_keys source [VMap m] = OVal (VList l) /\
  (forall k, In (VStr k) (map val l) <-> exists x, mget k m = Some x) /\
  (forall n, In n l -> exists k, val n = VStr k) /\
  ordered_pairs (fun x y => val_before x y) l.
Proof.
  intros m S. eexists. split; [reflexivity|]. split; [|split].
  - intro k. rewrite map_map. cbn. split.
    + intro H. apply in_map_iff in H. destruct H as [k' [E H]]. injection E as ->. apply key_mget. exact H.
    + intros [x H]. apply in_map_iff. exists k. split; [reflexivity|]. eapply mget_Some_key. exact H.
  - intros n H. apply in_map_iff in H. destruct H as [k [<- _]]. exists k. reflexivity.
  - induction m as [|[k x] m IH]; cbn; [constructor|]. destruct S as [S1 S2]. constructor.
    + intros y H. apply in_map_iff in H. destruct H as [k' [<- H]]. unfold val_before. cbn.
      apply str_before_lt. apply S1. exact H.
    + apply IH. exact S2.
Qed.
(** C28: length *)
Theorem C28_length : forall l m s,
  func_length [VList l] = OVal (VInt (Z.of_nat (length l))) /\
  func_length [VMap m] = OVal (VInt (Z.of_nat (length m))) /\
  func_length [VStr s] = OVal (VInt (Z.of_nat (String.length s))).
Proof. repeat split. Qed.

(* ------------------------------------------------------------------ *)
(** * deepmerge *)

Lemma deepmergeN_eq old new :
  deepmergeN old new =
  match val new, val old with
  | VMap m, VMap m0 => newNode (VMap (deepmerge m0 m)) "<deepmerge>"
  | _, _ => new
  end.
Proof.
  destruct new as [v a s t r]. cbn [deepmergeN val]. destruct v; try reflexivity. destruct (val old); try reflexivity.
  do 2 f_equal. revert m0. induction m as [|[k x] q IH]; intro m0; cbn [deepmerge fold_left fst snd]; [reflexivity|].
  apply IH.
Qed.
Lemma deepmerge_sorted m : forall a, msorted a -> msorted (deepmerge a m).
Proof. induction m as [|[k v] m IH]; intros a S; cbn; [exact S|]. apply IH. apply msorted_mset. exact S. Qed.
Lemma deepmerge_get m k : NoDup (mkeys m) -> forall a,
  mget k (deepmerge a m) =
  match mget k m with
  | Some y => Some (match mget k a with Some o => deepmergeN o y | None => y end)
  | None => mget k a
  end.
Proof.
  induction m as [|[k' v] m IH]; intros N a; [reflexivity|].
  inversion N as [|? ? N1 N2]; subst.
  change (deepmerge a ((k', v) :: m)) with (deepmerge (mset k' (match mget k' a with Some o => deepmergeN o v | None => v end) a) m).
  rewrite IH by exact N2. cbn [mget].
  destruct (String.eqb_spec k k') as [->|D].
  - assert (E : mget k' m = None) by (apply mget_None; exact N1). rewrite E. apply mget_mset_same.
  - rewrite mget_mset_other by exact D. reflexivity.
Qed.

Definition dmN (new : node) : Prop := wfN new -> forall old, wfN old ->
  deep_merged old new (deepmergeN old new) /\ wfN (deepmergeN old new).
Lemma dm_maps m' : Forall (fun kv => dmN (snd kv)) m' -> msorted m' -> Forall (fun kv => wfN (snd kv)) m' ->
  forall m, msorted m -> Forall (fun kv => wfN (snd kv)) m ->
  deep_merged_maps m m' (deepmerge m m') /\ msorted (deepmerge m m') /\ Forall (fun kv => wfN (snd kv)) (deepmerge m m').
Proof.
  intros IH S' W' m S W. pose proof (msorted_NoDup _ S') as N'.
  assert (G := fun k => deepmerge_get m' k N' m).
  rewrite Forall_forall in IH, W, W'.
  split; [|split].
  - constructor.
    + intro k. split.
      * intro H. apply key_mget in H. destruct H as [v H]. rewrite G in H.
        destruct (mget k m') eqn:E; [right; eapply mget_Some_key; exact E|left; eapply mget_Some_key; exact H].
      * intro H. assert (X : exists v, mget k (deepmerge m m') = Some v).
        { rewrite G. destruct (mget k m') eqn:E; [eauto|]. destruct H as [H|H]; [apply key_mget; exact H|].
          apply mget_None in E. contradiction. }
        destruct X as [v X]. eapply mget_Some_key. exact X.
    + intros k x Hx Hy. rewrite G, Hy. exact Hx.
    + intros k y Hx Hy. rewrite G, Hy, Hx. reflexivity.
    + intros k x y Hx Hy. rewrite G, Hy, Hx. eexists. split; [reflexivity|].
      apply mget_In in Hx, Hy. apply (IH _ Hy); [apply (W' _ Hy)|apply (W _ Hx)].
  - apply deepmerge_sorted. exact S.
  - apply Forall_forall. intros [k v] Hv. cbn [snd].
    apply In_mget in Hv; [|apply msorted_NoDup, deepmerge_sorted; exact S]. rewrite G in Hv.
    destruct (mget k m') as [y|] eqn:E.
    + injection Hv as <-. apply mget_In in E. destruct (mget k m) as [o|] eqn:E2.
      * apply mget_In in E2. apply (IH _ E); [apply (W' _ E)|apply (W _ E2)].
      * apply (W' _ E).
    + apply mget_In in Hv. apply (W _ Hv).
Qed.
Lemma dm_all new : dmN new.
Proof.
  induction new as [v a s t r IH] using node_indT. intros W old Wo. rewrite deepmergeN_eq. cbn [val].
  destruct v as [| | | | | | |m'| | |];
    try (split; [apply DM_over; intros [_ [? X]]; discriminate X|exact W]).
  destruct (val old) as [| | | | | | |m| | |] eqn:E;
    try (split; [apply DM_over; intros [[? X] _]; congruence|exact W]).
  apply wfN_val in W, Wo. rewrite E in Wo. cbn [val] in W. apply wf_map in W, Wo.
  destruct W as [S W], Wo as [So Wo].
  destruct (dm_maps m' IH S W m So Wo) as [H1 [H2 H3]]. split.
  - apply (DM_map _ _ _ m m' (deepmerge m m')); [exact E|reflexivity|reflexivity|exact H1].
  - apply wfN_val. cbn [newNode val massage]. apply wf_map. split; assumption.
Qed.

Definition wfmap (m : smap node) : Prop := msorted m /\ Forall (fun kv => wfN (snd kv)) m.

(** C28: deepmerge(m, m') unites the keys, merges common maps deeply, and lets
    the later map win everywhere else *)
Theorem C28_deepmerge : forall m m', wfmap m -> wfmap m' -> exists r,
  func_deepmerge [VMap m; VMap m'] = OVal (VMap r) /\ wfmap r /\ deep_merged_maps m m' r.
Proof.
  intros m m' [S W] [S' W']. cbn [func_deepmerge getMapList getMaps getMap fold_left].
  assert (E : deepmerge [] m = m).
  { apply msorted_ext; [apply deepmerge_sorted; exact I|exact S|]. intro k.
    rewrite deepmerge_get by (apply msorted_NoDup; exact S). destruct (mget k m); reflexivity. }
  rewrite E. eexists. split; [reflexivity|].
  destruct (dm_maps m' (proj2 (Forall_forall _ _) (fun kv _ => dm_all (snd kv))) S' W' m S W) as [H1 [H2 H3]].
  split; [split; assumption|exact H1].
Qed.
(** C28: more maps are merged one after the other; a list of maps counts like the
    maps as arguments *)
Theorem C28_deepmerge_fold : forall ms m, ms <> [] -> exists r,
  func_deepmerge (map VMap ms) = OVal (VMap r) /\
  func_deepmerge (map VMap (ms ++ [m])) = OVal (VMap (deepmerge r m)) /\
  (forall nodes, map val nodes = map VMap ms -> func_deepmerge [VList nodes] = OVal (VMap r)).
Proof.
  intros ms m N. exists (fold_left deepmerge ms []).
  assert (G : forall l, getMaps (map VMap l) = Some l) by (induction l as [|x l IH]; cbn; [reflexivity|]; rewrite IH; reflexivity).
  assert (F : forall l, l <> [] -> func_deepmerge (map VMap l) = OVal (VMap (fold_left deepmerge l []))).
  { intros l Nl. destruct l as [|x l]; [congruence|]. cbn [map func_deepmerge].
    replace (getMapList (VMap x :: map VMap l)) with (getMaps (map VMap (x :: l))) by (destruct l; reflexivity).
    rewrite G. reflexivity. }
  split; [apply F; exact N|]. split.
  - rewrite F by (destruct ms; discriminate). rewrite fold_left_app. reflexivity.
  - intros nodes E. cbn [func_deepmerge getMapList]. rewrite E, G. destruct ms; [congruence|reflexivity].
Qed.

(** C28: merging a document with itself keeps its data *)
Lemma dm_self n : wfN n -> plainV (val n) -> nanfreeN n -> same_data (val (deepmergeN n n)) (val n).
Proof.
  intros W P F. 
  assert (Q : forall n, wfN n -> plainV (val n) -> nanfreeN n -> same_data (val n) (val n)).
  { intros k Wk Pk Fk. apply C07_characterized; auto. apply C07_reflexive; auto. }
  revert W P F. induction n as [v a s t r IH] using node_indT. intros W P F. rewrite deepmergeN_eq. cbn [val].
  destruct v as [| | | | | | |m| | |]; try (apply (Q _ W P F)).
  cbn [newNode val massage]. apply wfN_val in W. cbn [val] in W, P. apply wf_map in W. destruct W as [S W].
  inversion P as [| | | | | | |? PF]; subst. apply nanfree_map in F. rewrite Forall_forall in F.
  pose proof (msorted_NoDup _ S) as N.
  cbn [node_subT] in IH. rewrite Forall_forall in IH, W, PF.
  assert (F' : forall k x, In (k, x) m -> nanfreeN x).
  { intros k x H. apply (F _ H). }
  constructor.
  - intro k. split.
    + intro H. apply key_mget in H. destruct H as [w H]. rewrite deepmerge_get in H by exact N.
      destruct (mget k m) eqn:E; [eapply mget_Some_key; exact E|discriminate].
    + intro H. apply key_mget in H. destruct H as [w H].
      assert (X : mget k (deepmerge m m) = Some (deepmergeN w w)) by (rewrite deepmerge_get by exact N; rewrite H; reflexivity).
      eapply mget_Some_key. exact X.
  - intros k x y Hx Hy. apply In_mget in Hx; [|apply msorted_NoDup, deepmerge_sorted; exact S].
    rewrite deepmerge_get in Hx by exact N. pose proof (In_mget _ _ _ N Hy) as G. rewrite G in Hx. injection Hx as <-.
    apply (IH _ Hy); [apply (W _ Hy)|apply (PF _ Hy)|apply (F' _ _ Hy)].
Qed.
Theorem C28_deepmerge_self : forall m r, wfmap m -> plainV (VMap m) -> (forall k x, In (k, x) m -> nanfreeN x) ->
  func_deepmerge [VMap m; VMap m] = OVal (VMap r) -> same_data (VMap r) (VMap m).
Proof.
  intros m r [S W] P F H. cbn [func_deepmerge getMapList getMaps getMap fold_left] in H.
  assert (E : deepmerge [] m = m).
  { apply msorted_ext; [apply deepmerge_sorted; exact I|exact S|]. intro k.
    rewrite deepmerge_get by (apply msorted_NoDup; exact S). destruct (mget k m); reflexivity. }
  rewrite E in H. injection H as <-.
  pose proof (dm_self (mkNode (VMap m) emptyAnn "" None None)) as X. rewrite deepmergeN_eq in X. cbn [val newNode massage] in X.
  apply X; [apply wfN_val; cbn [val]; apply wf_map; split; assumption|exact P|].
  apply nanfree_map. apply Forall_forall. intros [k x] H'. apply (F k x H').
Qed.
(** deepmerge is not associative: a scalar in the middle cuts off the left map *)
Theorem C28_deepmerge_assoc_refuted :
  let s x := newNode (VInt x) "" in
  let a := [("k", newNode (VMap [("x", s 1)]) "")] in
  let b := [("k", s 2)] in
  let c := [("k", newNode (VMap [("y", s 3)]) "")] in
  exists ab bc l r, func_deepmerge [VMap a; VMap b] = OVal ab /\ func_deepmerge [VMap b; VMap c] = OVal bc /\
    func_deepmerge [ab; VMap c] = OVal l /\ func_deepmerge [VMap a; bc] = OVal r /\ ~ same_data l r.
Proof.
  do 4 eexists. split; [reflexivity|]. split; [reflexivity|]. split; [reflexivity|]. split; [reflexivity|].
  cbn. intro H. inversion H as [| | | | | | |? ? _ K]; subst.
  specialize (K "k" _ _ (or_introl eq_refl) (or_introl eq_refl)). cbn in K.
  inversion K as [| | | | | | |? ? K2 _]; subst. specialize (K2 "x"). cbn in K2. destruct K2 as [_ K2].
  destruct K2 as [X|[]]; [left; reflexivity|discriminate X].
Qed.

(* ------------------------------------------------------------------ *)
(** * makemap and list_to_map *)

(** the entry of a makemap list: {key: k, value: v} *)
Definition entry_of (e : node) (k : string) (v : node) : Prop :=
  exists m kn, val e = VMap m /\ mget "key" m = Some kn /\ search_text (val kn) k /\ mget "value" m = Some v.

(** C28: makemap(list) maps every key to the value of its last entry *)
Lemma makemap_list_spec l kvs : Forall2 (fun e kv => entry_of e (fst kv) (snd kv)) l kvs ->
  forall acc, makemap_list l acc = OVal (VMap (fold_left (fun m kv => mset (fst kv) (snd kv) m) kvs acc)).
Proof.
  intro H. induction H as [|e [k v] l kvs He H IH]; intro acc; cbn [makemap_list fold_left]; [reflexivity|].
  destruct He as [m [kn [E1 [E2 [E3 E4]]]]]. cbn [fst snd] in *. rewrite E1, E2, (search_text_fn _ _ E3), E4. apply IH.
Qed.
(** the value of the last pair with key [k] *)
Definition last_for {A} (k : string) (kvs : list (string * A)) (v : option A) : Prop :=
  match v with
  | None => forall x, ~ In (k, x) kvs
  | Some v => exists p q, kvs = p ++ (k, v) :: q /\ forall x, ~ In (k, x) q
  end.
Lemma fold_mset_get {A} (kvs : list (string * A)) k : forall acc : smap A, exists v, last_for k kvs v /\
  mget k (fold_left (fun m kv => mset (fst kv) (snd kv) m) kvs acc) = match v with Some x => Some x | None => mget k acc end.
Proof.
  induction kvs as [|[k' x] kvs IH]; intro acc; cbn [fold_left fst snd].
  - exists None. split; [intros x []|reflexivity].
  - destruct (IH (mset k' x acc)) as [[v|] [L E]].
    + exists (Some v). split; [|exact E]. destruct L as [p [q [-> N]]]. exists ((k', x) :: p), q. split; [reflexivity|exact N].
    + destruct (String.eqb_spec k k') as [->|D].
      * exists (Some x). split; [exists [], kvs; split; [reflexivity|exact L]|]. rewrite E. apply mget_mset_same.
      * exists None. split; [intros y [H|H]; [congruence|exact (L y H)]|]. rewrite E. apply mget_mset_other. exact D.
Qed.
Theorem C28_makemap : forall l kvs, Forall2 (fun e kv => entry_of e (fst kv) (snd kv)) l kvs -> exists r,
  func_makemap source [VList l] = OVal (VMap r) /\ forall k, last_for k kvs (mget k r).
Proof.
  intros l kvs H. eexists. split; [apply (makemap_list_spec l kvs H [])|].
  intro k. destruct (fold_mset_get kvs k []) as [v [L E]]. rewrite E. destruct v; exact L.
Qed.
(** C28: makemap(k1, v1, k2, v2, ...) likewise *)
Theorem C28_makemap_pairs : forall kvs args,
  (2 <= length args)%nat \/ args = [] ->
  args = flat_map (fun kv => [fst kv; snd kv]) kvs ->
  (forall kv, In kv kvs -> exists s, search_text (fst kv) s) ->
  exists r names, func_makemap source args = OVal (VMap r) /\
    Forall2 (fun kv s => search_text (fst kv) s) kvs names /\
    forall k, last_for k (combine names (map (fun kv => newNode (snd kv) source) kvs)) (mget k r).
Proof.
  intros kvs args L E S.
  assert (X : forall kvs, (forall kv, In kv kvs -> exists s, search_text (fst kv) s) -> exists names,
     Forall2 (fun kv s => search_text (fst kv) s) kvs names /\ forall acc,
     makemap_pairs source (flat_map (fun kv => [fst kv; snd kv]) kvs) acc =
       OVal (VMap (fold_left (fun m kv => mset (fst kv) (snd kv) m) (combine names (map (fun kv => newNode (snd kv) source) kvs)) acc))).
  { clear. induction kvs as [|[k v] kvs IH]; intro S.
    - exists []. split; [constructor|reflexivity].
    - destruct IH as [names [F IH]]; [intros kv H; apply S; right; exact H|].
      destruct (S (k, v) (or_introl eq_refl)) as [s Hs]. exists (s :: names). split; [constructor; assumption|].
      intro acc. cbn [flat_map app makemap_pairs fst snd map combine fold_left] in *. rewrite (search_text_fn _ _ Hs). apply IH. }
  destruct (X kvs S) as [names [F R]]. exists (fold_left (fun m kv => mset (fst kv) (snd kv) m) (combine names (map (fun kv => newNode (snd kv) source) kvs)) []).
  exists names. split; [|split; [exact F|]].
  - assert (EV : Nat.even (length args) = true).
    { rewrite E. clear. induction kvs as [|kv kvs IH]; [reflexivity|exact IH]. }
    transitivity (makemap_pairs source args []).
    + unfold func_makemap. rewrite EV. destruct args as [|x [|y args]]; try reflexivity; [destruct L as [L|L]; [cbn in L; lia|discriminate]|].
      destruct x; reflexivity.
    + rewrite E. apply R.
  - intro k. destruct (fold_mset_get (combine names (map (fun kv => newNode (snd kv) source) kvs)) k []) as [v [L' E']].
    rewrite E'. destruct v; exact L'.
Qed.

(** C28: list_to_map moves every entry to the key given by its key field, without
    that field; entries with the same key override earlier ones *)
Definition named_entry (field : string) (e : node) (k : string) (v : node) : Prop :=
  exists m kn, val e = VMap m /\ mget field m = Some kn /\ val kn = VStr k /\
    exists m', val v = VMap m' /\ ann v = ann e /\ src v = src e /\
      forall f, mget f m' = if String.eqb f field then None else mget f m.
Lemma list_to_map_spec field l : (forall e, In e l -> exists m kn k, val e = VMap m /\ mget field m = Some kn /\ val kn = VStr k) ->
  exists kvs, Forall2 (fun e kv => named_entry field e (fst kv) (snd kv)) l kvs /\
  forall acc, listToMapK_loop l field acc = Some (fold_left (fun m kv => mset (fst kv) (snd kv) m) kvs acc).
Proof.
  induction l as [|e l IH]; intro H.
  - exists []. split; [constructor|reflexivity].
  - destruct IH as [kvs [F R]]; [intros x Hx; apply H; right; exact Hx|].
    destruct (H e (or_introl eq_refl)) as [m [kn [k [E1 [E2 E3]]]]].
    exists ((k, substituteNodeV (VMap (mdel field m)) e) :: kvs). split.
    + constructor; [|exact F]. exists m, kn. cbn [fst snd]. repeat split; try assumption.
      exists (mdel field m). destruct e. cbn. repeat split. intro f. apply mget_mdel.
    + intro acc. cbn [listToMapK_loop fold_left fst snd]. rewrite E1, E2, E3. apply R.
Qed.
Theorem C28_list_to_map : forall l field,
  (forall e, In e l -> exists m kn k, val e = VMap m /\ mget field m = Some kn /\ val kn = VStr k) ->
  exists kvs r, Forall2 (fun e kv => named_entry field e (fst kv) (snd kv)) l kvs /\
    func_list_to_map "" [VList l; VStr field] = OVal (VMap r) /\ forall k, last_for k kvs (mget k r).
Proof.
  intros l field H. destruct (list_to_map_spec field l H) as [kvs [F R]].
  exists kvs. eexists. split; [exact F|]. split.
  - cbn [func_list_to_map]. rewrite R. reflexivity.
  - intro k. destruct (fold_mset_get kvs k []) as [v [L E]]. rewrite E. destruct v; exact L.
Qed.
(** C28: any entry without a textual key field is an error *)
Theorem C28_list_to_map_error : forall l field e, In e l ->
  (forall m kn k, val e = VMap m -> mget field m = Some kn -> val kn <> VStr k) ->
  func_list_to_map "" [VList l; VStr field] = OErr.
Proof.
  intros l field e Hi H. cbn [func_list_to_map].
  assert (X : forall acc, listToMapK_loop l field acc = None).
  { induction l as [|x l IH]; [destruct Hi|]. intro acc. cbn [listToMapK_loop].
    destruct Hi as [->|Hi].
    - destruct (val e) eqn:E1; try reflexivity. destruct (mget field m) as [kn|] eqn:E2; [|reflexivity].
      destruct (val kn) eqn:E3; try reflexivity. exfalso. exact (H m kn s eq_refl E2 E3).
    - destruct (val x); try reflexivity. destruct (mget field m) as [kn|]; [|reflexivity].
      destruct (val kn); try reflexivity. apply IH. exact Hi. }
  rewrite X. reflexivity.
Qed.
(** without second argument the key field is the one known for the list, or name *)
Theorem C28_list_to_map_default : forall l kn,
  func_list_to_map kn [VList l] = func_list_to_map "" [VList l; VStr (if String.eqb kn "" then "name" else kn)].
Proof. reflexivity. Qed.

(** non-vacuity *)
Example C28_case :
  let s x := newNode (VInt x) "" in
  let a := [("k", newNode (VMap [("x", s 1)]) ""); ("l", s 5)] in
  let b := [("k", newNode (VMap [("y", s 3)]) ""); ("m", s 6)] in
  wfmap a /\ wfmap b /\
  func_deepmerge [VMap a; VMap b] =
    OVal (VMap [("k", newNode (VMap [("x", s 1); ("y", s 3)]) "<deepmerge>"); ("l", s 5); ("m", s 6)]) /\
  op_concat lambdaText source (VMap a) (VMap b) = OVal (VMap [("k", newNode (VMap [("y", s 3)]) ""); ("l", s 5); ("m", s 6)]).
Proof.
  repeat split; cbn; try (intros k [<-|[]]; reflexivity); try (intros k []);
    repeat (apply Forall_cons || apply Forall_nil); cbn; repeat split; intros k [].
Qed.
End C.

Print Assumptions C28_concat.
Print Assumptions C28_concat_assoc.
Print Assumptions C28_concat_self.
Print Assumptions C28_concat_other.
Print Assumptions C28_keys.
Print Assumptions C28_length.
Print Assumptions C28_deepmerge.
Print Assumptions C28_deepmerge_fold.
Print Assumptions C28_deepmerge_self.
Print Assumptions C28_deepmerge_assoc_refuted.
Print Assumptions C28_makemap.
Print Assumptions C28_makemap_pairs.
Print Assumptions C28_list_to_map.
Print Assumptions C28_list_to_map_error.
Print Assumptions C28_list_to_map_default.
