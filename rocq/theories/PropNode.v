(** C07 (node equivalence) and C09 (path lookup). *)
From Coq Require Import Lia Floats.SpecFloat.
From Verif Require Import Core CoreFacts Str StrFacts DecSpec DeepEq DeepEqFacts Equiv EquivFacts Find FindFacts.

(* ------------------------------------------------------------------ *)
(** * C07 *)

(** Specification: two plain documents denote the same data. Numbers and texts
    are equal, lists agree element by element, maps have the same keys with the
    same data. Nothing but values occurs here: annotations, source names, etc.
    are not mentioned. *)
Inductive same_data : value -> value -> Prop :=
| SD_nil : same_data VNil VNil
| SD_bool x : same_data (VBool x) (VBool x)
| SD_int x : same_data (VInt x) (VInt x)
| SD_goint x : same_data (VGoInt x) (VGoInt x)
| SD_float x y : SFcompare x y = Some Eq -> same_data (VFloat x) (VFloat y)
| SD_str x : same_data (VStr x) (VStr x)
| SD_list l l' : Forall2 (fun a b => same_data (val a) (val b)) l l' -> same_data (VList l) (VList l')
| SD_map m m' :
    (forall k, In k (mkeys m) <-> In k (mkeys m')) ->
    (forall k x y, In (k, x) m -> In (k, y) m' -> same_data (val x) (val y)) ->
    same_data (VMap m) (VMap m').

(** documents built of nil, booleans, numbers, texts, lists and maps *)
Inductive plainV : value -> Prop :=
| PL_nil : plainV VNil
| PL_bool x : plainV (VBool x)
| PL_int x : plainV (VInt x)
| PL_goint x : plainV (VGoInt x)
| PL_float x : plainV (VFloat x)
| PL_str x : plainV (VStr x)
| PL_list l : Forall (fun n => plainV (val n)) l -> plainV (VList l)
| PL_map m : Forall (fun kv => plainV (val (snd kv))) m -> plainV (VMap m).

Lemma feqb_cmp x y : feqb x y = true <-> SFcompare x y = Some Eq.
Proof. unfold feqb. destruct (SFcompare x y) as [[]|]; split; congruence. Qed.

Lemma tbz (b c : bool) : ((if b then 1 else 0) =? (if c then 1 else 0)) = Bool.eqb b c.
Proof. destruct b, c; reflexivity. Qed.

(** C07: on plain documents the equivalence test decides exactly "same data" *)
Theorem C07_characterized : forall a b, wfN a -> wfN b -> plainV (val a) -> plainV (val b) ->
  (equivN a b = true <-> same_data (val a) (val b)).
Proof.
  intro a. induction a as [v an s t r IH] using node_indT. intros [w an' s' t' r'] Wa Wb Pa Pb.
  apply wfN_val in Wa. apply wfN_val in Wb. rewrite equivN_val. cbn [val] in *.
  destruct Pa as [|x|x|x|x|x|l Fa|m Fa], Pb as [|y|y|y|y|y|l' Fb|m' Fb];
    try (split; intro X; [cbn in X; discriminate X|inversion X]; fail).
  - split; [intros _; constructor|reflexivity].
  - cbn. rewrite tbz, andb_true_r. split; intro H; [apply eqb_prop in H; subst; constructor|inversion H; subst; apply eqb_reflx].
  - cbn. rewrite andb_true_r, Z.eqb_eq. split; intro H; [subst; constructor|inversion H; subst; reflexivity].
  - cbn. rewrite andb_true_r, Z.eqb_eq. split; intro H; [subst; constructor|inversion H; subst; reflexivity].
  - cbn. rewrite andb_true_r, feqb_cmp. split; intro H; [constructor; exact H|inversion H; subst; assumption].
  - cbn. rewrite andb_true_r, String.eqb_eq. split; intro H; [subst; constructor|inversion H; subst; reflexivity].
  - rewrite equiv_list. apply wf_list in Wa. apply wf_list in Wb. cbn [node_subT] in IH. split.
    + intro H. constructor. induction H as [|x y l l' Hxy _ IHl]; constructor;
        inversion IH; inversion Wa; inversion Wb; inversion Fa; inversion Fb; subst; auto.
      apply H1; auto.
    + intro H. inversion H as [| | | | | |? ? H'|]; subst. clear H.
      induction H' as [|x y l l' Hxy _ IHl]; constructor;
        inversion IH; inversion Wa; inversion Wb; inversion Fa; inversion Fb; subst; auto.
      apply H1; auto.
  - apply wf_map in Wa. apply wf_map in Wb. destruct Wa as [Sa Wa], Wb as [Sb Wb].
    rewrite equiv_map by assumption. cbn [node_subT] in IH. rewrite Forall_forall in *. split.
    + intro H. constructor.
      * intro k. specialize (H k). split; intro Hk; apply key_mget in Hk; destruct Hk as [x Ex]; rewrite Ex in H.
        -- destruct (mget k m') eqn:E2; [apply mget_Some_key in E2; exact E2|contradiction].
        -- destruct (mget k m) eqn:E2; [apply mget_Some_key in E2; exact E2|contradiction].
      * intros k x y Hx Hy. specialize (H k).
        rewrite (In_mget _ _ _ (msorted_NoDup _ Sa) Hx), (In_mget _ _ _ (msorted_NoDup _ Sb) Hy) in H.
        apply (IH _ Hx); [apply (Wa _ Hx)|apply (Wb _ Hy)|apply (Fa _ Hx)|apply (Fb _ Hy)|exact H].
    + intros H k. inversion H as [| | | | | | |? ? H1 H2]; subst.
      destruct (mget k m) as [x|] eqn:E1, (mget k m') as [y|] eqn:E2; auto.
      * apply mget_In in E1. apply mget_In in E2.
        apply (IH _ E1); [apply (Wa _ E1)|apply (Wb _ E2)|apply (Fa _ E1)|apply (Fb _ E2)|]. apply (H2 k); assumption.
      * apply mget_Some_key in E1. apply H1 in E1. apply mget_None in E2. contradiction.
      * apply mget_Some_key in E2. apply H1 in E2. apply mget_None in E1. contradiction.
Qed.

(** C07: an equivalence relation on all nodes (also with expressions, lambdas
    and templates inside) *)
Theorem C07_reflexive : forall n, wfN n -> nanfreeN n -> equivN n n = true.
Proof. exact equiv_refl. Qed.
Theorem C07_symmetric : forall a b, wfN a -> wfN b -> equivN a b = true -> equivN b a = true.
Proof. exact equiv_sym. Qed.
Theorem C07_transitive : forall a b c, wfN a -> wfN b -> wfN c ->
  equivN a b = true -> equivN b c = true -> equivN a c = true.
Proof. exact equiv_trans. Qed.

(** C07: annotations, source names, templates and resolvers at any depth do not
    matter: [reannotated a b] relates nodes that differ only in those. *)
Inductive reannotated : node -> node -> Prop :=
| RA_leaf v a a' s s' t t' r r' :
    (forall l, v <> VList l) -> (forall m, v <> VMap m) -> reannotated (mkNode v a s t r) (mkNode v a' s' t' r')
| RA_list l l' a a' s s' t t' r r' : Forall2 reannotated l l' ->
    reannotated (mkNode (VList l) a s t r) (mkNode (VList l') a' s' t' r')
| RA_map m m' a a' s s' t t' r r' :
    Forall2 (fun x y => fst x = fst y /\ reannotated (snd x) (snd y)) m m' ->
    reannotated (mkNode (VMap m) a s t r) (mkNode (VMap m') a' s' t' r').

Lemma Forall2_len {A B} (R : A -> B -> Prop) l l' : Forall2 R l l' -> length l = length l'.
Proof. induction 1; cbn; congruence. Qed.

Lemma ra_mget m m' k : Forall2 (fun x y => fst x = fst y /\ reannotated (snd x) (snd y)) m m' ->
  match mget k m, mget k m' with Some a, Some b => reannotated a b | None, None => True | _, _ => False end.
Proof.
  induction 1 as [|[k1 x] [k2 y] m m' [E R] _ IH]; [exact I|]. cbn in *. subst k2.
  destruct (String.eqb k k1); [exact R|exact IH].
Qed.

Theorem C07_annotations : forall a a' b b',
  reannotated a a' -> reannotated b b' -> equivN a b = equivN a' b'.
Proof.
  intro a. induction a as [v an s t r IH] using node_indT. intros a' b b' Ra Rb.
  inversion Ra as [? ? ? ? ? ? ? ? ? N1 N2 E1 E2|l l' ? ? ? ? ? ? ? ? F E1 E2|m m' ? ? ? ? ? ? ? ? F E1 E2]; subst.
  - inversion Rb as [w ? ? ? ? ? ? ? ? M1 M2 E3 E4|l l' ? ? ? ? ? ? ? ? F E3 E4|m m' ? ? ? ? ? ? ? ? F E3 E4]; subst;
      rewrite !equivN_val; cbn [val]; [reflexivity|..];
      destruct v; try reflexivity; try (exfalso; eapply N1; reflexivity); try (exfalso; eapply N2; reflexivity).
  - inversion Rb as [w ? ? ? ? ? ? ? ? M1 M2 E3 E4|k k' ? ? ? ? ? ? ? ? G E3 E4|m m' ? ? ? ? ? ? ? ? G E3 E4]; subst;
      rewrite !equivN_val; cbn [val].
    + destruct w; try reflexivity. exfalso; eapply M1; reflexivity.
    + cbn [equivV]. cbn [node_subT] in IH. clear Ra Rb. revert k k' G.
      induction F as [|x x' l l' Rx _ IHl]; intros k k' G; destruct G as [|y y' k k' Ry G]; try reflexivity.
      inversion IH; subst. f_equal; [apply H1; assumption|]. apply IHl; assumption.
    + reflexivity.
  - inversion Rb as [w ? ? ? ? ? ? ? ? M1 M2 E3 E4|k k' ? ? ? ? ? ? ? ? G E3 E4|k k' ? ? ? ? ? ? ? ? G E3 E4]; subst;
      rewrite !equivN_val; cbn [val].
    + destruct w; try reflexivity. exfalso; eapply M2; reflexivity.
    + reflexivity.
    + cbn [equivV]. cbn [node_subT] in IH. rewrite (Forall2_len _ _ _ F), (Forall2_len _ _ _ G). f_equal.
      clear Ra Rb. induction F as [|[k1 x] [k2 x'] m m' [Ek Rx] _ IHm]; [reflexivity|]. cbn [fst snd] in *. subst k2.
      inversion IH; subst. f_equal; [|apply IHm; assumption].
      assert (Q := ra_mget _ _ k1 G). destruct (mget k1 k), (mget k1 k'); try contradiction; [|reflexivity].
      apply H1; assumption.
Qed.

(** C07: what does not hold: a document containing NaN differs from itself *)
Definition nanDoc : node := newNode (VFloat S754_nan) "".
Theorem C07_nan_refuted : exists n, wfN n /\ equivN n n = false.
Proof. exists nanDoc. split; [exact I|reflexivity]. Qed.

(* ------------------------------------------------------------------ *)
(** * C09 *)

(** C09: lookup yields exactly the node reached by following keys, indices and
    names ([reaches] in FindFacts.v) *)
Theorem C09_lookup : forall raw ctrl path n c, wfN n -> fitsN n ->
  (find raw ctrl path n = FOk c <-> reaches raw ctrl n path c).
Proof. exact (fun raw ctrl p n c => find_reaches raw ctrl p n c). Qed.

(** C09: not-found exactly if no node is reached and no index is out of bounds below *)
Theorem C09_missing : forall raw ctrl path n, wfN n -> fitsN n ->
  (forall p1 s p2 d l i, path = p1 ++ s :: p2 -> reaches raw ctrl n p1 d -> val d = VList l ->
     index_step s i -> - Z.of_nat (length l) <= i <= max64) ->
  (find raw ctrl path n = FNo <-> forall c, ~ reaches raw ctrl n path c).
Proof.
  intros raw ctrl path n W F Hi. split.
  - intros H c R. apply find_reaches in R; [congruence|assumption..].
  - intro H. destruct (find raw ctrl path n) as [c| |] eqn:E; [|reflexivity|].
    + apply find_reaches in E; [|assumption..]. exfalso. exact (H c E).
    + apply find_panic in E; [|assumption..]. destruct E as [p1 [s [p2 [d [l [E1 [R [Ev [_ [i [Hs Hx]]]]]]]]]]].
      specialize (Hi p1 s p2 d l i E1 R Ev Hs). lia.
Qed.

(** C09: lookup of a concatenated path is lookup in two steps *)
Theorem C09_compose : forall raw ctrl p q n,
  find raw ctrl (p ++ q) n =
  match find raw ctrl p n with FOk d => find raw ctrl q d | FNo => FNo | FPanic => FPanic end.
Proof. exact find_app. Qed.

(** C09: an index counted from the end beyond the first element crashes instead
    of reporting not-found; exactly these paths do *)
Theorem C09_crash_characterized : forall raw ctrl path n, wfN n -> fitsN n ->
  (find raw ctrl path n = FPanic <->
   exists p1 s p2 d l, path = p1 ++ s :: p2 /\ reaches raw ctrl n p1 d /\ val d = VList l /\ (raw = true \/ settledL l) /\
     exists i, index_step s i /\ (i < - Z.of_nat (length l) \/ max64 < i)).
Proof. exact find_panic. Qed.

Definition nstr s := newNode (VStr s) "".
Definition nmap m := newNode (VMap m) "".
Definition nlist l := newNode (VList l) "".
Definition ex_doc : node :=
  nmap [("jobs", nlist [nmap [("name", nstr "a")];
                        nmap [("name", nstr "b"); ("x", nlist [nstr "p"; nstr "q"])];
                        nmap [("name", nstr "b"); ("x", nlist [nstr "r"])]])].

Theorem C09_missing_refuted : exists n path, wfN n /\ fitsN n /\ find false true path n = FPanic.
Proof.
  exists ex_doc, ["jobs"; "[-4]"]. split; [|split; [|reflexivity]].
  - cbn. repeat split; try (intros k []; fail); intros k [<-|[]]; reflexivity.
  - cbn. unfold max64. repeat split; lia.
Qed.

(** non-vacuity *)
Example ex_doc_wf : wfN ex_doc /\ fitsN ex_doc /\ nanfreeN ex_doc /\ plainV (val ex_doc).
Proof.
  split; [|split; [|split]].
  - cbn. repeat split; try (intros k []; fail); intros k [<-|[]]; reflexivity.
  - cbn. unfold max64. repeat split; lia.
  - cbn. repeat split.
  - repeat constructor.
Qed.
Example ex_find1 : find false true ["jobs"; "b"; "x"; "[-1]"] ex_doc = FOk (nstr "q").
Proof. reflexivity. Qed.
Example ex_find2 : find false true ["jobs"; "name:b"; "x"; "[1]"] ex_doc = FOk (nstr "q").
Proof. reflexivity. Qed.
Example ex_find3 : find false true ["jobs"; "c"] ex_doc = FNo.
Proof. reflexivity. Qed.
Example ex_equiv : equivN ex_doc (setTag ex_doc "t") = true.
Proof. reflexivity. Qed.

Print Assumptions C07_characterized.
Print Assumptions C07_annotations.
Print Assumptions C07_transitive.
Print Assumptions C09_lookup.
Print Assumptions C09_missing.
Print Assumptions C09_crash_characterized.
