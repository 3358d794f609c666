(** Rounds of the merge engine on plain documents: the second round changes
    flags only, the third one nothing (C02). *)
From Coq Require Import Lia Floats.SpecFloat.
From Verif Require Import Core CoreFacts Str StrFacts DecSpec Interp Find FindFacts EquivFacts PropInterp
  Cleanup Unresolved PropUnresolved DeepEq DeepEqFacts Env Flow FlowSpec FlowFacts FlowPass.

(** ** DeepEqual on plain documents is equality *)
Section Eq.
Variable K : string -> Prop.
Variable interpol : bool.
Notation plain := (plainDoc K interpol).

Lemma feqb_eq f g : f <> S754_zero true -> g <> S754_zero true -> feqb f g = true -> f = g.
Proof.
  intros Z1 Z2 H. apply feqb_spec in H. destruct H as [[b [c [-> ->]]]|[H _]]; [|exact H].
  destruct b, c; congruence.
Qed.
Lemma tree_eqb_TN s k t l : tree_eqb (TN s k) (TN t l) = Z.eqb s t && trees_eqb k l.
Proof. reflexivity. Qed.
Lemma trees_cons x k y l : trees_eqb (x :: k) (y :: l) = tree_eqb x y && trees_eqb k l.
Proof. reflexivity. Qed.
Lemma tann_inj a b : (a = emptyAnn \/ a = injectedAnn) -> (b = emptyAnn \/ b = injectedAnn) ->
  tree_eqb (tann a) (tann b) = true -> a = b.
Proof. intros [-> | ->] [-> | ->]; try reflexivity; cbv; discriminate. Qed.

Lemma trees_TN s k t l : trees_eqb k l = true -> s = t -> tree_eqb (TN s k) (TN t l) = true.
Proof. intros H ->. rewrite tree_eqb_TN, H, Z.eqb_refl. reflexivity. Qed.

Lemma plain_eq_node v a s b w t : tree_eqb (encN (mkNode v a s None None)) (encN (mkNode w b t None None)) = true ->
  tree_eqb (encV v) (encV w) = true /\ tree_eqb (tann a) (tann b) = true /\ s = t.
Proof.
  cbn [encN]. rewrite tree_eqb_TN, !trees_cons. cbn [trees_eqb].
  rewrite !andb_true_iff. intros [_ [H1 [H2 [H3 _]]]]. cbn [tree_eqb] in H3. apply String.eqb_eq in H3. auto.
Qed.

Lemma deepEq_plain : forall a b, plain a -> plain b -> deepEqN a b = true -> a = b.
Proof.
  unfold deepEqN. induction a as [v an s t r IH] using node_ind'. intros b Pa Pb H.
  assert (Ea : t = None /\ r = None) by (inversion Pa; auto). destruct Ea as [-> ->].
  destruct b as [w bn s2 t2 r2]. assert (Eb : t2 = None /\ r2 = None) by (inversion Pb; auto). destruct Eb as [-> ->].
  apply plain_eq_node in H. destruct H as [H1 [H2 ->]].
  apply tann_inj in H2; [|exact (plain_ann _ _ _ Pa)|exact (plain_ann _ _ _ Pb)]. subst bn. f_equal.
  destruct v as [|x|x|x|x|x|l|m|x| |], w as [|y|y|y|y|y|l'|m'|y| |];
    cbn [encV] in H1; try (rewrite tree_eqb_TN in H1; cbn in H1; discriminate H1);
    try (inversion Pa as [? ? Hx| |]; subst; inversion Hx; fail);
    try (inversion Pb as [? ? Hx| |]; subst; inversion Hx; fail); rewrite tree_eqb_TN in H1; cbn [Z.eqb Pos.eqb andb] in H1.
  - reflexivity.
  - destruct x, y; (reflexivity || (cbn in H1; discriminate H1)).
  - rewrite trees_cons in H1. apply andb_true_iff in H1. destruct H1 as [H1 _]. cbn [tree_eqb] in H1.
    apply Z.eqb_eq in H1. congruence.
  - rewrite trees_cons in H1. apply andb_true_iff in H1. destruct H1 as [H1 _]. cbn [tree_eqb] in H1.
    inversion Pa as [? ? Hx| |]; subst; inversion Hx; subst. inversion Pb as [? ? Hy| |]; subst; inversion Hy; subst.
    apply feqb_eq in H1; congruence.
  - rewrite trees_cons in H1. apply andb_true_iff in H1. destruct H1 as [H1 _]. cbn [tree_eqb] in H1.
    apply String.eqb_eq in H1. congruence.
  - f_equal. pose proof (plain_list _ _ _ l Pa eq_refl) as Pl. pose proof (plain_list _ _ _ l' Pb eq_refl) as Pl'.
    cbn in IH. clear Pa Pb. revert l' Pl' H1. induction l as [|x l IHl]; intros [|y l'] Pl' H1; try reflexivity; try discriminate H1.
    cbn [map] in H1. rewrite trees_cons in H1. apply andb_true_iff in H1. destruct H1 as [H1 H2].
    inversion IH; subst. inversion Pl; subst. inversion Pl'; subst. f_equal; auto.
  - f_equal. pose proof (plain_map _ _ _ m Pa eq_refl) as [_ [_ Pl]]. pose proof (plain_map _ _ _ m' Pb eq_refl) as [_ [_ Pl']].
    cbn in IH. clear Pa Pb. revert m' Pl' H1. induction m as [|[k x] l IHl]; intros [|[k' y] l'] Pl' H1; try reflexivity; try discriminate H1.
    cbn [map] in H1. rewrite trees_cons in H1. apply andb_true_iff in H1. destruct H1 as [H1 H2].
    rewrite tree_eqb_TN, !trees_cons in H1. rewrite !andb_true_iff in H1. destruct H1 as [_ [Hk [Hx _]]].
    cbn [tree_eqb] in Hk. apply String.eqb_eq in Hk. subst k'.
    inversion IH; subst. inversion Pl; subst. inversion Pl'; subst. cbn [snd] in *. f_equal; [f_equal|]; auto.
Qed.

Lemma nonan_plain n : plain n -> nonan (encN n) = true.
Proof.
  induction n as [v an s t r IH] using node_ind'. intro P.
  assert (Ea : t = None /\ r = None) by (inversion P; auto). destruct Ea as [-> ->].
  cbn [encN]. rewrite nonan_TN. cbn [forallb]. cbn [nonan andb]. rewrite andb_true_r.
  assert (HA : nonan (tann an) = true) by (destruct (plain_ann _ _ _ P) as [E|E]; cbn [ann] in E; subst an; reflexivity).
  rewrite HA, andb_true_r.
  destruct v as [|x|x|x|x|x|l|m|x| |]; try (inversion P as [? ? Hx| |]; subst; inversion Hx; fail); cbn [encV]; rewrite nonan_TN; try reflexivity.
  - inversion P as [? ? Hx| |]; subst; inversion Hx; subst. cbn. destruct x; (reflexivity || congruence).
  - pose proof (plain_list _ _ _ l P eq_refl) as Pl. cbn in IH. clear P.
    induction l as [|x l IHl]; [reflexivity|]. inversion IH; subst. inversion Pl; subst. cbn [map forallb].
    rewrite H1 by assumption. cbn [andb]. auto.
  - pose proof (plain_map _ _ _ m P eq_refl) as [_ [_ Pl]]. cbn in IH. clear P.
    induction m as [|[k x] l IHl]; [reflexivity|]. inversion IH; subst. inversion Pl; subst. cbn [map forallb].
    rewrite nonan_TN. cbn [forallb nonan]. cbn [snd] in *. rewrite H1 by assumption. cbn [andb]. auto.
Qed.
Lemma deepEq_refl n : plain n -> deepEqN n n = true.
Proof. intro P. apply tree_eqb_refl, nonan_plain, P. Qed.

(** ** the remaining passes over a document *)
Lemma leaf_resolver f v : leaf interpol v -> mapResolver f v = v.
Proof. destruct 1; reflexivity. Qed.
Lemma mapHere_plain f n : plain n -> mapHere (mapResolver f) n = n.
Proof.
  induction n as [v an s t r IH] using node_ind'. intro P. cbn [mapHere]. f_equal.
  destruct v as [|x|x|x|x|x|l|m|x| |]; try (inversion P as [? ? Hx| |]; subst; inversion Hx; fail); try reflexivity.
  - f_equal. pose proof (plain_list _ _ _ l P eq_refl) as Pl. cbn in IH. clear P.
    induction l as [|x l IHl]; [reflexivity|]. inversion IH; subst. inversion Pl; subst. cbn [map]. f_equal; auto.
  - f_equal. pose proof (plain_map _ _ _ m P eq_refl) as [_ [_ Pl]]. cbn in IH. clear P.
    induction m as [|[k x] l IHl]; [reflexivity|]. inversion IH; subst. inversion Pl; subst. cbn [map]. cbn [snd] in *.
    f_equal; [f_equal|]; auto.
Qed.
Lemma mapBelow_plain f n : plain n -> mapBelow (mapResolver f) n = n.
Proof.
  intro P. rewrite <- (mapHere_plain f n P) at 2. destruct n as [v]. cbn [mapBelow mapHere]. f_equal.
  destruct v; try reflexivity; inversion P as [? ? Hx| |]; subst; inversion Hx.
Qed.

Lemma unresolved_plain parses parseIssue n : plain n -> forall ctx, findUnresolved parses parseIssue n ctx = [].
Proof.
  induction n as [v an s t r IH] using node_ind'. intros P ctx. cbn [findUnresolved].
  assert (HA : a_failed an = false) by (destruct (plain_ann _ _ _ P) as [E|E]; cbn [ann] in E; subst an; reflexivity).
  rewrite HA. cbn [andb].
  destruct v as [|x|x|x|x|x|l|m|x| |]; try (inversion P as [? ? Hx| |]; subst; inversion Hx; fail); try reflexivity.
  - unfold embedded. cbn [val]. inversion P as [? ? Hx| |]; subst; inversion Hx as [| | | |? Ht]; subst.
    rewrite (literal_enclosed _ _ Ht). reflexivity.
  - pose proof (plain_list _ _ _ l P eq_refl) as Pl. cbn in IH. clear P.
    match goal with |- order_groups ?g = [] => assert (E : g = []); [|rewrite E; reflexivity] end.
    generalize 0 as i. induction l as [|x l IHl]; intro i; [reflexivity|]. inversion IH; subst. inversion Pl; subst.
    rewrite H1 by assumption. cbn [app]. apply IHl; assumption.
  - pose proof (plain_map _ _ _ m P eq_refl) as [_ [_ Pl]]. cbn in IH. clear P.
    match goal with |- order_groups ?g = [] => assert (E : g = []); [|rewrite E; reflexivity] end.
    induction m as [|[k x] l IHl]; [reflexivity|]. inversion IH; subst. inversion Pl; subst. cbn [snd] in *.
    rewrite H1 by assumption. cbn [app]. apply IHl; assumption.
Qed.

Lemma cleanup_plain (test : unit -> node -> bool * unit) n :
  (forall x, plain x -> test tt x = (true, tt)) -> plain n -> cleanup unit test tt n = n.
Proof.
  intro HT. induction n as [v an s t r IH] using node_ind'. intro P. cbn [cleanup]. f_equal.
  destruct v as [|x|x|x|x|x|l|m|x| |]; try reflexivity.
  - f_equal. pose proof (plain_list _ _ _ l P eq_refl) as Pl. cbn in IH. clear P.
    induction l as [|x l IHl]; [reflexivity|]. inversion IH; subst. inversion Pl; subst. rewrite HT by assumption. f_equal; auto.
  - f_equal. pose proof (plain_map _ _ _ m P eq_refl) as [_ [_ Pl]]. cbn in IH. clear P.
    induction m as [|[k x] l IHl]; [reflexivity|]. inversion IH; subst. inversion Pl; subst. cbn [snd] in *.
    rewrite HT by assumption. f_equal; [f_equal|]; auto.
Qed.
Lemma dropTemporary_plain n : plain n -> dropTemporary n = n.
Proof.
  apply cleanup_plain. intros x P. unfold discardTemporary, nflags. destruct (plain_ann _ _ _ P) as [-> | ->]; reflexivity.
Qed.
Lemma dropLocal_plain n : plain n -> dropLocal n = n.
Proof.
  apply cleanup_plain. intros x P. unfold discardLocal, nflags. destruct (plain_ann _ _ _ P) as [-> | ->]; reflexivity.
Qed.

Hypothesis KQ : forall k, K k -> quietKey k.
Lemma quiet_unescaped k : quietKey k -> escapedKey k = false.
Proof.
  intros [H _]. unfold escapedKey. rewrite !not_starts; [reflexivity| |].
  - intros [r ->]. apply H. exists ("<!" +++ r)%string. reflexivity.
  - intros [r ->]. apply H. exists ("!" +++ r)%string. reflexivity.
Qed.
Lemma unescape_plain quote i n : (i = true -> interpol = true) -> plain n -> unescape1 quote i n = n.
Proof.
  intro Hi. induction n as [v an s t r IH] using node_ind'. intro P. cbn [unescape1].
  destruct v as [|x|x|x|x|x|l|m|x| |]; try reflexivity.
  - unfold unescapeDynaml. cbn [val]. inversion P as [? ? Hx| |]; subst; inversion Hx as [| | | |? Ht]; subst.
    rewrite (literal_enclosed _ _ Ht), (literal_unescape quote interpol i x Hi Ht), String.eqb_refl. reflexivity.
  - cbn [unescapeDynaml val]. unfold unescapeDynaml. cbn [val]. do 2 f_equal.
    pose proof (plain_list _ _ _ l P eq_refl) as Pl. cbn in IH. clear P.
    induction l as [|x l IHl]; [reflexivity|]. inversion IH; subst. inversion Pl; subst. cbn [map]. f_equal; auto.
  - pose proof (plain_map _ _ _ m P eq_refl) as [_ [Pk Pl]]. cbn in IH. clear P.
    assert (E : map (fun p : string * node => match p with (k, e) => (k, unescape1 quote i e) end) m = m).
    { clear Pk. induction m as [|[k x] l IHl]; [reflexivity|]. inversion IH; subst. inversion Pl; subst. cbn [map]. cbn [snd] in *.
      f_equal; [f_equal|]; auto. }
    rewrite E. unfold unescapeDynaml. cbn [val].
    assert (Ex : existsb (fun p : string * node => escapedKey (fst p)) m = false).
    { clear - Pk KQ. induction Pk as [|[k x] l Hk Hl IHl]; [reflexivity|]. cbn. rewrite IHl.
      rewrite (quiet_unescaped k (KQ k Hk)). reflexivity. }
    rewrite Ex. reflexivity.
Qed.
Lemma unescapeDoc_plain quote i n : (i = true -> interpol = true) -> plain n -> unescapeDoc quote i n = n.
Proof.
  intros Hi P. destruct n as [v an s t r]. destruct v as [|x|x|x|x|x|l|m|x| |]; try reflexivity; cbn [unescapeDoc]; do 2 f_equal.
  - pose proof (plain_list _ _ _ l P eq_refl) as Pl. clear P. induction Pl; [reflexivity|]. cbn [map].
    rewrite (unescape_plain quote i x Hi H). f_equal. assumption.
  - pose proof (plain_map _ _ _ m P eq_refl) as [_ [_ Pl]]. clear P. induction Pl as [|[k x] l H Hl IHl]; [reflexivity|]. cbn [map fst snd] in *.
    rewrite (unescape_plain quote i x Hi H). f_equal. assumption.
Qed.
End Eq.
