(** DeepEqual is a partial equivalence; reflexive away from NaN. *)
From Coq Require Import Lia Floats.SpecFloat.
From Verif Require Import Core CoreFacts DeepEq.

Lemma feqb_spec f g : feqb f g = true <->
  (exists s t, f = S754_zero s /\ g = S754_zero t) \/ (f = g /\ f <> S754_nan).
Proof.
  unfold feqb. split.
  - destruct f as [s|s| |s m e], g as [t|t| |t n k]; cbn [SFcompare]; try discriminate;
      try (destruct s; discriminate); try (destruct t; discriminate).
    + intros _. left. eauto.
    + destruct s, t; try discriminate; intros _; right; split; congruence.
    + destruct s, t; try discriminate.
      * destruct (Z.compare_spec e k) as [->| |]; cbn; try discriminate.
        destruct (Pcompare m n Eq) eqn:E; cbn; try discriminate. apply Pcompare_Eq_eq in E. subst.
        intros _. right. split; congruence.
      * destruct (Z.compare_spec e k) as [->| |]; cbn; try discriminate.
        destruct (Pcompare m n Eq) eqn:E; cbn; try discriminate. apply Pcompare_Eq_eq in E. subst.
        intros _. right. split; congruence.
  - intros [[s [t [-> ->]]]|[<- Hn]]; [reflexivity|].
    destruct f as [s|s| |s m e]; cbn [SFcompare]; try congruence; [destruct s; reflexivity|].
    destruct s; rewrite Z.compare_refl; cbn; change (Pcompare m m Eq) with (Pos.compare m m);
      rewrite Pos.compare_refl; reflexivity.
Qed.

Lemma feqb_sym f g : feqb f g = true -> feqb g f = true.
Proof.
  rewrite !feqb_spec. intros [[s [t [-> ->]]]|[-> H]]; [left; eauto|right; split; congruence].
Qed.
Lemma feqb_trans f g h : feqb f g = true -> feqb g h = true -> feqb f h = true.
Proof.
  rewrite !feqb_spec.
  intros [[s [t [-> ->]]]|[-> H]] [[s' [t' [E ->]]]|[<- H']]; eauto.
Qed.

Section TreeInd.
Variable P : tree -> Prop.
Hypothesis HN : forall t k, Forall P k -> P (TN t k).
Hypothesis HS : forall s, P (TS s).
Hypothesis HZ : forall z, P (TZ z).
Hypothesis HF : forall f, P (TF f).
Fixpoint tree_ind' (t : tree) : P t :=
  match t with
  | TN s k => HN s k ((fix go (k : list tree) : Forall P k :=
                         match k with
                         | [] => Forall_nil P
                         | x :: r => Forall_cons x (tree_ind' x) (go r)
                         end) k)
  | TS s => HS s
  | TZ z => HZ z
  | TF f => HF f
  end.
End TreeInd.

Definition trees_eqb (k l : list tree) : bool :=
  (fix go (k l : list tree) : bool :=
     match k, l with
     | [], [] => true
     | x :: k', y :: l' => tree_eqb x y && go k' l'
     | _, _ => false
     end) k l.

Lemma tree_eqb_sym a b : tree_eqb a b = true -> tree_eqb b a = true.
Proof.
  revert b. induction a as [t k IH|s|z|f] using tree_ind'; intros [u l|s'|z'|f']; cbn [tree_eqb]; try discriminate.
  - rewrite !andb_true_iff, !Z.eqb_eq. intros [-> H]. split; [reflexivity|].
    revert l H. induction IH as [|x k Hx _ IHk]; intros [|y l]; try discriminate; [reflexivity|].
    rewrite !andb_true_iff. intros [H1 H2]. split; auto.
  - rewrite !String.eqb_eq. congruence.
  - rewrite !Z.eqb_eq. congruence.
  - apply feqb_sym.
Qed.

Lemma tree_eqb_trans a b c : tree_eqb a b = true -> tree_eqb b c = true -> tree_eqb a c = true.
Proof.
  revert b c. induction a as [t k IH|s|z|f] using tree_ind';
    intros [u l|s'|z'|f'] [w m|s''|z''|f'']; cbn [tree_eqb]; try discriminate.
  - rewrite !andb_true_iff, !Z.eqb_eq. intros [-> H] [-> H']. split; [reflexivity|].
    revert l m H H'. induction IH as [|x k Hx _ IHk]; intros [|y l] [|z m]; try discriminate; [reflexivity|].
    rewrite !andb_true_iff. intros [H1 H2] [H3 H4]. split; eauto.
  - rewrite !String.eqb_eq. congruence.
  - rewrite !Z.eqb_eq. congruence.
  - apply feqb_trans.
Qed.

(** no NaN anywhere *)
Fixpoint nonan (t : tree) : bool :=
  match t with
  | TN _ k => (fix go (k : list tree) := match k with [] => true | x :: r => nonan x && go r end) k
  | TF S754_nan => false
  | _ => true
  end.

Lemma nonan_TN t k : nonan (TN t k) = forallb nonan k.
Proof. cbn [nonan]. induction k as [|x r IH]; [reflexivity|]. cbn [forallb]. rewrite IH. reflexivity. Qed.

Lemma tree_eqb_refl a : nonan a = true -> tree_eqb a a = true.
Proof.
  induction a as [t k IH|s|z|f] using tree_ind'; intro H; cbn [tree_eqb].
  - rewrite Z.eqb_refl. cbn [andb]. rewrite nonan_TN in H.
    induction IH as [|x k Hx _ IHk]; [reflexivity|]. cbn [forallb] in H.
    apply andb_true_iff in H. destruct H as [H1 H2]. rewrite (Hx H1). cbn [andb]. auto.
  - apply String.eqb_refl.
  - apply Z.eqb_refl.
  - apply feqb_spec. right. split; [reflexivity|]. intros ->. discriminate H.
Qed.
