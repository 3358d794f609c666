(** The field trees compared by reflect.DeepEqual determine the value: lemmas
    for the fixpoint property of the merge loop. *)
From Coq Require Import Floats.SpecFloat Lia.
From Verif Require Import Core DeepEq DeepEqFacts.

Section Inj.
Context {A B : Type} (f : A -> B) (inj : forall x y, f x = f y -> x = y).
Fixpoint map_inj (l m : list A) : map f l = map f m -> l = m :=
  match l return map f l = map f m -> l = m with
  | [] => match m return map f [] = map f m -> [] = m with
          | [] => fun _ => eq_refl
          | y :: m' => fun H => match eq_ind (map f []) (fun t => match t with [] => True | _ => False end) I _ H with end
          end
  | x :: l' =>
      match m return map f (x :: l') = map f m -> x :: l' = m with
      | [] => fun H => match eq_ind (map f (x :: l')) (fun t => match t with [] => False | _ => True end) I _ H with end
      | y :: m' => fun H => f_equal2 cons
             (inj x y (f_equal (fun t => match t with [] => f x | h :: _ => h end) H))
             (map_inj l' m' (f_equal (@List.tl B) H))
      end
  end.
End Inj.

Lemma tb_inj a b : tb a = tb b -> a = b.
Proof. destruct a, b; intros H; try reflexivity; inversion H. Qed.
Lemma TS_inj a b : TS a = TS b -> a = b.
Proof. congruence. Qed.
Lemma tss_inj a b : tss a = tss b -> a = b.
Proof. unfold tss, tl. intros H. injection H. apply map_inj. apply TS_inj. Qed.
Lemma topt_inj {A} (f : A -> tree) (inj : forall x y, f x = f y -> x = y) a b : topt f a = topt f b -> a = b.
Proof. destruct a, b; cbn; intros H; try discriminate; [ injection H; intros; f_equal; auto | reflexivity]. Qed.
Lemma tctx_inj a b : tctx a = tctx b -> a = b.
Proof. destruct a, b; intros H; try reflexivity; discriminate. Qed.
Lemma Zofnat_inj a b : TZ (Z.of_nat a) = TZ (Z.of_nat b) -> a = b.
Proof. intros H. injection H. lia. Qed.
Lemma tann_inj a b : tann a = tann b -> a = b.
Proof.
  destruct a as [a1 a2 a3 a4 a5 a6 a7 a8 [a9 a10] a11 a12], b as [b1 b2 b3 b4 b5 b6 b7 b8 [b9 b10] b11 b12].
  unfold tann; cbn [a_redirect a_replace a_preferred a_merged a_keyName a_error a_failed a_undefined a_issue i_text i_orig a_tag a_flags].
  intros H. unfold tl in H.
  injection H as H1 H2 H3 H4 H5 H6 H7 H8 H9 H10 H11 H12.
  apply (topt_inj _ tss_inj) in H1, H10.
  apply N2Z.inj in H12.
  assert (Q : forall x y : bool, (if x then 1 else 0) = (if y then 1 else 0) -> x = y)
    by (intros [] [] E; try reflexivity; discriminate).
  apply Q in H2, H3, H4, H6, H7, H8. congruence.
Qed.


Definition kn_inj {A} (f : A -> tree) (inj : forall x y, f x = f y -> x = y) (p q : string * A) :
  (match p with (k, n) => TN 3 [TS k; f n] end) = (match q with (k, n) => TN 3 [TS k; f n] end) -> p = q.
Proof.
  destruct p as [k n], q as [k' n']. intros H. refine (f_equal2 pair _ (inj n n' _)); congruence.
Defined.

Definition ee_inj {A} (f : A -> tree) (inj : forall x y, f x = f y -> x = y) (p q : A * A) :
  (match p with (k, n) => TN 3 [f k; f n] end) = (match q with (k, n) => TN 3 [f k; f n] end) -> p = q.
Proof.
  destruct p as [k n], q as [k' n']. intros H. refine (f_equal2 pair (inj k k' _) (inj n n' _)); congruence.
Defined.

Definition opt_inj {A} (f : A -> tree) (inj : forall x y, f x = f y -> x = y) (p q : option A) :
  (match p with None => TN 1 [] | Some e => TN 2 [f e] end) =
  (match q with None => TN 1 [] | Some e => TN 2 [f e] end) -> p = q.
Proof.
  destruct p as [x|], q as [y|]; intros H; try discriminate; try reflexivity.
  refine (f_equal Some (inj x y _)); congruence.
Defined.

Definition par_inj {A} (f : A -> tree) (inj : forall x y, f x = f y -> x = y) (p q : string * option A) :
  (match p with (k, o) => TN 3 [TS k; match o with None => TN 1 [] | Some e => TN 2 [f e] end] end) =
  (match q with (k, o) => TN 3 [TS k; match o with None => TN 1 [] | Some e => TN 2 [f e] end] end) -> p = q.
Proof.
  destruct p as [k n], q as [k' n']. intros H.
  refine (f_equal2 pair _ (opt_inj f inj n n' _)); congruence.
Defined.

Definition optl_inj {A} (f : list A -> list tree) (inj : forall x y, f x = f y -> x = y) (p q : option (list A)) :
  (match p with None => TN 1 [] | Some e => TN 2 (f e) end) =
  (match q with None => TN 1 [] | Some e => TN 2 (f e) end) -> p = q.
Proof.
  destruct p as [x|], q as [y|]; intros H; try discriminate; try reflexivity.
  refine (f_equal Some (inj x y _)); congruence.
Defined.

Fixpoint encV_inj (a b : value) {struct a} : encV a = encV b -> a = b
with encN_inj (a b : node) {struct a} : encN a = encN b -> a = b
with encE_inj (a b : expr) {struct a} : encE a = encE b -> a = b
with encS_inj (a b : scope) {struct a} : encS a = encS b -> a = b
with encB_inj (a b : binding) {struct a} : encB a = encB b -> a = b.
Proof.
  - destruct a, b; cbn [encV]; intros H; try discriminate H.
    all: pose proof (f_equal (fun t => match t with TN _ k => k | _ => [] end) H) as K; cbn beta iota in K; clear H.
    all: f_equal.
    all: first [ apply tb_inj; congruence | congruence | idtac ].
    + exact (map_inj _ encN_inj l l0 K).
    + exact (map_inj _ (kn_inj _ encN_inj) m m0 K).
    + apply encE_inj; congruence.
    + unfold tl in K. apply (map_inj _ (par_inj _ encE_inj)). congruence.
    + apply encE_inj; congruence.
    + unfold tl in K. apply (map_inj _ (kn_inj _ encN_inj)). congruence.
    + apply encB_inj; congruence.
    + apply tss_inj; congruence.
    + apply encN_inj; congruence.
    + apply encN_inj; congruence.
    + apply encB_inj; congruence.
  - destruct a, b; cbn [encN]; intros H.
    pose proof (f_equal (fun t => match t with TN _ k => k | _ => [] end) H) as K; cbn beta iota in K; clear H.
    f_equal.
    + apply encV_inj; congruence.
    + apply tann_inj; congruence.
    + congruence.
    + apply (opt_inj _ encV_inj); congruence.
    + apply (opt_inj _ encB_inj); congruence.
  - destruct a, b; cbn [encE]; intros H; try discriminate H.
    all: pose proof (f_equal (fun t => match t with TN _ k => k | _ => [] end) H) as K; cbn beta iota in K; clear H.
    all: try (match goal with |- ?x = ?x => exact eq_refl end).
    all: unfold tl in K.
    all: f_equal.
    all: first [ solve [apply encE_inj; congruence] | solve [apply tb_inj; congruence] | solve [apply tss_inj; congruence]
               | solve [apply Zofnat_inj; congruence] | solve [apply tctx_inj; congruence]
               | solve [apply (opt_inj _ encE_inj); congruence]
               | solve [apply (map_inj _ encE_inj); congruence]
               | solve [apply (map_inj _ (ee_inj _ encE_inj)); congruence]
               | solve [apply (map_inj _ (par_inj _ encE_inj)); congruence]
               | solve [apply encV_inj; congruence]
               | congruence ].
  - destruct a, b; cbn [encS]; intros H.
    pose proof (f_equal (fun t => match t with TN _ k => k | _ => [] end) H) as K; cbn beta iota in K; clear H.
    f_equal.
    + apply (optl_inj _ (map_inj _ encN_inj)). congruence.
    + apply (optl_inj _ (map_inj _ (kn_inj _ encN_inj))). congruence.
    + apply (topt_inj _ tss_inj). congruence.
  - destruct a, b; cbn [encB]; intros H.
    pose proof (f_equal (fun t => match t with TN _ k => k | _ => [] end) H) as K; cbn beta iota in K; clear H.
    unfold tl in K.
    f_equal.
    + apply (map_inj _ encS_inj). congruence.
    + apply (topt_inj _ Zofnat_inj). congruence.
    + apply tss_inj; congruence.
    + apply tss_inj; congruence.
    + apply (map_inj _ encN_inj). congruence.
    + apply tb_inj; congruence.
    + congruence.
    + apply (map_inj _ (kn_inj _ encN_inj)). congruence.
    + apply (opt_inj _ encB_inj). congruence.
    + congruence.
    + apply tb_inj; congruence.
    + apply tb_inj; congruence.
Qed.

(** no floating point zero among the leaves *)
Fixpoint zeroFree (t : tree) : bool :=
  match t with
  | TN _ k => (fix go (l : list tree) := match l with [] => true | x :: r => zeroFree x && go r end) k
  | TF (S754_zero _) => false
  | _ => true
  end.
Lemma zeroFree_TN t k : zeroFree (TN t k) = forallb zeroFree k.
Proof. reflexivity. Qed.
Lemma tree_eqb_eq a : forall b, zeroFree a = true -> tree_eqb a b = true -> a = b.
Proof.
  induction a as [t k IH| | |] using tree_ind'; intros b Z E; destruct b as [t' k'| | |]; try discriminate E.
  - rewrite zeroFree_TN in Z. cbn [tree_eqb] in E. apply andb_prop in E as [E1 E2].
    apply Z.eqb_eq in E1. subst t'. f_equal.
    revert k' E2. induction IH as [|x k Hx _ IHk]; intros [|y k'] E2; try discriminate E2; [reflexivity|].
    cbn [forallb] in Z. apply andb_prop in Z as [Z1 Z2]. apply andb_prop in E2 as [E3 E4].
    f_equal; [apply Hx; assumption|apply IHk; assumption].
  - cbn in E. apply String.eqb_eq in E. congruence.
  - cbn in E. apply Z.eqb_eq in E. congruence.
  - cbn [tree_eqb] in E. apply feqb_spec in E. destruct E as [[u [v [-> _]]]|[-> _]]; [discriminate Z|reflexivity].
Qed.
