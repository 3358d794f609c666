(** C18 (== and !=) and C19 (ordering comparisons). *)
From Coq Require Import Lia Floats.SpecFloat.
From Verif Require Import Core CoreFacts Str StrFacts DecSpec DeepEq DeepEqFacts Equiv EquivFacts PropNode Comparison.

(* ------------------------------------------------------------------ *)
(** * Specification *)

(** [s] is the word [w] (given in lower case) with any capitalization *)
Definition spelled (s w : string) : Prop :=
  Forall2 (fun c d => c = d \/ (97 <= bytev d <= 122 /\ bytev c = bytev d - 32)) (chars s) (chars w).
Definition bool_word (s : string) (b : bool) : Prop :=
  exists w, In w (if b then ["1"; "t"; "true"] else ["0"; "f"; "false"]) /\ spelled s w.

(** decimal digits with an optional sign *)
Definition signed_literal (s : string) (z : Z) : Prop :=
  literal s z \/ exists r, s = String "+" r /\ decimal r z.

(** what the right operand must look like to be equal to the left one *)
Inductive equal_to : value -> value -> Prop :=
| EQ_nil : equal_to VNil VNil
| EQ_str s : equal_to (VStr s) (VStr s)
| EQ_str_int z : equal_to (VStr (itoa z)) (VInt z)           (* canonical decimal text *)
| EQ_str_bool (b : bool) : equal_to (VStr (if b then "true" else "false")) (VBool b)
| EQ_int z : equal_to (VInt z) (VInt z)
| EQ_int_str z s : signed_literal s z -> in64 z -> equal_to (VInt z) (VStr s)   (* any decimal text *)
| EQ_int_bool (b : bool) : equal_to (VInt (if b then 1 else 0)) (VBool b)
| EQ_bool b : equal_to (VBool b) (VBool b)
| EQ_bool_str b s : bool_word s b -> equal_to (VBool b) (VStr s)
| EQ_list l l' : Forall2 (fun x y => equal_to (val x) (val y)) l l' -> equal_to (VList l) (VList l')
| EQ_map m m' :
    (forall k, In k (mkeys m) <-> In k (mkeys m')) ->
    (forall k x y, In (k, x) m -> In (k, y) m' -> equal_to (val x) (val y)) ->
    equal_to (VMap m) (VMap m').

(** both values have the same type, at every position that exists in both, and
    no position holds a float *)
Inductive alike : value -> value -> Prop :=
| AL_nil : alike VNil VNil
| AL_bool x y : alike (VBool x) (VBool y)
| AL_int x y : alike (VInt x) (VInt y)
| AL_str x y : alike (VStr x) (VStr y)
| AL_list l l' : (forall i x y, nth_error l i = Some x -> nth_error l' i = Some y -> alike (val x) (val y)) ->
    alike (VList l) (VList l')
| AL_map m m' : (forall k x y, In (k, x) m -> In (k, y) m' -> alike (val x) (val y)) ->
    alike (VMap m) (VMap m').

(* ------------------------------------------------------------------ *)
(** * Lemmas *)

Lemma lower_upper c d : 97 <= bytev d <= 122 -> bytev c = bytev d - 32 -> lowerC c = d.
Proof.
  intros H E. unfold lowerC. rewrite E.
  replace (65 <=? bytev d - 32) with true by (symmetry; apply Z.leb_le; lia).
  replace (bytev d - 32 <=? 90) with true by (symmetry; apply Z.leb_le; lia). cbn [andb].
  replace (bytev d - 32 + 32) with (bytev d) by lia.
  unfold byteof, bytev. rewrite N2Z.id. apply ascii_N_embedding.
Qed.
Lemma bytev_byteof z : 0 <= z < 256 -> bytev (byteof z) = z.
Proof. intro H. unfold bytev, byteof. rewrite N_ascii_embedding by lia. lia. Qed.
Lemma bytev_range c : 0 <= bytev c < 256.
Proof. unfold bytev. pose proof (N_ascii_bounded c). lia. Qed.
Lemma lowerC_spec c d : (97 <= bytev d <= 122 \/ 48 <= bytev d <= 57) ->
  (lowerC c = d <-> c = d \/ (97 <= bytev d <= 122 /\ bytev c = bytev d - 32)).
Proof.
  intro H. split.
  - unfold lowerC. destruct ((65 <=? bytev c) && (bytev c <=? 90)) eqn:E; [|auto].
    intros <-. rewrite andb_true_iff, !Z.leb_le in E. right. rewrite bytev_byteof by lia. lia.
  - intros [->|[H1 H2]]; [|apply lower_upper; auto].
    unfold lowerC. destruct ((65 <=? bytev d) && (bytev d <=? 90)) eqn:E; [|auto].
    rewrite andb_true_iff, !Z.leb_le in E. lia.
Qed.
Lemma lowerS_spec s w : Forall (fun d => 97 <= bytev d <= 122 \/ 48 <= bytev d <= 57) (chars w) ->
  (lowerS s = w <-> spelled s w).
Proof.
  revert w. induction s as [|c s IH]; intros [|d w] F.
  - split; [constructor|reflexivity].
  - split; [discriminate|intro X; inversion X].
  - split; [discriminate|intro X; inversion X].
  - inversion F as [|? ? Hd Fw]; subst. cbn [lowerS]. unfold spelled. cbn [chars list_ascii_of_string]. split.
    + intro E. injection E as E1 E2. constructor; [apply lowerC_spec; assumption|apply IH; assumption].
    + intro X. inversion X as [|? ? ? ? X1 X2]; subst. f_equal; [apply lowerC_spec; assumption|apply IH; assumption].
Qed.

Lemma lowerS_no_upper s c : In c (chars (lowerS s)) -> ~ (65 <= bytev c <= 90).
Proof.
  induction s as [|d s IH]; cbn; [tauto|]. intros [<-|H]; [|auto].
  unfold lowerC. destruct ((65 <=? bytev d) && (bytev d <=? 90)) eqn:E.
  - rewrite andb_true_iff, !Z.leb_le in E. rewrite bytev_byteof by lia. lia.
  - rewrite andb_false_iff, !Z.leb_gt in E. lia.
Qed.

Lemma parseBool_word s b : parseBool (lowerS s) = Some b <-> bool_word s b.
Proof.
  assert (N : forall u c, In c (chars u) -> 65 <= bytev c <= 90 -> String.eqb (lowerS s) u = false).
  { intros u c Hc Hr. apply eqb_false_neq. intros E. rewrite <- E in Hc. apply (lowerS_no_upper _ _ Hc). exact Hr. }
  assert (W : forall w, In w ["1"; "t"; "true"; "0"; "f"; "false"] -> (lowerS s = w <-> spelled s w)).
  { intros w Hw. apply lowerS_spec.
    repeat destruct Hw as [<-|Hw]; try destruct Hw; repeat (apply Forall_cons || apply Forall_nil);
      first [left; split; vm_compute; congruence|right; split; vm_compute; congruence]. }
  unfold parseBool. cbn [existsb].
  rewrite (N "T" "T"%char), (N "TRUE" "T"%char), (N "True" "T"%char),
          (N "F" "F"%char), (N "FALSE" "F"%char), (N "False" "F"%char)
    by ((cbn; tauto) || (vm_compute; split; congruence)).
  rewrite ?orb_false_l, ?orb_false_r.
  assert (B : forall w, String.eqb (lowerS s) w = true <-> lowerS s = w) by (intro; apply String.eqb_eq).
  destruct ((lowerS s =? "1") || ((lowerS s =? "t") || (lowerS s =? "true")))%string eqn:E1.
  - rewrite !orb_true_iff, !B in E1. split.
    + intro H. injection H as <-. destruct E1 as [E|[E|E]]; rewrite W in E by (cbn; tauto); eexists; (split; [|exact E]); cbn; tauto.
    + intros [w [Hw Sw]]. destruct b; [reflexivity|]. exfalso.
      rewrite <- W in Sw by (cbn in Hw |- *; tauto). rewrite Sw in E1. cbn in Hw.
      repeat destruct Hw as [<-|Hw]; [..|destruct Hw]; destruct E1 as [E|[E|E]]; discriminate.
  - rewrite !orb_false_iff in E1. destruct E1 as [E1 [E2 E3]].
    destruct ((lowerS s =? "0") || ((lowerS s =? "f") || (lowerS s =? "false")))%string eqn:E4.
    + rewrite !orb_true_iff, !B in E4. split.
      * intro H. injection H as <-. destruct E4 as [E|[E|E]]; rewrite W in E by (cbn; tauto); eexists; (split; [|exact E]); cbn; tauto.
      * intros [w [Hw Sw]]. destruct b; [|reflexivity]. exfalso.
        rewrite <- W in Sw by (cbn in Hw |- *; tauto). rewrite Sw in E4. cbn in Hw.
        repeat destruct Hw as [<-|Hw]; [..|destruct Hw]; destruct E4 as [E|[E|E]]; discriminate.
    + split; [discriminate|]. intros [w [Hw Sw]]. exfalso.
      rewrite !orb_false_iff in E4. destruct E4 as [E4 [E5 E6]].
      rewrite <- W in Sw by (destruct b; cbn in Hw |- *; tauto). rewrite Sw in *.
      destruct b; cbn in Hw; repeat destruct Hw as [<-|Hw]; try destruct Hw; discriminate.
Qed.

Lemma parseInt_literal s z : parseInt s = Some z <-> signed_literal s z /\ in64 z.
Proof.
  unfold signed_literal. rewrite <- parse_literal. rewrite <- in64b_spec.
  assert (E : parseInt s = match (match s with String "+" r => parseNat r | String "-" p => option_map Z.opp (parseNat p) | _ => parseNat s end)
              with Some v => if in64b v then Some v else None | None => None end).
  { unfold parseInt. destruct s as [|[[] [] [] [] [] [] [] []] r]; reflexivity. }
  rewrite E. clear E.
  assert (N : forall r, parseNat (String "+" r) = None).
  { intro r. destruct (parseNat (String "+" r)) as [y|] eqn:Ey; [|reflexivity]. apply parseNat_decimal in Ey.
    destruct (decimal_head _ _ Ey) as [c [d [r' [E D]]]]. inversion E; subst. inversion D. }
  assert (Q : (match s with String "+" r => parseNat r | String "-" p => option_map Z.opp (parseNat p) | _ => parseNat s end = Some z)
      <-> (match s with String "-" p => option_map Z.opp (parseNat p) | _ => parseNat s end = Some z \/
           exists r, s = String "+" r /\ decimal r z)).
  { destruct s as [|c r].
    - split; [auto|]. intros [H|[r [H _]]]; [exact H|discriminate].
    - destruct (ascii_dec c "+") as [->|Hc].
      + rewrite N, parseNat_decimal. split; [eauto|]. intros [H|[r' [H D]]]; [discriminate|]. injection H as <-. exact D.
      + assert (E : forall X Y Z : option Z, match String c r with String "+" r => X | String "-" p => Y | _ => Z end =
                                 match String c r with String "-" p => Y | _ => Z end).
        { intros. destruct c as [[] [] [] [] [] [] [] []]; try reflexivity. congruence. }
        replace (match String c r with String "+" r => parseNat r | String "-" p => option_map Z.opp (parseNat p) | _ => parseNat (String c r) end)
          with (match String c r with String "-" p => option_map Z.opp (parseNat p) | _ => parseNat (String c r) end).
        2: { destruct c as [[] [] [] [] [] [] [] []]; try reflexivity. congruence. }
        split; [auto|]. intros [H|[r' [H _]]]; [exact H|]. injection H as -> _. congruence. }
  rewrite <- Q.
  destruct (match s with String "+" r => parseNat r | String "-" p => option_map Z.opp (parseNat p) | _ => parseNat s end) as [v|].
  - destruct (in64b v) eqn:Ev; split; try congruence.
    + intro H. injection H as <-. auto.
    + tauto.
    + intros [H1 H2]. congruence.
  - split; [discriminate|]. tauto.
Qed.

Section C.
Variable lt : value -> string.
Notation cmp := (compareEquals lt).
Notation eqv := (fun x y : node => fst (cmp (val x) (val y)) = true).

Lemma cmp_list l l' : fst (cmp (VList l) (VList l')) = true <-> Forall2 eqv l l'.
Proof.
  cbn [compareEquals fst]. destruct (Nat.eqb (length l) (length l')) eqn:E; cbn [negb].
  - apply Nat.eqb_eq in E. revert l' E. induction l as [|x r IH]; intros [|[w a s t q] s'] E; try discriminate.
    + split; [constructor|reflexivity].
    + injection E as E. rewrite andb_true_iff, IH by exact E.
      split; [intros [H1 H2]; constructor; auto|intro H; inversion H; auto].
  - split; [discriminate|]. intro H. apply Forall2_len in H. apply Nat.eqb_neq in E. contradiction.
Qed.
Lemma cmp_map_raw m m' : fst (cmp (VMap m) (VMap m')) = true <->
  length m = length m' /\ forall k y, In (k, y) m' -> exists x, mget k m = Some x /\ eqv x y.
Proof.
  cbn [compareEquals fst]. destruct (Nat.eqb (length m) (length m')) eqn:E; cbn [negb].
  - apply Nat.eqb_eq in E.
    assert (X : forall P Q : Prop, (P <-> Q) -> (P <-> length m = length m' /\ Q)) by tauto.
    apply X. clear X E. induction m' as [|[k [w a s t q]] r IH]; [split; [intros _ ? ? []|reflexivity]|].
    rewrite andb_true_iff, IH. split.
    + intros [H1 H2] k' y [H|H]; [injection H as <- <-|eauto].
      destruct (mget k m) as [x|]; [|discriminate]. exists x. auto.
    + intro H. split; [|intros; apply H; right; assumption].
      destruct (H k _ (or_introl eq_refl)) as [x [-> Hx]]. exact Hx.
  - apply Nat.eqb_neq in E. split; [discriminate|]. intros [H _]. contradiction.
Qed.
Lemma cmp_map m m' : msorted m -> msorted m' ->
  (fst (cmp (VMap m) (VMap m')) = true <->
   (forall k, In k (mkeys m) <-> In k (mkeys m')) /\ forall k x y, In (k, x) m -> In (k, y) m' -> eqv x y).
Proof.
  intros Sm Sm'. rewrite cmp_map_raw. split.
  - intros [L H].
    assert (I1 : forall k, In k (mkeys m') -> In k (mkeys m)).
    { intros k Hk. apply key_mget in Hk. destruct Hk as [y Hy]. apply mget_In in Hy.
      destruct (H _ _ Hy) as [x [Hx _]]. apply mget_Some_key in Hx. exact Hx. }
    split.
    + intro k. split; [|apply I1]. apply (keys_incl_length m' m); auto.
    + intros k x y Hx Hy. destruct (H _ _ Hy) as [x' [Hx' E]].
      rewrite (In_mget _ _ _ (msorted_NoDup _ Sm) Hx) in Hx'. injection Hx' as <-. exact E.
  - intros [K H]. split.
    + assert (NM := msorted_NoDup _ Sm). assert (NM' := msorted_NoDup _ Sm').
      pose proof (NoDup_incl_length NM (fun k h => proj1 (K k) h)) as A.
      pose proof (NoDup_incl_length NM' (fun k h => proj2 (K k) h)) as B.
      unfold mkeys in A, B. rewrite !map_length in A, B. lia.
    + intros k y Hy. destruct (key_mget k m) as [x Hx].
      { apply K. apply in_map_iff. exists (k, y). auto. }
      exists x. split; [exact Hx|]. apply mget_In in Hx. eauto.
Qed.

(** whether [a == b] reports an error *)
Lemma cmp_ok a b : snd (cmp a b) =
  match a, b with
  | VNil, VNil => true
  | VNil, _ | _, VNil => false
  | VStr _, (VStr _ | VInt _ | VBool _ | VLambda _ _ _ _ _) => true
  | VStr _, _ => false
  | _, _ => true
  end.
Proof.
  destruct a, b; try reflexivity; cbn [compareEquals cmpScalar isComparable andb];
    try (destruct (parseInt s)); try (destruct (parseBool (lowerS s))); reflexivity.
Qed.

Lemma cmp_equal a b : wfN a -> wfN b -> plainV (val a) -> plainV (val b) ->
  (eqv a b <-> equal_to (val a) (val b)).
Proof.
  revert b. induction a as [v an s t r IH] using node_indT. intros [w an' s' t' r'] Wa Wb Pa Pb.
  apply wfN_val in Wa. apply wfN_val in Wb. cbn [val] in *.
  destruct Pa as [|x|x|x|x|x|l Fa|m Fa], Pb as [|y|y|y|y|y|l' Fb|m' Fb];
    try (split; intro X; [cbn in X; discriminate X|inversion X]; fail).
  - split; [intros _; constructor|reflexivity].
  - cbn. split; intro H; [apply eqb_prop in H; subst; constructor|inversion H; subst; apply eqb_reflx].
  - cbn [compareEquals cmpScalar]. destruct (parseBool (lowerS y)) as [b|] eqn:E; cbn [fst].
    + rewrite Bool.eqb_true_iff. split.
      * intros ->. constructor. apply parseBool_word. exact E.
      * intro H. inversion H as [| | | | | | | |? ? Hw| |]; subst. apply parseBool_word in Hw. congruence.
    + split; [discriminate|]. intro H. inversion H as [| | | | | | | |? ? Hw| |]; subst.
      apply parseBool_word in Hw. congruence.
  - cbn [compareEquals cmpScalar fst]. rewrite Z.eqb_eq. split; [intros ->; constructor|intro H; inversion H; reflexivity].
  - cbn [compareEquals cmpScalar fst]. rewrite Z.eqb_eq. split; [intros ->; constructor|intro H; inversion H; reflexivity].
  - cbn [compareEquals cmpScalar]. destruct (parseInt y) as [z|] eqn:E; cbn [fst].
    + rewrite Z.eqb_eq. apply parseInt_literal in E. split.
      * intros ->. constructor; tauto.
      * intro H. inversion H as [| | | | |? ? Hl Hr| | | | |]; subst.
        pose proof (proj2 (parseInt_literal _ _) (conj Hl Hr)) as P1.
        pose proof (proj2 (parseInt_literal _ _) E) as P2. congruence.
    + split; [discriminate|]. intro H. inversion H as [| | | | |? ? Hl Hr| | | | |]; subst.
      pose proof (proj2 (parseInt_literal _ _) (conj Hl Hr)) as P1. congruence.
  - cbn [compareEquals cmpScalar fst]. rewrite String.eqb_eq. split; [intros ->; apply EQ_str_bool|intro H; inversion H; reflexivity].
  - cbn [compareEquals cmpScalar fst]. rewrite String.eqb_eq. split; [intros ->; constructor|intro H; inversion H; reflexivity].
  - cbn [compareEquals cmpScalar fst]. rewrite String.eqb_eq. split; [intros ->; constructor|intro H; inversion H; reflexivity].
  - rewrite cmp_list. apply wf_list in Wa. apply wf_list in Wb. cbn [node_subT] in IH. split.
    + intro H. constructor. induction H as [|x y l l' Hxy _ IHl]; constructor;
        inversion IH; inversion Wa; inversion Wb; inversion Fa; inversion Fb; subst; auto.
      apply H1; auto.
    + intro H. inversion H as [| | | | | | | | |? ? H'|]; subst. clear H.
      induction H' as [|x y l l' Hxy _ IHl]; constructor;
        inversion IH; inversion Wa; inversion Wb; inversion Fa; inversion Fb; subst; auto.
      apply H1; auto.
  - apply wf_map in Wa. apply wf_map in Wb. destruct Wa as [Sa Wa], Wb as [Sb Wb].
    rewrite cmp_map by assumption. cbn [node_subT] in IH. rewrite Forall_forall in *. split.
    + intros [K H]. constructor; [exact K|]. intros k x y Hx Hy.
      apply (IH _ Hx); [apply (Wa _ Hx)|apply (Wb _ Hy)|apply (Fa _ Hx)|apply (Fb _ Hy)|]. apply (H _ _ _ Hx Hy).
    + intro H. inversion H as [| | | | | | | | | |? ? K H2]; subst. split; [exact K|].
      intros k x y Hx Hy. apply (IH _ Hx); [apply (Wa _ Hx)|apply (Wb _ Hy)|apply (Fa _ Hx)|apply (Fb _ Hy)|]. apply (H2 k); assumption.
Qed.

(* ------------------------------------------------------------------ *)
(** * C18 *)
Notation "a == b" := (op_cmp lt "==" a b) (at level 70).
Notation "a != b" := (op_cmp lt "!=" a b) (at level 70).

Lemma op_eq a b r : (a == b) = Some (VBool r) <-> snd (cmp a b) = true /\ fst (cmp a b) = r.
Proof.
  unfold op_cmp. cbn [String.eqb Ascii.eqb Bool.eqb]. destruct (cmp a b) as [x [|]]; cbn.
  - split; [intro H; injection H as <-; auto|intros [_ ->]; reflexivity].
  - split; [discriminate|intros [? _]; discriminate].
Qed.
Lemma cmp_true_ok a b : fst (cmp a b) = true -> snd (cmp a b) = true.
Proof.
  rewrite cmp_ok. destruct a, b; auto; cbn; congruence.
Qed.

Lemma wfV_N v : wfV v <-> wfN (mkNode v emptyAnn "" None None).
Proof. reflexivity. Qed.

(** C18: on plain values [a == b] is true exactly for the pairs of [equal_to] *)
Theorem C18_equals : forall a b, wfV a -> wfV b -> plainV a -> plainV b ->
  ((a == b) = Some (VBool true) <-> equal_to a b).
Proof.
  intros a b Wa Wb Pa Pb.
  rewrite <- (cmp_equal (mkNode a emptyAnn "" None None) (mkNode b emptyAnn "" None None)) by assumption.
  cbn [val]. rewrite op_eq. split; [tauto|]. intro H. split; [apply cmp_true_ok|]; exact H.
Qed.

(** C18: [==] fails exactly when one operand is nil and the other is not, or a
    text is compared with a float, list, map or another non-scalar value *)
Theorem C18_error : forall a b, plainV a -> plainV b ->
  ((a == b) = None <->
   (a = VNil /\ b <> VNil) \/ (a <> VNil /\ b = VNil) \/
   (exists s, a = VStr s) /\ (forall s, b <> VStr s) /\ (forall z, b <> VInt z) /\ (forall x, b <> VBool x)).
Proof.
  intros a b Pa Pb. transitivity (snd (cmp a b) = false).
  { unfold op_cmp. cbn [String.eqb Ascii.eqb Bool.eqb]. destruct (cmp a b) as [x [|]]; cbn; split; congruence. }
  rewrite cmp_ok.
  destruct Pa, Pb; (split; intro X; [try discriminate X|try reflexivity]);
    try (left; split; [reflexivity|discriminate]); try (right; left; split; [discriminate|reflexivity]);
    try (right; right; repeat split; try discriminate; eauto; fail);
    try (exfalso; destruct X as [[A B]|[[A B]|[[q Q] [A [B C]]]]]; try congruence;
         try (eapply A; reflexivity); try (eapply B; reflexivity); try (eapply C; reflexivity); fail).
Qed.

(** C18: [!=] is the negation of [==] and fails on the same operands *)
Theorem C18_not : forall a b,
  ((a != b) = Some (VBool true) <-> (a == b) = Some (VBool false)) /\
  ((a != b) = Some (VBool false) <-> (a == b) = Some (VBool true)) /\
  ((a != b) = None <-> (a == b) = None).
Proof.
  intros a b. unfold op_cmp. cbn [String.eqb Ascii.eqb Bool.eqb].
  destruct (cmp a b) as [[|] [|]]; cbn; repeat split; congruence.
Qed.

(** C18: reflexive on data without floats (at any depth) *)
Inductive datum : value -> Prop :=
| DT_nil : datum VNil
| DT_bool x : datum (VBool x)
| DT_int x : datum (VInt x)
| DT_str x : datum (VStr x)
| DT_list l : Forall (fun n => datum (val n)) l -> datum (VList l)
| DT_map m : Forall (fun kv => datum (val (snd kv))) m -> datum (VMap m).

Theorem C18_reflexive : forall v, wfV v -> datum v -> (v == v) = Some (VBool true).
Proof.
  intros v W D. rewrite op_eq.
  assert (E : fst (cmp v v) = true); [|split; [apply cmp_true_ok|]; exact E].
  change v with (val (mkNode v emptyAnn "" None None)) in D |- *. rewrite wfV_N in W. revert D W.
  generalize (mkNode v emptyAnn "" None None). intro n.
  induction n as [w an s t r IH] using node_indT. intros D W. apply wfN_val in W. cbn [val] in *.
  destruct D as [|x|x|x|l F|m F].
  - reflexivity.
  - cbn. apply eqb_reflx.
  - cbn. apply Z.eqb_refl.
  - cbn. apply String.eqb_refl.
  - apply cmp_list. apply wf_list in W. cbn [node_subT] in IH. induction l as [|y l IHl]; constructor;
      inversion IH; inversion W; inversion F; subst; auto.
  - apply wf_map in W. destruct W as [S W]. cbn [node_subT] in IH. rewrite Forall_forall in *.
    apply cmp_map; auto. split; [tauto|]. intros k x y Hx Hy.
    pose proof (In_mget _ _ _ (msorted_NoDup _ S) Hx) as G1.
    pose proof (In_mget _ _ _ (msorted_NoDup _ S) Hy) as G2.
    assert (x = y) by congruence. subst y. exact (IH _ Hx (F _ Hx) (W _ Hx)).
Qed.

(** C18: between values of the same types [==] is structural equality *)
Lemma alike_same a b : wfN a -> wfN b -> alike (val a) (val b) ->
  (eqv a b <-> same_data (val a) (val b)).
Proof.
  revert b. induction a as [v an s t r IH] using node_indT. intros [w an' s' t' r'] Wa Wb A.
  apply wfN_val in Wa. apply wfN_val in Wb. cbn [val] in *.
  destruct A as [|x y|x y|x y|l l' A|m m' A].
  - split; [constructor|reflexivity].
  - cbn. split; intro H; [apply eqb_prop in H; subst; constructor|inversion H; subst; apply eqb_reflx].
  - cbn. rewrite Z.eqb_eq. split; [intros ->; constructor|intro H; inversion H; reflexivity].
  - cbn. rewrite String.eqb_eq. split; [intros ->; constructor|intro H; inversion H; reflexivity].
  - rewrite cmp_list. apply wf_list in Wa. apply wf_list in Wb. cbn [node_subT] in IH.
    transitivity (Forall2 (fun x y => same_data (val x) (val y)) l l').
    2: { split; [constructor; assumption|intro H; inversion H; assumption]. }
    revert l' Wb A. induction l as [|x l IHl]; intros [|y l'] Wb A.
    + split; constructor.
    + split; intro H; inversion H.
    + split; intro H; inversion H.
    + inversion IH as [|? ? I1 I2]; inversion Wa as [|? ? W1 W2]; inversion Wb as [|? ? V1 V2]; subst.
      pose proof (I1 y W1 V1 (A 0%nat x y eq_refl eq_refl)) as K.
      assert (R : forall i x y, nth_error l i = Some x -> nth_error l' i = Some y -> alike (val x) (val y))
        by (intros i; apply (A (S i))).
      pose proof (IHl I2 W2 l' V2 R) as K2.
      split; intro H; inversion H; subst; constructor; tauto.
  - apply wf_map in Wa. apply wf_map in Wb. destruct Wa as [Sa Wa], Wb as [Sb Wb].
    rewrite cmp_map by assumption. cbn [node_subT] in IH. rewrite Forall_forall in *. split.
    + intros [K H]. constructor; [exact K|]. intros k x y Hx Hy.
      apply (IH _ Hx); [apply (Wa _ Hx)|apply (Wb _ Hy)|exact (A _ _ _ Hx Hy)|]. apply (H _ _ _ Hx Hy).
    + intro H. inversion H as [| | | | | | |? ? K H2]; subst. split; [exact K|].
      intros k x y Hx Hy. apply (IH _ Hx); [apply (Wa _ Hx)|apply (Wb _ Hy)|exact (A _ _ _ Hx Hy)|]. apply (H2 k); assumption.
Qed.
Theorem C18_structural : forall a b, wfV a -> wfV b -> alike a b ->
  ((a == b) = Some (VBool true) <-> same_data a b) /\
  ((a == b) = Some (VBool false) <-> ~ same_data a b).
Proof.
  intros a b Wa Wb A.
  pose proof (alike_same (mkNode a emptyAnn "" None None) (mkNode b emptyAnn "" None None) Wa Wb A) as H.
  cbn [val] in H. rewrite !op_eq.
  assert (O : snd (cmp a b) = true) by (rewrite cmp_ok; destruct A; reflexivity).
  rewrite <- H, O. destruct (fst (cmp a b)); intuition congruence.
Qed.

(** C18: symmetric between values of the same types.  In general it is not: see
    [C18_symmetric_refuted]. *)
Lemma alike_sym a : wfN a -> forall b, wfN b -> alike (val a) (val b) -> alike (val b) (val a).
Proof.
  induction a as [v an s t r IH] using node_indT. intros Wa [w an' s' t' r'] Wb A.
  apply wfN_val in Wa. apply wfN_val in Wb. cbn [val] in *.
  destruct A as [|x y|x y|x y|l l' A|m m' A]; try constructor.
  - intros i x y Hx Hy. apply wf_list in Wa. apply wf_list in Wb. cbn [node_subT] in IH.
    rewrite Forall_forall in *. pose proof (nth_error_In _ _ Hx). pose proof (nth_error_In _ _ Hy).
    apply IH; eauto.
  - intros k x y Hx Hy. apply wf_map in Wa. apply wf_map in Wb. cbn [node_subT] in IH.
    destruct Wa as [_ Wa], Wb as [_ Wb]. rewrite Forall_forall in *.
    apply (IH _ Hy); [apply (Wa _ Hy)|apply (Wb _ Hx)|]. exact (A _ _ _ Hy Hx).
Qed.
Lemma same_data_sym a : wfN a -> forall b, wfN b -> same_data (val a) (val b) -> same_data (val b) (val a).
Proof.
  induction a as [v an s t r IH] using node_indT. intros Wa [w an' s' t' r'] Wb A.
  apply wfN_val in Wa. apply wfN_val in Wb. cbn [val] in *.
  destruct A as [|x|x|x|x y E|x|l l' F|m m' K A]; try constructor.
  - apply feqb_cmp. apply feqb_sym. apply feqb_cmp. exact E.
  - apply wf_list in Wa. apply wf_list in Wb. cbn [node_subT] in IH.
    induction F as [|x y l l' H1 _ IHF]; constructor; inversion IH; inversion Wa; inversion Wb; subst; auto.
  - intro k. symmetry. apply K.
  - intros k x y Hx Hy. apply wf_map in Wa. apply wf_map in Wb. cbn [node_subT] in IH.
    destruct Wa as [_ Wa], Wb as [_ Wb]. rewrite Forall_forall in *.
    apply (IH _ Hy); [apply (Wa _ Hy)|apply (Wb _ Hx)|]. eauto.
Qed.
Theorem C18_symmetric_partial : forall a b, wfV a -> wfV b -> alike a b -> (a == b) = (b == a).
Proof.
  intros a b Wa Wb A.
  set (na := mkNode a emptyAnn "" None None). set (nb := mkNode b emptyAnn "" None None).
  assert (A' : alike b a) by (apply (alike_sym na Wa nb Wb A)).
  destruct (C18_structural a b Wa Wb A) as [H1 H2]. destruct (C18_structural b a Wb Wa A') as [H3 H4].
  assert (S1 : same_data a b <-> same_data b a).
  { split; [apply (same_data_sym na Wa nb Wb)|apply (same_data_sym nb Wb na Wa)]. }
  assert (O : snd (cmp a b) = true) by (rewrite cmp_ok; destruct A; reflexivity).
  assert (E : exists r, (a == b) = Some (VBool r)) by (exists (fst (cmp a b)); apply op_eq; auto).
  destruct E as [[|] E]; rewrite E; symmetry; [apply H3|apply H4]; tauto.
Qed.
Theorem C18_symmetric_refuted :
  (VInt 1 == VStr "01") = Some (VBool true) /\ (VStr "01" == VInt 1) = Some (VBool false) /\
  (VInt 1 == VBool true) = Some (VBool true) /\ (VBool true == VInt 1) = Some (VBool false).
Proof. repeat split. Qed.
(** not transitive either, and no float equals itself *)
Theorem C18_transitive_refuted :
  (VStr "1" == VInt 1) = Some (VBool true) /\ (VInt 1 == VBool true) = Some (VBool true) /\
  (VStr "1" == VBool true) = Some (VBool false).
Proof. repeat split. Qed.
Theorem C18_float_refuted : forall f g, (VFloat f == VFloat g) = Some (VBool false).
Proof. reflexivity. Qed.

(** non-vacuity *)
Example C18_case_alike :
  let a := VMap (mof [("a", newNode (VInt 1) ""); ("l", newNode (VList [newNode (VStr "x") ""; newNode VNil ""]) "")]) in
  wfV a /\ datum a /\ alike a a /\ plainV a.
Proof.
  cbn. assert (W : forall k, k = "l" \/ False -> String.compare "a" k = Lt) by (intros k [->|[]]; reflexivity).
  repeat split; auto.
  - intros k' [<-|[]]. reflexivity.
  - intros k' [].
  - repeat constructor.
  - constructor. intros k x y [H|[H|[]]] [H'|[H'|[]]]; injection H as <- <-; try discriminate H'; injection H' as <-.
    + constructor.
    + constructor. intros [|[|i]] x y Hx Hy; cbn in *; try (destruct i; discriminate);
        injection Hx as <-; injection Hy as <-; constructor.
  - repeat constructor.
Qed.
Example C18_case_bool : (VBool true == VStr "TrUe") = Some (VBool true) /\ (VInt (-5) == VStr "-005") = Some (VBool true).
Proof. split; reflexivity. Qed.

(* ------------------------------------------------------------------ *)
(** * C19 *)
(** strings are ordered bytewise: the shorter is smaller when it is a prefix,
    otherwise the first differing byte decides *)
Definition str_before (s t : string) : Prop :=
  exists p, (exists c r, s = p /\ t = (p +++ String c r)%string) \/
            (exists c c' r r', s = (p +++ String c r)%string /\ t = (p +++ String c' r')%string /\ bytev c < bytev c').
Definition before (a b : value) : Prop :=
  match a, b with
  | VInt x, VInt y => x < y
  | VStr x, VStr y => str_before x y
  | _, _ => False
  end.
(** operands of one ordered type *)
Definition ordered (a b : value) : Prop :=
  (exists x y, a = VInt x /\ b = VInt y) \/ (exists x y, a = VStr x /\ b = VStr y).

Lemma ascii_cmp c d : Ascii.compare c d = Z.compare (bytev c) (bytev d).
Proof. unfold Ascii.compare, bytev. rewrite <- N2Z.inj_compare. reflexivity. Qed.
Lemma str_before_cons c s t : str_before s t -> str_before (String c s) (String c t).
Proof.
  intros [p [[d [r [-> ->]]]|[d [d' [r [r' [-> [-> H]]]]]]]]; exists (String c p); [left; exists d, r|right; exists d, d', r, r']; auto.
Qed.
Lemma str_before_lt s t : str_before s t <-> String.compare s t = Lt.
Proof.
  split.
  - intros [p H]. revert s t H. induction p as [|c p IH]; intros s t H.
    + destruct H as [[d [r [-> ->]]]|[d [d' [r [r' [-> [-> H]]]]]]]; [reflexivity|].
      cbn. rewrite ascii_cmp. rewrite (proj2 (Z.compare_lt_iff _ _) H). reflexivity.
    + destruct H as [[d [r [-> ->]]]|[d [d' [r [r' [-> [-> H]]]]]]]; cbn [String.append];
        cbn [String.compare]; rewrite ascii_cmp, Z.compare_refl; apply IH; [left|right]; eauto 9.
  - revert t. induction s as [|c s IH]; intros [|d t]; cbn [String.compare]; try discriminate.
    + intros _. exists "". left. exists d, t. auto.
    + rewrite ascii_cmp. destruct (Z.compare_spec (bytev c) (bytev d)) as [E|L|G]; try discriminate.
      * intro H. assert (c = d) by (rewrite <- (ascii_N_embedding c), <- (ascii_N_embedding d); unfold bytev in E; f_equal; lia).
        subst d. apply str_before_cons. auto.
      * intros _. exists "". right. exists c, d, s, t. auto.
Qed.
Lemma scmp_flip s t : String.compare t s = CompOpp (String.compare s t).
Proof. apply String.compare_antisym. Qed.

Notation cmpb op a b := (op_cmp lt op a b).
(** C19: the four operators decide the order *)
Theorem C19_order : forall a b, ordered a b ->
  (cmpb "<" a b = Some (VBool true) <-> before a b) /\
  (cmpb ">" a b = Some (VBool true) <-> before b a) /\
  (cmpb "<=" a b = Some (VBool true) <-> before a b \/ a = b) /\
  (cmpb ">=" a b = Some (VBool true) <-> before b a \/ a = b) /\
  (forall op, In op ["<"; ">"; "<="; ">="] -> exists r, cmpb op a b = Some (VBool r)).
Proof.
  intros a b [[x [y [-> ->]]]|[x [y [-> ->]]]]; unfold op_cmp, cmpOrd; cbn [String.eqb Ascii.eqb Bool.eqb existsb orb before].
  - destruct (Z.compare_spec x y) as [E|L|G]; repeat split; try (intro H; discriminate H); try reflexivity; try lia; auto;
      try (intros [H|H]; [lia|injection H; lia]); try (left; lia); try (right; f_equal; lia);
      try (intros op H; repeat destruct H as [<-|H]; [..|destruct H]; cbn; eauto).
  - rewrite !str_before_lt, (scmp_flip x y). destruct (String.compare x y) eqn:E; cbn [CompOpp];
      [apply scmp_eq in E; subst y| |];
      repeat split; try (intro H; discriminate H); try reflexivity; try congruence; auto;
      try (intros [H|H]; [discriminate|injection H as ->; rewrite scmp_refl in E; discriminate]);
      try (intros op H; repeat destruct H as [<-|H]; [..|destruct H]; cbn; eauto).
Qed.
(** C19: exactly one of <, ==, > is true, and the order is transitive *)
Theorem C19_trichotomy : forall a b, ordered a b ->
  exists l e g, cmpb "<" a b = Some (VBool l) /\ (a == b) = Some (VBool e) /\ cmpb ">" a b = Some (VBool g) /\
    (l, e, g) = if l then (true, false, false) else if e then (false, true, false) else (false, false, true).
Proof.
  intros a b [[x [y [-> ->]]]|[x [y [-> ->]]]]; unfold op_cmp, cmpOrd; cbn [String.eqb Ascii.eqb Bool.eqb existsb orb compareEquals cmpScalar].
  - do 3 eexists. repeat split. destruct (Z.compare_spec x y) as [E|L|G].
    + subst. rewrite Z.eqb_refl. reflexivity.
    + rewrite (proj2 (Z.eqb_neq x y)) by lia. reflexivity.
    + rewrite (proj2 (Z.eqb_neq x y)) by lia. reflexivity.
  - do 3 eexists. repeat split. destruct (String.compare x y) eqn:E.
    + apply scmp_eq in E. subst. rewrite String.eqb_refl. reflexivity.
    + apply scmp_lt_neq in E. rewrite (proj2 (eqb_false_neq x y) E). reflexivity.
    + apply scmp_gt, scmp_lt_neq in E. rewrite (proj2 (eqb_false_neq x y)) by congruence. reflexivity.
Qed.
Theorem C19_transitive : forall a b c,
  cmpb "<" a b = Some (VBool true) -> cmpb "<" b c = Some (VBool true) -> cmpb "<" a c = Some (VBool true).
Proof.
  intros a b c. unfold op_cmp, cmpOrd. cbn [String.eqb Ascii.eqb Bool.eqb existsb orb].
  destruct a as [| |x| | |x| | | | |], b as [| |y| | |y| | | | |]; try discriminate;
    destruct c as [| |z| | |z| | | | |]; try discriminate; intros H1 H2.
  - destruct (Z.compare_spec x y), (Z.compare_spec y z), (Z.compare_spec x z); try discriminate; try reflexivity; lia.
  - destruct (String.compare x y) eqn:E1, (String.compare y z) eqn:E2; try discriminate.
    rewrite (scmp_trans _ _ _ E1 E2). reflexivity.
Qed.
(** C19: an integer or text against another type is an error for each operator *)
Theorem C19_mixed : forall op a b, In op ["<"; ">"; "<="; ">="] ->
  (exists x, a = VInt x) \/ (exists x, a = VStr x) -> ~ ordered a b -> cmpb op a b = None.
Proof.
  intros op a b Hop Ha Hb.
  assert (M : match a with VInt x => match b with VInt y => False | _ => True end
              | VStr x => match b with VStr y => False | _ => True end | _ => False end).
  { destruct Ha as [[x ->]|[x ->]]; destruct b; auto; apply Hb; [left|right]; eauto. }
  repeat destruct Hop as [<-|Hop]; try destruct Hop; destruct a; try contradiction; destruct b; try contradiction; reflexivity.
Qed.
(** The full claim "other operand types are rejected" does not hold: for a left
    operand that is neither integer nor text the answer is false *)
Theorem C19_rejected_refuted : forall op f g x y, In op ["<"; ">"; "<="; ">="] ->
  cmpb op (VFloat f) (VFloat g) = Some (VBool false) /\ cmpb op (VBool x) (VBool y) = Some (VBool false) /\
  cmpb op (VFloat f) (VInt 1) = Some (VBool false).
Proof. intros op f g x y H. repeat destruct H as [<-|H]; try destruct H; repeat split. Qed.
Example C19_case : ordered (VStr "ab") (VStr "b") /\ before (VStr "ab") (VStr "b") /\ cmpb "<" (VStr "ab") (VStr "b") = Some (VBool true).
Proof.
  repeat split; [right; eauto|]. exists "". right. exists "a"%char, "b"%char, "b", "". repeat split.
Qed.
End C.

Print Assumptions C18_equals.
Print Assumptions C18_error.
Print Assumptions C18_not.
Print Assumptions C18_reflexive.
Print Assumptions C18_structural.
Print Assumptions C18_symmetric_partial.
Print Assumptions C19_order.
Print Assumptions C19_trichotomy.
Print Assumptions C19_transitive.
Print Assumptions C19_mixed.
Print Assumptions C19_rejected_refuted.
