(** C04: the unresolved check reports exactly the open nodes. *)
From Coq Require Import Lia Permutation.
From Verif Require Import Core CoreFacts Str StrFacts Interp Find DeepEq Equiv EquivFacts Unresolved.

(* ------------------------------------------------------------------ *)
(** * Specification *)

(** node [x] is found in document [n] at the given position: map keys, and
    "[i]" for list items *)
Inductive occurs : node -> list string -> node -> Prop :=
| O_here n : occurs n [] n
| O_key n m k e p x : val n = VMap m -> In (k, e) m -> occurs e p x -> occurs n (k :: p) x
| O_item n l i e p x : val n = VList l -> nth_error l i = Some e -> occurs e p x ->
    occurs n (("[" +++ itoa (Z.of_nat i) +++ "]")%string :: p) x.

(** a text that is enclosed in "((" and "))", not escaped, but no valid dynaml *)
Definition malformed (parses : string -> bool) (v : value) : Prop :=
  exists e, v = VStr ("((" +++ e +++ "))")%string /\ (forall r, e <> String "!" r) /\ parses e = false.

(** a node that must not survive: unevaluated expression, failed node, malformed dynaml *)
Definition openN (parses : string -> bool) (x : node) : Prop :=
  (exists e, val x = VExpr e) \/ a_failed (ann x) = true \/ malformed parses (val x).

(* ------------------------------------------------------------------ *)
(** * Lemmas *)

Lemma enclosed_spec s sub : enclosed s = Some sub <-> s = ("((" +++ sub +++ "))")%string.
Proof.
  unfold enclosed. split.
  - destruct (hasPrefix s "((") eqn:P; [|discriminate]. destruct (hasSuffix s "))") eqn:S; [|discriminate].
    intro H. apply hasPrefix_spec in P. destruct P as [r ->].
    assert (X : exists q, r = (q +++ "))")%string).
    { apply hasSuffix_spec in S. destruct S as [q E]. destruct q as [|a [|b q]].
      - cbn in E. discriminate.
      - cbn in E. discriminate E.
      - cbn in E. inversion E; subst. exists q. reflexivity. }
    destruct X as [q ->]. clear S. cbn [andb] in H.
    rewrite !slength_app in H. cbn [String.length] in H.
    replace (2 + (String.length q + 2) - 4)%nat with (String.length q) in H by lia.
    change 2%nat with (String.length "((") in H at 1. rewrite substring_app_r, substring_app_l in H. congruence.
  - intros ->. assert (P : hasPrefix ("((" +++ sub +++ "))") "((" = true) by (apply hasPrefix_spec; eauto).
    assert (S : hasSuffix ("((" +++ sub +++ "))") "))" = true).
    { apply hasSuffix_spec. exists ("((" +++ sub)%string. symmetry. apply sapp_assoc. }
    rewrite P, S. cbn [andb]. f_equal. rewrite !slength_app. cbn [String.length].
    replace (2 + (String.length sub + 2) - 4)%nat with (String.length sub) by lia.
    change 2%nat with (String.length "((") at 1. rewrite substring_app_r, substring_app_l. reflexivity.
Qed.

Lemma prefix_bang s : hasPrefix s "!" = true <-> exists r, s = String "!" r.
Proof. rewrite hasPrefix_spec. reflexivity. Qed.

Section P.
Variable parses : string -> bool.
Variable parseIssue : string -> issue.
Notation FU := (findUnresolved parses parseIssue).

Lemma order_perm l : Permutation (order_groups l) l.
Proof.
  unfold order_groups. induction l as [|u l IH]; [constructor|]. cbn [filter].
  destruct (a_error (ann (u_node u))); cbn [negb andb app]; [apply perm_skip, IH|].
  destruct (a_failed (ann (u_node u))); cbn [negb app].
  - rewrite app_assoc. apply Permutation_sym. apply Permutation_cons_app. rewrite <- app_assoc. apply Permutation_sym, IH.
  - apply Permutation_sym. apply Permutation_cons_app. apply Permutation_sym, IH.
Qed.

Lemma malformed_dec n : match embedded n with Some sub => parses sub = false <-> malformed parses (val n) | None => ~ malformed parses (val n) end.
Proof.
  unfold embedded, malformed. destruct (val n); cbv iota beta; try (let q := fresh in intros [q [E _]]; discriminate E).
  destruct (enclosed s) as [sub|] eqn:E.
  - apply enclosed_spec in E. subst s. destruct (hasPrefix sub "!") eqn:B.
    + intros [e [E [Hn _]]]. inversion E as [E']. apply sapp_inj_r in E'. subst e.
      apply prefix_bang in B. destruct B as [r ->]. eapply Hn; reflexivity.
    + split.
      * intro Hp. exists sub. split; [reflexivity|]. split; [|exact Hp].
        intros r ->. assert (X : hasPrefix (String "!" r) "!" = true) by (apply prefix_bang; eauto). congruence.
      * intros [e [E [_ Hp]]]. inversion E as [E']. apply sapp_inj_r in E'. congruence.
  - intros [e [E' _]]. inversion E'; subst.
    assert (X : enclosed ("((" +++ e +++ "))") = Some e) by (apply enclosed_spec; reflexivity). congruence.
Qed.

Lemma in_order u l : In u (order_groups l) <-> In u l.
Proof. split; apply Permutation_in; [|apply Permutation_sym]; apply order_perm. Qed.

(** the report of a node for itself *)
Definition report (x : node) : node :=
  match embedded x with
  | Some sub => if parses sub then x else issueNodeY x true false (parseIssue sub)
  | None => x
  end.
Definition isOpen (x : node) : bool :=
  isExpr (val x) || a_failed (ann x) || match embedded x with Some sub => negb (parses sub) | None => false end.
Definition own (n : node) (ctx : list string) : list unres :=
  if isOpen n then [mkUnres (report n) ctx] else [].
Fixpoint itemsFrom (l : list node) (ctx : list string) (i : Z) : list unres :=
  match l with
  | [] => []
  | e :: r => FU e (ctx ++ [("[" +++ itoa i +++ "]")%string]) ++ itemsFrom r ctx (i + 1)
  end.
Definition kids (v : value) (ctx : list string) : list unres :=
  match v with
  | VMap m => flat_map (fun p => FU (snd p) (ctx ++ [fst p])) m
  | VList l => itemsFrom l ctx 0
  | _ => []
  end.

Lemma FU_eq n ctx : FU n ctx = order_groups (kids (val n) ctx ++ own n ctx).
Proof.
  destruct n as [v a s t r]. unfold own, isOpen, report. cbn [ann val].
  assert (E : forall w, embedded (mkNode w a s t r) = match w with VStr s => match enclosed s with
              | Some sub => if hasPrefix sub "!" then None else Some sub | None => None end | _ => None end) by reflexivity.
  destruct v; cbn [findUnresolved kids isExpr]; rewrite ?E; cbn [orb negb andb];
    rewrite ?andb_true_r, ?andb_false_r, ?orb_false_r;
    try (destruct (a_failed a); cbn; rewrite ?app_nil_r; reflexivity).
  - destruct (match enclosed s0 with Some sub => if hasPrefix sub "!" then None else Some sub | None => None end) as [sub|];
      [destruct (parses sub)|]; cbn [negb]; rewrite ?andb_true_r, ?andb_false_r, ?orb_false_r, ?orb_true_r;
      destruct (a_failed a); reflexivity.
  - f_equal. rewrite <- (app_nil_r (itemsFrom l ctx 0)).
    assert (I : forall i, (fix go (l : list node) (i : Z) : list unres :=
       match l with [] => [] | e :: r => FU e (ctx ++ [("[" +++ itoa i +++ "]")%string]) ++ go r (i + 1) end) l i = itemsFrom l ctx i).
    { induction l as [|x l IH]; intro i; cbn; [reflexivity|]. rewrite IH. reflexivity. }
    rewrite I. destruct (a_failed a); rewrite ?app_nil_r; reflexivity.
  - f_equal.
    assert (I : (fix go (m : list (string * node)) : list unres :=
       match m with [] => [] | (k, e) :: r => FU e (ctx ++ [k]) ++ go r end) m = flat_map (fun p => FU (snd p) (ctx ++ [fst p])) m).
    { induction m as [|[k x] m IH]; cbn; [reflexivity|]. rewrite IH. reflexivity. }
    rewrite I. destruct (a_failed a); rewrite ?app_nil_r; reflexivity.
Qed.

Lemma isOpen_spec x : isOpen x = true <-> openN parses x.
Proof.
  unfold isOpen, openN. rewrite !orb_true_iff. assert (M := malformed_dec x).
  assert (E : isExpr (val x) = true <-> exists e, val x = VExpr e).
  { destruct (val x); cbn; split; try discriminate; try (intros [e H]; discriminate H); eauto. }
  rewrite E. destruct (embedded x).
  - rewrite negb_true_iff, M. tauto.
  - split; [intros [[H|H]|H]; try discriminate; tauto|tauto].
Qed.

Lemma items_in l ctx i u : In u (itemsFrom l ctx i) <->
  exists j e, nth_error l j = Some e /\ In u (FU e (ctx ++ [("[" +++ itoa (i + Z.of_nat j) +++ "]")%string])).
Proof.
  revert i. induction l as [|x l IH]; intro i; cbn [itemsFrom].
  - split; [intros []|]. intros [[|j] [e [H _]]]; discriminate.
  - rewrite in_app_iff, IH. split.
    + intros [H|[j [e [H1 H2]]]].
      * exists O, x. split; [reflexivity|]. rewrite Z.add_0_r. exact H.
      * exists (S j), e. split; [exact H1|]. replace (i + Z.of_nat (S j)) with (i + 1 + Z.of_nat j) by lia. exact H2.
    + intros [[|j] [e [H1 H2]]].
      * left. cbn in H1. inversion H1; subst. rewrite Z.add_0_r in H2. exact H2.
      * right. exists j, e. split; [exact H1|]. replace (i + 1 + Z.of_nat j) with (i + Z.of_nat (S j)) by lia. exact H2.
Qed.

Lemma fu_spec n : forall ctx u,
  In u (FU n ctx) <-> exists p x, u_ctx u = ctx ++ p /\ occurs n p x /\ openN parses x /\ u_node u = report x.
Proof.
  induction n as [v a s t r IH] using node_indT. intros ctx u.
  rewrite FU_eq, in_order, in_app_iff. cbn [val]. set (n := mkNode v a s t r) in *.
  assert (Hown : In u (own n ctx) <-> u_ctx u = ctx /\ openN parses n /\ u_node u = report n).
  { unfold own. rewrite <- isOpen_spec. destruct (isOpen n); cbn; [|intuition discriminate].
    split; [intros [<-|[]]; auto|]. intros [H1 [_ H3]]. left. destruct u; cbn in *; congruence. }
  rewrite Hown. clear Hown.
  assert (Hkids : In u (kids v ctx) <-> exists s p x, u_ctx u = ctx ++ s :: p /\ occurs n (s :: p) x /\ openN parses x /\ u_node u = report x).
  { destruct v; cbn [kids node_subT] in *;
      try (split; [intros []|intros [s1 [p [x [_ [H _]]]]]; inversion H; subst; discriminate]).
    - rewrite items_in. rewrite Forall_forall in IH. split.
      + intros [j [e [Hj Hu]]]. cbn [Z.add] in Hu. apply IH in Hu; [|eapply nth_error_In; eauto].
        destruct Hu as [p [x [H1 [H2 H3]]]]. exists ("[" +++ itoa (Z.of_nat j) +++ "]")%string, p, x.
        split; [rewrite H1, <- app_assoc; reflexivity|]. split; [|exact H3]. eapply O_item; eauto; reflexivity.
      + intros [s1 [p [x [H1 [H2 H3]]]]]. inversion H2 as [|? ? ? ? ? ? Ev|n0 l0 j e p0 x0 Ev Hj Ho]; subst; [discriminate|].
        cbn in Ev. inversion Ev; subst. exists j, e. split; [exact Hj|]. cbn [Z.add].
        apply IH; [eapply nth_error_In; eauto|]. exists p, x. rewrite <- app_assoc. auto.
    - rewrite in_flat_map. rewrite Forall_forall in IH. split.
      + intros [[k e] [Hin Hu]]. cbn [fst snd] in Hu. apply (IH _ Hin) in Hu.
        destruct Hu as [p [x [H1 [H2 H3]]]]. exists k, p, x.
        split; [rewrite H1, <- app_assoc; reflexivity|]. split; [|exact H3]. eapply O_key; eauto; reflexivity.
      + intros [s1 [p [x [H1 [H2 H3]]]]]. inversion H2 as [|n0 m0 k e p0 x0 Ev Hin Ho|? ? ? ? ? ? Ev]; subst; [|discriminate].
        cbn in Ev. inversion Ev; subst. exists (s1, e). split; [exact Hin|]. cbn [fst snd].
        apply (IH _ Hin). exists p, x. rewrite <- app_assoc. auto. }
  rewrite Hkids. split.
  - intros [[s1 [p [x H]]]|[H1 [H2 H3]]]; [eauto|]. exists [], n. rewrite app_nil_r. repeat split; auto. constructor.
  - intros [[|s1 p] [x [H1 [H2 [H3 H4]]]]]; [|left; exists s1, p, x; auto]. right. inversion H2; subst. rewrite app_nil_r in H1. auto.
Qed.

End P.

(* ------------------------------------------------------------------ *)
(** * C04 *)

Section Theorems.
Variables (parses : string -> bool) (parseIssue : string -> issue).
Notation FU := (findUnresolved parses parseIssue).

(** C04: the check passes iff no open node is left anywhere *)
Theorem C04_success : forall n, FU n [] = [] <-> forall p x, occurs n p x -> ~ openN parses x.
Proof.
  intro n. split.
  - intros H p x Ho Hx. assert (X : In (mkUnres (report parses parseIssue x) p) (FU n [])) by (apply fu_spec; exists p, x; repeat split; assumption).
    rewrite H in X. exact X.
  - intro H. destruct (FU n []) as [|u l] eqn:E; [reflexivity|].
    assert (X : In u (FU n [])) by (rewrite E; left; reflexivity).
    apply fu_spec in X. destruct X as [p [x [_ [Ho [Hx _]]]]]. exfalso. exact (H p x Ho Hx).
Qed.

(** C04: every open node is reported with its position and value *)
Theorem C04_complete : forall n p x, occurs n p x -> openN parses x ->
  exists u, In u (FU n []) /\ u_ctx u = p /\ val (u_node u) = val x /\ src (u_node u) = src x.
Proof.
  intros n p x Ho Hx. exists (mkUnres (report parses parseIssue x) p). split; [apply fu_spec; exists p, x; repeat split; assumption|].
  cbn. split; [reflexivity|]. unfold report. destruct (embedded x) as [sub|]; [destruct (parses sub)|];
    try (split; reflexivity); destruct x; split; reflexivity.
Qed.

(** C04: only open nodes are reported, at their true position; a node is
    changed in the report only by attaching the parse error *)
Theorem C04_sound : forall n u, In u (FU n []) ->
  exists x, occurs n (u_ctx u) x /\ openN parses x /\
    (u_node u = x \/ (malformed parses (val x) /\ exists i, u_node u = issueNodeY x true false i)).
Proof.
  intros n u H. apply fu_spec in H. destruct H as [p [x [H1 [H2 [H3 H4]]]]]. cbn in H1. subst p.
  exists x. split; [exact H2|]. split; [exact H3|]. rewrite H4. unfold report.
  assert (M := malformed_dec parses x). destruct (embedded x) as [sub|]; [|auto].
  destruct (parses sub) eqn:E; [auto|]. right. split; [apply M; reflexivity|eauto].
Qed.

(** C04: the report lists errors first, failed nodes last *)
Definition rank (u : unres) : nat :=
  if a_error (ann (u_node u)) then 0 else if a_failed (ann (u_node u)) then 2 else 1.
Theorem C04_order : forall n l1 u l2 v l3, FU n [] = l1 ++ u :: l2 ++ v :: l3 -> (rank u <= rank v)%nat.
Proof.
  intros n l1 u l2 v l3 H. rewrite FU_eq in H. unfold order_groups in H.
  match type of H with ?A ++ ?B ++ ?C = _ => set (A0 := A) in *; set (B0 := B) in *; set (C0 := C) in * end.
  assert (RA : forall x, In x A0 -> rank x = 0%nat).
  { intros x Hx. apply filter_In in Hx. unfold rank. destruct Hx as [_ ->]. reflexivity. }
  assert (RB : forall x, In x B0 -> rank x = 1%nat).
  { intros x Hx. apply filter_In in Hx. unfold rank. destruct Hx as [_ Hx]. apply andb_prop in Hx.
    rewrite !negb_true_iff in Hx. destruct Hx as [-> ->]. reflexivity. }
  assert (RC : forall x, In x C0 -> rank x = 2%nat).
  { intros x Hx. apply filter_In in Hx. unfold rank. destruct Hx as [_ Hx]. apply andb_prop in Hx.
    rewrite !negb_true_iff in Hx. destruct Hx as [-> ->]. reflexivity. }
  assert (G : forall L, (forall i j x y, (i < j)%nat -> nth_error L i = Some x -> nth_error L j = Some y -> (rank x <= rank y)%nat) ->
     L = l1 ++ u :: l2 ++ v :: l3 -> (rank u <= rank v)%nat).
  { intros L HL ->. apply (HL (length l1) (length l1 + S (length l2))%nat); [lia|..].
    - rewrite nth_error_app2, Nat.sub_diag by lia. reflexivity.
    - rewrite nth_error_app2 by lia. replace (length l1 + S (length l2) - length l1)%nat with (S (length l2)) by lia.
      cbn. rewrite nth_error_app2, Nat.sub_diag by lia. reflexivity. }
  apply (G _) with (2 := H). clear - RA RB RC. intros i j x y Hij Hx Hy.
  destruct (Nat.lt_ge_cases i (length A0)) as [Hi|Hi].
  - rewrite nth_error_app1 in Hx by lia. apply nth_error_In in Hx. rewrite (RA x Hx). lia.
  - rewrite nth_error_app2 in Hx, Hy by lia.
    destruct (Nat.lt_ge_cases (i - length A0) (length B0)) as [Hi'|Hi'].
    + rewrite nth_error_app1 in Hx by lia. apply nth_error_In in Hx. rewrite (RB x Hx).
      apply nth_error_In in Hy. apply in_app_or in Hy. destruct Hy as [Hy|Hy]; [rewrite (RB y Hy)|rewrite (RC y Hy)]; lia.
    + rewrite nth_error_app2 in Hx, Hy by lia. apply nth_error_In in Hx. apply nth_error_In in Hy.
      rewrite (RC x Hx), (RC y Hy). lia.
Qed.

(** C04: the resolved test used before values are consumed: it accepts exactly
    documents without expressions, without dynaml texts and without pending
    merge keys or control fields *)
Theorem C04_resolved : forall ctrl n, isResolvedV ctrl false (val n) = true <->
  forall p x, occurs n p x ->
    (forall e, val x <> VExpr e) /\
    (forall e, val x = VStr ("((" +++ e +++ "))")%string -> exists r, e = String "!" r) /\
    (forall m, val x = VMap m -> mapResolved ctrl m = true).
Proof.
  intros ctrl n. induction n as [v a s t r IH] using node_indT. cbn [val].
  destruct v; cbn [isResolvedV node_subT] in *.
  1-5: split; [intros _ p x Ho; inversion Ho as [|? ? ? ? ? ? Ev|? ? ? ? ? ? Ev]; subst; cbn [val] in *; try discriminate; repeat split; intros; discriminate|reflexivity].
  - split.
    + intros H p x Ho. inversion Ho as [|? ? ? ? ? ? Ev|? ? ? ? ? ? Ev]; subst; cbn [val] in *; try discriminate.
      repeat split; try (intros; discriminate). intros e E. assert (E' : s0 = ("((" +++ e +++ "))")%string) by congruence.
      rewrite (proj2 (enclosed_spec _ e) E') in H. apply prefix_bang in H. exact H.
    + intro H. destruct (enclosed s0) as [sub|] eqn:E; [|reflexivity]. apply enclosed_spec in E. subst s0.
      apply prefix_bang. apply (H [] (mkNode (VStr _) a s t r) (O_here _)). reflexivity.
  - rewrite Forall_forall in IH.
    assert (F : (fix go (l : list node) : bool := match l with [] => true | x :: r => isResolvedN ctrl false x && go r end) l = true
                <-> forall x, In x l -> isResolvedV ctrl false (val x) = true).
    { clear. induction l as [|x l IHl]; [split; [intros _ x []|reflexivity]|]. rewrite andb_true_iff, IHl.
      assert (E : isResolvedN ctrl false x = isResolvedV ctrl false (val x)) by (destruct x; reflexivity). rewrite E.
      split; [intros [H1 H2] y [<-|Hy]; auto|]. intro H. split; [apply H; left; reflexivity|]. intros y Hy. apply H. right. exact Hy. }
    rewrite F. split.
    + intros H p x Ho. inversion Ho as [|? ? ? ? ? ? Ev|n0 l0 j e p0 x0 Ev Hj Ho']; subst; cbn [val] in *; try discriminate.
      * repeat split; intros; discriminate.
      * inversion Ev; subst. apply nth_error_In in Hj. exact (proj1 (IH e Hj) (H e Hj) p0 x Ho').
    + intros H x Hx. apply (IH x Hx). intros p y Hy. apply In_nth_error in Hx. destruct Hx as [j Hj].
      eapply H. eapply O_item; [reflexivity|exact Hj|exact Hy].
  - rewrite Forall_forall in IH. rewrite andb_true_iff.
    assert (F : (fix go (m : list (string * node)) : bool := match m with [] => true | (_, x) :: r => isResolvedN ctrl false x && go r end) m = true
                <-> forall k x, In (k, x) m -> isResolvedV ctrl false (val x) = true).
    { clear. induction m as [|[k x] l IHl]; [split; [intros _ k x []|reflexivity]|]. rewrite andb_true_iff, IHl.
      assert (E : isResolvedN ctrl false x = isResolvedV ctrl false (val x)) by (destruct x; reflexivity). rewrite E.
      split; [intros [H1 H2] k' y [Hy|Hy]; [inversion Hy; subst; auto|eauto]|].
      intro H. split; [eapply H; left; reflexivity|]. intros k' y Hy. eapply H. right. exact Hy. }
    rewrite F. split.
    + intros [Hm H] p x Ho. inversion Ho as [|n0 m0 k e p0 x0 Ev Hj Ho'|? ? ? ? ? ? Ev]; subst; cbn [val] in *; try discriminate.
      * repeat split; try (intros; discriminate). intros m0 E. inversion E; subst. exact Hm.
      * inversion Ev; subst. exact (proj1 (IH _ Hj) (H _ _ Hj) p0 x Ho').
    + intros H. split; [apply (H [] _ (O_here _)); reflexivity|].
      intros k x Hx. apply (IH _ Hx). intros p y Hy. eapply H. eapply O_key; [reflexivity|exact Hx|exact Hy].
  - split; [discriminate|]. intro H. exfalso. apply (proj1 (H [] _ (O_here _)) e). reflexivity.
  - split; [intros _ p x Ho; inversion Ho as [|? ? ? ? ? ? Ev|? ? ? ? ? ? Ev]; subst; cbn [val] in *; try discriminate; repeat split; intros; discriminate|reflexivity].
  - split; [intros _ p x Ho; inversion Ho as [|? ? ? ? ? ? Ev|? ? ? ? ? ? Ev]; subst; cbn [val] in *; try discriminate; repeat split; intros; discriminate|reflexivity].
Qed.
End Theorems.

(** non-vacuity *)
Definition failedN : node := issueNodeY (newNode (VInt 1) "") false true (newIssue "x").
Definition exprN : node := newNode (VExpr (ERef "" ["a"; "b"])) "".
Definition ex_open : node :=
  newNode (VMap [("a", newNode (VList [newNode (VInt 1) ""; failedN; exprN]) ""); ("b", newNode (VStr "((x y))") "")]) "".
Example ex_open1 : map u_ctx (findUnresolved (fun _ => false) newIssue ex_open []) = [["b"]; ["a"; "[2]"]; ["a"; "[1]"]].
Proof. reflexivity. Qed.
Example ex_open2 : occurs ex_open ["a"; "[2]"] exprN /\ openN (fun _ => true) exprN.
Proof.
  split; [|left; eexists; reflexivity]. eapply O_key; [reflexivity|left; reflexivity|].
  apply (O_item _ [newNode (VInt 1) ""; failedN; exprN] 2%nat exprN []); [reflexivity|reflexivity|constructor].
Qed.

Print Assumptions C04_success.
Print Assumptions C04_complete.
Print Assumptions C04_sound.
Print Assumptions C04_order.
Print Assumptions C04_resolved.
