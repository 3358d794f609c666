(** C63: texts with line breaks are written as literal blocks and read back. *)
From Coq Require Import Lia ZifyBool.
From Verif Require Import Core Str Comparison ListFns Convert PropList PropCompare PropText2 JsonSpec Yaml YamlSpec PropYaml ScalarSpec Scalars PropScalars BlockSpec Blocks.
Import ListNotations.
Open Scope string_scope. Open Scope list_scope.

Definition dark (c : ascii) : Prop := between32 c.
Lemma dark_break c x : between32 c -> breakAt (c :: x) = false.
Proof. unfold between32. intro B. rewrite break_low by lia. rewrite orb_false_iff, !Z.eqb_neq. lia. Qed.
Lemma dark_not c d : between32 c -> (bytev d < 32)%Z -> Ascii.eqb c d = false.
Proof. unfold between32. intros B D. apply Ascii.eqb_neq. intros ->. lia. Qed.
Definition nls (m : nat) : list ascii := repeat LF m.
Definition sps (m : nat) : list ascii := repeat " "%char m.
Lemma breaks_spaces indent : (0 < indent)%nat -> forall j n maxi col bs x, (col + j <= indent)%nat ->
  blockBreaks (j + n) indent maxi col bs (sps j ++ x) = blockBreaks n indent maxi (col + j) bs x.
Proof.
  intros P. induction j as [|j IH]; intros n maxi col bs x L; [cbn; now rewrite Nat.add_0_r|]. cbn [plus sps repeat app blockBreaks].
  replace (Nat.eqb indent 0) with false by (symmetry; apply Nat.eqb_neq; lia). replace (Nat.ltb col indent) with true by (symmetry; apply Nat.ltb_lt; lia). change (isSp " ") with true. cbn [orb andb]. cbv beta iota.
  fold (sps j). rewrite IH by lia. f_equal. lia.
Qed.
Lemma breaks_auto : forall j n maxi col bs x, blockBreaks (j + n) 0 maxi col bs (sps j ++ x) = blockBreaks n 0 maxi (col + j) bs x.
Proof.
  induction j as [|j IH]; intros n maxi col bs x; [cbn; now rewrite Nat.add_0_r|]. cbn [plus sps repeat app blockBreaks Nat.eqb orb andb]. change (isSp " ") with true. cbv beta iota.
  fold (sps j). rewrite IH. f_equal. lia.
Qed.
Lemma breaks_lines indent : (0 < indent)%nat -> forall m n maxi bs x, exists maxi', blockBreaks (m + n) indent maxi 0 bs (nls m ++ x) = blockBreaks n indent maxi' 0 (bs ++ nls m) x.
Proof.
  intros P. induction m as [|m IH]; intros n maxi bs x; [exists maxi; cbn; now rewrite app_nil_r|]. cbn [plus nls repeat app blockBreaks].
  change (isSp LF) with false. change (Ascii.eqb LF "009") with false. rewrite !andb_false_r. cbv beta iota. rewrite (break_low LF) by (vm_compute; reflexivity). change ((bytev LF =? 13) || (bytev LF =? 10))%Z with true. cbv beta iota.
  fold (nls m). change (lineBreak (LF :: nls m ++ x)) with ([LF], nls m ++ x). cbv beta iota. destruct (IH n (Nat.max maxi 0) (bs ++ [LF]) x) as (mx & E). exists mx. rewrite E, <- app_assoc. reflexivity.
Qed.
Lemma breaks_gap indent g : (0 < indent)%nat -> blankLines indent g -> forall n maxi bs x, exists maxi' bs', blockBreaks (List.length g + n) indent maxi 0 bs (g ++ x) = blockBreaks n indent maxi' 0 bs' x.
Proof.
  intros P. induction 1 as [|j g J _ IH]; intros n maxi bs x; [eexists _, _; reflexivity|].
  rewrite app_length, repeat_length. cbn [List.length]. replace (j + Datatypes.S (List.length g) + n)%nat with (j + Datatypes.S (List.length g + n))%nat by lia.
  rewrite <- app_assoc. fold (sps j). rewrite breaks_spaces by lia. cbn [app blockBreaks].
  change (isSp newline) with false. change (Ascii.eqb newline "009") with false. rewrite !andb_false_r. cbv beta iota. rewrite (break_low newline) by (vm_compute; reflexivity). change ((bytev newline =? 13) || (bytev newline =? 10))%Z with true. cbv beta iota.
  change (lineBreak (newline :: g ++ x)) with ([newline], g ++ x). cbv beta iota. apply IH.
Qed.
(** leaving the block *)
Lemma breaks_outside0 indent rest x m maxi bs n : (0 < indent)%nat -> outside indent rest x -> (m + List.length rest + 1 <= n)%nat ->
  exists maxi' col, blockBreaks n indent maxi 0 bs (nls m ++ rest) = Got (bs ++ nls m, maxi', col, x) /\ (col < indent)%nat.
Proof.
  intros P (j & -> & O & O') L. rewrite app_length, repeat_length in L. fold (sps j).
  assert (J : (j < indent)%nat) by (destruct O as [->|[J _]]; [now apply O'|exact J]).
  replace n with (m + (j + Datatypes.S (n - m - j - 1)))%nat by lia. destruct (breaks_lines indent P m (j + Datatypes.S (n - m - j - 1)) maxi bs (sps j ++ x)) as (mx & E). rewrite E. rewrite breaks_spaces by lia.
  destruct O as [->|(_ & c & r & -> & R)].
  - cbn. eauto.
  - cbn [blockBreaks]. destruct (Ascii.eqb_spec c " ") as [->|_]; [vm_compute in R; intuition congruence|].
    unfold isSp. replace (Ascii.eqb c " ") with false by (symmetry; apply Ascii.eqb_neq; intros ->; vm_compute in R; intuition congruence).
    rewrite (dark_not c "009") by (try (vm_compute; reflexivity); unfold between32; lia). rewrite !andb_false_r. cbv beta iota. rewrite break_visible by exact R. eauto.
Qed.
Lemma breaks_outside indent rest x m maxi n : (0 < indent)%nat -> outside indent rest x -> (m + List.length rest + 1 <= n)%nat ->
  exists maxi' col, blockBreaks n indent maxi 0 [] (nls m ++ rest) = Got (nls m, maxi', col, x) /\ (col < indent)%nat.
Proof. exact (breaks_outside0 indent rest x m maxi [] n). Qed.
Lemma breaks_outside_any indent rest x maxi bs n : (0 < indent)%nat -> outside indent rest x -> (List.length rest + 1 <= n)%nat ->
  exists maxi' col, blockBreaks n indent maxi 0 bs rest = Got (bs, maxi', col, x) /\ (col < indent)%nat.
Proof. intros P O L. destruct (breaks_outside0 indent rest x 0 maxi bs n P O) as (mx & col & E & C); [lia|]. cbn [nls repeat app] in E. rewrite app_nil_r in E. eauto. Qed.
Lemma line_of line x : Forall between32 line -> (x = [] \/ exists y, x = LF :: y) -> lineOf (line ++ x) = (line, x).
Proof.
  intros F X. induction F as [|c line B _ IH].
  - destruct X as [->|(y & ->)]; [reflexivity|]. cbn [app lineOf]. rewrite (break_low LF) by (vm_compute; reflexivity). reflexivity.
  - cbn [app lineOf]. rewrite dark_break by exact B. rewrite (dark_not c "000") by (try exact B; vm_compute; reflexivity). cbn [orb]. now rewrite IH.
Qed.
(** what is written, line by line *)
Lemma body_line indent p line r : Forall between32 line -> exists p', literalBody indent false p (line ++ r) = line ++ literalBody indent false p' r.
Proof.
  intro F. revert p. induction F as [|c line B _ IH]; intro p; [exists p; reflexivity|]. cbn [app literalBody]. rewrite (dark_not c LF) by (try exact B; vm_compute; reflexivity).
  destruct (IH (mkPen (column p + 1) (whitespace p) false)) as (p' & E). exists p'. now rewrite E.
Qed.
Definition margin (p : pen) : Prop := column p = 0%nat /\ indention p = true.
Lemma body_breaks indent b p m r : literalBody indent b p (nls (Datatypes.S m) ++ r) = nls (Datatypes.S m) ++ literalBody indent true (mkPen 0 (whitespace p) true) r.
Proof.
  revert b p. induction m as [|m IH]; intros b p; [reflexivity|]. change (nls (Datatypes.S (Datatypes.S m)) ++ r) with (LF :: nls (Datatypes.S m) ++ r).
  cbn [literalBody]. change (Ascii.eqb LF LF) with true. cbv beta iota. rewrite IH. reflexivity.
Qed.
Lemma body_first indent p c r : (0 < indent)%nat -> margin p -> between32 c -> exists p', literalBody indent true p (c :: r) = sps indent ++ literalBody indent false p' (c :: r).
Proof.
  intros P (C & I) B. cbn [literalBody]. rewrite (dark_not c LF) by (try exact B; vm_compute; reflexivity). unfold writeIndent. rewrite C, I.
  replace (Nat.ltb indent 0) with false by (symmetry; apply Nat.ltb_ge; lia). replace (Nat.eqb 0 indent) with false by (symmetry; apply Nat.eqb_neq; lia). cbn [negb orb andb]. rewrite Nat.sub_0_r.
  exists (mkPen (Nat.max 0 indent) true true). cbn [app column whitespace]. reflexivity.
Qed.
(** texts are lines with line breaks between them *)
Lemma split_line l : Forall ascii7 l -> exists line r, l = line ++ r /\ Forall between32 line /\ (r = [] \/ exists m x, r = nls (Datatypes.S m) ++ x /\ forall y, x <> LF :: y).
Proof.
  induction 1 as [|c l A F IH].
  - exists [], []. split; [reflexivity|]. split; [constructor|now left].
  - destruct IH as (line & r & -> & FL & R). destruct A as [->|B].
    + destruct line as [|d line].
      * exists [], (newline :: r). split; [reflexivity|]. split; [constructor|]. right. destruct R as [->|(m & x & -> & X)].
        -- exists 0%nat, []. split; [reflexivity|discriminate].
        -- exists (Datatypes.S m), x. split; [reflexivity|exact X].
      * exists [], (newline :: d :: line ++ r). split; [reflexivity|]. split; [constructor|]. right. exists 0%nat, (d :: line ++ r). split; [reflexivity|]. intros y E. injection E as -> _. inversion FL; subst. vm_compute in H1. intuition congruence.
    + exists (c :: line), r. split; [reflexivity|]. split; [now constructor|exact R].
Qed.
Lemma in_block indent ch rest rest1 r : (0 < indent)%nat -> (ch = Strip -> (rest = [] /\ r = []) \/ exists g y, rest = LF :: g ++ y /\ blankLines indent g /\ outside indent y r) -> (ch = Keep -> outside indent rest r) -> ch <> Clip -> rest1 = rest ->
  forall k l, (List.length l <= k)%nat -> Forall ascii7 l -> l <> [] -> (forall y, l <> LF :: y) -> (if match rev l with c :: _ => Ascii.eqb c LF | [] => false end then ch = Keep else ch = Strip) ->
  forall n lead tb p, (k < n)%nat -> blockLines n indent ch lead tb indent (literalBody indent false p l ++ rest) = Got (lead ++ tb ++ l, r).
Proof.
  intros P HS HK NC _. induction k as [|k IH]; intros l LK F NE NL CH n lead tb p KN; [destruct l; [congruence|cbn in LK; lia]|].
  destruct (split_line l F) as (line & r1 & -> & FL & R).
  destruct line as [|c line]. { exfalso. destruct R as [->|(m & x & -> & _)]; [now apply NE|]. now apply (NL (nls m ++ x)). }
  destruct n as [|n]; [lia|]. destruct (body_line indent p (c :: line) r1 FL) as (p' & E). rewrite E. rewrite <- app_assoc.
  inversion FL as [|? ? BC _]; subst.
  assert (Z : Ascii.eqb c "000" = false) by (apply dark_not; [exact BC|vm_compute; reflexivity]).
  cbn [blockLines]. rewrite Nat.eqb_refl. cbn [andb app]. rewrite Z. cbn [negb]. cbv beta iota. change (c :: line ++ literalBody indent false p' r1 ++ rest) with ((c :: line) ++ literalBody indent false p' r1 ++ rest).
  destruct R as [->|(m & x & -> & X)].
  - rewrite app_nil_r in *. cbn [literalBody app].
    assert (ST : ch = Strip).
    { destruct (rev (c :: line)) as [|d q] eqn:RV; [exact CH|]. replace (Ascii.eqb d LF) with false in CH; [exact CH|]. symmetry. apply dark_not; [|vm_compute; reflexivity]. rewrite Forall_forall in FL. apply FL. apply in_rev. rewrite RV. now left. }
    change (c :: line ++ rest) with ((c :: line) ++ rest). destruct (HS ST) as [[-> ->]|(g & y & -> & G & O)].
    + rewrite line_of by (try exact FL; now left). change (breakAt []) with false. cbv beta iota. cbn [List.length blockBreaks]. destruct n as [|n]; [cbn in LK; lia|]. cbn [blockLines]. rewrite andb_false_r. subst ch. cbn [afterR app]. rewrite app_nil_r. reflexivity.
    + rewrite line_of by (try exact FL; right; eauto). rewrite (break_low LF) by (vm_compute; reflexivity). change ((bytev LF =? 13) || (bytev LF =? 10))%Z with true. cbv beta iota.
      change (lineBreak (LF :: g ++ y)) with ([LF], g ++ y). cbv beta iota.
      assert (GAP : exists tb2 mx col, blockBreaks (Datatypes.S (List.length (g ++ y))) indent 0 0 [] (g ++ y) = Got (tb2, mx, col, r) /\ (col < indent)%nat).
      { rewrite app_length, plus_n_Sm. destruct (breaks_gap indent g P G (Datatypes.S (List.length y)) 0 [] y) as (mx & bs & EG). rewrite EG.
        destruct (breaks_outside_any indent y r mx bs (Datatypes.S (List.length y)) P O ltac:(lia)) as (mx' & col & EB & LC). eauto 8. }
      destruct GAP as (tb2 & mx & col & EB & LC). rewrite EB.
      destruct n as [|n]; [cbn in LK; lia|]. cbn [blockLines]. replace (Nat.eqb col indent) with false by (symmetry; apply Nat.eqb_neq; lia). cbn [andb]. subst ch. cbn [afterR app]. rewrite app_nil_r. reflexivity.
  - rewrite (body_breaks indent false p' m x), <- app_assoc. change (nls (Datatypes.S m)) with (LF :: nls m). cbn [app].
    change (c :: line ++ LF :: nls m ++ ?q) with ((c :: line) ++ LF :: nls m ++ q).
    match goal with |- context [LF :: nls m ++ ?q] => set (tl := q) end.
    change (c :: line ++ LF :: nls m ++ tl) with ((c :: line) ++ LF :: nls m ++ tl).
    rewrite line_of by (try exact FL; right; eauto). rewrite (break_low LF) by (vm_compute; reflexivity). change ((bytev LF =? 13) || (bytev LF =? 10))%Z with true. cbv beta iota.
    change (lineBreak (LF :: nls m ++ tl)) with ([LF], nls m ++ tl). cbv beta iota. subst tl. destruct x as [|d x].
    + cbn [literalBody app].
      assert (KP : ch = Keep).
      { assert (EL : (c :: line) ++ nls (Datatypes.S m) ++ [] = ((c :: line) ++ nls m) ++ [LF]).
        { rewrite app_nil_r, <- app_assoc. f_equal. unfold nls. cbn [repeat]. apply repeat_cons. }
        rewrite EL, rev_unit in CH. exact CH. }
      destruct (breaks_outside indent rest r m 0 (Datatypes.S (List.length (nls m ++ rest))) P (HK KP)) as (mx & col & EB & LC). { rewrite app_length. unfold nls. rewrite repeat_length. lia. }
      rewrite EB. destruct n as [|n]; [cbn in LK; lia|]. cbn [blockLines]. replace (Nat.eqb col indent) with false by (symmetry; apply Nat.eqb_neq; lia). cbn [andb]. subst ch. cbn [afterR]. rewrite app_nil_r, <- !app_assoc. reflexivity.
    + assert (FX : Forall ascii7 (d :: x)). { change (c :: line ++ LF :: nls m ++ d :: x) with ((c :: line) ++ nls (Datatypes.S m) ++ d :: x) in F. apply Forall_app in F as (_ & F). apply Forall_app in F as (_ & F). exact F. }
      assert (BD : between32 d). { inversion FX as [|? ? [->|B] _]; subst; [now destruct (X x)|exact B]. }
      destruct (body_first indent (mkPen 0 (whitespace p') true) d x P (conj eq_refl eq_refl) BD) as (q & EQ). rewrite EQ, <- app_assoc.
      set (tl := literalBody indent false q (d :: x) ++ rest).
      assert (TL : exists z, tl = d :: z). { unfold tl. cbn [literalBody]. rewrite (dark_not d LF) by (try exact BD; vm_compute; reflexivity). cbn. eauto. }
      destruct TL as (z & TL).
      replace (Datatypes.S (List.length (nls m ++ sps indent ++ tl))) with (m + (indent + Datatypes.S (List.length tl)))%nat by (rewrite !app_length; unfold nls, sps; rewrite !repeat_length; lia).
      destruct (breaks_lines indent P m (indent + Datatypes.S (List.length tl)) 0 [] (sps indent ++ tl)) as (mx & EB). rewrite EB. rewrite breaks_spaces by lia. cbn [plus].
      assert (STOP : forall u mx, blockBreaks (Datatypes.S u) indent mx indent ([] ++ nls m) tl = Got (nls m, Nat.max mx indent, indent, tl)).
      { intros u mx'. rewrite TL. cbn [blockBreaks]. rewrite Nat.ltb_irrefl. replace (Nat.eqb indent 0) with false by (symmetry; apply Nat.eqb_neq; lia). cbn [orb andb]. rewrite dark_break by exact BD. reflexivity. }
      rewrite STOP. unfold tl. assert (ER : blockLines n indent ch [LF] (nls m) indent (literalBody indent false q (d :: x) ++ rest) = Got ([LF] ++ nls m ++ d :: x, r)).
      { apply IH; try assumption.
      { cbn [List.length app] in LK. rewrite !app_length in LK. cbn [List.length] in *. lia. } { discriminate. }
      { rewrite !rev_app_distr in CH. cbn [rev]. destruct (rev x) as [|u v] eqn:RX; revert CH; cbn [rev]; rewrite ?RX; cbn [app]; intro CH; exact CH. } { lia. } }
      rewrite ER. cbn [afterR]. rewrite <- !app_assoc. reflexivity.
Qed.

Lemma header_of l b : l <> [] -> exists i ch, header (hints l ++ LF :: b) = (ch, i, LF :: b) /\
  (if match rev l with c :: _ => Ascii.eqb c LF | [] => false end then ch = Keep else ch = Strip) /\
  i = (if match l with c :: _ => isSp c || Ascii.eqb c LF | [] => false end then Some 2%nat else None).
Proof.
  intro NE. unfold hints. destruct l as [|c l]; [congruence|]. destruct (isSp c || Ascii.eqb c LF); cbv beta iota;
  destruct (match rev (c :: l) with c0 :: _ => Ascii.eqb c0 LF | [] => false end); cbv beta iota; eexists _, _; (split; [reflexivity|split; reflexivity]).
Qed.
Lemma end_line b : endOfLine (LF :: b) = Some b.
Proof. reflexivity. Qed.
Lemma not_clip l ch : (if match rev l with c :: _ => Ascii.eqb c LF | [] => false end then ch = Keep else ch = Strip) -> ch <> Clip.
Proof. destruct (match rev l with c :: _ => Ascii.eqb c LF | [] => false end); intros -> ; discriminate. Qed.
Lemma lead_lines l : Forall ascii7 l -> exists m x, l = nls m ++ x /\ forall y, x <> LF :: y.
Proof.
  induction l as [|c l IH]; intro F; [exists 0%nat, []; split; [reflexivity|discriminate]|]. inversion F as [|? ? A FL]; subst.
  destruct (Ascii.eqb_spec c LF) as [->|N].
  - destruct (IH FL) as (m & x & -> & X). exists (Datatypes.S m), x. split; [reflexivity|exact X].
  - exists 0%nat, (c :: l). split; [reflexivity|]. intros y E. injection E as -> _. now apply N.
Qed.
Lemma rev_lines m d x : match rev (nls m ++ d :: x) with c :: _ => Ascii.eqb c LF | [] => false end = match rev (d :: x) with c :: _ => Ascii.eqb c LF | [] => false end.
Proof. rewrite rev_app_distr. cbn [rev]. destruct (rev x); reflexivity. Qed.
Lemma body_lines_first indent w m d x : (0 < indent)%nat -> between32 d ->
  exists q, literalBody indent true (mkPen 0 w true) (nls m ++ d :: x) = nls m ++ sps indent ++ literalBody indent false q (d :: x).
Proof.
  intros P B. destruct m as [|m].
  - destruct (body_first indent (mkPen 0 w true) d x P (conj eq_refl eq_refl) B) as (q & E). exists q. exact E.
  - rewrite body_breaks. destruct (body_first indent (mkPen 0 w true) d x P (conj eq_refl eq_refl) B) as (q & E). cbn [whitespace]. exists q. now rewrite E.
Qed.
Lemma body_length indent q l rest : (List.length l <= List.length (literalBody indent false q l ++ rest))%nat.
Proof.
  rewrite app_length. assert (G : forall b p, (List.length l <= List.length (literalBody indent b p l))%nat); [|specialize (G false q); lia].
  induction l as [|c l IH]; intros b p; [cbn; lia|]. cbn [literalBody]. destruct (Ascii.eqb c LF); [cbn [List.length]; specialize (IH true (mkPen 0 (whitespace p) true)); lia|].
  destruct (if b then writeIndent indent p else ([], p)) as (w & p'). rewrite app_length. cbn [List.length]. specialize (IH false (mkPen (column p' + 1) (whitespace p') false)). lia.
Qed.
Theorem C63_literal : forall parent l rest r, Forall ascii7 l -> l <> [] -> behind (scalarIndent parent) l rest r ->
  scanLiteral (match parent with None => 0%nat | Some i => Datatypes.S i end) (tl (writeLiteral parent l) ++ rest) = Got (l, r).
Proof.
  intros parent l rest r F NE BH. unfold writeLiteral. cbn [tl]. rewrite <- app_assoc. cbn [app].
  set (indent := scalarIndent parent) in *. assert (P : (0 < indent)%nat) by (unfold indent, scalarIndent; destruct parent; lia).
  destruct (header_of l (literalBody indent true (mkPen 0 true true) l ++ rest) NE) as (i & ch & EH & CH & EI).
  assert (HK : ch = Keep -> outside indent rest r).
  { intros ->. destruct BH as [[(z & EZ) O]|[NO _]]; [exact O|]. exfalso. destruct (rev l) as [|u v] eqn:R; [discriminate|]. destruct (Ascii.eqb_spec u LF) as [->|]; [|discriminate]. apply (NO (rev v)). rewrite <- (rev_involutive l), R. reflexivity. }
  assert (HS : ch = Strip -> (rest = [] /\ r = []) \/ exists g y, rest = LF :: g ++ y /\ blankLines indent g /\ outside indent y r).
  { intros ->. destruct BH as [[(z & EZ) O]|[_ O]]; [|exact O]. exfalso. rewrite EZ, rev_unit in CH. discriminate. }
  pose proof (not_clip _ _ CH) as NC. unfold scanLiteral. rewrite EH, end_line.
  destruct (lead_lines l F) as (m & x & EL & X). destruct x as [|d x].
  - (* line breaks only *)
    rewrite app_nil_r in EL. destruct m as [|m]; [now subst l|]. assert (KP : ch = Keep). { rewrite EL in CH. replace (nls (Datatypes.S m)) with (nls m ++ [LF]) in CH by (unfold nls; cbn [repeat]; symmetry; apply repeat_cons). rewrite rev_unit in CH. exact CH. }
    replace i with (Some 2%nat) by (rewrite EI, EL; reflexivity).
    replace (if Nat.eqb (match parent with None => 0%nat | Some i => Datatypes.S i end) 0 then 2%nat else (match parent with None => 0%nat | Some i => Datatypes.S i end - 1 + 2)%nat) with indent by (unfold indent, scalarIndent; destruct parent; cbn; lia).
    assert (EL0 : literalBody indent true (mkPen 0 true true) l = nls (Datatypes.S m)). { rewrite EL. rewrite <- (app_nil_r (nls (Datatypes.S m))) at 1. rewrite body_breaks. cbn [literalBody]. apply app_nil_r. }
    rewrite EL0, EL.
    destruct (breaks_outside indent rest r (Datatypes.S m) 0 (Datatypes.S (List.length (nls (Datatypes.S m) ++ rest))) P (HK KP)) as (mx & col & EB & LC). { rewrite app_length. unfold nls. rewrite repeat_length. lia. }
    cbv beta zeta. rewrite EB. replace (Nat.eqb indent 0) with false by (symmetry; apply Nat.eqb_neq; lia). cbn [blockLines]. replace (Nat.eqb col indent) with false by (symmetry; apply Nat.eqb_neq; lia). cbn [andb]. subst ch. reflexivity.
  - assert (FX : Forall ascii7 (d :: x)) by (rewrite EL in F; apply Forall_app in F as (_ & F); exact F).
    assert (BD : between32 d). { inversion FX as [|? ? [->|B] _]; subst; [now destruct (X x)|exact B]. }
    rewrite EL in CH. rewrite rev_lines in CH.
    destruct (body_lines_first indent true m d x P BD) as (q & EQ). rewrite <- EL in EQ. rewrite EQ, <- !app_assoc.
    set (t := literalBody indent false q (d :: x) ++ rest).
    assert (TL : exists z, t = d :: z). { unfold t. cbn [literalBody]. rewrite (dark_not d LF) by (try exact BD; vm_compute; reflexivity). cbn. eauto. }
    assert (TLen : (List.length (d :: x) <= List.length t)%nat) by (unfold t; apply (body_length indent q (d :: x) rest)).
    assert (FIN : blockLines (Datatypes.S (List.length t)) indent ch [] (nls m) indent t = Got (nls m ++ d :: x, r)).
    { exact (in_block indent ch rest rest r P HS HK NC eq_refl (List.length (d :: x)) (d :: x) (le_n _) FX ltac:(discriminate) X CH (Datatypes.S (List.length t)) [] (nls m) q ltac:(lia)). }
    destruct TL as (z & TL). rewrite EL. cbv beta zeta.
    replace (Datatypes.S (List.length (nls m ++ sps indent ++ t))) with (m + (indent + Datatypes.S (List.length t)))%nat by (rewrite !app_length; unfold nls, sps; rewrite !repeat_length; lia).
    assert (SP : isSp d = true \/ m <> 0%nat -> i = Some 2%nat). { intro H. rewrite EI, EL. destruct m as [|m]; [|reflexivity]. cbn [nls repeat app]. destruct H as [->|H]; [reflexivity|congruence]. }
    assert (NSP : isSp d = false -> m = 0%nat -> i = None). { intros H ->. rewrite EI, EL. cbn [nls repeat app]. rewrite H. rewrite (dark_not d LF) by (try exact BD; vm_compute; reflexivity). reflexivity. }
    assert (CASES : (i = Some 2%nat) \/ (i = None /\ isSp d = false /\ m = 0%nat)).
    { destruct (isSp d) eqn:SD; [left; apply SP; now left|]. destruct m as [|m]; [right; auto|left; apply SP; right; discriminate]. }
    destruct CASES as [->|(-> & SD & ->)].
    + replace (if Nat.eqb (match parent with None => 0%nat | Some i => Datatypes.S i end) 0 then 2%nat else (match parent with None => 0%nat | Some i => Datatypes.S i end - 1 + 2)%nat) with indent by (unfold indent, scalarIndent; destruct parent; cbn; lia).
      destruct (breaks_lines indent P m (indent + Datatypes.S (List.length t)) 0 [] (sps indent ++ t)) as (mx & EB). rewrite EB. rewrite breaks_spaces by lia. cbn [plus app].
      assert (STOP : forall u mx, blockBreaks (Datatypes.S u) indent mx indent (nls m) t = Got (nls m, Nat.max mx indent, indent, t)).
      { intros u mx'. rewrite TL. cbn [blockBreaks]. rewrite Nat.ltb_irrefl. replace (Nat.eqb indent 0) with false by (symmetry; apply Nat.eqb_neq; lia). cbn [orb andb]. rewrite dark_break by exact BD. reflexivity. }
      rewrite STOP. replace (Nat.eqb indent 0) with false by (symmetry; apply Nat.eqb_neq; lia). exact FIN.
    + cbn [nls repeat app plus] in *. rewrite breaks_auto. cbn [plus].
      assert (STOP : forall u, blockBreaks (Datatypes.S u) 0 0 indent [] t = Got ([], indent, indent, t)).
      { intro u. rewrite TL. cbn [blockBreaks Nat.eqb orb]. rewrite SD. rewrite (dark_not d "009") by (try exact BD; vm_compute; reflexivity). cbn [andb]. rewrite dark_break by exact BD. reflexivity. }
      rewrite STOP. cbn [Nat.eqb].
      replace (Nat.max indent (Nat.max (match parent with None => 0%nat | Some i => Datatypes.S i end) 1)) with indent by (unfold indent, scalarIndent; destruct parent; lia). exact FIN.
Qed.

(** a literal block below a key at column 2, with a blank line, a blank in front and a key behind *)
Example C63_literal_ex :
  let l := chars (" a" ++ String LF (String LF (String " " ("b" ++ String LF "")))) in
  let rest := chars "  k: 1" in
  Forall ascii7 l /\ l <> [] /\ behind (scalarIndent (Some 2%nat)) l rest (chars "k: 1") /\
  writeLiteral (Some 2%nat) l = chars ("|2+" ++ String LF ("     a" ++ String LF (String LF ("     b" ++ String LF "")))) /\
  scanLiteral 3 (tl (writeLiteral (Some 2%nat) l) ++ rest) = Got (l, chars "k: 1").
Proof.
  cbv zeta. split; [vm_compute chars; repeat (apply Forall_cons; [first [left; reflexivity | right; vm_compute; intuition congruence]|]); apply Forall_nil|]. split; [discriminate|].
  split; [|split; vm_compute; reflexivity]. left. split; [exists (chars (" a" ++ String LF (String LF (String " " "b")))); reflexivity|].
  exists 2%nat. split; [reflexivity|]. split; [|discriminate]. right. split; [vm_compute; lia|]. exists "k"%char, (chars ": 1"). split; [reflexivity|vm_compute; intuition congruence].
Qed.
(** without a line break at the end, at the top, an empty line behind *)
Example C63_literal_ex2 :
  let l := chars ("a" ++ String LF "b") in
  let rest := chars (String LF (" " ++ String LF "k: 1")) in
  behind (scalarIndent None) l rest (chars "k: 1") /\
  writeLiteral None l = chars ("|-" ++ String LF ("  a" ++ String LF "  b")) /\
  scanLiteral 0 (tl (writeLiteral None l) ++ rest) = Got (l, chars "k: 1").
Proof.
  cbv zeta. split; [|split; vm_compute; reflexivity]. right. split.
  - intros z E. apply (f_equal (@rev ascii)) in E. rewrite rev_unit in E. vm_compute in E. discriminate E.
  - right. exists (chars (" " ++ String LF "")), (chars "k: 1"). split; [reflexivity|]. split.
    + apply (a_blank_line _ 1 []); [vm_compute; lia|constructor].
    + exists 0%nat. split; [reflexivity|]. split; [|discriminate]. right. split; [vm_compute; lia|]. exists "k"%char, (chars ": 1"). split; [reflexivity|vm_compute; intuition congruence].
Qed.

Print Assumptions C63_literal.
