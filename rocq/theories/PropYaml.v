(** C62: YAML scalars keep their types when documents are written and read. *)
From Coq Require Import Lia Floats.SpecFloat.
From Verif Require Import Core CoreFacts Str StrFacts Comparison ListFns Convert ConvertSpec JsonSpec PropCompare PropList PropConvert PropText2 Yaml YamlSpec.
Import ListNotations.
Open Scope string_scope. Open Scope list_scope.

From Verif Require Json.
Notation finite := Json.finite.

(** * Letters *)
Lemma capital_bytev d c : capital d c <-> (97 <= bytev d <= 122)%Z /\ bytev c = (bytev d - 32)%Z.
Proof.
  split.
  - intros (k & A & B). do 26 (destruct k as [|k]; [injection A as <-; injection B as <-; vm_compute; split; [split; discriminate|reflexivity]|]).
    destruct k; discriminate A.
  - intros [R E]. exists (Z.to_nat (bytev d - 97)). rewrite <- (byteof_bytev c), E. revert R. clear.
    destruct d as [[] [] [] [] [] [] [] []]; intros [R1 R2]; first [exfalso; apply R1; reflexivity|exfalso; apply R2; reflexivity|vm_compute; split; reflexivity].
Qed.
Lemma Forall2_imp {A B} (R S : A -> B -> Prop) l l' : (forall a b, R a b -> S a b) -> Forall2 R l l' -> Forall2 S l l'.
Proof. intros H F. induction F; constructor; auto. Qed.
Lemma anyCase_spelled s w : anyCase s w <-> spelled s w.
Proof.
  unfold anyCase, spelled. split; intro H; (eapply Forall2_imp; [|exact H]); cbn; intros a b; rewrite capital_bytev; tauto.
Qed.
Definition small (w : string) : bool := forallb (fun d => (97 <=? bytev d) && (bytev d <=? 122))%Z (chars w).
Lemma lower_any s w : small w = true -> (lowerS s = w <-> anyCase s w).
Proof.
  intro H. rewrite anyCase_spelled. apply lowerS_spec. unfold small in H. rewrite forallb_forall in H. apply Forall_forall. intros d I.
  specialize (H d I). rewrite andb_true_iff, !Z.leb_le in H. lia.
Qed.
Lemma bool_text s b : resolveBool s = Some b <-> boolText s b.
Proof.
  assert (W : forall b w, truthWord b w -> (String.eqb (lowerS s) w = true <-> anyCase s w)).
  { intros x w T. rewrite String.eqb_eq. apply lower_any. destruct x; cbn in T; repeat destruct T as [<-|T]; try destruct T; reflexivity. }
  assert (U : forall b : bool, existsb (String.eqb (lowerS s)) (if b then ["y"; "yes"; "true"; "on"] else ["n"; "no"; "false"; "off"]) = true <-> boolText s b).
  { intro x. rewrite existsb_exists. split.
    - intros (w & I & E). exists w. split; [destruct x; exact I|]. apply (W x w); [destruct x; exact I|exact E].
    - intros (w & T & A). exists w. split; [destruct x; exact T|]. apply (W x w T). exact A. }
  assert (D : boolText s true -> boolText s false -> False).
  { intros (w & T & A) (w' & T' & A'). rewrite <- lower_any in A, A' by (cbn in T, T'; repeat destruct T as [<-|T]; try destruct T; repeat destruct T' as [<-|T']; try destruct T'; reflexivity).
    subst. cbn in T, T'. destruct T as [T|[T|[T|[T|[]]]]]; rewrite <- T in T'; destruct T' as [T'|[T'|[T'|[T'|[]]]]]; discriminate T'. }
  pose proof (U true) as UT. pose proof (U false) as UF. cbn [existsb] in *. unfold resolveBool. cbn [existsb].
  destruct (_ || (_ || (_ || (_ || false)))) eqn:E1 in |- *.
  - split; [intros [= <-]; now apply UT|]. intro B. destruct b; [reflexivity|]. exfalso. apply D; [now apply UT|exact B].
  - destruct (_ || (_ || (_ || (_ || false)))) eqn:E2 in |- *.
    + split; [intros [= <-]; now apply UF|]. intro B. destruct b; [|reflexivity]. apply UT in B. congruence.
    + split; [discriminate|]. intro B. destruct b; [apply UT in B|apply UF in B]; congruence.
Qed.

(** * Digits *)
Lemma digit_val c d : digitVal c = Some d <-> (0 <= d)%Z /\ digitB (Z.to_nat d) c.
Proof.
  split.
  - intro H. assert (R : (0 <= d < 36)%Z). { unfold digitVal in H. pose proof (bytev_range c). destruct (_ && _) eqn:E1 in H; [|destruct (_ && _) eqn:E2 in H; [|destruct (_ && _) eqn:E3 in H; [|discriminate H]]]; injection H as <-; rewrite andb_true_iff, !Z.leb_le in *; lia. }
    split; [lia|]. destruct c as [[] [] [] [] [] [] [] []]; vm_compute in H; try discriminate H; injection H as <-; vm_compute; first [left; reflexivity|right; reflexivity].
  - intros [P [H|H]]; pose proof (Z2Nat.id d P) as E; remember (Z.to_nat d) as n eqn:EN; clear EN; subst d;
      (do 36 (destruct n as [|n]; [injection H as <-; vm_compute; reflexivity|]); destruct n; discriminate H).
Qed.
Lemma digits_snoc b l : forall acc c, digits b acc (l ++ [c]) =
  match digits b acc l with Some z => match digitVal c with Some d => if (d <? b)%Z then Some (b * z + d)%Z else None | None => None end | None => None end.
Proof.
  induction l as [|x l IH]; intros acc c; cbn [app digits]; [reflexivity|]. destruct (digitVal x); [|reflexivity]. destruct (_ <? b)%Z; [apply IH|reflexivity].
Qed.
Lemma inB_ne b l z : inB b l z -> l <> [].
Proof. intros []; [discriminate|]. now destruct l0. Qed.
Lemma parse_base b l z : parseBase b l = Some z <-> inB b l z.
Proof.
  assert (D : l <> [] -> (digits b 0 l = Some z <-> inB b l z)).
  { revert z. induction l as [|c l IH] using rev_ind; intros z N; [congruence|]. rewrite digits_snoc. split.
    - intro H. destruct l as [|x l].
      + cbn [digits app] in *. destruct (digitVal c) as [d|] eqn:V; [|discriminate H]. destruct (Z.ltb_spec d b) as [L|]; [|discriminate H]. injection H as <-.
        apply digit_val in V as [P V]. replace (b * 0 + d)%Z with (Z.of_nat (Z.to_nat d)) by lia. constructor; [exact V|lia].
      + destruct (digits b 0 (x :: l)) as [y|] eqn:Y; [|discriminate H]. destruct (digitVal c) as [d|] eqn:V; [|discriminate H]. destruct (Z.ltb_spec d b) as [L|]; [|discriminate H]. injection H as <-.
        apply digit_val in V as [P V]. replace d with (Z.of_nat (Z.to_nat d)) at 1 by lia. apply N_more; [apply IH; [discriminate|reflexivity]|exact V|lia].
    - intro H. remember (l ++ [c]) as t eqn:ET. destruct H as [d x V L|l' y d x H V L].
      + destruct l as [|q l]; [|destruct l; discriminate ET]. injection ET as <-. cbn [digits].
        rewrite (proj2 (digit_val x (Z.of_nat d))) by (rewrite Nat2Z.id; split; [lia|exact V]). apply Z.ltb_lt in L. rewrite L. f_equal. lia.
      + apply app_inj_tail in ET as [-> ->]. pose proof (inB_ne _ _ _ H) as N'. apply IH in H; [|exact N']. rewrite H.
        rewrite (proj2 (digit_val c (Z.of_nat d))) by (rewrite Nat2Z.id; split; [lia|exact V]). apply Z.ltb_lt in L. now rewrite L. }
  unfold parseBase. destruct l as [|c l]; [|apply D; discriminate]. split; [discriminate|]. intro H. now apply inB_ne in H.
Qed.
Lemma inB_fun b l z z' : inB b l z -> inB b l z' -> z = z'.
Proof. rewrite <- !parse_base. congruence. Qed.
Lemma inB_app b l : forall z c r, inB b l z -> l = c :: r -> exists d, digitB d c /\ (Z.of_nat d < b)%Z.
Proof.
  induction l as [|x l IH] using rev_ind; intros z c r H E; [discriminate E|]. remember (l ++ [x]) as t eqn:ET. destruct H as [d y V L|l' y d w H V L].
  - injection E as E1 E2. subst. eauto.
  - apply app_inj_tail in ET as [-> ->]. destruct l as [|q l]; [now apply inB_ne in H|]. injection E as E1 E. subst q. eapply IH; [exact H|reflexivity].
Qed.
Lemma nat_text l z : (if (match l with ["0"%char] => true | _ => false end) then Some 0%Z
           else match l with "0"%char :: "o"%char :: r => parseBase 8 r | _ => parseUint0 l end) = Some z <-> natText l z.
Proof.
  assert (B8 : forall c r y, digitB 24 c \/ digitB 11 c \/ digitB 33 c -> ~ inB 8 (c :: r) y).
  { intros c r y K I. destruct (inB_app _ _ _ _ _ I eq_refl) as (d & V & L).
    assert (X : digitVal c = Some (Z.of_nat d)) by (apply digit_val; rewrite Nat2Z.id; split; [lia|exact V]).
    destruct K as [K|[K|K]]; [assert (Y : digitVal c = Some 24%Z) by (apply digit_val; split; [lia|exact K])|assert (Y : digitVal c = Some 11%Z) by (apply digit_val; split; [lia|exact K])|assert (Y : digitVal c = Some 33%Z) by (apply digit_val; split; [lia|exact K])]; rewrite X in Y; injection Y as Y; lia. }
  assert (NP : forall p b, In (p, b) [("b", 2); ("B", 2); ("o", 8); ("O", 8); ("x", 16); ("X", 16)]%char%Z -> digitB 24 p \/ digitB 11 p \/ digitB 33 p).
  { intros p b I. destruct I as [I|[I|[I|[I|[I|[I|[]]]]]]]; injection I as <- <-; unfold digitB; vm_compute; tauto. }
  assert (Z0 : ~ inB 10 [] z) by (intro H; now apply inB_ne in H).
  split.
  - intro H. destruct l as [|c r]; [discriminate H|]. destruct (ascii_dec c "0") as [->|N].
    + destruct r as [|c r]; [injection H as <-; constructor|]. destruct r as [|d r].
      * destruct (ascii_dec c "o") as [->|O]; [discriminate H|]. apply X_oct. apply parse_base. destruct c as [[] [] [] [] [] [] [] []]; first [exact H|congruence].
      * destruct (ascii_dec c "o") as [->|O].
        { apply (X_pre "o" 8); [cbn; tauto|]. now apply parse_base. }
        assert (H' : parseUint0 ("0"%char :: c :: d :: r) = Some z) by (destruct c as [[] [] [] [] [] [] [] []]; first [exact H|congruence]).
        cbn [parseUint0] in H'. destruct (Ascii.eqb_spec c "b") as [->|]; [apply (X_pre "b" 2); [cbn; tauto|now apply parse_base]|].
        destruct (Ascii.eqb_spec c "B") as [->|]; [apply (X_pre "B" 2); [cbn; tauto|now apply parse_base]|].
        destruct (Ascii.eqb_spec c "o") as [->|]; [congruence|].
        destruct (Ascii.eqb_spec c "O") as [->|]; [apply (X_pre "O" 8); [cbn; tauto|now apply parse_base]|].
        destruct (Ascii.eqb_spec c "x") as [->|]; [apply (X_pre "x" 16); [cbn; tauto|now apply parse_base]|].
        destruct (Ascii.eqb_spec c "X") as [->|]; [apply (X_pre "X" 16); [cbn; tauto|now apply parse_base]|].
        cbn [orb] in H'. apply X_oct. now apply parse_base.
    + apply X_dec; [exact N|]. apply parse_base. destruct c as [[] [] [] [] [] [] [] []]; first [exact H|congruence].
  - intros [|c r y N I|r y I|p b r y I J].
    + reflexivity.
    + apply parse_base in I. destruct c as [[] [] [] [] [] [] [] []]; first [exact I|congruence].
    + destruct r as [|c r]; [now apply inB_ne in I|]. pose proof (B8 c r y) as K. assert (NB : ~ (digitB 24 c \/ digitB 11 c \/ digitB 33 c)) by tauto.
      assert (Q : forall p b, In (p, b) [("b", 2); ("B", 2); ("o", 8); ("O", 8); ("x", 16); ("X", 16)]%char%Z -> Ascii.eqb c p = false).
      { intros p b L. apply Ascii.eqb_neq. intros ->. apply NB. exact (NP p b L). }
      assert (U : parseUint0 ("0"%char :: c :: r) = Some y).
      { apply parse_base in I. destruct r as [|d r]; [exact I|]. cbn [parseUint0].
        rewrite (Q "b" 2)%char%Z, (Q "B" 2)%char%Z, (Q "o" 8)%char%Z, (Q "O" 8)%char%Z, (Q "x" 16)%char%Z, (Q "X" 16)%char%Z by (cbn; tauto). exact I. }
      pose proof (Q "o"%char 8%Z ltac:(cbn; tauto)) as Qo. apply Ascii.eqb_neq in Qo.
      destruct c as [[] [] [] [] [] [] [] []]; first [exact U|congruence].
    + destruct r as [|d r]; [now apply inB_ne in J|]. apply parse_base in J. destruct I as [I|[I|[I|[I|[I|[I|[]]]]]]]; injection I as <- <-; exact J.
Qed.
Lemma without_fun x l t : without x l t <-> t = filter (fun c => negb (Ascii.eqb c x)) l.
Proof.
  split.
  - induction 1 as [|l t H IH|c l t N H IH]; cbn [filter]; [reflexivity|now rewrite Ascii.eqb_refl|]. apply Ascii.eqb_neq in N. rewrite N. cbn [negb]. now rewrite IH.
  - intros ->. induction l as [|c l IH]; cbn [filter]; [constructor|]. destruct (Ascii.eqb_spec c x) as [->|N]; cbn [negb]; now constructor.
Qed.
Lemma sign_cases l : (exists r, l = "-"%char :: r /\ signOf l = ((-1)%Z, r)) \/ (exists r, l = "+"%char :: r /\ signOf l = (1%Z, r)) \/
  ((forall r, l <> "+"%char :: r) /\ (forall r, l <> "-"%char :: r) /\ signOf l = (1%Z, l)).
Proof.
  destruct l as [|c r]; [right; right; repeat split; try reflexivity; discriminate|].
  destruct (ascii_dec c "-") as [->|M]; [left; eexists; split; reflexivity|]. destruct (ascii_dec c "+") as [->|P]; [right; left; eexists; split; reflexivity|].
  right. right. split; [congruence|]. split; [congruence|]. destruct c as [[] [] [] [] [] [] [] []]; first [reflexivity|congruence].
Qed.
Lemma in64b_spec z : in64b z = true <-> in64 z.
Proof. unfold in64b, in64. rewrite andb_true_iff, !Z.leb_le. tauto. Qed.
Lemma int_text l z : resolveInt l = Some z <-> in64 z /\ exists t, without "_"%char l t /\ withSign natText t z.
Proof.
  transitivity (in64 z /\ withSign natText (noUnderscores l) z).
  2: { split; intros [A B]; (split; [exact A|]); [eexists; split; [now apply without_fun|exact B]|]. destruct B as (t & W & B). apply without_fun in W. now subst. }
  unfold resolveInt. generalize (noUnderscores l) as t. intro t. unfold withSign.
  assert (K : forall s v, (let n := if (match v with ["0"%char] => true | _ => false end) then Some 0%Z else match v with "0"%char :: "o"%char :: r => parseBase 8 r | _ => parseUint0 v end in
    match n with Some z => if in64b (s * z) then Some (s * z)%Z else None | None => None end) = Some z <-> in64 z /\ exists y, natText v y /\ z = (s * y)%Z).
  { intros s v. cbv zeta. pose proof (nat_text v) as NT. match type of (NT 0%Z) with ?n = _ <-> _ => revert NT; generalize n end. intros [y|] NT.
    - specialize (proj1 (NT y) eq_refl) as Y. split.
      + destruct (in64b (s * y)) eqn:R; [|discriminate]. intros [= <-]. split; [now apply in64b_spec|eauto].
      + intros (R & y' & Y' & ->). apply NT in Y'. injection Y' as <-. apply in64b_spec in R. now rewrite R.
    - split; [discriminate|]. intros (R & y' & Y' & _). apply NT in Y'. discriminate Y'. }
  destruct (sign_cases t) as [(r & -> & ->)|[(r & -> & ->)|(NP & NM & ->)]]; rewrite K; (apply and_iff_compat_l).
  - split.
    + intros (y & Y & ->). right. right. exists r. split; [reflexivity|]. now replace (- (-1 * y))%Z with y by lia.
    + intros [(_ & _ & B)|[(r' & E & _)|(r' & E & Y)]]; [now destruct (B r)|discriminate E|]. injection E as <-. exists (- z)%Z. split; [exact Y|lia].
  - split.
    + intros (y & Y & ->). right. left. exists r. split; [reflexivity|]. now rewrite Z.mul_1_l.
    + intros [(_ & B & _)|[(r' & E & Y)|(r' & E & Y)]]; [now destruct (B r)| |discriminate E]. injection E as <-. exists z. split; [exact Y|lia].
  - split.
    + intros (y & Y & ->). left. rewrite Z.mul_1_l. auto.
    + intros [(Y & _)|[(r' & E & Y)|(r' & E & Y)]]; [exists z; split; [exact Y|lia]|now apply NP in E|now apply NM in E].
Qed.

(** * Times *)
Lemma isDig_b c : isDigit c = true <-> isDig c.
Proof.
  unfold isDig. split.
  - intro H. destruct c as [[] [] [] [] [] [] [] []]; vm_compute in H; try discriminate H; vm_compute; tauto.
  - intro H. cbn in H. repeat (destruct H as [<-|H]; [reflexivity|]). destruct H.
Qed.
Definition noDig (l : list ascii) : Prop := match l with [] => True | c :: _ => isDigit c = false end.
Lemma two_some l z r : two l = Some (z, r) -> exists d, l = d ++ r /\ digs 1 2 d.
Proof.
  unfold two. destruct l as [|a [|b q]]; [discriminate| |].
  - destruct (isDigit a) eqn:A; [|discriminate]. intros [= <- <-]. apply isDig_b in A. exists [a]. split; [reflexivity|split; [repeat (apply Forall_cons; [assumption|]); constructor|cbn; lia]].
  - destruct (isDigit a) eqn:A; cbn [andb]; [|discriminate]. apply isDig_b in A. destruct (isDigit b) eqn:B; intros [= <- <-].
    + apply isDig_b in B. exists [a; b]. split; [reflexivity|split; [repeat (apply Forall_cons; [assumption|]); constructor|cbn; lia]].
    + exists [a]. split; [reflexivity|split; [repeat (apply Forall_cons; [assumption|]); constructor|cbn; lia]].
Qed.
Lemma two_digs d r : digs 1 2 d -> noDig r -> exists z, two (d ++ r) = Some (z, r).
Proof.
  intros [F L] N. destruct d as [|a [|b [|c d]]]; cbn in L; try lia.
  - inversion F as [|? ? A _]; subst. apply isDig_b in A. cbn [app]. unfold two. rewrite A. destruct r as [|x r]; [eauto|]. cbn in N. rewrite N. cbn. eauto.
  - inversion F as [|? ? A F']; subst. inversion F' as [|? ? B _]; subst. apply isDig_b in A, B. cbn [app]. unfold two. rewrite A, B. cbn. eauto.
Qed.
Lemma pair_some l z r : pair l = Some (z, r) -> exists d, l = d ++ r /\ digs 2 2 d.
Proof.
  unfold pair. destruct l as [|a [|b q]]; try discriminate. destruct (isDigit a) eqn:A; cbn [andb]; [|discriminate]. destruct (isDigit b) eqn:B; [|discriminate].
  intros [= <- <-]. apply isDig_b in A, B. exists [a; b]. split; [reflexivity|split; [repeat (apply Forall_cons; [assumption|]); constructor|cbn; lia]].
Qed.
Lemma pair_digs d r : digs 2 2 d -> exists z, pair (d ++ r) = Some (z, r).
Proof.
  intros [F L]. destruct d as [|a [|b [|c d]]]; cbn in L; try lia. inversion F as [|? ? A F']; subst. inversion F' as [|? ? B _]; subst. apply isDig_b in A, B.
  cbn [app]. unfold pair. rewrite A, B. cbn. eauto.
Qed.
Lemma lit_some c l r : lit c l = Some r <-> l = c :: r.
Proof. unfold lit. destruct l as [|a q]; [split; discriminate|]. destruct (Ascii.eqb_spec a c) as [->|N]; split; congruence. Qed.
Lemma span_split p l : l = fst (span p l) ++ snd (span p l) /\ Forall (fun c => p c = true) (fst (span p l)) /\ match snd (span p l) with [] => True | c :: _ => p c = false end.
Proof.
  induction l as [|c l (A & B & C)]; cbn [span]; [repeat split; constructor|]. destruct (p c) eqn:P; [|cbn; repeat split; [constructor|exact P]].
  destruct (span p l) as [a b]. cbn [fst snd] in *. split; [cbn; now f_equal|]. split; [now constructor|exact C].
Qed.
Lemma span_app p a b : Forall (fun c => p c = true) a -> match b with [] => True | c :: _ => p c = false end -> span p (a ++ b) = (a, b).
Proof.
  intros F N. induction F as [|c a P F IH]; cbn [app span].
  - destruct b as [|x b]; [reflexivity|]. cbn [span]. now rewrite N.
  - now rewrite P, IH.
Qed.
Lemma blank_b c : isBlank c = true <-> In c [" "; "009"]%char.
Proof.
  unfold isBlank. rewrite orb_true_iff, !Ascii.eqb_eq. cbn. intuition congruence.
Qed.
Lemma blanks_b l : blanks l <-> Forall (fun c => isBlank c = true) l.
Proof. unfold blanks. rewrite !Forall_forall. split; intros H c I; apply blank_b; auto. Qed.
Lemma zone_spec z : zone z = true <-> zoneText z.
Proof.
  unfold zone. destruct z as [|x z]; [split; [now left|reflexivity]|]. remember (x :: z) as l eqn:El. assert (NE : l <> []) by (subst; discriminate). clear El.
  destruct (span_split isBlank l) as (A & B & C). split.
  - intro H. right. exists (fst (span isBlank l)), (snd (span isBlank l)). split; [exact A|]. split; [now apply blanks_b|].
    destruct (snd (span isBlank l)) as [|c r]; [discriminate H|].
    destruct (ascii_dec c "Z") as [->|NZ].
    + destruct r as [|y r]; [now left|]. cbn in H. discriminate H.
    + right. assert (H' : (Ascii.eqb c "+" || Ascii.eqb c "-") && match two r with Some (_, []) => true | Some (_, ":"%char :: m) => match m with [] => true | _ => match pair m with Some (_, []) => true | _ => false end end | _ => false end = true)
        by (destruct c as [[] [] [] [] [] [] [] []]; first [exact H|congruence]). clear H.
      apply andb_true_iff in H' as [S H]. exists c. destruct (two r) as [[h q]|] eqn:T; [|discriminate H]. apply two_some in T as (d & -> & D). exists d.
      rewrite orb_true_iff, !Ascii.eqb_eq in S. assert (SI : In c ["+"; "-"]%char) by (cbn; intuition).
      destruct q as [|q m]; [exists []; repeat split; auto; apply D|]. destruct (ascii_dec q ":") as [->|NQ].
      * exists (":"%char :: m). split; [exact SI|]. split; [exact D|]. split; [|reflexivity]. right. exists m. split; [reflexivity|].
        destruct m as [|m1 m]; [now left|]. right. destruct (pair (m1 :: m)) as [[u [|? ?]]|] eqn:P; try discriminate H. apply pair_some in P as (e & E1 & E). rewrite app_nil_r in E1. now subst e.
      * exfalso. destruct q as [[] [] [] [] [] [] [] []]; first [discriminate H|congruence].
  - intros [->|(b & r & -> & Bl & R)]; [congruence|]. apply blanks_b in Bl.
    destruct R as [->|(sg & h & m & SI & Hh & M & ->)].
    + rewrite (span_app isBlank b ["Z"%char]) by (try exact Bl; reflexivity). destruct (b ++ _); reflexivity.
    + rewrite (span_app isBlank b (sg :: h ++ m)) by (try exact Bl; destruct SI as [<-|[<-|[]]]; reflexivity).
      assert (X : (Ascii.eqb sg "+" || Ascii.eqb sg "-") && match two (h ++ m) with Some (_, []) => true | Some (_, ":"%char :: m) => match m with [] => true | _ => match pair m with Some (_, []) => true | _ => false end end | _ => false end = true).
      { assert (NM : noDig m) by (destruct M as [->|(mm & -> & _)]; [exact Logic.I|reflexivity]). destruct (two_digs h m Hh NM) as (u & ->).
        replace (Ascii.eqb sg "+" || Ascii.eqb sg "-") with true by (destruct SI as [<-|[<-|[]]]; reflexivity). cbn [andb].
        destruct M as [->|(mm & -> & [->|Dm])]; [reflexivity|reflexivity|]. destruct (pair_digs mm [] Dm) as (w & Ew). rewrite app_nil_r in Ew. rewrite Ew. destruct mm; reflexivity. }
      cbn [snd]. destruct SI as [<-|[<-|[]]]; destruct (b ++ _); exact X || reflexivity.
Qed.
Lemma four_digs l : (exists a b c d, l = [a; b; c; d] /\ forallb isDigit [a; b; c; d] = true) <-> digs 4 4 l.
Proof.
  split.
  - intros (a & b & c & d & -> & H). cbn [forallb] in H. rewrite !andb_true_iff, !isDig_b in H. split; [|cbn; lia]. repeat (apply Forall_cons; [tauto|]). constructor.
  - intros [F L]. destruct l as [|a [|b [|c [|d [|e l]]]]]; cbn in L; try lia. exists a, b, c, d. split; [reflexivity|].
    rewrite Forall_forall in F. apply forallb_forall. intros x I. now apply isDig_b, F.
Qed.
Lemma time_some y mo d l t : parseTime y mo d l = Some t <-> exists h m s fr z, l = h ++ ":"%char :: m ++ ":"%char :: s ++ fr ++ z /\ digs 1 2 h /\ digs 2 2 m /\ digs 2 2 s /\
  (fr = [] \/ exists ds, fr = "."%char :: ds /\ Forall isDig ds) /\ zoneText z /\ parseTime y mo d l = Some t.
Proof.
  split; [|intros (h & m & s & fr & z & _ & _ & _ & _ & _ & _ & H); exact H]. intro H0. pose proof H0 as H. unfold parseTime in H.
  destruct (two l) as [[h r]|] eqn:T; [|discriminate H]. apply two_some in T as (hd & -> & D). destruct (lit ":" r) as [r1|] eqn:L1; [|discriminate H]. apply lit_some in L1. subst r.
  destruct (pair r1) as [[mi r2]|] eqn:P1; [|discriminate H]. apply pair_some in P1 as (md & -> & Dm). destruct (lit ":" r2) as [r3|] eqn:L2; [|discriminate H]. apply lit_some in L2. subst r2.
  destruct (pair r3) as [[s r4]|] eqn:P2; [|discriminate H]. apply pair_some in P2 as (sd & -> & Ds).
  destruct r4 as [|c r5].
  - exists hd, md, sd, [], []. repeat split; try apply D; try apply Dm; try apply Ds; auto. now left.
  - destruct (ascii_dec c ".") as [->|N].
    + destruct (span isDigit r5) as [fr z] eqn:Sp. destruct (zone z) eqn:Z; [|discriminate H]. destruct (span_split isDigit r5) as (A & B & _). rewrite Sp in A, B. cbn [fst snd] in A, B. subst r5.
      exists hd, md, sd, ("."%char :: fr), z. split; [reflexivity|]. do 3 (split; [assumption|]). split; [right; exists fr; split; [reflexivity|]|split; [now apply zone_spec|exact H0]].
      rewrite Forall_forall in *. intros x I. now apply isDig_b, B.
    + assert (Z : zone (c :: r5) = true). { destruct c as [[] [] [] [] [] [] [] []]; try congruence; (destruct (zone _) eqn:Z; [reflexivity|discriminate H]). }
      exists hd, md, sd, [], (c :: r5). do 4 (split; [assumption || reflexivity|]). split; [now left|]. split; [now apply zone_spec|exact H0].
Qed.
Lemma time_ex y mo d h m s fr z : digs 1 2 h -> digs 2 2 m -> digs 2 2 s -> (fr = [] \/ exists ds, fr = "."%char :: ds /\ Forall isDig ds) -> zoneText z ->
  exists t, parseTime y mo d (h ++ ":"%char :: m ++ ":"%char :: s ++ fr ++ z) = Some t.
Proof.
  intros Dh Dm Ds F Z. unfold parseTime. destruct (two_digs h (":"%char :: m ++ ":"%char :: s ++ fr ++ z) Dh eq_refl) as (u & ->). cbn [lit]. rewrite Ascii.eqb_refl.
  destruct (pair_digs m (":"%char :: s ++ fr ++ z) Dm) as (v & ->). cbn [lit]. rewrite Ascii.eqb_refl. destruct (pair_digs s (fr ++ z) Ds) as (w & ->).
  assert (ZB : zone z = true) by now apply zone_spec. assert (NZ : match z with [] => True | c :: _ => isDigit c = false /\ c <> "."%char end).
  { destruct Z as [->|(b & r & -> & Bl & R)]; [exact Logic.I|]. destruct b as [|c b]; [|inversion Bl as [|? ? [<-|[<-|[]]] _]; subst; cbn; split; [reflexivity|discriminate|reflexivity|discriminate]].
    cbn [app]. destruct R as [->|(sg & h' & m' & SI & _ & _ & ->)]; [split; [reflexivity|discriminate]|]. destruct SI as [<-|[<-|[]]]; split; try reflexivity; discriminate. }
  destruct F as [->|(ds & -> & F)]; cbn [app].
  - destruct z as [|c z]; [cbn [zone]; eauto|]. destruct NZ as [_ NZ]. destruct c as [[] [] [] [] [] [] [] []]; try congruence; rewrite ZB; eauto.
  - rewrite (span_app isDigit ds z); [rewrite ZB; eauto| |]; [rewrite Forall_forall in *; intros x I; now apply isDig_b, F|destruct z; [exact Logic.I|apply NZ]].
Qed.
Lemma stamp_text s : (exists t, parseStamp (chars s) = Some t) <-> timeText s.
Proof.
  unfold timeText. generalize (chars s) as l. clear s. intro l. split.
  - intros (t & H). unfold parseStamp in H. destruct l as [|a [|b [|c [|d r]]]]; try discriminate H. destruct (forallb isDigit [a; b; c; d]) eqn:F; [|discriminate H].
    destruct (lit "-" r) as [r1|] eqn:L1; [|discriminate H]. apply lit_some in L1. subst r. destruct (two r1) as [[mo r2]|] eqn:T1; [|discriminate H]. apply two_some in T1 as (md & -> & Dm).
    destruct (lit "-" r2) as [r3|] eqn:L2; [|discriminate H]. apply lit_some in L2. subst r2. destruct (two r3) as [[dd r4]|] eqn:T2; [|discriminate H]. apply two_some in T2 as (dg & -> & Dd).
    exists [a; b; c; d], md, dg, r4. split; [reflexivity|]. split; [apply four_digs; eauto 6|]. split; [exact Dm|]. split; [exact Dd|].
    destruct r4 as [|x q]; [now left|]. right. destruct (Ascii.eqb x "T" || Ascii.eqb x "t") eqn:TT.
    + apply time_some in H as (h & m & sc & fr & z & -> & Dh & Dmi & Ds & Fr & Z & _). exists [x], h, m, sc, fr, z. split; [reflexivity|]. split; [|repeat (split; [assumption|]); assumption].
      left. rewrite orb_true_iff, !Ascii.eqb_eq in TT. cbn. destruct TT as [->| ->]; auto.
    + destruct (isBlank x) eqn:BX; [|discriminate H]. apply time_some in H as (h & m & sc & fr & z & E & Dh & Dmi & Ds & Fr & Z & _). destruct (span_split isBlank (x :: q)) as (A & B & _).
      exists (fst (span isBlank (x :: q))), h, m, sc, fr, z. split; [rewrite <- E; exact A|]. split; [|repeat (split; [assumption|]); assumption]. right. split; [now apply blanks_b|].
      cbn [span]. rewrite BX. destruct (span isBlank q). discriminate.
  - intros (y & m & d & r & -> & Dy & Dm & Dd & R). apply four_digs in Dy as (a & b & c & e & -> & F). cbn [app]. unfold parseStamp. rewrite F. cbn [lit]. rewrite Ascii.eqb_refl.
    destruct (two_digs m ("-"%char :: d ++ r) Dm eq_refl) as (u & ->). cbn [lit]. rewrite Ascii.eqb_refl.
    assert (NR : noDig r). { destruct R as [->|(sep & h & mi & sc & fr & z & -> & S & _)]; [exact Logic.I|]. destruct S as [[<-|[<-|[]]]|[B N]]; [reflexivity|reflexivity|]. destruct sep as [|x sep]; [congruence|]. inversion B as [|? ? [<-|[<-|[]]] _]; subst; reflexivity. }
    destruct (two_digs d r Dd NR) as (w & ->). destruct R as [->|(sep & h & mi & sc & fr & z & -> & S & Dh & Dmi & Ds & Fr & Z)]; [eauto|].
    destruct S as [[<-|[<-|[]]]|[B N]]; [cbn; now apply time_ex|cbn; now apply time_ex|]. apply blanks_b in B. destruct sep as [|x sep]; [congruence|]. cbn [app].
    inversion B as [|? ? BX B']; subst. replace (Ascii.eqb x "T" || Ascii.eqb x "t") with false by (apply blank_b in BX; destruct BX as [<-|[<-|[]]]; reflexivity). rewrite BX.
    change (x :: sep ++ h ++ ":"%char :: mi ++ ":"%char :: sc ++ fr ++ z) with ((x :: sep) ++ h ++ ":"%char :: mi ++ ":"%char :: sc ++ fr ++ z).
    rewrite span_app; [cbn [snd]; now apply time_ex|exact B|]. destruct Dh as [Fh Lh]. destruct h as [|h1 h]; [cbn in Lh; lia|]. cbn [app]. inversion Fh as [|? ? Q _]; subst.
    unfold isDig in Q. cbn in Q. repeat (destruct Q as [<-|Q]; [reflexivity|]). destruct Q.
Qed.

(** * The styles of written scalars *)
Lemma known a r : (width a <= S (List.length r))%nat -> (exists b, isBreak (a :: r) = Some b) /\ (exists b, isBlankz (a :: r) = Some b) /\ (exists b, isPrintable (a :: r) = Some b).
Proof.
  intro W.
  assert (N1 : bytev a = 194 \/ bytev a = 226 \/ bytev a = 237 \/ bytev a = 239 -> exists x q, r = x :: q).
  { intro E. destruct r as [|x q]; [|eauto]. exfalso. unfold width in W. cbn [List.length] in W. destruct E as [E|[E|[E|E]]]; rewrite E in W; cbn in W; lia. }
  assert (N2 : bytev a = 226 \/ bytev a = 239 -> exists x y q, r = x :: y :: q).
  { intro E. destruct r as [|x [|y q]]; [| |eauto]; exfalso; unfold width in W; cbn [List.length] in W; destruct E as [E|E]; rewrite E in W; cbn in W; lia. }
  assert (B : exists b, isBreak (a :: r) = Some b).
  { unfold isBreak, byteAt. cbn [nth_error]. destruct (_ || _); [eauto|]. destruct (Z.eqb_spec (bytev a) 194) as [E|_]; [destruct N1 as (x & q & ->); [tauto|]; cbn; eauto|].
    destruct (Z.eqb_spec (bytev a) 226) as [E|_]; [|eauto]. destruct N2 as (x & y & q & ->); [tauto|]. cbn. destruct (_ =? 128)%Z; eauto. }
  split; [exact B|]. split.
  - unfold isBlankz. destruct B as (b & B). rewrite B. unfold byteAt. cbn [nth_error]. destruct (_ || _); [eauto|]. destruct b; eauto.
  - unfold isPrintable, byteAt. cbn [nth_error]. destruct (_ || _); [eauto|]. destruct (Z.eqb_spec (bytev a) 194) as [E|_]; [destruct N1 as (x & q & ->); [tauto|]; cbn; eauto|].
    destruct (_ && _); [eauto|]. destruct (Z.eqb_spec (bytev a) 237) as [E|_]; [destruct N1 as (x & q & ->); [tauto|]; cbn; eauto|].
    destruct (_ =? 238)%Z; [eauto|]. destruct (Z.eqb_spec (bytev a) 239) as [E|_]; [|eauto]. destruct N2 as (x & y & q & ->); [tauto|]. cbn.
    destruct (_ =? 187)%Z; [eauto|]. destruct (_ =? 191)%Z; eauto.
Qed.
Lemma width_is a : forall n lo hi, between lo hi a -> In (n, lo, hi) [(1%nat, 0, 127); (2%nat, 194, 223); (3%nat, 224, 239); (4%nat, 240, 244)] -> width a = n.
Proof.
  intros n lo hi B I. unfold between in B. unfold width. cbn in I.
  destruct I as [I|[I|[I|[I|[]]]]]; injection I as <- <- <-.
  - replace (bytev a <? 128)%Z with true by (symmetry; apply Z.ltb_lt; lia). reflexivity.
  - replace (bytev a <? 128)%Z with false by (symmetry; apply Z.ltb_ge; lia). replace (192 <=? bytev a)%Z with true by (symmetry; apply Z.leb_le; lia). replace (bytev a <? 224)%Z with true by (symmetry; apply Z.ltb_lt; lia). reflexivity.
  - replace (bytev a <? 128)%Z with false by (symmetry; apply Z.ltb_ge; lia). replace (bytev a <? 224)%Z with false by (symmetry; apply Z.ltb_ge; lia). rewrite andb_false_r.
    replace (224 <=? bytev a)%Z with true by (symmetry; apply Z.leb_le; lia). replace (bytev a <? 240)%Z with true by (symmetry; apply Z.ltb_lt; lia). reflexivity.
  - replace (bytev a <? 128)%Z with false by (symmetry; apply Z.ltb_ge; lia). replace (bytev a <? 224)%Z with false by (symmetry; apply Z.ltb_ge; lia). rewrite andb_false_r.
    replace (bytev a <? 240)%Z with false by (symmetry; apply Z.ltb_ge; lia). rewrite andb_false_r. replace (240 <=? bytev a)%Z with true by (symmetry; apply Z.leb_le; lia). replace (bytev a <? 248)%Z with true by (symmetry; apply Z.ltb_lt; lia). reflexivity.
Qed.
Lemma utf8_char a r : utf8Text (a :: r) -> width a <> 0%nat /\ (width a <= S (List.length r))%nat /\ utf8Text (skipn (width a) (a :: r)).
Proof.
  intro U. inversion U as [|x l Ra H|x b l Ra Rb H|x b c l R Rc H|x b c d l R Rc Rd H]; subst.
  - rewrite (width_is a 1%nat 0 127) by (try exact Ra; cbn; tauto). cbn. repeat split; auto; lia.
  - rewrite (width_is a 2%nat 194 223) by (try exact Ra; cbn; tauto). cbn. repeat split; auto; lia.
  - rewrite (width_is a 3%nat 224 239) by (try (cbn; tauto); unfold between in *; lia). cbn. repeat split; auto; lia.
  - rewrite (width_is a 4%nat 240 244) by (try (cbn; tauto); unfold between in *; lia). cbn. repeat split; auto; lia.
Qed.
Lemma look_done first s a r : utf8Text (a :: r) -> exists s', look first s a (a :: r) = Done s'.
Proof.
  intro U. destruct (utf8_char a r U) as (W0 & W & U'). destruct (known a r W) as ((b & B) & (z & Z) & (p & P)). unfold look. rewrite P, B, Z. cbn [need].
  destruct (skipn (width a) (a :: r)) as [|x q] eqn:E; [cbn [need]; eauto|]. destruct (utf8_char x q U') as (_ & W' & _). destruct (known x q W') as (_ & (z' & Z') & _). rewrite Z'. cbn [need]. eauto.
Qed.
Lemma lookAll_done : forall n first s l, utf8Text l -> (List.length l <= n)%nat -> exists s', lookAll n first s l = Done s'.
Proof.
  induction n as [|n IH]; intros first s l U L; destruct l as [|a r]; cbn [lookAll]; [eauto|cbn in L; lia|eauto|].
  destruct (look_done first s a r U) as (s' & ->). destruct (utf8_char a r U) as (W0 & W & U'). destruct (width a) as [|w] eqn:E; [congruence|]. apply IH; [exact U'|].
  rewrite skipn_length. cbn in *. lia.
Qed.
Lemma analyze_done l : utf8Text l -> exists a, analyze l = Done a.
Proof.
  intro U. unfold analyze. destruct l as [|c r]; [eauto|]. match goal with |- context [lookAll ?n ?f ?s ?l] => destruct (lookAll_done n f s l U) as (s' & ->); [lia|] end. eauto.
Qed.
(** texts of digits, letters, '+', '-' and '.' *)
Definition mild (c : ascii) : bool := isDigit c || ((97 <=? bytev c) && (bytev c <=? 122))%Z || ((65 <=? bytev c) && (bytev c <=? 90))%Z || Ascii.eqb c "+" || Ascii.eqb c "-" || Ascii.eqb c ".".
Lemma mild_char c r : mild c = true -> isBreak (c :: r) = Some false /\ isBlankz (c :: r) = Some false /\ isPrintable (c :: r) = Some true /\ width c = 1%nat /\ (bytev c <? 128)%Z = true /\
  existsb (Ascii.eqb c) headers = false /\ Ascii.eqb c " " = false /\ Ascii.eqb c "?" = false /\ Ascii.eqb c ":" = false /\ Ascii.eqb c "#" = false.
Proof.
  intro H. destruct c as [[] [] [] [] [] [] [] []]; vm_compute in H; try discriminate H; repeat split; reflexivity.
Qed.
Definition calm (p : bool) : seen := mkSeen false false false false false false false false false p false false.
Lemma look_mild first p c r : mild c = true -> Forall (fun c => mild c = true) r -> (first = true -> c <> "-"%char \/ r <> []) -> look first (calm p) c (c :: r) = Done (calm false).
Proof.
  intros M F D. destruct (mild_char c r M) as (B & Z & P & W & A & H & S & Q & C & X). unfold look. rewrite W. cbn [skipn]. rewrite P, B, Z. cbn [need].
  assert (FW : match r with [] => Some true | _ :: _ => isBlankz r end = Some (match r with [] => true | _ => false end)).
  { destruct r as [|x q]; [reflexivity|]. inversion F as [|? ? Mx _]; subst. apply (mild_char x q Mx). }
  rewrite FW. cbn [need]. rewrite A, S, C, X, H, Q. cbn [negb orb andb calm s_block s_breaks s_special s_leadSpace s_leadBreak s_trailSpace s_trailBreak s_breakSpace s_spaceBreak s_prevSpace s_prevBreak].
  assert (BL : (if first then Ascii.eqb c "-" && match r with [] => true | _ :: _ => false end else false) = false).
  { destruct first; [|reflexivity]. destruct (Ascii.eqb_spec c "-") as [->|]; [|reflexivity]. destruct (D eq_refl) as [N|N]; [congruence|]. destruct r; [congruence|reflexivity]. }
  rewrite BL. reflexivity.
Qed.
Lemma lookAll_mild : forall n first p l, Forall (fun c => mild c = true) l -> (List.length l <= n)%nat -> (first = true -> l <> ["-"%char]) -> exists q, lookAll n first (calm p) l = Done (calm q).
Proof.
  induction n as [|n IH]; intros first p l F L D; destruct l as [|c r]; cbn [lookAll]; [eauto|cbn in L; lia|eauto|]. inversion F as [|? ? M F']; subst.
  rewrite look_mild; [|exact M|exact F'|].
  - destruct (mild_char c r M) as (_ & _ & _ & W & _). rewrite W. cbn [skipn]. apply IH; [exact F'|cbn in L; lia|discriminate].
  - intro E. specialize (D E). destruct (ascii_dec c "-") as [->|N]; [|now left]. right. congruence.
Qed.
Lemma analyze_mild l : Forall (fun c => mild c = true) l -> l <> [] -> l <> ["-"%char] -> (forall r, l <> "-"%char :: "-"%char :: r) -> (forall r, l <> "."%char :: "."%char :: r) ->
  analyze l = Done (mkAllowed false true true true).
Proof.
  intros F N M D P. unfold analyze. destruct l as [|a q]; [congruence|].
  replace (match q with b :: c :: _ => existsb (fun x => Ascii.eqb a x && Ascii.eqb b x && Ascii.eqb c x) ["-"; "."]%char | _ => false end) with false.
  2: { symmetry. destruct q as [|b [|c q]]; try reflexivity. apply not_true_iff_false. rewrite existsb_exists. intros (x & I & E). rewrite !andb_true_iff, !Ascii.eqb_eq in E. destruct E as [[E1 E2] E3]. subst a b c.
       destruct I as [<-|[<-|[]]]; [now destruct (D ("-"%char :: q))|now destruct (P ("."%char :: q))]. }
  destruct (lookAll_mild (List.length (a :: q)) true true (a :: q) F (le_n _) (fun _ => M)) as (z & E). unfold calm in E at 1. rewrite E. reflexivity.
Qed.

(** * Reading plain scalars *)
Section Thms.
Variable parseFloat : string -> option spec_float.
Variable formatG : spec_float -> string.
Notation resolveInterface := (resolveInterface parseFloat).
Notation resolveFloat := (resolveFloat parseFloat).
Notation floatText := (floatText parseFloat).
(** a plain scalar is read as *)
Definition reads (s : string) (y : yval) : Prop := snd (resolveInterface true s) = y.

Lemma signDigit c : (Ascii.eqb c "-" || Ascii.eqb c "+" || isDigit c) = true <-> In c (chars "+-0123456789").
Proof.
  split.
  - intro H. destruct c as [[] [] [] [] [] [] [] []]; vm_compute in H; try discriminate H; vm_compute; tauto.
  - intro H. cbn in H. repeat (destruct H as [<-|H]; [reflexivity|]). destruct H.
Qed.
Lemma float_word t : forall f neg,
  (let w := lowerS (ofchars t) in
   if String.eqb w ".inf" then Some (S754_infinity neg) else if String.eqb w ".nan" then Some S754_nan else option_map (fun g => if neg then SFopp g else g) (parseFloat (ofchars t))) = Some f
  <-> floatWord parseFloat neg t f.
Proof.
  intros f neg. cbv zeta.
  assert (Q : forall w, small w = true -> (lowerS (ofchars t) = String "." w <-> exists v, anyCase v w /\ t = "."%char :: chars v)).
  { intros w S. split.
    - intro E. destruct t as [|c t]; [discriminate E|]. cbn [ofchars string_of_list_ascii lowerS] in E. injection E as E1 E2. exists (ofchars t). split; [now apply lower_any|].
      rewrite chars_ofchars. f_equal. unfold lowerC in E1. destruct (_ && _) eqn:R; [|congruence]. exfalso. rewrite andb_true_iff, !Z.leb_le in R. apply (f_equal bytev) in E1. rewrite bytev_byteof in E1 by lia. cbn in E1. lia.
    - intros (v & A & ->). cbn [ofchars string_of_list_ascii lowerS]. change (string_of_list_ascii (chars v)) with (ofchars (chars v)). rewrite ofchars_chars. apply lower_any in A; [|exact S]. rewrite A. reflexivity. }
  pose proof (Q "inf" eq_refl) as QI. pose proof (Q "nan" eq_refl) as QN. unfold floatWord.
  destruct (String.eqb_spec (lowerS (ofchars t)) ".inf") as [E|NI].
  - destruct (proj1 QI E) as (v & A & Et). split; [intros [= <-]; left; eauto|].
    intros [(v' & _ & _ & ->)|[(v' & A' & Et' & ->)|(N & _)]]; [reflexivity| |].
    + exfalso. assert (X : lowerS (ofchars t) = ".nan") by (apply QN; eauto). congruence.
    + exfalso. apply (N v); auto.
  - destruct (String.eqb_spec (lowerS (ofchars t)) ".nan") as [E|NN].
    + destruct (proj1 QN E) as (v & A & Et). split; [intros [= <-]; right; left; eauto|].
      intros [(v' & A' & Et' & ->)|[(v' & A' & Et' & ->)|(N & _)]]; [|reflexivity|].
      * exfalso. apply NI. apply QI. eauto.
      * exfalso. apply (N v); auto.
    + split.
      * destruct (parseFloat (ofchars t)) as [g|] eqn:P; [|discriminate]. intros [= <-]. right. right. split; [|eauto].
        intros w [A|A] Et; [apply NI|apply NN]; [apply QI|apply QN]; eauto.
      * intros [(v & A & Et & _)|[(v & A & Et & _)|(_ & g & P & ->)]]; [exfalso; apply NI, QI; eauto|exfalso; apply NN, QN; eauto|]. now rewrite P.
Qed.
Lemma float_text l f : resolveFloat l = Some f <-> exists t, without "_"%char l t /\
    ((floatWord parseFloat false t f /\ (forall r, t <> "+"%char :: r) /\ (forall r, t <> "-"%char :: r)) \/
     (exists r, t = "+"%char :: r /\ floatWord parseFloat false r f) \/ (exists r, t = "-"%char :: r /\ floatWord parseFloat true r f)).
Proof.
  unfold Yaml.resolveFloat. change (noUnderscores l) with (filter (fun c => negb (Ascii.eqb c "_")) l). remember (filter _ l) as t eqn:Et. apply without_fun in Et.
  assert (F : forall P : list ascii -> Prop, (exists u, without "_"%char l u /\ P u) <-> P t).
  { intro P. split; [|eauto]. intros (u & W & H). apply without_fun in W, Et. congruence. }
  rewrite (F (fun t => (floatWord parseFloat false t f /\ (forall r, t <> "+"%char :: r) /\ (forall r, t <> "-"%char :: r)) \/
     (exists r, t = "+"%char :: r /\ floatWord parseFloat false r f) \/ (exists r, t = "-"%char :: r /\ floatWord parseFloat true r f))). clear F Et.
  destruct (sign_cases t) as [(r & -> & ->)|[(r & -> & ->)|(NP & NM & ->)]].
  - unfold signed_float. change ((-1 <? 0)%Z) with true. cbv iota. pose proof (float_word r f true) as W. cbv zeta in W. cbv iota in W. rewrite W. clear W.
    split; [intro H; right; right; eauto|]. intros [(_ & _ & B)|[(r' & E & _)|(r' & E & H)]]; [now destruct (B r)|discriminate E|now injection E as <-].
  - unfold signed_float. change ((1 <? 0)%Z) with false. cbv iota. pose proof (float_word r f false) as W. cbv zeta in W. cbv iota in W. rewrite W. clear W.
    split; [intro H; right; left; eauto|]. intros [(_ & B & _)|[(r' & E & H)|(r' & E & _)]]; [now destruct (B r)|now injection E as <-|discriminate E].
  - unfold signed_float. change ((1 <? 0)%Z) with false. cbv iota. pose proof (float_word t f false) as W. cbv zeta in W. cbv iota in W. rewrite W. clear W.
    split; [intro H; left; auto|]. intros [(H & _)|[(r' & E & H)|(r' & E & _)]]; [exact H|now apply NP in E|now apply NM in E].
Qed.
Lemma bool_first s b : resolveBool s = Some b -> exists c r, s = String c r /\ In c (chars "tTfFyYnNoO").
Proof.
  intro H. apply bool_text in H as (w & T & A). destruct w as [|d w]; [destruct b; cbn in T; intuition discriminate|].
  unfold anyCase in A. destruct s as [|c r]; [inversion A|]. exists c, r. split; [reflexivity|]. cbn [chars list_ascii_of_string] in A. inversion A as [|? ? ? ? C _]; subst.
  assert (D : In d ["t"; "f"; "y"; "n"; "o"]%char). { destruct b; cbn in T; destruct T as [T|[T|[T|[T|[]]]]]; injection T as <- _; cbn; tauto. }
  destruct C as [->|C]; [cbn in D; cbn; tauto|]. apply capital_bytev in C as [_ C]. rewrite <- (byteof_bytev c), C.
  destruct D as [<-|[<-|[<-|[<-|[<-|[]]]]]]; vm_compute; tauto.
Qed.
Definition disjoint (A B : list ascii) : bool := forallb (fun a => negb (existsb (Ascii.eqb a) B)) A.
Lemma disj A B c : In c A -> In c B -> disjoint A B = true -> False.
Proof.
  unfold disjoint. rewrite forallb_forall. intros I J H. specialize (H c I). apply negb_true_iff in H. apply not_true_iff_false in H. apply H.
  apply existsb_exists. exists c. split; [exact J|apply Ascii.eqb_refl].
Qed.
Definition nullB (s : string) : bool := String.eqb s "" || nullWord s.
Lemma null_b s : nullB s = true <-> nullText s.
Proof. unfold nullB, nullWord, nullText. cbn. rewrite !orb_true_iff, !String.eqb_eq. intuition congruence. Qed.
Definition headIn (cs : list ascii) (s : string) : bool := match s with String c _ => existsb (Ascii.eqb c) cs | EmptyString => false end.
Lemma head_in cs s : headIn cs s = true <-> starts cs s.
Proof.
  unfold headIn, starts. destruct s as [|c r]; [split; [discriminate|intros (c & r & E & _); discriminate E]|]. rewrite existsb_exists. split.
  - intros (x & I & E). apply Ascii.eqb_eq in E. subst. eauto.
  - intros (x & q & E & I). injection E as <- <-. exists c. now rewrite Ascii.eqb_refl.
Qed.
Lemma stamp_first s t : parseStamp (chars s) = Some t -> exists c r, s = String c r /\ isDigit c = true.
Proof.
  intro H. destruct (proj1 (stamp_text s) (ex_intro _ t H)) as (y & m & d & r & E & Dy & _). destruct s as [|c q].
  - destruct Dy as [_ L]. destruct y; [cbn in L; lia|discriminate E].
  - exists c, q. split; [reflexivity|]. destruct Dy as [F L]. destruct y as [|c' y]; [cbn in L; lia|]. cbn in E. injection E as <- _. inversion F. now apply isDig_b.
Qed.
Definition numHead := headIn (chars "+-0123456789").
Definition floatHead := headIn (chars "+-0123456789.").
Lemma master s : resolveInterface true s =
  if nullB s then (false, YNull) else match resolveBool s with Some b => (false, YBool b) | None =>
  match (if numHead s then resolveInt (chars s) else None) with Some z => (false, YInt z) | None =>
  match (if floatHead s then resolveFloat (chars s) else None) with Some f => (false, YFloat f) | None =>
  match parseStamp (chars s) with Some t => (false, YTime t) | None => (true, YStr s) end end end end.
Proof.
  unfold Yaml.resolveInterface. cbn [negb]. destruct s as [|c r]; [reflexivity|]. cbn [chars list_ascii_of_string]. change (c :: list_ascii_of_string r) with (chars (String c r)).
  set (s := String c r).
  assert (NB : ~ In c (chars "tTfFyYnNoO") -> resolveBool s = None).
  { intro N. destruct (resolveBool s) as [b|] eqn:B; [|reflexivity]. apply bool_first in B as (c' & r' & E & I). injection E as <- <-. tauto. }
  assert (NS : isDigit c = false -> parseStamp (chars s) = None).
  { intro N. destruct (parseStamp (chars s)) eqn:P; [|reflexivity]. apply stamp_first in P as (c' & r' & E & D). injection E as <- <-. congruence. }
  assert (NN : ~ In c ["~"; "n"; "N"]%char -> nullB s = false).
  { intro N. destruct (nullB s) eqn:B; [|reflexivity]. apply null_b in B. exfalso. apply N. destruct B as [B|[B|[B|[B|[B|[]]]]]]; try discriminate B; injection B as <- _; cbn; tauto. }
  assert (HN : numHead s = existsb (Ascii.eqb c) (chars "+-0123456789")) by reflexivity.
  assert (HF : floatHead s = existsb (Ascii.eqb c) (chars "+-0123456789.")) by reflexivity.
  assert (EX : forall cs, existsb (Ascii.eqb c) cs = true <-> In c cs).
  { intro cs. rewrite existsb_exists. split; [intros (x & I & E); apply Ascii.eqb_eq in E; now subst|intro I; exists c; now rewrite Ascii.eqb_refl]. }
  destruct (Ascii.eqb c "-" || Ascii.eqb c "+" || isDigit c) eqn:S.
  - apply signDigit in S. rewrite NN by (intro X; exact (disj _ _ c S X eq_refl)); rewrite NB by (intro X; exact (disj _ _ c S X eq_refl)).
    rewrite HN, (proj2 (EX _) S), HF, (proj2 (EX (chars "+-0123456789."))) by (clear - S; cbn in S |- *; tauto).
    destruct (resolveInt (chars s)); [reflexivity|]. destruct (resolveFloat (chars s)); [reflexivity|]. destruct (isDigit c) eqn:D; [reflexivity|]. now rewrite NS.
  - assert (NSG : ~ In c (chars "+-0123456789")) by (rewrite <- signDigit; congruence). assert (D : isDigit c = false) by (destruct (isDigit c); [rewrite orb_true_r in S; discriminate S|reflexivity]).
    rewrite (NS D), HN, HF. replace (existsb (Ascii.eqb c) (chars "+-0123456789")) with false by (symmetry; apply not_true_iff_false; rewrite EX; exact NSG). cbv iota.
    destruct (Ascii.eqb c "~" || Ascii.eqb c "n" || Ascii.eqb c "N") eqn:Nn.
    + change (nullB s) with (nullWord s). destruct (nullWord s); [reflexivity|]. replace (existsb (Ascii.eqb c) (chars "+-0123456789.")) with false; [reflexivity|].
      symmetry. apply not_true_iff_false. rewrite EX. intro I. rewrite !orb_true_iff, !Ascii.eqb_eq in Nn. refine (disj _ ["~"; "n"; "N"]%char c I _ eq_refl). clear - Nn. cbn. intuition.
    + rewrite NN by (rewrite !orb_false_iff, !Ascii.eqb_neq in Nn; cbn; intuition).
      destruct (Ascii.eqb_spec c ".") as [->|ND].
      * rewrite NB by (cbn; intuition discriminate). cbv iota. reflexivity.
      * replace (existsb (Ascii.eqb c) (chars "+-0123456789.")) with false by (symmetry; apply not_true_iff_false; rewrite EX; cbn in *; intuition).
        destruct (existsb (Ascii.eqb c) ["t"; "T"; "f"; "F"; "y"; "Y"; "o"; "O"]%char) eqn:T; [reflexivity|]. rewrite NB; [reflexivity|].
        intro I. rewrite !orb_false_iff, !Ascii.eqb_neq in Nn. apply not_true_iff_false in T. apply T. apply EX. destruct Nn as [[N1 N2] N3].
        assert (N2' : "n"%char <> c) by congruence. assert (N3' : "N"%char <> c) by congruence. clear - I N2' N3'. cbn in I |- *. tauto.
Qed.
Lemma int_spec s z : (if numHead s then resolveInt (chars s) else None) = Some z <-> intText s z.
Proof.
  unfold intText. rewrite <- head_in. change (headIn (chars "+-0123456789") s) with (numHead s). destruct (numHead s); [|split; [discriminate|intros [X _]; discriminate X]].
  rewrite int_text. tauto.
Qed.
Lemma float_spec s f : (if numHead s then resolveInt (chars s) else None) = None -> ((if floatHead s then resolveFloat (chars s) else None) = Some f <-> floatText s f).
Proof.
  intro NI. assert (N : forall z, ~ intText s z) by (intros z I; apply int_spec in I; congruence).
  unfold YamlSpec.floatText. rewrite <- head_in. change (headIn (chars "+-0123456789.") s) with (floatHead s). destruct (floatHead s); [|split; [discriminate|intros [X _]; discriminate X]].
  rewrite float_text. tauto.
Qed.
Lemma notNull s : nullB s = false -> ~ nullText s.
Proof. intros B N. apply null_b in N. congruence. Qed.
(** first characters tell the kinds apart *)
Lemma null_notBool s b : nullText s -> boolText s b -> False.
Proof. intros N B. apply bool_text in B. destruct N as [<-|[<-|[<-|[<-|[<-|[]]]]]]; discriminate B. Qed.
Lemma null_notNum s cs : nullText s -> starts cs s -> (forall c, In c cs -> In c (chars "+-0123456789.")) -> False.
Proof. intros N (c & r & E & I) H. apply H in I. unfold nullText in N. rewrite E in N. destruct N as [N|[N|[N|[N|[N|[]]]]]]; try discriminate N; injection N as <- _; refine (disj _ ["~"; "n"; "N"]%char _ I _ eq_refl); cbn; tauto. Qed.
Lemma bool_notNum s b cs : boolText s b -> starts cs s -> (forall c, In c cs -> In c (chars "+-0123456789.")) -> False.
Proof.
  intros B (c & r & E & I) H. apply H in I. apply bool_text in B. apply bool_first in B as (c' & r' & E' & I'). rewrite E in E'. injection E' as <- <-.
  exact (disj _ _ c I I' eq_refl).
Qed.
Lemma numFloat c : In c (chars "+-0123456789") -> In c (chars "+-0123456789.").
Proof. cbn. tauto. Qed.
Lemma time_starts s : timeText s -> starts (chars "+-0123456789") s.
Proof. intro T. apply stamp_text in T as (t & T). apply stamp_first in T as (c & r & -> & D). exists c, r. split; [reflexivity|]. apply isDig_b in D. cbn in *. tauto. Qed.

(** ** what a plain scalar is read as: exactly one of these *)
Theorem C62_null : forall s, reads s YNull <-> nullText s.
Proof.
  intro s. unfold reads. rewrite master, <- null_b. destruct (nullB s); [split; reflexivity|]. destruct (resolveBool s); [split; discriminate|].
  destruct (if numHead s then _ else _); [split; discriminate|]. destruct (if floatHead s then _ else _); [split; discriminate|]. destruct (parseStamp _); split; discriminate.
Qed.
Theorem C62_bool : forall s b, reads s (YBool b) <-> boolText s b.
Proof.
  intros s b. unfold reads. rewrite master. destruct (nullB s) eqn:N; [apply null_b in N; split; [discriminate|]; intro B; destruct (null_notBool _ _ N B)|].
  rewrite <- bool_text. destruct (resolveBool s); [cbn; split; congruence|].
  destruct (if numHead s then _ else _); [split; discriminate|]. destruct (if floatHead s then _ else _); [split; discriminate|]. destruct (parseStamp _); split; discriminate.
Qed.
Theorem C62_int : forall s z, reads s (YInt z) <-> intText s z.
Proof.
  intros s z. unfold reads. rewrite master. destruct (nullB s) eqn:N; [apply null_b in N; split; [discriminate|]; intros [B _]; destruct (null_notNum _ _ N B numFloat)|].
  destruct (resolveBool s) eqn:B; [apply bool_text in B; split; [discriminate|]; intros [H _]; destruct (bool_notNum _ _ _ B H numFloat)|].
  rewrite <- int_spec. destruct (if numHead s then _ else _); [cbn; split; congruence|]. destruct (if floatHead s then _ else _); [split; discriminate|]. destruct (parseStamp _); split; discriminate.
Qed.
Theorem C62_float : forall s f, reads s (YFloat f) <-> floatText s f.
Proof.
  intros s f. unfold reads. rewrite master. destruct (nullB s) eqn:N; [apply null_b in N; split; [discriminate|]; intros [B _]; destruct (null_notNum _ _ N B (fun c I => I))|].
  destruct (resolveBool s) eqn:B; [apply bool_text in B; split; [discriminate|]; intros [H _]; destruct (bool_notNum _ _ _ B H (fun c I => I))|].
  pose proof (int_spec s) as IS. pose proof (float_spec s f) as FS. destruct (if numHead s then _ else _) as [z|].
  - split; [discriminate|]. intros (_ & NI & _). destruct (NI z). now apply IS.
  - rewrite <- (FS eq_refl). destruct (if floatHead s then _ else _); [cbn; split; congruence|]. destruct (parseStamp _); split; discriminate.
Qed.
(** a text that looks like a time but is nothing else *)
Theorem C62_time : forall s, (exists t, reads s (YTime t)) <-> timeText s /\ (forall z, ~ intText s z) /\ (forall f, ~ floatText s f).
Proof.
  intro s. unfold reads. rewrite master. rewrite <- (stamp_text s). split.
  - intros (t & H). destruct (nullB s); [discriminate H|]. destruct (resolveBool s); [discriminate H|]. pose proof (int_spec s) as IS. pose proof (float_spec s) as FS.
    destruct (if numHead s then _ else _); [discriminate H|]. destruct (if floatHead s then _ else _); [discriminate H|]. destruct (parseStamp (chars s)) as [u|]; [|discriminate H].
    split; [eauto|]. split; [intros z I; apply IS in I; discriminate I|]. intros f F. apply FS in F; [discriminate F|reflexivity].
  - intros ((t & T) & NI & NF). pose proof (time_starts s (proj1 (stamp_text s) (ex_intro _ t T))) as ST.
    destruct (nullB s) eqn:N; [apply null_b in N; destruct (null_notNum _ _ N ST numFloat)|]. destruct (resolveBool s) eqn:B; [apply bool_text in B; destruct (bool_notNum _ _ _ B ST numFloat)|].
    pose proof (int_spec s) as IS. pose proof (float_spec s) as FS. destruct (if numHead s then _ else _) as [z|]; [destruct (NI z); now apply IS|].
    destruct (if floatHead s then _ else _) as [f|]; [destruct (NF f); now apply FS|]. rewrite T. now exists t.
Qed.
(** everything else is the text itself *)
Theorem C62_text : forall s u, reads s (YStr u) <-> u = s /\ ~ nullText s /\ (forall b, ~ boolText s b) /\ (forall z, ~ intText s z) /\ (forall f, ~ floatText s f) /\ ~ timeText s.
Proof.
  intros s u. unfold reads. rewrite master, <- null_b, <- (stamp_text s). pose proof (int_spec s) as IS. pose proof (float_spec s) as FS. pose proof (bool_text s) as BT. split.
  - intro H. destruct (nullB s); [discriminate H|]. destruct (resolveBool s); [discriminate H|].
    destruct (if numHead s then _ else _); [discriminate H|]. destruct (if floatHead s then _ else _); [discriminate H|]. destruct (parseStamp (chars s)); [discriminate H|]. injection H as <-.
    split; [reflexivity|]. split; [discriminate|]. split; [intros b X; apply BT in X; discriminate X|]. split; [intros z X; apply IS in X; discriminate X|].
    split; [intros f X; apply FS in X; [discriminate X|reflexivity]|]. intros (t & X). discriminate X.
  - intros (-> & NN & NB & NI & NF & NT). destruct (nullB s); [congruence|]. destruct (resolveBool s) as [b|]; [destruct (NB b); now apply BT|].
    destruct (if numHead s then _ else _) as [z|]; [destruct (NI z); now apply IS|]. destruct (if floatHead s then _ else _) as [f|]; [destruct (NF f); now apply FS|].
    destruct (parseStamp (chars s)) as [t|]; [destruct NT; eauto|reflexivity].
Qed.
(** a scalar that is not plain is its text *)
Theorem C62_quoted : forall s, snd (resolveInterface false s) = YStr s.
Proof. reflexivity. Qed.

(** * Writing and reading *)
Notation utf8 := (fun s => utf8Text (chars s)).
Notation emit := (emit parseFloat formatG).
Notation emitN := (emitN parseFloat formatG).
Notation textStyle := (textStyle parseFloat).
Notation doc := (doc parseFloat formatG).
Notation valueInterface := (valueInterface parseFloat).
Notation sequence := (sequence parseFloat).
Notation mapping := (mapping parseFloat).
Notation sanitize := sanitize.
(** a scalar of the writer comes back as *)
Definition scalarBack (key : bool) (st : style) (s : string) (y : yval) : Prop :=
  exists st', emitScalar key st s = Done [Scalar st' s] /\ snd (resolveInterface (implicitOf st') s) = y.
Lemma tag_text s : fst (resolveInterface true s) = true -> snd (resolveInterface true s) = YStr s.
Proof.
  rewrite master. destruct (nullB s); [discriminate|]. destruct (resolveBool s); [discriminate|]. destruct (if numHead s then _ else _); [discriminate|].
  destruct (if floatHead s then _ else _); [discriminate|]. destruct (parseStamp (chars s)); [discriminate|reflexivity].
Qed.
Lemma select_plain key a s st : selectStyle key a s st = Plain -> st = Plain.
Proof. unfold selectStyle. destruct (key && multiline a), st; try reflexivity; cbn; repeat (match goal with |- context [if ?b then _ else _] => destruct b end; cbn); discriminate. Qed.
(** a text comes back as this text, as a value and as a key *)
Lemma text_back key s : utf8 s -> scalarBack key (textStyle s) s (YStr s).
Proof.
  intro U. destruct (analyze_done (chars s) U) as (a & E). unfold scalarBack, emitScalar. rewrite E. eexists. split; [reflexivity|].
  destruct (selectStyle (key && simpleKey a s) a s (textStyle s)) eqn:S; try reflexivity. apply select_plain in S. unfold Yaml.textStyle in S.
  destruct (fst (resolveInterface true s)) eqn:F; cbn [negb] in S; [|discriminate S]. now apply tag_text.
Qed.
(** a mild text stays plain *)
Lemma mild_back s : Forall (fun c => mild c = true) (chars s) -> s <> "" -> s <> "-" -> (forall r, s <> String "-" (String "-" r)) -> (forall r, s <> String "." (String "." r)) ->
  scalarBack false Plain s (snd (resolveInterface true s)).
Proof.
  intros F N M D P. unfold scalarBack, emitScalar. rewrite analyze_mild; [exists Plain; split; [|reflexivity]; unfold selectStyle; cbn; rewrite andb_false_r; reflexivity|exact F|now destruct s| | |].
  - intro E. apply M. now rewrite <- (ofchars_chars s), E.
  - intros r E. apply (D (ofchars r)). now rewrite <- (ofchars_chars s), E.
  - intros r E. apply (P (ofchars r)). now rewrite <- (ofchars_chars s), E.
Qed.
(** ** integers *)
Lemma digitAt_B d c : digitAt d c -> (Z.of_nat d < 10)%Z -> digitB d c /\ isDig c.
Proof. intros A L. split; [now left|]. unfold digitAt in A. unfold isDig. do 10 (destruct d as [|d]; [injection A as <-; vm_compute; tauto|]). lia. Qed.
Lemma chars_snoc s c : chars (s +++ String c "") = chars s ++ [c].
Proof. now rewrite chars_app. Qed.
Lemma inBase_B s z : inBase 10 s z -> inB 10 (chars s) z /\ Forall isDig (chars s) /\ (0 <= z)%Z.
Proof.
  induction 1 as [d c A L|s z d c H (I & F & P) A L]; destruct (digitAt_B d c A L) as [B D].
  - split; [now constructor|]. split; [now apply Forall_cons|lia].
  - rewrite chars_snoc. split; [now constructor|]. split; [|lia]. apply Forall_app. split; [exact F|now apply Forall_cons].
Qed.
Lemma without_none x l : ~ In x l -> without x l l.
Proof. intro N. induction l as [|c l IH]; [constructor|]. cbn in N. constructor; [intuition congruence|]. apply IH. tauto. Qed.
Lemma dig_mild c : isDig c -> mild c = true.
Proof. intro D. apply isDig_b in D. unfold mild. now rewrite D. Qed.
Lemma dig_not c x : isDig c -> c = x -> isDigit x = false -> False.
Proof. intros D -> N. apply isDig_b in D. congruence. Qed.
Lemma nat_short s z : inBase 10 s z -> short s -> natText (chars s) z /\ Forall isDig (chars s) /\ s <> "".
Proof.
  intros H S. destruct (inBase_B s z H) as (I & F & _). split; [|split; [exact F|]].
  - destruct s as [|c r]; [now apply inB_ne in I|]. destruct (ascii_dec c "0") as [->|N].
    + rewrite (S r eq_refl) in *. apply (inB_fun _ _ _ 0) in I; [subst; constructor|]. exact (N_one 10 0%nat "0"%char (or_introl eq_refl) eq_refl).
    + now apply X_dec.
  - intros ->. now apply inB_ne in I.
Qed.
Lemma digs_starts s : Forall isDig (chars s) -> s <> "" -> exists c r, s = String c r /\ isDig c.
Proof. intros F N. destruct s as [|c r]; [congruence|]. inversion F. eauto. Qed.
Lemma numeral_int z s : in64 z -> numeral 10 z s -> intText s z.
Proof.
  intros R [(P & I & S)|(P & r & -> & I & S)].
  - destruct (nat_short s z I S) as (N & F & NE). destruct (digs_starts s F NE) as (c & r & -> & D). split; [exists c, r; split; [reflexivity|unfold isDig in D; cbn in *; tauto]|].
    split; [exact R|]. exists (chars (String c r)). split.
    + apply without_none. intro X. rewrite Forall_forall in F. apply F in X. unfold isDig in X. cbn in X. intuition discriminate.
    + left. split; [exact N|]. split; intros q E; injection E as E _; exact (dig_not _ _ D E eq_refl).
  - destruct (nat_short r (- z) I S) as (N & F & NE). split; [exists "-"%char, r; split; [reflexivity|cbn; tauto]|]. split; [exact R|]. exists (chars (String "-" r)). split.
    + apply without_none. intros [X|X]; [discriminate X|]. rewrite Forall_forall in F. apply F in X. unfold isDig in X. cbn in X. intuition discriminate.
    + right. right. exists (chars r). split; [reflexivity|exact N].
Qed.
Lemma int_back z : in64 z -> scalarBack false Plain (formatInt z 10) (YInt z).
Proof.
  intro R. pose proof (formatInt_numeral z 10 ltac:(lia)) as N. pose proof (proj2 (C62_int (formatInt z 10) z) (numeral_int z _ R N)) as E. unfold reads in E. rewrite <- E.
  assert (H : forall s y, inBase 10 s y -> short s -> Forall (fun c => mild c = true) (chars s) /\ exists c r, s = String c r /\ isDig c).
  { intros s y I S. destruct (nat_short s y I S) as (_ & F & NE). split; [|now apply digs_starts]. rewrite Forall_forall in *. intros c J. now apply dig_mild, F. }
  destruct N as [(P & I & S)|(P & r & -> & I & S)].
  - destruct (H _ _ I S) as (F & c & r & Ec & D). rewrite Ec in *. apply mild_back; [exact F|discriminate| | |]; intros; intro X; injection X as X _; exact (dig_not _ _ D X eq_refl).
  - destruct (H _ _ I S) as (F & c & q & -> & D). apply mild_back; [apply Forall_cons; [reflexivity|exact F]|discriminate|discriminate| |discriminate].
    intros x X. injection X as X _. exact (dig_not _ _ D X eq_refl).
Qed.
Lemma bool_back b : scalarBack false Plain (btoa b) (YBool b).
Proof. destruct b; exists Plain; split; reflexivity. Qed.
Lemma null_back : scalarBack false Plain "null" YNull.
Proof. exists Plain. split; reflexivity. Qed.
(** ** floats *)
Lemma decDigit_dig c : decDigit c <-> isDig c.
Proof. reflexivity. Qed.
Lemma number_text s : number (chars s) -> Forall (fun c => mild c = true) (chars s) /\ ((exists c r, s = String c r /\ isDig c) \/ (exists c r, s = String "-" (String c r) /\ isDig c)).
Proof.
  intros (m & i & f & e & M & ((NE & Fi) & _) & Ff & Fe & E).
  assert (DM : forall l, Forall decDigit l -> Forall (fun c => mild c = true) l) by (intros l F; rewrite Forall_forall in *; intros c J; now apply dig_mild, F).
  split.
  - rewrite E. repeat (apply Forall_app; split).
    + destruct M as [<-|[<-|[]]]; [constructor|now apply Forall_cons].
    + now apply DM.
    + destruct Ff as [->|(d & -> & _ & F)]; [constructor|apply Forall_cons; [reflexivity|now apply DM]].
    + destruct Fe as [->|(x & sg & d & I & J & (_ & F) & ->)]; [constructor|]. apply Forall_cons; [destruct I as [<-|[<-|[]]]; reflexivity|]. apply Forall_app. split; [|now apply DM].
      destruct J as [<-|[<-|[<-|[]]]]; [constructor|now apply Forall_cons|now apply Forall_cons].
  - destruct i as [|c i]; [congruence|]. inversion Fi as [|? ? D _]; subst. destruct M as [<-|[<-|[]]]; cbn [app] in E.
    + left. destruct s as [|c' r]; [discriminate E|]. injection E as -> _. eauto.
    + right. destruct s as [|c' [|c2 r]]; [discriminate E|discriminate E|]. injection E as -> -> _. eauto.
Qed.
Lemma no_underscore s : Forall (fun c => mild c = true) (chars s) -> without "_"%char (chars s) (chars s).
Proof. intro F. apply without_none. intro X. rewrite Forall_forall in F. now apply F in X. Qed.
Lemma opp_opp f : finite f = true -> SFopp (SFopp f) = f.
Proof. destruct f as [b| | |b m e]; try discriminate; intros _; cbn; now rewrite negb_involutive. Qed.
Lemma float_back f (exact : exactText parseFloat formatG f) : exists y, scalarBack false Plain (Yaml.floatText formatG f) y /\ (y = YFloat f \/ exists z, y = YInt z /\ intText (formatG f) z).
Proof.
  destruct (finite f) eqn:Fi.
  - destruct (exact Fi) as (floats & floats_pos & floats_neg). assert (ET : Yaml.floatText formatG f = formatG f) by (destruct f; try discriminate Fi; reflexivity). rewrite ET. pose proof (number_text _ floats) as [M S].
    exists (snd (resolveInterface true (formatG f))). split.
    + destruct S as [(c & r & E & D)|(c & r & E & D)]; rewrite E in *.
      * apply mild_back; [exact M|discriminate| | |]; intros; intro X; injection X as X _; exact (dig_not _ _ D X eq_refl).
      * apply mild_back; [exact M|discriminate|discriminate| |discriminate]. intros x X. injection X as X _. exact (dig_not _ _ D X eq_refl).
    + rewrite master. destruct (nullB (formatG f)) eqn:NB.
      { apply null_b in NB. exfalso. destruct S as [(c & r & E & D)|(c & r & E & D)]; rewrite E in NB; destruct NB as [X|[X|[X|[X|[X|[]]]]]]; try discriminate X; injection X as X _; exact (dig_not _ _ D (eq_sym X) eq_refl). }
      destruct (resolveBool (formatG f)) as [b|] eqn:B.
      { apply bool_first in B as (c' & r' & E' & I'). exfalso. destruct S as [(c & r & E & D)|(c & r & E & D)]; rewrite E in E'; injection E' as <- _; [exact (disj _ _ _ D I' eq_refl)|cbn in I'; intuition discriminate]. }
      pose proof (int_spec (formatG f)) as IS. pose proof (float_spec (formatG f) f) as FS.
      destruct (if numHead (formatG f) then _ else _) as [z|]; [right; exists z; split; [reflexivity|now apply IS]|]. left. specialize (FS eq_refl).
      assert (NI : forall z, ~ intText (formatG f) z) by (intros z X; apply IS in X; discriminate X).
      assert (FT : floatText (formatG f) f).
      { destruct S as [(c & r & E & D)|(c & r & E & D)].
        - split; [rewrite E; exists c, r; split; [reflexivity|unfold isDig in D; cbn in *; tauto]|]. split; [exact NI|]. exists (chars (formatG f)). split; [now apply no_underscore|]. left.
          split; [|rewrite E; split; intros q X; injection X as X _; exact (dig_not _ _ D X eq_refl)]. right. right. split; [intros w _; rewrite E; intro X; injection X as X _; exact (dig_not _ _ D X eq_refl)|].
          exists f. rewrite ofchars_chars. split; [|reflexivity]. apply floats_pos. rewrite E. intros q X. injection X as X _. exact (dig_not _ _ D X eq_refl).
        - split; [rewrite E; eexists _, _; split; [reflexivity|cbn; tauto]|]. split; [exact NI|]. exists (chars (formatG f)). split; [now apply no_underscore|]. right. right.
          exists (chars (String c r)). rewrite E. split; [reflexivity|]. right. right. split; [intros w _ X; injection X as X _; exact (dig_not _ _ D X eq_refl)|].
          exists (SFopp f). rewrite ofchars_chars. split; [now apply floats_neg|]. now rewrite opp_opp. }
      apply FS in FT. rewrite FT. reflexivity.
  - exists (YFloat f). split; [|now left]. destruct f as [b|[]| |b m e]; try discriminate Fi; exists Plain; split; reflexivity.
Qed.
(** ** lists and maps *)
Definition emitL := fix items (l : list node) : outcome (list event) := match l with [] => Done [] | n :: r => andThen (emitN n) (items r) end.
Definition emitM := fix fields (m : list (string * node)) : outcome (list event) :=
  match m with [] => Done [] | (k, n) :: r => andThen (emitScalar true (textStyle k) k) (andThen (emitN n) (fields r)) end.
Lemma emit_list l : emit (VList l) = andThen (Done [SeqStart]) (andThen (emitL l) (Done [SeqEnd])).
Proof. reflexivity. Qed.
Lemma emit_map m : emit (VMap m) = andThen (Done [MapStart]) (andThen (emitM m) (Done [MapEnd])).
Proof. reflexivity. Qed.
Lemma emit_node n : emitN n = emit (val n).
Proof. now destruct n. Qed.
Definition opens (evs : list event) : Prop := exists e r, evs = e :: r /\ e <> SeqEnd /\ e <> MapEnd.
Definition back (evs : list event) (y : yval) : Prop := opens evs /\ forall k rest, (List.length evs <= k)%nat -> valueInterface k (evs ++ rest) = Got (y, false, rest).
Definition good (n : node) : Prop := doc (val n) -> exists evs y, emit (val n) = Done evs /\ back evs y /\ forall src, sameDoc formatG (val n) (val (sanitize src y)).
Lemma scalar_event key st s y : scalarBack key st s y -> exists evs, emitScalar key st s = Done evs /\ back evs y /\ exists st', evs = [Scalar st' s].
Proof.
  intros (st' & E & R). exists [Scalar st' s]. split; [exact E|]. split; [|eauto]. split; [exists (Scalar st' s), []; repeat split; discriminate|].
  intros k rest L. destruct k as [|k]; [cbn in L; lia|]. cbn. now rewrite R.
Qed.
Lemma seq_back l : Forall good l -> Forall (fun n => doc (val n)) l -> exists evs ys, emitL l = Done evs /\
  (forall k rest acc, (List.length evs < k)%nat -> sequence k acc false (evs ++ SeqEnd :: rest) = Got (acc ++ ys, false, rest)) /\
  forall src, Forall2 (fun n y => sameDoc formatG (val n) (val (sanitize src y))) l ys.
Proof.
  induction 1 as [|n l G H IH]; intro D.
  - exists [], []. split; [reflexivity|]. split; [|constructor]. intros k rest acc L. destruct k; [cbn in L; lia|]. cbn. now rewrite app_nil_r.
  - inversion D as [|? ? Dn D']; subst. destruct (G Dn) as (evs & y & E & (O & B) & S). destruct (IH D') as (evs' & ys & E' & B' & S').
    exists (evs ++ evs'), (y :: ys). split; [cbn [emitL]; rewrite emit_node, E; cbn [andThen]; now rewrite E'|]. split; [|intro src; constructor; auto].
    intros k rest acc L. rewrite app_length in L. destruct k as [|k]; [lia|]. rewrite <- app_assoc. destruct O as (e & r & Ee & N1 & N2).
    assert (ST : sequence (Datatypes.S k) acc false (evs ++ evs' ++ SeqEnd :: rest) = andThenR (valueInterface k (evs ++ evs' ++ SeqEnd :: rest)) (fun x => sequence k (acc ++ [fst (fst x)]) (false || snd (fst x)) (snd x))).
    { rewrite Ee. destruct e; try congruence; reflexivity. }
    rewrite ST, B by lia. cbn [andThenR fst snd orb]. rewrite B' by (subst evs; cbn in L; lia). now rewrite <- app_assoc.
Qed.
Lemma map_back m : Forall (fun p => good (snd p)) m -> Forall (fun p => utf8 (fst p) /\ doc (val (snd p))) m -> exists evs ys, emitM m = Done evs /\
  (forall k rest acc, (List.length evs < k)%nat -> mapping k acc false (evs ++ MapEnd :: rest) = Got (acc ++ ys, false, rest)) /\
  forall src, Forall2 (fun p q => fst p = fst q /\ sameDoc formatG (val (snd p)) (val (sanitize src (snd q)))) m ys.
Proof.
  induction 1 as [|[key n] m G H IH]; intro D.
  - exists [], []. split; [reflexivity|]. split; [|constructor]. intros k rest acc L. destruct k; [cbn in L; lia|]. cbn. now rewrite app_nil_r.
  - inversion D as [|? ? [U Dn] D']; subst. cbn [fst snd] in *. destruct (G Dn) as (evs & y & E & (O & B) & S). destruct (IH D') as (evs' & ys & E' & B' & S').
    destruct (scalar_event true (textStyle key) key _ (text_back true key U)) as (ek & Ek & (Ok & Bk) & st & Es).
    exists (ek ++ evs ++ evs'), ((key, y) :: ys). split; [cbn [emitM]; rewrite Ek, emit_node, E, E'; reflexivity|]. split; [|intro src; constructor; auto].
    intros k rest acc L. rewrite !app_length in L. destruct k as [|k]; [lia|]. rewrite <- !app_assoc.
    assert (ST : mapping (Datatypes.S k) acc false (ek ++ evs ++ evs' ++ MapEnd :: rest) = andThenR (valueInterface k (ek ++ evs ++ evs' ++ MapEnd :: rest)) (fun x =>
           andThenR (valueInterface k (snd x)) (fun y => andThenR (keyed (fst (fst x))) (fun kk => match kk with
           | Some kk => mapping k (acc ++ [(kk, fst (fst y))]) (false || snd (fst x) || snd (fst y)) (snd y) | None => mapping k acc true (snd y) end)))) by (subst ek; reflexivity).
    rewrite ST, Bk by lia. cbn [andThenR fst snd]. rewrite B by (subst ek; cbn in L; lia). cbn [andThenR fst snd keyed orb]. rewrite B' by (subst ek; cbn in L; lia). now rewrite <- app_assoc.
Qed.
Lemma msorted_app {A} (a b : list (string * A)) : msorted (a ++ b) -> msorted a /\ msorted b /\ forall k k', In k (map fst a) -> In k' (map fst b) -> String.compare k k' = Lt.
Proof.
  induction a as [|[k v] a IH]; cbn [app msorted map fst In]; [intro H; repeat split; auto; tauto|]. intros [L H]. destruct (IH H) as (A1 & B1 & C1). repeat split; auto.
  - intros k' I. apply L. rewrite map_app, in_app_iff. now left.
  - intros x x' [<-|I] J; [apply L; rewrite map_app, in_app_iff; now right|now apply C1].
Qed.
Lemma mset_last {A} (m : smap A) k v : (forall k', In k' (map fst m) -> String.compare k' k = Lt) -> mset k v m = m ++ [(k, v)].
Proof.
  induction m as [|[x y] m IH]; intro L; [reflexivity|]. cbn [mset app]. assert (C : String.compare x k = Lt) by (apply L; now left). rewrite String.compare_antisym, C. cbn [CompOpp]. rewrite IH; [reflexivity|]. intros k' I. apply L. now right.
Qed.
Lemma value_scalar k st s rest : valueInterface (Datatypes.S k) (Scalar st s :: rest) = Got (snd (resolveInterface (implicitOf st) s), false, rest).
Proof. reflexivity. Qed.
Lemma fold_mset {A} (l : smap A) : forall m, msorted (m ++ l) -> fold_left (fun m kv => mset (fst kv) (snd kv) m) l m = m ++ l.
Proof.
  induction l as [|[k v] l IH]; intros m H; cbn [fold_left fst snd]; [now rewrite app_nil_r|]. rewrite mset_last.
  - rewrite IH; rewrite <- app_assoc; [reflexivity|exact H].
  - apply msorted_app in H as (_ & _ & C). intros k' I. apply C; [exact I|now left].
Qed.
Lemma mof_same {A} (l : smap A) : msorted l -> mof l = l.
Proof. intro H. unfold mof. now rewrite fold_mset. Qed.
Lemma all_good n : good n.
Proof.
  induction n as [v a s t r IH] using node_ind'. unfold good. cbn [val]. intro D. destruct D as [|b|z R|f X|x U|l F|m Sm F]; cbn [node_sub] in IH.
  - destruct (scalar_event false Plain "null" _ null_back) as (evs & E & B & _). exists evs, YNull. split; [exact E|]. split; [exact B|constructor].
  - destruct (scalar_event false Plain (btoa b) _ (bool_back b)) as (evs & E & B & _). exists evs, (YBool b). split; [exact E|]. split; [exact B|constructor].
  - destruct (scalar_event false Plain _ _ (int_back z R)) as (evs & E & B & _). exists evs, (YInt z). split; [exact E|]. split; [exact B|constructor].
  - destruct (float_back f X) as (y & Y & C). destruct (scalar_event false Plain _ _ Y) as (evs & E & B & _). exists evs, y. split; [exact E|]. split; [exact B|].
    intro src. destruct C as [->|(z & -> & I)]; [constructor|]. now apply E_whole.
  - destruct (scalar_event false (textStyle x) x _ (text_back false x U)) as (evs & E & B & _). exists evs, (YStr x). split; [exact E|]. split; [exact B|constructor].
  - destruct (seq_back l IH F) as (evs & ys & E & B & S). exists ([SeqStart] ++ evs ++ [SeqEnd]), (YSeq ys). split; [rewrite emit_list, E; reflexivity|]. split; [split|].
    + exists SeqStart, (evs ++ [SeqEnd]). repeat split; discriminate.
    + intros k rest L. cbn [app List.length] in L. rewrite app_length in L. cbn [List.length] in L. destruct k as [|k]; [lia|]. cbn [app].
      change (valueInterface (Datatypes.S k) (SeqStart :: (evs ++ [SeqEnd]) ++ rest)) with (andThenR (sequence k [] false ((evs ++ [SeqEnd]) ++ rest)) (fun x => Got (YSeq (fst (fst x)), snd (fst x), snd x))).
      rewrite <- app_assoc. cbn [app]. rewrite B by lia. reflexivity.
    + intro src. cbn [Yaml.sanitize val]. constructor. specialize (S src). clear - S. induction S; constructor; auto.
  - destruct (map_back m IH F) as (evs & ys & E & B & S). exists ([MapStart] ++ evs ++ [MapEnd]), (YMap ys). split; [rewrite emit_map, E; reflexivity|]. split; [split|].
    + exists MapStart, (evs ++ [MapEnd]). repeat split; discriminate.
    + intros k rest L. cbn [app List.length] in L. rewrite app_length in L. cbn [List.length] in L. destruct k as [|k]; [lia|]. cbn [app].
      change (valueInterface (Datatypes.S k) (MapStart :: (evs ++ [MapEnd]) ++ rest)) with (andThenR (mapping k [] false ((evs ++ [MapEnd]) ++ rest)) (fun x => Got (YMap (fst (fst x)), snd (fst x), snd x))).
      rewrite <- app_assoc. cbn [app]. rewrite B by lia. reflexivity.
    + intro src. cbn [Yaml.sanitize val]. specialize (S src).
      assert (K : map fst m = map fst (map (fun p => (fst p, sanitize src (snd p))) ys)) by (clear - S; induction S as [|p q m ys [Ep _] _ IHs]; cbn; [reflexivity|now rewrite Ep, IHs]).
      rewrite mof_same by (eapply msorted_keys_eq; [exact K|exact Sm]). constructor. clear - S. induction S as [|p q m ys [Ep Ev] _ IHs]; constructor; auto.
Qed.

Lemma scalar_from key st0 s y st s' : scalarBack key st0 s y -> emitScalar key st0 s = Done [Scalar st s'] -> st <> Plain -> s' = s /\ y = YStr s.
Proof.
  intros (st' & K & RR) E N. rewrite K in E. injection E as <- <-. split; [reflexivity|]. rewrite <- RR. destruct st'; [congruence|reflexivity..].
Qed.
Strategy 1000 [emitScalar].
Lemma quoted_text v st s : doc v -> emit v = Done [Scalar st s] -> st <> Plain -> v = VStr s.
Proof.
  intros D E N. destruct D as [|b|z R|f X|x U|l F|m Sm F]; [change (emit VNil) with (emitScalar false Plain "null") in E|change (emit (VBool b)) with (emitScalar false Plain (btoa b)) in E|
    change (emit (VInt z)) with (emitScalar false Plain (formatInt z 10)) in E|change (emit (VFloat f)) with (emitScalar false Plain (Yaml.floatText formatG f)) in E|change (emit (VStr x)) with (emitScalar false (textStyle x) x) in E|..].
  - destruct (scalar_from _ _ _ _ _ _ null_back E N) as [_ Y]. discriminate Y.
  - destruct (scalar_from _ _ _ _ _ _ (bool_back b) E N) as [_ Y]. discriminate Y.
  - destruct (scalar_from _ _ _ _ _ _ (int_back z R) E N) as [_ Y]. discriminate Y.
  - destruct (float_back f X) as (y & K & C). destruct (scalar_from _ _ _ _ _ _ K E N) as [_ Y]. destruct C as [->|(z & -> & _)]; discriminate Y.
  - destruct (scalar_from _ _ _ _ _ _ (text_back false x U) E N) as [-> _]. reflexivity.
  - exfalso. rewrite emit_list in E. destruct (emitL l) as [?| |]; cbn [andThen app] in E; discriminate E.
  - exfalso. rewrite emit_map in E. destruct (emitM m) as [?| |]; cbn [andThen app] in E; discriminate E.
Qed.
(** ** the document that is written is the document that is read *)
(** a null word as the whole document is the exception *)
Theorem C62_document : forall v src, doc v -> (forall s, v = VStr s -> ~ In s ["~"; "null"; "Null"; "NULL"]) ->
  exists evs n, emit v = Done evs /\ parseDoc parseFloat src evs = Got n /\ sameDoc formatG v (val n).
Proof.
  intros v src D NN. destruct (all_good (mkNode v emptyAnn "" None None) D) as (evs & y & E & (O & B) & S). cbn [val] in *.
  exists evs, (sanitize src y). split; [exact E|]. split; [|apply S].
  assert (V : valueInterface (Datatypes.S (2 * List.length evs)) evs = Got (y, false, [])) by (rewrite <- (app_nil_r evs) at 2; apply B; lia).
  unfold parseDoc. replace (document parseFloat evs) with (Got (y, false)); [reflexivity|]. symmetry.
  assert (SC : forall st s rest, evs = Scalar st s :: rest -> evs = [Scalar st s] /\ y = snd (resolveInterface (implicitOf st) s)).
  { intros st s rest Ee. rewrite Ee in V. cbn in V. injection V as <- ->. now split. }
  unfold document. destruct evs as [|[st s| | | |] rest]; [destruct O as (? & ? & ? & _); discriminate|..]; try (now rewrite V).
  destruct (SC st s rest eq_refl) as [Ee ->]. injection Ee as ->. destruct (nullWord s) eqn:NW; [|reflexivity].
  f_equal. f_equal. assert (NT : nullText s) by (apply null_b; unfold nullB; now rewrite NW, orb_true_r).
  assert (P : st = Plain \/ st <> Plain) by (clear; destruct st; [now left|right; discriminate..]).
  destruct P as [->|P]; [symmetry; cbn [implicitOf]; now apply C62_null|].
  exfalso. apply (NN s); [now apply (quoted_text v st s D E)|]. clear - NW. unfold nullWord in NW. rewrite existsb_exists in NW. destruct NW as (w & I & Ew). apply String.eqb_eq in Ew. now subst w.
Qed.
End Thms.

Lemma utf8_ascii s : Forall (fun c => bytev c < 128)%Z (chars s) -> utf8Text (chars s).
Proof.
  induction 1 as [|c l H F IH]; [constructor|]. apply U_1; [|exact IH]. unfold between. pose proof (bytev_range c). lia.
Qed.
(** every document of data is written *)
Theorem C62_written : forall parseFloat formatG v, doc parseFloat formatG v -> exists evs, Yaml.emit parseFloat formatG v = Done evs.
Proof.
  intros pf fg v D. destruct (all_good pf fg (mkNode v emptyAnn "" None None) D) as (evs & y & E & _). now exists evs.
Qed.
(** the text "null" as the whole document comes back as nil *)
Theorem C62_root_refuted : forall parseFloat formatG src s, In s ["~"; "null"; "Null"; "NULL"] ->
  doc parseFloat formatG (VStr s) /\
  exists evs n, Yaml.emit parseFloat formatG (VStr s) = Done evs /\ parseDoc parseFloat src evs = Got n /\ val n = VNil.
Proof.
  intros pf fg src s I. split.
  - constructor. cbn in I. destruct I as [<-|[<-|[<-|[<-|[]]]]]; apply utf8_ascii; repeat (apply Forall_cons; [reflexivity|]); constructor.
  - exists [Scalar DoubleQuoted s], (Yaml.sanitize src YNull). cbn in I. destruct I as [<-|[<-|[<-|[<-|[]]]]]; (split; [vm_compute; reflexivity|]; split; [vm_compute; reflexivity|reflexivity]).
Qed.
(** the writer does not end on a byte that cannot start a character, and fails on half a character
    at the end *)
Theorem C62_hang_refuted : forall parseFloat formatG,
  Yaml.emit parseFloat formatG (VStr (String "128" "")) = Hangs /\ Yaml.emit parseFloat formatG (VStr ("a" ++ String "194" "")) = Panics.
Proof. split; vm_compute; reflexivity. Qed.
Lemma reads_time pf s : resolveInt (chars s) = None -> resolveFloat pf (chars s) = None -> match chars s with c :: _ => isDigit c | [] => false end = true ->
  snd (resolveInterface pf true s) = match parseStamp (chars s) with Some t => YTime t | None => YStr s end.
Proof.
  intros I F D. unfold resolveInterface. cbn [negb]. destruct (chars s) as [|c l]; [discriminate D|]. rewrite D, orb_true_r, I, F. now destruct (parseStamp (c :: l)).
Qed.
(** an unquoted date comes back as another text, which does not depend on the time of day *)
Theorem C62_date_refuted : forall parseFloat src,
  parseFloat "2023-05-07" = None -> parseFloat "2023-05-07T12:34:56Z" = None ->
  exists n n', parseDoc parseFloat src [Scalar Plain "2023-05-07"] = Got n /\ val n = VStr "7059-05-08T50:23:76Z" /\
    parseDoc parseFloat src [Scalar Plain "2023-05-07T12:34:56Z"] = Got n' /\ val n' = val n.
Proof.
  intros pf src A B. unfold parseDoc, document. cbn [nullWord existsb String.eqb Ascii.eqb Bool.eqb orb implicitOf].
  assert (F1 : resolveFloat pf (chars "2023-05-07") = option_map (signed_float 1) (pf "2023-05-07")) by (vm_compute; reflexivity).
  assert (F2 : resolveFloat pf (chars "2023-05-07T12:34:56Z") = option_map (signed_float 1) (pf "2023-05-07T12:34:56Z")) by (vm_compute; reflexivity).
  rewrite A in F1. rewrite B in F2. rewrite !reads_time by (assumption || (vm_compute; reflexivity)).
  eexists _, _. split; [reflexivity|]. split; [vm_compute; reflexivity|]. split; [reflexivity|]. vm_compute. reflexivity.
Qed.
(** keys that are no texts: an error, or a crash *)
Theorem C62_keys_refuted : forall parseFloat src,
  parseDoc parseFloat src [MapStart; Scalar Plain "yes"; Scalar Plain "a"; MapEnd] = Bad /\
  parseDoc parseFloat src [MapStart; Scalar Plain "1"; Scalar Plain "a"; MapEnd] = Bad /\
  parseDoc parseFloat src [MapStart; SeqStart; SeqEnd; Scalar Plain "a"; MapEnd] = Crash /\
  exists n, parseDoc parseFloat src [MapStart; Scalar DoubleQuoted "yes"; Scalar Plain "a"; MapEnd] = Got n.
Proof. intros pf src. repeat split; try (vm_compute; reflexivity). eexists. vm_compute. reflexivity. Qed.
(** leading zeros: octal if the digits allow it, a float if not *)
Theorem C62_octal_refuted : forall parseFloat f src, parseFloat "08" = Some f ->
  exists n n', parseDoc parseFloat src [Scalar Plain "010"] = Got n /\ val n = VInt 8 /\
    parseDoc parseFloat src [Scalar Plain "08"] = Got n' /\ val n' = VFloat f.
Proof.
  intros pf f src A. exists (Yaml.sanitize src (YInt 8)), (Yaml.sanitize src (YFloat f)). split; [vm_compute; reflexivity|]. split; [reflexivity|]. split; [|reflexivity].
  unfold parseDoc, document. cbn [nullWord existsb String.eqb Ascii.eqb Bool.eqb orb implicitOf].
  assert (F1 : resolveFloat pf (chars "08") = option_map (signed_float 1) (pf "08")) by (vm_compute; reflexivity). rewrite A in F1.
  assert (R : snd (resolveInterface pf true "08") = YFloat f).
  { unfold resolveInterface. cbn [negb chars]. cbn [chars] in F1. rewrite F1. reflexivity. }
  now rewrite R.
Qed.
(** a float whose text is an integer comes back as an integer *)
Theorem C62_float_refuted : forall parseFloat formatG src, formatG (S754_finite false 1 0) = "1" ->
  exists evs n, Yaml.emit parseFloat formatG (VFloat (S754_finite false 1 0)) = Done evs /\
    parseDoc parseFloat src evs = Got n /\ val n = VInt 1.
Proof.
  intros pf fg src A. exists [Scalar Plain "1"], (Yaml.sanitize src (YInt 1)). cbn [Yaml.emit Yaml.floatText]. rewrite A.
  split; [vm_compute; reflexivity|]. split; [vm_compute; reflexivity|reflexivity].
Qed.

(** * Quotes *)
(** what the analysis has to find for a plain scalar, from the front *)
Fixpoint fine (first prec : bool) (l : list ascii) : Prop :=
  match l with
  | [] => True
  | c :: r =>
      between32 c /\
      (if first then existsb (Ascii.eqb c) headers = false /\ c <> " "%char /\ (In c ["?"; ":"; "-"]%char -> exists d q, r = d :: q /\ d <> " "%char)
       else (c = ":"%char -> exists d q, r = d :: q /\ d <> " "%char) /\ (c = "#"%char -> prec = false)) /\
      (r = [] -> c <> " "%char) /\ fine false (Ascii.eqb c " ") r
  end.
Definition clear (s : seen) : Prop :=
  s_block s = false /\ s_breaks s = false /\ s_special s = false /\ s_leadSpace s = false /\ s_trailSpace s = false.
Lemma printable_ascii c r : (bytev c < 128)%Z -> isPrintable (c :: r) = Some true -> c = "010"%char \/ between32 c.
Proof.
  intros L P. unfold isPrintable, byteAt in P. cbn [nth_error] in P. unfold between32. destruct (Z.eqb_spec (bytev c) 10) as [E|N]; cbn [orb] in P.
  - left. rewrite <- (byteof_bytev c), E. reflexivity.
  - right. destruct (Z.leb_spec 32 (bytev c)); destruct (Z.leb_spec (bytev c) 126); cbn [andb] in P; try lia; exfalso.
    all: repeat match type of P with context [(?a =? ?b)%Z] => destruct (Z.eqb_spec a b); try lia | context [(?a <? ?b)%Z] => destruct (Z.ltb_spec a b); try lia end; cbn in P; discriminate P.
Qed.
Lemma byte_eq c d : bytev c = bytev d -> c = d.
Proof. intro E. rewrite <- (byteof_bytev c), <- (byteof_bytev d). now rewrite E. Qed.
Lemma follows_word r : (match r with [] => Some true | _ => isBlankz r end) = Some false -> exists d q, r = d :: q /\ d <> " "%char.
Proof. destruct r as [|d q]; [discriminate|]. intro B. exists d, q. split; [reflexivity|]. intros ->. discriminate B. Qed.
Ltac needs H := repeat (match type of H with need ?o _ = Done _ => let E := fresh "E" in destruct o eqn:E; [cbn [need] in H|discriminate H] end).
Lemma look_clear first s c r s' : look first s c (c :: r) = Done s' -> clear s' ->
  clear s /\ width c = 1%nat /\ s_preceded s' = Ascii.eqb c " " /\
  between32 c /\
  (if first then existsb (Ascii.eqb c) headers = false /\ c <> " "%char /\ (In c ["?"; ":"; "-"]%char -> exists d q, r = d :: q /\ d <> " "%char)
   else (c = ":"%char -> exists d q, r = d :: q /\ d <> " "%char) /\ (c = "#"%char -> s_preceded s = false)) /\
  (r = [] -> c <> " "%char).
Proof.
  intros H C. unfold look in H. needs H. injection H as <-. destruct C as (C1 & C2 & C3 & C4 & C5). cbn [s_block s_breaks s_special s_leadSpace s_trailSpace s_preceded] in *.
  apply orb_false_iff in C1 as [B1 B2], C2 as [K1 K2], C3 as [S1 S2], C4 as [L1 L2], C5 as [T1 T2]. apply orb_false_iff in S1 as [S1 S3]. apply negb_false_iff in S2, S3. apply Z.ltb_lt in S2. subst.
  assert (W : width c = 1%nat) by (unfold width; apply Z.ltb_lt in S2; now rewrite S2). rewrite W in *. cbn [skipn] in E.
  assert (R : between32 c).
  { destruct (printable_ascii c r S2 E0) as [->|R]; [discriminate E1|exact R]. }
  split; [repeat split; assumption|]. split; [reflexivity|]. split.
  { destruct (Ascii.eqb_spec c " ") as [->|N]; [vm_compute in E2; congruence|]. unfold isBlankz, byteAt in E2. cbn [nth_error] in E2. unfold between32 in R.
    destruct (Z.eqb_spec (bytev c) 32) as [X|X]; [destruct N; now apply byte_eq|]. destruct (Z.eqb_spec (bytev c) 9); [lia|]. cbn [orb] in E2. rewrite E1 in E2. destruct (Z.eqb_spec (bytev c) 0); [lia|congruence]. }
  split; [exact R|]. split.
  - destruct first.
    + apply orb_false_iff in B2 as [H1 H2]. split; [exact H1|]. rewrite andb_true_r in L2. split; [intros ->; discriminate L2|]. intro I. apply follows_word. rewrite E. f_equal. destruct b; [|reflexivity]. rewrite andb_true_r in H2.
      destruct I as [<-|[<-|[<-|[]]]]; discriminate H2.
    + apply orb_false_iff in B2 as [H1 H2]. split; [intros ->; apply follows_word; rewrite E; f_equal; exact H1|intros ->; exact H2].
  - intros -> ->. discriminate T2.
Qed.
Lemma lookAll_clear : forall n first s l s', lookAll n first s l = Done s' -> clear s' -> clear s /\ fine first (s_preceded s) l.
Proof.
  induction n as [|n IH]; intros first s l s' H C; destruct l as [|c r]; cbn [lookAll] in H; try discriminate H; try (injection H as ->; now split).
  destruct (look first s c (c :: r)) as [t| |] eqn:L; try discriminate H. destruct (width c) as [|w] eqn:W; [discriminate H|].
  assert (Ct : clear t) by (eapply IH; eassumption). destruct (look_clear _ _ _ _ _ L Ct) as (Cs & W1 & Pr & R & F & T). rewrite W in W1. injection W1 as ->. cbn [skipn] in H.
  apply IH in H as [_ Fr]; [|exact C]. split; [exact Cs|]. cbn [fine]. rewrite Pr in Fr. auto.
Qed.
Lemma fine_all : forall l first prec, fine first prec l -> Forall between32 l /\ (forall r, l <> r ++ [" "%char]).
Proof.
  induction l as [|c l IH]; intros first prec F; [split; [constructor|intros [|? ?]; discriminate]|]. destruct F as (R & _ & T & F). destruct (IH _ _ F) as [A B]. split; [now constructor|].
  intros [|x r] E; injection E as E1 E; [exact (T E E1)|exact (B r E)].
Qed.
Lemma fine_inner : forall l prec, fine false prec l -> (forall a b, l = a ++ ":"%char :: b -> exists d q, b = d :: q /\ d <> " "%char) /\
  (forall a b, l <> a ++ " "%char :: "#"%char :: b) /\ (prec = true -> forall b, l <> "#"%char :: b).
Proof.
  induction l as [|c l IH]; intros prec F; [repeat split; try (intros [|? ?] ?; discriminate); discriminate|]. destruct F as (_ & [F1 F2] & _ & F). destruct (IH _ F) as (A & B & D). repeat split.
  - intros [|x a] b E; injection E as -> E; [subst; now apply F1|now apply (A a)].
  - intros [|x a] b E; injection E as -> E; [exact (D eq_refl _ E)|exact (B a b E)].
  - intros P b E. injection E as -> _. rewrite F2 in P by reflexivity. discriminate P.
Qed.
Lemma analyze_plain l a : analyze l = Done a -> plainAllowed a = true -> l <> [] -> plainSafe l.
Proof.
  intros H P NE. unfold analyze in H. destruct l as [|c r]; [congruence|].
  match type of H with context [mkSeen ?st _ _ _ _ _ _ _ _ _ _ _] => remember st as start eqn:ST end. destruct (lookAll _ true _ (c :: r)) as [s| |] eqn:L; try discriminate H. injection H as <-. cbn [plainAllowed] in P.
  apply negb_true_iff in P. repeat (apply orb_false_iff in P as [P ?]). destruct (lookAll_clear _ _ _ _ _ L) as [(St & _) F]; [repeat split; repeat match goal with H : (_ || _)%bool = false |- _ => apply orb_false_iff in H as [? ?] end; assumption|].
  cbn [s_block] in St. unfold plainSafe. destruct (fine_all _ _ _ F) as [A T]. split; [exact NE|]. split; [exact A|]. destruct F as (R & (G1 & G2 & G3) & _ & F).
  split; [intros q E; injection E as -> _; now apply G2|]. split; [exact T|]. destruct (fine_inner _ _ F) as (I1 & I2 & I3). split; [|split; [|split; [|split; [|split]]]].
  - intros x q E. injection E as <- <-. assert (Q : ~ In c headers).
    { intro I. rewrite <- not_true_iff_false in G1. apply G1. apply existsb_exists. exists c. split; [exact I|apply Ascii.eqb_refl]. }
    split; [intro I; apply Q; unfold headers; cbn in I |- *; tauto|intros ->; apply Q; unfold headers; cbn; tauto].
  - intros x q E I. injection E as <- <-. apply G3. cbn in I |- *. tauto.
  - intros [|x a] b E; injection E as -> E; [subst; apply G3; cbn; tauto|now apply (I1 a)].
  - intros [|x a] b E; injection E as -> E; [now apply G2|exact (I2 a b E)].
  - intros q E. injection E as E1 E2. rewrite E1, E2 in ST. rewrite ST in St. discriminate St.
  - intros q E. injection E as E1 E2. rewrite E1, E2 in ST. rewrite ST in St. discriminate St.
Qed.

(** between single quotes *)
Fixpoint calmT (space break : bool) (l : list ascii) : Prop :=
  match l with
  | [] => True
  | c :: r => (c = "010"%char \/ between32 c) /\ (c = " "%char -> break = false) /\ (c = "010"%char -> space = false) /\
      calmT (Ascii.eqb c " ") (Ascii.eqb c "010") r
  end.
Definition quietT (s : seen) : Prop := s_breakSpace s = false /\ s_spaceBreak s = false /\ s_special s = false.
Lemma look_quiet first s c r s' : look first s c (c :: r) = Done s' -> quietT s' ->
  quietT s /\ width c = 1%nat /\ s_prevSpace s' = Ascii.eqb c " " /\ s_prevBreak s' = Ascii.eqb c "010" /\
  (c = "010"%char \/ between32 c) /\ (c = " "%char -> s_prevBreak s = false) /\ (c = "010"%char -> s_prevSpace s = false).
Proof.
  intros H C. unfold look in H. needs H. injection H as <-. destruct C as (C1 & C2 & C3). cbn [s_breakSpace s_spaceBreak s_special s_prevSpace s_prevBreak] in *.
  apply orb_false_iff in C1 as [B1 B2], C2 as [K1 K2], C3 as [S1 S2]. apply orb_false_iff in S1 as [S1 S3]. apply negb_false_iff in S2, S3. apply Z.ltb_lt in S2. subst.
  assert (R : c = "010"%char \/ between32 c) by now apply (printable_ascii c r).
  assert (BK : b1 = Ascii.eqb c "010").
  { destruct R as [->|R]; [vm_compute in E1; injection E1 as <-; reflexivity|]. unfold isBreak, byteAt in E1. cbn [nth_error] in E1. unfold between32 in R.
    destruct (Z.eqb_spec (bytev c) 13); [lia|]. destruct (Z.eqb_spec (bytev c) 10); [lia|]. cbn [orb] in E1. destruct (Z.eqb_spec (bytev c) 194); [lia|]. destruct (Z.eqb_spec (bytev c) 226); [lia|].
    injection E1 as <-. destruct (Ascii.eqb_spec c "010") as [->|]; [vm_compute in R; destruct R as [X _]; now destruct X|reflexivity]. }
  split; [repeat split; assumption|]. split; [unfold width; apply Z.ltb_lt in S2; now rewrite S2|]. split; [reflexivity|]. split.
  { destruct (Ascii.eqb_spec c " ") as [->|N]; [reflexivity|exact BK]. }
  split; [exact R|]. split; [intros ->; exact B2|]. intros ->. rewrite BK in K2. exact K2.
Qed.
Lemma lookAll_quiet : forall n first s l s', lookAll n first s l = Done s' -> quietT s' -> quietT s /\ calmT (s_prevSpace s) (s_prevBreak s) l.
Proof.
  induction n as [|n IH]; intros first s l s' H C; destruct l as [|c r]; cbn [lookAll] in H; try discriminate H; try (injection H as ->; now split).
  destruct (look first s c (c :: r)) as [t| |] eqn:L; try discriminate H. destruct (width c) as [|w] eqn:W; [discriminate H|].
  assert (Ct : quietT t) by (eapply IH; eassumption). destruct (look_quiet _ _ _ _ _ L Ct) as (Cs & W1 & P1 & P2 & R & F & T). rewrite W in W1. injection W1 as ->. cbn [skipn] in H.
  apply IH in H as [_ Fr]; [|exact C]. split; [exact Cs|]. cbn [calmT]. rewrite P1, P2 in Fr. auto.
Qed.
Lemma calm_single : forall l sp br, calmT sp br l -> singleSafe l /\ (sp = true -> forall b, l <> "010"%char :: b) /\ (br = true -> forall b, l <> " "%char :: b).
Proof.
  induction l as [|c l IH]; intros sp br F; [repeat split; try constructor; try (intros [|? ?] ?; discriminate); discriminate|]. destruct F as (R & F1 & F2 & F). destruct (IH _ _ F) as ((A & B & D) & G1 & G2). repeat split.
  - now constructor.
  - intros [|x a] b E; injection E as E1 E; [subst c; exact (G2 eq_refl _ E)|exact (B a b E)].
  - intros [|x a] b E; injection E as E1 E; [subst c; exact (G1 eq_refl _ E)|exact (D a b E)].
  - intros P b E. injection E as -> _. rewrite F2 in P by reflexivity. discriminate P.
  - intros P b E. injection E as -> _. rewrite F1 in P by reflexivity. discriminate P.
Qed.
Lemma analyze_single l a : analyze l = Done a -> singleAllowed a = true -> singleSafe l.
Proof.
  intros H P. unfold analyze in H. destruct l as [|c0 r0] eqn:El; [split; [constructor|]; split; intros [|? ?] ?; discriminate|]. rewrite <- El in *. clear El.
  match type of H with context [mkSeen ?st _ _ _ _ _ _ _ _ _ _ _] => remember st as start eqn:ST end. destruct (lookAll _ true _ l) as [s| |] eqn:L; try discriminate H. injection H as <-. cbn [singleAllowed] in P.
  apply negb_true_iff in P. apply orb_false_iff in P as [P1 P2]. apply orb_false_iff in P2 as [P2 P3]. destruct (lookAll_quiet _ _ _ _ _ L) as [_ F]; [now repeat split|]. now apply calm_single in F.
Qed.
Lemma emit_scalars pf fg v : forall evs st s, Yaml.emit pf fg v = Done evs -> In (Scalar st s) evs -> exists key st0, emitScalar key st0 s = Done [Scalar st s].
Proof.
  enough (G : forall n evs st s, Yaml.emit pf fg (val n) = Done evs -> In (Scalar st s) evs -> exists key st0, emitScalar key st0 s = Done [Scalar st s]) by exact (G (mkNode v emptyAnn "" None None)).
  assert (SC : forall key st0 t evs st s, emitScalar key st0 t = Done evs -> In (Scalar st s) evs -> exists key st0, emitScalar key st0 s = Done [Scalar st s]).
  { intros key st0 t evs st s E I. exists key, st0. pose proof E as E'. unfold emitScalar in E. destruct (analyze (chars t)); try discriminate E. injection E as <-. destruct I as [I|[]]. injection I as <- <-. exact E'. }
  assert (AT : forall {A} (x y : outcome (list A)) z, andThen x y = Done z -> exists a b, x = Done a /\ y = Done b /\ z = a ++ b).
  { intros A x y z E. destruct x; try discriminate E. destruct y; try discriminate E. injection E as <-. eauto. }
  induction n as [v' a0 s0 t0 r0 IH] using node_ind'. cbn [val]. intros evs st s E I. destruct v'; try discriminate E; try (eapply SC; [exact E|exact I]); cbn [node_sub] in IH.
  - rewrite emit_list in E. apply AT in E as (a & b & E1 & E & ->). injection E1 as <-. apply AT in E as (x & y & E & E2 & ->). injection E2 as <-.
    destruct I as [I|I]; [discriminate I|]. cbn [app] in I. apply in_app_iff in I as [I|[I|[]]]; [|discriminate I]. clear - IH E I AT. revert x E I. induction IH as [|n l Hn _ IHl]; intros x E I; [injection E as <-; destruct I|].
    change (andThen (Yaml.emitN pf fg n) (emitL pf fg l) = Done x) in E. apply AT in E as (p & q & E1 & E2 & ->). rewrite emit_node in E1. apply in_app_iff in I as [I|I]; [exact (Hn _ _ _ E1 I)|exact (IHl _ E2 I)].
  - rewrite emit_map in E. apply AT in E as (a & b & E1 & E & ->). injection E1 as <-. apply AT in E as (x & y & E & E2 & ->). injection E2 as <-.
    destruct I as [I|I]; [discriminate I|]. cbn [app] in I. apply in_app_iff in I as [I|[I|[]]]; [|discriminate I]. clear - IH E I AT SC. revert x E I. induction IH as [|[k n] m Hn _ IHl]; intros x E I; [injection E as <-; destruct I|].
    change (andThen (emitScalar true (Yaml.textStyle pf k) k) (andThen (Yaml.emitN pf fg n) (emitM pf fg m)) = Done x) in E. apply AT in E as (p & q & E1 & E2 & ->). apply AT in E2 as (p' & q' & E2 & E3 & ->). rewrite emit_node in E2. apply in_app_iff in I as [I|I]; [exact (SC _ _ _ _ _ _ E1 I)|]. apply in_app_iff in I as [I|I]; [exact (Hn _ _ _ E2 I)|exact (IHl _ E3 I)].
Qed.
(** scalars are written without quotes, or between single quotes, only if YAML allows it *)
Theorem C62_plain : forall parseFloat formatG v evs s, Yaml.emit parseFloat formatG v = Done evs -> s <> "" ->
  In (Scalar Plain s) evs -> plainSafe (chars s).
Proof.
  intros pf fg v evs s E N I. destruct (emit_scalars _ _ _ _ _ _ E I) as (key & st0 & X). unfold emitScalar in X. destruct (analyze (chars s)) as [a| |] eqn:A; try discriminate X. injection X as X.
  apply (analyze_plain _ a A); [|destruct s; [congruence|discriminate]]. destruct (plainAllowed a) eqn:P; [reflexivity|]. exfalso. revert X. unfold selectStyle. rewrite P. cbn [negb orb].
  destruct ((key && simpleKey a s) && multiline a), st0, (singleAllowed a), (negb (blockAllowed a) || (key && simpleKey a s)); cbn; discriminate.
Qed.
Theorem C62_single : forall parseFloat formatG v evs s, Yaml.emit parseFloat formatG v = Done evs ->
  In (Scalar SingleQuoted s) evs -> singleSafe (chars s).
Proof.
  intros pf fg v evs s E I. destruct (emit_scalars _ _ _ _ _ _ E I) as (key & st0 & X). unfold emitScalar in X. destruct (analyze (chars s)) as [a| |] eqn:A; try discriminate X. injection X as X.
  apply (analyze_single _ a A). destruct (singleAllowed a) eqn:P; [reflexivity|]. exfalso. revert X. unfold selectStyle. rewrite P.
  destruct ((key && simpleKey a s) && multiline a), st0, (negb (plainAllowed a) || String.eqb s "" && (key && simpleKey a s)), (negb (blockAllowed a) || (key && simpleKey a s)); cbn; discriminate.
Qed.

(** * Concrete cases *)
Definition exParse (s : string) : option spec_float := if String.eqb s "1.5" then Some (S754_finite false 3 (-1)) else None.
Definition exFormat (f : spec_float) : string := match f with S754_finite true _ _ => "-1.5" | _ => "1.5" end.
Definition exNode (v : value) : node := mkNode v emptyAnn "" None None.
Definition exDoc : value := VMap [("list", exNode (VList [exNode (VFloat (S754_finite true 3 (-1))); exNode (VStr "yes"); exNode (VStr "010"); exNode VNil])); ("null", exNode (VInt (-7)))].
Example ex_doc : doc exParse exFormat exDoc.
Proof.
  assert (U : forall s, forallb (fun c => bytev c <? 128)%Z (chars s) = true -> utf8Text (chars s)).
  { intros s H. apply utf8_ascii. rewrite forallb_forall in H. apply Forall_forall. intros c I. specialize (H c I). now apply Z.ltb_lt in H. }
  constructor; [repeat split; cbn; intros k H; repeat (destruct H as [<-|H]; [reflexivity|]); destruct H|].
  apply Forall_cons; [split; [now apply U|]|apply Forall_cons; [split; [now apply U|]|constructor]]; constructor; [|split; discriminate].
  repeat apply Forall_cons; [..|constructor]; constructor; [|now apply U|now apply U].
  intros _. split; [|split].
  - exists ["-"%char], ["1"%char], ["."; "5"]%char, []. split; [now right; left|]. split; [split; [split; [discriminate|repeat constructor; cbn; tauto]|intros r H; discriminate H]|].
    split; [right; exists ["5"%char]; split; [reflexivity|split; [discriminate|repeat constructor; cbn; tauto]]|]. split; [now left|reflexivity].
  - intros H. now destruct (H "1.5").
  - intros r H. injection H as <-. reflexivity.
Qed.
Example ex_written : Yaml.emit exParse exFormat exDoc =
  Done [MapStart; Scalar Plain "list"; SeqStart; Scalar Plain "-1.5"; Scalar DoubleQuoted "yes"; Scalar DoubleQuoted "010"; Scalar Plain "null"; SeqEnd; Scalar DoubleQuoted "null"; Scalar Plain "-7"; MapEnd].
Proof. vm_compute. reflexivity. Qed.
Example ex_read : exists n, parseDoc exParse "" [MapStart; Scalar Plain "a"; Scalar Plain "Off"; Scalar Plain "b"; Scalar Plain "0x1_F"; Scalar Plain "a"; Scalar SingleQuoted "~"; MapEnd] = Got n /\
  val n = VMap [("a", exNode (VStr "~")); ("b", exNode (VInt 31))].
Proof. eexists. split; vm_compute; reflexivity. Qed.

Print Assumptions C62_null.
Print Assumptions C62_bool.
Print Assumptions C62_int.
Print Assumptions C62_float.
Print Assumptions C62_time.
Print Assumptions C62_text.
Print Assumptions C62_quoted.
Print Assumptions C62_document.
Print Assumptions C62_written.
Print Assumptions C62_root_refuted.
Print Assumptions C62_hang_refuted.
Print Assumptions C62_date_refuted.
Print Assumptions C62_keys_refuted.
Print Assumptions C62_octal_refuted.
Print Assumptions C62_float_refuted.
Example ex_quotes : Yaml.emit exParse exFormat (VList [exNode (VStr "a: b"); exNode (VStr "a:b"); exNode (VStr "- x"); exNode (VStr "it's #1"); exNode (VStr "x "); exNode (VStr "é")]) =
  Done [SeqStart; Scalar SingleQuoted "a: b"; Scalar Plain "a:b"; Scalar SingleQuoted "- x"; Scalar SingleQuoted "it's #1"; Scalar SingleQuoted "x "; Scalar DoubleQuoted "é"; SeqEnd].
Proof. vm_compute. reflexivity. Qed.

Print Assumptions C62_plain.
Print Assumptions C62_single.
