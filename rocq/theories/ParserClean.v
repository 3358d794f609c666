(** Reading with the actions of the parser, starting in a state without pending options of
    a merge expression: every expression leaves such a state behind. *)
From Verif Require Import Core CoreFacts Str StrFacts DecSpec Peg PegFacts Grammar Eval Parser ParserFacts ParserRead Written ParserWords.
From Coq Require Import SpecFloat Lia PeanoNat.
Import ListNotations.

Ltac conjs := repeat match goal with |- _ /\ _ => split end.
Definition clean (st : bstate) : Prop := b_replace st = false /\ b_required st = false /\ b_key st = ""%string.
(** the rules that leave an option for the merge expression around them *)
Definition option_rule (r : rule) : bool := match r with R_Replace | R_Required | R_On => true | _ => false end.
Section C.
Variable parseFloat : string -> option spec_float.
Variable path stubPath : list string.
Notation action := (action parseFloat path stubPath).
Notation raw := (ParserRead.go parseFloat path stubPath).
Lemma action_clean r w st st' : option_rule r = false -> clean st -> action r w st = BSt st' -> clean st'.
Proof.
  intros O C. destruct st as [k rep req ky n]. destruct C as [C1 [C2 C3]]. cbn in C1, C2, C3. subst.
  destruct r; try discriminate O; unfold Parser.action; cbn [b_stack b_replace b_required b_key b_next];
    intros H;
    repeat first [injection H as <-; now repeat split | discriminate H
      | match type of H with context [match ?x with _ => _ end] => destruct x end].
Qed.
Definition go (p : peg rule) (s s' : list ascii) (st st' : bstate) : Prop := clean st -> raw p s s' st st' /\ clean st'.
Lemma clean_start : clean start.
Proof. now repeat split. Qed.
Lemma go_reads p s s' st' : go p s s' start st' -> reads p s s'.
Proof. intros H. destruct (H clean_start) as [R _]. eapply ParserRead.go_reads; exact R. Qed.
Lemma go_reads_at p s s' st st' : clean st -> go p s s' st st' -> reads p s s'.
Proof. intros C H. destruct (H C) as [R _]. eapply ParserRead.go_reads; exact R. Qed.
Lemma go_same p s s' st : raw p s s' st st -> go p s s' st st.
Proof. now split. Qed.
Lemma go_push p s s' e st : raw p s s' st (push e st) -> go p s s' st (push e st).
Proof. intros H C. now split. Qed.
Lemma go_eps s st : go PEps s s st st.
Proof. apply go_same, go_eps. Qed.
Lemma go_lit l s st : go (PLit l) (chars l ++ s) s st st.
Proof. apply go_same, go_lit. Qed.
Lemma go_set l c s st : inSet l c = true -> go (PSet l) (c :: s) s st st.
Proof. intros. now apply go_same, go_set. Qed.
Lemma go_any c s st : go PAny (c :: s) s st st.
Proof. apply go_same, go_any. Qed.
Lemma go_seq a b s s1 s2 st st1 st2 : go a s s1 st st1 -> go b s1 s2 st1 st2 -> go (PSeq a b) s s2 st st2.
Proof. intros A B C. destruct (A C) as [RA C1]. destruct (B C1) as [RB C2]. split; [eapply ParserRead.go_seq; eassumption|assumption]. Qed.
Lemma go_alt_l a b s s' st st' : go a s s' st st' -> go (PAlt a b) s s' st st'.
Proof. intros A C. destruct (A C). split; [now apply ParserRead.go_alt_l|assumption]. Qed.
Lemma go_alt_r a b s s' st st' : fails a s -> go b s s' st st' -> go (PAlt a b) s s' st st'.
Proof. intros F A C. destruct (A C). split; [now apply ParserRead.go_alt_r|assumption]. Qed.
Lemma go_star_nil a s st : fails a s -> go (PStar a) s s st st.
Proof. intros. now apply go_same, go_star_nil. Qed.
Lemma go_star_cons a s s1 s2 st st1 st2 : go a s s1 st st1 -> go (PStar a) s1 s2 st1 st2 -> go (PStar a) s s2 st st2.
Proof. intros A B C. destruct (A C) as [RA C1]. destruct (B C1) as [RB C2]. split; [eapply ParserRead.go_star_cons; eassumption|assumption]. Qed.
Lemma go_plus a s s1 s2 st st1 st2 : go a s s1 st st1 -> go (PStar a) s1 s2 st1 st2 -> go (PPlus a) s s2 st st2.
Proof. intros A B C. destruct (A C) as [RA C1]. destruct (B C1) as [RB C2]. split; [eapply ParserRead.go_plus; eassumption|assumption]. Qed.
Lemma go_opt_some a s s' st st' : go a s s' st st' -> go (POpt a) s s' st st'.
Proof. intros A C. destruct (A C). split; [now apply ParserRead.go_opt_some|assumption]. Qed.
Lemma go_opt_none a s st : fails a s -> go (POpt a) s s st st.
Proof. intros. now apply go_same, go_opt_none. Qed.
Lemma go_not a s st : fails a s -> go (PNot a) s s st st.
Proof. intros. now apply go_same, go_not. Qed.
Lemma go_rule r s s' st st1 st2 : go (grammar r) s s' st st1 ->
  (forall w, s = w ++ s' -> (if option_rule r then BErr else action r (ofchars w) st1) = BSt st2) -> go (PRule r) s s' st st2.
Proof.
  intros G H C. destruct (G C) as [R C1]. destruct (option_rule r) eqn:O.
  - destruct R as [f [t [w [E _]]]]. discriminate (H w E).
  - split; [eapply ParserRead.go_rule; eassumption|].
    destruct R as [f [t [w [E _]]]]. eapply action_clean; [exact O|exact C1|exact (H w E)].
Qed.
Lemma go_rule0 r s s' st st1 : go (grammar r) s s' st st1 ->
  (forall w, action r w st1 = BSt st1) -> go (PRule r) s s' st st1.
Proof. intros G H C. destruct (G C) as [R C1]. split; [|assumption]. now apply ParserRead.go_rule0. Qed.
Lemma go_Parse s e : Forall isAscii s -> go (grammar R_Dynaml) s [] start (push e start) ->
  exists f, forall f', (f <= f')%nat -> Parse parseFloat path stubPath f' (ofchars s) = ParseOk e.
Proof. intros A G. apply go_Parse; [assumption|]. apply G, clean_start. Qed.

Lemma go_many l p w s st : (forall c, inSet l c = p c) -> Forall (fun c => p c = true) w -> hd_is p s = false ->
  go (PStar (PSet l)) (w ++ s) s st st.
Proof. intros. apply go_same. now apply (go_many parseFloat path stubPath l p). Qed.
Lemma go_many1 l p w s st : (forall c, inSet l c = p c) -> Forall (fun c => p c = true) w -> w <> [] -> hd_is p s = false ->
  go (PPlus (PSet l)) (w ++ s) s st st.
Proof. intros. apply go_same. now apply (go_many1 parseFloat path stubPath l p). Qed.
Lemma go_ws g s st : gap g -> nb s -> go (PRule R_ws) (g ++ s) s st st.
Proof. intros. now apply go_same, go_ws. Qed.
Lemma go_req g s st : space g -> nb s -> go (PRule R_req_ws) (g ++ s) s st st.
Proof. intros. now apply go_same, go_req. Qed.
Lemma go_lit1 c s st : go (PLit (String c EmptyString)) (c :: s) s st st.
Proof. apply go_same, go_lit1. Qed.
Lemma go_part p s st : partOk p -> sep s -> go (PRule R_PathComponent) (partText p ++ s) s st st.
Proof. intros. now apply go_same, go_part. Qed.
Lemma go_parts ps s st : Forall partOk ps -> refstop s -> go (PRule R_FollowUpRef) (List.concat (map partText ps) ++ s) s st st.
Proof. intros. now apply go_same, go_parts. Qed.
Lemma go_Reference k ps s st : key k -> hd_is isNum k = false \/ True -> Forall partOk ps -> refstop s ->
  go (PRule R_Reference) ((k ++ List.concat (map partText ps)) ++ s) s st (push (ERef "" (ofchars k :: map partName ps)) st).
Proof. intros. now apply go_push, go_Reference. Qed.
Lemma go_RootReference k ps s st : key k -> Forall partOk ps -> refstop s ->
  go (PRule R_Reference) (("."%char :: k ++ List.concat (map partText ps)) ++ s) s st (push (ERef "" (""%string :: ofchars k :: map partName ps)) st).
Proof. intros. now apply go_push, go_RootReference. Qed.
End C.
