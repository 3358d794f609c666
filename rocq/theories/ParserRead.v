(** A calculus for the parser on ASCII texts: [go p s s' st st'] - the pattern reads
    [s] up to [s'] and its actions lead from [st] to [st'] - and [fails p s]. *)
From Verif Require Import Core Str Peg PegFacts Grammar Eval Parser ParserFacts.
From Coq Require Import SpecFloat Lia PeanoNat.
Import ListNotations.

Definition one (c : ascii) : string := String c EmptyString.
Definition sing (s : list ascii) : list string := map one s.
Lemma sing_app a b : sing (a ++ b) = sing a ++ sing b.
Proof. apply map_app. Qed.
Lemma sing_len a : length (sing a) = length a.
Proof. apply map_length. Qed.

Definition fails (p : peg rule) (s : list ascii) : Prop := exists f, run grammar f p (sing s) = RunFail.
Definition reads (p : peg rule) (s s' : list ascii) : Prop :=
  exists f t, run grammar f p (sing s) = RunOk (sing s') t.

Lemma runs_up f f' p s x : run grammar f p s = x -> x <> RunFuel -> (f <= f')%nat -> run grammar f' p s = x.
Proof. intros H N L. rewrite <- H. apply run_le; [assumption|congruence]. Qed.
Lemma fails_up p s : fails p s -> exists f, forall f', (f <= f')%nat -> run grammar f' p (sing s) = RunFail.
Proof. intros [f H]. exists f. intros f' L. now apply (runs_up f). Qed.
Lemma reads_up p s s' : reads p s s' -> exists f t, forall f', (f <= f')%nat -> run grammar f' p (sing s) = RunOk (sing s') t.
Proof. intros [f [t H]]. exists f, t. intros f' L. now apply (runs_up f). Qed.

(** ** failures *)
Lemma fails_lit l s : eat (chars l) (sing s) = None -> fails (PLit l) s.
Proof. intros H. exists 1%nat. cbn. now rewrite H. Qed.
Lemma fails_set l c s : inSet l c = false -> fails (PSet l) (c :: s).
Proof. intros H. exists 1%nat. cbn. now rewrite H. Qed.
Lemma fails_set_nil l : fails (PSet l) [].
Proof. now exists 1%nat. Qed.
Lemma fails_seq_l a b s : fails a s -> fails (PSeq a b) s.
Proof. intros [f H]. exists (S f). cbn [run]. now rewrite H. Qed.
Lemma fails_seq_r a b s s' : reads a s s' -> fails b s' -> fails (PSeq a b) s.
Proof.
  intros A B. apply reads_up in A. apply fails_up in B. destruct A as [f [t A]], B as [f' B].
  exists (S (f + f')). cbn [run]. rewrite A by lia. now rewrite B by lia.
Qed.
Lemma fails_alt a b s : fails a s -> fails b s -> fails (PAlt a b) s.
Proof.
  intros A B. apply fails_up in A, B. destruct A as [f A], B as [f' B].
  exists (S (f + f')). cbn [run]. rewrite A by lia. now rewrite B by lia.
Qed.
Lemma fails_plus a s : fails a s -> fails (PPlus a) s.
Proof. intros [f H]. exists (S f). cbn [run]. now rewrite H. Qed.
Lemma fails_not a s s' : reads a s s' -> fails (PNot a) s.
Proof. intros [f [t H]]. exists (S f). cbn [run]. now rewrite H. Qed.
Lemma fails_rule r s : fails (grammar r) s -> fails (PRule r) s.
Proof. intros [f H]. exists (S f). cbn [run]. now rewrite H. Qed.

(** ** reading without actions *)
Lemma reads_eps s : reads PEps s s.
Proof. now exists 1%nat, []. Qed.
Lemma eat_ok l s : eat l (sing (l ++ s)) = Some (sing s).
Proof.
  induction l as [|c l IH]; [reflexivity|]. cbn [eat sing map app]. unfold isChar, one. rewrite String.eqb_refl. exact IH.
Qed.
Lemma reads_lit l s : reads (PLit l) (chars l ++ s) s.
Proof. exists 1%nat, []. cbn [run]. now rewrite eat_ok. Qed.
Lemma reads_set l c s : inSet l c = true -> reads (PSet l) (c :: s) s.
Proof. intros H. exists 1%nat, []. cbn. now rewrite H. Qed.
Lemma reads_seq a b s s1 s2 : reads a s s1 -> reads b s1 s2 -> reads (PSeq a b) s s2.
Proof.
  intros A B. apply reads_up in A, B. destruct A as [f [t A]], B as [f' [t' B]].
  exists (S (f + f')), (t ++ t'). cbn [run]. rewrite A by lia. now rewrite B by lia.
Qed.
Lemma reads_alt_l a b s s' : reads a s s' -> reads (PAlt a b) s s'.
Proof. intros [f [t H]]. exists (S f), t. cbn [run]. now rewrite H. Qed.
Lemma reads_alt_r a b s s' : fails a s -> reads b s s' -> reads (PAlt a b) s s'.
Proof.
  intros A B. apply fails_up in A. apply reads_up in B. destruct A as [f A], B as [f' [t' B]].
  exists (S (f + f')), t'. cbn [run]. rewrite A by lia. now rewrite B by lia.
Qed.
Lemma reads_star_nil a s : fails a s -> reads (PStar a) s s.
Proof. intros [f H]. exists (S f), []. cbn [run]. now rewrite H. Qed.
Lemma reads_star_cons a s s1 s2 : reads a s s1 -> reads (PStar a) s1 s2 -> reads (PStar a) s s2.
Proof.
  intros A B. apply reads_up in A, B. destruct A as [f [t A]], B as [f' [t' B]].
  exists (S (f + f')), (t ++ t'). cbn [run]. rewrite A by lia. now rewrite B by lia.
Qed.
Lemma reads_plus a s s1 s2 : reads a s s1 -> reads (PStar a) s1 s2 -> reads (PPlus a) s s2.
Proof.
  intros A B. apply reads_up in A, B. destruct A as [f [t A]], B as [f' [t' B]].
  exists (S (f + f')), (t ++ t'). cbn [run]. rewrite A by lia. now rewrite B by lia.
Qed.
Lemma reads_opt_some a s s' : reads a s s' -> reads (POpt a) s s'.
Proof. intros [f [t H]]. exists (S f), t. cbn [run]. now rewrite H. Qed.
Lemma reads_opt_none a s : fails a s -> reads (POpt a) s s.
Proof. intros [f H]. exists (S f), []. cbn [run]. now rewrite H. Qed.
Lemma reads_not a s : fails a s -> reads (PNot a) s s.
Proof. intros [f H]. exists (S f), []. cbn [run]. now rewrite H. Qed.
Lemma reads_rule r s s' : reads (grammar r) s s' -> reads (PRule r) s s'.
Proof. intros [f [t H]]. eexists (S f), _. cbn [run]. rewrite H. reflexivity. Qed.
(** ** inversions *)
Lemma eat_prefix w s s' : eat w (sing s) = Some s' -> exists r, s = w ++ r /\ s' = sing r.
Proof.
  revert s. induction w as [|c w IH]; intros s H; [exists s; now inversion H|].
  destruct s as [|d s]; [discriminate|]. cbn [eat sing map] in H.
  destruct (isChar c (one d)) eqn:E; [|discriminate]. apply IH in H. destruct H as [r [-> ->]].
  exists r. unfold isChar, one in E. apply String.eqb_eq in E. inversion E; subst. now split.
Qed.
Lemma run_suffix f : forall p s s' t, run grammar f p (sing s) = RunOk s' t -> exists w v, s = w ++ v /\ s' = sing v.
Proof.
  induction f as [|f IH]; intros p s s' t H; [discriminate|].
  assert (T : forall a b x, match run grammar f a (sing s) with
       | RunOk s1 t1 => match run grammar f b s1 with RunOk s2 t2 => RunOk s2 (t1 ++ t2) | y => y end
       | y => y end = RunOk s' x -> exists w v, s = w ++ v /\ s' = sing v).
  { intros a b x Q. destruct (run grammar f a (sing s)) as [| |s1 t1] eqn:R1; try discriminate.
    apply IH in R1. destruct R1 as [w1 [v1 [-> ->]]].
    destruct (run grammar f b (sing v1)) as [| |s2 t2] eqn:R2; try discriminate. inversion Q; subst.
    apply IH in R2. destruct R2 as [w2 [v2 [-> ->]]]. exists (w1 ++ w2), v2. now rewrite app_assoc. }
  destruct p; cbn [run] in H.
  - inversion H; subst. now exists [], s.
  - destruct (eat _ _) eqn:E; [|discriminate]. inversion H; subst.
    apply eat_prefix in E. destruct E as [r [-> ->]]. eauto.
  - destruct s as [|c s]; [discriminate|]. cbn [sing map] in H. destruct (runeIn _ _); [|discriminate].
    inversion H; subst. now exists [c], s.
  - destruct s as [|c s]; [discriminate|]. inversion H; subst. now exists [c], s.
  - exact (T _ _ _ H).
  - destruct (run grammar f p1 (sing s)) as [| |s1 t1] eqn:R1; try discriminate.
    + eauto.
    + inversion H; subst. eauto.
  - destruct (run grammar f p (sing s)) as [| |s1 t1] eqn:R1; try discriminate.
    + inversion H; subst. now exists [], s.
    + apply (T p (PStar p) t). rewrite R1. exact H.
  - exact (T _ _ _ H).
  - destruct (run grammar f p (sing s)) as [| |s1 t1] eqn:R1; try discriminate; inversion H; subst.
    + now exists [], s.
    + eauto.
  - destruct (run grammar f p (sing s)); try discriminate. inversion H; subst. now exists [], s.
  - destruct (run grammar f (grammar r) (sing s)) as [| |s1 t1] eqn:R1; try discriminate. inversion H; subst. eauto.
Qed.
Lemma sing_inj a b : sing a = sing b -> a = b.
Proof.
  revert b. induction a as [|c a IH]; intros [|d b] H; try discriminate; [reflexivity|].
  inversion H; subst. f_equal. auto.
Qed.
Lemma reads_lit_inv l s s' : reads (PLit l) s s' -> s = chars l ++ s'.
Proof.
  intros [[|f] [t H]]; [discriminate|]. cbn [run] in H. destruct (eat _ _) eqn:E; [|discriminate].
  inversion H; subst. apply eat_prefix in E. destruct E as [r [-> E]]. apply sing_inj in E. now subst.
Qed.
Lemma reads_set_inv l s s' : reads (PSet l) s s' -> exists c, s = c :: s' /\ inSet l c = true.
Proof.
  intros [[|f] [t H]]; [discriminate|]. cbn [run] in H. destruct s as [|c s]; [discriminate|].
  cbn [sing map] in H. destruct (runeIn l (one c)) eqn:E; [|discriminate]. inversion H as [[H1 H2]].
  apply sing_inj in H1. subst. now exists c.
Qed.
Lemma reads_seq_inv a b s s' : reads (PSeq a b) s s' -> exists s1, reads a s s1 /\ reads b s1 s'.
Proof.
  intros [[|f] [t H]]; [discriminate|]. cbn [run] in H.
  destruct (run grammar f a (sing s)) as [| |s1 t1] eqn:R1; try discriminate.
  pose proof R1 as X. apply run_suffix in X. destruct X as [w1 [v1 [-> ->]]].
  destruct (run grammar f b (sing v1)) as [| |s2 t2] eqn:R2; try discriminate. inversion H; subst.
  exists v1. split; [exists f, t1; assumption|exists f, t2; assumption].
Qed.
Lemma reads_alt_inv a b s s' : reads (PAlt a b) s s' -> reads a s s' \/ (fails a s /\ reads b s s').
Proof.
  intros [[|f] [t H]]; [discriminate|]. cbn [run] in H.
  destruct (run grammar f a (sing s)) as [| |s1 t1] eqn:R1; try discriminate.
  - right. split; [now exists f|]. now exists f, t.
  - left. inversion H; subst. now exists f, t.
Qed.
Lemma reads_opt_inv a s s' : reads (POpt a) s s' -> reads a s s' \/ (fails a s /\ s = s').
Proof.
  intros [[|f] [t H]]; [discriminate|]. cbn [run] in H.
  destruct (run grammar f a (sing s)) as [| |s1 t1] eqn:R1; try discriminate; inversion H as [[H1 H2]].
  - right. apply sing_inj in H1. split; [now exists f|assumption].
  - left. subst. now exists f, t.
Qed.
Lemma reads_plus_inv a s s' : reads (PPlus a) s s' -> exists s1, reads a s s1 /\ reads (PStar a) s1 s'.
Proof.
  intros [[|f] [t H]]; [discriminate|]. cbn [run] in H.
  destruct (run grammar f a (sing s)) as [| |s1 t1] eqn:R1; try discriminate.
  pose proof R1 as X. apply run_suffix in X. destruct X as [w1 [v1 [-> ->]]].
  destruct (run grammar f (PStar a) (sing v1)) as [| |s2 t2] eqn:R2; try discriminate. inversion H; subst.
  exists v1. split; [exists f, t1; assumption|exists f, t2; assumption].
Qed.
Lemma reads_rule_inv r s s' : reads (PRule r) s s' -> reads (grammar r) s s'.
Proof.
  intros [[|f] [t H]]; [discriminate|]. cbn [run] in H.
  destruct (run grammar f (grammar r) (sing s)) as [| |s1 t1] eqn:R1; try discriminate. inversion H; subst. now exists f, t1.
Qed.
(** induction over a loop *)
Lemma reads_star_ind a (R : list ascii -> list ascii -> Prop) :
  (forall s, R s s) -> (forall s s1 s2, reads a s s1 -> R s1 s2 -> R s s2) ->
  forall s s', reads (PStar a) s s' -> R s s'.
Proof.
  intros R0 RS s s' [f [t H]]. revert s t H. induction f as [|f IH]; intros s t H; [discriminate|].
  cbn [run] in H. destruct (run grammar f a (sing s)) as [| |s1 t1] eqn:R1; try discriminate.
  - inversion H as [[H1 H2]]. apply sing_inj in H1. subst. apply R0.
  - pose proof R1 as X. apply run_suffix in X. destruct X as [w1 [v1 [-> ->]]].
    destruct (run grammar f (PStar a) (sing v1)) as [| |s2 t2] eqn:R2; try discriminate. inversion H; subst.
    eapply RS; [exists f, t1; eassumption|]. eapply IH; eassumption.
Qed.
Lemma reads_many_inv l s s' : reads (PStar (PSet l)) s s' -> exists w, s = w ++ s' /\ Forall (fun c => inSet l c = true) w.
Proof.
  apply (reads_star_ind (PSet l) (fun s s' => exists w, s = w ++ s' /\ Forall (fun c => inSet l c = true) w)).
  - intros x. exists []. now split.
  - intros x x1 x2 H [w [-> F]]. apply reads_set_inv in H. destruct H as [c [-> H]]. exists (c :: w). now split; [|constructor].
Qed.
Lemma reads_det p s s1 s2 : reads p s s1 -> reads p s s2 -> s1 = s2.
Proof.
  intros [f [t H]] [f' [t' H']]. apply sing_inj.
  pose proof (run_det rule grammar f f' p (sing s)) as D. rewrite H, H' in D.
  specialize (D ltac:(discriminate) ltac:(discriminate)). now inversion D.
Qed.
Lemma reads_not_fails p s s' : reads p s s' -> fails p s -> False.
Proof.
  intros [f [t H]] [f' H']. pose proof (run_det rule grammar f f' p (sing s)) as D. rewrite H, H' in D.
  specialize (D ltac:(discriminate) ltac:(discriminate)). discriminate.
Qed.
(** a pattern that does not read fails, for it terminates *)
Lemma fails_by p s : starok rule nlR p = true -> (forall s', reads p s s' -> False) -> fails p s.
Proof.
  intros H N. destruct (grammar_terminates p (sing s) H) as [f F].
  exists f. destruct (run grammar f p (sing s)) as [| |s' t] eqn:E; [congruence|reflexivity|exfalso].
  pose proof E as X. apply run_suffix in X. destruct X as [w [v [_ ->]]]. apply (N v). now exists f, t.
Qed.

(** ** reading with actions *)
Section Go.
Variable parseFloat : string -> option spec_float.
Variable path stubPath : list string.
Notation action := (action parseFloat path stubPath).
Notation exec := (exec parseFloat path stubPath).

Definition go (p : peg rule) (s s' : list ascii) (st st' : bstate) : Prop :=
  exists f toks w, s = w ++ s' /\ run grammar f p (sing s) = RunOk (sing s') toks /\
    forall pre, exec (ofchars (pre ++ s)) (length (pre ++ s)) toks st = BSt st'.
Lemma go_reads p s s' st st' : go p s s' st st' -> reads p s s'.
Proof. intros [f [t [w [_ [H _]]]]]. now exists f, t. Qed.
Lemma go_quiet p s s' st : (exists f w, s = w ++ s' /\ run grammar f p (sing s) = RunOk (sing s') []) -> go p s s' st st.
Proof. intros [f [w [E H]]]. exists f, [], w. repeat split; trivial. Qed.
Lemma go_eps s st : go PEps s s st st.
Proof. apply go_quiet. now exists 1%nat, []. Qed.
Lemma go_lit l s st : go (PLit l) (chars l ++ s) s st st.
Proof. apply go_quiet. exists 1%nat, (chars l). split; [reflexivity|]. cbn [run]. now rewrite eat_ok. Qed.
Lemma go_set l c s st : inSet l c = true -> go (PSet l) (c :: s) s st st.
Proof. intros H. apply go_quiet. exists 1%nat, [c]. split; [reflexivity|]. cbn. now rewrite H. Qed.
Lemma go_any c s st : go PAny (c :: s) s st st.
Proof. apply go_quiet. now exists 1%nat, [c]. Qed.
Lemma exec_suffix w s' st st' toks :
  (forall pre, exec (ofchars (pre ++ s')) (length (pre ++ s')) toks st = BSt st') ->
  forall pre, exec (ofchars (pre ++ w ++ s')) (length (pre ++ w ++ s')) toks st = BSt st'.
Proof. intros H pre. rewrite app_assoc. apply H. Qed.
Lemma go_seq a b s s1 s2 st st1 st2 : go a s s1 st st1 -> go b s1 s2 st1 st2 -> go (PSeq a b) s s2 st st2.
Proof.
  intros [f [t [w [-> [A XA]]]]] [f' [t' [w' [-> [B XB]]]]].
  exists (S (f + f')), (t ++ t'), (w ++ w'). split; [now rewrite app_assoc|]. split.
  - cbn [run]. rewrite (runs_up _ _ _ _ _ A) by (lia || discriminate).
    now rewrite (runs_up _ _ _ _ _ B) by (lia || discriminate).
  - intros pre. rewrite exec_app, XA. apply exec_suffix. apply XB.
Qed.
Lemma go_alt_l a b s s' st st' : go a s s' st st' -> go (PAlt a b) s s' st st'.
Proof.
  intros [f [t [w [E [A X]]]]]. exists (S f), t, w. repeat split; trivial. cbn [run]. now rewrite A.
Qed.
Lemma go_alt_r a b s s' st st' : fails a s -> go b s s' st st' -> go (PAlt a b) s s' st st'.
Proof.
  intros F [f [t [w [E [A X]]]]]. apply fails_up in F. destruct F as [f' F].
  exists (S (f + f')), t, w. repeat split; trivial. cbn [run]. rewrite F by lia.
  now rewrite (runs_up _ _ _ _ _ A) by (lia || discriminate).
Qed.
Lemma go_star_nil a s st : fails a s -> go (PStar a) s s st st.
Proof. intros [f H]. apply go_quiet. exists (S f), []. split; [reflexivity|]. cbn [run]. now rewrite H. Qed.
Lemma go_star_cons a s s1 s2 st st1 st2 : go a s s1 st st1 -> go (PStar a) s1 s2 st1 st2 -> go (PStar a) s s2 st st2.
Proof.
  intros [f [t [w [-> [A XA]]]]] [f' [t' [w' [-> [B XB]]]]].
  exists (S (f + f')), (t ++ t'), (w ++ w'). split; [now rewrite app_assoc|]. split.
  - cbn [run]. rewrite (runs_up _ _ _ _ _ A) by (lia || discriminate).
    now rewrite (runs_up _ _ _ _ _ B) by (lia || discriminate).
  - intros pre. rewrite exec_app, XA. apply exec_suffix. apply XB.
Qed.
Lemma go_plus a s s1 s2 st st1 st2 : go a s s1 st st1 -> go (PStar a) s1 s2 st1 st2 -> go (PPlus a) s s2 st st2.
Proof.
  intros [f [t [w [-> [A XA]]]]] [f' [t' [w' [-> [B XB]]]]].
  exists (S (f + f')), (t ++ t'), (w ++ w'). split; [now rewrite app_assoc|]. split.
  - cbn [run]. rewrite (runs_up _ _ _ _ _ A) by (lia || discriminate).
    now rewrite (runs_up _ _ _ _ _ B) by (lia || discriminate).
  - intros pre. rewrite exec_app, XA. apply exec_suffix. apply XB.
Qed.
Lemma go_opt_some a s s' st st' : go a s s' st st' -> go (POpt a) s s' st st'.
Proof.
  intros [f [t [w [E [A X]]]]]. exists (S f), t, w. repeat split; trivial. cbn [run]. now rewrite A.
Qed.
Lemma go_opt_none a s st : fails a s -> go (POpt a) s s st st.
Proof. intros [f H]. apply go_quiet. exists (S f), []. split; [reflexivity|]. cbn [run]. now rewrite H. Qed.
Lemma go_not a s st : fails a s -> go (PNot a) s s st st.
Proof. intros [f H]. apply go_quiet. exists (S f), []. split; [reflexivity|]. cbn [run]. now rewrite H. Qed.
Lemma chars_of l : chars (ofchars l) = l.
Proof. apply list_ascii_of_string_of_list_ascii. Qed.
Lemma contents_ok r pre w s' :
  contentsOf (ofchars (pre ++ w ++ s')) (length (pre ++ w ++ s')) (mkTok r (length (w ++ s')) (length s')) = ofchars w.
Proof.
  unfold contentsOf. cbn [t_begin t_end]. rewrite chars_of. f_equal.
  rewrite !app_length.
  replace (length pre + (length w + length s') - (length w + length s'))%nat with (length pre) by lia.
  replace (length w + length s' - length s')%nat with (length w) by lia.
  rewrite skipn_app, skipn_all, Nat.sub_diag. cbn [skipn app].
  rewrite firstn_app, firstn_all, Nat.sub_diag. cbn [firstn]. apply app_nil_r.
Qed.
Lemma go_rule r s s' st st1 st2 : go (grammar r) s s' st st1 ->
  (forall w, s = w ++ s' -> action r (ofchars w) st1 = BSt st2) -> go (PRule r) s s' st st2.
Proof.
  intros [f [t [w [-> [A X]]]]] H.
  eexists (S f), _, w. split; [reflexivity|]. split.
  - cbn [run]. rewrite A. reflexivity.
  - intros pre. rewrite exec_app, X. cbn [Parser.exec t_rule].
    rewrite !sing_len, contents_ok, H; reflexivity.
Qed.
(** a rule with nothing to do *)
Lemma go_rule0 r s s' st st1 : go (grammar r) s s' st st1 ->
  (forall w, action r w st1 = BSt st1) -> go (PRule r) s s' st st1.
Proof. intros G H. apply (go_rule r s s' st st1 st1 G). intros w _. apply H. Qed.

(** ** the whole text *)
Definition isAscii (c : ascii) : Prop := bytev c < 128.
Lemma runes_ascii s : Forall isAscii s -> runes (ofchars s) = sing s.
Proof.
  unfold runes. rewrite chars_of. induction 1 as [|c s H F IH]; [reflexivity|].
  cbn [runes_aux rune_width]. unfold isAscii in H.
  replace (bytev c <? 128) with true by (symmetry; now apply Z.ltb_lt).
  cbn [firstn Nat.sub ofchars]. rewrite IH. reflexivity.
Qed.
Definition push (e : expr) (st : bstate) : bstate :=
  mkB (IExpr e :: b_stack st) (b_replace st) (b_required st) (b_key st) (b_next st).
Lemma go_Parse s e : Forall isAscii s -> go (grammar R_Dynaml) s [] start (push e start) ->
  exists f, forall f', (f <= f')%nat -> Parse parseFloat path stubPath f' (ofchars s) = ParseOk e.
Proof.
  intros As [f [t [w [E [A X]]]]]. exists (S f). intros f' L. unfold Parse. rewrite runes_ascii by assumption.
  assert (R : run grammar (S f) (PRule R_Dynaml) (sing s) = RunOk (sing []) (t ++ [mkTok R_Dynaml (length (sing s)) 0]))
    by (cbn [run]; rewrite A; reflexivity).
  rewrite (runs_up (S f) f' _ _ _ R) by (assumption || discriminate).
  specialize (X []). cbn [app] in X. rewrite sing_len, exec_app, X. reflexivity.
Qed.
End Go.
