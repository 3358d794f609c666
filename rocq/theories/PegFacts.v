(** Facts on the execution of parsing expression grammars. *)
From Verif Require Import Core Str Peg.
From Coq Require Import Lia PeanoNat.
Import ListNotations.

Section Facts.
Variable rule : Type.
Variable g : rule -> peg rule.
Notation run := (run g).

Definition step (rec : peg rule -> list string -> pres rule) (p : peg rule) (s : list string) : pres rule :=
    match p with
      | PEps => RunOk s []
      | PLit l => match eat (chars l) s with Some s' => RunOk s' [] | None => RunFail end
      | PSet l => match s with
                  | r :: s' => if runeIn l r then RunOk s' [] else RunFail
                  | [] => RunFail
                  end
      | PAny => match s with _ :: s' => RunOk s' [] | [] => RunFail end
      | PSeq a b => match rec a s with
                    | RunOk s' t => match rec b s' with
                                  | RunOk s'' t' => RunOk s'' (t ++ t')
                                  | x => x
                                  end
                    | x => x
                    end
      | PAlt a b => match rec a s with
                    | RunFail => rec b s
                    | x => x
                    end
      | PStar a => match rec a s with
                   | RunOk s' t => match rec (PStar a) s' with
                                 | RunOk s'' t' => RunOk s'' (t ++ t')
                                 | x => x
                                 end
                   | RunFail => RunOk s []
                   | RunFuel => RunFuel
                   end
      | PPlus a => match rec a s with
                   | RunOk s' t => match rec (PStar a) s' with
                                 | RunOk s'' t' => RunOk s'' (t ++ t')
                                 | x => x
                                 end
                   | x => x
                   end
      | POpt a => match rec a s with
                  | RunFail => RunOk s []
                  | x => x
                  end
      | PNot a => match rec a s with
                  | RunOk _ _ => RunFail
                  | RunFail => RunOk s []
                  | RunFuel => RunFuel
                  end
      | PRule r => match rec (g r) s with
                   | RunOk s' t => RunOk s' (t ++ [mkTok r (length s) (length s')])
                   | x => x
                   end
      end.
Lemma run_step f p s : run (S f) p s = step (run f) p s.
Proof. now destruct p. Qed.
(** more fuel does not change a result *)
Lemma run_S f : forall p s, run f p s <> RunFuel -> run (S f) p s = run f p s.
Proof.
  induction f as [|f IH]; intros p s H; [now contradiction H|].
  rewrite run_step in H. rewrite (run_step f), (run_step (S f)).
  destruct p; cbv iota beta delta [step] in H |- *; try reflexivity.
  - (* seq *) destruct (run f p1 s) as [| |s' t] eqn:E1; [now contradiction H| |].
    + rewrite IH by congruence. now rewrite E1.
    + rewrite IH by congruence. rewrite E1.
      destruct (run f p2 s') as [| |s'' t'] eqn:E2; [now contradiction H| |];
        rewrite IH by congruence; now rewrite E2.
  - destruct (run f p1 s) as [| |s' t] eqn:E1; [now contradiction H| |];
      rewrite IH by congruence; rewrite E1; [|reflexivity].
    now apply IH.
  - destruct (run f p s) as [| |s' t] eqn:E1; [now contradiction H| |];
      rewrite IH by congruence; rewrite E1; [reflexivity|].
    destruct (run f (PStar p) s') as [| |s'' t'] eqn:E2; [now contradiction H| |];
      rewrite IH by congruence; now rewrite E2.
  - destruct (run f p s) as [| |s' t] eqn:E1; [now contradiction H| |];
      rewrite IH by congruence; rewrite E1; [reflexivity|].
    destruct (run f (PStar p) s') as [| |s'' t'] eqn:E2; [now contradiction H| |];
      rewrite IH by congruence; now rewrite E2.
  - destruct (run f p s) as [| |s' t] eqn:E1; [now contradiction H| |];
      rewrite IH by congruence; now rewrite E1.
  - destruct (run f p s) as [| |s' t] eqn:E1; [now contradiction H| |];
      rewrite IH by congruence; now rewrite E1.
  - destruct (run f (g r) s) as [| |s' t] eqn:E1; [now contradiction H| |];
      rewrite IH by congruence; now rewrite E1.
Qed.
Lemma run_le f f' p s : (f <= f')%nat -> run f p s <> RunFuel -> run f' p s = run f p s.
Proof.
  induction 1 as [|f' L IH]; intros H; [reflexivity|].
  rewrite run_S; [now apply IH|]. now rewrite IH.
Qed.
Lemma run_det f f' p s : run f p s <> RunFuel -> run f' p s <> RunFuel -> run f p s = run f' p s.
Proof.
  intros H H'. destruct (Nat.le_ge_cases f f') as [L|L].
  - now rewrite (run_le f f').
  - now rewrite (run_le f' f).
Qed.

(** ** what is read is a part of the text *)
Lemma eat_len l : forall s s', eat l s = Some s' -> length s = (length l + length s')%nat.
Proof.
  induction l as [|c l IH]; intros s s' H; cbn in *; [now inversion H|].
  destruct s as [|r s]; [discriminate|]. destruct (isChar c r); [|discriminate].
  apply IH in H. cbn. lia.
Qed.
Lemma run_len f : forall p s s' t, run f p s = RunOk s' t -> (length s' <= length s)%nat.
Proof.
  induction f as [|f IH]; intros p s s' t H; [discriminate|].
  destruct p; cbn [Peg.run] in H.
  - inversion H; lia.
  - destruct (eat _ _) eqn:E; [|discriminate]. inversion H; subst. apply eat_len in E. lia.
  - destruct s; [discriminate|]. destruct (runeIn _ _); [|discriminate]. inversion H; subst. cbn; lia.
  - destruct s; [discriminate|]. inversion H; subst. cbn; lia.
  - destruct (run f p1 s) as [| |s1 t1] eqn:E1; try discriminate.
    destruct (run f p2 s1) as [| |s2 t2] eqn:E2; try discriminate. inversion H; subst.
    apply IH in E1, E2. lia.
  - destruct (run f p1 s) as [| |s1 t1] eqn:E1; try discriminate.
    + now apply IH in H.
    + inversion H; subst. now apply IH in E1.
  - destruct (run f p s) as [| |s1 t1] eqn:E1; try discriminate.
    + inversion H; subst; lia.
    + destruct (run f (PStar p) s1) as [| |s2 t2] eqn:E2; try discriminate. inversion H; subst.
      apply IH in E1, E2. lia.
  - destruct (run f p s) as [| |s1 t1] eqn:E1; try discriminate.
    destruct (run f (PStar p) s1) as [| |s2 t2] eqn:E2; try discriminate. inversion H; subst.
    apply IH in E1, E2. lia.
  - destruct (run f p s) as [| |s1 t1] eqn:E1; try discriminate; inversion H; subst; [lia|].
    now apply IH in E1.
  - destruct (run f p s) as [| |s1 t1] eqn:E1; try discriminate; inversion H; subst; lia.
  - destruct (run f (g r) s) as [| |s1 t1] eqn:E1; try discriminate; inversion H; subst.
    now apply IH in E1.
Qed.

(** ** termination *)
(** [nl r]: the rule may succeed without reading something *)
Variable nl : rule -> bool.
Fixpoint nullable (p : peg rule) : bool :=
  match p with
  | PEps => true
  | PLit l => match l with EmptyString => true | _ => false end
  | PSet _ | PAny => false
  | PSeq a b => nullable a && nullable b
  | PAlt a b => nullable a || nullable b
  | PStar _ | POpt _ | PNot _ => true
  | PPlus a => nullable a
  | PRule r => nl r
  end.
Hypothesis nl_ok : forall r, nullable (g r) = true -> nl r = true.
Lemma run_consumes f : forall p s s' t, nullable p = false -> run f p s = RunOk s' t -> (length s' < length s)%nat.
Proof.
  induction f as [|f IH]; intros p s s' t N H; [discriminate|].
  destruct p; cbn [Peg.run] in H; cbn [nullable] in N; try discriminate.
  - destruct (eat _ _) eqn:E; [|discriminate]. inversion H; subst. apply eat_len in E.
    destruct s0; [discriminate|]. cbn in E. lia.
  - destruct s; [discriminate|]. destruct (runeIn _ _); [|discriminate]. inversion H; subst. cbn; lia.
  - destruct s; [discriminate|]. inversion H; subst. cbn; lia.
  - destruct (run f p1 s) as [| |s1 t1] eqn:E1; try discriminate.
    destruct (run f p2 s1) as [| |s2 t2] eqn:E2; try discriminate. inversion H; subst.
    apply andb_false_iff in N. destruct N as [N|N].
    + apply (IH _ _ _ _ N) in E1. apply run_len in E2. lia.
    + apply (IH _ _ _ _ N) in E2. apply run_len in E1. lia.
  - apply orb_false_iff in N. destruct N as [N1 N2].
    destruct (run f p1 s) as [| |s1 t1] eqn:E1; try discriminate.
    + now apply (IH _ _ _ _ N2) in H.
    + inversion H; subst. now apply (IH _ _ _ _ N1) in E1.
  - destruct (run f p s) as [| |s1 t1] eqn:E1; try discriminate.
    destruct (run f (PStar p) s1) as [| |s2 t2] eqn:E2; try discriminate. inversion H; subst.
    apply (IH _ _ _ _ N) in E1. apply run_len in E2. lia.
  - destruct (run f (g r) s) as [| |s1 t1] eqn:E1; try discriminate; inversion H; subst.
    apply IH in E1; [assumption|]. destruct (nullable (g r)) eqn:X; [|reflexivity].
    apply nl_ok in X. congruence.
Qed.
(** the bodies of the loops read something *)
Fixpoint starok (p : peg rule) : bool :=
  match p with
  | PSeq a b | PAlt a b => starok a && starok b
  | PStar a | PPlus a => starok a && negb (nullable a)
  | POpt a | PNot a => starok a
  | _ => true
  end.
Variable rank : rule -> nat.
(** the rules called before something is read have a rank below [k] *)
Fixpoint leftok (k : nat) (p : peg rule) : bool :=
  match p with
  | PSeq a b => leftok k a && (if nullable a then leftok k b else true)
  | PAlt a b => leftok k a && leftok k b
  | PStar a | PPlus a | POpt a | PNot a => leftok k a
  | PRule r => Nat.ltb (rank r) k
  | _ => true
  end.
Hypothesis stars : forall r, starok (g r) = true.
Hypothesis lefts : forall r, leftok (rank r) (g r) = true.
Variable K : nat.
Hypothesis ranks : forall r, (rank r < K)%nat.
Lemma leftok_K p : leftok K p = true.
Proof.
  induction p; cbn; auto; try (now rewrite ?IHp1, ?IHp2).
  - rewrite IHp1, IHp2. now destruct (nullable p1).
  - now apply Nat.ltb_lt.
Qed.
Lemma both_fuel a b s s' : (exists f, run f a s <> RunFuel) -> (exists f, run f b s' <> RunFuel) ->
  exists f, run f a s <> RunFuel /\ run f b s' <> RunFuel.
Proof.
  intros [f Ha] [f' Hb]. exists (f + f')%nat. split.
  - rewrite (run_le f); [assumption|lia|assumption].
  - rewrite (run_le f'); [assumption|lia|assumption].
Qed.
Lemma terminates_aux : forall n k p, starok p = true -> leftok k p = true ->
  forall s, length s = n -> exists f, run f p s <> RunFuel.
Proof.
  induction n as [n IHn] using lt_wf_ind.
  assert (IHn' : forall p s, starok p = true -> (length s < n)%nat -> exists f, run f p s <> RunFuel)
    by (intros; eapply (IHn (length s)); eauto using leftok_K).
  clear IHn.
  induction k as [k IHk] using lt_wf_ind.
  induction p as [|l0|l0| |a IHa b IHb|a IHa b IHb|a IHa|a IHa|a IHa|a IHa|r];
    cbn [starok leftok]; intros SO LO s LS.
  - now exists 1%nat.
  - exists 1%nat. cbn. now destruct (eat _ _).
  - exists 1%nat. cbn. destruct s; [congruence|]. now destruct (runeIn _ _).
  - exists 1%nat. cbn. now destruct s.
  - (* seq *)
    apply andb_true_iff in SO, LO. destruct SO as [Sa Sb], LO as [La Lb].
    destruct (IHa Sa La s LS) as [f Hf].
    destruct (run f a s) as [| |s' t] eqn:E; [now contradiction Hf| |].
    + exists (S f). cbn [Peg.run]. now rewrite E.
    + assert (X : exists f', run f' b s' <> RunFuel).
      { destruct (nullable a) eqn:N.
        - pose proof (run_len _ _ _ _ _ E) as L.
          destruct (Nat.eq_dec (length s') n) as [D|D]; [now apply IHb|]. apply IHn'; [assumption|lia].
        - pose proof (run_consumes _ _ _ _ _ N E) as L. apply IHn'; [assumption|lia]. }
      destruct (both_fuel a b s s') as [f' [A B]]; [exists f; now rewrite E|assumption|].
      exists (S f'). cbn [Peg.run]. rewrite (run_det f' f) by (congruence || now rewrite E).
      rewrite E. now destruct (run f' b s').
  - apply andb_true_iff in SO, LO. destruct SO as [Sa Sb], LO as [La Lb].
    destruct (both_fuel a b s s) as [f [A B]]; eauto.
    exists (S f). cbn [Peg.run]. destruct (run f a s); congruence.
  - apply andb_true_iff in SO. destruct SO as [Sa Sb].
    destruct (IHa Sa LO s LS) as [f Hf].
    destruct (run f a s) as [| |s' t] eqn:E; [now contradiction Hf| |].
    + exists (S f). cbn [Peg.run]. now rewrite E.
    + apply negb_true_iff in Sb. pose proof (run_consumes _ _ _ _ _ Sb E) as L.
      destruct (both_fuel a (PStar a) s s') as [f' [A B]]; [exists f; now rewrite E| |].
      { apply IHn'; [cbn; now rewrite Sa, Sb|lia]. }
      exists (S f'). cbn [Peg.run]. rewrite (run_det f' f) by (congruence || now rewrite E).
      rewrite E. now destruct (run f' (PStar a) s').
  - apply andb_true_iff in SO. destruct SO as [Sa Sb].
    destruct (IHa Sa LO s LS) as [f Hf].
    destruct (run f a s) as [| |s' t] eqn:E; [now contradiction Hf| |].
    + exists (S f). cbn [Peg.run]. now rewrite E.
    + apply negb_true_iff in Sb. pose proof (run_consumes _ _ _ _ _ Sb E) as L.
      destruct (both_fuel a (PStar a) s s') as [f' [A B]]; [exists f; now rewrite E| |].
      { apply IHn'; [cbn; now rewrite Sa, Sb|lia]. }
      exists (S f'). cbn [Peg.run]. rewrite (run_det f' f) by (congruence || now rewrite E).
      rewrite E. now destruct (run f' (PStar a) s').
  - destruct (IHa SO LO s LS) as [f Hf]. exists (S f). cbn [Peg.run]. destruct (run f a s); congruence.
  - destruct (IHa SO LO s LS) as [f Hf]. exists (S f). cbn [Peg.run]. destruct (run f a s); congruence.
  - apply Nat.ltb_lt in LO.
    destruct (IHk (rank r) LO (g r) (stars r) (lefts r) s LS) as [f Hf].
    exists (S f). cbn [Peg.run]. destruct (run f (g r) s); congruence.
Qed.
Lemma terminates p s : starok p = true -> exists f, run f p s <> RunFuel.
Proof. intros H. eapply terminates_aux; [exact H|apply leftok_K|reflexivity]. Qed.
End Facts.
