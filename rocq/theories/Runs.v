(** Relational reading of computations with fuel: [runs m s a s'] if m ends with [a]
    for some fuel. *)
From Coq Require Import Lia.
From Verif Require Import Core Str Interp Find Cleanup Unresolved DeepEq Env Arith IP Comparison RangeSlice ListFns Flow Info Eval Control Engine EngineFacts.

Section Runs.
Variable ST : Type.
Definition runs {A} (m : nat -> M ST A) (s : ST) (a : A) (s' : ST) : Prop := exists f, m f s = Ret a s'.
Definition incr {A} (m : nat -> M ST A) : Prop := forall f f', (f <= f')%nat -> le (m f) (m f').

Lemma incr_const : forall {A} (m : M ST A), incr (fun _ => m).
Proof. intros A m f f' _. apply le_refl. Qed.
Lemma incr_bind : forall {A B} (m : nat -> M ST A) (k : nat -> A -> M ST B),
  incr m -> (forall a, incr (fun f => k f a)) -> incr (fun f => bind ST (m f) (k f)).
Proof. intros A B m k H K f f' L. apply le_bind; [now apply H|]. intro a. now apply (K a). Qed.

Lemma runs_ret : forall {A} (x : A) s a s', runs (fun _ => ret ST x) s a s' <-> a = x /\ s' = s.
Proof.
  intros. split.
  - intros [f E]. unfold ret in E. inversion E; auto.
  - intros [-> ->]. now exists O.
Qed.
Lemma runs_bind : forall {A B} (m : nat -> M ST A) (k : nat -> A -> M ST B) s b s',
  incr m -> (forall a, incr (fun f => k f a)) ->
  (runs (fun f => bind ST (m f) (k f)) s b s' <->
   exists a s1, runs m s a s1 /\ runs (fun f => k f a) s1 b s').
Proof.
  intros A B m k s b s' H K. split.
  - intros [f E]. unfold bind in E. destruct (m f s) as [a s1| |] eqn:E1; try discriminate.
    exists a, s1. split; [now exists f|now exists f].
  - intros [a [s1 [[f E] [g F]]]]. exists (Nat.max f g). unfold bind.
    rewrite (le_ret _ _ _ _ _ _ (H f (Nat.max f g) ltac:(lia)) E).
    apply (le_ret _ _ _ _ _ _ (K a g (Nat.max f g) ltac:(lia)) F).
Qed.
Lemma runs_fun : forall {A} (m : nat -> M ST A) s a s' a' s'', incr m ->
  runs m s a s' -> runs m s a' s'' -> a' = a /\ s'' = s'.
Proof.
  intros A m s a s' a' s'' H [f E] [g F].
  pose proof (le_ret _ _ _ _ _ _ (H f (Nat.max f g) ltac:(lia)) E) as E1.
  pose proof (le_ret _ _ _ _ _ _ (H g (Nat.max f g) ltac:(lia)) F) as F1.
  rewrite E1 in F1. now inversion F1.
Qed.
Lemma runs_ext : forall {A} (m m' : nat -> M ST A) s a s', (forall f, m f s = m' f s) ->
  (runs m s a s' <-> runs m' s a s').
Proof. intros A m m' s a s' H. split; intros [f E]; exists f; [rewrite <- H|rewrite H]; exact E. Qed.
(** runs of a match on known data *)
Lemma runs_panic : forall {A} s (a : A) s', runs (fun _ => panic ST) s a s' <-> False.
Proof. intros. split; [intros [f E]; discriminate|tauto]. Qed.
End Runs.
Arguments runs {ST A}. Arguments incr {ST A}.

Section Ev.
Variable ST : Type.
Variable W : world ST.
Hypothesis SW : steadyWorld W.
Lemma incr_eval : forall e b l, incr (fun f => evalF ST W f e b l).
Proof. intros e b l f f' L. now apply evalF_le. Qed.
Lemma evaluates_runs : forall e b l s r s',
  evaluates ST W e b l s r s' <-> runs (fun f => stepE ST W f e b l) s r s'.
Proof. intros. apply evaluates_step. Qed.
Lemma evaluates_def : forall e b l s r s',
  evaluates ST W e b l s r s' <-> runs (fun f => evalF ST W f e b l) s r s'.
Proof. intros. reflexivity. Qed.

(** results of a part of an expression *)
Definition pushOf (e : expr) (i : option info) (r : R) : push :=
  let '(v, ie, ok) := r in
  let ie := match i with Some i => join i ie | None => ie end in
  if ok then match v with VExpr x => PExpr (keepArg x e) ie | _ => PVal v ie end else PFail ie.
Lemma runs_push : forall e i b l s p s',
  runs (fun f => resolvePush ST (evalF ST W f) e i b l) s p s' <->
  exists r, evaluates ST W e b l s r s' /\ p = pushOf e i r.
Proof.
  intros. unfold resolvePush. rewrite runs_bind;
    [|apply incr_eval|intros [[v ie] ok]; apply incr_const].
  split.
  - intros [[[v ie] ok] [s1 [H K]]]. apply runs_ret in K. destruct K as [-> ->].
    exists (v, ie, ok). split; [exact H|reflexivity].
  - intros [[[v ie] ok] [H ->]]. exists (v, ie, ok), s'. split; [exact H|].
    apply runs_ret. split; reflexivity.
Qed.
Lemma incr_push : forall e i b l, incr (fun f => resolvePush ST (evalF ST W f) e i b l).
Proof. intros e i b l f f' L. apply resolvePush_le. intros. now apply evalF_le. Qed.
End Ev.
