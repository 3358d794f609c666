(** C31 access rights at the functions: what a document can reach of the outside. *)
From Verif Require Import Core CoreFacts Str StrFacts Interp TextFns Find Unresolved Env Flow Info Eval Control Engine Context PropContext OSFns Keeps World0.
From Coq Require Import Lia.
Import ListNotations.

(** * Specification *)

(** the accesses a state permits: commands need OS access, files FILE access and
    are those of the state's file system, the network needs FILE access; the
    environment is always readable *)
Definition permitted (o : ost) (a : access) : Prop :=
  match a with
  | AExec _ _ => xosAllowed o = true
  | ARead f _ | AWrite f _ _ _ | AMkdir f _ _ | AStat f _ | AReadDir f _ | ATemp f =>
      xfileAllowed o = true /\ f = x_fs o
  | AHttp _ => xfileAllowed o = true
  | AEnv _ => True
  end.
(** between two states only permitted accesses happened, and the rights and the
    file system are those before *)
Definition onlyPermitted (o o' : ost) : Prop :=
  x_mode o' = x_mode o /\ x_fs o' = x_fs o
  /\ exists t, x_trace o' = x_trace o ++ t /\ Forall (permitted o) t.
Definition isExec (a : access) : Prop := match a with AExec _ _ => True | _ => False end.
(** the file system of an access to files *)
Definition accFS (a : access) : option fsys :=
  match a with
  | ARead f _ | AWrite f _ _ _ | AMkdir f _ _ | AStat f _ | AReadDir f _ | ATemp f => Some f
  | _ => None
  end.
Definition isEnv (a : access) : Prop := match a with AEnv _ => True | _ => False end.

Lemma permitted_ext : forall o o' a, x_mode o' = x_mode o -> x_fs o' = x_fs o -> permitted o a -> permitted o' a.
Proof. intros o o' a M F. destruct a; cbn; unfold xosAllowed, xfileAllowed; rewrite ?M, ?F; auto. Qed.
Lemma op_refl : forall o, onlyPermitted o o.
Proof. intros. repeat split. exists []. now rewrite app_nil_r. Qed.
Lemma op_trans : forall a b c, onlyPermitted a b -> onlyPermitted b c -> onlyPermitted a c.
Proof.
  intros a b c (M & F & t & T & P) (M' & F' & t' & T' & P').
  split; [congruence|]. split; [congruence|]. exists (t ++ t'). rewrite T', T, app_assoc. split; auto.
  apply Forall_app. split; auto. eapply Forall_impl; [|exact P'].
  intros x. apply permitted_ext; auto.
Qed.

Section OS.
Variable ST : Type.
Variable getO : ST -> ost.
Variable setO : ost -> ST -> ST.
Hypothesis get_set : forall o s, getO (setO o s) = o.
Variable O : outside.
Variable marshal : value -> option string.
Variable ffmt : SpecFloat.spec_float -> string.
Variable parseY : string -> string -> option node.
Variable parseMulti : string -> string -> option (list node).
Variables md5hex sha : string -> string.
Variable templPat : string -> bool.
Variable quote : string -> string.
Variable interpol : bool.
Variable joinPath : string -> string -> string.
Variable isAbs : string -> bool.

Definition allowedRun (s s' : ST) : Prop := onlyPermitted (getO s) (getO s').
Notation I := allowedRun.
Lemma I_refl : forall s, I s s.
Proof. intros. apply op_refl. Qed.
Lemma I_trans : forall a b c, I a b -> I b c -> I a c.
Proof. intros a b c. apply op_trans. Qed.
Hint Resolve I_refl I_trans : core.

(** reading the state first: the rest may use that it starts in this state *)
Definition keepsAt {A} (s : ST) (m : M ST A) : Prop := forall a s', m s = Ret a s' -> I s s'.
Lemma keepsAt_keeps : forall A (m : M ST A), (forall s, keepsAt s m) <-> keeps I m.
Proof. intros. split; intros H s a s'; apply H. Qed.
Lemma at_get : forall A (k : ost -> M ST A) s, keepsAt s (k (getO s)) -> keepsAt s (bind ST (get ST getO) k).
Proof. intros A k s H a s'. unfold bind, get. apply H. Qed.
Lemma at_bind : forall A B (m : M ST A) (k : A -> M ST B) s,
  keepsAt s m -> (forall a s', m s = Ret a s' -> I s s' -> keepsAt s' (k a)) -> keepsAt s (bind ST m k).
Proof.
  intros A B m k s H K a s'. unfold bind. destruct (m s) as [x s1| |] eqn:E; try discriminate.
  intro E'. pose proof (H _ _ E) as J. eapply I_trans; [exact J|]. eapply K; eauto.
Qed.
Lemma at_keeps : forall A (m : M ST A) s, keeps I m -> keepsAt s m.
Proof. intros A m s H a s'. apply H. Qed.
Lemma at_ask : forall A a (f : list access -> A) s, permitted (getO s) a -> keepsAt s (ask ST getO setO a f).
Proof.
  intros A a f s P x s' E. unfold ask in E. inversion E. subst. unfold allowedRun. rewrite get_set.
  repeat split. exists [a]. split; auto.
Qed.
Lemma keeps_modify : forall f, (forall o, onlyPermitted o (f o)) -> keeps I (modify ST getO setO f).
Proof. intros f H s a s' E. inversion E. subst. unfold allowedRun. rewrite get_set. apply H. Qed.
Lemma allowed_files : forall s s', I s s' -> xfileAllowed (getO s) = true -> xfileAllowed (getO s') = true.
Proof. intros s s' (M & F & _). unfold xfileAllowed. now rewrite M. Qed.
Lemma allowed_os : forall s s', I s s' -> xosAllowed (getO s) = true -> xosAllowed (getO s') = true.
Proof. intros s s' (M & F & _). unfold xosAllowed. now rewrite M. Qed.
Lemma same_fs : forall s s', I s s' -> x_fs (getO s) = x_fs (getO s').
Proof. now intros s s' (M & F & _). Qed.
Lemma at_fail : forall s t i, keepsAt s (fail ST t i).
Proof. intros s t i a s' E. inversion E. subst. apply I_refl. Qed.
Lemma at_failI : forall s i, keepsAt s (failI ST i).
Proof. intros s i a s' E. inversion E. subst. apply I_refl. Qed.
Lemma at_done : forall s v i, keepsAt s (done ST v i).
Proof. intros s v i a s' E. inversion E. subst. apply I_refl. Qed.
Lemma at_ret : forall A s (x : A), keepsAt s (ret ST x).
Proof. intros A s x a s' E. inversion E. subst. apply I_refl. Qed.
Lemma at_panic : forall A s, keepsAt s (@panic ST A).
Proof. intros A s a s' E. discriminate. Qed.
Hint Resolve at_fail at_failI at_done at_ret at_panic : core.

Lemma op_ecache : forall (c : bool) f o, onlyPermitted o (if c then setEcache (f o) o else o).
Proof. intros [] f o; [|apply op_refl]. repeat split. exists []. cbn. now rewrite app_nil_r. Qed.
Lemma op_fcache : forall f o, onlyPermitted o (setFcache f o).
Proof. intros f o. repeat split. exists []. cbn. now rewrite app_nil_r. Qed.
Lemma op_files : forall f o, onlyPermitted o (setFiles f o).
Proof. intros f o. repeat split. exists []. cbn. now rewrite app_nil_r. Qed.

Ltac at1 :=
  lazymatch goal with
  | |- forall _, _ => intro
  | |- keepsAt _ (bind _ (get _ _) _) => apply at_get
  | |- keepsAt _ (bind _ _ _) => apply at_bind; [|intros]
  | |- keepsAt _ (ask _ _ _ _ _) => apply at_ask; cbn [permitted]
  | |- keepsAt _ (match ?x with _ => _ end) => let E := fresh "E" in destruct x eqn:E
  | |- keepsAt _ (let _ := _ in _) => cbv zeta
  | |- keepsAt _ (modify _ _ _ _) => apply at_keeps, keeps_modify; intros; auto using op_fcache, op_files
  | H : negb ?x = false |- _ => apply Bool.negb_false_iff in H
  end.
Ltac at_ := repeat first [ progress at1 | solve [eauto 6 using allowed_files, allowed_os, same_fs] ].

Lemma filePath_at : forall f s, keepsAt s (filePathM ST getO setO O f).
Proof. intros. unfold filePathM. at_. Qed.
Hint Resolve filePath_at : core.
Lemma execute_at : forall cd c l s, xosAllowed (getO s) = true -> keepsAt s (execute ST getO setO O md5hex cd c l).
Proof.
  intros cd c l s P. unfold execute. destruct l as [|a0 r]; at_.
  all: try (apply (op_ecache cd (fun o => mset _ _ (x_ecache o)))).
Qed.
Lemma convert_at : forall d s, keepsAt s (convertOutput ST parseY d).
Proof. intros. unfold convertOutput. at_. Qed.
Hint Resolve convert_at execute_at : core.
Lemma exec_at : forall c l s, keepsAt s (func_exec ST getO setO O marshal ffmt parseY md5hex c l).
Proof. intros. unfold func_exec. at_. Qed.
Lemma pipe_at : forall c l s, keepsAt s (func_pipe ST getO setO O marshal ffmt parseY md5hex c l).
Proof. intros. unfold func_pipe. at_. Qed.
Lemma fileContent_at : forall f c s, xfileAllowed (getO s) = true -> keepsAt s (fileContent ST getO setO O f c).
Proof. intros f c s P. unfold fileContent. at_; split; eauto using allowed_files. Qed.
Hint Resolve fileContent_at : core.
Section Read.
Variable flowT : node -> binding -> M ST (node * list unres).
Hypothesis Hflow : forall n b, keeps I (flowT n b).
Lemma flowT_at : forall n b s, keepsAt s (flowT n b).
Proof. intros. now apply at_keeps. Qed.
Hint Resolve flowT_at : core.
Lemma parseData_at : forall f d m env s, keepsAt s (parseData ST parseY parseMulti templPat quote interpol flowT f d m env).
Proof. intros. unfold parseData. at_. Qed.
Hint Resolve parseData_at : core.
Lemma read_at : forall c l env s, keepsAt s (func_read ST getO setO O parseY parseMulti templPat quote interpol flowT c l env).
Proof. intros. unfold func_read. at_. Qed.
End Read.
Lemma getData_at : forall f w v s, keepsAt s (getData ST getO setO O marshal ffmt f w v).
Proof. intros. unfold getData. at_. Qed.
Hint Resolve getData_at : core.
Lemma write_at : forall l s, keepsAt s (func_write ST getO setO O marshal ffmt l).
Proof. intros. unfold func_write. at_; split; eauto using allowed_files, same_fs. Qed.
Lemma tempName_at : forall d s, keepsAt s (tempName ST getO setO O sha d).
Proof. intros. unfold tempName. at_; split; eauto using allowed_files, same_fs. Qed.
Hint Resolve tempName_at : core.
Lemma temp_at : forall l s, keepsAt s (func_tempfile ST getO setO O marshal ffmt sha l).
Proof. intros. unfold func_tempfile. at_; split; eauto using allowed_files, same_fs.
  all: etransitivity; eapply same_fs; eauto. Qed.
Lemma check_at : forall p d s, keepsAt s (checkExistence ST getO setO O p d).
Proof. intros. unfold checkExistence. at_; split; eauto. Qed.
Hint Resolve check_at : core.
Lemma lookupIn_at : forall l n d env s, keepsAt s (lookupIn ST getO setO O l n d env).
Proof. induction l; intros; cbn [lookupIn]; at_. Qed.
Hint Resolve lookupIn_at : core.
Lemma lookup_at : forall d l env s, keepsAt s (func_lookup ST getO setO O isAbs d l env).
Proof. intros. unfold func_lookup. at_. Qed.
Lemma list_at : forall d l env s, keepsAt s (func_listFiles ST getO setO O d l env).
Proof. intros. unfold func_listFiles. at_; split; eauto using allowed_files, same_fs. Qed.
Lemma mkdir_at : forall l s, keepsAt s (func_mkdir ST getO setO O marshal ffmt joinPath l).
Proof. intros. unfold func_mkdir. at_; split; eauto using allowed_files, same_fs. Qed.
Lemma askEnv_at : forall l s, keepsAt s (askEnv ST getO setO O l).
Proof. induction l; intros; cbn [askEnv]; at_. Qed.
Hint Resolve askEnv_at : core.
Lemma env_at : forall l s, keepsAt s (func_env ST getO setO O l).
Proof. intros. unfold func_env. at_. Qed.

Notation osF := (osFunction ST getO setO O marshal ffmt parseY parseMulti md5hex sha templPat quote interpol joinPath isAbs).

(** * The functions *)

(** every one of these functions makes only accesses the state permits, whatever
    the outside answers, provided the flow used for resolving read documents does *)
Theorem C31_functions : forall flowT name args env m,
  (forall n b, keeps allowedRun (flowT n b)) ->
  osF flowT name args env = Some m ->
  forall s r s', m s = Ret r s' -> onlyPermitted (getO s) (getO s').
Proof.
  intros flowT name args env m HF E. assert (K : forall s, keepsAt s m).
  { unfold osFunction in E.
    repeat match type of E with (if ?c then _ else _) = _ => destruct c end; inversion E; subst; intro;
    auto using exec_at, pipe_at, env_at, read_at, write_at, lookup_at, list_at, temp_at, mkdir_at. }
  intros s r s' R. exact (K s r s' R).
Qed.

Definition osNames : list string := ["exec"; "exec_uncached"; "pipe"; "pipe_uncached"]%string.
Definition fileNames : list string :=
  ["read"; "read_uncached"; "write"; "lookup_file"; "lookup_dir"; "list_files"; "list_dirs"; "tempfile"; "mkdir"]%string.

(** without the right the call fails, for all arguments, and nothing happens *)
Theorem C31_exec_denied : forall flowT name args env s, In name osNames -> xosAllowed (getO s) = false ->
  exists m i, osF flowT name args env = Some m /\ m s = Ret (VNil, i, false) s.
Proof.
  intros flowT name args env s H D.
  repeat (destruct H as [<-|H]; [destruct args as [|a [|b [|c args]]]; eexists; eexists; (split; [reflexivity|])|]); [..|destruct H].
  all: unfold func_exec, func_pipe; try reflexivity; unfold bind, get; rewrite D; reflexivity.
Qed.
Theorem C31_files_denied : forall flowT name args env s, In name fileNames -> xfileAllowed (getO s) = false ->
  exists m i, osF flowT name args env = Some m /\ m s = Ret (VNil, i, false) s.
Proof.
  intros flowT name args env s H D.
  repeat (destruct H as [<-|H]; [eexists|]); [..|destruct H].
  all: unfold osFunction; cbn [String.eqb Ascii.eqb Bool.eqb].
  1,2: destruct (2 <? length args)%nat eqn:L;
       [eexists; split; [reflexivity|]; unfold func_read; rewrite L; reflexivity
       |eexists; split; [reflexivity|]; unfold func_read; rewrite L; unfold bind, get; rewrite D; reflexivity].
  2-7: eexists; split; [reflexivity|]; unfold func_lookup, func_listFiles, func_tempfile, func_mkdir, bind, get; rewrite D; reflexivity.
  destruct args as [|a [|b [|c [|d args]]]]; eexists; (split; [reflexivity|]); unfold func_write; try reflexivity;
    cbn [length Nat.ltb Nat.leb]; unfold bind, get; try rewrite D; reflexivity.
Qed.

(** * The uncached variants always ask the outside *)
(** exec_uncached and pipe_uncached run the command, whatever was run before. *)
Theorem C33_uncached : forall content args s x s', execute ST getO setO O md5hex false content args s = Ret x s' ->
  exists t a r, args <> [] /\ x_trace (getO s') = x_trace (getO s) ++ t ++ [AExec content (a :: r)] /\ r = List.tl args /\
    (forall c l, ~ In (AExec c l) t) /\ x = out_exec O (x_trace (getO s) ++ t) content (a :: r).
Proof.
  intros content args s x s' H. destruct args as [|a0 r]; [discriminate|]. unfold execute, filePathM in H.
  destruct (hasPrefix a0 "~/"); unfold bind, ask, get, modify, ret in H; inversion H; subst; clear H; rewrite ?get_set.
  - exists [AEnv "HOME"], (if String.eqb (out_home O) "" then a0 else (out_home O +++ sdrop 1 a0)%string), r.
    rewrite ?get_set. cbn [x_trace setTrace List.tl]. rewrite <- app_assoc. split; [discriminate|]. split; [reflexivity|]. split; [reflexivity|].
    split; [|reflexivity]. intros c l [E|[]]. discriminate.
  - exists [], a0, r. rewrite ?get_set. cbn [x_trace setTrace List.tl app]. rewrite app_nil_r. split; [discriminate|]. repeat (split; [reflexivity|]).
    split; [|reflexivity]. intros c l [].
Qed.
(** read_uncached reads the file, whatever was read before. *)
Theorem C34_uncached : forall file s x s', fileContent ST getO setO O file false s = Ret x s' ->
  exists t a f, x_trace (getO s') = x_trace (getO s) ++ t ++ [a] /\
    (a = AHttp f /\ x = out_http O (x_trace (getO s) ++ t) f \/ a = ARead (x_fs (getO s)) f /\ x = out_read O (x_trace (getO s) ++ t) (x_fs (getO s)) f).
Proof.
  intros file s x s' H. unfold fileContent, filePathM in H.
  assert (G : forall f s1 t, x_trace (getO s1) = x_trace (getO s) ++ t -> x_fs (getO s1) = x_fs (getO s) ->
    bind ST (if hasPrefix f "http:" || hasPrefix f "https:" then ask ST getO setO (AHttp f) (fun t => out_http O t f)
             else ask ST getO setO (ARead (x_fs (getO s1)) f) (fun t => out_read O t (x_fs (getO s1)) f))
      (fun d => match d with Some d => bind ST (modify ST getO setO (fun s => setFcache (mset f d (x_fcache s)) s)) (fun _ => ret ST (Some d)) | None => ret ST None end) s1 = Ret x s' ->
    exists t a f, x_trace (getO s') = x_trace (getO s) ++ t ++ [a] /\
    (a = AHttp f /\ x = out_http O (x_trace (getO s) ++ t) f \/ a = ARead (x_fs (getO s)) f /\ x = out_read O (x_trace (getO s) ++ t) (x_fs (getO s)) f)).
  { clear H. intros f s1 t T F H. exists t, (if hasPrefix f "http:" || hasPrefix f "https:" then AHttp f else ARead (x_fs (getO s)) f), f.
    rewrite <- F. destruct (hasPrefix f "http:" || hasPrefix f "https:"); unfold bind, ask, modify, ret in H; cbv beta iota zeta in H;
      match type of H with (match ?d with Some _ => _ | None => _ end) _ = _ => destruct d eqn:D end; inversion H; subst; rewrite ?get_set; cbn [x_trace setFcache setTrace];
      rewrite ?get_set; cbn [x_trace setFcache setTrace]; rewrite T, <- app_assoc, <- T; (split; [reflexivity|]); rewrite <- D; auto. }
  destruct (hasPrefix file "~/"); unfold bind at 1 2, ask at 1, ret at 1 in H.
  - eapply (G _ _ [AEnv "HOME"]); [| |exact H]; now rewrite get_set.
  - eapply (G _ _ []); [now rewrite app_nil_r|reflexivity|exact H].
Qed.

(** * Documents *)

(** The functions of the engine: these ones by name, and other ones, which reach
    the outside only by evaluating expressions and flowing documents; tags,
    projections and sync do not touch this part of the state. *)
Definition osWorld (W : world ST) : Prop :=
  (forall ev ft n es vs b l,
     match osF ft n vs b with
     | Some m => w_builtin W ev ft n es vs b l = bind ST m (fun r => ret ST (Some (true, r)))
     | None => forall J : ST -> ST -> Prop, (forall s s', getO s = getO s' -> J s s') ->
                 (forall x y z, J x y -> J y z -> J x z) ->
                 (forall e b l, keeps J (ev e b l)) -> (forall n b, keeps J (ft n b)) ->
                 keeps J (w_builtin W ev ft n es vs b l)
     end) /\
  (forall ev e b l (J : ST -> ST -> Prop), (forall s s', getO s = getO s' -> J s s') ->
     (forall x y z, J x y -> J y z -> J x z) ->
     (forall e b l, keeps J (ev e b l)) -> keeps J (w_sync W ev e b l)) /\
  (forall t n p sc s, getO (snd (w_setTag W t n p sc s)) = getO s) /\
  (forall id v s, getO (w_projSet W id v s) = getO s).

Lemma same_allowed : forall s s', getO s = getO s' -> allowedRun s s'.
Proof. intros s s' E. unfold allowedRun. rewrite E. apply op_refl. Qed.
Lemma osWorld_keeps : forall W, osWorld W -> keepsWorld allowedRun W.
Proof.
  intros W (B & S & T & P). split; [|split; [|split]].
  - intros ev ft HE HF n es vs b l. specialize (B ev ft n es vs b l).
    destruct (osF ft n vs b) as [m|] eqn:E.
    + rewrite B. intros s a s' R. unfold bind in R.
      destruct (m s) as [r s1| |] eqn:F; try discriminate. inversion R. subst.
      eapply C31_functions; eauto.
    + apply B; auto using same_allowed. apply I_trans.
  - intros. apply S; auto using same_allowed. apply I_trans.
  - intros. apply same_allowed. now rewrite T.
  - intros. apply same_allowed. now rewrite P.
Qed.

(** the evaluation of an expression and the flow of a whole document make only
    permitted accesses, whatever the document contains and the outside answers *)
Theorem C31_document : forall W, osWorld W ->
  (forall f e b l s r s', evalF ST W f e b l s = Ret r s' -> onlyPermitted (getO s) (getO s')) /\
  (forall f n b so s r s', flowF ST W f n b so s = Ret r s' -> onlyPermitted (getO s) (getO s')).
Proof.
  intros W H. apply osWorld_keeps in H. split; intros.
  - eapply (evalF_keeps ST allowedRun I_refl I_trans W H); eauto.
  - eapply (flowF_engine_keeps ST allowedRun I_refl I_trans W H); eauto.
Qed.
(** so is the processing of a template with stubs, with the functions that enter
    and leave nested states and record documents *)
Theorem C31_cascade : forall W, osWorld W -> forall resetStream enter leave pushDocument,
  (forall s, getO (resetStream s) = getO s) -> (forall s, getO (enter s) = getO s) ->
  (forall s, getO (leave s) = getO s) -> (forall n s, getO (pushDocument n s) = getO s) ->
  forall g, let ev := evalF ST W g in
  forall f r o t op l s x s',
  cascade ST (w_interpol W) (w_ctrl W) stdReg (w_parse W) (w_quote W) (w_show W) ev (w_setTag W)
          (controlFn ST (w_ctrl W) ev) (w_parseIssue W) resetStream enter leave pushDocument f r o t op l s = Ret x s' ->
  onlyPermitted (getO s) (getO s').
Proof.
  intros W H resetStream enter leave push HR HE HL HP g ev f r o t op l s x s' E.
  pose proof (osWorld_keeps W H) as K. destruct H as (_ & _ & T & _).
  eapply (cascade_keeps ST allowedRun I_refl I_trans); [..|exact E]; auto using same_allowed.
  - intros. unfold ev. apply (evalF_keeps ST allowedRun I_refl I_trans W K).
  - intros. apply controlFn_keeps; auto using I_refl. { apply I_trans. }
    intros. unfold ev. apply (evalF_keeps ST allowedRun I_refl I_trans W K).
Qed.

(** what this means: without OS access no command is executed, without FILE access
    the outside is not touched at all but for the environment *)
Theorem C31_no_exec : forall W, osWorld W -> forall f n b so s r s', flowF ST W f n b so s = Ret r s' ->
  xosAllowed (getO s) = false ->
  exists t, x_trace (getO s') = x_trace (getO s) ++ t /\ forall a, In a t -> ~ isExec a.
Proof.
  intros W H f n b so s r s' E D. destruct (proj2 (C31_document W H) _ _ _ _ _ _ _ E) as (_ & _ & t & T & P).
  exists t. split; auto. intros a HA X. rewrite Forall_forall in P. specialize (P a HA).
  destruct a; cbn in X; try tauto. cbn in P. congruence.
Qed.
Theorem C31_no_files : forall W, osWorld W -> forall f n b so s r s', flowF ST W f n b so s = Ret r s' ->
  xfileAllowed (getO s) = false ->
  exists t, x_trace (getO s') = x_trace (getO s) ++ t /\ forall a, In a t -> isExec a \/ isEnv a.
Proof.
  intros W H f n b so s r s' E D. destruct (proj2 (C31_document W H) _ _ _ _ _ _ _ E) as (_ & _ & t & T & P).
  exists t. split; auto. intros a HA. rewrite Forall_forall in P. specialize (P a HA).
  destruct a; cbn in *; auto; first [congruence | destruct P as [P _]; congruence].
Qed.
End OS.

(** for a context, after any history [t] of API calls: [l] are the WithMode and
    WithFileSystem calls context [i] was derived with, [b] the state it processes
    documents with, [s] a state of the engine with the rights of [b] *)
Theorem C31_context : forall (Raw Vals Fns Ctls Tag : Type) (sanitize : Raw -> option Vals)
    (t : list (op Raw Fns Ctls Tag)) i l (b : bstate Vals Fns Ctls Tag),
  made sanitize t i l -> processing (run sanitize t start) i b ->
  forall ST (getO : ST -> ost) setO, (forall o s, getO (setO o s) = o) ->
  forall O marshal ffmt parseY parseMulti md5hex sha templPat quote interpol joinPath isAbs W,
  osWorld ST getO setO O marshal ffmt parseY parseMulti md5hex sha templPat quote interpol joinPath isAbs W ->
  forall f n bd so s r s', flowF ST W f n bd so s = Ret r s' ->
  x_mode (getO s) = s_mode b -> x_fs (getO s) = s_fs b ->
  exists tr, x_trace (getO s') = x_trace (getO s) ++ tr
    /\ (~ osGranted l -> forall a, In a tr -> ~ isExec a)
    /\ (~ fileGranted l -> forall a, In a tr -> isExec a \/ isEnv a)
    /\ (foreign (fsAfter l) -> forall a, In a tr -> ~ isExec a)
    /\ (forall a g, In a tr -> accFS a = Some g -> g = match fsAfter l with Some h => h | None => OSFS end).
Proof.
  intros Raw Vals Fns Ctls Tag sanitize t i l b MD PR ST getO setO GS O marshal ffmt parseY parseMulti md5hex sha templPat
    quote interpol joinPath isAbs W HW f n bd so s r s' E EM EF.
  destruct (proj2 (C31_document ST getO setO GS _ _ _ _ _ _ _ _ _ _ _ _ W HW) _ _ _ _ _ _ _ E) as (_ & _ & tr & T & P).
  destruct (C31_access sanitize t i l b MD PR) as (HO & HF & HS).
  assert (XO : xosAllowed (getO s) = osAllowed b) by (unfold xosAllowed, osAllowed; now rewrite EM).
  assert (XF : xfileAllowed (getO s) = fileAllowed b) by (unfold xfileAllowed, fileAllowed; now rewrite EM).
  rewrite Forall_forall in P.
  exists tr. split; auto. split; [|split; [|split]].
  - intros N a HA X. specialize (P a HA). destruct a; cbn in X; try tauto. cbn in P. apply N, HO. congruence.
  - intros N a HA. specialize (P a HA). destruct a; cbn in *; auto; exfalso; apply N, HF;
      first [congruence | destruct P as [P _]; congruence].
  - intros V a HA X. specialize (P a HA). destruct a; cbn in X; try tauto. cbn in P.
    pose proof (C31_foreign_fs sanitize t i l b MD PR V). congruence.
  - intros a g HA X. specialize (P a HA). destruct a; cbn in X; inversion X; subst; cbn in P; destruct P as [_ P]; congruence.
Qed.

(** * What the rights do not cover *)

(** the environment is readable in every state, and read reaches the network in
    every state with FILE access, even with a file system of its own: the title of
    the property ("never touches the operating system") is too strong *)
Definition exOut : outside := mkOut (fun _ _ _ => ("out"%string, true)) (fun _ _ p => Some "data"%string)
  (fun _ _ _ _ _ => true) (fun _ _ _ _ => true) (fun _ _ _ => Some false) (fun _ _ _ => Some []) (fun _ _ => Some "/tmp/t"%string)
  (fun _ u => Some "web"%string) "/root" ["HOME=/root"; "A=b"]%string.
Definition exO (mode : N) (fs : fsys) : ost := mkOst mode fs [] [] [] [].
Definition exST := (ost * (nat -> value))%type.
Definition exGet (s : exST) : ost := fst s.
Definition exSet (o : ost) (s : exST) : exST := (o, snd s).
Definition exF (ft : node -> binding -> M exST (node * list unres)) :=
  osFunction exST exGet exSet exOut (fun _ => None) (fun _ => ""%string) (fun _ _ => None) (fun _ _ => None)
    (fun s => s) (fun s => s) (fun _ => false) (fun s => s) true (fun a b => (a +++ "/" +++ b)%string) (fun s => hasPrefix s "/") ft.
Definition exFlow (n : node) (b : binding) : M exST (node * list unres) := ret exST (n, []).
Theorem C31_title_refuted :
  (exists m r s', exF exFlow "env" [VStr "A"] (env0 []) = Some m
     /\ m (exO 0 (VFS 1), st0) = Ret r s' /\ x_trace (exGet s') = [AEnv "A"] /\ fst (fst r) = VStr "b")
  /\ (exists m r s', exF exFlow "read" [VStr "http://x"] (env0 []) = Some m
     /\ m (exO MODE_FILE_ACCESS (VFS 1), st0) = Ret r s' /\ x_trace (exGet s') = [AHttp "http://x"]
     /\ fst (fst r) = VStr "web").
Proof. split; eexists; eexists; eexists; (split; [reflexivity|]); vm_compute; repeat split. Qed.

(** * Example: a document calling exec, read and env *)
Definition exWorld (parse : string -> option expr) : world exST := mkWorld exST
  true true (fun _ => newNode (VMap []) "__ctx") (fun s _ _ => parse s) (fun s => s) (fun _ => ""%string)
  net0 (fun _ => ""%string) (fun _ _ _ _ s => (true, s)) (fun _ _ => [])
  (fun i s => snd s i) (fun i v s => (fst s, fun j => if Nat.eqb i j then v else snd s j)) (fun _ => noIssue)
  (fun ev ft n es vs b l => match exF ft n vs b with
                            | Some m => bind exST m (fun r => ret exST (Some (true, r)))
                            | None => ret _ None
                            end)
  (fun _ _ _ _ => ret _ (VNil, defaultInfo, false)).
Lemma exWorld_os : forall parse,
  osWorld exST exGet exSet exOut (fun _ => None) (fun _ => ""%string) (fun _ _ => None) (fun _ _ => None)
    (fun s => s) (fun s => s) (fun _ => false) (fun s => s) true (fun a b => (a +++ "/" +++ b)%string) (fun s => hasPrefix s "/")
    (exWorld parse).
Proof.
  intro parse. split; [|split; [|split; reflexivity]].
  - intros. cbn [w_builtin exWorld]. unfold exF. destruct (osFunction _ _ _ _ _ _ _ _ _ _ _ _ _ _ _ _ _ _ _); [reflexivity|].
    intros J R T _ _ s a s' E. inversion E. subst. now apply R.
  - intros ev e b l J R T _ s a s' E. inversion E. subst. now apply R.
Qed.
Definition exParse (s : string) : option expr :=
  let s := trimSpace s in
  if String.eqb s "exec(""id"")" then Some (ECall (ERef "" ["exec"%string]) [EStr "id"] false)
  else if String.eqb s "read(""f"")" then Some (ECall (ERef "" ["read"%string]) [EStr "f"] false)
  else if String.eqb s "env(""A"")" then Some (ECall (ERef "" ["env"%string]) [EStr "A"] false)
  else None.
(** (a: exec, b: read, c: env) in a state without rights, with FILE access, with all *)
Definition exDoc : node := nd (VMap [("a"%string, nd (VStr "(( exec(""id"") ))")); ("b"%string, nd (VStr "(( read(""f"") ))"));
                                     ("c"%string, nd (VStr "(( env(""A"") ))"))]).
Definition exRun (mode : N) (fs : fsys) : option (list access) :=
  match flowF exST (exWorld exParse) 20 exDoc (newEnvironment [] "template") false (exO mode fs, st0) with
  | Ret _ s => Some (x_trace (exGet s))
  | _ => None
  end.
Example C31_document_runs :
  match exRun 0 OSFS with Some t => forallb (fun a => match a with AEnv _ => true | _ => false end) t | None => false end = true
  /\ match exRun MODE_FILE_ACCESS (VFS 1) with
     | Some t => existsb (fun a => match a with ARead (VFS 1) "f"%string => true | _ => false end) t
     | None => false end = true
  /\ match exRun (N.lor MODE_FILE_ACCESS MODE_OS_ACCESS) OSFS with
     | Some t => existsb (fun a => match a with AExec None ["id"%string] => true | _ => false end) t
     | None => false end = true.
Proof. vm_compute. repeat split. Qed.

Print Assumptions C31_functions.
Print Assumptions C31_exec_denied.
Print Assumptions C31_files_denied.
Print Assumptions C31_document.
Print Assumptions C31_cascade.
Print Assumptions C31_no_exec.
Print Assumptions C31_no_files.
Print Assumptions C31_context.
Print Assumptions C31_title_refuted.

Print Assumptions C33_uncached.
Print Assumptions C34_uncached.
