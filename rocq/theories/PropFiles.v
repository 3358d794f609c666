(** C33 command cache, C34 files and temporary files, C43 state file update. *)
From Coq Require Import Lia.
From Verif Require Import Core CoreFacts Str StrFacts Files PropList.

(** ** C34 *)

(** What can happen: a file is read, a temporary file is requested, the outside
    world creates, changes or removes a file or a web page, the state is cleaned up. *)
Inductive fop :=
| FRead (file : string) (cached : bool)
| FTemp (data : string)
| FOutside (file : string) (contents : option string)
| FWeb (url : string) (contents : option string)
| FCleanup.

Definition put (k : string) (o : option string) (m : smap string) : smap string :=
  match o with Some c => mset k c m | None => mdel k m end.

Section History.
Variable hash : string -> string.
Variable fresh : smap string -> string.

(** the situation after an operation, the physical reads it did and the name it handed out *)
Definition fstep (s : world * fstate) (o : fop) : (world * fstate) * list (string * bool) * list string :=
  let '(w, st) := s in
  match o with
  | FRead f c => match getFileContent w st f c with (_, st', log) => ((w, st'), log, []) end
  | FTemp d => match tempfile hash fresh w st d with
               | (Some n, st', w') => ((w', st'), [], [n])
               | (None, st', w') => ((w', st'), [], [])
               end
  | FOutside f c => ((withDisk w (put f c (disk w)), st), [], [])
  | FWeb u c => ((mkW (disk w) (put u c (web w)) (home w), st), [], [])
  | FCleanup => let '(st', w') := cleanupS w st in ((w', st'), [], [])
  end.
Fixpoint frun (s : world * fstate) (h : list fop) : (world * fstate) * list (string * bool) * list string :=
  match h with
  | [] => (s, [], [])
  | o :: h => let '(s1, l1, n1) := fstep s o in
              let '(s2, l2, n2) := frun s1 h in (s2, l1 ++ l2, n1 ++ n2)
  end.
Definition fend (s : world * fstate) (h : list fop) : world * fstate := fst (fst (frun s h)).
Definition flog (s : world * fstate) (h : list fop) : list (string * bool) := snd (fst (frun s h)).
Definition fnames (s : world * fstate) (h : list fop) : list string := snd (frun s h).

Lemma frun_cons s o h : frun s (o :: h) =
  (fend (fst (fst (fstep s o))) h, snd (fst (fstep s o)) ++ flog (fst (fst (fstep s o))) h,
   snd (fstep s o) ++ fnames (fst (fst (fstep s o))) h).
Proof.
  cbn [frun]. unfold fend, flog, fnames. destruct (fstep s o) as [[s1 l1] n1]. cbn. destruct (frun s1 h) as [[s2 l2] n2]. reflexivity.
Qed.

Lemma home_step s o : home (fst (fst (fst (fstep s o)))) = home (fst s).
Proof.
  destruct s as [w st]. destruct o; cbn; auto.
  - unfold getFileContent. destruct (mget _ (fcache st)); [destruct cached|]; try reflexivity;
      destruct (if _ : bool then mget _ (web w) else _); reflexivity.
  - unfold tempfile, getTempName. destruct (negb (faccess st)); [reflexivity|]. destruct (mget (hash data) (tfiles st)); reflexivity.
Qed.

(** the reads of a file that bypass the cache *)
Definition uncached_read (w : world) (file : string) (o : fop) : Prop :=
  exists f, o = FRead f false /\ filePath w f = filePath w file.

Lemma filePath_home w w' f : home w = home w' -> filePath w f = filePath w' f.
Proof. unfold filePath. now intros ->. Qed.

Lemma cache_keeps rest : forall w st p c,
  mget p (fcache st) = Some c ->
  (forall f, In (FRead f false) rest -> filePath w f <> p) ->
  mget p (fcache (snd (fend (w, st) rest))) = Some c /\ home (fst (fend (w, st) rest)) = home w.
Proof.
  induction rest as [|o rest IH]; intros w st p c Hc Hu; [auto|].
  unfold fend. rewrite frun_cons. cbn [fst].
  assert (Hh := home_step (w, st) o).
  destruct (fstep (w, st) o) as [[[w1 st1] l1] n1] eqn:E. cbn [fst snd] in *.
  assert (H1 : mget p (fcache st1) = Some c).
  { destruct o; cbn in E.
    - unfold getFileContent in E.
      assert (Hne : cached = false -> filePath w file <> p) by (intros ->; apply Hu; now left).
      destruct (mget (filePath w file) (fcache st)) as [d|] eqn:Eg.
      + destruct cached.
        * injection E as <- <- _ _. exact Hc.
        * destruct (if _ : bool then mget _ (web w) else _); injection E as <- <- _ _; cbn; auto.
          rewrite mget_mset_other; auto. intro Ex. now apply Hne.
      + assert (filePath w file <> p) by congruence.
        destruct (if _ : bool then mget _ (web w) else _); injection E as <- <- _ _; cbn; auto.
        rewrite mget_mset_other; auto.
    - unfold tempfile, getTempName in E. destruct (negb (faccess st)); [injection E as <- <- _ _; auto|].
      destruct (mget (hash data) (tfiles st)); injection E as <- <- _ _; auto.
    - injection E as <- <- _ _. auto.
    - injection E as <- <- _ _. auto.
    - injection E as <- <- _ _. auto. }
  destruct (IH w1 st1 p c H1) as [R1 R2].
  - intros f Hf. rewrite (filePath_home w1 w) by auto. apply Hu. now right.
  - split; auto. rewrite R2. auto.
Qed.

(** After a file has been read, every later cached read yields the same contents
    without touching the file, whatever happens in between (in particular: the
    file is changed or removed by others), unless it is read explicitly uncached. *)
Theorem C34_read_stable w st file cached c st1 log rest :
  getFileContent w st file cached = (Some c, st1, log) ->
  (forall o, In o rest -> ~ uncached_read w file o) ->
  let '(w2, st2) := fend (w, st1) rest in
  getFileContent w2 st2 file true = (Some c, st2, []).
Proof.
  intros Hr Hu. destruct (fend (w, st1) rest) as [w2 st2] eqn:E.
  assert (Hc : mget (filePath w file) (fcache st1) = Some c).
  { unfold getFileContent in Hr. destruct (mget (filePath w file) (fcache st)) as [d|] eqn:Eg.
    - destruct cached; [injection Hr as <- <- _; auto|].
      destruct (if _ : bool then mget _ (web w) else _); [|discriminate]. injection Hr as <- <- _. apply mget_mset_same.
    - destruct (if _ : bool then mget _ (web w) else _); [|discriminate]. injection Hr as <- <- _. apply mget_mset_same. }
  destruct (cache_keeps rest w st1 _ c Hc) as [K1 K2].
  { intros f Hf Ef. apply (Hu _ Hf). exists f. auto. }
  rewrite E in K1, K2. cbn in K1, K2. unfold getFileContent. rewrite (filePath_home w2 w) by auto. now rewrite K1.
Qed.

Lemma filter_noread p (l : list (string * bool)) : ~ In (p, true) l ->
  filter (fun l => String.eqb (fst l) p && snd l) l = [].
Proof.
  induction l as [|[q b] l IH]; intro Hn; auto. cbn. destruct (String.eqb_spec q p) as [->|N]; cbn.
  - destruct b; [exfalso; apply Hn; now left|]. apply IH. intro. apply Hn. now right.
  - apply IH. intro. apply Hn. now right.
Qed.

(** With cached reads only, a file is successfully read at most once. *)
Lemma read_once_aux h : forall w st p, (forall f, ~ In (FRead f false) h) ->
  (mget p (fcache st) <> None -> ~ In (p, true) (flog (w, st) h)) /\
  (length (filter (fun l => String.eqb (fst l) p && snd l) (flog (w, st) h)) <= 1)%nat.
Proof.
  induction h as [|o h IH]; intros w st p Hu; [cbn; split; [auto|lia]|].
  assert (Hu' : forall f, ~ In (FRead f false) h) by (intros f Hf; apply (Hu f); now right).
  unfold flog. rewrite frun_cons. cbn [fst snd].
  destruct (fstep (w, st) o) as [[[w1 st1] l1] n1] eqn:E. cbn [fst snd] in *.
  destruct (IH w1 st1 p Hu') as [I1 I2].
  assert (Other : l1 = [] -> (mget p (fcache st) <> None -> mget p (fcache st1) <> None) ->
    (mget p (fcache st) <> None -> ~ In (p, true) (l1 ++ flog (w1, st1) h)) /\
    (length (filter (fun l => String.eqb (fst l) p && snd l) (l1 ++ flog (w1, st1) h)) <= 1)%nat).
  { intros -> Hk. split; [intros Hp; apply I1, Hk, Hp|exact I2]. }
  destruct o; cbn in E.
  - destruct cached; [|exfalso; apply (Hu file); now left]. unfold getFileContent in E.
    destruct (mget (filePath w file) (fcache st)) as [d|] eqn:Eg; [injection E as <- <- <- <-; apply Other; auto|].
    destruct (if _ : bool then mget _ (web w) else _) as [d|]; injection E as <- <- <- <-; cbn [app filter fst snd].
    + destruct (String.eqb_spec (filePath w file) p) as [Ep|Ep]; cbn [andb].
      * split; [subst; congruence|]. assert (Hn : ~ In (p, true) (flog (w, mkFS (tfiles st) (mset (filePath w file) d (fcache st)) (faccess st)) h)).
        { apply I1. cbn. rewrite Ep, mget_mset_same. discriminate. }
        unfold flog in Hn. cbn [length]. rewrite filter_noread by exact Hn. cbn; lia.
      * split; [|exact I2]. intros Hp [Hx|Hx]; [congruence|]. revert Hx. apply I1. cbn. rewrite mget_mset_other; auto.
    + rewrite andb_false_r. split; [|exact I2]. intros Hp [Hx|Hx]; [congruence|]. now apply I1.
  - unfold tempfile, getTempName in E. destruct (negb (faccess st)); [injection E as <- <- <- <-; apply Other; auto|].
    destruct (mget (hash data) (tfiles st)); injection E as <- <- <- <-; apply Other; auto.
  - injection E as <- <- <- <-; apply Other; auto.
  - injection E as <- <- <- <-; apply Other; auto.
  - injection E as <- <- <- <-; apply Other; auto.
Qed.

Theorem C34_read_once w st h p : (forall f, ~ In (FRead f false) h) ->
  (length (filter (fun l => String.eqb (fst l) p && snd l) (flog (w, st) h)) <= 1)%nat.
Proof. intro H. now apply read_once_aux. Qed.

(** an uncached read always delivers the present contents *)
Theorem C34_uncached_read w st file : hasPrefix (filePath w file) "http:" = false -> hasPrefix (filePath w file) "https:" = false ->
  fst (fst (getFileContent w st file false)) = mget (filePath w file) (disk w).
Proof.
  intros H1 H2. unfold getFileContent. rewrite H1, H2. cbn.
  destruct (mget (filePath w file) (fcache st)); destruct (mget (filePath w file) (disk w)); reflexivity.
Qed.

(** *** Temporary files *)
(** TempFile chooses a name that is not in use *)
Hypothesis fresh_new : forall d, mget (fresh d) d = None.

(** others do not meddle with the temporary files that are in use *)
Fixpoint undisturbed (s : world * fstate) (h : list fop) : Prop :=
  match h with
  | [] => True
  | o :: h => (match o with FOutside f _ => ~ In f (map snd (tfiles (snd s))) | _ => True end) /\
              undisturbed (fst (fst (fstep s o))) h
  end.

(** the temporary files in use exist and have different names *)
Definition tmp_inv (s : world * fstate) : Prop :=
  (forall k n, In (k, n) (tfiles (snd s)) -> mget n (disk (fst s)) <> None) /\
  (forall k k' n, In (k, n) (tfiles (snd s)) -> In (k', n) (tfiles (snd s)) -> k = k').

Lemma in_mset' {A} k v (m : smap A) k' v' : In (k', v') (mset k v m) -> (k' = k /\ v' = v) \/ In (k', v') m.
Proof.
  induction m as [|[k0 v0] m IH]; cbn.
  - intros [E|[]]. injection E. auto.
  - destruct (String.compare k k0); cbn; intros [E|E]; try (injection E; auto); auto.
    destruct (IH E); auto.
Qed.

Lemma mget_mdels (l : smap string) (d : smap string) n : mget n (fold_left (fun d kv => mdel (snd kv) d) l d) =
  if existsb (String.eqb n) (map snd l) then None else mget n d.
Proof.
  revert d. induction l as [|[k v] l IH]; intro d; cbn; auto. rewrite IH, mget_mdel.
  destruct (String.eqb n v); cbn; auto. destruct (existsb _ _); reflexivity.
Qed.

Lemma tmp_inv_step s o : tmp_inv s ->
  match o with FOutside f _ => ~ In f (map snd (tfiles (snd s))) | _ => True end -> tmp_inv (fst (fst (fstep s o))).
Proof.
  destruct s as [w st]. intros [I1 I2] Hu. cbn in I1, I2. destruct o; cbn.
  - unfold getFileContent. destruct (mget _ (fcache st)); [destruct cached|]; try (split; cbn; auto; fail);
      destruct (if _ : bool then mget _ (web w) else _); split; cbn; auto.
  - unfold tempfile, getTempName. destruct (negb (faccess st)); [split; auto|].
    destruct (mget (hash data) (tfiles st)) as [nm|] eqn:Eg; cbn.
    + split; cbn; auto. intros k n Hi. rewrite mget_mset. destruct (String.eqb n nm); [discriminate|]. now apply (I1 k).
    + assert (F := fresh_new (disk w)). split; cbn.
      * intros k n Hi. rewrite !mget_mset. destruct (String.eqb n (fresh (disk w))) eqn:En; [discriminate|].
        apply in_mset' in Hi. destruct Hi as [[_ ->]|Hi]; [rewrite String.eqb_refl in En; discriminate|]. now apply (I1 k).
      * intros k k' n Hi Hi'. apply in_mset' in Hi. apply in_mset' in Hi'.
        destruct Hi as [[-> ->]|Hi]; destruct Hi' as [[-> E]|Hi']; auto.
        -- exfalso. apply (I1 _ _ Hi'). exact F.
        -- subst n. exfalso. apply (I1 _ _ Hi). exact F.
        -- eapply I2; eauto.
  - split; cbn; auto. intros k n Hi. assert (n <> file) by (intros ->; apply Hu; apply in_map_iff; now exists (k, file)).
    unfold put. destruct contents.
    + rewrite mget_mset_other; auto. now apply (I1 k).
    + rewrite mget_mdel. apply eqb_false_neq in H. rewrite H. now apply (I1 k).
  - split; cbn; auto.
  - split; cbn; [intros ? ? []|intros ? ? ? []].
Qed.

Definition fstart (w : world) (acc : bool) : world * fstate := (w, mkFS [] [] acc).
Lemma tmp_inv_run h : forall s, tmp_inv s -> undisturbed s h -> tmp_inv (fend s h).
Proof.
  induction h as [|o h IH]; intros s Hi Hu; [exact Hi|]. unfold fend. rewrite frun_cons. cbn [fst].
  destruct Hu as [U1 U2]. apply IH; auto. now apply tmp_inv_step.
Qed.
Lemma tmp_inv_start w acc : tmp_inv (fstart w acc).
Proof. split; cbn; [intros ? ? []|intros ? ? ? []]. Qed.

Lemma temp_known h : forall s data n, mget (hash data) (tfiles (snd s)) = Some n -> ~ In FCleanup h ->
  mget (hash data) (tfiles (snd (fend s h))) = Some n.
Proof.
  induction h as [|o h IH]; intros [w st] data n Hn Hc; [exact Hn|]. unfold fend. rewrite frun_cons. cbn [fst].
  apply IH; [|intro; apply Hc; now right]. cbn in Hn. destruct o; cbn.
  - unfold getFileContent. destruct (mget _ (fcache st)); [destruct cached|]; auto;
      destruct (if _ : bool then mget _ (web w) else _); auto.
  - unfold tempfile, getTempName. destruct (negb (faccess st)); auto.
    destruct (mget (hash data0) (tfiles st)) eqn:Eg; cbn; auto.
    destruct (String.eqb_spec (hash data) (hash data0)) as [E|E]; [rewrite E, Eg in Hn; discriminate|].
    rewrite mget_mset_other; auto.
  - auto.
  - auto.
  - exfalso. apply Hc. now left.
Qed.

(** A temporary file contains the requested data. *)
Theorem C34_temp_contents w st data n st' w' :
  tempfile hash fresh w st data = (Some n, st', w') -> mget n (disk w') = Some data.
Proof.
  unfold tempfile. destruct (getTempName hash fresh w st data) as [[[m|] s1] w1]; [|discriminate].
  intro H. injection H as <- <- <-. apply mget_mset_same.
Qed.

(** Equal contents get the same temporary file until the cleanup ... *)
Theorem C34_temp_shared w st data n st1 w1 h :
  tempfile hash fresh w st data = (Some n, st1, w1) -> ~ In FCleanup h ->
  let '(w2, st2) := fend (w1, st1) h in
  faccess st2 = true -> exists w3, tempfile hash fresh w2 st2 data = (Some n, st2, w3).
Proof.
  intros Ht Hc. destruct (fend (w1, st1) h) as [w2 st2] eqn:E. intro Ha.
  assert (Hk : mget (hash data) (tfiles st1) = Some n).
  { unfold tempfile, getTempName in Ht. destruct (negb (faccess st)); [discriminate|].
    destruct (mget (hash data) (tfiles st)) eqn:Eg; injection Ht as <- <- <-; auto. apply mget_mset_same. }
  assert (K := temp_known h (w1, st1) data n Hk Hc). rewrite E in K. cbn in K.
  eexists. unfold tempfile, getTempName. rewrite Ha. cbn. rewrite K. reflexivity.
Qed.

(** ... different contents (more precisely: contents with different hashes) get
    different ones ... *)
Theorem C34_temp_distinct w acc h data n st1 w1 h2 data' n' st3 w3 :
  undisturbed (fstart w acc) (h ++ FTemp data :: h2) -> ~ In FCleanup h2 ->
  let '(w0, st0) := fend (fstart w acc) h in
  tempfile hash fresh w0 st0 data = (Some n, st1, w1) ->
  let '(w2, st2) := fend (w1, st1) h2 in
  tempfile hash fresh w2 st2 data' = (Some n', st3, w3) ->
  hash data <> hash data' -> n <> n'.
Proof.
  intros Hu Hc. destruct (fend (fstart w acc) h) as [w0 st0] eqn:E0. intro Ht.
  destruct (fend (w1, st1) h2) as [w2 st2] eqn:E2. intros Ht' Hh En.
  assert (Hs : undisturbed (fstart w acc) h /\ undisturbed (w0, st0) (FTemp data :: h2)).
  { clear - Hu E0. revert Hu E0. generalize (fstart w acc) as s. induction h as [|o h IH]; intros s Hu E0.
    - cbn in E0. unfold fend in E0. cbn in E0. subst s. split; auto. exact I.
    - destruct Hu as [U1 U2]. unfold fend in E0. rewrite frun_cons in E0. cbn [fst] in E0. destruct (IH _ U2 E0) as [V1 V2].
      split; auto. split; auto. }
  destruct Hs as [Hs1 [_ Hs2]].
  assert (I0 : tmp_inv (w0, st0)) by (rewrite <- E0; apply tmp_inv_run; auto; apply tmp_inv_start).
  assert (S1 : fst (fst (fstep (w0, st0) (FTemp data))) = (w1, st1)) by (cbn; rewrite Ht; reflexivity).
  assert (I1 : tmp_inv (w1, st1)) by (rewrite <- S1; apply tmp_inv_step; auto).
  rewrite S1 in Hs2.
  assert (I2 : tmp_inv (w2, st2)) by (rewrite <- E2; apply tmp_inv_run; auto).
  assert (Hk : mget (hash data) (tfiles st1) = Some n).
  { unfold tempfile, getTempName in Ht. destruct (negb (faccess st0)); [discriminate|].
    destruct (mget (hash data) (tfiles st0)) eqn:Eg; injection Ht as <- <- <-; auto. apply mget_mset_same. }
  assert (K := temp_known h2 (w1, st1) data n Hk Hc). rewrite E2 in K. cbn in K.
  unfold tempfile, getTempName in Ht'. destruct (negb (faccess st2)); [discriminate|].
  destruct (mget (hash data') (tfiles st2)) as [m|] eqn:Eg; injection Ht' as Em _ _; subst n'.
  - subst m. apply Hh. destruct I2 as [_ I2]. eapply I2; apply mget_In; eauto.
  - destruct I2 as [I2 _]. apply (I2 (hash data) n); [now apply mget_In|]. cbn. rewrite En. apply fresh_new.
Qed.

(** ... and after the cleanup none of the temporary files is left, while all
    other files are as they were. *)
Lemma names_tracked h : forall s n, In n (fnames s h) -> ~ In FCleanup h ->
  In n (map snd (tfiles (snd (fend s h)))).
Proof.
  induction h as [|o h IH]; intros [w st] n Hn Hc; [destruct Hn|].
  unfold fnames in Hn. rewrite frun_cons in Hn. cbn [snd] in Hn. unfold fend. rewrite frun_cons. cbn [fst].
  assert (Hc' : ~ In FCleanup h) by (intro; apply Hc; now right).
  apply in_app_or in Hn. destruct Hn as [Hn|Hn]; [|now apply IH].
  destruct o; cbn in Hn; try (destruct (getFileContent w st file cached) as [[? ?] ?]; destruct Hn; fail); try (destruct Hn; fail).
  destruct (tempfile hash fresh w st data) as [[[m|] s1] w1] eqn:Et; [|destruct Hn]. destruct Hn as [<-|[]].
  assert (Hk : mget (hash data) (tfiles s1) = Some m).
  { unfold tempfile, getTempName in Et. destruct (negb (faccess st)); [discriminate|].
    destruct (mget (hash data) (tfiles st)) eqn:Eg; injection Et as <- <- <-; auto. apply mget_mset_same. }
  assert (S1 : fst (fst (fstep (w, st) (FTemp data))) = (w1, s1)) by (cbn; rewrite Et; reflexivity).
  rewrite S1. assert (K := temp_known h (w1, s1) data m Hk Hc'). apply mget_In in K. apply in_map_iff. eexists. split; [|exact K]. reflexivity.
Qed.

Theorem C34_temp_removed w acc h n :
  In n (fnames (fstart w acc) h) -> ~ In FCleanup h ->
  mget n (disk (fst (fend (fstart w acc) (h ++ [FCleanup])))) = None.
Proof.
  intros Hn Hc. assert (T := names_tracked h _ n Hn Hc).
  assert (E : fend (fstart w acc) (h ++ [FCleanup]) = fst (fst (fstep (fend (fstart w acc) h) FCleanup))).
  { clear. generalize (fstart w acc) as s. induction h as [|o h IH]; intro s; [unfold fend; cbn [app]; rewrite frun_cons; reflexivity|].
    cbn [app]. unfold fend. rewrite !frun_cons. cbn [fst]. apply IH. }
  rewrite E. destruct (fend (fstart w acc) h) as [w1 st1]. cbn in *. rewrite mget_mdels.
  assert (X : existsb (String.eqb n) (map snd (tfiles st1)) = true).
  { apply existsb_exists. exists n. split; auto. apply String.eqb_refl. }
  now rewrite X.
Qed.
Theorem C34_cleanup_keeps_others w st n :
  ~ In n (map snd (tfiles st)) -> mget n (disk (snd (cleanupS w st))) = mget n (disk w).
Proof.
  intro H. cbn. rewrite mget_mdels. destruct (existsb (String.eqb n) (map snd (tfiles st))) eqn:E; auto.
  exfalso. apply existsb_exists in E. destruct E as [x [Hx Ex]]. apply String.eqb_eq in Ex. subst. contradiction.
Qed.
(** But a processing with an outer binding (given bindings, features, tags or
    several documents) never cleans up: its temporary files stay. *)
Theorem C34_outer_refuted w data n st' w' :
  tempfile hash fresh w (mkFS [] [] true) data = (Some n, st', w') ->
  mget n (disk (snd (endOfFlow true w' st'))) = Some data.
Proof. intro H. cbn. now apply C34_temp_contents in H. Qed.
End History.

(** a concrete world *)
Fixpoint longest (d : smap string) : nat :=
  match d with [] => 0%nat | (k, _) :: r => Nat.max (String.length k) (longest r) end.
Fixpoint ticks (n : nat) : string := match n with O => "" | S n => String "t" (ticks n) end.
Definition fresh0 (d : smap string) : string := ticks (S (longest d)).
Lemma fresh0_new d : mget (fresh0 d) d = None.
Proof.
  assert (Hl : forall n, String.length (ticks n) = n) by (induction n; cbn; auto).
  assert (G : forall (d : smap string) n, (longest d < n)%nat -> mget (ticks n) d = None).
  { clear d. induction d as [|[k c] d IH]; intros n Hn; auto. cbn in Hn. cbn.
    destruct (String.eqb_spec (ticks n) k) as [E|E]; [|apply IH; lia]. exfalso. subst k. rewrite Hl in Hn. lia. }
  apply G. lia.
Qed.
Example C34_nonvacuous :
  let w := mkW [("/a", "1"); ("/h/b", "2")] [] "/h" in
  let id := fun s : string => s in
  let h := [FRead "/a" true; FOutside "/a" (Some "9"); FRead "/a" true; FRead "~/b" true; FTemp "x"; FTemp "y"; FTemp "x"] in
  flog id fresh0 (fstart w true) h = [("/a", true); ("/h/b", true)] /\
  fnames id fresh0 (fstart w true) h = ["ttttt"; "tttttt"; "ttttt"] /\
  undisturbed id fresh0 (fstart w true) h /\
  disk (fst (fend id fresh0 (fstart w true) (h ++ [FCleanup]))) = [("/a", "9"); ("/h/b", "2")].
Proof. cbn. repeat split; auto. Qed.

(** ** C33 *)
Section Exec.
Variable md5hex : string -> string.
Variable osrun : nat -> option string -> list string -> string * bool.

Inductive xop := XCall (cached : bool) (content : option string) (args : list string).
Definition xstep (st : xstate) (o : xop) : xstate :=
  match o with XCall c i a => snd (cachedExecute md5hex osrun st c i a) end.
Definition xrun (st : xstate) (h : list xop) : xstate := fold_left xstep h st.

Lemma exec_keeps h : forall st key o, o <> "" -> mget key (xcache st) = Some o -> mget key (xcache (xrun st h)) = Some o.
Proof.
  induction h as [|[c i a] h IH]; intros st key o Ho Hk; auto. cbn [xrun fold_left xstep]. apply IH; auto.
  unfold cachedExecute. destruct c; [|exact Hk].
  destruct (mget (execKey md5hex i a) (xcache st)) as [o'|] eqn:E.
  - destruct (String.eqb_spec o' "") as [->|N]; [|exact Hk]. cbn.
    rewrite mget_mset_other; auto. intro Ek. subst key. congruence.
  - cbn. rewrite mget_mset_other; auto. intro Ek. subst key. congruence.
Qed.

(** A command that has been executed with some output is not executed again: the
    same call yields the same output, whatever has been called in between. *)
Theorem C33_cached_partial st content args o ok st1 h :
  cachedExecute md5hex osrun st true content args = ((o, ok), st1) -> o <> "" ->
  cachedExecute md5hex osrun (xrun st1 h) true content args = ((o, true), xrun st1 h).
Proof.
  intros He Ho. assert (Hk : mget (execKey md5hex content args) (xcache st1) = Some o).
  { unfold cachedExecute in He. destruct (mget (execKey md5hex content args) (xcache st)) as [o'|] eqn:E.
    - destruct (String.eqb_spec o' "") as [->|N].
      + injection He as Hr <-. cbn. rewrite mget_mset_same. now rewrite Hr.
      + injection He as <- <- <-. exact E.
    - injection He as Hr <-. cbn. rewrite mget_mset_same. now rewrite Hr. }
  unfold cachedExecute. rewrite (exec_keeps h st1 _ o Ho Hk). destruct (String.eqb_spec o ""); [contradiction|reflexivity].
Qed.

(** exec_uncached always executes *)
Theorem C33_uncached st content args :
  fst (cachedExecute md5hex osrun st false content args) = osrun (xcount st) content args.
Proof. reflexivity. Qed.

(** Two calls with different arguments whose concatenations have different hashes
    do not influence each other. *)
Theorem C33_independent_partial st content args content' args' :
  execKey md5hex content args <> execKey md5hex content' args' ->
  mget (execKey md5hex content args) (xcache st) = None ->
  fst (cachedExecute md5hex osrun (xstep st (XCall true content' args')) true content args) =
  osrun (xcount (xstep st (XCall true content' args'))) content args.
Proof.
  intros Hk Hn. unfold xstep. set (st1 := snd _). assert (H1 : mget (execKey md5hex content args) (xcache st1) = None).
  { unfold st1, cachedExecute. destruct (mget (execKey md5hex content' args') (xcache st)) as [o'|] eqn:E.
    - destruct (String.eqb o' ""); cbn; auto. now rewrite mget_mset_other.
    - cbn. now rewrite mget_mset_other. }
  unfold cachedExecute. now rewrite H1.
Qed.

(** The claim "same result iff same arguments" fails whatever the hash function
    is: the arguments are just concatenated. *)
Theorem C33_collision_refuted : osrun 0 None ["echo"; "a"; "b"] = ("a b", true) ->
  let st1 := xstep (mkX [] 0) (XCall true None ["echo"; "a"; "b"]) in
  cachedExecute md5hex osrun st1 true None ["echo"; "ab"] = (("a b", true), st1).
Proof.
  intros H st1. unfold st1, xstep, cachedExecute at 2, execKey. cbn. rewrite H. cbn.
  unfold cachedExecute, execKey. cbn. rewrite String.eqb_refl. reflexivity.
Qed.
(** A failed execution that has printed something is remembered as a success. *)
Theorem C33_failure_refuted content args o st : o <> "" ->
  mget (execKey md5hex content args) (xcache st) = None ->
  osrun (xcount st) content args = (o, false) ->
  fst (cachedExecute md5hex osrun st true content args) = (o, false) /\
  fst (cachedExecute md5hex osrun (xstep st (XCall true content args)) true content args) = (o, true).
Proof.
  intros Ho Hn Hr. unfold xstep, cachedExecute at 1 3. rewrite Hn. cbn. rewrite Hr. split; auto.
  unfold cachedExecute. cbn. rewrite mget_mset_same. destruct (String.eqb_spec o ""); [contradiction|reflexivity].
Qed.
End Exec.

Example C33_nonvacuous :
  let id := fun s : string => s in
  let os := fun (t : nat) (_ : option string) (a : list string) => (concatS a +++ itoa (Z.of_nat t), true)%string in
  let st1 := xrun id os (mkX [] 0) [XCall true None ["date"]; XCall true (Some "in") ["cat"]] in
  xcount st1 = 2%nat /\ cachedExecute id os st1 true None ["date"] = (("date0", true), st1).
Proof. repeat split. Qed.

(** ** C43 *)

(** the situation on disk is safe for a file that had the contents [old] and gets
    [new]: the file itself is complete, old or new, or the backup has the old contents *)
Definition safe (f : string) (old new : string) (d : smap string) : Prop :=
  mget f d = Some old \/ mget f d = Some new \/ mget (f +++ ".bak") d = Some old.

Lemma bak_neq f : (f +++ ".bak")%string <> f.
Proof. intro E. apply (f_equal String.length) in E. rewrite slength_app in E. cbn in E. lia. Qed.

Lemma writeSteps_frame f k parts : forall c d x, k <> f -> In x (writeSteps f c parts d) -> mget k x = mget k d.
Proof.
  induction parts as [|p r IH]; cbn; intros c d x Hk; [intros []|]. intros [<-|H]; [now apply mget_mset_other|]. eapply IH; eauto.
Qed.
Lemma writeSteps_last f parts : forall c d, parts <> [] ->
  mget f (last (writeSteps f c parts d) d) = Some (c +++ concatS parts)%string.
Proof.
  induction parts as [|p [|q r] IH]; intros c d H; [congruence|cbn; apply mget_mset_same|].
  change (writeSteps f c (p :: q :: r) d) with (mset f (c +++ p)%string d :: writeSteps f (c +++ p)%string (q :: r) d).
  change (last (?x :: writeSteps f ?c (q :: r) d) d) with (last (writeSteps f c (q :: r) d) d).
  rewrite IH by discriminate. f_equal. rewrite sapp_assoc. reflexivity.
Qed.

(** A crash at any point of the update of an existing state file, and any failure of
    writing it, leaves the old or the new state complete on disk. *)
Theorem C43_crash_safe_partial f parts ok d old : mget f d = Some old ->
  Forall (safe f old (concatS parts)) (updateState f parts true ok d).
Proof.
  intro Ho. unfold updateState. rewrite Ho. cbn [andb]. set (bak := (f +++ ".bak")%string).
  set (d1 := rename f bak d).
  assert (Hb : mget bak d1 = Some old) by (unfold d1, rename; rewrite Ho; apply mget_mset_same).
  assert (Hw : forall x, In x (mset f "" d1 :: writeSteps f "" parts d1) -> mget bak x = Some old).
  { intros x [<-|Hx].
    - rewrite mget_mset_other; auto. apply bak_neq.
    - rewrite (writeSteps_frame f bak parts "" d1 x); auto. apply bak_neq. }
  assert (Hl : forall l, (forall x, In x l -> mget bak x = Some old) -> mget bak (lastD l d1) = Some old).
  { intros l Hl. unfold lastD. destruct l as [|y l]; [exact Hb|]. apply Hl. rewrite <- (app_nil_l (y :: l)).
    destruct (exists_last (l := y :: l)) as [l' [z E]]; [discriminate|]. rewrite E. cbn. rewrite last_last. apply in_or_app. right. now left. }
  apply Forall_forall. intros x Hx. cbn [app] in Hx. destruct Hx as [<-|Hx]; [right; right; exact Hb|].
  change (mset f "" d1 :: writeSteps f "" parts d1 ++ ?t) with ((mset f "" d1 :: writeSteps f "" parts d1) ++ t) in Hx.
  apply in_app_or in Hx. destruct Hx as [Hx|Hx]; [right; right; now apply Hw|].
  destruct ok; [destruct Hx|].
  assert (Hd : mget bak (mdel f (lastD (mset f "" d1 :: writeSteps f "" parts d1) d1)) = Some old).
  { rewrite mget_mdel. assert (N : String.eqb bak f = false) by (apply eqb_false_neq, bak_neq). rewrite N. now apply Hl. }
  destruct Hx as [<-|[<-|[]]]; [right; right; exact Hd|]. left. unfold rename. rewrite Hd. apply mget_mset_same.
Qed.

Lemma last_app_ne {A} (l1 l2 : list A) d : l2 <> [] -> last (l1 ++ l2) d = last l2 d.
Proof.
  intro H. induction l1 as [|x l1 IH]; auto. cbn [app]. destruct (l1 ++ l2) eqn:E; [|rewrite <- E in *; cbn; rewrite E; rewrite <- E; exact IH].
  apply app_eq_nil in E. tauto.
Qed.

(** A successful update ends with the new state in the file and the old one in the backup. *)
Theorem C43_success f parts d old : mget f d = Some old ->
  let e := last (updateState f parts true true d) d in
  mget f e = Some (concatS parts) /\ mget (f +++ ".bak") e = Some old.
Proof.
  intros Ho e. unfold e, updateState. rewrite Ho. cbn [andb]. rewrite app_nil_r.
  set (bak := (f +++ ".bak")%string). set (d1 := rename f bak d).
  assert (Hb : mget bak d1 = Some old) by (unfold d1, rename; rewrite Ho; apply mget_mset_same).
  rewrite last_app_ne by discriminate.
  destruct parts as [|p r].
  - cbn. rewrite mget_mset_same. split; auto. rewrite mget_mset_other; auto. apply bak_neq.
  - assert (E : last (mset f "" d1 :: writeSteps f "" (p :: r) d1) d = last (writeSteps f "" (p :: r) d1) d1).
    { set (ws := writeSteps f "" (p :: r) d1). assert (N : ws <> []) by discriminate. clearbody ws.
      change (mset f "" d1 :: ws) with ([mset f "" d1] ++ ws). rewrite last_app_ne by auto.
      destruct (exists_last N) as [l' [z ->]]. now rewrite !last_last. }
    rewrite E. split.
    + now rewrite writeSteps_last.
    + assert (I : In (last (writeSteps f "" (p :: r) d1) d1) (writeSteps f "" (p :: r) d1)).
      { destruct (exists_last (l := writeSteps f "" (p :: r) d1)) as [l' [z ->]]; [discriminate|]. rewrite last_last. apply in_or_app. right. now left. }
      rewrite (writeSteps_frame f bak _ _ _ _ (bak_neq f) I). exact Hb.
Qed.
(** A failed write ends with the old state in the file. *)
Theorem C43_failure f parts d old : mget f d = Some old ->
  mget f (last (updateState f parts true false d) d) = Some old.
Proof.
  intro Ho. unfold updateState. rewrite Ho. cbn [andb].
  set (bak := (f +++ ".bak")%string). set (d1 := rename f bak d). set (ws := mset f "" d1 :: writeSteps f "" parts d1).
  assert (Hb : mget bak d1 = Some old) by (unfold d1, rename; rewrite Ho; apply mget_mset_same).
  rewrite app_assoc. rewrite last_app_ne by discriminate. cbn [last].
  assert (Hw : mget bak (lastD ws d1) = Some old).
  { unfold lastD. assert (I : In (last ws d1) ws).
    { destruct (exists_last (l := ws)) as [l' [z ->]]; [discriminate|]. rewrite last_last. apply in_or_app. right. now left. }
    destruct I as [I|I]; [rewrite <- I|]; [rewrite mget_mset_other; auto; apply bak_neq|].
    now rewrite (writeSteps_frame f bak _ _ _ _ (bak_neq f) I). }
  unfold rename. rewrite mget_mdel. assert (N : String.eqb bak f = false) by (apply eqb_false_neq, bak_neq). rewrite N, Hw.
  apply mget_mset_same.
Qed.
(** The error of the first rename is ignored: if it fails, a crash while writing
    loses both states. *)
Theorem C43_rename_error_refuted : exists f parts d old x,
  mget f d = Some old /\ In x (updateState f parts false true d) /\ ~ safe f old (concatS parts) x.
Proof.
  exists "state", ["new"], [("state", "old")], "old", [("state", "")]. repeat split; cbn; auto.
  unfold safe. cbn. intros [H|[H|H]]; discriminate.
Qed.
Example C43_nonvacuous :
  updateState "s" ["ne"; "w"] true true [("s", "old")] =
  [[("s.bak", "old")]; [("s", ""); ("s.bak", "old")]; [("s", "ne"); ("s.bak", "old")]; [("s", "new"); ("s.bak", "old")]].
Proof. reflexivity. Qed.

Print Assumptions C34_read_stable.
Print Assumptions C34_read_once.
Print Assumptions C34_uncached_read.
Print Assumptions C34_temp_contents.
Print Assumptions C34_temp_shared.
Print Assumptions C34_temp_distinct.
Print Assumptions C34_temp_removed.
Print Assumptions C34_cleanup_keeps_others.
Print Assumptions C34_outer_refuted.
Print Assumptions C33_cached_partial.
Print Assumptions C33_uncached.
Print Assumptions C33_independent_partial.
Print Assumptions C33_collision_refuted.
Print Assumptions C33_failure_refuted.
Print Assumptions C43_crash_safe_partial.
Print Assumptions C43_success.
Print Assumptions C43_failure.
Print Assumptions C43_rename_error_refuted.
