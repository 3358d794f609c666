(** spiffing/spiff.go:64-260, features/features.go, flow/state.go:69-170 and
    dynaml/registry.go: execution contexts of the library interface and the
    feature flags they carry.  No proofs in this file. *)
From Verif Require Import Core Str Interp.
Import ListNotations.

(** features/features.go:12 FeatureFlags: map[string]struct{} *)
Definition feats := smap unit.
(** features.go:9-10 *)
Definition INTERPOLATION : string := "interpolation".
Definition CONTROL : string := "control".
(** features.go:14-20 Enabled (the map is never nil in a context) *)
Definition enabled (f : feats) (name : string) : bool :=
  match mget name f with Some _ => true | None => false end.
(** features.go:28-33 the switch *)
Definition knownFeature (name : string) : bool :=
  String.eqb name INTERPOLATION || String.eqb name CONTROL.
(** features.go:22-41 Set; the flag is false for the error result, which leaves
    the map alone *)
Definition featSet (f : feats) (name : string) (active : bool) : feats * bool :=
  let no := hasPrefix name "no" in
  let name := if no then sdrop 2 name else name in
  if knownFeature name then
    (if xorb active no then mset name tt f else mdel name f, true)
  else (f, false).
(** features.go:61-69 Features: the text is the value of SPIFF_FEATURES; errors
    are ignored *)
Definition featuresOf (setting : string) : feats :=
  fold_left (fun f s => fst (featSet f (trimSpace s) true)) (split setting ",") [].

(** flow/state.go:48-51, spiffing/interface.go:11-21 *)
Definition MODE_FILE_ACCESS : N := 1%N.
Definition MODE_OS_ACCESS : N := 2%N.
Definition MODE_DEFAULT : N := 3%N.

(** a file system of package vfs: the operating system's, for which
    osfs.IsOsFileSystem answers true, or another one (package vfs is not part of
    the repository) *)
Inductive fsys := OSFS | VFS (id : nat).
Definition isOS (f : fsys) : bool := match f with OSFS => true | VFS _ => false end.

(** mode & ^MODE_OS_ACCESS *)
Definition dropOS (m : N) : N := N.ldiff m MODE_OS_ACCESS.
(** spiff.go:179-181, 192-194: the mode is masked if there is a file system and
    it is not the operating system's *)
Definition maskFor (f : option fsys) (m : N) : N :=
  match f with Some f => if isOS f then m else dropOS m | None => m end.

Section Ctx.
(** values for WithValues as given by the user and after yaml.Sanitize, function
    and control registries, tags *)
Variables Raw Vals Fns Ctls Tag : Type.
Variable sanitize : Raw -> option Vals.

(** dynaml/registry.go:13-16; nil fields (and the nil registry of
    DefaultRegistry) mean the predefined functions and controls *)
Record registry := mkReg { r_fns : option Fns; r_ctls : option Ctls }.
Definition defaultRegistry : registry := mkReg None None.
(** registry.go:18-26, 28-36; nil functions are None *)
Definition withFns (f : option Fns) (r : registry) : registry := mkReg f (r_ctls r).
Definition withCtls (c : option Ctls) (r : registry) : registry := mkReg (r_fns r) c.

(** the fields of flow/state.go:56-67 a context determines; [s_feats] is a
    reference to a feature map *)
Record bstate := mkBS { s_key : string; s_mode : N; s_fs : fsys; s_reg : registry;
                        s_feats : nat; s_tags : smap Tag; s_values : option Vals }.

(** spiff.go:64-75; [c_tags] and [c_feats] are references to maps on the heap,
    None is the nil map.  opts is never set by the modelled interface *)
Record ctx := mkCtx { c_key : string; c_mode : N; c_fs : option fsys; c_values : option Vals;
                      c_reg : registry; c_tags : option nat; c_feats : nat;
                      c_bind : option bstate }.

(** feature maps, tag maps and contexts; references are positions *)
Record heap := mkH { fmaps : list feats; tmaps : list (smap Tag); ctxs : list ctx }.

Definition upd {A} (i : nat) (x : A) (l : list A) : list A :=
  if (i <? length l)%nat then firstn i l ++ x :: skipn (S i) l else l.
Definition getF (h : heap) (i : nat) : feats := nth i (fmaps h) [].
Definition getT (h : heap) (t : option nat) : smap Tag :=
  match t with Some i => nth i (tmaps h) [] | None => [] end.

(** allocating a new map or context, and overwriting one *)
Definition putCtx (i : nat) (c : ctx) (h : heap) : heap := mkH (fmaps h) (tmaps h) (upd i c (ctxs h)).
Definition addCtx (c : ctx) (h : heap) : heap := mkH (fmaps h) (tmaps h) (ctxs h ++ [c]).
Definition addF (f : feats) (h : heap) : heap := mkH (fmaps h ++ [f]) (tmaps h) (ctxs h).
Definition putF (i : nat) (f : feats) (h : heap) : heap := mkH (upd i f (fmaps h)) (tmaps h) (ctxs h).
Definition addT (t : smap Tag) (h : heap) : heap := mkH (fmaps h) (tmaps h ++ [t]) (ctxs h).
Definition putT (i : nat) (t : smap Tag) (h : heap) : heap := mkH (fmaps h) (upd i t (tmaps h)) (ctxs h).

(** spiff.go:116-119 Reset *)
Definition reset (c : ctx) : ctx :=
  mkCtx (c_key c) (c_mode c) (c_fs c) (c_values c) (c_reg c) (c_tags c) (c_feats c) None.
(** record updates *)
Definition setKey k (c : ctx) := mkCtx k (c_mode c) (c_fs c) (c_values c) (c_reg c) (c_tags c) (c_feats c) (c_bind c).
Definition setMode m (c : ctx) := mkCtx (c_key c) m (c_fs c) (c_values c) (c_reg c) (c_tags c) (c_feats c) (c_bind c).
Definition setFS f (c : ctx) := mkCtx (c_key c) (c_mode c) f (c_values c) (c_reg c) (c_tags c) (c_feats c) (c_bind c).
Definition setValues v (c : ctx) := mkCtx (c_key c) (c_mode c) (c_fs c) v (c_reg c) (c_tags c) (c_feats c) (c_bind c).
Definition setReg r (c : ctx) := mkCtx (c_key c) (c_mode c) (c_fs c) (c_values c) r (c_tags c) (c_feats c) (c_bind c).
Definition setTags t (c : ctx) := mkCtx (c_key c) (c_mode c) (c_fs c) (c_values c) (c_reg c) t (c_feats c) (c_bind c).
Definition setBind b (c : ctx) := mkCtx (c_key c) (c_mode c) (c_fs c) (c_values c) (c_reg c) (c_tags c) (c_feats c) b.

(** flow/state.go:71-96 NewState with SetRegistry, SetFeatures, SetTags and the
    environment of spiff.go:126-143: state.SetTags copies the tag pointers, keyed
    by the name of the tag, which is the key in the context's map *)
Definition newState (h : heap) (c : ctx) : bstate :=
  mkBS (c_key c) (maskFor (c_fs c) (c_mode c))
       (match c_fs c with Some f => f | None => OSFS end)
       (c_reg c) (c_feats c) (getT h (c_tags c)) (c_values c).
(** spiff.go:126-143 assureBinding *)
Definition bindingOf (h : heap) (c : ctx) : bstate :=
  match c_bind c with Some b => b | None => newState h c end.

(** the calls of the interface; contexts are positions on the heap *)
Inductive op :=
| ONew (features key : string)          (* New() with the environment variables *)
| OPlain                                (* Plain() *)
| OReset (c : nat)
| OResetStream (c : nat) (f : smap Tag -> smap Tag)  (* effect on the tags of the binding *)
| OInterpolation (c : nat) (b : bool)
| OControl (c : nat) (b : bool)
| OFeatures (c : nat) (l : list string)
| OKey (c : nat) (k : string)
| OMode (c : nat) (m : N)
| OFS (c : nat) (f : option fsys)
| OFunctions (c : nat) (f : option Fns)
| OControls (c : nat) (f : option Ctls)
| OValues (c : nat) (v : option Raw)
| OSetTag (c : nat) (name : string) (t : Tag)
| OCleanupTags (c : nat)
| OCascade (c : nat)
| OPrepare (c : nat) (f : smap Tag -> smap Tag)      (* effect of the stubs on the tags *)
| OApply (c : nat) (f : smap Tag -> smap Tag).

(** outcome of a call: the context it returns (None for calls that return
    documents), an error result, or a Go panic *)
Inductive res := RCtx (i : nat) | RDone | RErr | RPanic.

Definition setBTags (f : smap Tag -> smap Tag) (b : bstate) : bstate :=
  mkBS (s_key b) (s_mode b) (s_fs b) (s_reg b) (s_feats b) (f (s_tags b)) (s_values b).

(** a With... method has a value receiver: the result is a modified copy whose
    binding is dropped *)
Definition derive (h : heap) (c : ctx) : heap * res :=
  (addCtx (reset c) h, RCtx (length (ctxs h))).
(** features.Set on the map of a context *)
Definition setF (c : ctx) (name : string) (b : bool) (h : heap) : heap :=
  putF (c_feats c) (fst (featSet (getF h (c_feats c)) name b)) h.

(** one call; a call for a context that does not exist does nothing *)
Definition step (h : heap) (o : op) : heap * res :=
  let on i (k : ctx -> heap * res) :=
    match nth_error (ctxs h) i with Some c => k c | None => (h, RDone) end in
  match o with
  (* spiff.go:91-98 *)
  | ONew fs key =>
      (addCtx (mkCtx key MODE_DEFAULT None None defaultRegistry None (length (fmaps h)) None)
              (addF (featuresOf fs) h), RCtx (length (ctxs h)))
  (* spiff.go:102-109 *)
  | OPlain =>
      (addCtx (mkCtx "" MODE_DEFAULT None None defaultRegistry None (length (fmaps h)) None)
              (addF [] h), RCtx (length (ctxs h)))
  (* spiff.go:111-114: pointer receiver *)
  | OReset i => on i (fun c => (putCtx i (reset c) h, RCtx i))
  (* spiff.go:116-119 and flow/environment.go:390-395: nothing to do for a nil binding *)
  | OResetStream i f => on i (fun c =>
      match c_bind c with
      | Some b => (putCtx i (setBind (Some (setBTags f b)) c) h, RCtx i)
      | None => (h, RCtx i)
      end)
  (* spiff.go:145-148 *)
  | OInterpolation i b => on i (fun c => derive (setF c INTERPOLATION b h) c)
  (* spiff.go:152-155 *)
  | OControl i b => on i (fun c => derive (setF c CONTROL b h) c)
  (* spiff.go:159-164; errors are ignored *)
  | OFeatures i l => on i (fun c => derive (fold_left (fun h f => setF c f true h) l h) c)
  (* spiff.go:168-171 *)
  | OKey i k => on i (fun c => derive h (setKey k c))
  (* spiff.go:175-181 *)
  | OMode i m => on i (fun c => derive h (setMode (maskFor (c_fs c) m) c))
  (* spiff.go:187-193 *)
  | OFS i f => on i (fun c => derive h (setMode (maskFor f (c_mode c)) (setFS f c)))
  (* spiff.go:197-200 *)
  | OFunctions i f => on i (fun c => derive h (setReg (withFns f (c_reg c)) c))
  (* spiff.go:204-207 *)
  | OControls i f => on i (fun c => derive h (setReg (withCtls f (c_reg c)) c))
  (* spiff.go:215-226 *)
  | OValues i v => on i (fun c =>
      match v with
      | None => derive h (setValues None c)
      | Some r => match sanitize r with
                  | Some v => derive h (setValues (Some v) c)
                  | None => (h, RErr)
                  end
      end)
  (* spiff.go:229-232: assignment to an entry of a nil map panics *)
  | OSetTag i name t => on i (fun c =>
      match c_tags c with
      | Some r => derive (putT r (mset name t (getT h (Some r))) h) c
      | None => (h, RPanic)
      end)
  (* spiff.go:245-249: pointer receiver *)
  | OCleanupTags i => on i (fun c =>
      (putCtx i (setTags (Some (length (tmaps h))) (reset c)) (addT [] h), RCtx i))
  (* spiff.go:253-258: the binding is fresh and dropped at the end *)
  | OCascade i => on i (fun c => (putCtx i (reset c) h, RDone))
  (* spiff.go:264-268 *)
  | OPrepare i f => on i (fun c =>
      (putCtx i (setBind (Some (setBTags f (newState h c))) c) h, RDone))
  (* spiff.go:272-278 *)
  | OApply i f => on i (fun c =>
      (putCtx i (setBind (Some (setBTags f (bindingOf h c))) c) h, RDone))
  end.

(** the heap after a history of calls *)
Definition run (t : list op) (h : heap) : heap := fold_left (fun h o => fst (step h o)) t h.
Definition start : heap := mkH [] [] [].

(** state.go:130-136 OSAccessAllowed, FileAccessAllowed *)
Definition osAllowed (b : bstate) : bool := negb (N.eqb (N.land (s_mode b) MODE_OS_ACCESS) 0).
Definition fileAllowed (b : bstate) : bool := negb (N.eqb (N.land (s_mode b) MODE_FILE_ACCESS) 0).

(** the state the next document processed with the context is processed with:
    Cascade and PrepareStubs use a new one, ApplyStubs the present one if there
    is one *)
Definition processing (h : heap) (i : nat) (b : bstate) : Prop :=
  exists c, nth_error (ctxs h) i = Some c /\ (b = newState h c \/ b = bindingOf h c).
End Ctx.

Arguments mkReg {Fns Ctls}. Arguments r_fns {Fns Ctls}. Arguments r_ctls {Fns Ctls}.
Arguments defaultRegistry {Fns Ctls}. Arguments withFns {Fns Ctls}. Arguments withCtls {Fns Ctls}.
Arguments mkBS {Vals Fns Ctls Tag}. Arguments s_key {Vals Fns Ctls Tag}. Arguments s_mode {Vals Fns Ctls Tag}.
Arguments s_fs {Vals Fns Ctls Tag}. Arguments s_reg {Vals Fns Ctls Tag}. Arguments s_feats {Vals Fns Ctls Tag}.
Arguments s_tags {Vals Fns Ctls Tag}. Arguments s_values {Vals Fns Ctls Tag}.
Arguments mkCtx {Vals Fns Ctls Tag}. Arguments c_key {Vals Fns Ctls Tag}. Arguments c_mode {Vals Fns Ctls Tag}.
Arguments c_fs {Vals Fns Ctls Tag}. Arguments c_values {Vals Fns Ctls Tag}. Arguments c_reg {Vals Fns Ctls Tag}.
Arguments c_tags {Vals Fns Ctls Tag}. Arguments c_feats {Vals Fns Ctls Tag}. Arguments c_bind {Vals Fns Ctls Tag}.
Arguments mkH {Vals Fns Ctls Tag}. Arguments fmaps {Vals Fns Ctls Tag}. Arguments tmaps {Vals Fns Ctls Tag}.
Arguments ctxs {Vals Fns Ctls Tag}. Arguments getF {Vals Fns Ctls Tag}. Arguments getT {Vals Fns Ctls Tag}.
Arguments putCtx {Vals Fns Ctls Tag}. Arguments addCtx {Vals Fns Ctls Tag}. Arguments addF {Vals Fns Ctls Tag}.
Arguments putF {Vals Fns Ctls Tag}. Arguments addT {Vals Fns Ctls Tag}. Arguments putT {Vals Fns Ctls Tag}.
Arguments reset {Vals Fns Ctls Tag}. Arguments setKey {Vals Fns Ctls Tag}. Arguments setMode {Vals Fns Ctls Tag}.
Arguments setFS {Vals Fns Ctls Tag}. Arguments setValues {Vals Fns Ctls Tag}. Arguments setReg {Vals Fns Ctls Tag}.
Arguments setTags {Vals Fns Ctls Tag}. Arguments setBind {Vals Fns Ctls Tag}. Arguments newState {Vals Fns Ctls Tag}.
Arguments bindingOf {Vals Fns Ctls Tag}. Arguments setBTags {Vals Fns Ctls Tag}. Arguments derive {Vals Fns Ctls Tag}.
Arguments setF {Vals Fns Ctls Tag}. Arguments step {Raw Vals Fns Ctls Tag}. Arguments run {Raw Vals Fns Ctls Tag}.
Arguments start {Vals Fns Ctls Tag}. Arguments osAllowed {Vals Fns Ctls Tag}. Arguments fileAllowed {Vals Fns Ctls Tag}.
Arguments processing {Vals Fns Ctls Tag}.
Arguments ONew {Raw Fns Ctls Tag}. Arguments OPlain {Raw Fns Ctls Tag}. Arguments OReset {Raw Fns Ctls Tag}.
Arguments OResetStream {Raw Fns Ctls Tag}. Arguments OInterpolation {Raw Fns Ctls Tag}. Arguments OControl {Raw Fns Ctls Tag}.
Arguments OFeatures {Raw Fns Ctls Tag}. Arguments OKey {Raw Fns Ctls Tag}. Arguments OMode {Raw Fns Ctls Tag}.
Arguments OFS {Raw Fns Ctls Tag}. Arguments OFunctions {Raw Fns Ctls Tag}. Arguments OControls {Raw Fns Ctls Tag}.
Arguments OValues {Raw Fns Ctls Tag}. Arguments OSetTag {Raw Fns Ctls Tag}. Arguments OCleanupTags {Raw Fns Ctls Tag}.
Arguments OCascade {Raw Fns Ctls Tag}. Arguments OPrepare {Raw Fns Ctls Tag}. Arguments OApply {Raw Fns Ctls Tag}.
