(** File access, temporary files, the file cache, the command cache and the
    state file update: flow/state.go:162-191, 288-327, dynaml/tempfile.go,
    dynaml/exec.go:114-170, dynaml/write.go:100-108, cmd/merge.go:283-322.
    No proofs in this file. *)
From Verif Require Import Core Str.

(** ** Outside world *)

(** the file system, the contents behind URLs and the variable HOME *)
Record world := mkW { disk : smap string; web : smap string; home : string }.
Definition withDisk (w : world) (d : smap string) : world := mkW d (web w) (home w).

(** dynaml/write.go:100-108 FilePath *)
Definition filePath (w : world) (file : string) : string :=
  if hasPrefix file "~/" && negb (String.eqb (home w) "") then (home w +++ sdrop 1 file)%string else file.

(** ** Processing state *)

(** flow/state.go:56-60 *)
Record fstate := mkFS { tfiles : smap string; fcache : smap string; faccess : bool }.

Section Run.
(** sha512+base64 of the contents (state.go:176-177) *)
Variable hash : string -> string.
(** the name TempFile("", "spiff-") chooses (state.go:181) *)
Variable fresh : smap string -> string.

(** state.go:300-327 GetFileContent: the contents (None: error), the new state and
    the physical reads with their success.  The cache entry of an empty file is a
    non-nil empty slice. *)
Definition getFileContent (w : world) (st : fstate) (file : string) (cached : bool)
  : option string * fstate * list (string * bool) :=
  let file := filePath w file in
  let read :=
    let data := if hasPrefix file "http:" || hasPrefix file "https:" then mget file (web w) else mget file (disk w) in
    match data with
    | Some d => (Some d, mkFS (tfiles st) (mset file d (fcache st)) (faccess st), [(file, true)])
    | None => (None, st, [(file, false)])
    end in
  match mget file (fcache st) with
  | Some d => if cached then (Some d, st, []) else read
  | None => read
  end.

(** state.go:170-190 GetTempName *)
Definition getTempName (w : world) (st : fstate) (data : string) : option string * fstate * world :=
  if negb (faccess st) then (None, st, w) else
  match mget (hash data) (tfiles st) with
  | Some name => (Some name, st, w)
  | None => let name := fresh (disk w) in
            (Some name, mkFS (mset (hash data) name (tfiles st)) (fcache st) (faccess st),
             withDisk w (mset name "" (disk w)))
  end.

(** dynaml/tempfile.go:7-42 after the argument checks: the name, and the contents written *)
Definition tempfile (w : world) (st : fstate) (data : string) : option string * fstate * world :=
  match getTempName w st data with
  | (Some name, st', w') => (Some name, st', withDisk w' (mset name data (disk w')))
  | r => r
  end.

(** state.go:293-298 Cleanup; os errors of Remove are ignored *)
Definition cleanupS (w : world) (st : fstate) : fstate * world :=
  (mkFS [] (fcache st) (faccess st),
   withDisk w (fold_left (fun d kv => mdel (snd kv) d) (tfiles st) (disk w))).
(** flow.go:21-25 and environment.go:376-381: the state of a processing is cleaned
    up at its end only if there is no outer binding *)
Definition endOfFlow (outer : bool) (w : world) (st : fstate) : fstate * world :=
  if outer then (st, w) else cleanupS w st.
End Run.

(** ** Command cache (dynaml/exec.go:126-170) *)
Section Exec.
(** hex of the md5 sum *)
Variable md5hex : string -> string.
(** os/exec: standard output and success of a command; [t] counts the executed
    commands, so that repeated executions may differ *)
Variable osrun : nat -> option string -> list string -> string * bool.

Record xstate := mkX { xcache : smap string; xcount : nat }.

(** exec.go:128-136: everything that is written to the hash *)
Definition execKey (content : option string) (args : list string) : string :=
  md5hex ((match content with Some c => c | None => "" end) +++ concatS args)%string.

(** exec.go:126-170 cachedExecute with a cache ([cached]) or without; args[0] has
    been replaced by FilePath(args[0]) already.  An entry with empty output is a
    nil slice and counts as missing.  Result: output and success. *)
Definition cachedExecute (st : xstate) (cached : bool) (content : option string) (args : list string)
  : (string * bool) * xstate :=
  let key := execKey content args in
  let run := let r := osrun (xcount st) content args in
             (r, mkX (if cached then mset key (fst r) (xcache st) else xcache st) (S (xcount st))) in
  if cached then
    match mget key (xcache st) with
    | Some o => if String.eqb o "" then run else ((o, true), st)
    | None => run
    end
  else run.
End Exec.

(** ** State file update (cmd/merge.go:301-319) *)

(** the observable intermediate situations: the disk after every atomic step.
    [renames]: os.Rename succeeds; [written]: the parts ioutil.WriteFile writes
    one after the other; [ok]: WriteFile succeeds. *)
Definition rename (a b : string) (d : smap string) : smap string :=
  match mget a d with Some c => mset b c (mdel a d) | None => d end.
Fixpoint writeSteps (f : string) (sofar : string) (parts : list string) (d : smap string) : list (smap string) :=
  match parts with
  | [] => []
  | p :: r => let c := (sofar +++ p)%string in mset f c d :: writeSteps f c r d
  end.
Definition lastD (l : list (smap string)) (d : smap string) : smap string := last l d.
Definition updateState (f : string) (parts : list string) (renames ok : bool) (d : smap string)
  : list (smap string) :=
  let bak := (f +++ ".bak")%string in
  let old := match mget f d with Some _ => true | None => false end in
  let d1 := if old && renames then rename f bak d else d in
  (* WriteFile: open with O_CREATE|O_TRUNC, then write *)
  let ws := mset f "" d1 :: writeSteps f "" parts d1 in
  let d2 := lastD ws d1 in
  let tail := if ok then [] else
    let d3 := mdel f d2 in
    if old && renames then [d3; rename bak f d3] else [d3] in
  [d1] ++ ws ++ tail.
