(** The functions that reach outside of a document: exec, pipe, read, write,
    tempfile, lookup_file, list_files, mkdir, env (dynaml/exec.go, pipe.go, read.go,
    write.go, tempfile.go, lookup.go, files.go, mkdir.go, env.go, flow/state.go:
    171-190, 299-327).  Every access to the outside is recorded in a trace; the
    answers of the outside may depend on the whole trace.  No proofs in this file. *)
From Verif Require Import Core Str Interp TextFns Find Unresolved Env Flow Info Eval Context.
From Coq Require Import SpecFloat.
Import ListNotations.

(** accesses to the outside: commands, files of a file system, the network, the
    environment *)
Inductive access :=
| AExec (stdin : option string) (args : list string)
| ARead (fs : fsys) (path : string)
| AWrite (fs : fsys) (path data : string) (perm : Z)
| AMkdir (fs : fsys) (path : string) (perm : Z)
| AStat (fs : fsys) (path : string)
| AReadDir (fs : fsys) (path : string)
| ATemp (fs : fsys)
| AHttp (url : string)
| AEnv (name : string).

(** the part of flow.State (state.go:56-67) these functions use, and the trace *)
Record ost := mkOst {
  x_mode : N; x_fs : fsys; x_files : smap string; x_fcache : smap string; x_ecache : smap string;
  x_trace : list access }.
Definition setTrace (t : list access) (s : ost) : ost :=
  mkOst (x_mode s) (x_fs s) (x_files s) (x_fcache s) (x_ecache s) t.
Definition setFiles (f : smap string) (s : ost) : ost :=
  mkOst (x_mode s) (x_fs s) f (x_fcache s) (x_ecache s) (x_trace s).
Definition setFcache (f : smap string) (s : ost) : ost :=
  mkOst (x_mode s) (x_fs s) (x_files s) f (x_ecache s) (x_trace s).
Definition setEcache (f : smap string) (s : ost) : ost :=
  mkOst (x_mode s) (x_fs s) (x_files s) (x_fcache s) f (x_trace s).
(** state.go:138-144 *)
Definition xosAllowed (s : ost) : bool := negb (N.eqb (N.land (x_mode s) MODE_OS_ACCESS) 0).
Definition xfileAllowed (s : ost) : bool := negb (N.eqb (N.land (x_mode s) MODE_FILE_ACCESS) 0).

(** the outside: every answer may depend on what happened so far *)
Record outside := mkOut {
  out_exec : list access -> option string -> list string -> string * bool;   (* output, success *)
  out_read : list access -> fsys -> string -> option string;
  out_write : list access -> fsys -> string -> string -> Z -> bool;
  out_mkdir : list access -> fsys -> string -> Z -> bool;
  out_stat : list access -> fsys -> string -> option bool;                   (* Some isDir *)
  out_readdir : list access -> fsys -> string -> option (list (string * bool));
  out_temp : list access -> fsys -> option string;
  out_http : list access -> string -> option string;
  out_home : string;                                                         (* $HOME *)
  out_environ : list string }.

(** strconv.ParseInt(v, base, 64) for base 8 and 10 (write.go:81-86) *)
Fixpoint digitsVal (base : Z) (l : list ascii) (acc : Z) : option Z :=
  match l with
  | [] => Some acc
  | c :: r => let d := bytev c - 48 in
              if (0 <=? d) && (d <? base) then digitsVal base r (acc * base + d) else None
  end.
Definition parseBase (base : Z) (s : string) : option Z :=
  let '(neg, l) := match chars s with
                   | c :: r => if Ascii.eqb c "-" then (true, r) else if Ascii.eqb c "+" then (false, r) else (false, c :: r)
                   | [] => (false, [])
                   end in
  match l with
  | [] => None
  | _ => match digitsVal base l 0 with
         | Some z => let z := if neg then - z else z in if in64b z then Some z else None
         | None => None
         end
  end.

(** write.go:48-52 *)
Record wopts := mkWO { wo_binary : bool; wo_multi : bool; wo_perm : Z }.
(** write.go:60-72: known options are removed *)
Fixpoint scanOpts (opts : list string) (w : wopts) : list string * wopts :=
  match opts with
  | [] => ([], w)
  | o :: r =>
      let t := trimSpace o in
      if String.eqb t "binary" || String.eqb t "#" then scanOpts r (mkWO true (wo_multi w) (wo_perm w))
      else if String.eqb t "multiyaml" then scanOpts r (mkWO (wo_binary w) true (wo_perm w))
      else let '(l, w) := scanOpts r w in (o :: l, w)
  end.
(** write.go:54-97 getWriteOptions; None: error *)
Definition getWriteOptions (arg : value) (w : wopts) (permonly : bool) : option wopts :=
  let r :=
    match arg with
    | VStr v =>
        match scanOpts (split v ",") w with
        | ([], w) => Some w
        | ([v], w) => option_map (fun p => mkWO (wo_binary w) (wo_multi w) p)
                                 (parseBase (if hasPrefix v "0" then 8 else 10) v)
        | _ => None
        end
    | VInt z => Some (mkWO (wo_binary w) (wo_multi w) z)
    | _ => None
    end in
  match r with
  | Some w => if permonly && (wo_binary w || wo_multi w) then None else Some w
  | None => None
  end.

(** archive.go:175-187 hasTag *)
Fixpoint hasTagF (file : list ascii) (tag : ascii) : bool :=
  match file with
  | [] => false
  | c :: r =>
      if Ascii.eqb c "*" || Ascii.eqb c "#" || Ascii.eqb c "-" then
        if Ascii.eqb c tag then true
        else if Ascii.eqb c "-" then false else hasTagF r tag
      else false
  end.
(** archive.go:189-198 removeTags *)
Fixpoint removeTagsF (file : list ascii) : list ascii :=
  match file with
  | [] => []
  | c :: r =>
      if Ascii.eqb c ":" then r
      else if Ascii.eqb c "*" || Ascii.eqb c "#" then removeTagsF r
      else file
  end.
(** exec.go:86-92 *)
Fixpoint dropTrailingNL (l : list ascii) : list ascii :=
  match l with
  | [] => []
  | c :: r => match dropTrailingNL r with
              | [] => if Ascii.eqb c "010" then [] else [c]
              | r' => c :: r'
              end
  end.

Section OS.
(** the state of the whole processing contains the part used here *)
Variable ST : Type.
Variable getO : ST -> ost.
Variable setO : ost -> ST -> ST.
Variable O : outside.
(** candiedyaml.Marshal, strconv.FormatFloat(v, 'e', 64, 64), yaml.Parse and
    yaml.ParseMulti for a file name and data, md5, sha512, the pattern of read.go:12,
    the interpolation feature *)
Variable marshal : value -> option string.
Variable ffmt : spec_float -> string.
Variable parseY : string -> string -> option node.
Variable parseMulti : string -> string -> option (list node).
Variables md5hex sha : string -> string.
Variable templPat : string -> bool.
(** strconv.Quote, see Interp.v *)
Variable quote : string -> string.
Variable interpol : bool.
(** filepath.Join of two and filepath.IsAbs (standard library) *)
Variable joinPath : string -> string -> string.
Variable isAbs : string -> bool.

Notation M := (M ST).
Notation bind := (bind ST).
Notation ret := (ret ST).
Notation "x <- m ;; k" := (bind m (fun x => k)) (at level 61, m at next level, right associativity).
Notation failO t := (fail ST t defaultInfo).
Notation doneO v := (done ST v defaultInfo).

(** an access to the outside: it is recorded before the answer *)
Definition ask {A} (a : access) (f : list access -> A) : M A :=
  fun s => let o := getO s in Ret (f (x_trace o)) (setO (setTrace (x_trace o ++ [a]) o) s).
Definition get : M ost := fun s => Ret (getO s) s.
Definition modify (f : ost -> ost) : M unit := fun s => Ret tt (setO (f (getO s)) s).

(** exec.go:94-129 getArg; None: error *)
Definition getArg (v : value) (multi allowyaml : bool) : option (string * bool) :=
  match v with
  | VStr s => Some (s, true)
  | VInt z => Some (itoa z, false)
  | VFloat f => Some (ffmt f, false)
  | VBool b => Some (btoa b, false)
  | VNil => None
  | _ =>
      if negb allowyaml then None
      else if multi then
        match v with
        | VList l =>
            fold_left (fun r n => match r, marshal (val n) with
                                  | Some (t, _), Some y => Some ((t +++ "---" +++ nl +++ y)%string, false)
                                  | _, _ => None
                                  end) l (Some (""%string, false))
        | _ => None
        end
      else option_map (fun y => (("---" +++ nl +++ y)%string, false)) (marshal v)
  end.
(** the arguments of a command line; [first]: the one that must not be yaml *)
Fixpoint getArgs (vs : list value) (allowyaml : bool) : option (list string) :=
  match vs with
  | [] => Some []
  | v :: r => match getArg v false allowyaml, getArgs r true with
              | Some (s, _), Some l => Some (s :: l)
              | _, _ => None
              end
  end.

(** write.go:99-108 FilePath; $HOME is only read for such a name *)
Definition filePathM (file : string) : M string :=
  if hasPrefix file "~/" then
    h <- ask (AEnv "HOME") (fun _ => out_home O) ;;
    ret (if String.eqb h "" then file else (h +++ sdrop 1 file)%string)
  else ret file.

(** exec.go:133-167 cachedExecute; the name of the command is a non-empty list's head.
    An entry with empty output is a nil slice and counts as missing *)
Definition execute (cached : bool) (content : option string) (args : list string) : M (string * bool) :=
  match args with
  | [] => panic ST
  | a0 :: r =>
      a0 <- filePathM a0 ;;
      let args := a0 :: r in
      let key := md5hex ((match content with Some c => c | None => "" end) +++ concatS args)%string in
      s <- get ;;
      match (if cached then mget key (x_ecache s) else None) with
      | Some (String c o) => ret (String c o, true)
      | _ =>
          x <- ask (AExec content args) (fun t => out_exec O t content args) ;;
          _ <- modify (fun s => if cached then setEcache (mset key (fst x) (x_ecache s)) s else s) ;;
          ret x
      end
  end.

(** exec.go:69-92 convertOutput *)
Definition convertOutput (data : string) : M R :=
  let text :=
    let str := ofchars (dropTrailingNL (chars data)) in
    match parseInt str with Some z => doneO (VInt z) | None => doneO (VStr str) end in
  match parseY "exec" data with
  | Some n => if match val n with VMap _ => true | _ => false end || hasPrefix data ("---" +++ nl)
              then doneO (val n) else text
  | None => text
  end.

(** exec.go:18-67 func_exec *)
Definition func_exec (cached : bool) (args : list value) : M R :=
  match args with
  | [] => failO "exec: argument required"
  | a0 :: rest =>
      s <- get ;;
      if negb (xosAllowed s) then failO "exec: no OS operations supported in this execution environment"
      else
        let words :=
          match a0 with
          | VList l => match rest, l with
                       | [], _ :: _ => getArgs (map val l) false
                       | _, _ => None
                       end
          | _ => getArgs args false
          end in
        match words with
        | None => failO "invalid command argument"
        | Some w => x <- execute cached None w ;;
                    if snd x then convertOutput (fst x) else failO "execution failed"
        end
  end.
(** pipe.go:8-62 func_pipe: at least three arguments; the second one must not be a
    list or other yaml data *)
Definition func_pipe (cached : bool) (args : list value) : M R :=
  match args with
  | a0 :: a1 :: a2 :: rest =>
      s <- get ;;
      if negb (xosAllowed s) then failO "pipe: no OS operations supported in this execution environment"
      else
        match getArg a0 false true, a1, getArgs (a1 :: a2 :: rest) false with
        | _, VList _, _ => failO "list not allowed for command argument"
        | Some (c, _), _, Some w =>
            x <- execute cached (Some c) w ;;
            if snd x then convertOutput (fst x) else failO "execution failed"
        | _, _, _ => failO "command argument must be string"
        end
  | _ => failO "pipe requires at least two arguments"
  end.

(** state.go:299-327 GetFileContent; None: error *)
Definition fileContent (file : string) (cached : bool) : M (option string) :=
  file <- filePathM file ;;
  s <- get ;;
  match (if cached then mget file (x_fcache s) else None) with
  | Some d => ret (Some d)
  | None =>
      d <- (if hasPrefix file "http:" || hasPrefix file "https:"
            then ask (AHttp file) (fun t => out_http O t file)
            else ask (ARead (x_fs s) file) (fun t => out_read O t (x_fs s) file)) ;;
      match d with
      | Some d => _ <- modify (fun s => setFcache (mset file d (x_fcache s)) s) ;; ret (Some d)
      | None => ret None
      end
  end.

(** read.go:134-176 asTemplate *)
Definition fileTemplate (n : node) (env : binding) : value :=
  let orig := nodeCopy n in
  let tn := dnode (VStr "(( &template ))") (src n) in
  let orig' :=
    match val orig with
    | VMap m => match mget MERGEKEY m with
                | None => replaceValue (VMap (mset MERGEKEY tn m)) orig
                | Some _ => match mget "<<" m with
                            | None => replaceValue (VMap (mset "<<" tn m)) orig
                            | Some _ => orig
                            end
                end
    | VList l =>
        if existsb (fun e => match val e with
                             | VMap m => match (match mget MERGEKEY m with Some x => Some x | None => mget "<<" m end) with
                                         | Some x => match embeddedDynaml quote x interpol with Some t => templPat t | None => false end
                                         | None => false
                                         end
                             | _ => false
                             end) l
        then orig
        else dnode (VList (dnode (VMap [(MERGEKEY, tn)]) (src n) :: l)) (src n)
    | _ => orig
    end in
  VTemplate (b_path env) n orig' env.

(** trailing empty documents (read.go:90-92, 115-117) *)
Definition dropEmptyDocs (l : list node) : list node :=
  rev ((fix go (r : list node) : list node :=
          match r with
          | n :: r' => match r', val n with
                       | _ :: _, VNil => go r'
                       | _, _ => r
                       end
          | [] => []
          end) (rev l)).

(** read.go:48-132 ParseData *)
Definition parseData (flowT : node -> binding -> M (node * list unres))
    (file data mode : string) (env : binding) : M R :=
  let i := setSource file defaultInfo in
  let failP := fail ST "error parsing file" i in
  let '(re, mode) := if hasPrefix mode "." then (withNewRoot env, sdrop 1 mode) else (env, mode) in
  let resolve (n : node) : M R :=
    x <- flowT n re ;;
    match snd x with
    | [] => done ST (val (fst x)) i
    | _ => fail ST "resolution of yaml file failed" i
    end in
  if String.eqb mode "template" then
    match parseY file data with Some n => done ST (fileTemplate n env) i | None => failP end
  else if String.eqb mode "templates" then
    match parseMulti file data with
    | Some l => done ST (VList (map (fun n => dnode (fileTemplate n env) (src n)) l)) i
    | None => failP
    end
  else if String.eqb mode "yaml" then
    match parseY file data with Some n => resolve n | None => failP end
  else if String.eqb mode "multiyaml" then
    match parseMulti file data with
    | Some l => resolve (dnode (VList (dropEmptyDocs l)) file)
    | None => failP
    end
  else if String.eqb mode "import" then
    match parseY file data with
    | Some n => done ST (val n) (mkInfo None false false false "" file false false false true noIssue 0%N)
    | None => failP
    end
  else if String.eqb mode "importmulti" then
    match parseMulti file data with
    | Some l => done ST (VList (dropEmptyDocs l)) (mkInfo None false false false "" file false false false true noIssue 0%N)
    | None => failP
    end
  else if String.eqb mode "text" then done ST (VStr data) i
  else if String.eqb mode "binary" then done ST (VStr (ofchars (base64Encode (chars data) 60))) i
  else fail ST "invalid file type" i.

(** read.go:14-46 func_read; without arguments the index panics *)
Definition func_read (flowT : node -> binding -> M (node * list unres)) (cached : bool)
    (args : list value) (env : binding) : M R :=
  if (2 <? length args)%nat then failO "read takes a maximum of two arguments"
  else
    s <- get ;;
    if negb (xfileAllowed s) then failO "read: no OS operations supported in this execution environment"
    else
      match args with
      | [] => panic ST
      | VStr file :: rest =>
          let t := if hasSuffix file ".yml" || hasSuffix file ".yaml" || hasSuffix file ".json" then "yaml"%string else "text"%string in
          match (match rest with [] => Some t | VStr t :: _ => Some t | _ => None end) with
          | None => failO "string value required for type"
          | Some t =>
              d <- fileContent file cached ;;
              match d with
              | Some d => parseData flowT file d t env
              | None => failO "read"
              end
          end
      | _ => failO "string value required for file path"
      end.

(** write.go:110-126 getData: file name, text and data *)
Definition getData (file : string) (w : wopts) (v : value) : M (string * string * string) :=
  let '(str, isstr) := match getArg v (wo_multi w) true with Some x => x | None => (""%string, false) end in
  let data := if wo_binary w || (isstr && hasTagF (chars file) "#")
              then match b64dec (chars str) with Some d => ofchars d | None => str end
              else str in
  f <- filePathM (ofchars (removeTagsF (chars file))) ;;
  ret (f, str, data).

(** write.go:11-46 func_write *)
Definition func_write (args : list value) : M R :=
  match args with
  | a0 :: a1 :: rest =>
      if (1 <? length rest)%nat then failO "write requires two or three arguments"
      else
        s <- get ;;
        if negb (xfileAllowed s) then failO "write: no OS operations supported in this execution environment"
        else
          match getArg a0 false false with
          | Some (String c f, _) =>
              match (match rest with a2 :: _ => getWriteOptions a2 (mkWO false false 420) false
                                   | [] => Some (mkWO false false 420) end) with
              | None => failO "cannot write file"
              | Some w =>
                  x <- getData (String c f) w a1 ;;
                  let '(file, str, data) := x in
                  ok <- ask (AWrite (x_fs s) file data (wo_perm w)) (fun t => out_write O t (x_fs s) file data (wo_perm w)) ;;
                  if ok then doneO (VStr str) else failO "cannot write file"
              end
          | _ => failO "file argument must be a non-empty string"
          end
  | _ => failO "write requires two or three arguments"
  end.

(** state.go:172-190 GetTempName; None: error *)
Definition tempName (data : string) : M (option string) :=
  s <- get ;;
  if negb (xfileAllowed s) then ret None
  else
    match mget (sha data) (x_files s) with
    | Some n => ret (Some n)
    | None =>
        n <- ask (ATemp (x_fs s)) (fun t => out_temp O t (x_fs s)) ;;
        match n with
        | Some n => _ <- modify (fun s => setFiles (mset (sha data) n (x_files s)) s) ;; ret (Some n)
        | None => ret None
        end
    end.
(** tempfile.go:7-42 func_tempfile *)
Definition func_tempfile (args : list value) : M R :=
  s <- get ;;
  if negb (xfileAllowed s) then failO "tempfile: no OS operations supported in this execution environment"
  else
    match args with
    | a0 :: rest =>
        if (1 <? length rest)%nat then failO "temp_file requires exactly one or two arguments"
        else
          match (match rest with a1 :: _ => getWriteOptions a1 (mkWO false false 420) false
                               | [] => Some (mkWO false false 420) end) with
          | None => failO "cannot create temporary file"
          | Some w =>
              x <- getData "" w a0 ;;
              let '(_, _, data) := x in
              n <- tempName data ;;
              match n with
              | None => failO "cannot create temporary file"
              | Some n =>
                  ok <- ask (AWrite (x_fs s) n data (wo_perm w)) (fun t => out_write O t (x_fs s) n data (wo_perm w)) ;;
                  if ok then doneO (VStr n) else failO "cannot write file"
              end
          end
    | [] => failO "temp_file requires exactly one or two arguments"
    end.

(** lookup.go:73-82 checkExistence *)
Definition checkExistence (path : string) (directory : bool) : M bool :=
  s <- get ;;
  if negb (xfileAllowed s) then ret false
  else
    r <- ask (AStat (x_fs s) path) (fun t => out_stat O t (x_fs s) path) ;;
    ret (match r with Some d => Bool.eqb d directory | None => false end).
(** lookup.go:24-46: the paths of the arguments; None: error *)
Fixpoint pathsOf (l : list node) : option (list string) :=
  match l with
  | [] => Some []
  | n :: r => match val n with
              | VNil => pathsOf r
              | VStr s => option_map (cons s) (pathsOf r)
              | _ => None
              end
  end.
Fixpoint lookupPaths (args : list value) : option (list string) :=
  match args with
  | [] => Some []
  | VList l :: r => match pathsOf l, lookupPaths r with Some a, Some b => Some (a ++ b) | _, _ => None end
  | VStr s :: r => option_map (cons s) (lookupPaths r)
  | _ => None
  end.
(** lookup.go:64-71 *)
Fixpoint lookupIn (dirs : list string) (name : string) (directory : bool) (env : binding) : M (list node) :=
  match dirs with
  | [] => ret []
  | d :: r =>
      if String.eqb d "" then lookupIn r name directory env
      else
        let p := (d +++ "/" +++ name)%string in
        ok <- checkExistence p directory ;;
        l <- lookupIn r name directory env ;;
        ret (if ok then dnode (VStr p) (b_source env) :: l else l)
  end.
(** lookup.go:10-71 func_lookup *)
Definition func_lookup (directory : bool) (args : list value) (env : binding) : M R :=
  s <- get ;;
  if negb (xfileAllowed s) then failO "lookup: no OS operations supported in this execution environment"
  else
    match args with
    | a0 :: a1 :: rest =>
        match lookupPaths (a1 :: rest), a0 with
        | None, _ => failO "lookup_file: argument must be a string or a list of strings"
        | Some paths, VStr "" => failO "lookup_file: first argument is empty string"
        | Some paths, VStr name =>
            if isAbs name then
              ok <- checkExistence name directory ;;
              doneO (VList (if ok then [dnode (VStr name) (b_source env)] else []))
            else
              l <- lookupIn paths name directory env ;;
              doneO (VList l)
        | Some _, _ => failO "lookup_file: first argument must be a string"
        end
    | _ => failO "lookup_file requires at least two arguments"
    end.
(** files.go:7-42 func_listFiles *)
Definition func_listFiles (directory : bool) (args : list value) (env : binding) : M R :=
  s <- get ;;
  if negb (xfileAllowed s) then failO "listFiles: no OS operations supported in this execution environment"
  else
    match args with
    | [VStr ""] => failO "list: argument is empty string"
    | [VStr name] =>
        ok <- checkExistence name true ;;
        if ok then
          r <- ask (AReadDir (x_fs s) name) (fun t => out_readdir O t (x_fs s) name) ;;
          match r with
          | Some l => doneO (VList (map (fun x => dnode (VStr (fst x)) (b_source env))
                                        (filter (fun x => Bool.eqb (snd x) directory) l)))
          | None => failO "list: error reading directory"
          end
        else failO "list: no directory"
    | [_] => failO "list: argument must be a string"
    | _ => failO "list requires exactly one arguments"
    end.
(** mkdir.go:32-46: the path; None: error *)
Fixpoint joinComps (l : list node) (p : string) : option string :=
  match l with
  | [] => Some p
  | n :: r => match getArg (val n) false false with
              | Some (String c s, _) => joinComps r (joinPath p (String c s))
              | _ => None
              end
  end.
(** mkdir.go:14-59 func_mkdir *)
Definition func_mkdir (args : list value) : M R :=
  s <- get ;;
  if negb (xfileAllowed s) then failO "mkdir: no OS operations supported in this execution environment"
  else
    match args with
    | a0 :: rest =>
        if (1 <? length rest)%nat then failO "mkdir requires one or two arguments"
        else
          let path := match getArg a0 false false with
                      | Some (p, _) => Some p
                      | None => match a0 with VList l => joinComps l "" | _ => None end
                      end in
          match path with
          | None | Some ""%string => failO "path argument must be a non-empty string"
          | Some path =>
              match (match rest with a1 :: _ => getWriteOptions a1 (mkWO false false 493) true
                                   | [] => Some (mkWO false false 493) end) with
              | None => failO "cannot create directory"
              | Some w =>
                  ok <- ask (AMkdir (x_fs s) path (wo_perm w)) (fun t => out_mkdir O t (x_fs s) path (wo_perm w)) ;;
                  if ok then doneO (VStr path) else failO "cannot create directory"
              end
          end
    | [] => failO "mkdir requires one or two arguments"
    end.

(** env.go:17-25 getenv in the environment read at program start *)
Definition getenv (name : string) : option string :=
  match List.find (fun s => hasPrefix s (name +++ "=")) (out_environ O) with
  | Some s => Some (sdrop (S (String.length name)) s)
  | None => None
  end.
Definition simpleText (v : value) : option string :=
  match v with VStr s => Some s | VInt z => Some (itoa z) | VBool b => Some (btoa b) | _ => None end.
Fixpoint simpleTexts (l : list node) : option (list string) :=
  match l with
  | [] => Some []
  | n :: r => match simpleText (val n), simpleTexts r with Some a, Some b => Some (a :: b) | _, _ => None end
  end.
Fixpoint envArgs (args : list value) : option (list string) :=
  match args with
  | [] => Some []
  | VNil :: r => envArgs r
  | VList l :: r => match simpleTexts l, envArgs r with Some a, Some b => Some (a ++ b) | _, _ => None end
  | v :: r => match simpleText v, envArgs r with Some a, Some b => Some (a :: b) | _, _ => None end
  end.
Fixpoint askEnv (names : list string) : M (smap node) :=
  match names with
  | [] => ret []
  | n :: r => x <- ask (AEnv n) (fun _ => getenv n) ;;
              m <- askEnv r ;;
              ret (match x with Some s => mset n (dnode (VStr s) "") m | None => m end)
  end.
(** env.go:27-78 func_env *)
Definition func_env (args : list value) : M R :=
  match args with
  | [] => failI ST defaultInfo
  | _ => match envArgs args with
         | None => failO "env argument must be simple value or list"
         | Some [n] => x <- ask (AEnv n) (fun _ => getenv n) ;;
                       match x with Some s => doneO (VStr s) | None => failO "environment variable not set" end
         | Some names => m <- askEnv names ;; doneO (VMap m)
         end
  end.

(** call.go:208-248 and registry: the functions by name; None: none of them *)
Definition osFunction (flowT : node -> binding -> M (node * list unres))
    (name : string) (args : list value) (env : binding) : option (M R) :=
  if String.eqb name "exec" then Some (func_exec true args)
  else if String.eqb name "exec_uncached" then Some (func_exec false args)
  else if String.eqb name "pipe" then Some (func_pipe true args)
  else if String.eqb name "pipe_uncached" then Some (func_pipe false args)
  else if String.eqb name "env" then Some (func_env args)
  else if String.eqb name "read" then Some (func_read flowT true args env)
  else if String.eqb name "read_uncached" then Some (func_read flowT false args env)
  else if String.eqb name "write" then Some (func_write args)
  else if String.eqb name "lookup_file" then Some (func_lookup false args env)
  else if String.eqb name "lookup_dir" then Some (func_lookup true args env)
  else if String.eqb name "list_files" then Some (func_listFiles false args env)
  else if String.eqb name "list_dirs" then Some (func_listFiles true args env)
  else if String.eqb name "tempfile" then Some (func_tempfile args)
  else if String.eqb name "mkdir" then Some (func_mkdir args)
  else None.
End OS.
