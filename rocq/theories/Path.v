(** Model of the paths under which fragments are opened and cached, on Unix:
    what ParseFromPath and ParseFromString make of their arguments and what
    [uses] and [!include] make of a location, with the functions of Go's
    path/filepath that they call. The separator is [/]; volume names and other
    separators (Windows) are not modelled. *)
From Coq Require Import List String Bool Ascii.
From Verif Require Import Base Scalars Heap Names Yaml Pipeline Decode Parse.
Import ListNotations.
Open Scope string_scope.
Open Scope list_scope.

(** The separator, [os.PathSeparator] on Unix, of the paths at
    /repo/parse.go:172, 339. *)
Definition slash : ascii := "/"%char.

(** filepath.IsAbs on Unix: the path starts with the separator. Called at
    /repo/parse.go:167, 440. *)
Definition is_abs (p : string) : bool :=
  match p with String c _ => Ascii.eqb c slash | EmptyString => false end.

(** The elements of a path: what is between separators. Clean (below) goes
    through them from left to right. *)
Fixpoint elements (p : string) : list string :=
  match p with
  | EmptyString => [""]
  | String c p' =>
      if Ascii.eqb c slash then "" :: elements p'
      else match elements p' with e :: l => String c e :: l | [] => [String c ""] end
  end.

(** One step of the loop of filepath.Clean. [out]: the elements kept so far,
    the last one first. Empty elements and [.] are dropped; [..] removes the
    element before it, is dropped at the root, and is kept at the beginning of
    a relative path. *)
Definition clean_step (rooted : bool) (out : list string) (e : string) : list string :=
  if String.eqb e "" || String.eqb e "." then out
  else if String.eqb e ".." then
    match out with
    | x :: out' => if String.eqb x ".." then ".." :: out else out'
    | [] => if rooted then [] else [".."]
    end
  else e :: out.

(** Elements joined by separators, as Clean writes them out. *)
Fixpoint slashed (l : list string) : string :=
  match l with
  | [] => ""
  | [e] => e
  | e :: l' => (e ++ String slash (slashed l'))%string
  end.

(** filepath.Clean on Unix. It is called by Join and Dir only. *)
Definition clean (p : string) : string :=
  let rooted := is_abs p in
  let out := slashed (rev (fold_left (clean_step rooted) (elements p) [])) in
  if rooted then String slash out else if String.eqb out "" then "." else out.

(** filepath.Join of two elements on Unix: empty ones at the beginning are
    ignored, the rest is joined and cleaned. Called at /repo/parse.go:172, 339
    and, with Dir, at /repo/parse.go:88-91, 195-199; /repo/shape.go:674-675,
    777-778; /repo/node.go:43-44, 145-148. *)
Definition join (a b : string) : string :=
  if String.eqb a "" then (if String.eqb b "" then "" else clean b)
  else clean (a ++ String slash b)%string.

(** Everything up to and with the last separator, the first step of Dir. *)
Fixpoint up_to_slash (p : string) : string :=
  match p with
  | EmptyString => ""
  | String c p' =>
      match up_to_slash p' with
      | EmptyString => if Ascii.eqb c slash then String c "" else ""
      | q => String c q
      end
  end.

(** filepath.Dir on Unix. Called at /repo/parse.go:88, 195; /repo/shape.go:674,
    777; /repo/node.go:43, 145. *)
Definition dir (p : string) : string := clean (up_to_slash p).

(** [filepath.Join(filepath.Dir(location), value)], how the path of a used or
    included file comes about everywhere: /repo/parse.go:88-91, 195-199;
    /repo/shape.go:674-675, 777-778; /repo/node.go:43-44, 145-148. *)
Definition resolve_path (location value : string) : string := join (dir location) value.

(** openFragmentFile, /repo/parse.go:164-179: the name under which the file is
    opened, which is what [f.Name()] gives (326). [workdir]: os.Getwd. *)
Definition file_name (workdir path : string) : string :=
  if is_abs path then path else join workdir path.

(** The location of a text, /repo/parse.go:339. *)
Definition string_name (base_dir name : string) : string := join base_dir name.

(** OptWithUnwrap and OptWithValidate, /repo/parse.go:456-475. *)
Inductive parse_opt := WithUnwrap | WithValidate.

(** parserOptions, /repo/parse.go:447-450: unwrap, validate. *)
Definition options : Type := bool * bool.

(** The Apply methods, /repo/parse.go:458-460, 468-470. *)
Definition apply_opt (o : options) (x : parse_opt) : options :=
  match x with WithUnwrap => (true, snd o) | WithValidate => (fst o, true) end.

(** The loops over the options, /repo/parse.go:309-312, 331-334. *)
Definition apply_opts (l : list parse_opt) : options := fold_left apply_opt l (false, false).

(** ParseFromPath, /repo/parse.go:305-328 and 413-425, on a new RAML object; a
    file that can not be opened is an error. The name that is opened stands for
    the file in [e_read]. *)
Definition parse_from_path (E : denv) (n : nat) (O : oracle) (o1 o2 o3 : list string) (workdir path : string)
    (opts : list parse_opt) : res entry_point * pst :=
  let name := file_name workdir path in
  match e_read (d_y E) name with
  | Some text => parse_string E n O o1 o2 o3 (fst (apply_opts opts)) (snd (apply_opts opts)) text name
  | None => (Err, new_raml)
  end.

(** The method ParseFromString and ParseFromStringCtx, /repo/parse.go:330-340,
    427-437, on a new RAML object. *)
Definition parse_from_string_ctx (E : denv) (n : nat) (O : oracle) (o1 o2 o3 : list string) (text name base_dir : string)
    (opts : list parse_opt) : res entry_point * pst :=
  parse_string E n O o1 o2 o3 (fst (apply_opts opts)) (snd (apply_opts opts)) text (string_name base_dir name).

(** The function ParseFromString, /repo/parse.go:438-445, which refuses a relative
    directory. It returns no RAML object then; here it is the new one. *)
Definition parse_from_string (E : denv) (n : nat) (O : oracle) (o1 o2 o3 : list string) (text name base_dir : string)
    (opts : list parse_opt) : res entry_point * pst :=
  if is_abs base_dir then parse_from_string_ctx E n O o1 o2 o3 text name base_dir opts else (Err, new_raml).
