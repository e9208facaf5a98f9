(** Model of the small string-level functions: type inference from facet
    names, property names, reference names and lookup, fragment heads, and the
    command line driver. No proofs here. *)
From Coq Require Import ZArith List String Bool Ascii.
From Verif Require Import Base.
Import ListNotations.
Open Scope string_scope.
Open Scope list_scope.
Open Scope nat_scope.

(** * identifyShapeType *)

(** The inner switch on a facet name, /repo/shape.go:479-500: the type it
    speaks for ([ft]) and whether it is a [pattern]. Facet names are those of
    /repo/consts.go:62-92. *)
Definition facet_type (name : string) : option (string * bool) :=
  if existsb (String.eqb name) ["minLength"; "maxLength"] then Some ("string", false)
  else if String.eqb name "pattern" then Some ("string", true)
  else if existsb (String.eqb name) ["minimum"; "maximum"; "multipleOf"] then Some ("number", false)
  else if existsb (String.eqb name) ["minItems"; "maxItems"; "uniqueItems"; "items"] then Some ("array", false)
  else if existsb (String.eqb name)
            ["minProperties"; "maxProperties"; "additionalProperties"; "properties"; "discriminator"]
       then Some ("object", false)
  else if String.eqb name "fileTypes" then Some ("file", false)
  else None.

(** The loop of /repo/shape.go:475-517; [t] is the type found so far (empty
    for none), [so] the flag [stringOnly]. The list of key/value nodes is
    reduced to the key names (values are not looked at). *)
Fixpoint identify_loop (t : string) (so : bool) (names : list string) : res string :=
  match names with
  | [] => Ok t
  | name :: rest =>
      match facet_type name with
      | None => identify_loop t so rest
      | Some (ft, pat) =>
          let so := so || pat in
          let '(t, ft) :=
            if String.eqb t "string" then
              if String.eqb ft "file" && negb so then ("file", "file") else (t, ft)
            else if String.eqb t "file" then
              if String.eqb ft "string" && negb so then ("file", "file") else (t, ft)
            else (t, ft) in
          if negb (String.eqb t "") && negb (String.eqb ft t) then Err
          else identify_loop ft so rest
      end
  end.

(** identifyShapeType, /repo/shape.go:472-522. *)
Definition identify_type (names : list string) : res string :=
  match identify_loop "" false names with
  | Ok t => Ok (if String.eqb t "" then "string" else t)
  | r => r
  end.

(** * Property declarations *)

(** Last byte of a string, [s[len(s)-1]] (/repo/complex.go:742). *)
Fixpoint last_byte (s : string) : option ascii :=
  match s with
  | EmptyString => None
  | String c EmptyString => Some c
  | String _ s' => last_byte s'
  end.

(** [s[:len(s)-1]] (/repo/complex.go:743). *)
Definition but_last (s : string) : string := String.substring 0 (String.length s - 1) s.

(** chompImplicitOptional, /repo/complex.go:740-746. *)
Definition chomp_optional (s : string) : string * bool :=
  match last_byte s with
  | Some c => if Ascii.eqb c "?"%char then (but_last s, true) else (s, false)
  | None => (s, false)
  end.

(** What one entry of a [properties] facet declares. *)
Inductive declared : Type :=
| DProp (name : string) (required : bool)
| DPattern (key : string) (regexp : string).

(** The test for a pattern property, /repo/complex.go:260. *)
Definition is_pattern_name (s : string) : bool :=
  Nat.ltb 1 (String.length s)
  && match s with String c _ => Ascii.eqb c "/"%char | _ => false end
  && match last_byte s with Some c => Ascii.eqb c "/"%char | None => false end.

(** makeProperty, /repo/complex.go:749-776, given the explicit [required]
    facet of the property's shape; building the shape itself
    (makeNewShapeYAML) is left out. *)
Definition make_property (node prop : string) (opt : bool) (req : option bool) : declared :=
  match req with
  | None => DProp prop (negb opt)
  | Some r => DProp (if opt then node else prop) r
  end.

(** makePatternProperty, /repo/complex.go:717-738; [compiles] stands for
    [regexp.Compile] succeeding. *)
Definition make_pattern_property (compiles : string -> bool) (prop : string) (opt : bool)
    (req : option bool) : res declared :=
  match req, opt with
  | None, false =>
      let re := String.substring 1 (String.length prop - 2) prop in
      if compiles re then Ok (DPattern prop re) else Err
  | _, _ => Err
  end.

(** unmarshalProperty, /repo/complex.go:258-273. *)
Definition declare_property (compiles : string -> bool) (node : string) (req : option bool) : res declared :=
  let '(prop, opt) := chomp_optional node in
  if is_pattern_name prop then make_pattern_property compiles prop opt req
  else Ok (make_property node prop opt req).

(** * References *)

(** [strings.LastIndex], used by CutLast at /repo/common.go:10. *)
Fixpoint last_index (sep s : string) : option nat :=
  match s with
  | EmptyString => if String.eqb sep "" then Some 0 else None
  | String _ s' =>
      match last_index sep s' with
      | Some i => Some (S i)
      | None => if String.prefix sep s then Some 0 else None
      end
  end.

(** CutLast, /repo/common.go:9-15. *)
Definition cut_last (s sep : string) : string * string * bool :=
  match last_index sep s with
  | None => (s, "", false)
  | Some i =>
      (String.substring 0 i s,
       String.substring (i + String.length sep) (String.length s - (i + String.length sep)) s, true)
  end.

(** CutReferenceName, /repo/fragment.go:22-26. *)
Definition cut_reference (s : string) : string * string * bool := cut_last s ".".

(** The part of a Library that lookups read, /repo/fragment.go:46-60: types
    and annotation types by name (values are shape addresses) and the uses
    map to linked libraries; a nil [Link] is [None]. *)
Record library := Lib {
  l_types : omap nat;
  l_annots : omap nat;
  l_uses : omap (option nat)
}.

(** Libraries by address; cyclic [uses] are possible. *)
Definition libs := list library.

(** The lookup shared by Library.GetReferenceType, /repo/fragment.go:63-93,
    and GetReferenceAnnotationType, 97-127; [sel] selects the map. *)
Definition lib_reference (sel : library -> omap nat) (L : libs) (l : library) (name : string) : res nat :=
  let '(before, after, found) := cut_reference name in
  if negb found then
    match oget name (sel l) with Some a => Ok a | None => Err end
  else
    match oget name (sel l) with
    | Some a => Ok a
    | None =>
        match oget before (l_uses l) with
        | None => Err
        | Some link =>
            match link with
            | None => Panic
            | Some la =>
                match nth_error L la with
                | None => Panic
                | Some lib => match oget after (sel lib) with Some a => Ok a | None => Err end
                end
            end
        end
    end.

(** Library.GetReferenceType, /repo/fragment.go:63-93. *)
Definition lib_ref_type := lib_reference l_types.

(** Library.GetReferenceAnnotationType, /repo/fragment.go:97-127. *)
Definition lib_ref_annot := lib_reference l_annots.

(** DataType.GetReferenceType, /repo/fragment.go:281-302, and
    GetReferenceAnnotationType, 304-323; [uses] is the data type's own map. *)
Definition dt_reference (sel : library -> omap nat) (L : libs) (uses : omap (option nat)) (name : string) : res nat :=
  let '(before, after, found) := cut_reference name in
  if negb found then Err
  else
    match oget before uses with
    | None => Err
    | Some None => Panic
    | Some (Some la) =>
        match nth_error L la with
        | None => Panic
        | Some lib => match oget after (sel lib) with Some a => Ok a | None => Err end
        end
    end.

(** * Fragment heads *)

(** Fragment kinds, /repo/fragment.go:12-19. *)
Inductive kind := KUnknown | KLibrary | KDataType | KNamedExample.

(** [r.ReadString('\n')] of bufio, /repo/parse.go:21: the bytes up to and
    including the first newline; [None] when there is none (io.EOF). *)
Fixpoint read_line (s : string) : option string :=
  match s with
  | EmptyString => None
  | String c s' =>
      if Ascii.eqb c "010"%char then Some (String c EmptyString)
      else match read_line s' with Some l => Some (String c l) | None => None end
  end.

(** Cutset of [strings.TrimRight(head, "\r\n ")], /repo/parse.go:31. *)
Definition is_trail (c : ascii) : bool :=
  Ascii.eqb c "013"%char || Ascii.eqb c "010"%char || Ascii.eqb c " "%char.

(** [strings.TrimRight(head, "\r\n ")], /repo/parse.go:31. *)
Fixpoint trim_right (s : string) : string :=
  match s with
  | EmptyString => EmptyString
  | String c s' =>
      match trim_right s' with
      | EmptyString => if is_trail c then EmptyString else String c EmptyString
      | t => String c t
      end
  end.

(** A reader: contents and current offset (io.ReadSeeker at /repo/parse.go:19). *)
Record reader := Rd { rd_data : string; rd_pos : nat }.

(** ReadHead, /repo/parse.go:19-33: result and reader afterwards. When the
    line is not terminated bufio has consumed everything and nothing is
    sought back. Seek itself never fails here. *)
Definition read_head (r : reader) : res string * reader :=
  let rest := String.substring (rd_pos r) (String.length (rd_data r) - rd_pos r) (rd_data r) in
  match read_line rest with
  | None => (Err, Rd (rd_data r) (String.length (rd_data r)))
  | Some l => (Ok (trim_right l), Rd (rd_data r) 0)
  end.

(** IdentifyFragment, /repo/parse.go:36-47. *)
Definition identify_fragment (head : string) : res kind :=
  if String.eqb head "#%RAML 1.0 Library" then Ok KLibrary
  else if String.eqb head "#%RAML 1.0 DataType" then Ok KDataType
  else if String.eqb head "#%RAML 1.0 NamedExample" then Ok KNamedExample
  else Err.

(** [frag != kind] at /repo/parse.go:115. *)
Definition kind_eqb (a b : kind) : bool :=
  match a, b with
  | KUnknown, KUnknown | KLibrary, KLibrary | KDataType, KDataType | KNamedExample, KNamedExample => true
  | _, _ => false
  end.

(** [strings.HasSuffix], /repo/parse.go:104. *)
Definition has_suffix (suf s : string) : bool :=
  Nat.leb (String.length suf) (String.length s)
  && String.eqb (String.substring (String.length s - String.length suf) (String.length suf) s) suf.

(** CheckFragmentKind, /repo/parse.go:102-119. *)
Definition check_kind (name : string) (r : reader) (k : kind) : res unit * reader :=
  if kind_eqb k KDataType && has_suffix ".json" name then (Ok tt, r)
  else
    match read_head r with
    | (Ok head, r') =>
        match identify_fragment head with
        | Ok k' => if kind_eqb k' k then (Ok tt, r') else (Err, r')
        | _ => (Err, r')
        end
    | (_, r') => (Err, r')
    end.

(** * Command line *)

(** ValidateCommand.Execute, /repo/cmd/raml/validate.go:29-48: [parse] is
    the outcome of ParseFromPathCtx on a file ([true] for a nil error);
    logging is left out. The result is the final value of [err]: [true] for
    nil. *)
Fixpoint cli_loop (parse : string -> bool) (err : bool) (args : list string) : bool :=
  match args with
  | [] => err
  | a :: rest => cli_loop parse (parse a) rest
  end.

(** Exit status of [raml validate args...]: Execute above,
    InitLoggingAndRun and mainFn, /repo/cmd/raml/raml.go:29-111 (NewCommandError,
    cobra.MinimumNArgs(1), return 1 on any error). *)
Definition cli_exit (parse : string -> bool) (args : list string) : Z :=
  match args with
  | [] => 1%Z
  | _ => if cli_loop parse true args then 0%Z else 1%Z
  end.
