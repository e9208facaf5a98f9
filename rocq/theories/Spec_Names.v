(** Specification vocabulary for names, references and heads (C20-C23, C50):
    independent of the functions in Names.v. *)
From Coq Require Import ZArith List String Bool Ascii.
From Verif Require Import Base Names.
Import ListNotations.
Open Scope string_scope.
Open Scope list_scope.

(** * Types inferred from facet names *)
Definition length_facets := ["minLength"; "maxLength"].
Definition string_facets := ["minLength"; "maxLength"; "pattern"].
Definition file_facets := ["minLength"; "maxLength"; "fileTypes"].
Definition number_facets := ["minimum"; "maximum"; "multipleOf"].
Definition array_facets := ["minItems"; "maxItems"; "uniqueItems"; "items"].
Definition object_facets :=
  ["minProperties"; "maxProperties"; "additionalProperties"; "properties"; "discriminator"].
Definition typed_facets :=
  string_facets ++ ["fileTypes"] ++ number_facets ++ array_facets ++ object_facets.

(** Some name of the list is among [l]. *)
Definition uses_some (names l : list string) : Prop := exists n, In n names /\ In n l.
(** Every name that says something about the type is among [l]. *)
Definition uses_only (names l : list string) : Prop :=
  forall n, In n names -> In n typed_facets -> In n l.

Definition inferred (names : list string) (t : string) : Prop :=
  (t = "string" /\ uses_only names string_facets)
  \/ (t = "file" /\ In "fileTypes" names /\ uses_only names file_facets)
  \/ (t = "number" /\ uses_some names number_facets /\ uses_only names number_facets)
  \/ (t = "array" /\ uses_some names array_facets /\ uses_only names array_facets)
  \/ (t = "object" /\ uses_some names object_facets /\ uses_only names object_facets).

(** * Property declarations *)
Definition slashed (s : string) : Prop := exists re, s = ("/" ++ re ++ "/")%string.

(** [declares compiles key required d]: the entry [key] with explicit
    [required] facet declares [d]. *)
Inductive declares (compiles : string -> bool) : string -> option bool -> declared -> Prop :=
| dec_plain : forall s, ~ (exists p, s = (p ++ "?")%string) -> ~ slashed s ->
    declares compiles s None (DProp s true)
| dec_optional : forall p, ~ slashed p ->
    declares compiles (p ++ "?")%string None (DProp p false)
| dec_explicit_plain : forall s r, ~ (exists p, s = (p ++ "?")%string) -> ~ slashed s ->
    declares compiles s (Some r) (DProp s r)
| dec_explicit_optional : forall p r, ~ slashed p ->
    declares compiles (p ++ "?")%string (Some r) (DProp (p ++ "?")%string r)
| dec_pattern : forall re, compiles re = true ->
    declares compiles ("/" ++ re ++ "/")%string None (DPattern ("/" ++ re ++ "/")%string re).

(** * References *)
Definition chars (s : string) : list ascii := list_ascii_of_string s.
Definition no_dot (s : string) : Prop := ~ In "."%char (chars s).

(** Every [uses] entry of the library is linked to a loaded library. *)
Definition linked (L : libs) (uses : omap (option nat)) : Prop :=
  forall k v, oget k uses = Some v -> exists a lib, v = Some a /\ nth_error L a = Some lib.

(** [name] denotes shape [a]: a local name, or [alias.T] with [T] dot-free
    and no local type of that full name. *)
Inductive denotes (sel : library -> omap nat) (L : libs) (l : library) : string -> nat -> Prop :=
| den_local : forall name a, oget name (sel l) = Some a -> denotes sel L l name a
| den_external : forall alias T la lib a,
    no_dot T -> oget (alias ++ "." ++ T)%string (sel l) = None ->
    oget alias (l_uses l) = Some (Some la) -> nth_error L la = Some lib -> oget T (sel lib) = Some a ->
    denotes sel L l (alias ++ "." ++ T)%string a.

(** * Heads *)
Definition newline : ascii := "010"%char.
Definition trailing (c : ascii) : Prop := c = "013"%char \/ c = newline \/ c = " "%char.

(** [h] is the first line of [data] without trailing CR, LF and spaces. *)
Definition first_line (data h : string) : Prop :=
  exists line rest trail,
    data = (line ++ String newline rest)%string /\ ~ In newline (chars line)
    /\ (line ++ String newline "")%string = (h ++ trail)%string
    /\ Forall trailing (chars trail)
    /\ (forall h' c, h = (h' ++ String c "")%string -> ~ trailing c).

Definition header (k : kind) : option string :=
  match k with
  | KLibrary => Some "#%RAML 1.0 Library"
  | KDataType => Some "#%RAML 1.0 DataType"
  | KNamedExample => Some "#%RAML 1.0 NamedExample"
  | KUnknown => None
  end.
