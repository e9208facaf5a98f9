(** Model of the treatment of YAML type errors, /repo/stacktrace.go:33-64. *)
From Coq Require Import List String Bool.
From Verif Require Import Base.
Import ListNotations.
Open Scope string_scope.
Open Scope list_scope.

(** Error values as far as [errors.As], [errors.Unwrap] and Error() see them
    (/repo/stacktrace.go:37, 40, 46): a *yaml.TypeError with its messages, an
    error that wraps another one, any other error. Simplified: no error joins
    several others and none has an As method of its own. The text of a wrapping
    error is arbitrary. *)
Inductive error : Type :=
| Plain (text : string)
| TypeError (msgs : list string)
| Wrapping (text : string) (inner : error).

(** [strings.Join] (/repo/stacktrace.go:61; yaml.v3 for Error of a TypeError). *)
Definition join_with (sep : string) (l : list string) : string :=
  match l with
  | [] => ""
  | x :: l' => x ++ fold_right (fun y acc => sep ++ y ++ acc) "" l'
  end%string.

(** The character 10, for the message of a *yaml.TypeError
    (/repo/stacktrace.go:46 calls its Error method). *)
Definition newline : string := String (Ascii.ascii_of_nat 10) "".

(** Error() of an error (/repo/stacktrace.go:46). *)
Definition error_text (e : error) : string :=
  match e with
  | Plain t => t
  | TypeError l => ("yaml: unmarshal errors:" ++ newline ++ "  " ++ join_with (newline ++ "  ") l)%string
  | Wrapping t _ => t
  end.

(** [errors.As(err, &yamlError)], /repo/stacktrace.go:37: the first
    *yaml.TypeError of the chain. *)
Fixpoint as_type_error (e : error) : option (list string) :=
  match e with
  | Plain _ => None
  | TypeError l => Some l
  | Wrapping _ i => as_type_error i
  end.

(** [strings.TrimSuffix(s, ": ")] after [strings.ReplaceAll], /repo/stacktrace.go:46-47;
    an argument of the model: nothing depends on it. *)
Definition trimmer : Type := string -> string -> string.

(** GetYamlError, /repo/stacktrace.go:35-53. [trim (text of err) (text of the
    type error)] is the message inserted at 49. The Go code changes the
    messages in the *yaml.TypeError itself, here the changed messages are the
    result. *)
Fixpoint get_yaml_error (trim : trimmer) (e : error) : option (list string) :=
  match as_type_error e with
  | Some l => Some l
  | None =>
      match e with
      | Wrapping t i =>
          match get_yaml_error trim i with
          | Some l => Some (trim t (error_text (TypeError l)) :: l)
          | None => None
          end
      | _ => None
      end
  end.

(** FixYamlError, /repo/stacktrace.go:56-64; [None] is a nil error. *)
Definition fix_yaml_error (trim : trimmer) (e : option error) : option error :=
  match e with
  | None => None
  | Some e =>
      match get_yaml_error trim e with
      | Some l => Some (Plain (join_with ": " l))
      | None => Some e
      end
  end.
