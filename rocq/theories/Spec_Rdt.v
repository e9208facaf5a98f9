(** Specification of type expressions, after /repo/rdt/rdtLexer.g4 and
    rdtParser.g4. It uses the token and tree types only. *)
From Coq Require Import List String Ascii Bool Arith.
From Verif Require Import Rdt.
Import ListNotations.
Open Scope string_scope.
Open Scope list_scope.
Open Scope nat_scope.

(** * Tokens *)

Fixpoint all_chars (P : ascii -> Prop) (s : string) : Prop :=
  match s with EmptyString => True | String c r => P c /\ all_chars P r end.

(** The character class of IDENTIFIER. *)
Definition identifier_char (c : ascii) : Prop :=
  (48 <= nat_of_ascii c <= 57) \/ (97 <= nat_of_ascii c <= 122) \/ (65 <= nat_of_ascii c <= 90)
  \/ c = "_"%char \/ c = "-"%char \/ c = "."%char.

(** Which rule matches which text. *)
Inductive rule : tok -> string -> Prop :=
| r_lparen : rule KLparen "("
| r_rparen : rule KRparen ")"
| r_pipe : rule KPipe "|"
| r_array : rule KArray "[]"
| r_opt : rule KOpt "?"
| r_dot : rule KDot "."
| r_string : rule (KPrim PString) "string"
| r_integer : rule (KPrim PInteger) "integer"
| r_number : rule (KPrim PNumber) "number"
| r_boolean : rule (KPrim PBoolean) "boolean"
| r_datetime : rule (KPrim PDatetime) "datetime"
| r_time_only : rule (KPrim PTimeOnly) "time-only"
| r_datetime_only : rule (KPrim PDatetimeOnly) "datetime-only"
| r_date_only : rule (KPrim PDateOnly) "date-only"
| r_file : rule (KPrim PFile) "file"
| r_nil : rule (KPrim PNil) "nil"
| r_any : rule (KPrim PAny) "any"
| r_array_type : rule (KPrim PArray) "array"
| r_object : rule (KPrim PObject) "object"
| r_union : rule (KPrim PUnion) "union"
| r_ident s : s <> "" -> all_chars identifier_char s -> rule (KIdent s) s.

(** IDENTIFIER is the last rule. *)
Definition earlier (k k' : tok) : Prop :=
  match k, k' with KIdent _, _ => False | _, KIdent _ => True | _, _ => False end.

(** Longest match, first rule on a tie; white space is dropped. *)
Inductive lexes : string -> list tok -> Prop :=
| lx_end : lexes "" []
| lx_space s l : lexes s l -> lexes (String " " s) l
| lx_tab s l : lexes s l -> lexes (String "009" s) l
| lx_tok k t s l : rule k t ->
    (forall k' t' s', rule k' t' -> (t ++ s)%string = (t' ++ s')%string -> String.length t' <= String.length t) ->
    (forall k', rule k' t -> ~ earlier k' k) ->
    lexes s l -> lexes (t ++ s)%string (k :: l).

(** * Grammar: the tokens under a tree *)

Fixpoint leaves (e : expr) : list tok :=
  match e with
  | EType t => leaves_typ t
  | EUnion t1 t2 ts =>
      leaves_typ t1 ++ KPipe :: leaves_typ t2 ++ flat_map (fun t => KPipe :: leaves_typ t) ts
  end
with leaves_typ (t : typ) : list tok :=
  match t with
  | TAtom a => leaves_atom a
  | TArray a => leaves_atom a ++ [KArray]
  | TOptional a => leaves_atom a ++ [KOpt]
  end
with leaves_atom (a : atom) : list tok :=
  match a with
  | APrim p => [KPrim p]
  | AGroup e => KLparen :: leaves e ++ [KRparen]
  | ARef s None => [KIdent s]
  | ARef s (Some t) => [KIdent s; KDot; KIdent t]
  end.

(** * Printing *)

Definition tok_text (k : tok) : string :=
  match k with
  | KLparen => "(" | KRparen => ")" | KPipe => "|" | KArray => "[]" | KOpt => "?" | KDot => "."
  | KPrim p => prim_text p
  | KIdent s => s
  end.

(** Every token followed by a space. *)
Fixpoint print (l : list tok) : string :=
  match l with
  | [] => ""
  | k :: r => (tok_text k ++ String " " (print r))%string
  end.

(** A text that the lexer calls an identifier. *)
Definition name_ok (s : string) : Prop :=
  s <> "" /\ all_chars identifier_char s /\ s <> "." /\ forall p, s <> prim_text p.

Definition tok_ok (k : tok) : Prop := match k with KIdent s => name_ok s | _ => True end.
