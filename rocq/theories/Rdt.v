(** Type expressions: the lexer and the parser of /repo/rdt. No proofs here.

    The Go files /repo/rdt/rdt_lexer.go and rdt_parser.go are generated by ANTLR
    from rdtLexer.g4 and rdtParser.g4. This file models the grammar: the lexer
    does what the lexer rules say (longest match, first rule on a tie), the
    parser is the recursive descent the parser rules describe. The serialized
    automata are in Atn.v, the generated parser functions in Rdt_gen.v; that they
    agree with this file is proved in Props_Atn.v. A lexer or parser error reaches
    the error listener and makes resolveShape fail (/repo/resolve.go:176-195);
    error recovery is therefore irrelevant and left out. *)
From Coq Require Import List String Ascii Bool Arith.
Import ListNotations.
Open Scope string_scope.
Open Scope list_scope.
Open Scope nat_scope.

(** The keyword tokens, /repo/rdt/rdtLexer.g4:12-25. *)
Inductive prim : Type :=
| PString | PInteger | PNumber | PBoolean | PDatetime | PTimeOnly | PDatetimeOnly
| PDateOnly | PFile | PNil | PAny | PArray | PObject | PUnion.

(** Their texts (same lines). *)
Definition prim_text (p : prim) : string :=
  match p with
  | PString => "string" | PInteger => "integer" | PNumber => "number" | PBoolean => "boolean"
  | PDatetime => "datetime" | PTimeOnly => "time-only" | PDatetimeOnly => "datetime-only"
  | PDateOnly => "date-only" | PFile => "file" | PNil => "nil" | PAny => "any"
  | PArray => "array" | PObject => "object" | PUnion => "union"
  end.

(** All keywords in the order of the rules (same lines). *)
Definition prims : list prim :=
  [PString; PInteger; PNumber; PBoolean; PDatetime; PTimeOnly; PDatetimeOnly; PDateOnly; PFile;
   PNil; PAny; PArray; PObject; PUnion].

(** Tokens of the default channel, /repo/rdt/rdtLexer.g4:4-28. White space goes
    to the hidden channel (30) and never reaches the parser, so the [WS*] of the
    parser rules match nothing. *)
Inductive tok : Type :=
| KLparen | KRparen | KPipe | KArray | KOpt | KDot
| KPrim (p : prim)
| KIdent (s : string).

(** The characters of IDENTIFIER, /repo/rdt/rdtLexer.g4:28. *)
Definition id_char (c : ascii) : bool :=
  let n := nat_of_ascii c in
  (Nat.leb 48 n && Nat.leb n 57) || (Nat.leb 97 n && Nat.leb n 122) || (Nat.leb 65 n && Nat.leb n 90)
  || Ascii.eqb c "_" || Ascii.eqb c "-" || Ascii.eqb c ".".

(** White space, /repo/rdt/rdtLexer.g4:30. *)
Definition ws_char (c : ascii) : bool := Ascii.eqb c " " || Ascii.eqb c "009".

(** The token for a maximal run of identifier characters: DOT and the keywords
    come before IDENTIFIER (/repo/rdt/rdtLexer.g4:9,12-25,28). *)
Definition word (w : string) : tok :=
  if String.eqb w "." then KDot
  else match find (fun p => String.eqb w (prim_text p)) prims with
       | Some p => KPrim p
       | None => KIdent w
       end.

(** Ends the run of identifier characters read so far, [w]
    (/repo/rdt/rdtLexer.g4:28). *)
Definition flush (w : string) (l : list tok) : list tok :=
  if String.eqb w "" then l else word w :: l.

(** The lexer, /repo/rdt/rdtLexer.g4; [w] is the run of identifier characters
    read so far. [None] is a token recognition error. *)
Fixpoint lex_from (w : string) (s : string) : option (list tok) :=
  match s with
  | EmptyString => Some (flush w [])
  | String c r =>
      if id_char c then lex_from (w ++ String c EmptyString)%string r
      else if ws_char c then option_map (flush w) (lex_from "" r)
      else if Ascii.eqb c "(" then option_map (fun l => flush w (KLparen :: l)) (lex_from "" r)
      else if Ascii.eqb c ")" then option_map (fun l => flush w (KRparen :: l)) (lex_from "" r)
      else if Ascii.eqb c "|" then option_map (fun l => flush w (KPipe :: l)) (lex_from "" r)
      else if Ascii.eqb c "?" then option_map (fun l => flush w (KOpt :: l)) (lex_from "" r)
      else if Ascii.eqb c "[" then
        match r with
        | String d r' =>
            if Ascii.eqb d "]" then option_map (fun l => flush w (KArray :: l)) (lex_from "" r')
            else None
        | EmptyString => None
        end
      else None
  end.

(** The lexer from the start (/repo/resolve.go:171-180). *)
Definition lex (s : string) : option (list tok) := lex_from "" s.

(** * Parse trees *)

(** Nodes of the parse tree, /repo/rdt/rdtParser.g4: [expression] 9, [type] 11,
    [primitive] 13-27, [optional] 29, [array] 31, [union] 33, [group] 35,
    [reference] 37. A union has at least two members. The choice of [type] and
    that of the operand of [optional] and [array] are merged: [typ] says which
    of them is around an [atom]. *)
Inductive expr : Type :=
| EType (t : typ)
| EUnion (t1 t2 : typ) (ts : list typ)
with typ : Type :=
| TAtom (a : atom)
| TArray (a : atom)
| TOptional (a : atom)
with atom : Type :=
| APrim (p : prim)
| AGroup (e : expr)
| ARef (s : string) (o : option string).

(** * Parser *)

Section Parser.
Variable rec : list tok -> option (expr * list tok).

(** primitive, group and reference, /repo/rdt/rdtParser.g4:13-27,35,37. *)
Definition parse_atom (l : list tok) : option (atom * list tok) :=
  match l with
  | KPrim p :: r => Some (APrim p, r)
  | KIdent s :: KDot :: KIdent t :: r => Some (ARef s (Some t), r)
  | KIdent s :: r => Some (ARef s None, r)
  | KLparen :: r =>
      match rec r with
      | Some (e, KRparen :: r') => Some (AGroup e, r')
      | _ => None
      end
  | _ => None
  end.

(** type, /repo/rdt/rdtParser.g4:11,29,31. *)
Definition parse_type (l : list tok) : option (typ * list tok) :=
  match parse_atom l with
  | Some (a, KArray :: r) => Some (TArray a, r)
  | Some (a, KOpt :: r) => Some (TOptional a, r)
  | Some (a, r) => Some (TAtom a, r)
  | None => None
  end.

(** The repetition of union, /repo/rdt/rdtParser.g4:33. *)
Fixpoint parse_members (n : nat) (l : list tok) : option (list typ * list tok) :=
  match n, l with
  | S n', KPipe :: r =>
      match parse_type r with
      | Some (t, r') =>
          match parse_members n' r' with
          | Some (ts, r'') => Some (t :: ts, r'')
          | None => None
          end
      | None => None
      end
  | O, KPipe :: _ => None
  | _, _ => Some ([], l)
  end.
End Parser.

(** expression, /repo/rdt/rdtParser.g4:9. *)
Fixpoint parse_expr (n : nat) (l : list tok) : option (expr * list tok) :=
  match n with
  | O => None
  | S n' =>
      match parse_type (parse_expr n') l with
      | Some (t, r) =>
          match parse_members (parse_expr n') n' r with
          | Some ([], r') => Some (EType t, r')
          | Some (t2 :: ts, r') => Some (EUnion t t2 ts, r')
          | None => None
          end
      | None => None
      end
  end.

(** entrypoint, /repo/rdt/rdtParser.g4:7. *)
Definition parse (l : list tok) : option expr :=
  match parse_expr (S (List.length l)) l with
  | Some (e, []) => Some e
  | _ => None
  end.

(** Lexing and parsing of a type expression, /repo/resolve.go:171-195. *)
Definition read_type (s : string) : option expr :=
  match lex s with Some l => parse l | None => None end.
