(** Property theorems about reading type expressions (C42). *)
From Coq Require Import List String Ascii Bool Arith.
From Verif Require Import Rdt Spec_Rdt Rdt_proofs.
Import ListNotations.
Open Scope string_scope.
Open Scope list_scope.
Open Scope nat_scope.

(** * C42 *)

(** The lexer returns the tokens that longest match with first rule on a tie
    gives, and fails when there are none. *)
Theorem C42_lexer : forall s l, lex s = Some l <-> lexes s l.
Proof. exact lex_iff. Qed.
Print Assumptions C42_lexer.

(** The parser accepts exactly the token lists that are the leaves of some
    tree, and returns that tree. *)
Theorem C42_parser : forall l e, parse l = Some e <-> leaves e = l.
Proof. exact parse_iff. Qed.
Print Assumptions C42_parser.

(** The grammar is unambiguous. *)
Theorem C42_unambiguous : forall e e', leaves e = leaves e' -> e = e'.
Proof. exact leaves_inj. Qed.
Print Assumptions C42_unambiguous.

(** From strings to trees. *)
Theorem C42_read : forall s e, read_type s = Some e <-> lexes s (leaves e).
Proof. exact read_iff. Qed.
Print Assumptions C42_read.

(** Printing a tree and reading it again gives the same tree, for all trees with
    proper names, and so for all trees that were read. *)
Theorem C42_print_read : forall e, Forall tok_ok (leaves e) -> read_type (print (leaves e)) = Some e.
Proof. exact read_print. Qed.
Print Assumptions C42_print_read.

Theorem C42_reread : forall s e, read_type s = Some e -> read_type (print (leaves e)) = Some e.
Proof. exact read_reprint. Qed.
Print Assumptions C42_reread.

Example C42_cases :
  read_type "(string | integer) | Ref[] | external.Ref?"
    = Some (EUnion (TAtom (AGroup (EUnion (TAtom (APrim PString)) (TAtom (APrim PInteger)) [])))
              (TArray (ARef "Ref" None)) [TOptional (ARef "external.Ref" None)])
  /\ read_type "date-only []" = Some (EType (TArray (APrim PDateOnly)))
  /\ read_type "date-time[]" = Some (EType (TArray (ARef "date-time" None)))
  /\ read_type "a . b" = Some (EType (TAtom (ARef "a" (Some "b"))))
  /\ read_type "stringx | string" = Some (EUnion (TAtom (ARef "stringx" None)) (TAtom (APrim PString)) [])
  /\ read_type "string[][]" = None /\ read_type "string |" = None /\ read_type "a[" = None
  /\ read_type "" = None /\ read_type "a, b" = None
  /\ print (leaves (EType (TArray (APrim PDateOnly)))) = "date-only [] ".
Proof. repeat split. Qed.
