(** Specification: how the texts and tokens of the model stand for the characters
    and tokens of the automata. *)
From Coq Require Import List ZArith String Ascii.
From Verif Require Import Atn Rdt Rdt_gen Spec_Rdt.
Import ListNotations.
Open Scope Z_scope.

(** A text as a list of character codes. *)
Definition codes (s : string) : list Z := map (fun c => Z.of_nat (nat_of_ascii c)) (list_ascii_of_string s).

(** The token types, /repo/rdt/rdt_parser.go:128-152. *)
Definition prim_type (p : prim) : Z :=
  match p with
  | PString => 7 | PInteger => 8 | PNumber => 9 | PBoolean => 10 | PDatetime => 11 | PTimeOnly => 12 | PDatetimeOnly => 13
  | PDateOnly => 14 | PFile => 15 | PNil => 16 | PAny => 17 | PArray => 18 | PObject => 19 | PUnion => 20
  end.
Definition tok_type (k : tok) : Z :=
  match k with
  | KLparen => 1 | KRparen => 2 | KPipe => 3 | KArray => 4 | KOpt => 5 | KDot => 6
  | KPrim p => prim_type p
  | KIdent _ => 21
  end.

(** A token as type and text. *)
Definition tok_code (k : tok) : Z * list Z := (tok_type k, codes (tok_text k)).

(** The parse tree of an expression. *)
Definition leaf (k : tok) : ptree := Leaf (tok_code k).
Fixpoint tree (e : expr) : ptree :=
  match e with
  | EType t => Node 1 [tree_typ t]
  | EUnion t1 t2 ts =>
      Node 1 [Node 6 (tree_typ t1 :: leaf KPipe :: tree_typ t2 :: flat_map (fun t => [leaf KPipe; tree_typ t]) ts)]
  end
with tree_typ (t : typ) : ptree :=
  match t with
  | TAtom a => Node 2 [tree_atom a]
  | TArray a => Node 2 [Node 5 [tree_atom a; leaf KArray]]
  | TOptional a => Node 2 [Node 4 [tree_atom a; leaf KOpt]]
  end
with tree_atom (a : atom) : ptree :=
  match a with
  | APrim p => Node 3 [leaf (KPrim p)]
  | AGroup e => Node 7 [leaf KLparen; tree e; leaf KRparen]
  | ARef s None => Node 8 [leaf (KIdent s)]
  | ARef s (Some t) => Node 8 [leaf (KIdent s); leaf KDot; leaf (KIdent t)]
  end.

(** A predictor never answers with a number that no alternative has. *)
Definition sane (A : atn) (pred : nat -> list nat -> list Z -> nat) : Prop :=
  forall d q st ts, nth_error (at_decisions A) d = Some q -> (pred d st ts <= List.length (out A q))%nat.

(** If some alternative of a decision leads to the end of the input, the
    predictor answers with one that does. *)
Definition viable (A : atn) (pred : nat -> list nat -> list Z -> nat) : Prop :=
  forall d q st ts, nth_error (at_decisions A) d = Some q ->
    (exists e, In e (out A q) /\ follows A (e_to e) st ts) ->
    exists i e, pred d st ts = S i /\ nth_error (out A q) i = Some e /\ follows A (e_to e) st ts.
