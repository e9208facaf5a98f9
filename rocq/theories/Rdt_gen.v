(** The generated parser, /repo/rdt/rdt_parser.go, function by function. No
    proofs here.

    Tokens are what the lexer makes: type and text. [pred d st ts] stands for
    AdaptivePredict of the ANTLR runtime at decision [d], where [st] are the
    states in which the calling rules go on and [ts] the types of the tokens to
    come, with -1 (EOF) at the end; 0 is ATNInvalidAltNumber, which comes with an
    error. Any error reaches the error listener and makes the caller fail
    (/repo/resolve.go:193-195), so the first one ends the model ([Bad]); recovery
    after it is left out. Sync only reports an error where no token that can
    follow is next; it is left out, the error comes when that token is read. *)
From Coq Require Import List ZArith Bool.
Import ListNotations.
Open Scope list_scope.
Open Scope Z_scope.

(** A token, type and text (/repo/rdt/rdt_parser.go:128-152). *)
Definition token : Type := (Z * list Z)%type.

(** A parse tree: a rule with its children (the rules of
    /repo/rdt/rdt_parser.go:155-165) or a token. *)
Inductive ptree : Type :=
| Node (rule : nat) (kids : list ptree)
| Leaf (t : token).

(** What a function of the parser comes to: a value and the rest of the tokens,
    a syntax error, or the fuel was used up (the last only in the model). *)
Inductive res (A : Type) : Type :=
| Ok (a : A) (rest : list token)
| Bad
| Fuel.
Arguments Ok {A}. Arguments Bad {A}. Arguments Fuel {A}.

(** One step after another (the HasError tests of /repo/rdt/rdt_parser.go). *)
Definition rthen {A B} (m : res A) (k : A -> list token -> res B) : res B :=
  match m with Ok a r => k a r | Bad => Bad | Fuel => Fuel end.

(** GetTokenStream().LA(1), e.g. /repo/rdt/rdt_parser.go:771. *)
Definition la (l : list token) : Z := match l with (k, _) :: _ => k | [] => -1 end.

(** The end of the input as a token (/repo/rdt/rdt_parser.go:129). *)
Definition eof : token := (-1, []).

(** p.Match, e.g. /repo/rdt/rdt_parser.go:262. The token of EOF is not taken
    away. *)
Definition match_ (k : Z) (l : list token) : res ptree :=
  match l with
  | (k', w) :: r => if k' =? k then Ok (Leaf (k', w)) r else Bad
  | [] => if k =? -1 then Ok (Leaf eof) [] else Bad
  end.

(** [for _la == rdtParserWS { p.Match(rdtParserWS) }],
    /repo/rdt/rdt_parser.go:1286-1303, 1326-1343, 1521-1538, 1549-1566. *)
Fixpoint spaces (l : list token) : list ptree * list token :=
  match l with
  | (k, w) :: r => if k =? 22 then let (ks, r') := spaces r in (Leaf (k, w) :: ks, r') else ([], l)
  | [] => ([], [])
  end.

(** The types of the tokens to come (the token stream of
    /repo/rdt/rdt_parser.go:388). *)
Definition types (l : list token) : list Z := map fst l ++ [-1].

Section Parser.
Variable pred : nat -> list nat -> list Z -> nat.

(** Primitive, /repo/rdt/rdt_parser.go:763-792. *)
Definition primitive (l : list token) : res ptree :=
  if (Z.land (la l) (Z.lnot 63) =? 0) && negb (Z.land (Z.shiftl 1 (la l)) 2097024 =? 0) then
    match l with t :: r => Ok (Node 3 [Leaf t]) r | [] => Bad end
  else Bad.

(** Reference, /repo/rdt/rdt_parser.go:1667-1719. *)
Definition reference (l : list token) : res ptree :=
  rthen (match_ 21 l) (fun a l =>
  if la l =? 6 then
    rthen (match_ 6 l) (fun d l => rthen (match_ 21 l) (fun b l => Ok (Node 8 [a; d; b]) l))
  else Ok (Node 8 [a]) l).

Section Inner.
Variable expression : list nat -> list token -> res ptree.

(** Group, /repo/rdt/rdt_parser.go:1501-1587. *)
Definition group (st : list nat) (l : list token) : res ptree :=
  rthen (match_ 1 l) (fun a l =>
  let (w1, l) := spaces l in
  rthen (expression (84%nat :: st) l) (fun e l =>
  let (w2, l) := spaces l in
  rthen (match_ 2 l) (fun b l => Ok (Node 7 (a :: w1 ++ e :: w2 ++ [b])) l))).

(** The choice in Optional and Array, /repo/rdt/rdt_parser.go:923-945,1097-1119;
    [ret] is the state after it. *)
Definition operand (ret : nat) (st : list nat) (l : list token) : res ptree :=
  if existsb (Z.eqb (la l)) [7; 8; 9; 10; 11; 12; 13; 14; 15; 16; 17; 18; 19; 20] then primitive l
  else if la l =? 1 then group (ret :: st) l
  else if la l =? 21 then reference l
  else Bad.

(** Optional, /repo/rdt/rdt_parser.go:913-966. *)
Definition optional (st : list nat) (l : list token) : res ptree :=
  rthen (operand 38 st l) (fun a l => rthen (match_ 5 l) (fun b l => Ok (Node 4 [a; b]) l)).

(** Array, /repo/rdt/rdt_parser.go:1087-1140. *)
Definition array (st : list nat) (l : list token) : res ptree :=
  rthen (operand 45 st l) (fun a l => rthen (match_ 4 l) (fun b l => Ok (Node 5 [a; b]) l)).

(** Type_, /repo/rdt/rdt_parser.go:568-628. *)
Definition type_ (st : list nat) (l : list token) : res ptree :=
  let kid k := rthen k (fun t l => Ok (Node 2 [t]) l) in
  match pred 1 st (types l) with
  | 1%nat => kid (primitive l)
  | 2%nat => kid (group (31%nat :: st) l)
  | 3%nat => kid (reference l)
  | 4%nat => kid (array (31%nat :: st) l)
  | 5%nat => kid (optional (31%nat :: st) l)
  | 0%nat => Bad
  | _ => Ok (Node 2 []) l
  end.

(** The loop over white space with a prediction,
    /repo/rdt/rdt_parser.go:1353-1378. *)
Fixpoint trailing (n : nat) (st : list nat) (l : list token) : res (list ptree) :=
  match n with
  | O => Fuel
  | S n' =>
      match pred 6 st (types l) with
      | 0%nat => Bad
      | 1%nat => rthen (match_ 22 l) (fun a l => rthen (trailing n' st l) (fun w l => Ok (a :: w) l))
      | 2%nat => Ok [] l
      | _ => trailing n' st l
      end
  end.

(** The loop over the members, /repo/rdt/rdt_parser.go:1311-1386. *)
Fixpoint members (n : nat) (st : list nat) (l : list token) : res (list ptree) :=
  match n with
  | O => Fuel
  | S n' =>
      rthen (match_ 3 l) (fun p l =>
      let (w1, l) := spaces l in
      rthen (type_ (66%nat :: st) l) (fun t l =>
      rthen (trailing n st l) (fun w2 l =>
      let ks := p :: w1 ++ t :: w2 in
      if la l =? 3 then rthen (members n' st l) (fun ms l => Ok (ks ++ ms) l) else Ok ks l)))
  end.

(** Union, /repo/rdt/rdt_parser.go:1268-1399. *)
Definition union (n : nat) (st : list nat) (l : list token) : res ptree :=
  rthen (type_ (52%nat :: st) l) (fun t l =>
  let (w, l) := spaces l in
  rthen (members n st l) (fun ms l => Ok (Node 6 (t :: w ++ ms)) l)).
End Inner.

(** Expression, /repo/rdt/rdt_parser.go:379-418. *)
Fixpoint expression (n : nat) (st : list nat) (l : list token) : res ptree :=
  match n with
  | O => Fuel
  | S n' =>
      let kid k := rthen k (fun t l => Ok (Node 1 [t]) l) in
      match pred 0 st (types l) with
      | 1%nat => kid (type_ (expression n') (24%nat :: st) l)
      | 2%nat => kid (union (expression n') n' (24%nat :: st) l)
      | 0%nat => Bad
      | _ => Ok (Node 1 []) l
      end
  end.

(** Entrypoint, /repo/rdt/rdt_parser.go:252-280. *)
Definition entrypoint (n : nat) (l : list token) : res ptree :=
  rthen (expression n [19%nat] l) (fun e l => rthen (match_ (-1) l) (fun z l => Ok (Node 0 [e; z]) l)).
End Parser.
