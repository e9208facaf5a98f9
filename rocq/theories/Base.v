(** Common vocabulary of the model: outcomes, Go dynamic values, Go interface
    equality, ordered maps and binary64 arithmetic. No proofs here. *)
From Coq Require Import ZArith List String Bool Ascii.
From Coq Require Import Floats.SpecFloat.
Import ListNotations.
Open Scope Z_scope.

(** Outcome of a Go function that returns (T, error).
    [Err] is a non-nil error; the error value itself (message, position,
    stack trace of go-stacktrace, used everywhere, e.g. /repo/shape.go:148) is
    not modelled. [Panic] is a Go run-time panic. [OutOfFuel] is the model's
    bound on recursion: it stands for "still running". *)
Inductive res (A : Type) : Type :=
| Ok (a : A)
| Err
| Panic
| OutOfFuel.
Arguments Ok {A} a.
Arguments Err {A}.
Arguments Panic {A}.
Arguments OutOfFuel {A}.

(** Sequencing of the above: the Go idiom [if err != nil { return err }],
    e.g. /repo/unwrap.go:403-412. *)
Definition rbind {A B} (r : res A) (f : A -> res B) : res B :=
  match r with
  | Ok a => f a
  | Err => Err
  | Panic => Panic
  | OutOfFuel => OutOfFuel
  end.

(** [err == nil] test on an outcome (Go idiom throughout /repo, e.g.
    /repo/complex.go:854). *)
Definition is_ok {A} (r : res A) : bool :=
  match r with Ok _ => true | _ => false end.

(** IEEE binary64 values as used by float64 facets (/repo/scalars.go:290-295)
    and JSON numbers (/repo/scalars.go:118-120). *)
Definition float64 := spec_float.

(** Go conversion [float64(i)] of an integer, round to nearest even
    (/repo/scalars.go:341,343). *)
Definition float_of_Z (z : Z) : float64 := binary_normalize 53 1024 z 0 false.

(** Integer part of a float64, towards zero, when it is finite: the Go
    conversion [int64(v)] at /repo/scalars.go:120 whenever the result is
    representable. *)
Definition Z_of_float (f : float64) : option Z :=
  match f with
  | S754_zero _ => Some 0
  | S754_finite s m e =>
      let a := if 0 <=? e then Z.pos m * 2 ^ e else Z.pos m / 2 ^ (- e) in
      Some (if s then - a else a)
  | _ => None
  end.

(** Range of Go's int / int64 on a 64-bit platform (/repo/scalars.go:115,136). *)
Definition is_int64 (z : Z) : bool := (- 2 ^ 63 <=? z) && (z <? 2 ^ 63).

(** Range of Go's uint / uint64 (/repo/scalars.go:117,138). *)
Definition is_uint64 (z : Z) : bool := (0 <=? z) && (z <? 2 ^ 64).

(** Dynamic values of type [any] that reach the validators: what yaml.v3 and
    encoding/json produce (/repo/node.go:56-83, 97-108, 126-221) plus Go [uint]
    which the validators accept (/repo/scalars.go:116) and an opaque comparable
    rest. A Go map is an association list in some enumeration order; slices and
    maps are treated as immutable values (nothing in /repo writes to them after
    construction). *)
Inductive gval : Type :=
| GNil
| GBool (b : bool)
| GInt (z : Z)
| GUint (z : Z)
| GUint64 (z : Z)
| GFloat (f : float64)
| GStr (s : string)
| GArr (l : list gval)
| GMap (l : list (string * gval))
| GOther (ty : string) (id : Z).

(** Go's [a == b] on two [any] values (/repo/scalars.go:44,143,361,551,858):
    different dynamic types are unequal, equal uncomparable dynamic types panic
    ([None]). *)
Definition go_eq (a b : gval) : option bool :=
  match a, b with
  | GNil, GNil => Some true
  | GBool x, GBool y => Some (Bool.eqb x y)
  | GInt x, GInt y => Some (x =? y)
  | GUint x, GUint y => Some (x =? y)
  | GUint64 x, GUint64 y => Some (x =? y)
  | GFloat x, GFloat y => Some (SFeqb x y)
  | GStr x, GStr y => Some (String.eqb x y)
  | GArr _, GArr _ => None
  | GMap _, GMap _ => None
  | GOther t x, GOther u y => Some (String.eqb t u && (x =? y))
  | _, _ => Some false
  end.

(** Byte length, Go's [len(s)] on strings (/repo/scalars.go:538). *)
Definition blen (s : string) : Z := Z.of_nat (String.length s).

(** github.com/wk8/go-ordered-map/v2 as used in /repo (e.g.
    /repo/complex.go:186,534-567): an insertion-ordered association list. *)
Definition omap (A : Type) := list (string * A).

(** [Get], e.g. /repo/complex.go:544. *)
Fixpoint oget {A} (k : string) (m : omap A) : option A :=
  match m with
  | [] => None
  | (k', v) :: m' => if String.eqb k k' then Some v else oget k m'
  end.

(** [Set], e.g. /repo/complex.go:546: update in place or append. *)
Fixpoint oset {A} (k : string) (v : A) (m : omap A) : omap A :=
  match m with
  | [] => [(k, v)]
  | (k', v') :: m' => if String.eqb k k' then (k', v) :: m' else (k', v') :: oset k v m'
  end.

(** Keys in iteration order, [for pair := m.Oldest(); pair != nil; ...]
    (e.g. /repo/complex.go:477). *)
Definition okeys {A} (m : omap A) : list string := map fst m.

(** The external functions the validators call. They are quantified over in
    every theorem that mentions them.
    [o_match p s]: [regexp.MustCompile(p).MatchString(s)] (/repo/scalars.go:545,
    /repo/complex.go:403). [o_time l s]: [time.Parse(l, s)] succeeds
    (/repo/scalars.go:963-975,1066,1139,1212). [o_f2i]: [int64(f)] when [f] is
    NaN, infinite or out of range, where Go leaves the result implementation
    defined (/repo/scalars.go:120). [o_json]: [json.Marshal], [None] on error
    (/repo/complex.go:75). [o_hash]: [xxh3.Hash] (/repo/complex.go:81). *)
Record oracle := {
  o_match : string -> string -> bool;
  o_time : string -> string -> bool;
  o_f2i : float64 -> Z;
  o_json : gval -> option string;
  o_hash : string -> Z
}.

(** Go conversion [int64(f)] (/repo/scalars.go:120). *)
Definition go_int64 (O : oracle) (f : float64) : Z :=
  match Z_of_float f with
  | Some z => if is_int64 z then z else o_f2i O f
  | None => o_f2i O f
  end.
