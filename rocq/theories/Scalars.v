(** Scalar shapes: /repo/scalars.go, facet records and the functions
    validate / inherit / check / alias. No proofs here. *)
From Coq Require Import ZArith List String Bool.
From Coq Require Import Floats.SpecFloat.
From Verif Require Import Base.
Import ListNotations.
Open Scope string_scope.
Open Scope Z_scope.

(** [Nodes] used as an enum (/repo/scalars.go:20-22); [None] is the nil slice.
    Node identity, location and position (/repo/node.go:26-36) are dropped,
    only [Value] is kept. *)
Definition enum := option (list gval).

(** /repo/scalars.go:60-64,72-79. [big.Int] is [Z]; pointers to immutable
    numbers are options. *)
Record int_facets := IntF {
  if_min : option Z;
  if_max : option Z;
  if_mult : option float64;
  if_format : option string;
  if_enum : enum
}.

(** /repo/scalars.go:290-304. *)
Record num_facets := NumF {
  nf_min : option float64;
  nf_max : option float64;
  nf_mult : option float64;
  nf_format : option string;
  nf_enum : enum
}.

(** /repo/scalars.go:485-501; the compiled pattern is represented by its
    source. *)
Record str_facets := StrF {
  sf_min : option Z;
  sf_max : option Z;
  sf_pat : option string;
  sf_enum : enum
}.

(** /repo/scalars.go:663-673. *)
Record file_facets := FileF {
  ff_min : option Z;
  ff_max : option Z;
  ff_types : enum
}.

(** The enum loops of validate (/repo/scalars.go:141-147, 359-365, 549-555,
    856-862): scan until a member equals [v]; [Panic] when the comparison
    panics. *)
Fixpoint enum_find (v : gval) (l : list gval) : res bool :=
  match l with
  | [] => Ok false
  | e :: l' =>
      match go_eq e v with
      | None => Panic
      | Some true => Ok true
      | Some false => enum_find v l'
      end
  end.

(** /repo/scalars.go:39-54, inner loop 43-48 is [enum_find] with the operands
    of the (symmetric) comparison exchanged. *)
Fixpoint isCompatibleEnum (source target : list gval) : res bool :=
  match target with
  | [] => Ok true
  | v :: t' =>
      match enum_find v source with
      | Ok true => isCompatibleEnum source t'
      | Ok false => Ok false
      | Err => Err
      | Panic => Panic
      | OutOfFuel => OutOfFuel
      end
  end.

(** "found or error" after an enum loop (/repo/scalars.go:133-151). *)
Definition enum_validate (e : enum) (v : gval) : res unit :=
  match e with
  | None => Ok tt
  | Some l => rbind (enum_find v l) (fun found => if found then Ok tt else Err)
  end.

(** The enum part of inherit (/repo/scalars.go:185-192, 403-410, 592-599,
    746-753, 877-882). *)
Definition enum_inherit (t s : enum) : res enum :=
  match t, s with
  | None, _ => Ok s
  | Some l, None => Ok (Some l)
  | Some l, Some ls =>
      rbind (isCompatibleEnum ls l) (fun ok => if ok then Ok (Some l) else Err)
  end.

(** A lower bound during inherit, over an ordered type given by its "less"
    test (/repo/scalars.go:164-171, 382-389, 572-579, 730-737). *)
Definition min_inherit {A} (ltb : A -> A -> bool) (t s : option A) : res (option A) :=
  match t, s with
  | None, _ => Ok s
  | Some a, None => Ok (Some a)
  | Some a, Some b => if ltb a b then Err else Ok (Some a)
  end.

(** An upper bound during inherit (/repo/scalars.go:172-179, 390-397, 580-587,
    738-745). *)
Definition max_inherit {A} (ltb : A -> A -> bool) (t s : option A) : res (option A) :=
  match t, s with
  | None, _ => Ok s
  | Some a, None => Ok (Some a)
  | Some a, Some b => if ltb b a then Err else Ok (Some a)
  end.

(** "If min is set and the value is below it" (/repo/scalars.go:125, 350, 539,
    711). *)
Definition below {A} (ltb : A -> A -> bool) (v : A) (b : option A) : bool :=
  match b with None => false | Some m => ltb v m end.

(** "If max is set and the value is above it" (/repo/scalars.go:128, 353, 542,
    714). *)
Definition above {A} (ltb : A -> A -> bool) (v : A) (b : option A) : bool :=
  match b with None => false | Some m => ltb m v end.

(** "min and max are both set and min > max" (/repo/scalars.go:205, 423, 604,
    758). *)
Definition crossed {A} (ltb : A -> A -> bool) (lo hi : option A) : bool :=
  match lo, hi with
  | Some a, Some b => ltb b a
  | _, _ => false
  end.

(** /repo/consts.go SetOfIntegerFormats. *)
Definition int_format_code (f : string) : option Z :=
  if String.eqb f "int8" then Some 0
  else if String.eqb f "int16" then Some 1
  else if String.eqb f "int32" then Some 2
  else if String.eqb f "int" then Some 2
  else if String.eqb f "int64" then Some 3
  else if String.eqb f "long" then Some 3
  else None.

(** A Go map lookup without the comma-ok form returns the zero value
    (/repo/scalars.go:195). *)
Definition int_format_code0 (f : string) : Z :=
  match int_format_code f with Some c => c | None => 0 end.

Section Validate.
Variable O : oracle.

(** IntegerShape.validate, /repo/scalars.go:111-154. *)
Definition int_validate (s : int_facets) (v : gval) : res unit :=
  let go (val : Z) : res unit :=
    if below Z.ltb val (if_min s) then Err
    else if above Z.ltb val (if_max s) then Err
    else
      let num := if is_int64 val then GInt val
                 else if is_uint64 val then GUint val else GNil in
      enum_validate (if_enum s) num in
  match v with
  | GInt z => go z
  | GUint z => go z
  | GFloat f => go (go_int64 O f)
  | _ => Err
  end.

(** NumberShape.validate, /repo/scalars.go:336-372. *)
Definition num_validate (s : num_facets) (v : gval) : res unit :=
  let go (val : float64) : res unit :=
    if below SFltb val (nf_min s) then Err
    else if above SFltb val (nf_max s) then Err
    else enum_validate (nf_enum s) (GFloat val) in
  match v with
  | GInt z => go (float_of_Z z)
  | GUint z => go (float_of_Z z)
  | GFloat f => go f
  | _ => Err
  end.

(** StringShape.validate, /repo/scalars.go:532-562. *)
Definition str_validate (s : str_facets) (v : gval) : res unit :=
  match v with
  | GStr i =>
      if below Z.ltb (blen i) (sf_min s) then Err
      else if above Z.ltb (blen i) (sf_max s) then Err
      else if match sf_pat s with
              | Some p => negb (o_match O p i)
              | None => false
              end then Err
      else enum_validate (sf_enum s) (GStr i)
  | _ => Err
  end.

(** FileShape.validate, /repo/scalars.go:703-720. *)
Definition file_validate (s : file_facets) (v : gval) : res unit :=
  match v with
  | GStr i =>
      if below Z.ltb (blen i) (ff_min s) then Err
      else if above Z.ltb (blen i) (ff_max s) then Err
      else Ok tt
  | _ => Err
  end.

(** BooleanShape.validate, /repo/scalars.go:849-869. *)
Definition bool_validate (e : enum) (v : gval) : res unit :=
  match v with
  | GBool b => enum_validate e (GBool b)
  | _ => Err
  end.

(** time.RFC3339, /repo/scalars.go:963. *)
Definition layout_rfc3339 := "2006-01-02T15:04:05Z07:00".
(** RFC2616, /repo/scalars.go:15. *)
Definition layout_rfc2616 := "Mon, 02 Jan 2006 15:04:05 GMT".
(** DateTime, /repo/scalars.go:17. *)
Definition layout_datetime := "2006-01-02T15:04:05".
(** time.DateOnly, /repo/scalars.go:1139. *)
Definition layout_dateonly := "2006-01-02".
(** time.TimeOnly, /repo/scalars.go:1212. *)
Definition layout_timeonly := "15:04:05".

(** "time.Parse(layout, i) or error" (/repo/scalars.go:1066-1070, 1139-1143,
    1212-1216). *)
Definition layout_validate (layout : string) (v : gval) : res unit :=
  match v with
  | GStr i => if o_time O layout i then Ok tt else Err
  | _ => Err
  end.

(** DateTimeShape.validate, /repo/scalars.go:956-981. *)
Definition datetime_validate (format : option string) (v : gval) : res unit :=
  match v with
  | GStr i =>
      match format with
      | None => if o_time O layout_rfc3339 i then Ok tt else Err
      | Some f =>
          if String.eqb f "rfc3339" then (if o_time O layout_rfc3339 i then Ok tt else Err)
          else if String.eqb f "rfc2616" then (if o_time O layout_rfc2616 i then Ok tt else Err)
          else Ok tt
      end
  | _ => Err
  end.

(** NilShape.validate, /repo/scalars.go:1345-1350. *)
Definition nil_validate (v : gval) : res unit :=
  match v with GNil => Ok tt | _ => Err end.

End Validate.

(** IntegerShape.inherit from an IntegerShape, /repo/scalars.go:164-201.
    Simplification: when a later facet fails the Go code has already updated
    the earlier facets of the target; the model returns [Err] without the
    half-updated facets. *)
Definition int_inherit (t s : int_facets) : res int_facets :=
  rbind (min_inherit Z.ltb (if_min t) (if_min s)) (fun mn =>
  rbind (max_inherit Z.ltb (if_max t) (if_max s)) (fun mx =>
  let mult := match if_mult t with None => if_mult s | m => m end in
  rbind (enum_inherit (if_enum t) (if_enum s)) (fun en =>
  rbind (match if_format t, if_format s with
         | None, f => Ok f
         | Some f, None => Ok (Some f)
         | Some f, Some g =>
             if int_format_code0 f =? int_format_code0 g then Ok (Some f) else Err
         end) (fun fm =>
  Ok (IntF mn mx mult fm en))))).

(** NumberShape.inherit, /repo/scalars.go:382-419 (same simplification). *)
Definition num_inherit (t s : num_facets) : res num_facets :=
  rbind (min_inherit SFltb (nf_min t) (nf_min s)) (fun mn =>
  rbind (max_inherit SFltb (nf_max t) (nf_max s)) (fun mx =>
  let mult := match nf_mult s with None => nf_mult t | m => m end in
  rbind (enum_inherit (nf_enum t) (nf_enum s)) (fun en =>
  rbind (match nf_format t, nf_format s with
         | None, f => Ok f
         | Some f, None => Ok (Some f)
         | Some f, Some g => if String.eqb f g then Ok (Some f) else Err
         end) (fun fm =>
  Ok (NumF mn mx mult fm en))))).

(** StringShape.inherit, /repo/scalars.go:572-600 (same simplification). *)
Definition str_inherit (t s : str_facets) : res str_facets :=
  rbind (min_inherit Z.ltb (sf_min t) (sf_min s)) (fun mn =>
  rbind (max_inherit Z.ltb (sf_max t) (sf_max s)) (fun mx =>
  let pat := match sf_pat t with None => sf_pat s | p => p end in
  rbind (enum_inherit (sf_enum t) (sf_enum s)) (fun en =>
  Ok (StrF mn mx pat en)))).

(** FileShape.inherit, /repo/scalars.go:730-754 (same simplification). *)
Definition file_inherit (t s : file_facets) : res file_facets :=
  rbind (min_inherit Z.ltb (ff_min t) (ff_min s)) (fun mn =>
  rbind (max_inherit Z.ltb (ff_max t) (ff_max s)) (fun mx =>
  rbind (enum_inherit (ff_types t) (ff_types s)) (fun en =>
  Ok (FileF mn mx en)))).

(** BooleanShape.inherit, /repo/scalars.go:877-883. *)
Definition bool_inherit (t s : enum) : res enum := enum_inherit t s.

(** DateTimeShape.inherit, /repo/scalars.go:990-996. *)
Definition datetime_inherit (t s : option string) : res (option string) :=
  match t, s with
  | None, f => Ok f
  | Some f, None => Ok (Some f)
  | Some f, Some g => if String.eqb f g then Ok (Some f) else Err
  end.

(** Kind test of enum members in check. *)
(** /repo/scalars.go:211-216. *)
Definition is_int_kind (v : gval) : bool :=
  match v with GInt _ | GUint _ => true | _ => false end.
(** /repo/scalars.go:429-434. *)
Definition is_num_kind (v : gval) : bool :=
  match v with GInt _ | GUint _ | GFloat _ => true | _ => false end.
(** /repo/scalars.go:610, 764. *)
Definition is_str_kind (v : gval) : bool :=
  match v with GStr _ => true | _ => false end.
(** /repo/scalars.go:889. *)
Definition is_bool_kind (v : gval) : bool :=
  match v with GBool _ => true | _ => false end.

(** The enum loop of check (/repo/scalars.go:209-218, 427-436, 608-615,
    762-769, 887-893). *)
Definition enum_check (k : gval -> bool) (e : enum) : bool :=
  match e with None => true | Some l => forallb k l end.

(** IntegerShape.check, /repo/scalars.go:204-226. *)
Definition int_check (s : int_facets) : res unit :=
  if crossed Z.ltb (if_min s) (if_max s) then Err
  else if negb (enum_check is_int_kind (if_enum s)) then Err
  else match if_format s with
       | Some f => match int_format_code f with Some _ => Ok tt | None => Err end
       | None => Ok tt
       end.

(** NumberShape.check, /repo/scalars.go:422-438. *)
Definition num_check (s : num_facets) : res unit :=
  if crossed SFltb (nf_min s) (nf_max s) then Err
  else if negb (enum_check is_num_kind (nf_enum s)) then Err else Ok tt.

(** StringShape.check, /repo/scalars.go:603-617. *)
Definition str_check (s : str_facets) : res unit :=
  if crossed Z.ltb (sf_min s) (sf_max s) then Err
  else if negb (enum_check is_str_kind (sf_enum s)) then Err else Ok tt.

(** FileShape.check, /repo/scalars.go:757-771. *)
Definition file_check (s : file_facets) : res unit :=
  if crossed Z.ltb (ff_min s) (ff_max s) then Err
  else if negb (enum_check is_str_kind (ff_types s)) then Err else Ok tt.

(** BooleanShape.check, /repo/scalars.go:886-895. *)
Definition bool_check (e : enum) : res unit :=
  if negb (enum_check is_bool_kind e) then Err else Ok tt.
