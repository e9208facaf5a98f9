(** Independent specifications for the scalar kinds. They mention the facet
    records and values only, none of the functions of [Scalars.v]. *)
From Coq Require Import ZArith List String Bool.
From Coq Require Import Floats.SpecFloat.
From Verif Require Import Base Scalars.
Import ListNotations.
Open Scope string_scope.
Open Scope Z_scope.

(** Values as Go can hold them on a 64-bit platform. *)
Definition int_range (z : Z) : Prop := - 2 ^ 63 <= z < 2 ^ 63.
Definition uint_range (z : Z) : Prop := 0 <= z < 2 ^ 64.

Definition gval_wf (v : gval) : Prop :=
  match v with
  | GInt z => int_range z
  | GUint z | GUint64 z => uint_range z
  | _ => True
  end.

(** The implementation-defined conversion still yields an int64. *)
Definition oracle_wf (O : oracle) : Prop := forall f, int_range (o_f2i O f).

(** [float_floor0 f z]: the finite float [f] has integer part [z] (towards 0). *)
Definition float_trunc (f : float64) (z : Z) : Prop :=
  match f with
  | S754_zero _ => z = 0
  | S754_finite s m e =>
      exists a, z = (if s then - a else a) /\ 0 <= a /\
        ((0 <= e /\ a = Zpos m * 2 ^ e) \/
         (e < 0 /\ a * 2 ^ (- e) <= Zpos m < (a + 1) * 2 ^ (- e)))
  | _ => False
  end.

(** [float_exact f z]: [f] is finite and equal to the integer [z]. *)
Definition float_exact (f : float64) (z : Z) : Prop :=
  match f with
  | S754_zero _ => z = 0
  | S754_finite s m e =>
      ((0 <= e /\ z = (if s then -1 else 1) * (Zpos m * 2 ^ e)) \/
       (e < 0 /\ z * 2 ^ (- e) = (if s then -1 else 1) * Zpos m))
  | _ => False
  end.

(** Which integer a Go value stands for when used with an integer type. *)
Inductive int_denotes (O : oracle) : gval -> Z -> Prop :=
| id_int z : int_denotes O (GInt z) z
| id_uint z : int_denotes O (GUint z) z
| id_float f z : float_trunc f z -> int_range z -> int_denotes O (GFloat f) z
| id_float_big f z : float_trunc f z -> ~ int_range z -> int_denotes O (GFloat f) (o_f2i O f)
| id_float_nan f : (forall z, ~ float_trunc f z) -> int_denotes O (GFloat f) (o_f2i O f).

Definition at_least (lo : option Z) (z : Z) : Prop := forall m, lo = Some m -> m <= z.
Definition at_most (hi : option Z) (z : Z) : Prop := forall m, hi = Some m -> z <= m.

(** Membership of the integer [z] in an enum: as an [int] when it fits, as a
    [uint] otherwise. *)
Definition int_in_enum (e : enum) (z : Z) : Prop :=
  forall l, e = Some l ->
    (int_range z /\ In (GInt z) l) \/ (~ int_range z /\ In (GUint z) l).

Definition int_accepts (O : oracle) (s : int_facets) (v : gval) : Prop :=
  exists z, int_denotes O v z /\ at_least (if_min s) z /\ at_most (if_max s) z
            /\ int_in_enum (if_enum s) z.

(** Numbers: the float64 a Go value stands for. *)
Inductive num_denotes : gval -> float64 -> Prop :=
| nd_int z : num_denotes (GInt z) (float_of_Z z)
| nd_uint z : num_denotes (GUint z) (float_of_Z z)
| nd_float f : num_denotes (GFloat f) f.

(** IEEE ordered comparison "a < b": false when either side is NaN. *)
Definition flt (a b : float64) : Prop := SFcompare a b = Some Lt.
Definition feq (a b : float64) : Prop := SFcompare a b = Some Eq.

Definition num_accepts (s : num_facets) (v : gval) : Prop :=
  exists f, num_denotes v f
    /\ (forall m, nf_min s = Some m -> ~ flt f m)
    /\ (forall m, nf_max s = Some m -> ~ flt m f)
    /\ (forall l, nf_enum s = Some l -> exists g, In (GFloat g) l /\ feq g f).

Definition str_accepts (O : oracle) (s : str_facets) (v : gval) : Prop :=
  exists i, v = GStr i
    /\ at_least (sf_min s) (Z.of_nat (String.length i))
    /\ at_most (sf_max s) (Z.of_nat (String.length i))
    /\ (forall p, sf_pat s = Some p -> o_match O p i = true)
    /\ (forall l, sf_enum s = Some l -> In (GStr i) l).

Definition file_accepts (s : file_facets) (v : gval) : Prop :=
  exists i, v = GStr i
    /\ at_least (ff_min s) (Z.of_nat (String.length i))
    /\ at_most (ff_max s) (Z.of_nat (String.length i)).

Definition bool_accepts (e : enum) (v : gval) : Prop :=
  exists b, v = GBool b /\ (forall l, e = Some l -> In (GBool b) l).

(** The layout a datetime type with the given format uses (none when the
    format is unknown). *)
Inductive datetime_layout : option string -> string -> Prop :=
| dl_default : datetime_layout None "2006-01-02T15:04:05Z07:00"
| dl_3339 : datetime_layout (Some "rfc3339") "2006-01-02T15:04:05Z07:00"
| dl_2616 : datetime_layout (Some "rfc2616") "Mon, 02 Jan 2006 15:04:05 GMT".

Definition datetime_accepts (O : oracle) (format : option string) (v : gval) : Prop :=
  exists i, v = GStr i
    /\ (forall l, datetime_layout format l -> o_time O l i = true).

Definition layout_accepts (O : oracle) (layout : string) (v : gval) : Prop :=
  exists i, v = GStr i /\ o_time O layout i = true.

(** Facet consistency, for [check]. *)
Definition bounds_ok (lo hi : option Z) : Prop :=
  forall a b, lo = Some a -> hi = Some b -> a <= b.

Definition fbounds_ok (lo hi : option float64) : Prop :=
  forall a b, lo = Some a -> hi = Some b -> ~ flt b a.

Definition enum_all (k : gval -> Prop) (e : enum) : Prop :=
  forall l, e = Some l -> Forall k l.

Definition known_int_formats : list string :=
  ["int8"; "int16"; "int32"; "int"; "int64"; "long"].

(** The number of bits an integer format stands for; [int] is [int32] and
    [long] is [int64]. A format that is none of the six counts as [int8]. *)
Inductive format_width : string -> Z -> Prop :=
| fw_8 : format_width "int8" 8
| fw_16 : format_width "int16" 16
| fw_32 : format_width "int32" 32
| fw_int : format_width "int" 32
| fw_64 : format_width "int64" 64
| fw_long : format_width "long" 64
| fw_unknown f : ~ In f known_int_formats -> format_width f 8.

Definition int_consistent (s : int_facets) : Prop :=
  bounds_ok (if_min s) (if_max s)
  /\ enum_all (fun v => (exists z, v = GInt z) \/ (exists z, v = GUint z)) (if_enum s)
  /\ (forall f, if_format s = Some f -> In f known_int_formats).

Definition num_consistent (s : num_facets) : Prop :=
  fbounds_ok (nf_min s) (nf_max s)
  /\ enum_all (fun v => (exists z, v = GInt z) \/ (exists z, v = GUint z)
                        \/ (exists f, v = GFloat f)) (nf_enum s).

Definition str_consistent (s : str_facets) : Prop :=
  bounds_ok (sf_min s) (sf_max s)
  /\ enum_all (fun v => exists i, v = GStr i) (sf_enum s).

Definition file_consistent (s : file_facets) : Prop :=
  bounds_ok (ff_min s) (ff_max s)
  /\ enum_all (fun v => exists i, v = GStr i) (ff_types s).

Definition bool_consistent (e : enum) : Prop :=
  enum_all (fun v => exists b, v = GBool b) e.

(** Comparable values: those on which Go's [==] does not panic whatever the
    other operand is. *)
Definition comparable (v : gval) : Prop :=
  match v with GArr _ | GMap _ => False | _ => True end.

Definition enum_comparable (e : enum) : Prop := enum_all comparable e.

(** A child enum that is not a subset of the parent's. *)
Definition enum_escapes (child parent : enum) : Prop :=
  exists lc lp, child = Some lc /\ parent = Some lp /\
    exists v, In v lc /\ forall w, In w lp -> go_eq w v <> Some true.

Definition min_relaxed (child parent : option Z) : Prop :=
  exists a b, child = Some a /\ parent = Some b /\ a < b.
Definition max_relaxed (child parent : option Z) : Prop :=
  exists a b, child = Some a /\ parent = Some b /\ b < a.

(** A facet the child leaves out is the parent's; one it gives stays. *)
Definition kept {A} (child parent result : option A) : Prop :=
  (forall x, child = Some x -> result = Some x) /\ (child = None -> result = parent).
