(** Property theorems about scalar types (C01-C06, C13, C14, C30, C46). *)
From Coq Require Import ZArith List String Bool.
From Coq Require Import Floats.SpecFloat.
From Verif Require Import Base Scalars Spec_Scalars Scalars_proofs Float_proofs.
Import ListNotations.
Open Scope string_scope.
Open Scope Z_scope.

(** A concrete environment used by the examples only. *)
Definition ex_oracle : oracle := {|
  o_match := fun p s => String.prefix p s;
  o_time := fun _ s => String.prefix "2" s;
  o_f2i := fun _ => - 2 ^ 63;
  o_json := fun _ => None;
  o_hash := fun s => Z.of_nat (String.length s) |}.

(** The double 1.5. *)
Definition f1_5 : float64 := S754_finite false 6755399441055744 (-52).

(** * C01 *)
Theorem C01_integer_validate : forall O s v,
  oracle_wf O -> gval_wf v ->
  (int_validate O s v = Ok tt <-> int_accepts O s v)
  /\ (int_validate O s v = Ok tt \/ int_validate O s v = Err).
Proof. exact (fun O s v H K => conj (int_validate_iff O s v H K) (int_validate_total O s v)). Qed.
Print Assumptions C01_integer_validate.

Example C01_hyps : oracle_wf ex_oracle /\ gval_wf (GFloat f1_5)
  /\ int_accepts ex_oracle (IntF (Some 1) (Some 3) None None (Some [GInt 1; GInt 2])) (GInt 2)
  /\ ~ int_accepts ex_oracle (IntF (Some 1) (Some 3) None None (Some [GInt 1; GInt 2])) (GInt 3).
Proof.
  split; [intros f; vm_compute; split; congruence|]. split; [exact I|].
  split.
  - apply int_validate_iff; try reflexivity; try (intros f; vm_compute; split; congruence); vm_compute; split; congruence.
  - intros H. apply int_validate_iff in H; [discriminate H|intros f; vm_compute; split; congruence|vm_compute; split; congruence].
Qed.

(** * C02 *)
Theorem C02_integer_only_integral_refuted :
  ~ (forall O s f, int_validate O s (GFloat f) = Ok tt -> exists z, float_exact f z).
Proof.
  intros H. destruct (H ex_oracle (IntF None None None None None) f1_5 eq_refl) as [z Hz].
  unfold float_exact, f1_5 in Hz. destruct Hz as [[A _]|[_ A]]; [apply A; reflexivity|].
  change (2 ^ (- (-52))) with 4503599627370496 in A.
  assert (B : (z * 4503599627370496) mod 4503599627370496 = 6755399441055744 mod 4503599627370496)
    by (rewrite A; reflexivity).
  rewrite Z.mod_mul in B by discriminate. discriminate B.
Qed.
Print Assumptions C02_integer_only_integral_refuted.

Theorem C02_integral_floats_as_ints_partial : forall O s f z,
  float_exact f z -> int_range z -> int_validate O s (GFloat f) = int_validate O s (GInt z).
Proof. exact int_validate_exact. Qed.
Print Assumptions C02_integral_floats_as_ints_partial.

Example C02_hyps : float_exact (S754_finite true 6755399441055744 (-51)) (-3) /\ int_range (-3).
Proof. split; [right; split; reflexivity|vm_compute; split; congruence]. Qed.

(** * C03 *)
Theorem C03_number_validate : forall s v,
  (num_validate s v = Ok tt <-> num_accepts s v)
  /\ (num_validate s v = Ok tt \/ num_validate s v = Err).
Proof. exact (fun s v => conj (num_validate_iff s v) (num_validate_total s v)). Qed.
Print Assumptions C03_number_validate.

Example C03_cases :
  num_accepts (NumF (Some (float_of_Z 1)) (Some (float_of_Z 2)) None None None) (GFloat f1_5)
  /\ ~ num_accepts (NumF (Some (float_of_Z 2)) None None None None) (GFloat f1_5).
Proof.
  split; [apply num_validate_iff; reflexivity|].
  intros H; apply num_validate_iff in H; discriminate H.
Qed.

(** The double an integer value is compared as is that integer, exactly, while
    the integer has at most 53 bits. *)
Theorem C03_conversion : forall z, Z.abs z < 2 ^ 53 -> float_exact (float_of_Z z) z.
Proof. exact of_Z_exact. Qed.
Print Assumptions C03_conversion.

(** So for whole bounds and values of that size a number type accepts the
    integers between its bounds, and no others. *)
Theorem C03_integers : forall a b z,
  Z.abs a < 2 ^ 53 -> Z.abs b < 2 ^ 53 -> Z.abs z < 2 ^ 53 ->
  (num_validate (NumF (Some (float_of_Z a)) (Some (float_of_Z b)) None None None) (GInt z) = Ok tt <-> a <= z <= b).
Proof. intros a b z A B C. rewrite num_validate_iff. exact (num_integers a b z A B C). Qed.
Print Assumptions C03_integers.

(** The bound on the size is needed: 2^53 and 2^53 + 1 are the same double, so
    a number type with maximum 2^53 accepts 2^53 + 1. *)
Theorem C03_large_refuted :
  ~ (forall a b z, num_validate (NumF (Some (float_of_Z a)) (Some (float_of_Z b)) None None None) (GInt z) = Ok tt -> a <= z <= b).
Proof.
  intros H. pose proof (H 0 (2 ^ 53) (2 ^ 53 + 1) eq_refl) as [_ B]. vm_compute in B. exact (B eq_refl).
Qed.
Print Assumptions C03_large_refuted.

Example C03_integers_case :
  Z.abs (-7) < 2 ^ 53 /\ float_of_Z (-7) = S754_finite true 7881299347898368 (-50)
  /\ num_validate (NumF (Some (float_of_Z (-7))) (Some (float_of_Z 12)) None None None) (GInt 12) = Ok tt
  /\ num_validate (NumF (Some (float_of_Z (-7))) (Some (float_of_Z 12)) None None None) (GInt 13) = Err.
Proof. repeat split. Qed.

(** * C04 *)
Theorem C04_numeric_enum_refuted :
  ~ (forall s l z, nf_enum s = Some l -> In (GInt z) l -> nf_min s = None -> nf_max s = None ->
       num_validate s (GInt z) = Ok tt).
Proof.
  intros H.
  discriminate (H (NumF None None None None (Some [GInt 1; GInt 2])) _ 1 eq_refl (or_introl eq_refl) eq_refl eq_refl).
Qed.
Print Assumptions C04_numeric_enum_refuted.

Theorem C04_numeric_enum_partial : forall s v f g l,
  num_denotes v f -> nf_enum s = Some l -> In (GFloat g) l -> feq g f ->
  (forall m, nf_min s = Some m -> ~ flt f m) -> (forall m, nf_max s = Some m -> ~ flt m f) ->
  num_validate s v = Ok tt.
Proof. exact num_float_member. Qed.
Print Assumptions C04_numeric_enum_partial.

Example C04_hyps : num_denotes (GInt 3) (float_of_Z 3)
  /\ In (GFloat (float_of_Z 3)) [GInt 1; GFloat (float_of_Z 3)] /\ feq (float_of_Z 3) (float_of_Z 3).
Proof. split; [constructor|]. split; [right; left; reflexivity|reflexivity]. Qed.

(** * C05 *)
Theorem C05_string_validate : forall O s v,
  (str_validate O s v = Ok tt <-> str_accepts O s v)
  /\ (str_validate O s v = Ok tt \/ str_validate O s v = Err).
Proof. exact (fun O s v => conj (str_validate_iff O s v) (str_validate_total O s v)). Qed.
Print Assumptions C05_string_validate.

Theorem C05_file_validate : forall s v,
  (file_validate s v = Ok tt <-> file_accepts s v)
  /\ (file_validate s v = Ok tt \/ file_validate s v = Err).
Proof. exact (fun s v => conj (file_validate_iff s v) (file_validate_total s v)). Qed.
Print Assumptions C05_file_validate.

Theorem C05_boolean_validate : forall e v,
  (bool_validate e v = Ok tt <-> bool_accepts e v)
  /\ (bool_validate e v = Ok tt \/ bool_validate e v = Err).
Proof. exact (fun e v => conj (bool_validate_iff e v) (bool_validate_total e v)). Qed.
Print Assumptions C05_boolean_validate.

Theorem C05_nil_validate : forall v, nil_validate v = Ok tt <-> v = GNil.
Proof. exact nil_validate_iff. Qed.
Print Assumptions C05_nil_validate.

Example C05_cases :
  str_accepts ex_oracle (StrF (Some 2) (Some 3) (Some "a") (Some [GStr "ab"])) (GStr "ab")
  /\ ~ str_accepts ex_oracle (StrF (Some 2) (Some 3) (Some "b") None) (GStr "ab")
  /\ file_accepts (FileF (Some 1) None None) (GStr "x")
  /\ bool_accepts (Some [GBool true]) (GBool true) /\ ~ bool_accepts (Some [GBool true]) (GBool false).
Proof.
  repeat split; try (apply str_validate_iff; reflexivity); try (apply file_validate_iff; reflexivity);
    try (apply bool_validate_iff; reflexivity).
  - intros H; apply str_validate_iff in H; discriminate H.
  - intros H; apply bool_validate_iff in H; discriminate H.
Qed.

(** * C06 *)
Theorem C06_datetime_validate : forall O format v,
  (datetime_validate O format v = Ok tt <-> datetime_accepts O format v)
  /\ (datetime_validate O format v = Ok tt \/ datetime_validate O format v = Err).
Proof. exact (fun O f v => conj (datetime_validate_iff O f v) (datetime_validate_total O f v)). Qed.
Print Assumptions C06_datetime_validate.

Theorem C06_layouts_validate : forall O v,
  (layout_validate O layout_datetime v = Ok tt <-> layout_accepts O "2006-01-02T15:04:05" v)
  /\ (layout_validate O layout_dateonly v = Ok tt <-> layout_accepts O "2006-01-02" v)
  /\ (layout_validate O layout_timeonly v = Ok tt <-> layout_accepts O "15:04:05" v).
Proof.
  exact (fun O v => conj (layout_validate_iff O layout_datetime v)
          (conj (layout_validate_iff O layout_dateonly v) (layout_validate_iff O layout_timeonly v))).
Qed.
Print Assumptions C06_layouts_validate.

Example C06_cases :
  datetime_accepts ex_oracle (Some "rfc2616") (GStr "2x")
  /\ ~ datetime_accepts ex_oracle None (GStr "x") /\ datetime_accepts ex_oracle (Some "other") (GStr "x").
Proof.
  repeat split; try (apply datetime_validate_iff; reflexivity).
  intros H; apply datetime_validate_iff in H; discriminate H.
Qed.

(** * C13 *)
Theorem C13_integer_inherit : forall O t s r v,
  oracle_wf O -> gval_wf v -> int_inherit t s = Ok r ->
  (int_accepts O r v <-> int_accepts O t v /\ int_accepts O s v).
Proof. exact int_inherit_inter. Qed.
Print Assumptions C13_integer_inherit.

Theorem C13_number_inherit : forall t s r v,
  opt_not_nan (nf_min t) -> opt_not_nan (nf_max t) -> num_inherit t s = Ok r ->
  (num_accepts r v <-> num_accepts t v /\ num_accepts s v).
Proof. exact num_inherit_inter. Qed.
Print Assumptions C13_number_inherit.

(** A child bound [.nan] switches the parent's bound off. *)
Theorem C13_number_nan_bound_refuted :
  ~ (forall t s r v, num_inherit t s = Ok r -> num_accepts r v -> num_accepts s v).
Proof.
  intros H.
  set (t := NumF (Some S754_nan) None None None None).
  set (s := NumF (Some (float_of_Z 10)) None None None None).
  assert (K : num_accepts s (GInt 1)).
  { apply (H t s t (GInt 1)); [reflexivity|]. apply num_validate_iff. reflexivity. }
  apply num_validate_iff in K. discriminate K.
Qed.
Print Assumptions C13_number_nan_bound_refuted.

(** Strings: everything but the pattern. *)
Theorem C13_string_inherit : forall O t s r v,
  str_inherit t s = Ok r ->
  let drop f := StrF (sf_min f) (sf_max f) None (sf_enum f) in
  (str_accepts O (drop r) v <-> str_accepts O (drop t) v /\ str_accepts O (drop s) v).
Proof. exact str_inherit_inter_nopat. Qed.
Print Assumptions C13_string_inherit.

Theorem C13_file_inherit : forall t s r v,
  file_inherit t s = Ok r -> (file_accepts r v <-> file_accepts t v /\ file_accepts s v).
Proof. exact file_inherit_inter. Qed.
Print Assumptions C13_file_inherit.

Theorem C13_boolean_inherit : forall t s r v,
  bool_inherit t s = Ok r -> (bool_accepts r v <-> bool_accepts t v /\ bool_accepts s v).
Proof. exact bool_inherit_inter. Qed.
Print Assumptions C13_boolean_inherit.

(** Inheritance is refused exactly when the child relaxes a facet. *)
Theorem C13_refusals : 
  (forall t s, enum_comparable (if_enum t) ->
    (int_inherit t s = Err <->
     min_relaxed (if_min t) (if_min s) \/ max_relaxed (if_max t) (if_max s)
     \/ enum_escapes (if_enum t) (if_enum s)
     \/ (exists f g, if_format t = Some f /\ if_format s = Some g
           /\ exists w x, format_width f w /\ format_width g x /\ w <> x)))
  /\ (forall t s, enum_comparable (nf_enum t) ->
    (num_inherit t s = Err <->
     (exists a b, nf_min t = Some a /\ nf_min s = Some b /\ flt a b)
     \/ (exists a b, nf_max t = Some a /\ nf_max s = Some b /\ flt b a)
     \/ enum_escapes (nf_enum t) (nf_enum s)
     \/ (exists f g, nf_format t = Some f /\ nf_format s = Some g /\ f <> g)))
  /\ (forall t s, enum_comparable (sf_enum t) ->
    (str_inherit t s = Err <->
     min_relaxed (sf_min t) (sf_min s) \/ max_relaxed (sf_max t) (sf_max s)
     \/ enum_escapes (sf_enum t) (sf_enum s)))
  /\ (forall t s, enum_comparable (ff_types t) ->
    (file_inherit t s = Err <->
     min_relaxed (ff_min t) (ff_min s) \/ max_relaxed (ff_max t) (ff_max s)
     \/ enum_escapes (ff_types t) (ff_types s)))
  /\ (forall t s, enum_comparable t -> (bool_inherit t s = Err <-> enum_escapes t s))
  /\ (forall t s, datetime_inherit t s = Err <-> exists f g, t = Some f /\ s = Some g /\ f <> g).
Proof.
  exact (conj int_inherit_err (conj num_inherit_err (conj str_inherit_err
          (conj file_inherit_err (conj bool_inherit_err datetime_inherit_err))))).
Qed.
Print Assumptions C13_refusals.

(** Facets that validation does not look at: the child's value stays, a
    missing one is taken from the parent. For the multipleOf of a number it is
    the other way round: the parent's value replaces the child's. *)
Theorem C13_kept_facets :
  (forall t s r, int_inherit t s = Ok r ->
     kept (if_mult t) (if_mult s) (if_mult r) /\ kept (if_format t) (if_format s) (if_format r)
     /\ (if_min t = None -> if_min r = if_min s) /\ (if_max t = None -> if_max r = if_max s)
     /\ (if_enum t = None -> if_enum r = if_enum s))
  /\ (forall t s r, num_inherit t s = Ok r ->
     kept (nf_mult s) (nf_mult t) (nf_mult r) /\ kept (nf_format t) (nf_format s) (nf_format r)
     /\ (nf_min t = None -> nf_min r = nf_min s) /\ (nf_max t = None -> nf_max r = nf_max s)
     /\ (nf_enum t = None -> nf_enum r = nf_enum s))
  /\ (forall t s r, str_inherit t s = Ok r ->
     kept (sf_pat t) (sf_pat s) (sf_pat r)
     /\ (sf_min t = None -> sf_min r = sf_min s) /\ (sf_max t = None -> sf_max r = sf_max s)
     /\ (sf_enum t = None -> sf_enum r = sf_enum s))
  /\ (forall t s r, datetime_inherit t s = Ok r -> kept t s r).
Proof. exact kept_facets. Qed.
Print Assumptions C13_kept_facets.

(** Two spellings of one width are compatible, different widths are not, and a
    misspelt format passes for int8. *)
Example C13_formats :
  let f x := IntF None None None (Some x) None in
  int_inherit (f "long") (f "int64") = Ok (f "long")
  /\ int_inherit (f "int") (f "int64") = Err
  /\ int_inherit (f "int80") (f "int8") = Ok (f "int80")
  /\ format_width "int80" 8.
Proof.
  repeat split. apply fw_unknown. simpl. intuition discriminate.
Qed.

Example C13_hyps :
  (exists r, int_inherit (IntF (Some 3) None None None (Some [GInt 4])) (IntF (Some 1) (Some 9) None (Some "int8") (Some [GInt 4; GInt 5])) = Ok r)
  /\ int_inherit (IntF (Some 0) None None None None) (IntF (Some 1) None None None None) = Err
  /\ enum_comparable (Some [GInt 4; GStr "a"])
  /\ (exists r, num_inherit (NumF (Some (float_of_Z 3)) None None None None) (NumF (Some f1_5) None None None None) = Ok r)
  /\ opt_not_nan (Some f1_5)
  /\ (exists r, str_inherit (StrF (Some 3) None (Some "x") None) (StrF (Some 2) (Some 8) (Some "y") (Some [GStr "q"])) = Ok r)
  /\ (exists r, file_inherit (FileF (Some 3) None None) (FileF None (Some 8) None) = Ok r)
  /\ (exists r, bool_inherit (Some [GBool true]) (Some [GBool false; GBool true]) = Ok r).
Proof.
  split; [eexists; reflexivity|]. split; [reflexivity|].
  split; [intros l [= <-]; repeat constructor|].
  split; [eexists; reflexivity|]. split; [intros m [= <-]; discriminate|].
  repeat split; eexists; reflexivity.
Qed.

(** * C14, scalar part *)
Theorem C14_string_pattern_refuted :
  ~ (forall O t s r v, str_inherit t s = Ok r -> str_accepts O r v -> str_accepts O s v).
Proof.
  intros H.
  set (t := StrF None None (Some "a") None). set (s := StrF None None (Some "b") None).
  assert (K : str_accepts ex_oracle s (GStr "a")).
  { apply (H ex_oracle t s t (GStr "a")); [reflexivity|]. apply str_validate_iff. reflexivity. }
  apply str_validate_iff in K. discriminate K.
Qed.
Print Assumptions C14_string_pattern_refuted.

Theorem C14_string_pattern_partial : forall O t s r v,
  str_inherit t s = Ok r ->
  (sf_pat t = None \/ sf_pat s = None \/ sf_pat t = sf_pat s) ->
  (str_accepts O r v <-> str_accepts O t v /\ str_accepts O s v).
Proof. exact str_inherit_inter. Qed.
Print Assumptions C14_string_pattern_partial.

(** A parent datetime without format means RFC 3339; a child may switch to RFC 2616. *)
Theorem C14_datetime_format_refuted :
  ~ (forall O t s r v, datetime_inherit t s = Ok r -> datetime_accepts O r v -> datetime_accepts O s v).
Proof.
  intros H.
  pose (O := {| o_match := fun _ _ => true; o_time := fun l _ => String.eqb l layout_rfc2616;
                o_f2i := fun _ => 0; o_json := fun _ => None; o_hash := fun _ => 0 |}).
  assert (K : datetime_accepts O None (GStr "x")).
  { apply (H O (Some "rfc2616") None (Some "rfc2616") (GStr "x")); [reflexivity|].
    apply datetime_validate_iff. reflexivity. }
  apply datetime_validate_iff in K. discriminate K.
Qed.
Print Assumptions C14_datetime_format_refuted.

Theorem C14_datetime_format_partial : forall O t s r v,
  datetime_inherit t s = Ok r -> (t = None \/ s <> None) ->
  (datetime_accepts O r v -> datetime_accepts O s v).
Proof. exact datetime_inherit_inter. Qed.
Print Assumptions C14_datetime_format_partial.

Example C14_hyps :
  (exists r, str_inherit (StrF None None (Some "a") None) (StrF (Some 1) None None None) = Ok r)
  /\ (exists r, datetime_inherit None (Some "rfc2616") = Ok r).
Proof. split; eexists; reflexivity. Qed.

(** * C30, scalar part: check succeeds exactly on consistent facets. *)
Theorem C30_scalar_check :
  (forall s, int_check s = Ok tt <-> int_consistent s)
  /\ (forall s, num_check s = Ok tt <-> num_consistent s)
  /\ (forall s, str_check s = Ok tt <-> str_consistent s)
  /\ (forall s, file_check s = Ok tt <-> file_consistent s)
  /\ (forall e, bool_check e = Ok tt <-> bool_consistent e).
Proof.
  exact (conj int_check_iff (conj num_check_iff (conj str_check_iff (conj file_check_iff bool_check_iff)))).
Qed.
Print Assumptions C30_scalar_check.

Example C30_scalar_cases :
  int_consistent (IntF (Some 1) (Some 1) None (Some "long") (Some [GInt 1]))
  /\ ~ int_consistent (IntF (Some 2) (Some 1) None None None)
  /\ ~ num_consistent (NumF None None None None (Some [GStr "1"])).
Proof.
  split; [apply int_check_iff; reflexivity|]. split.
  - intros H; apply int_check_iff in H; discriminate H.
  - intros H; apply num_check_iff in H; discriminate H.
Qed.
