(** Facets that do not constrain values (C85). *)
From Coq Require Import ZArith List String Bool Ascii Lia.
From Verif Require Import Base Scalars Heap Validate Spec_Idle Names Yaml Pipeline Decode Parse
  Props_Validate Props_Parse Props_Fresh Props_Added Props_Documents Props_Silent.
Import ListNotations.
Open Scope string_scope.
Open Scope list_scope.
Open Scope nat_scope.

(** * C85 *)

(** [multipleOf], the [format] of integers and numbers, [fileTypes], the enum of a
    union and the text of a JSON schema can be struck out of a model without an
    effect on any verdict of Validate. *)
Theorem C85_idle : forall h n O a v, validate n O (map lax h) a v = validate n O h a v.
Proof.
  intros h n O.
  assert (Bs : forall y, get_base (map lax h) y = option_map (fun b => set_shape (option_map lax_shape (b_shape b)) b) (get_base h y)).
  { intros y. unfold get_base. rewrite nth_error_map. destruct (nth_error h y) as [[]|]; reflexivity. }
  assert (Ps : forall y, get_props (map lax h) y = get_props h y).
  { intros y. unfold get_props. rewrite nth_error_map. destruct (nth_error h y) as [[]|]; reflexivity. }
  assert (Ss : forall y, get_slice (map lax h) y = get_slice h y).
  { intros y. unfold get_slice. rewrite nth_error_map. destruct (nth_error h y) as [[]|]; reflexivity. }
  induction n as [|n IH]; intros a v; auto. cbn [validate]. rewrite Bs. destruct (get_base h a) as [b|]; auto.
  cbn [option_map set_shape b_shape]. destruct (b_shape b) as [sh|]; auto. destruct sh; cbn [option_map lax_shape]; auto.
  - (* array *) unfold array_validate. destruct v; auto. destruct (below _ _ _); auto. destruct (above _ _ _); auto.
    erewrite items_alike; [reflexivity|]. intros i w _. apply IH.
  - (* object *) assert (Q : forall o, opt_props (map lax h) o = opt_props h o) by (intros [m|]; cbn; auto).
    rewrite !Q. destruct (opt_props h (o_props f)) as [ps|]; auto. destruct (opt_props h (o_pprops f)) as [pps|]; auto.
    unfold object_validate. destruct v; auto. destruct (below _ _ _); auto. destruct (above _ _ _); auto.
    destruct (missing_required _ _); auto. apply props_alike; intros key q w I; apply IH.
  - (* union *) rewrite Ss. destruct (get_slice h anyof) as [l|]; auto. apply union_alike. intros x _. apply IH.
Qed.
Print Assumptions C85_idle.

(** ** Documents *)

(** Decimal digits are read as numbers. *)
Definition on85 (d : disk) : denv :=
  let E := typed d in
  {| d_y := d_y E; d_bool := d_bool E; d_text := d_text E; d_uint := d_uint E; d_float := fun v => option_map (fun z => Some (float_of_Z z)) (digit (y_value v));
     d_any := d_any E; d_string := d_string E; d_strict := d_strict E; d_int := d_int E; d_re := d_re E; d_schema := d_schema E; d_base := d_base E |}.
(** The library with the types [ts] parses with unwrapping and validation. *)
Definition gives85 (ts : list (string * ynode)) (p : pst) : Prop :=
  parse_string (on85 (library_of ts)) 40 exO ["a.raml"] ["a.raml"] ["a.raml"] true true (lib_head ++ "a.raml")%string "a.raml" = (Ok (ELib 0), p).
Definition facets_of (p : pst) (name : string) : option shape :=
  match type_in p name with
  | Some a => match get_base (heap (p_st p)) a with Some b => b_shape b | None => None end
  | None => None
  end.

(** [T: {type: integer, multipleOf: 5, minimum: 2}] accepts 7, and does not accept 1. *)
Theorem C85_multiple_refuted : exists p,
  gives85 [("T", mp [("type", sc "integer"); ("multipleOf", int "5"); ("minimum", int "2")]);
           ("N", mp [("type", sc "number"); ("multipleOf", int "5")])] p
  /\ facets_of p "T" = Some (SInt (IntF (Some 2%Z) None (Some (float_of_Z 5)) None None))
  /\ verdict p "T" (GInt 7) = Ok tt /\ verdict p "T" (GInt 1) = Err /\ verdict p "N" (GInt 7) = Ok tt.
Proof. shown. Qed.
Print Assumptions C85_multiple_refuted.

(** [T: {type: integer, format: int8}] accepts 1000. *)
Theorem C85_format_refuted : exists p,
  gives85 [("T", mp [("type", sc "integer"); ("format", sc "int8")])] p
  /\ facets_of p "T" = Some (SInt (IntF None None None (Some "int8") None)) /\ verdict p "T" (GInt 1000) = Ok tt.
Proof. shown. Qed.
Print Assumptions C85_format_refuted.

(** [T: {type: file, fileTypes: [image/png], maxLength: 5}] accepts every text of at most five bytes. *)
Theorem C85_file_types_refuted : exists p,
  gives85 [("T", mp [("type", sc "file"); ("fileTypes", sq [sc "image/png"]); ("maxLength", int "5")])] p
  /\ facets_of p "T" = Some (SFile (FileF None (Some 5%Z) (Some [GStr "image/png"])))
  /\ verdict p "T" (GStr "hello") = Ok tt /\ verdict p "T" (GStr "hello!") = Err.
Proof. shown. Qed.
Print Assumptions C85_file_types_refuted.

(** All of them in one model, which is changed when they are struck out. *)
Definition ts85 : list (string * ynode) :=
  [("T", mp [("type", sc "integer"); ("multipleOf", int "5"); ("format", sc "int8"); ("minimum", int "2")]);
   ("O", mp [properties_of [("t", sc "T"); ("u", mp [("type", sc "string | T"); ("enum", sq [sc "a"])])]])].
Definition done85 : res entry_point * pst :=
  parse_string (on85 (library_of ts85)) 40 exO ["a.raml"] ["a.raml"] ["a.raml"] true true (lib_head ++ "a.raml")%string "a.raml".
Example C85_idle_case : fst done85 = Ok (ELib 0)
  /\ match type_in (snd done85) "T" with
     | Some a => option_map b_shape (get_base (map lax (heap (p_st (snd done85)))) a) <> option_map b_shape (get_base (heap (p_st (snd done85))) a)
     | None => False
     end
  /\ verdict (snd done85) "O" (GMap [("t", GInt 7); ("u", GStr "b")]) = Ok tt /\ verdict (snd done85) "O" (GMap [("t", GInt 1); ("u", GStr "a")]) = Err.
Proof. split; [vm_compute; reflexivity|]. split; [vm_compute; discriminate|]. split; vm_compute; reflexivity. Qed.
