(** Data type files in JSON (C81). *)
From Coq Require Import ZArith List String Bool Ascii Lia.
From Verif Require Import Base Scalars Heap Heap_lemmas Rdt Names Spec_Names Yaml Spec_Yaml Validate Spec_Validate Spec_Model Spec_Resolve
  Model_check Pipeline Decode Parse Spec_Parse Spec_Decode Decode_says Decode_files Decode_settle Parse_ends Props_Validate Props_Parse Props_Fresh Props_Decode.
Import ListNotations.
Open Scope string_scope.
Open Scope list_scope.
Open Scope nat_scope.

(** * C81 *)

(** The text of the file is the schema, to the letter, and there is nothing else
    in the type. *)
Theorem C81_schema_file : forall E n O o1 o2 o3 vl path0 text ep p path uses o,
  parse_string E n O o1 o2 o3 false vl text path0 = (Ok ep, p) -> oget path (p_frags p) = Some (FDT uses o) ->
  has_suffix ".json" path = true ->
  (forall text', (path = path0 /\ text' = text) \/ e_read (d_y E) path = Some text' -> exists s, text' = String "{" s) ->
  exists text' x b, ((path = path0 /\ text' = text) \/ e_read (d_y E) path = Some text') /\ o = Some x
    /\ d_schema E text' = true /\ get_base (heap (p_st p)) x = Some b
    /\ b_shape b = Some (SJSON text') /\ b_type b = "json" /\ b_name b = d_base E path /\ b_loc b = path
    /\ b_alias b = None /\ b_link b = None /\ get_slice (heap (p_st p)) (b_inherits b) = Some []
    /\ b_disp b = None /\ b_desc b = None /\ b_required b = None /\ b_default b = None /\ b_example b = None /\ b_examples b = None
    /\ b_domain b = [].
Proof.
  intros E n O o1 o2 o3 vl path0 text ep p path uses o H Fr Js Op.
  assert (X : exists text', ((path = path0 /\ text' = text) \/ e_read (d_y E) path = Some text') /\ fragment_says E p path text' (FDT uses o)).
  { destruct vl; [exact (C62_validated _ _ _ _ _ _ _ _ _ _ H path _ Fr)|exact (C62_as_written _ _ _ _ _ _ _ _ _ _ H path _ Fr)]. }
  destruct X as (text' & Tx & doc & v & x & Q & D & Kv & En & R & Rx & HR). rewrite Js in D. subst doc.
  destruct (Op _ Tx) as (s & Qs).
  destruct (HR _ _ _ _ Rx) as (b & Gb & Do & Pa & Sh & _). exists text', x, b. split; auto. split; auto.
  change (type_entries (json_document text')) with [("type", Y KScalar "!!str" text' [])] in En. rewrite En in Do.
  assert (Tn : type_node v = Some (Y KScalar "!!str" text' [])) by (unfold type_node; rewrite Kv, En; reflexivity).
  assert (Ow : own_facets v = []) by (unfold own_facets; rewrite En; reflexivity).
  assert (Nw : ~ wrapped_name v) by (intros (N & _); congruence).
  assert (By : by_itself v).
  { unfold by_itself. rewrite Tn. cbn. eauto 10. }
  destruct (Sh Nw) as (Kr & sh & S & _ & Kn & _). unfold kind_read in Kr. rewrite Tn in Kr. cbn [y_kind y_tag y_value] in Kr.
  destruct Kr as (_ & Kr). destruct (Kr eq_refl) as (_ & Kj & _). specialize (Kj s Qs). destruct Kj as [Kj Ds]. split; auto. split; auto. split; [exact Kj|].
  rewrite Kj in S. injection S as <-. split; [exact Kn|].
  destruct Do as [D1 D2 D3 D4 D5 D6 D7 D8 D9 D10 _]. cbn in *. destruct (proj2 Pa By) as (A1 & A2 & A3). repeat (split; auto).
  inversion D10 as [|l m key node name y Fl Ry Ql]; [reflexivity|]. destruct l; discriminate.
Qed.
Print Assumptions C81_schema_file.

(** A text that begins with a brace and is no schema is an error wherever the file
    is needed. *)
Theorem C81_not_a_schema : forall E n path s p,
  has_suffix ".json" path = true -> oget path (p_frags p) = None ->
  e_read (d_y E) path = Some (String "{" s) -> d_schema E (String "{" s) = false ->
  forall a p', parse_dt E n path p <> (Ok a, p').
Proof.
  intros E n path s p Js Nf Rd Ns a p' H. destruct n as [|n]; [discriminate|]. rewrite Parse_ends.parse_dt_eq, Nf in H.
  apply dbind_inv in H. destruct H as (text & p1 & H1 & H). apply dlift_inv in H1. destruct H1 as [O ->].
  assert (Qt : text = String "{" s).
  { unfold open_fragment in O. rewrite Rd in O. destruct (check_kind _ _ _) as [[] ?]; try discriminate. now injection O. }
  subst text. unfold decode_dt in H. rewrite Js in H. apply dbind_inv in H. destruct H as (o & p1 & H1 & H). apply dret_inv in H1. destruct H1 as [-> ->].
  apply dbind_inv in H. destruct H as (r & p1 & H1 & _). unfold unmarshal_dt in H1. cbn [json_document y_kind] in H1.
  apply dbind_inv in H1. destruct H1 as (q & p2 & H1 & H2). apply dlift_inv in H1. destruct H1 as [D ->].
  injection D as <-. apply dbind_inv in H2. destruct H2 as (x & p3 & H2 & _). unfold shape_yaml in H2. cbn [ysize shape_at] in H2.
  unfold new_shape in H2. apply dbind_inv in H2. destruct H2 as (b & p4 & _ & H2). apply dbind_inv in H2. destruct H2 as (tf & p5 & H3 & H2).
  assert (T : fst tf = Some (Y KScalar "!!str" (String "{" s) [])).
  { unfold decode in H3. cbn in H3. unfold dbind, dret in H3. injection H3 as <- _. reflexivity. }
  rewrite T in H2. apply dbind_inv in H2. destruct H2 as (ty & p6 & H2 & _). unfold shape_type in H2. cbn in H2.
  apply dbind_inv in H2. destruct H2 as (u & p7 & _ & H2). rewrite Ns in H2. discriminate.
Qed.
Print Assumptions C81_not_a_schema.

(** The schema is not consulted: whatever it says, all values are accepted. *)
Theorem C81_values_refuted : forall E n O o1 o2 o3 vl path0 text ep p path uses o,
  parse_string E n O o1 o2 o3 false vl text path0 = (Ok ep, p) -> oget path (p_frags p) = Some (FDT uses o) ->
  has_suffix ".json" path = true ->
  (forall text', (path = path0 /\ text' = text) \/ e_read (d_y E) path = Some text' -> exists s, text' = String "{" s) ->
  exists x, o = Some x /\ forall k O' v, validate (S k) O' (heap (p_st p)) x v = Ok tt.
Proof.
  intros E n O o1 o2 o3 vl path0 text ep p path uses o H Fr Js Op.
  destruct (C81_schema_file _ _ _ _ _ _ _ _ _ _ _ _ _ _ H Fr Js Op) as (text' & x & b & _ & Qo & _ & Gb & Sh & _).
  exists x. split; auto. intros k O' v. cbn [validate]. now rewrite Gb, Sh.
Qed.
Print Assumptions C81_values_refuted.

(** ** Instances *)

(** A library with the type [T: !include s.json]; the text of s.json is [text]. *)
Definition d81 : disk := [("a.raml", lib_head, mp [("types", mp [("T", mp [("type", inc "s.json")])])])].
Definition on81 (text : string) : denv :=
  let E := on62 d81 in
  {| d_y := {| e_scalar := e_scalar (d_y E); e_join := e_join (d_y E); e_ext := e_ext (d_y E);
               e_read := fun path => if String.eqb path "s.json" then Some text else e_read (d_y E) path;
               e_yaml := e_yaml (d_y E); e_json := e_json (d_y E) |};
     d_bool := d_bool E; d_text := d_text E; d_uint := d_uint E; d_float := d_float E; d_any := d_any E;
     d_string := d_string E; d_strict := d_strict E; d_int := d_int E; d_re := d_re E;
     d_schema := fun s => negb (String.eqb s "{"); d_base := d_base E |}.
Definition files81 : list string := ["a.raml"; "s.json"].
Definition parsed81 (text : string) : res entry_point * pst :=
  parse_string (on81 text) 40 exO files81 files81 files81 false false (lib_head ++ "a.raml")%string "a.raml".
Definition p81 : pst := snd (parsed81 "{}").
Lemma done81 : parse_string (on81 "{}") 40 exO files81 files81 files81 false false (lib_head ++ "a.raml")%string "a.raml" = (Ok (ELib 0), p81).
Proof. vm_compute. reflexivity. Qed.

Example C81_schema_file_case : exists x b, option_map (fun f => match f with FDT _ o => o | _ => None end) (oget "s.json" (p_frags p81)) = Some (Some x)
  /\ get_base (heap (p_st p81)) x = Some b /\ b_shape b = Some (SJSON "{}") /\ b_loc b = "s.json".
Proof.
  assert (X : exists u o, oget "s.json" (p_frags p81) = Some (FDT u o)) by (eexists; eexists; vm_compute; reflexivity).
  destruct X as (u & o & Fr).
  assert (Op : forall text', ("s.json" = "a.raml" /\ text' = (lib_head ++ "a.raml")%string) \/ e_read (d_y (on81 "{}")) "s.json" = Some text' -> exists s, text' = String "{" s).
  { intros text' [(Q & _)|Q]; [discriminate|]. cbn in Q. injection Q as <-. eauto. }
  destruct (C81_schema_file _ _ _ _ _ _ _ _ _ _ _ _ _ _ done81 Fr eq_refl Op) as (text' & x & b & Tx & Qo & _ & Gb & Sh & _ & _ & Lo & _).
  destruct Tx as [(Q & _)|Q]; [discriminate|]. cbn in Q. injection Q as <-. exists x, b. rewrite Fr, Qo. auto.
Qed.

Example C81_not_a_schema_case : fst (parsed81 "{") = Err.
Proof. vm_compute. reflexivity. Qed.

(** A file that begins with a line break is not taken as JSON: the text is read as
    a type expression, which it is not. *)
Theorem C81_whitespace_refuted : fst (parsed81 "{}") = Ok (ELib 0) /\ fst (parsed81 (newline ++ "{}")%string) = Err.
Proof. split; vm_compute; reflexivity. Qed.
Print Assumptions C81_whitespace_refuted.

(** The type of the file s.json. *)
Definition kind81 (text : string) : option string :=
  match oget "s.json" (p_frags (snd (parsed81 text))) with
  | Some (FDT _ (Some x)) => option_map b_type (get_base (heap (p_st (snd (parsed81 text)))) x)
  | _ => None
  end.

(** An empty file is a type of strings, and a file may hold a type expression. *)
Theorem C81_no_schema_refuted : fst (parsed81 "") = Ok (ELib 0) /\ kind81 "" = Some "string"
  /\ fst (parsed81 "integer[]") = Ok (ELib 0) /\ kind81 "integer[]" = Some "array".
Proof. split; [vm_compute; reflexivity|]. split; [vm_compute; reflexivity|]. split; vm_compute; reflexivity. Qed.
Print Assumptions C81_no_schema_refuted.
