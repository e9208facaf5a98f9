(** Decoding a declaration gives a type as written (C62): the facets of a type
    whose kind is known. *)
From Coq Require Import ZArith List String Bool Ascii Lia.
From Verif Require Import Base Scalars Heap Rdt Resolve Names Spec_Names Yaml Spec_Yaml Yaml_proofs Pipeline Spec_Resolve Spec_Model
  Decode Parse Spec_Parse Spec_Decode Parse_ends Heap_lemmas Parse_fresh Decode_says Decode_read.
From Verif Require Names_proofs.
Import ListNotations.
Open Scope string_scope.
Open Scope list_scope.
Open Scope nat_scope.

(** * One more facet *)

Section Facets.
Variable E : denv.
Variable loc : string.

Lemma field_none {A} (R : ynode -> A -> Prop) k fs key v r : String.eqb k key = false -> field R k fs r -> field R k (fs ++ [(key, v)]) r.
Proof. intros Q. unfold field. now rewrite last_of_snoc, Q. Qed.
Lemma field_as_none {A} (dec : ynode -> option (option A)) k fs key v r :
  String.eqb k key = false -> field_as dec k fs r -> field_as dec k (fs ++ [(key, v)]) r.
Proof. intros Q. unfold field_as. now rewrite last_of_snoc, Q. Qed.
Lemma field_some {A} (R : ynode -> A -> Prop) k fs v x : R v x -> field R k (fs ++ [(k, v)]) (Some x).
Proof. intros Q. unfold field. rewrite last_of_snoc, String.eqb_refl. eauto. Qed.
Lemma field_as_some {A} (dec : ynode -> option (option A)) k fs v r : dec v = Some r -> field_as dec k (fs ++ [(k, v)]) r.
Proof. intros Q. unfold field_as. now rewrite last_of_snoc, String.eqb_refl. Qed.

Lemma or_err_ok {A} (o : option A) x : or_err o = Ok x -> o = Some x.
Proof. destruct o; cbn; congruence. Qed.

(** A key that is none of the names. *)
Ltac no_key H := repeat match type of H with (String.eqb ?k ?s || ?r)%bool = false =>
    apply orb_false_iff in H; let H' := fresh "K" in destruct H as [H' H]; rewrite String.eqb_sym in H' end.

Lemma read_skip sh fs key v : existsb (String.eqb key) (facet_names sh) = false ->
  facets_read E loc sh fs -> facets_read E loc sh (fs ++ [(key, v)]).
Proof.
  intros N. destruct sh; cbn [facets_read facet_names existsb] in *; auto; no_key N;
    try (intros (A & B & C & D & F)); try (intros (A & B & C & D)); try (intros (A & B & C)); try intros A;
    repeat match goal with |- _ /\ _ => split end;
    try (apply field_none; assumption); try (apply field_as_none; assumption).
  rewrite last_of_snoc, K1. exact C.
Qed.

Lemma all_snoc fs key v : all_properties (fs ++ [(key, v)])
  = all_properties fs ++ (if String.eqb key "properties" then pairs (y_content v) else []).
Proof. unfold all_properties. rewrite flat_map_app. cbn. now rewrite app_nil_r. Qed.

Lemma custom_snoc sh fs key v : custom_of sh (fs ++ [(key, v)]) = custom_of sh fs ++ custom_of sh [(key, v)].
Proof. destruct sh; cbn [custom_of]; try (rewrite filter_app; reflexivity); reflexivity. Qed.

Definition reads_custom (sh : shape) : bool := match sh with SUnion _ _ | SJSON _ | SUnknown | SRec _ => false | _ => true end.

Lemma custom_in sh key v : existsb (String.eqb key) (facet_names sh) = true -> custom_of sh [(key, v)] = [].
Proof. intros Q. destruct sh; cbn [custom_of filter]; auto; cbn [fst]; now rewrite Q. Qed.
Lemma custom_out sh key v : reads_custom sh = true -> existsb (String.eqb key) (facet_names sh) = false -> custom_of sh [(key, v)] = [(key, v)].
Proof. intros Rc Q. destruct sh; try discriminate Rc; cbn [custom_of filter]; cbn [fst]; now rewrite Q. Qed.

Ltac eqs H := repeat match type of H with context [String.eqb ?k ?s] => destruct (String.eqb_spec k s); [subst|] end.
Ltac rb H := let x := fresh "x" in let Q := fresh "Q" in
  match type of H with rbind ?r _ = _ => destruct r as [x| | |] eqn:Q; cbn [rbind] in H; try discriminate H end.
Ltac flds := repeat match goal with |- _ /\ _ => split end;
  first [ apply field_some | apply field_as_some | idtac ];
  auto using or_err_ok;
  try (apply field_none; [reflexivity|assumption]); try (apply field_as_none; [reflexivity|assumption]).

Lemma int_read key v f f' fs : int_facet E loc key v f = Ok (Some f') -> facets_read E loc (SInt f) fs ->
  facets_read E loc (SInt f') (fs ++ [(key, v)]) /\ existsb (String.eqb key) (facet_names (SInt f)) = true.
Proof.
  intros H (A & B & C & D & F). unfold int_facet in H.
  destruct (String.eqb_spec key "minimum") as [->|N1].
  { destruct (String.eqb_spec (y_tag v) "!!int") as [T|]; [|discriminate]. rb H. injection H as <-. split; [|reflexivity]. cbn. flds. split; auto using or_err_ok. }
  destruct (String.eqb_spec key "maximum") as [->|N2].
  { destruct (String.eqb_spec (y_tag v) "!!int") as [T|]; [|discriminate]. rb H. injection H as <-. split; [|reflexivity]. cbn. flds. split; auto using or_err_ok. }
  destruct (String.eqb_spec key "multipleOf") as [->|N3]; [rb H; injection H as <-; split; [|reflexivity]; cbn; flds|].
  destruct (String.eqb_spec key "format") as [->|N4].
  { destruct (existsb _ _) eqn:Ex in H; [|discriminate]. rb H. injection H as <-. split; [|reflexivity]. apply or_err_ok in Q. cbn. flds.
    exact (eq_trans (f_equal (fun c : bool => if c then d_text E v else None) Ex) Q). }
  destruct (String.eqb_spec key "enum") as [->|N5]; [|discriminate].
  rb H. injection H as <-. split; [|reflexivity]. destruct (enum_read E _ _ _ Q) as (l & -> & V). cbn. flds.
Qed.

Lemma num_read key v f f' fs : num_facet E loc key v f = Ok (Some f') -> facets_read E loc (SNum f) fs ->
  facets_read E loc (SNum f') (fs ++ [(key, v)]) /\ existsb (String.eqb key) (facet_names (SNum f)) = true.
Proof.
  intros H (A & B & C & D & F). unfold num_facet in H.
  destruct (String.eqb_spec key "minimum") as [->|N1]; [rb H; injection H as <-; split; [|reflexivity]; cbn; flds|].
  destruct (String.eqb_spec key "maximum") as [->|N2]; [rb H; injection H as <-; split; [|reflexivity]; cbn; flds|].
  destruct (String.eqb_spec key "format") as [->|N4].
  { destruct (existsb _ _) eqn:Ex in H; [|discriminate]. rb H. injection H as <-. split; [|reflexivity]. apply or_err_ok in Q. cbn. flds.
    exact (eq_trans (f_equal (fun c : bool => if c then d_text E v else None) Ex) Q). }
  destruct (String.eqb_spec key "enum") as [->|N5].
  { rb H. injection H as <-. split; [|reflexivity]. destruct (enum_read E _ _ _ Q) as (l & -> & V). cbn. flds. }
  destruct (String.eqb_spec key "multipleOf") as [->|N3]; [rb H; injection H as <-; split; [|reflexivity]; cbn; flds|discriminate].
Qed.

Lemma str_read key v f f' fs : str_facet E loc key v f = Ok (Some f') -> facets_read E loc (SStr f) fs ->
  facets_read E loc (SStr f') (fs ++ [(key, v)]) /\ existsb (String.eqb key) (facet_names (SStr f)) = true.
Proof.
  intros H (A & B & C & D). unfold str_facet in H.
  destruct (String.eqb_spec key "minLength") as [->|N1]; [rb H; injection H as <-; split; [|reflexivity]; cbn; flds|].
  destruct (String.eqb_spec key "maxLength") as [->|N2]; [rb H; injection H as <-; split; [|reflexivity]; cbn; flds|].
  destruct (String.eqb_spec key "pattern") as [->|N4].
  { destruct (String.eqb_spec (y_tag v) "!!str") as [T|]; [|discriminate]. destruct (d_re E (y_value v)) eqn:Re; [|discriminate].
    injection H as <-. split; [|reflexivity]. cbn. flds. split; auto. }
  destruct (String.eqb_spec key "enum") as [->|N5]; [|discriminate].
  rb H. injection H as <-. split; [|reflexivity]. destruct (enum_read E _ _ _ Q) as (l & -> & V). cbn. flds.
Qed.

Lemma file_read key v f f' fs : file_facet E loc key v f = Ok (Some f') -> facets_read E loc (SFile f) fs ->
  facets_read E loc (SFile f') (fs ++ [(key, v)]) /\ existsb (String.eqb key) (facet_names (SFile f)) = true.
Proof.
  intros H (A & B & C). unfold file_facet in H.
  destruct (String.eqb_spec key "minLength") as [->|N1]; [rb H; injection H as <-; split; [|reflexivity]; cbn; flds|].
  destruct (String.eqb_spec key "maxLength") as [->|N2]; [rb H; injection H as <-; split; [|reflexivity]; cbn; flds|].
  destruct (String.eqb_spec key "fileTypes") as [->|N4]; [|discriminate].
  destruct (y_kind v) eqn:K; try discriminate. rb H. injection H as <-. split; [|reflexivity]. apply types_read in Q. destruct Q as [Q1 Q2]. cbn. flds. split; [split; auto|auto].
Qed.

Lemma bool_read key v e e' fs : bool_facet E loc key v = Ok (Some e') -> facets_read E loc (SBool e) fs ->
  facets_read E loc (SBool e') (fs ++ [(key, v)]) /\ existsb (String.eqb key) (facet_names (SBool e)) = true.
Proof.
  intros H A. unfold bool_facet in H. destruct (String.eqb_spec key "enum") as [->|N5]; [|discriminate].
  rb H. injection H as <-. split; [|reflexivity]. destruct (enum_read E _ _ _ Q) as (l & -> & V). cbn. flds.
Qed.

Lemma time_read key v e e' fs : time_facet E key v = Ok (Some e') -> facets_read E loc (SDateTime e) fs ->
  facets_read E loc (SDateTime e') (fs ++ [(key, v)]) /\ existsb (String.eqb key) (facet_names (SDateTime e)) = true.
Proof.
  intros H A. unfold time_facet in H. destruct (String.eqb_spec key "format") as [->|N5]; [|discriminate].
  destruct (existsb _ _) eqn:Ex in H; [|discriminate]. rb H. injection H as <-. split; [|reflexivity]. apply or_err_ok in Q. cbn. flds.
  exact (eq_trans (f_equal (fun c : bool => if c then d_text E v else None) Ex) Q).
Qed.

Lemma arr_read key v f f' fs : arr_facet E key v f = Ok (Some f') -> facets_read E loc (SArray f) fs ->
  facets_read E loc (SArray f') (fs ++ [(key, v)]) /\ existsb (String.eqb key) (facet_names (SArray f)) = true
  /\ a_items f' = a_items f /\ key <> "items".
Proof.
  intros H (A & B & C). unfold arr_facet in H.
  destruct (String.eqb_spec key "minItems") as [->|N1]; [rb H; injection H as <-; split; [cbn; flds|repeat split; discriminate]|].
  destruct (String.eqb_spec key "maxItems") as [->|N2]; [rb H; injection H as <-; split; [cbn; flds|repeat split; discriminate]|].
  destruct (String.eqb_spec key "uniqueItems") as [->|N3]; [|discriminate]. rb H; injection H as <-; split; [cbn; flds|repeat split; discriminate].
Qed.

Lemma obj_read key v f f' fs : obj_facet E key v f = Ok (Some f') -> facets_read E loc (SObject f) fs ->
  facets_read E loc (SObject f') (fs ++ [(key, v)]) /\ existsb (String.eqb key) (facet_names (SObject f)) = true
  /\ o_props f' = o_props f /\ o_pprops f' = o_pprops f /\ key <> "properties".
Proof.
  intros H (A & B & C & D & F). unfold obj_facet in H.
  destruct (String.eqb_spec key "additionalProperties") as [->|N1];
    [rb H; injection H as <-; split; [cbn; rewrite ?last_of_snoc; cbn [String.eqb Ascii.eqb Bool.eqb]; flds|repeat split; discriminate]|].
  destruct (String.eqb_spec key "discriminator") as [->|N2];
    [rb H; injection H as <-; split; [cbn; rewrite ?last_of_snoc; cbn [String.eqb Ascii.eqb Bool.eqb]; flds|repeat split; discriminate]|].
  destruct (String.eqb_spec key "discriminatorValue") as [->|N3].
  { rb H. injection H as <-. split; [|repeat split; discriminate]. cbn. rewrite last_of_snoc, String.eqb_refl. flds.
    - apply or_err_ok in Q. rewrite Q. destruct x; reflexivity.
    - destruct x; discriminate. }
  destruct (String.eqb_spec key "minProperties") as [->|N4];
    [rb H; injection H as <-; split; [cbn; rewrite ?last_of_snoc; cbn [String.eqb Ascii.eqb Bool.eqb]; flds|repeat split; discriminate]|].
  destruct (String.eqb_spec key "maxProperties") as [->|N5]; [|discriminate].
  rb H; injection H as <-; split; [cbn; rewrite ?last_of_snoc; cbn [String.eqb Ascii.eqb Bool.eqb]; flds|repeat split; discriminate].
Qed.

(** The default branches. *)
Ltac deflt H := repeat match type of H with
  | (if String.eqb ?k ?s then _ else _) = _ => let N := fresh in destruct (String.eqb k s) eqn:N;
       [repeat match type of H with (if ?c then _ else _) = _ => destruct c; [|discriminate H]
                                  | match y_kind ?v with _ => _ end = _ => destruct (y_kind v); try discriminate H end; rb H; discriminate H|]
  end.
Lemma int_none key v f : int_facet E loc key v f = Ok None -> existsb (String.eqb key) (facet_names (SInt f)) = false.
Proof. unfold int_facet. intros H. deflt H. cbn [facet_names existsb]. rewrite ?H0, ?H1, ?H2, ?H3, ?H4. reflexivity. Qed.
Lemma num_none key v f : num_facet E loc key v f = Ok None -> existsb (String.eqb key) (facet_names (SNum f)) = false.
Proof. unfold num_facet. intros H. deflt H. cbn [facet_names existsb]. rewrite ?H0, ?H1, ?H2, ?H3, ?H4. reflexivity. Qed.
Lemma str_none key v f : str_facet E loc key v f = Ok None -> existsb (String.eqb key) (facet_names (SStr f)) = false.
Proof.
  unfold str_facet. intros H. destruct (String.eqb key "minLength") eqn:H0; [rb H; discriminate|].
  destruct (String.eqb key "maxLength") eqn:H1; [rb H; discriminate|].
  destruct (String.eqb key "pattern") eqn:H2; [destruct (_ && _)%bool in H; discriminate|].
  destruct (String.eqb key "enum") eqn:H3; [rb H; discriminate|]. cbn [facet_names existsb]. now rewrite H0, H1, H2, H3.
Qed.
Lemma file_none key v f : file_facet E loc key v f = Ok None -> existsb (String.eqb key) (facet_names (SFile f)) = false.
Proof. unfold file_facet. intros H. deflt H. cbn [facet_names existsb]. rewrite ?H0, ?H1, ?H2, ?H3, ?H4. reflexivity. Qed.
Lemma bool_none key v e : bool_facet E loc key v = Ok None -> existsb (String.eqb key) (facet_names (SBool e)) = false.
Proof. unfold bool_facet. intros H. deflt H. cbn [facet_names existsb]. rewrite ?H0. reflexivity. Qed.
Lemma time_none key v e : time_facet E key v = Ok None -> existsb (String.eqb key) (facet_names (SDateTime e)) = false.
Proof. unfold time_facet. intros H. deflt H. cbn [facet_names existsb]. rewrite ?H0. reflexivity. Qed.
Lemma arr_none key v f : arr_facet E key v f = Ok None -> key <> "items" -> existsb (String.eqb key) (facet_names (SArray f)) = false.
Proof.
  unfold arr_facet. intros H N. deflt H. apply String.eqb_neq in N. cbn [facet_names existsb]. rewrite ?H0, ?H1, ?H2, N. reflexivity.
Qed.
Lemma obj_none key v f : obj_facet E key v f = Ok None -> key <> "properties" -> existsb (String.eqb key) (facet_names (SObject f)) = false.
Proof.
  unfold obj_facet. intros H N. deflt H. apply String.eqb_neq in N. cbn [facet_names existsb].
  rewrite ?H0, ?H1, ?H2, ?H3, ?H4, N. reflexivity.
Qed.
End Facets.
