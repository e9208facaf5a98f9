(** Which documents are parsed without a panic (C46), and concrete cases. *)
From Coq Require Import ZArith List String Bool Lia.
From Verif Require Import Base Scalars Heap Names Yaml Spec_Yaml Pipeline Decode Parse Spec_Parse Spec_Calm Parse_ends Parse_calm Props_Validate Props_Parse Props_Describe.
Import ListNotations.
Open Scope string_scope.
Open Scope list_scope.
Open Scope nat_scope.

(** * C46: tidy documents are parsed without a panic *)

(** Reading a document and every file it uses or includes returns an error or
    a result when every file is asked for as one kind of fragment only, no
    library or data type is an empty document, a list of parents is not empty,
    no type is named [composite], and [facets] and the [uses] of a data type
    consist of pairs. *)
Theorem C46_loading_partial : forall E role n text path, tidy_files E role -> tidy_entry E role path text ->
  fst (decode_fragment E n text path new_raml) <> Panic.
Proof.
  intros E role n text path T Te H. pose proof (decode_quiet E role n text path T Te) as Q.
  destruct (decode_fragment E n text path new_raml) as [r p]. cbn in H. subst r. exact Q.
Qed.
Print Assumptions C46_loading_partial.

(** So does parsing without unwrapping and validation when no data type has
    [uses]: resolution may read further files, and goes on after an error. *)
Theorem C46_parsing_partial : forall E role n O o1 o2 o3 text path,
  tidy_files E role -> tidy_entry E role path text -> no_uses_in_types E role ->
  fst (parse_string E n O o1 o2 o3 false false text path) <> Panic.
Proof. exact parse_quiet. Qed.
Print Assumptions C46_parsing_partial.

(** * Cases *)

(** All nodes of a tree, except the values of [examples]. *)
Fixpoint every (f : ynode -> bool) (v : ynode) : bool :=
  let 'Y k t x c := v in
  f v && match k with
         | KMap => (fix go (l : list ynode) : bool :=
                      match l with
                      | a :: b :: l' => (if String.eqb (y_value a) "examples" then true else every f b) && go l'
                      | _ => true
                      end) c
         | _ => (fix go (l : list ynode) : bool := match l with [] => true | y :: l' => every f y && go l' end) c
         end.

Lemma every_in f t x c y : every f (Y KSeq t x c) = true -> In y c -> every f y = true.
Proof.
  intros H J. cbn [every] in H. apply andb_prop in H. destruct H as [_ H]. induction c as [|z c IH]; [destruct J|].
  apply andb_prop in H. destruct H as [H1 H2]. destruct J as [->|J]; auto.
Qed.

Lemma every_pair f t x c ps k y : every f (Y KMap t x c) = true -> pairs_of c ps -> In (k, y) ps -> k <> "examples" -> every f y = true.
Proof.
  intros H Q J N. cbn [every] in H. apply andb_prop in H. destruct H as [_ H]. induction Q as [|k0 v0 l ps P IH]; [destruct J|].
  apply andb_prop in H. destruct H as [H1 H2]. destruct J as [J|J]; [|auto]. injection J as <- <-. apply String.eqb_neq in N. now rewrite N in H1.
Qed.

Lemma every_self f v : every f v = true -> f v = true.
Proof. destruct v. cbn [every]. intros H. apply andb_prop in H. tauto. Qed.

(** The members of [properties] and [facets] are pairs of a mapping. *)
Lemma every_node f v x : (forall v, f v = true -> forall ps key u, y_kind v = KMap -> pairs_of (y_content v) ps -> In (key, u) ps -> In key ["properties"; "facets"] ->
    y_kind u = KMap /\ forall qs k w, pairs_of (y_content u) qs -> In (k, w) qs -> k <> "examples") ->
  type_node v x -> every f v = true -> f x = true.
Proof.
  intros M. induction 1 as [v|t s c w x J T IH|t s c ps key w x Q J K T IH|t s c ps key u qs k w x Q J K Q2 J2 T IH]; intros H.
  - now apply every_self.
  - apply IH. eapply every_in; eauto.
  - apply IH. eapply every_pair; eauto. destruct K as [<-|[<-|[]]]; discriminate.
  - apply IH. assert (Hu : every f u = true) by (eapply every_pair; eauto; destruct K as [<-|[<-|[]]]; discriminate).
    destruct (M _ (every_self _ _ H) ps key u eq_refl Q J K) as [Ku Nu]. destruct u as [ku tu su cu]. cbn in Ku, Q2. subst ku.
    eapply every_pair; [exact Hu|exact Q2|exact J2|]. eapply Nu; eauto.
Qed.

Fixpoint every_parsed (v : ynode) : bool :=
  let 'Y k t x c := v in
  (match k with KDoc => negb (Nat.eqb (List.length c) 0) | KMap => Nat.even (List.length c) | _ => true end)
  && (fix go (l : list ynode) : bool := match l with [] => true | y :: l' => every_parsed y && go l' end) c.

Lemma every_parsed_ok : forall v, every_parsed v = true -> parsed v.
Proof.
  fix IH 1. intros [k t x c] H. cbn [every_parsed] in H. apply andb_prop in H. destruct H as [H1 H2]. constructor.
  - revert H2. clear H1. induction c as [|y c IHc]; intros H; [constructor|]. apply andb_prop in H. destruct H as [Hy Hc]. constructor; [exact (IH y Hy)|exact (IHc Hc)].
  - intros ->. destruct c; [discriminate|discriminate].
  - intros ->. exact H1.
Qed.

Definition kind_eqb (a b : kind) : bool :=
  match a, b with KLibrary, KLibrary | KDataType, KDataType | KNamedExample, KNamedExample => true | _, _ => false end.
Lemma kind_eqb_ok a b : kind_eqb a b = true -> a = b.
Proof. destruct a, b; cbn; congruence. Qed.

Fixpoint pairs (l : list ynode) : list (string * ynode) :=
  match l with k :: v :: l' => (y_value k, v) :: pairs l' | _ => [] end.
Lemma pairs_ok l ps : pairs_of l ps -> pairs l = ps.
Proof. induction 1; cbn; congruence. Qed.

Section Disk.
Variable role : string -> kind.
Definition included (u : ynode) (k : kind) : bool :=
  match y_kind u with KScalar => negb (String.eqb (y_tag u) "!include") || kind_eqb (role (y_value u)) k | _ => true end.

Definition is_map (u : ynode) : bool := match y_kind u with KMap => true | _ => false end.
Definition plain_b (x : ynode) : bool :=
  match y_kind x with
  | KSeq => negb (Nat.eqb (List.length (y_content x)) 0)
  | KScalar => negb (String.eqb (y_value x) "composite") && included x KDataType
  | KMap => forallb (fun q => (negb (String.eqb (fst q) "facets" || String.eqb (fst q) "properties")
                               || (is_map (snd q) && Nat.even (List.length (y_content (snd q))) && forallb (fun r => negb (String.eqb (fst r) "examples")) (pairs (y_content (snd q)))))
                              && (negb (String.eqb (fst q) "examples") || included (snd q) KNamedExample)) (pairs (y_content x))
  | _ => true
  end.

Lemma included_ok u k : included u k = true -> y_kind u = KScalar -> y_tag u = "!include" -> role (y_value u) = k.
Proof. unfold included. intros H K T. rewrite K, T in H. cbn in H. now apply kind_eqb_ok. Qed.

Lemma plain_ok d loc x : plain_b x = true -> plain (on_disk d) role loc x.
Proof.
  unfold plain_b. intros H. split.
  - intros K. rewrite K in H. intros Q. rewrite Q in H. discriminate H.
  - intros K. rewrite K in H. intros Q. rewrite Q in H. discriminate H.
  - intros K T. rewrite K in H. apply andb_prop in H. now apply included_ok.
  - intros ps u K Q J. rewrite K in H. rewrite (pairs_ok _ _ Q) in H. rewrite forallb_forall in H. specialize (H _ J). cbn in H. apply andb_prop in H. destruct H as [H _]. apply andb_prop in H. destruct H as [H _]. apply andb_prop in H. tauto.
  - intros ps u K Q J. rewrite K in H. rewrite (pairs_ok _ _ Q) in H. rewrite forallb_forall in H. specialize (H _ J). cbn in H. now apply included_ok.
Qed.

Definition types_b (w : ynode) : bool := every plain_b w.
Definition uses_b (u : ynode) : bool := forallb (fun q => kind_eqb (role (y_value (snd q))) KLibrary) (pairs (y_content u)).
Definition null_b (v : ynode) : bool := match y_kind v with KScalar => String.eqb (y_tag v) "!!null" | _ => false end.
Definition library_b (v : ynode) : bool :=
  forallb (fun q => (if String.eqb (fst q) "types" || String.eqb (fst q) "annotationTypes" then forallb (fun r => types_b (snd r)) (pairs (y_content (snd q))) else true)
    && (if String.eqb (fst q) "uses" then uses_b (snd q) else true)) (pairs (y_content v)).
Definition data_type_b (v : ynode) : bool :=
  types_b v && forallb (fun q => if String.eqb (fst q) "uses" then Nat.even (List.length (y_content (snd q))) && uses_b (snd q) else true) (pairs (y_content v)).
Definition text_b (path : string) (v : ynode) : bool :=
  match role path with
  | KLibrary => negb (null_b v) && library_b v
  | KDataType => negb (has_suffix ".json" path) && negb (null_b v) && data_type_b v
  | _ => true
  end.
Definition files_b (d : disk) : bool :=
  forallb (fun x => every_parsed (snd x) && forallb (fun y => negb (String.eqb (text_of x) (text_of y)) || text_b (fst (fst x)) (snd y)) d) d.

Lemma types_ok d loc w : types_b w = true -> tidy_type (on_disk d) role loc w.
Proof.
  intros H x T. apply plain_ok. refine (every_node plain_b w x _ T H). clear. intros v H ps key u K Q J Jk. unfold plain_b in H. rewrite K in H.
  rewrite (pairs_ok _ _ Q), forallb_forall in H. specialize (H _ J). cbn [fst snd] in H. apply andb_prop in H. destruct H as [H _].
  assert (T : (String.eqb key "facets" || String.eqb key "properties")%bool = true) by (destruct Jk as [<-|[<-|[]]]; reflexivity).
  rewrite T in H. cbn [negb orb] in H. apply andb_prop in H. destruct H as [H H3]. apply andb_prop in H. destruct H as [H1 H2].
  split; [unfold is_map in H1; destruct (y_kind u); try discriminate H1; reflexivity|].
  intros qs k w0 Q2 J2. rewrite (pairs_ok _ _ Q2), forallb_forall in H3. specialize (H3 _ J2). cbn in H3. apply negb_true_iff in H3. now apply String.eqb_neq.
Qed.

Lemma uses_b_ok d loc u : uses_b u = true -> libraries (on_disk d) role loc u.
Proof. intros H us n w Q J. unfold uses_b in H. rewrite (pairs_ok _ _ Q) in H. rewrite forallb_forall in H. specialize (H _ J). now apply kind_eqb_ok. Qed.

Lemma null_ok v : null_b v = false -> ~ null v.
Proof. intros H [K T]. unfold null_b in H. rewrite K, T in H. discriminate H. Qed.

Lemma library_ok d loc v : library_b v = true -> tidy_library (on_disk d) role loc v.
Proof.
  intros H ps Q. unfold library_b in H. rewrite (pairs_ok _ _ Q) in H. rewrite forallb_forall in H. split.
  - intros s u ts k w J Ks Qt Jt. specialize (H _ J). cbn [fst snd] in H. apply andb_prop in H. destruct H as [H _].
    assert (T : String.eqb s "types" || String.eqb s "annotationTypes" = true) by (destruct Ks as [<-|[<-|[]]]; reflexivity).
    rewrite T, (pairs_ok _ _ Qt), forallb_forall in H. apply types_ok. exact (H _ Jt).
  - intros u J. specialize (H _ J). cbn [fst snd] in H. apply andb_prop in H. destruct H as [_ H]. now apply uses_b_ok.
Qed.

Lemma data_type_ok d loc v : data_type_b v = true -> tidy_data_type (on_disk d) role loc v.
Proof.
  intros H. unfold data_type_b in H. apply andb_prop in H. destruct H as [H1 H2]. split; [now apply types_ok|].
  intros ps u Q J. rewrite (pairs_ok _ _ Q), forallb_forall in H2. specialize (H2 _ J). cbn [fst snd] in H2. rewrite String.eqb_refl in H2.
  apply andb_prop in H2. destruct H2. split; auto. now apply uses_b_ok.
Qed.

Lemma text_ok d path v : text_b path v = true ->
  (role path = KLibrary -> ~ null v /\ tidy_library (on_disk d) role path v)
  /\ (role path = KDataType -> has_suffix ".json" path = false /\ ~ null v /\ tidy_data_type (on_disk d) role path v).
Proof.
  intros H. unfold text_b in H. split; intros R; rewrite R in H.
  - apply andb_prop in H. destruct H as [H1 H2]. apply negb_true_iff in H1. split; [now apply null_ok|now apply library_ok].
  - apply andb_prop in H. destruct H as [H1 H2]. apply andb_prop in H1. destruct H1 as [H0 H1]. apply negb_true_iff in H0, H1.
    split; auto. split; [now apply null_ok|now apply data_type_ok].
Qed.

Lemma disk_text d path text : files_b d = true -> e_read (d_y (on_disk d)) path = Some text -> tidy_text (on_disk d) role path text.
Proof.
  intros H R. cbn in R. destruct (find_file _ d) as [x|] eqn:F; [|discriminate]. injection R as <-.
  apply find_file_in in F. destruct F as [Jx Nx]. apply String.eqb_eq in Nx. subst path.
  unfold files_b in H. rewrite forallb_forall in H. specialize (H _ Jx). apply andb_prop in H. destruct H as [_ H]. rewrite forallb_forall in H.
  assert (Rt : forall v, root_of (on_disk d) (text_of x) v -> text_b (fst (fst x)) v = true).
  { intros v (tag & value & more & Y0). cbn in Y0. destruct (find_file _ d) as [y|] eqn:F; [|discriminate]. injection Y0 as _ _ <- _.
    apply find_file_in in F. destruct F as [Jy Ty]. apply String.eqb_eq in Ty. specialize (H _ Jy). rewrite Ty, String.eqb_refl in H. exact H. }
  split.
  - intros Ro v V. exact (proj1 (text_ok d _ v (Rt v V)) Ro).
  - intros Ro _ v V. exact (proj2 (proj2 (text_ok d _ v (Rt v V)) Ro)).
  - intros Ro Js. assert (V : exists v, root_of (on_disk d) (text_of x) v).
    { clear -Jx. unfold root_of. cbn. induction d as [|y d IH]; [destruct Jx|]. cbn. destruct (String.eqb (text_of y) (text_of x)) eqn:T; [eexists _, _, _, _; reflexivity|].
      destruct Jx as [->|J]; [rewrite String.eqb_refl in T; discriminate T|auto]. }
    destruct V as (v & V). destruct (proj2 (text_ok d _ v (Rt v V)) Ro) as [J _]. congruence.
Qed.

Lemma disk_tidy d : files_b d = true -> tidy_files (on_disk d) role.
Proof.
  intros H. split; [|intros path text; now apply disk_text]. intros text t Y0. cbn in Y0. destruct (find_file _ d) as [y|] eqn:F; [|discriminate]. injection Y0 as <-.
  apply find_file_in in F. destruct F as [Jy _]. unfold files_b in H. rewrite forallb_forall in H. specialize (H _ Jy). apply andb_prop in H. destruct H as [H _].
  constructor; [constructor; [now apply every_parsed_ok|constructor]|discriminate|discriminate].
Qed.

Definition head_b (path text : string) : bool :=
  match read_head (Rd text 0) with
  | (Ok h, _) => match identify_fragment h with Ok k => kind_eqb (role path) k | _ => true end
  | _ => true
  end.
Lemma disk_entry d path text : files_b d = true -> e_read (d_y (on_disk d)) path = Some text -> head_b path text = true -> tidy_entry (on_disk d) role path text.
Proof.
  intros H R B. split; [now apply disk_text|]. intros head r k Q K. unfold head_b in B. rewrite Q, K in B. now apply kind_eqb_ok.
Qed.

Definition bare_b (d : disk) : bool :=
  forallb (fun x => negb (kind_eqb (role (fst (fst x))) KDataType) ||
    forallb (fun y => negb (String.eqb (text_of x) (text_of y)) ||
      forallb (fun q => negb (String.eqb (fst q) "uses") || Nat.eqb (List.length (y_content (snd q))) 0) (pairs (y_content (snd y)))) d) d.
Lemma disk_bare d : bare_b d = true -> no_uses_in_types (on_disk d) role.
Proof.
  intros H path text v ps u R Ro (tag & value & more & Y0) Q J. cbn in R, Y0. destruct (find_file _ d) as [x|] eqn:F in R; [|discriminate]. injection R as <-.
  destruct (find_file _ d) as [y|] eqn:G in Y0; [|discriminate]. injection Y0 as _ _ <- _.
  apply find_file_in in F. destruct F as [Jx Nx]. apply String.eqb_eq in Nx. apply find_file_in in G. destruct G as [Jy Ty]. apply String.eqb_eq in Ty.
  unfold bare_b in H. rewrite forallb_forall in H. specialize (H _ Jx). rewrite Nx, Ro in H. cbn [kind_eqb negb orb] in H. rewrite forallb_forall in H. specialize (H _ Jy).
  rewrite Ty, String.eqb_refl in H. cbn [negb orb] in H. rewrite (pairs_ok _ _ Q), forallb_forall in H. specialize (H _ J). cbn in H.
  apply Nat.eqb_eq in H. destruct (y_content u); [reflexivity|discriminate H].
Qed.
End Disk.

(** A library with a type that inherits, a list of parents, unions and arrays,
    an included type, an included example, facets, properties that are types of
    their own and a library that it uses; in the second case the library that is
    used is not there, in the third a type is not. *)
Definition lib46 (lib base : string) : ynode :=
  mp [("uses", mp [("l", sc lib)]);
      ("types", mp [("Base", mp [("type", sc "object"); ("facets", mp [("size", sc "string")]); ("properties", mp [("id", sc "string"); ("next?", sc "Base | nil")])]);
                    ("Sub", mp [("type", sc base); ("size", sc "big"); ("properties", mp [("many", mp [("type", sc "array"); ("items", sc "l.T")]); ("file", inc "t.raml")])]);
                    ("Both", mp [("type", sq [sc "Sub"; sc "Base"])]);
                    ("Text", mp [("type", sc "string"); ("examples", inc "e.raml")])])].
Definition d46 (lib base : string) : disk :=
  [("a.raml", lib_head, lib46 lib base);
   ("l.raml", lib_head, mp [("types", mp [("T", sc "integer[]")])]);
   ("t.raml", dt_head, mp [("type", sc "object"); ("properties", mp [("x", sc "(string | integer)[]")])]);
   ("e.raml", ne_head, mp [("one", sc "x")])].
Definition role46 (path : string) : kind :=
  if String.eqb path "t.raml" then KDataType else if String.eqb path "e.raml" then KNamedExample else KLibrary.

Example C46_tidy_case : forall lib base, In (lib, base) [("l.raml", "Base"); ("m.raml", "Base"); ("l.raml", "Nothing")] ->
  let E := on_disk (d46 lib base) in let text := (lib_head ++ "a.raml")%string in
  e_read (d_y E) "a.raml" = Some text /\ tidy_files E role46 /\ tidy_entry E role46 "a.raml" text /\ no_uses_in_types E role46.
Proof.
  intros lib base J E text. assert (R : e_read (d_y E) "a.raml" = Some text) by reflexivity.
  repeat (destruct J as [J|J]; [injection J as <- <-|]); try destruct J;
    (split; [exact R|split; [apply disk_tidy; vm_compute; reflexivity|split; [apply disk_entry; [vm_compute; reflexivity|exact R|vm_compute; reflexivity]|apply disk_bare; vm_compute; reflexivity]]]).
Qed.

Definition parse46 (lib base : string) : res entry_point := fst (parse_string (on_disk (d46 lib base)) 20 exO [] [] [] false false (lib_head ++ "a.raml") "a.raml").
Example C46_parsed_case : parse46 "l.raml" "Base" = Ok (ELib 0) /\ parse46 "m.raml" "Base" = Err /\ parse46 "l.raml" "Nothing" = Err.
Proof. split; [|split]; vm_compute; reflexivity. Qed.

(** * Without the last condition it is false *)

(** A type that waits for its parent has a property that is included from a
    file, and this file uses a library that is not there:
<<
    a.raml: types: {Base: object, T: {type: Base, properties: {p: !include t.raml}}}
    t.raml: uses: {l: l.raml}, type: l.X
>>
    The data type stays in the cache and its type stays in the list of those to
    resolve; the error ends the resolution of [T] only, and the nil link is
    followed. *)
Definition d46g : disk :=
  [("a.raml", lib_head, mp [("types", mp [("Base", sc "object"); ("T", mp [("type", sc "Base"); ("properties", mp [("p", inc "t.raml")])])])]);
   ("t.raml", dt_head, mp [("uses", mp [("l", sc "l.raml")]); ("type", sc "l.X")])].

Theorem C46_nil_link_refuted : exists E role text path, tidy_files E role /\ tidy_entry E role path text /\ e_read (d_y E) path = Some text
  /\ forall n O o1 o2 o3 uw va, 5 <= n -> fst (parse_string E n O o1 o2 o3 uw va text path) = Panic.
Proof.
  exists (on_disk d46g), role46, (lib_head ++ "a.raml")%string, "a.raml".
  assert (R : e_read (d_y (on_disk d46g)) "a.raml" = Some (lib_head ++ "a.raml")%string) by reflexivity.
  split; [apply disk_tidy; vm_compute; reflexivity|]. split; [apply disk_entry; [vm_compute; reflexivity|exact R|vm_compute; reflexivity]|]. split; [exact R|].
  intros n O o1 o2 o3 uw va L. do 5 (destruct n as [|n]; [lia|]).
  unfold parse_string, parse_fragment. unfold dbind at 1.
  assert (H : exists ep, (let (r, p) := decode_fragment (on_disk d46g) (S (S (S (S (S n))))) (lib_head ++ "a.raml") "a.raml" new_raml in
     match r with Ok e => (Ok e, fst (resolve_fragment (on_disk d46g) (S (S (S (S (S n))))) p)) | _ => (Err, Err) end) = (Ok ep, Panic)).
  { exists (ELib 0). vm_compute. reflexivity. }
  destruct H as (ep & H). destruct (decode_fragment (on_disk d46g) (S (S (S (S (S n))))) (lib_head ++ "a.raml") "a.raml" new_raml) as [[e| | |] p]; try discriminate H.
  injection H as _ H. unfold dbind at 1. destruct (resolve_fragment (on_disk d46g) (S (S (S (S (S n))))) p) as [r q]. cbn in H. now subst r.
Qed.
Print Assumptions C46_nil_link_refuted.
