(** The entry point of a RAML object (C84). *)
From Coq Require Import ZArith List String Bool Ascii Lia.
From Verif Require Import Base Scalars Heap Heap_lemmas Validate Names Yaml Pipeline Spec_Pipeline Pipeline_proofs Decode Parse Spec_Parse Entry
  Props_Validate Props_Parse Props_Fresh Props_Added Props_Order Props_Documents.
From Verif Require Parse_fresh Decode_files Decode_settle.
Import ListNotations.
Open Scope string_scope.
Open Scope list_scope.
Open Scope nat_scope.

(** * C84 *)

(** After a successful parse, on any object, the location is the path of the
    document and the entry point the fragment that was made for it. *)
Theorem C84_location : forall E n O o1 o2 o3 u vl text path r r',
  parse_object E n O o1 o2 o3 u vl text path r = (Ok tt, r') ->
  get_location r' = path
  /\ exists ep, ro_entry r' = Some (ep, path) /\ parse_fragment E n O o1 o2 o3 u vl text path (ro_model r) = (Ok ep, ro_model r').
Proof.
  intros E n O o1 o2 o3 u vl text path r r' H. unfold parse_object in H.
  destruct (parse_fragment E n O o1 o2 o3 u vl text path (ro_model r)) as [[ep| | |] p] eqn:P; try discriminate.
  assert (D : fst (decode_fragment E n text path (ro_model r)) = Ok ep).
  { unfold parse_fragment in P. apply Parse_fresh.dbind_ok in P. destruct P as (e & p1 & D & P). rewrite D.
    apply Parse_fresh.dbind_ok in P. destruct P as (? & ? & _ & P). apply Parse_fresh.dbind_ok in P. destruct P as (? & ? & _ & P).
    apply Parse_fresh.dbind_ok in P. destruct P as (? & ? & _ & P). injection P as -> _. reflexivity. }
  rewrite D in H. injection H as <-. split; [reflexivity|]. exists ep. auto.
Qed.
Print Assumptions C84_location.

(** What fails before the fragment is decoded leaves the entry point. *)
Theorem C84_kept : forall E n O o1 o2 o3 u vl text path r,
  (forall ep, fst (decode_fragment E n text path (ro_model r)) <> Ok ep) ->
  ro_entry (snd (parse_object E n O o1 o2 o3 u vl text path r)) = ro_entry r.
Proof.
  intros E n O o1 o2 o3 u vl text path r N. unfold parse_object.
  destruct (parse_fragment E n O o1 o2 o3 u vl text path (ro_model r)) as [x p]. cbn.
  destruct (fst (decode_fragment E n text path (ro_model r))) as [ep| | |]; auto. now destruct (N ep).
Qed.
Print Assumptions C84_kept.

Lemma frags_lib n loc l order : forall u s u' s', unwrap_fragments n order u s = (Ok u', s') ->
  oget loc (u_frags u) = Some (FLib l) -> oget loc (u_frags u') = Some (FLib l).
Proof.
  induction order as [|k order IH]; intros u s u' s' H G; simpl in H.
  - now injection H as <- <-.
  - destruct (oget k (u_frags u)) as [f|] eqn:Q; [|eauto]. apply bind_inv in H. destruct H as (u1 & s1 & E1 & H).
    apply (IH _ _ _ _ H). destruct (unwrap_fragment_other _ _ _ _ _ _ _ E1) as (_ & _ & _ & _ & _ & A6 & A7).
    destruct (string_dec loc k) as [->|N]; [|now rewrite A6].
    rewrite Q in G. injection G as ->. now rewrite (A7 l eq_refl).
Qed.

(** Validation of a model whose fragments are unwrapped changes nothing. *)
Lemma fragments_same n O R order s : (forall loc a, declared_in R loc a -> exists b, get_base (heap s) a = Some b /\ b_unwrapped b = true) ->
  forall c, after (validate_fragments n O R order c) s = s.
Proof.
  intros D. induction order as [|k order IH]; intros c; simpl; [reflexivity|].
  destruct (oget k (r_frags R)) as [f|] eqn:E; [|apply IH].
  apply bind_same; [|intros r; apply bind_same; [apply IH|reflexivity]].
  destruct f as [l|uses [a|]|]; simpl; try reflexivity.
  - destruct (nth_error (r_libs R) l) as [lib|] eqn:N; [|reflexivity]. unfold validate_library. apply bind_same.
    { apply validate_types_same. intros k' a I. apply (D k). eapply di_annot; eauto. }
    intros r. apply bind_same; [|reflexivity]. apply validate_types_same. intros k' a I. apply (D k). eapply di_type; eauto.
  - apply validate_type_same. apply (D k). eapply di_data; eauto.
Qed.
Lemma shapes_same n O order R s r s' : (forall loc a, declared_in R loc a -> exists b, get_base (heap s) a = Some b /\ b_unwrapped b = true) ->
  validate_shapes n O order R s = (r, s') -> s' = s.
Proof.
  intros D H. change s' with (snd (r, s')). rewrite <- H. apply (bind_same s).
  - now apply fragments_same.
  - intros x. apply bind_same; [apply validate_exts_same|]. intros ok. now destruct (fst x && ok).
Qed.

(** When no circle of references between files passes through an include, a
    library that is the entry point of a new object is the fragment of its path,
    and with unwrapping its types are unwrapped. *)
Theorem C84_entry_partial : forall E n O o1 o2 o3 u vl text path l r,
  no_mixed_cycle E -> e_read (d_y E) path = Some text ->
  parse_object E n O o1 o2 o3 u vl text path new_object = (Ok tt, r) -> ro_entry r = Some (ELib l, path) ->
  oget path (p_frags (ro_model r)) = Some (FLib l)
  /\ (u = true -> (forall q f, oget q (p_frags (ro_model r)) = Some f -> In q o2) -> forall lib k a, nth_error (p_libs (ro_model r)) l = Some lib -> has_type lib k a \/ has_annot lib k a ->
        exists b, get_base (heap (p_st (ro_model r))) a = Some b /\ b_unwrapped b = true).
Proof.
  intros E n O o1 o2 o3 u vl text path l r Cy Rd H En. destruct (C84_location _ _ _ _ _ _ _ _ _ _ _ _ H) as (_ & ep & En' & P).
  rewrite En in En'. injection En' as <-. cbn [ro_model new_object] in P. clear H En. set (p := ro_model r) in *. clearbody p.
  unfold parse_fragment in P. apply Parse_fresh.dbind_ok in P. destruct P as (ep & p1 & D & P).
  apply Parse_fresh.dbind_ok in P. destruct P as ([] & p2 & Re & P). apply Parse_fresh.dbind_ok in P. destruct P as ([] & p3 & Un & P).
  apply Parse_fresh.dbind_ok in P. destruct P as ([] & p4 & V & P). injection P as -> <-.
  destruct (C44_once_partial _ _ _ _ _ _ Cy Rd D) as (_ & _ & En). specialize (En l eq_refl).
  assert (F1 : Parse_fresh.fine Parse_fresh.nobody p1) by exact (Parse_fresh.decode_fragment_fine _ _ _ _ _ _ _ Parse_fresh.fine_new D).
  assert (G2 : oget path (p_frags p2) = Some (FLib l)).
  { unfold resolve_fragment in Re. apply Parse_fresh.dbind_ok in Re. destruct Re as (ok & q & S & Re).
    apply Parse_fresh.dbind_ok in Re. destruct Re as (? & q' & S' & Re). destruct ok; [|discriminate]. injection S' as _ <-.
    destruct (resolve_exts (raml_of q) (p_exts q)) as [[good xs]| | |]; try discriminate. injection Re as _ <-. cbn [p_frags].
    pose proof (Decode_settle.settle_all_evo E path text n n n _ _ F1 S) as Ev.
    exact (Decode_files.gr_frags _ _ (Decode_settle.ev_grown _ _ _ _ _ _ Ev) _ _ En). }
  assert (V' : raml_of p4 = raml_of p3 /\ (vl = false -> p4 = p3) /\ (vl = true -> exists r0, validate_shapes n O o3 (raml_of p3) (p_st p3) = (r0, p_st p4))).
  { destruct vl; [|injection V as <-; repeat split; auto; discriminate].
    destruct (validate_shapes n O o3 (raml_of p3) (p_st p3)) as [r0 s] eqn:Vs. injection V as _ <-. split; [destruct p3; reflexivity|]. split; [discriminate|eauto]. }
  destruct V' as (Ra & Vf & Vt). assert (Rl : p_libs p4 = p_libs p3) by exact (f_equal r_libs Ra). assert (Rf : p_frags p4 = p_frags p3) by exact (f_equal r_frags Ra).
  destruct u; [|injection Un as <-; rewrite Rf; split; [exact G2|discriminate]].
  destruct (unwrap_shapes n o1 o2 (raml_of p2) (p_st p2)) as [[R| | |] s] eqn:U; try discriminate. injection Un as <-.
  assert (G3 : oget path (r_frags R) = Some (FLib l)).
  { destruct (unwrap_shapes_inv _ _ _ _ _ _ _ U) as (x & s1 & Uf & _ & _ & _ & -> & _). exact (frags_lib _ _ _ _ _ _ _ _ Uf G2). }
  rewrite Rf, Rl. cbn [p_frags p_libs with_raml]. split; [exact G3|]. intros _ All lib k a N Dc.
  assert (Un : forall loc x, declared_in R loc x -> exists b, get_base (heap s) x = Some b /\ b_unwrapped b = true).
  { intros loc x Dx. refine (model_unwrapped _ _ _ _ _ _ _ U loc x _ Dx). destruct Dx; eapply All; eauto. }
  assert (Qs : p_st p4 = s).
  { destruct vl; [|now rewrite (Vf eq_refl)]. destruct (Vt eq_refl) as (r0 & Vs). cbn [p_st with_raml] in Vs.
    replace (raml_of (with_raml p2 s R)) with R in Vs by (destruct R; reflexivity).
    exact (shapes_same _ _ _ _ _ _ _ Un Vs). }
  rewrite Qs. apply (Un path). destruct Dc; [eapply di_type|eapply di_annot]; eauto.
Qed.
Print Assumptions C84_entry_partial.

(** ** Instances *)

Definition object84 (d : disk) (u : bool) (path : string) : res unit * robject :=
  let o := map (fun x => fst (fst x)) d in
  match e_read (d_y (on_disk d)) path with
  | Some text => parse_object (on_disk d) 40 exO o o o u false text path new_object
  | None => (Err, new_object)
  end.

(** Two libraries that use each other. *)
Example C84_entry_case : no_mixed_cycle (on_disk d44)
  /\ fst (object84 d44 true "a.raml") = Ok tt /\ ro_entry (snd (object84 d44 true "a.raml")) = Some (ELib 0, "a.raml")
  /\ get_location (snd (object84 d44 true "a.raml")) = "a.raml".
Proof.
  split; [|split; [vm_compute; reflexivity|split; vm_compute; reflexivity]].
  apply (disk_mixed d44 (fun x => if String.eqb x "t.raml" then 0 else 1)); vm_compute; reflexivity.
Qed.

(** A library whose type includes a data type that uses the library: the entry
    point is another library object than the one of the model, and its type is not
    unwrapped although the parse with unwrapping succeeds. *)
Theorem C84_entry_refuted : exists r lib a b,
  object84 d44b true "m.raml" = (Ok tt, r) /\ ro_entry r = Some (ELib 1, "m.raml") /\ oget "m.raml" (p_frags (ro_model r)) = Some (FLib 0)
  /\ nth_error (p_libs (ro_model r)) 1 = Some lib /\ oget "A" (l_types lib) = Some a
  /\ get_base (heap (p_st (ro_model r))) a = Some b /\ b_unwrapped b = false.
Proof. do 4 eexists. repeat (split; [vm_compute; reflexivity|]). vm_compute. reflexivity. Qed.
Print Assumptions C84_entry_refuted.

(** The claim that a failed parse leaves the entry point: [b.raml: types: {T:
    Missing}] fails, and is the entry point afterwards. *)
Definition d84 : disk := [("a.raml", lib_head, mp [("types", mp [("S", sc "string")])]); ("b.raml", lib_head, mp [("types", mp [("T", sc "Missing")])])].
Definition then84 (path : string) (r : robject) : res unit * robject :=
  parse_object (on_disk d84) 40 exO ["a.raml"; "b.raml"] ["a.raml"; "b.raml"] ["a.raml"; "b.raml"] false false (lib_head ++ path)%string path r.
Theorem C84_failed_refuted : exists r r',
  then84 "a.raml" new_object = (Ok tt, r) /\ get_location r = "a.raml"
  /\ then84 "b.raml" r = (Err, r') /\ get_location r' = "b.raml".
Proof. do 2 eexists. repeat (split; [vm_compute; reflexivity|]). vm_compute. reflexivity. Qed.
Print Assumptions C84_failed_refuted.

(** The case of [C84_kept]: a text without a head. *)
Example C84_kept_case : exists r,
  then84 "a.raml" new_object = (Ok tt, r)
  /\ (forall ep, fst (decode_fragment (on_disk d84) 40 "x" "b.raml" (ro_model r)) <> Ok ep) /\ get_location r = "a.raml".
Proof. eexists. split; [vm_compute; reflexivity|]. split; [intros ep; vm_compute; discriminate|reflexivity]. Qed.
