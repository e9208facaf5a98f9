(** Property theorems about the conversion to JSON Schema (C33-C36, C59). *)
From Coq Require Import ZArith List String Ascii Bool Lia.
From Coq Require Import Floats.SpecFloat.
From Verif Require Import Base Scalars Spec_Scalars Heap Heap_lemmas Validate Spec_Validate Spec_Mark Schema Convert Spec_Schema Model_check
  Convert_proofs Convert_meaning_proofs Convert_top_proofs Convert_ends_proofs Props_Validate Props_Inherit Props_Mark.
From Verif Require Validate_proofs.
Import ListNotations.
Open Scope string_scope.
Open Scope list_scope.
Open Scope nat_scope.

(** * C33 *)

(** Every [$ref] in the result, at any depth and in any definition, leads to a
    definition that is there. Missing: JSON types whose own schema has
    references; resolution leaves no unknown type. *)
Theorem C33_refs_partial : forall n E a S0 r,
  convert n true E a = Ok S0 ->
  (forall x raw q, occurs (c_heap E) a x -> shape_at (c_heap E) x (SJSON raw) -> ~ refers (c_json E raw) q) ->
  (forall x, named_type (c_heap E) a x -> ~ shape_at (c_heap E) x SUnknown) ->
  refers S0 r -> resolves S0 r.
Proof. exact (fun n E a S0 r H J U R => refs_resolve E a n S0 H J U r R). Qed.
Print Assumptions C33_refs_partial.

(** * C34 *)

(** Visit of an object type, wherever it stands and whatever has been defined
    before: same properties in the same order, exactly the required ones
    required, the pattern properties without slashes in order, the rest of the
    facets. *)
Theorem C34_object : forall n E a d s d' f l pl qs,
  visit n E a d = Ok (s, d') -> shape_at (c_heap E) a (SObject f) ->
  props_of (c_heap E) (o_props f) l -> props_of (c_heap E) (o_pprops f) pl ->
  Forall2 (fun kp q => fst kp = ("/" ++ q ++ "/")%string) pl qs -> NoDup qs ->
  k_type (keywords s) = "object"
  /\ map fst (entries (properties s)) = map fst l
  /\ (properties s = None <-> o_props f = None)
  /\ required_of l (k_required (keywords s))
  /\ map fst (entries (pattern_properties s)) = qs
  /\ (pattern_properties s = None <-> o_pprops f = None)
  /\ k_addl (keywords s) = o_addl f /\ k_minprops (keywords s) = o_min f /\ k_maxprops (keywords s) = o_max f.
Proof. exact object_converted. Qed.
Print Assumptions C34_object.

(** * C35 *)

(** A JSON value is accepted by the type exactly when the converted schema, with
    its definitions, accepts it. [same_meaning] lists what is missing: facets
    and combinations with different meanings, see the refuted theorems. *)
Theorem C35_same_values_partial : forall O F n E a S0 v,
  (forall x sh, occurs (c_heap E) a x -> shape_at (c_heap E) x sh -> same_meaning O F (c_heap E) sh) ->
  (forall x sh, occurs (c_heap E) a x -> shape_at (c_heap E) x sh -> closed_shape (c_heap E) sh) ->
  names_apart (c_heap E) a ->
  convert n true E a = Ok S0 -> json_value v -> fits_types (c_heap E) a v ->
  (valid O (c_heap E) a v <-> satisfies O F (definitions S0) S0 v).
Proof. exact (fun O F n E a S0 v Sm Cl Ap => conversion_same E a O F Sm Cl Ap n S0 v). Qed.
Print Assumptions C35_same_values_partial.

(** * C36 *)

(** When the entry type and the heads of recursive types have different names,
    every head below the entry type has one definition under its name, and that
    accepts exactly the values of the head. *)
Theorem C36_own_definition_partial : forall O F n E a S0 r hd hb,
  (forall x sh, occurs (c_heap E) a x -> shape_at (c_heap E) x sh -> same_meaning O F (c_heap E) sh) ->
  (forall x sh, occurs (c_heap E) a x -> shape_at (c_heap E) x sh -> closed_shape (c_heap E) sh) ->
  names_apart (c_heap E) a ->
  convert n true E a = Ok S0 ->
  part_of (c_heap E) a r -> shape_at (c_heap E) r (SRec hd) -> get_base (c_heap E) hd = Some hb ->
  exists t, In (b_name hb, t) (definitions S0)
    /\ (forall t', In (b_name hb, t') (definitions S0) -> t' = t)
    /\ forall v, json_value v -> fits_types (c_heap E) a v ->
         (valid O (c_heap E) hd v <-> satisfies O F (definitions S0) t v).
Proof. exact (fun O F n E a S0 r hd hb Sm Cl Ap => heads_keep E a O F Sm Cl Ap n S0 r hd hb). Qed.
Print Assumptions C36_own_definition_partial.

(** * C59 *)

(** Conversion of an unwrapped type of finite descent (C28) whose parts are all
    there ends with a schema that no further step would change. *)
Theorem C59_ends : forall E a b,
  (forall x, occurs (c_heap E) a x -> enterable (c_json E) (c_heap E) x) ->
  (forall x, occurs (c_heap E) a x -> finite_descent (c_heap E) x) ->
  get_base (c_heap E) a = Some b -> b_unwrapped b = true ->
  exists n S0, forall m, n <= m -> convert m true E a = Ok S0.
Proof. exact convert_ends_marked. Qed.
Print Assumptions C59_ends.

(** A type that is not unwrapped is refused. *)
Theorem C59_not_unwrapped : forall n w E a b sh,
  get_base (c_heap E) a = Some b -> b_shape b = Some sh -> b_unwrapped b = false -> convert n w E a = Err.
Proof. intros n w E a b sh G Sh U. unfold convert. now rewrite G, Sh, U. Qed.
Print Assumptions C59_not_unwrapped.

(** Without a wrapper no conversion succeeds. *)
Theorem C59_without_wrapper_refuted :
  ~ (exists n E a S0, convert n false E a = Ok S0).
Proof. intros (n & E & a & S0 & H). exact (without_wrapper n E a S0 H). Qed.
Print Assumptions C59_without_wrapper_refuted.

(** * Examples *)

Definition env (h : list cell) : cenv := {| c_heap := h; c_dom := fun _ => GNil; c_json := fun _ => Null |}.

(** [Tree: {name: string, kids?: Tree[], /x/: integer, maxProperties: 3}]; every
    format check passes. *)
Definition exF (f s : string) : bool := true.


Lemma tree_child : forall x sh c, shape_at tree_heap x sh -> child tree_heap sh c -> In c [3; 4; 5; 6; 7].
Proof.
  intros x sh c (b & G & Sh) Ch.
  do 12 (destruct x as [|x]; [vm_compute in G; try discriminate; injection G as <-; simpl in Sh; injection Sh as <-;
    inversion Ch; subst; try discriminate; simpl in *;
    repeat match goal with
    | H : props_of _ _ _ |- _ => destruct H as [[? ?]|(? & ? & ?)]
    | H : Some _ = Some _ |- _ => injection H as <-
    end; try discriminate; simpl in *;
    repeat match goal with
    | H : get_props _ _ = Some _ |- _ => vm_compute in H; injection H as <-
    end; simpl in *;
    repeat match goal with
    | H : _ \/ _ |- _ => destruct H
    | H : (_, _) = (_, _) |- _ => injection H as <- <-
    | H : False |- _ => destruct H
    end; simpl; tauto|]).
  vm_compute in G. destruct x; discriminate.
Qed.

Lemma tree_occurs x : occurs tree_heap 3 x -> In x [3; 4; 5; 6; 7].
Proof.
  induction 1 as [|x y Ox IH V|x hd Ox IH Sr]; [simpl; tauto| |].
  - inversion V as [x' sh c Sh N Ch|x' b m k p G N Gm I]; subst; [eapply tree_child; eauto|].
    simpl in IH. repeat (destruct IH as [<-|IH]; [vm_compute in G; injection G as <-; vm_compute in Gm; injection Gm as <-; destruct I|]).
    destruct IH.
  - eapply tree_child; [exact Sr|constructor].
Qed.

Lemma tree_shape x sh : occurs tree_heap 3 x -> shape_at tree_heap x sh ->
  (x = 3 /\ sh = SObject (ObjF None None None (Some 8) (Some 9) None (Some 3%Z)))
  \/ (x = 4 /\ sh = SStr estr) \/ (x = 5 /\ sh = SArray (ArrF (Some 6) None None None))
  \/ (x = 6 /\ sh = SRec 3) \/ (x = 7 /\ sh = SInt (IntF None None None None None)).
Proof.
  intros Oc (b & G & Sh). apply tree_occurs in Oc. simpl in Oc.
  repeat (destruct Oc as [<-|Oc]; [vm_compute in G; injection G as <-; simpl in Sh; injection Sh as <-; tauto|]). destruct Oc.
Qed.

Lemma tree_same x sh : occurs tree_heap 3 x -> shape_at tree_heap x sh -> same_meaning exO exF tree_heap sh.
Proof.
  intros Oc Sh. destruct (tree_shape x sh Oc Sh) as [[_ ->]|[[_ ->]|[[_ ->]|[[_ ->]|[_ ->]]]]]; simpl; try exact I.
  - split; [discriminate|]. intros ps pps [[? ?]|(m & Em & Gm)]; [discriminate|]. injection Em as <-. vm_compute in Gm. injection Gm as <-.
    intros [[? ?]|(m & Em & Gm)]; [discriminate|]. injection Em as <-. vm_compute in Gm. injection Gm as <-.
    split; [repeat constructor; simpl; intuition discriminate|]. split; [repeat constructor; simpl; intuition discriminate|].
    split; [intros k p [E|[]]; injection E as <- <-; reflexivity|].
    intros n k p [E|[]] M. injection E as <- <-. split.
    + simpl in M. simpl. destruct (String.eqb n "name") eqn:N1; [apply String.eqb_eq in N1; subst n; discriminate|].
      destruct (String.eqb n "kids") eqn:N2; [apply String.eqb_eq in N2; subst n; discriminate|]. reflexivity.
    + intros k' p' [E|[]] _. now injection E as <- <-.
  - split; discriminate.
  - split; [reflexivity|discriminate].
Qed.

Lemma tree_apart : names_apart tree_heap 3.
Proof.
  assert (H : forall x, named_type tree_heap 3 x -> x = 3).
  { intros x N. destruct N as [|r hd Oc Sr]; [reflexivity|]. destruct (tree_shape _ _ Oc Sr) as [[_ E]|[[_ E]|[[_ E]|[[_ E]|[_ E]]]]]; congruence. }
  intros x y bx b_y Nx Ny _ _ _. rewrite (H x Nx), (H y Ny). reflexivity.
Qed.

Definition f1 : float64 := S754_finite false 4503599627370496 (-52).
Definition tree_json : gval :=
  GMap [("kids", GArr [GMap [("name", GStr "leaf"); ("x1", GFloat f1)]]); ("name", GStr "root")].

Lemma tree_json_value : json_value tree_json.
Proof.
  apply jv_map; [repeat constructor; simpl; intuition discriminate|]. intros k x [E|[E|[]]]; injection E as <- <-; [|constructor].
  apply jv_arr. intros x [<-|[]]. apply jv_map; [repeat constructor; simpl; intuition discriminate|].
  intros k x [E|[E|[]]]; injection E as <- <-; constructor. exact I.
Qed.
Lemma tree_json_fits : fits_types tree_heap 3 tree_json.
Proof.
  split.
  - left. intros x sh Oc Sh. destruct (tree_shape x sh Oc Sh) as [[_ ->]|[[_ ->]|[[_ ->]|[[_ ->]|[_ ->]]]]]; simpl; intuition congruence.
  - right. apply iv_map. intros k x [E|[E|[]]]; injection E as <- <-.
    + apply iv_arr. intros x [<-|[]]. apply iv_map. intros k x [E|[E|[]]]; injection E as <- <-.
      * apply iv_else; discriminate.
      * apply iv_num with 1%Z; [right; split; [lia|reflexivity]|split; vm_compute; congruence].
    + apply iv_else; discriminate.
Qed.

(** The hypotheses of C33, C35, C36 and C59 hold of the recursive [Tree], and
    the conversion does what the theorems say. *)
Example C35_case :
  (forall x sh, occurs tree_heap 3 x -> shape_at tree_heap x sh -> same_meaning exO exF tree_heap sh)
  /\ (forall x sh, occurs tree_heap 3 x -> shape_at tree_heap x sh -> closed_shape tree_heap sh)
  /\ names_apart tree_heap 3 /\ json_value tree_json /\ fits_types tree_heap 3 tree_json
  /\ valid exO tree_heap 3 tree_json
  /\ exists S0, convert 9 true (env tree_heap) 3 = Ok S0 /\ refers S0 "#/definitions/Tree"
       /\ satisfies exO exF (definitions S0) S0 tree_json.
Proof.
  split; [exact tree_same|]. split; [intros x sh _ Sh; exact (tree_closed x sh Sh)|]. split; [exact tree_apart|].
  split; [exact tree_json_value|]. split; [exact tree_json_fits|].
  assert (V : valid exO tree_heap 3 tree_json).
  { apply (Validate_proofs.validate_sound 9); [exact exO_wf| |vm_compute; reflexivity].
    apply vw_map; [repeat constructor; simpl; intuition discriminate|]. intros k x [E|[E|[]]]; injection E as <- <-.
    - apply vw_arr. intros x [<-|[]]. apply vw_map; [repeat constructor; simpl; intuition discriminate|].
      intros k x [E|[E|[]]]; injection E as <- <-; apply vw_leaf; try discriminate; exact I.
    - apply vw_leaf; try discriminate; exact I. }
  split; [exact V|].
  assert (C0 : exists S0, convert 9 true (env tree_heap) 3 = Ok S0) by (eexists; vm_compute; reflexivity).
  destruct C0 as (S0 & C0). exists S0. split; [exact C0|]. split.
  - assert (K : k_ref (keywords S0) = "#/definitions/Tree").
    { assert (X : option_map (fun s => k_ref (keywords s)) (match convert 9 true (env tree_heap) 3 with Ok s => Some s | _ => None end) = Some "#/definitions/Tree") by (vm_compute; reflexivity).
      rewrite C0 in X. now injection X. }
    split; [discriminate|]. exists S0. split; [constructor|exact K].
  - apply (proj1 (C35_same_values_partial exO exF 9 (env tree_heap) 3 S0 tree_json tree_same
      (fun x sh _ Sh => tree_closed x sh Sh) tree_apart C0 tree_json_value tree_json_fits) V).
Qed.

Example C34_case : exists s d,
  visit 9 (env tree_heap) 3 [] = Ok (s, d)
  /\ map fst (entries (properties s)) = ["name"; "kids"] /\ k_required (keywords s) = ["name"]
  /\ map fst (entries (pattern_properties s)) = ["x"] /\ k_maxprops (keywords s) = Some 3%Z.
Proof.
  eexists. eexists. split; [vm_compute; reflexivity|]. split; [reflexivity|]. split; [reflexivity|]. split; reflexivity.
Qed.

Example C36_case : part_of tree_heap 3 6 /\ shape_at tree_heap 6 (SRec 3).
Proof.
  assert (S3 : shape_at tree_heap 3 (SObject (ObjF None None None (Some 8) (Some 9) None (Some 3%Z)))) by (eexists; split; vm_compute; reflexivity).
  assert (S5 : shape_at tree_heap 5 (SArray (ArrF (Some 6) None None None))) by (eexists; split; vm_compute; reflexivity).
  split; [|eexists; split; vm_compute; reflexivity].
  apply po_child with 5 (SArray (ArrF (Some 6) None None None)); [|exact S5|now constructor].
  apply po_child with 3 (SObject (ObjF None None None (Some 8) (Some 9) None (Some 3%Z))); [constructor|exact S3|].
  apply (ch_prop _ _ [("name", Prop_ "name" 4 true); ("kids", Prop_ "kids" 5 false)] "kids" (Prop_ "kids" 5 false)); [|simpl; tauto].
  right. exists 8. split; reflexivity.
Qed.

Lemma tree_finite x : occurs tree_heap 3 x -> finite_descent tree_heap x.
Proof.
  assert (D : forall x y, occurs tree_heap 3 x -> descends tree_heap x y ->
     (x = 3 /\ In y [4; 5; 7]) \/ (x = 5 /\ y = 6)).
  { intros x0 y Oc V. inversion V as [x' sh c Sh N Ch|x' b m k p G Gm I]; subst.
    - destruct (tree_shape _ _ Oc Sh) as [[-> ->]|[[-> ->]|[[-> ->]|[[-> ->]|[-> ->]]]]].
      + inversion Ch as [|f' ps k p Lp Ip|f' ps k p Lp Ip| |]; subst; simpl in Lp.
        * destruct Lp as [[? ?]|(m & Em & Gm)]; [discriminate|]. injection Em as <-. vm_compute in Gm. injection Gm as <-.
          destruct Ip as [E|[E|[]]]; injection E as <- <-; simpl; tauto.
        * destruct Lp as [[? ?]|(m & Em & Gm)]; [discriminate|]. injection Em as <-. vm_compute in Gm. injection Gm as <-.
          destruct Ip as [E|[]]; injection E as <- <-; simpl; tauto.
      + inversion Ch.
      + inversion Ch; subst. match goal with H : a_items _ = Some _ |- _ => injection H as <- end. tauto.
      + exfalso. eapply N. reflexivity.
      + inversion Ch.
    - exfalso. apply tree_occurs in Oc. simpl in Oc.
      repeat (destruct Oc as [<-|Oc]; [vm_compute in G; injection G as <-; vm_compute in Gm; injection Gm as <-; destruct I|]). destruct Oc. }
  assert (A4 : forall x, occurs tree_heap 3 x -> x <> 3 -> x <> 5 -> finite_descent tree_heap x).
  { intros x0 Oc N3 N5. constructor. intros y V. destruct (D _ _ Oc V) as [[? _]|[? _]]; congruence. }
  assert (Step : forall x0 y, occurs tree_heap 3 x0 -> descends tree_heap x0 y -> occurs tree_heap 3 y).
  { intros x0 y Oc V. inversion V as [x' sh c Sh N Ch|x' b m k p G Gm I]; subst.
    - eapply oc_visit; [exact Oc|]. eapply vi_child; eauto.
    - exfalso. apply tree_occurs in Oc. simpl in Oc.
      repeat (destruct Oc as [<-|Oc]; [vm_compute in G; injection G as <-; vm_compute in Gm; injection Gm as <-; destruct I|]). destruct Oc. }
  assert (A5 : forall x, occurs tree_heap 3 x -> x <> 3 -> finite_descent tree_heap x).
  { intros x0 Oc N3. constructor. intros y V. pose proof (Step _ _ Oc V). destruct (D _ _ Oc V) as [[? _]|[-> ->]]; [congruence|].
    apply A4; auto; discriminate. }
  intros Oc. constructor. intros y V. pose proof (Step _ _ Oc V). apply A5; auto.
  destruct (D _ _ Oc V) as [[-> I]|[-> ->]]; [|discriminate]. simpl in I. intuition congruence.
Qed.

Example C59_case :
  (forall x, occurs tree_heap 3 x -> enterable (fun _ => Null) tree_heap x)
  /\ (forall x, occurs tree_heap 3 x -> finite_descent tree_heap x)
  /\ exists b, get_base tree_heap 3 = Some b /\ b_unwrapped b = true.
Proof.
  split; [|split; [exact tree_finite|eexists; split; vm_compute; reflexivity]].
  intros x Oc. pose proof (tree_occurs _ Oc) as I. simpl in I.
  assert (G : exists b sh fd fv, get_base tree_heap x = Some b /\ b_shape b = Some sh
    /\ get_props tree_heap (b_fdefs b) = Some fd /\ get_facets tree_heap (b_facets b) = Some fv).
  { repeat (destruct I as [<-|I]; [do 4 eexists; split; [reflexivity|]; split; [reflexivity|]; split; [reflexivity|]; reflexivity|]). destruct I. }
  destruct G as (b & sh & fd & fv & G & Sh & Fd & Fv). exists b, sh, fd, fv. repeat (split; auto).
  - apply (tree_closed x sh). exists b; auto.
  - apply (tree_closed x sh). exists b; auto.
  - destruct (tree_shape x sh Oc (ex_intro _ b (conj G Sh))) as [[_ ->]|[[_ ->]|[[_ ->]|[[_ ->]|[_ ->]]]]]; simpl; auto.
    intros pl k p [[? ?]|(m & Em & Gm)]; [discriminate|]. injection Em as <-. vm_compute in Gm. injection Gm as <-.
    intros [E|[]]. injection E as <- <-. simpl. lia.
Qed.
