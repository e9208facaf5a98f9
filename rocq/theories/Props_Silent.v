(** What does not count for values (C82). *)
From Coq Require Import ZArith List String Bool Ascii Lia.
From Verif Require Import Base Scalars Heap Validate Spec_Silent Names Yaml Pipeline Decode Parse
  Props_Validate Props_Parse Props_Fresh Props_Added Props_Documents.
From Verif Require Validate_proofs.
Import ListNotations.
Open Scope string_scope.
Open Scope list_scope.
Open Scope nat_scope.

Section Loops.
Variable O : oracle.
Variables rec rec' : addr -> gval -> res unit.

Lemma items_alike items u l : (forall i v, items = Some i -> rec i v = rec' i v) ->
  forall seen, items_loop O rec items u l seen = items_loop O rec' items u l seen.
Proof.
  intros Q. induction l as [|x l IH]; intros seen; auto. cbn. destruct items as [i|].
  - rewrite (Q i x eq_refl). destruct (rec' i x); auto. cbn. destruct u; auto. destruct (item_hash O x); auto.
  - cbn. destruct u; auto. destruct (item_hash O x); auto.
Qed.

Lemma pattern_alike k v l : (forall key q, In (key, q) l -> rec (p_base q) v = rec' (p_base q) v) ->
  forall b, pattern_loop O rec k v l b = pattern_loop O rec' k v l b.
Proof.
  induction l as [|[key q] l IH]; intros Q b; auto. cbn. rewrite (Q key q) by now left.
  assert (IH' : forall b, pattern_loop O rec k v l b = pattern_loop O rec' k v l b) by (apply IH; intros; eapply Q; right; eauto).
  rewrite !IH'. destruct (o_match O (p_name q) k); auto.
Qed.

Lemma props_alike ps pps r kvs : (forall key q v, In (key, q) ps -> rec (p_base q) v = rec' (p_base q) v) ->
  (forall key q v, In (key, q) pps -> rec (p_base q) v = rec' (p_base q) v) ->
  props_loop O rec ps pps r kvs = props_loop O rec' ps pps r kvs.
Proof.
  intros P Q. induction kvs as [|[k x] kvs IH]; auto. cbn. rewrite IH. destruct (oget k ps) as [q|] eqn:G.
  - assert (I : In (k, q) ps) by (now apply Validate_proofs.oget_in).
    now rewrite (P k q x I).
  - destruct r; auto. now rewrite (pattern_alike k x pps (fun key q I => Q key q x I)).
Qed.

Lemma union_alike v l : (forall a, In a l -> rec a v = rec' a v) -> union_validate rec l v = union_validate rec' l v.
Proof. induction l as [|a l IH]; intros Q; auto. cbn. rewrite (Q a) by now left. rewrite IH; auto. intros; apply Q; now right. Qed.
End Loops.

(** * C82 *)

(** If two models say the same of all that belongs to a type, Validate gives the
    same verdict on all values. *)
Theorem C82_verdict : forall h h' a, (forall x, parts h a x -> same_type h h' x) ->
  forall n O v, validate n O h a v = validate n O h' a v.
Proof.
  assert (X : forall n O h h' a, (forall x, parts h a x -> same_type h h' x) -> forall v, validate n O h a v = validate n O h' a v);
    [|intros; now apply X].
  induction n as [|n IH]; intros O h h' a Q v; auto. cbn [validate].
  assert (Sub : forall x v, part h a x -> validate n O h x v = validate n O h' x v).
  { intros x w P. apply IH. intros y Y. apply Q. clear - P Y. induction Y; [eapply parts_step; [apply parts_self|exact P]|eapply parts_step; eauto]. }
  pose proof (Q a (parts_self _ _)) as S. unfold same_type in S.
  destruct (get_base h a) as [b|] eqn:G, (get_base h' a) as [b'|] eqn:G'; try contradiction; auto.
  destruct (b_shape b) as [sh|] eqn:Sh, (b_shape b') as [sh'|] eqn:Sh'; try contradiction; auto.
  destruct sh, sh'; cbn in S; try discriminate S; try (injection S as <-); auto.
  - (* array *) unfold array_validate. destruct v; auto. destruct (below _ _ _); auto. destruct (above _ _ _); auto.
    erewrite items_alike; [reflexivity|]. intros i w Qi. apply Sub. eapply part_items; eauto.
  - (* object *) destruct S as (A & B & C & D & F). unfold listed in D, F. unfold opt_props. rewrite <- D, <- F.
    destruct (match o_props f with Some m => get_props h m | None => Some [] end) as [ps|] eqn:P; auto.
    destruct (match o_pprops f with Some m => get_props h m | None => Some [] end) as [pps|] eqn:PP; auto.
    unfold object_validate. destruct v; auto. rewrite <- A, <- B, <- C. destruct (below _ _ _); auto. destruct (above _ _ _); auto.
    destruct (missing_required _ _); auto. apply props_alike; intros key q w I; apply Sub; [eapply part_prop|eapply part_pattern]; eauto.
  - (* union *) rewrite <- S. destruct (get_slice h anyof) as [l|] eqn:Sl; auto. apply union_alike. intros x I. apply Sub. eapply part_member; eauto.
  - (* recursive *) apply Sub. eapply part_head; eauto.
Qed.
Print Assumptions C82_verdict.

(** Documentation, examples, defaults, annotations, custom facets and
    discriminators may be struck out of a model. *)
Theorem C82_bare : forall h n O a v, validate n O (map bare h) a v = validate n O h a v.
Proof.
  intros h n O a v. symmetry. apply C82_verdict. intros x _.
  assert (Bs : forall y, get_base (map bare h) y = option_map (fun b => match bare (CBase b) with CBase b' => b' | _ => b end) (get_base h y)).
  { intros y. unfold get_base. rewrite nth_error_map. destruct (nth_error h y) as [[]|]; reflexivity. }
  assert (Ps : forall y, get_props (map bare h) y = get_props h y).
  { intros y. unfold get_props. rewrite nth_error_map. destruct (nth_error h y) as [[]|]; reflexivity. }
  assert (Ss : forall y, get_slice (map bare h) y = get_slice h y).
  { intros y. unfold get_slice. rewrite nth_error_map. destruct (nth_error h y) as [[]|]; reflexivity. }
  assert (Ls : forall o, listed h o = listed (map bare h) o) by (intros [m|]; cbn; auto).
  unfold same_type. rewrite Bs. destruct (get_base h x) as [b|]; cbn; auto. destruct (b_shape b) as [sh|]; cbn; auto.
  destruct sh; cbn; auto.
Qed.
Print Assumptions C82_bare.

(** Check does read discriminators, and nothing else of what is struck out. *)
Theorem C82_check : forall h h' n O a, same_shapes h h' -> check n O h a = check n O h' a.
Proof.
  intros h h' n O a S. revert a.
  assert (V : forall k a v, validate k O h a v = validate k O h' a v).
  { intros k a v. apply C82_verdict. intros x _. destruct (S x) as (Qb & _ & _). unfold same_type.
    destruct (get_base h x) as [b|], (get_base h' x) as [b'|]; try discriminate; auto. injection Qb as Qb. rewrite Qb.
    destruct (b_shape b') as [sh|]; auto. assert (L : forall o, listed h o = listed h' o) by (intros [m|]; cbn; auto; apply S).
    destruct sh; cbn; auto. apply S. }
  assert (All : forall (f g : addr -> res unit) l, (forall x, f x = g x) -> check_all f l = check_all g l).
  { intros f g l Q. induction l as [|x l IH]; cbn; auto. rewrite Q, IH. reflexivity. }
  induction n as [|n IH]; intros a; auto. cbn [check]. destruct (S a) as (Qb & _ & _).
  destruct (get_base h a) as [b|], (get_base h' a) as [b'|]; try discriminate; auto. injection Qb as Qb. rewrite Qb.
  destruct (b_shape b') as [sh|]; auto. destruct sh; auto.
  - destruct (crossed _ _ _); auto. destruct (a_items f); auto.
  - unfold object_check. destruct (crossed _ _ _); auto.
    assert (Q1 : forall m, get_props h m = get_props h' m) by (intros m; apply S).
    assert (Q2 : forall l, check_discriminator (validate n O h) h f l = check_discriminator (validate n O h') h' f l).
    { intros l. unfold check_discriminator. destruct (o_disc f) as [d|]; auto. destruct (oget d l) as [q|]; auto. destruct (S (p_base q)) as (Qp & _ & _).
      destruct (get_base h (p_base q)) as [c|], (get_base h' (p_base q)) as [c'|]; try discriminate; auto. injection Qp as Qp. rewrite Qp.
      destruct (b_shape c'); auto. destruct (negb _); auto. destruct (o_discval f); auto. }
    f_equal.
    + destruct (o_pprops f) as [m|]; auto. destruct (o_addl f) as [[]|]; auto; rewrite Q1; destruct (get_props h' m); auto.
    + destruct (o_props f) as [m|]; auto. rewrite Q1. destruct (get_props h' m) as [l|]; auto. rewrite (All _ (check n O h') _ IH).
      f_equal. now rewrite Q2.
  - destruct (S anyof) as (_ & _ & ->). destruct (get_slice h' anyof); auto.
Qed.
Print Assumptions C82_check.

(** ** Instances *)

(** Pets of two kinds that are told apart by a discriminator. *)
Definition ts82 : list (string * ynode) :=
  [("Pet", mp [properties_of [("kind", sc "string")]; ("discriminator", sc "kind"); ("description", sc "a pet")]);
   ("Cat", mp [("type", sc "Pet"); ("discriminatorValue", sc "cat")]);
   ("Dog", mp [("type", sc "Pet"); ("discriminatorValue", sc "dog")]);
   ("Any", sc "Cat | Dog")].
(** [any] is read as a string. *)
Definition on82 (d : disk) : denv :=
  let E := typed d in
  {| d_y := d_y E; d_bool := d_bool E; d_text := d_text E; d_uint := d_uint E; d_float := d_float E; d_any := fun v => Some (GStr (y_value v));
     d_string := d_string E; d_strict := d_strict E; d_int := d_int E; d_re := d_re E; d_schema := d_schema E; d_base := d_base E |}.
Definition run82 (ts : list (string * ynode)) : res entry_point * pst :=
  parse_string (on82 (library_of ts)) 40 exO ["a.raml"] ["a.raml"] ["a.raml"] true true (lib_head ++ "a.raml")%string "a.raml".
Definition p82 : pst := snd (run82 ts82).
Definition kind_of (x : string) : gval := GMap [("kind", GStr x)].

Example C82_bare_case : fst (run82 ts82) = Ok (ELib 0)
  /\ map bare (heap (p_st p82)) <> heap (p_st p82)
  /\ verdict p82 "Cat" (kind_of "cat") = Ok tt /\ verdict p82 "Cat" (GMap []) = Err.
Proof.
  split; [vm_compute; reflexivity|]. split; [|split; vm_compute; reflexivity].
  intros Q. apply (f_equal (fun h => existsb (fun c => match c with CBase b => match b_desc b with Some _ => true | None => false end | _ => false end) h)) in Q.
  revert Q. assert (A : existsb (fun c => match c with CBase b => match b_desc b with Some _ => true | None => false end | _ => false end) (heap (p_st p82)) = true) by (vm_compute; reflexivity).
  rewrite A. clear A. induction (heap (p_st p82)) as [|[] l IH]; cbn; auto; discriminate.
Qed.

(** Without descriptions the same pets are checked with the same outcome. *)
Definition undescribed (c : cell) : cell :=
  match c with
  | CBase b => CBase (set_desc None b)
  | _ => c
  end.
Example C82_check_case : (forall h, same_shapes h (map undescribed h))
  /\ match type_in p82 "Cat" with Some a => check 12 exO (map undescribed (heap (p_st p82))) a = Ok tt | None => False end.
Proof.
  split; [|vm_compute; reflexivity]. intros h x. unfold get_base, get_props, get_slice. rewrite nth_error_map.
  destruct (nth_error h x) as [[]|]; cbn; auto.
Qed.
(** Check does read the discriminator: it is an array here. *)
Definition h82 : list cell :=
  eempty ++ [eb 1 "T" "object" (SObject (ObjF (Some "kids") None None (Some 5) None None None));
             eb 2 "kids" "array" (SArray (ArrF None None None None)); CProps [("kids", Prop_ "kids" 4 true)]].
Example C82_check_discriminator : check 9 exO h82 3 = Err /\ check 9 exO (map undescribed h82) 3 = Err /\ check 9 exO (map bare h82) 3 = Ok tt.
Proof. repeat split; reflexivity. Qed.

(** The claim that the discriminator decides: a type with the discriminator value
    [cat] takes dogs and birds, and so does the union of cats and dogs. *)
Theorem C82_discriminator_refuted : exists p, run82 ts82 = (Ok (ELib 0), p)
  /\ verdict p "Cat" (kind_of "dog") = Ok tt /\ verdict p "Dog" (kind_of "cat") = Ok tt /\ verdict p "Any" (kind_of "bird") = Ok tt.
Proof. shown. Qed.
Print Assumptions C82_discriminator_refuted.

(** The enum of a union is not read either: [U: {type: string | boolean, enum: [a]}]. *)
Theorem C82_union_enum_refuted : exists p, run82 [("U", mp [("type", sc "string | boolean"); ("enum", sq [sc "a"])])] = (Ok (ELib 0), p)
  /\ verdict p "U" (GStr "b") = Ok tt /\ verdict p "U" (GStr "a") = Ok tt.
Proof. shown. Qed.
Print Assumptions C82_union_enum_refuted.
