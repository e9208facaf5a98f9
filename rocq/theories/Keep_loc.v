(** Copying, aliasing, inheriting, unwrapping, marking and validating only make
    types whose location is that of a type that was there before. *)
From Coq Require Import ZArith List String Lia Bool.
From Verif Require Import Base Scalars Heap Heap_lemmas Validate Pipeline Pipeline_proofs.
Import ListNotations.
Open Scope nat_scope.

Section Loc.
Variable Q : string -> Prop.

Definition okh (s : st) : Prop := forall x b, get_base (heap s) x = Some b -> Q (b_loc b).
Definition alw {A} (m : M A) : Prop := forall s r s', m s = (r, s') -> okh s -> okh s'.
Definition okc (c : cell) : Prop := match c with CBase b => Q (b_loc b) | _ => True end.

Lemma a_ret {A} (a : A) : alw (ret a).
Proof. intros s r s' H K. injection H as _ <-. exact K. Qed.
Lemma a_lift {A} (r0 : res A) : alw (lift r0).
Proof. intros s r s' H K. injection H as _ <-. exact K. Qed.
Lemma a_pure {A} (f : st -> res A) : alw (fun s => (f s, s)).
Proof. intros s r s' H K. injection H as _ <-. exact K. Qed.
Lemma a_fail {A} : alw (@fail A).
Proof. intros s r s' H K. injection H as _ <-. exact K. Qed.
Lemma a_panic {A} : alw (@mpanic A).
Proof. intros s r s' H K. injection H as _ <-. exact K. Qed.
Lemma a_diverge {A} : alw (@diverge A).
Proof. intros s r s' H K. injection H as _ <-. exact K. Qed.
Lemma a_bind {A B} (m : M A) (f : A -> M B) : alw m -> (forall a, alw (f a)) -> alw (bind m f).
Proof.
  intros Hm Hf s r s' H K. unfold bind in H. destruct (m s) as [[a| | |] s1] eqn:E.
  - exact (Hf a _ _ _ H (Hm _ _ _ E K)).
  - injection H as _ <-. exact (Hm _ _ _ E K).
  - injection H as _ <-. exact (Hm _ _ _ E K).
  - injection H as _ <-. exact (Hm _ _ _ E K).
Qed.
Lemma a_rdb {B} a (f : base -> M B) : (forall b, Q (b_loc b) -> alw (f b)) -> alw (bind (rd get_base a) f).
Proof.
  intros Hf s r s' H K. unfold bind, rd in H. destruct (get_base (heap s) a) as [b|] eqn:E.
  - exact (Hf b (K _ _ E) _ _ _ H K).
  - injection H as _ <-. exact K.
Qed.
Lemma a_rd {A} (get : list cell -> addr -> option A) a : alw (rd get a).
Proof. intros s r s' H K. unfold rd in H. destruct (get (heap s) a); injection H as _ <-; exact K. Qed.
Lemma a_try {A} (m : M A) : alw m -> alw (try m).
Proof.
  intros Hm s r s' H K. unfold try in H. destruct (m s) as [[a| | |] s1] eqn:E; injection H as _ <-; exact (Hm _ _ _ E K).
Qed.
Lemma a_write a c : okc c -> alw (write a c).
Proof.
  intros C s r s' H K x b. injection H as _ <-. unfold get_base. simpl.
  destruct (Nat.eq_dec x a) as [->|N].
  - destruct (nth_error (upd a c (heap s)) a) as [[b'| | | |]|] eqn:E; try discriminate. intros X. injection X as ->.
    assert (L : (a < List.length (upd a c (heap s)))%nat) by (apply nth_error_Some; rewrite E; discriminate).
    rewrite upd_length in L. destruct (nth_error (heap s) a) as [d|] eqn:D.
    + rewrite (nth_error_upd_eq _ _ _ _ D) in E. injection E as ->. exact C.
    + apply nth_error_None in D. lia.
  - rewrite nth_error_upd_neq by auto. exact (K x b).
Qed.
Lemma a_alloc c : okc c -> alw (alloc c).
Proof.
  intros C s r s' H K x b. injection H as _ <-. unfold get_base. simpl.
  destruct (Nat.lt_ge_cases x (List.length (heap s))) as [L|L].
  - rewrite nth_error_app1 by auto. exact (K x b).
  - rewrite nth_error_app2 by auto. destruct (x - List.length (heap s)) as [|k]; simpl.
    + destruct c; try discriminate. intros X. injection X as ->. exact C.
    + destruct k; discriminate.
Qed.
Lemma a_genid : alw gen_id.
Proof. intros s r s' H K. injection H as _ <-. exact K. Qed.
Lemma a_put a : alw (put_shape a).
Proof. intros s r s' H K. injection H as _ <-. exact K. Qed.
Lemma a_upd a f : (forall b, b_loc (f b) = b_loc b) -> alw (upd_base a f).
Proof. intros F. unfold upd_base. apply a_rdb. intros b B. apply a_write. simpl. rewrite F. exact B. Qed.

Ltac aw :=
  repeat first
    [ assumption
    | match goal with H : forall _, alw _ |- _ => apply H end
    | match goal with H : forall _ _, alw _ |- _ => apply H end
    | apply a_ret | apply a_fail | apply a_panic | apply a_diverge | apply a_lift | apply a_genid | apply a_put
    | match goal with |- alw (bind (rd get_base _) _) => apply a_rdb; intros ? ? end
    | match goal with |- alw (rd _ _) => apply a_rd end
    | match goal with |- alw (bind _ _) => apply a_bind; [|intros ?] end
    | match goal with |- alw (try _) => apply a_try end
    | match goal with |- alw (upd_base _ _) => apply a_upd; intros; reflexivity end
    | apply a_write; simpl; solve [exact Logic.I | assumption]
    | apply a_alloc; simpl; solve [exact Logic.I | assumption]
    | match goal with
      | |- alw (match ?x with _ => _ end) => destruct x
      | |- alw (let '(_, _) := ?x in _) => destruct x
      end ].

Lemma a_loop_props n : forall m i body, (forall k p, alw (body k p)) -> alw (loop_props n m i body).
Proof. induction n as [|n IH]; intros m i body H; simpl; aw. apply IH; auto. Qed.
Lemma a_loop_slice n : forall m i body, (forall k p, alw (body k p)) -> alw (loop_slice n m i body).
Proof. induction n as [|n IH]; intros m i body H; simpl; aw. apply IH; auto. Qed.
Lemma a_props_set m k p : alw (props_set m k p).
Proof. unfold props_set. aw. Qed.
Lemma a_slice_set m k p : alw (slice_set m k p).
Proof. unfold slice_set. aw. Qed.

Section CloneP.
Variable rec : cmap -> addr -> M (addr * cmap).
Hypothesis Hrec : forall cm a, alw (rec cm a).
Lemma a_clone_list l : forall cm, alw (clone_list rec cm l).
Proof. induction l as [|x l IH]; intros cm; simpl; aw. Qed.
Lemma a_clone_props l : forall cm, alw (clone_props rec cm l).
Proof. induction l as [|[k p] l IH]; intros cm; simpl; aw. Qed.
Lemma a_clone_opt cm o : alw (clone_opt rec cm o).
Proof. unfold clone_opt. aw. Qed.
Lemma a_clone_optprops cm o : alw (clone_optprops rec cm o).
Proof. unfold clone_optprops. aw; try apply a_clone_props; auto. Qed.
Lemma a_clone_shape cm sh : alw (clone_shape rec cm sh).
Proof. unfold clone_shape. destruct sh; aw; auto using a_clone_opt, a_clone_optprops, a_clone_list. Qed.
End CloneP.

Lemma a_clone n : forall cm a, alw (clone n cm a).
Proof.
  induction n as [|n IH]; intros cm a; simpl; aw;
    auto using a_clone_props, a_clone_opt, a_clone_list, a_clone_shape.
Qed.
Lemma a_clone_detached n a : alw (clone_detached n a).
Proof. unfold clone_detached. aw; try apply a_clone; auto. Qed.
Lemma a_alias_to t s : alw (alias_to t s).
Proof. unfold alias_to. aw. Qed.

Section InheritP.
Variable n : nat.
Variable rec : addr -> addr -> M addr.
Hypothesis Hrec : forall a b, alw (rec a b).
Lemma a_upd_arr a f : alw (upd_arr a f).
Proof. unfold upd_arr. aw. Qed.
Lemma a_upd_obj a f : alw (upd_obj a f).
Proof. unfold upd_obj. aw. Qed.
Lemma a_cur_arr a f : alw (cur_arr a f).
Proof. unfold cur_arr. aw. Qed.
Lemma a_cur_obj a f : alw (cur_obj a f).
Proof. unfold cur_obj. aw. Qed.
Lemma a_inherit_array t src tf sf : alw (inherit_array rec t src tf sf).
Proof. unfold inherit_array. aw; auto using a_upd_arr, a_cur_arr. Qed.
Lemma a_inherit_map tm sm : alw (inherit_map n rec tm sm).
Proof. unfold inherit_map. apply a_loop_props. intros k p. aw; try apply a_props_set; auto. Qed.
Lemma a_inherit_object t src tf sf : alw (inherit_object n rec t src tf sf).
Proof.
  unfold inherit_object, inherit_props, inherit_pprops. aw; auto using a_upd_obj, a_cur_obj, a_inherit_map.
Qed.
Lemma a_union_inner sm ty l : alw (union_inner n rec sm ty l).
Proof. induction l as [|x l IH]; simpl; aw; auto using a_clone, a_clone_detached. Qed.
Lemma a_union_outer tsl l : alw (union_outer n rec tsl l).
Proof. induction l as [|x l IH]; simpl; aw; try apply a_union_inner; auto. Qed.
Lemma a_inherit_union t tsl e ssl : alw (inherit_union n rec t tsl e ssl).
Proof. unfold inherit_union. aw; try apply a_union_outer; auto. Qed.
Lemma a_inherit_shape t src x y : alw (inherit_shape n rec t src x y).
Proof. unfold inherit_shape. aw; auto using a_inherit_array, a_inherit_object, a_inherit_union. Qed.
Lemma a_union_source s l : alw (union_source n rec s l).
Proof. induction l as [|x l IH]; simpl; aw; auto using a_clone, a_clone_detached. Qed.
Lemma a_inherit_union_source s l : alw (inherit_union_source n rec s l).
Proof. unfold inherit_union_source. aw; auto using a_union_source. Qed.
Lemma a_union_target k s l : forall i g, alw (union_target rec k s l i g).
Proof. induction k as [|k IH]; intros i g; simpl; aw. Qed.
Lemma a_inherit_body s src : alw (inherit_body n rec s src).
Proof. unfold inherit_body. aw; auto using a_inherit_shape, a_inherit_union_source, a_union_target. Qed.
End InheritP.

Lemma a_inherit n : forall a b, alw (inherit n a b).
Proof. induction n as [|n IH]; intros a b; simpl; [apply a_diverge|apply a_inherit_body; auto]. Qed.

Section UnwrapP.
Variable n : nat.
Variable rec : addr -> M addr.
Hypothesis Hrec : forall a, alw (rec a).
Lemma a_unwrap_map m : alw (unwrap_map n rec m).
Proof. unfold unwrap_map. apply a_loop_props. intros k p. aw; try apply a_props_set; auto. Qed.
Lemma a_unwrap_optmap m : alw (unwrap_optmap n rec m).
Proof. unfold unwrap_optmap. aw; try apply a_unwrap_map; auto. Qed.
Lemma a_unwrap_target a : alw (unwrap_target n rec a).
Proof.
  unfold unwrap_target. aw; auto using a_upd_arr, a_unwrap_optmap.
  apply a_loop_slice. intros k p. aw; try apply a_slice_set; auto.
Qed.
Lemma a_unwrap_more_parents k inh sl ss : (forall a b, alw (inh a b)) -> forall i, alw (unwrap_more_parents rec k inh sl ss i).
Proof. intros Hi. induction k as [|k IH]; intros i; simpl; aw; try apply a_slice_set; auto. Qed.
Lemma a_unwrap_parents inh a : (forall a b, alw (inh a b)) -> alw (unwrap_parents n rec inh a).
Proof. intros Hi. unfold unwrap_parents. aw; auto using a_slice_set, a_unwrap_more_parents. Qed.
Lemma a_unwrap_fdefs a : alw (unwrap_fdefs n rec a).
Proof. unfold unwrap_fdefs. aw. apply a_loop_props. intros k p. aw; try apply a_props_set; auto. Qed.
End UnwrapP.

Lemma a_unwrap n : forall a, alw (unwrap n a).
Proof.
  induction n as [|n IH]; intros a; simpl; aw;
    auto using a_alias_to, a_unwrap_parents, a_unwrap_target, a_unwrap_fdefs, a_inherit.
Qed.

Lemma a_make_recursive a : alw (make_recursive a).
Proof. unfold make_recursive, make_base. aw. Qed.

Section MarkP.
Variable n : nat.
Variable rec : addr -> M (option addr).
Hypothesis Hrec : forall a, alw (rec a).
Lemma a_mark_map m : alw (mark_map n rec m).
Proof. unfold mark_map. apply a_loop_props. intros k p. aw; try apply a_props_set; auto. Qed.
Lemma a_mark_optmap m : alw (mark_optmap n rec m).
Proof. unfold mark_optmap. aw; try apply a_mark_map; auto. Qed.
Lemma a_mark_shape a : alw (mark_shape n rec a).
Proof.
  unfold mark_shape. aw; auto using a_upd_arr, a_mark_optmap.
  apply a_loop_slice. intros k p. aw; try apply a_slice_set; auto.
Qed.
End MarkP.
Lemma a_mark n : forall a, alw (mark n a).
Proof. induction n as [|n IH]; intros a; simpl; aw; auto using a_make_recursive, a_mark_shape, a_mark_map. Qed.
Lemma a_mark_all n l : alw (mark_all n l).
Proof. induction l as [|x l IH]; simpl; aw; try apply a_mark; auto. Qed.

(** ** The whole model *)
Lemma a_relink a us : alw (relink a us).
Proof.
  intros s r s' H K x b. injection H as _ <-. unfold get_base. simpl. rewrite nth_error_map.
  destruct (nth_error (heap s) x) as [c|] eqn:E; simpl; [|discriminate].
  intros X. apply (K x b). unfold get_base. rewrite E.
  destruct c as [| | | |[y|]]; try exact X. destruct (Nat.eqb y a); discriminate.
Qed.
Lemma a_unwrap_types n loc l : forall i, alw (unwrap_types n loc l i).
Proof. induction l as [|[k a] l IH]; intros i; simpl; aw; try apply a_unwrap; auto. Qed.
Lemma a_unwrap_fragment n loc f u : alw (unwrap_fragment n loc f u).
Proof. unfold unwrap_fragment. aw; auto using a_unwrap_types, a_unwrap, a_relink. Qed.
Lemma a_unwrap_fragments n o : forall u, alw (unwrap_fragments n o u).
Proof. induction o as [|k o IH]; intros u; simpl; aw; auto using a_unwrap_fragment. Qed.
Lemma a_mark_fragment n L f : alw (mark_fragment n L f).
Proof. unfold mark_fragment. destruct f as [l|us [a|]|]; aw; auto using a_mark_all. Qed.
Lemma a_mark_fragments n o L fs : alw (mark_fragments n o L fs).
Proof. induction o as [|k o IH]; simpl; aw; auto using a_mark_fragment. Qed.
Lemma a_unwrap_exts i l : alw (unwrap_exts i l).
Proof. induction l as [|x l IH]; simpl; aw. Qed.
Lemma a_unwrap_shapes n o1 o2 R : alw (unwrap_shapes n o1 o2 R).
Proof.
  unfold unwrap_shapes. apply a_bind; [intros s r s' H K; injection H as _ <-; exact K|]. intros _.
  aw; auto using a_unwrap_fragments, a_mark_fragments, a_unwrap_exts.
Qed.
Lemma a_val_unwrap n a c : alw (val_unwrap n a c).
Proof. unfold val_unwrap. aw; auto using a_clone, a_clone_detached, a_unwrap, a_mark. Qed.
Lemma a_check_type n O a : alw (check_type n O a).
Proof. intros s r s' H K. unfold check_type in H. destruct (check n O (heap s) a); injection H as _ <-; exact K. Qed.
Lemma a_validate_type n O a c : alw (validate_type n O a c).
Proof. unfold validate_type. aw; auto using a_val_unwrap, a_check_type. Qed.
Lemma a_validate_types n O l : forall c, alw (validate_types n O l c).
Proof. induction l as [|[k a] l IH]; intros c; simpl; aw; try apply a_validate_type; auto. Qed.
Lemma a_validate_fragment n O L f c : alw (validate_fragment n O L f c).
Proof. unfold validate_fragment, validate_library. destruct f as [l|us [a|]|]; aw; auto using a_validate_types, a_validate_type. Qed.
Lemma a_validate_fragments n O R o : forall c, alw (validate_fragments n O R o c).
Proof. induction o as [|k o IH]; intros c; simpl; aw; try apply a_validate_fragment; auto. Qed.
Lemma a_validate_ext n O e c : alw (validate_ext n O e c).
Proof. unfold validate_ext. aw; try apply a_pure; auto. Qed.
Lemma a_validate_exts n O l c : alw (validate_exts n O l c).
Proof. induction l as [|x l IH]; simpl; aw; try apply a_validate_ext; auto. Qed.
Lemma a_validate_shapes n O o R : alw (validate_shapes n O o R).
Proof. unfold validate_shapes. aw; auto using a_validate_fragments, a_validate_exts. Qed.
End Loc.
