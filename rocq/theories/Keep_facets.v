(** A type that is marked unwrapped and has no parents keeps its custom facets
    and gets no parents, whatever is copied, inherited, unwrapped or marked. *)
From Coq Require Import ZArith List String Lia Bool.
From Verif Require Import Base Scalars Heap Heap_lemmas Spec_Pipeline.
From Verif Require Pipeline_proofs Clone_proofs.
Import ListNotations.
Open Scope nat_scope.

Section Root.
(** The type, its list of parents, its custom facets and what is among them. *)
Variables a0 i0 f0 : addr.
Variable K : string -> Prop.

Definition has (m : omap gval) : Prop := forall k, K k -> oget k m <> None.
Record okheap (h : list cell) : Prop := {
  ok_base : exists b, get_base h a0 = Some b /\ b_inherits b = i0 /\ b_facets b = f0 /\ b_unwrapped b = true;
  ok_inh : nth_error h i0 = Some (CSlice []);
  ok_facets : exists m, nth_error h f0 = Some (CFacets m) /\ has m
}.
Definition okh (s : st) : Prop := okheap (heap s).
Definition alw {A} (m : M A) : Prop := forall s r s', m s = (r, s') -> okh s -> okh s'.
Definition other (x : addr) : Prop := x <> a0 /\ x <> i0 /\ x <> f0.

Lemma a_ret {A} (a : A) : alw (ret a).
Proof. intros s r s' H K0. injection H as _ <-. exact K0. Qed.
Lemma a_lift {A} (r0 : res A) : alw (lift r0).
Proof. intros s r s' H K0. injection H as _ <-. exact K0. Qed.
Lemma a_fail {A} : alw (@fail A).
Proof. intros s r s' H K0. injection H as _ <-. exact K0. Qed.
Lemma a_panic {A} : alw (@mpanic A).
Proof. intros s r s' H K0. injection H as _ <-. exact K0. Qed.
Lemma a_diverge {A} : alw (@diverge A).
Proof. intros s r s' H K0. injection H as _ <-. exact K0. Qed.
Lemma a_bind {A B} (m : M A) (f : A -> M B) : alw m -> (forall a, alw (f a)) -> alw (bind m f).
Proof.
  intros Hm Hf s r s' H K0. unfold bind in H. destruct (m s) as [[a| | |] s1] eqn:E.
  - exact (Hf a _ _ _ H (Hm _ _ _ E K0)).
  - injection H as _ <-. exact (Hm _ _ _ E K0).
  - injection H as _ <-. exact (Hm _ _ _ E K0).
  - injection H as _ <-. exact (Hm _ _ _ E K0).
Qed.
Lemma a_rdb {B} a (f : base -> M B) : (forall b, (a = a0 -> b_unwrapped b = true) -> alw (f b)) -> alw (bind (rd get_base a) f).
Proof.
  intros Hf s r s' H K0. unfold bind, rd in H. destruct (get_base (heap s) a) as [b|] eqn:E.
  - refine (Hf b _ _ _ _ H K0). intros ->. destruct (ok_base _ K0) as (b' & G & _ & _ & U). congruence.
  - injection H as _ <-. exact K0.
Qed.
Lemma a_rd {A} (get : list cell -> addr -> option A) a : alw (rd get a).
Proof. intros s r s' H K0. unfold rd in H. destruct (get (heap s) a); injection H as _ <-; exact K0. Qed.
Lemma a_try {A} (m : M A) : alw m -> alw (try m).
Proof.
  intros Hm s r s' H K0. unfold try in H. destruct (m s) as [[a| | |] s1] eqn:E; injection H as _ <-; exact (Hm _ _ _ E K0).
Qed.
Lemma a_genid : alw gen_id.
Proof. intros s r s' H K0. injection H as _ <-. exact K0. Qed.
Lemma a_put a : alw (put_shape a).
Proof. intros s r s' H K0. injection H as _ <-. exact K0. Qed.

Lemma keep_upd s x c : okh s -> other x -> okheap (upd x c (heap s)).
Proof.
  intros [(b & G & R) I (m & F & S)] (N1 & N2 & N3). split.
  - exists b. split; auto. unfold get_base. rewrite nth_error_upd_neq by auto. exact G.
  - rewrite nth_error_upd_neq by auto. exact I.
  - exists m. split; auto. rewrite nth_error_upd_neq by auto. exact F.
Qed.
Lemma a_write x c : other x -> alw (write x c).
Proof. intros N s r s' H K0. injection H as _ <-. now apply keep_upd. Qed.
Lemma keep_app h c : okheap h -> okheap (h ++ [c]).
Proof.
  intros [(b & G & R) I (m & F & S)]. split.
  - exists b. split; auto. unfold get_base in *. rewrite nth_error_app1; auto. apply nth_error_Some. intros Q. rewrite Q in G. discriminate.
  - rewrite nth_error_app1; auto. apply nth_error_Some. congruence.
  - exists m. split; auto. rewrite nth_error_app1; auto. apply nth_error_Some. congruence.
Qed.
Lemma a_alloc c : alw (alloc c).
Proof. intros s r s' H K0. injection H as _ <-. now apply keep_app. Qed.
Lemma new_other s : okh s -> other (List.length (heap s)).
Proof.
  intros [(b & G & _) I (m & F & _)].
  assert (L : forall x c, nth_error (heap s) x = Some c -> List.length (heap s) <> x).
  { intros x c N. assert (x < List.length (heap s)) by (apply nth_error_Some; congruence). lia. }
  apply get_base_nth in G. split; [eapply L; eauto|]. split; eapply L; eauto.
Qed.
Lemma a_alloc_bind {B} c (f : addr -> M B) : (forall x, other x -> alw (f x)) -> alw (bind (alloc c) f).
Proof.
  intros Hf s r s' H K0. unfold bind, alloc in H. refine (Hf _ (new_other _ K0) _ _ _ H _). now apply keep_app.
Qed.

(** Cells that are read just before they are written. *)
Lemma put_base s x b b' : okh s -> get_base (heap s) x = Some b ->
  (x = a0 -> b_inherits b' = b_inherits b /\ b_facets b' = b_facets b /\ (b_unwrapped b = true -> b_unwrapped b' = true)) ->
  okheap (upd x (CBase b') (heap s)).
Proof.
  intros K0 G F. apply get_base_nth in G. destruct (Nat.eq_dec x a0) as [->|N].
  - destruct (F eq_refl) as (F1 & F2 & F3). destruct K0 as [(b1 & G1 & R1 & R2 & R3) I (m & Fm & S)].
    apply get_base_nth in G1. rewrite G1 in G. injection G as ->.
    split.
    + exists b'. split; [apply get_base_nth; eapply nth_error_upd_eq; eauto|]. split; [congruence|]. split; [congruence|auto].
    + rewrite nth_error_upd_neq; auto. congruence.
    + exists m. split; auto. rewrite nth_error_upd_neq; auto. congruence.
  - apply keep_upd; auto. destruct K0 as [_ I (m & Fm & S)]. split; auto. split; congruence.
Qed.
Lemma a_upd a f : (forall b, b_inherits (f b) = b_inherits b /\ b_facets (f b) = b_facets b /\ (b_unwrapped b = true -> b_unwrapped (f b) = true)) ->
  alw (upd_base a f).
Proof.
  intros F s r s' H K0. unfold upd_base, bind, rd in H. destruct (get_base (heap s) a) as [b|] eqn:G; injection H as _ <-; auto.
  apply (put_base s a b); auto.
Qed.
Lemma a_upd_other a f : a <> a0 -> alw (upd_base a f).
Proof.
  intros N s r s' H K0. unfold upd_base, bind, rd in H. destruct (get_base (heap s) a) as [b|] eqn:G; injection H as _ <-; auto.
  apply (put_base s a b); auto. contradiction.
Qed.

Ltac aw :=
  repeat first
    [ assumption
    | match goal with H : forall _, alw _ |- _ => apply H end
    | match goal with H : forall _ _, alw _ |- _ => apply H end
    | apply a_ret | apply a_fail | apply a_panic | apply a_diverge | apply a_lift | apply a_genid | apply a_put
    | match goal with |- alw (bind (rd get_base _) _) => apply a_rdb; intros ? ? end
    | match goal with |- alw (bind (alloc _) _) => apply a_alloc_bind; intros ? ? end
    | match goal with |- alw (rd _ _) => apply a_rd end
    | match goal with |- alw (bind _ _) => apply a_bind; [|intros ?] end
    | match goal with |- alw (try _) => apply a_try end
    | match goal with |- alw (upd_base _ _) => apply a_upd; intros; solve [repeat split; auto] end
    | apply a_write; assumption
    | apply a_alloc
    | match goal with
      | |- alw (match ?x with _ => _ end) => destruct x eqn:?
      | |- alw (let '(_, _) := ?x in _) => destruct x
      end ].

Lemma a_loop_props n : forall m i body, (forall k p, alw (body k p)) -> alw (loop_props n m i body).
Proof. induction n as [|n IH]; intros m i body H; simpl; aw. apply IH; auto. Qed.
Lemma a_loop_slice n : forall m i body, (forall k p, alw (body k p)) -> alw (loop_slice n m i body).
Proof. induction n as [|n IH]; intros m i body H; simpl; aw. apply IH; auto. Qed.
Lemma a_props_set m k p : alw (props_set m k p).
Proof.
  intros s r s' H K0. unfold props_set, bind, rd in H. destruct (get_props (heap s) m) as [l|] eqn:G; injection H as _ <-; auto.
  apply keep_upd; auto. apply get_props_nth in G. destruct K0 as [(b & B & _) I (x & F & _)]. apply get_base_nth in B.
  repeat split; congruence.
Qed.
Lemma a_slice_set m i x : alw (slice_set m i x).
Proof.
  intros s r s' H K0. unfold slice_set, bind, rd in H. destruct (get_slice (heap s) m) as [l|] eqn:G; [|injection H as _ <-; auto].
  destruct (nth_error l i) eqn:N; injection H as _ <-; auto.
  apply keep_upd; auto. apply get_slice_nth in G. destruct K0 as [(b & B & _) I (y & F & _)]. apply get_base_nth in B.
  split; [congruence|]. split; [|congruence]. intros ->. rewrite I in G. injection G as <-. destruct i; discriminate.
Qed.

Section CloneP.
Variable rec : cmap -> addr -> M (addr * cmap).
Hypothesis Hrec : forall cm a, alw (rec cm a).
Lemma a_clone_list l : forall cm, alw (clone_list rec cm l).
Proof. induction l as [|x l IH]; intros cm; simpl; aw. Qed.
Lemma a_clone_props l : forall cm, alw (clone_props rec cm l).
Proof. induction l as [|[k p] l IH]; intros cm; simpl; aw. Qed.
Lemma a_clone_opt cm o : alw (clone_opt rec cm o).
Proof. unfold clone_opt. aw. Qed.
Lemma a_clone_optprops cm o : alw (clone_optprops rec cm o).
Proof. unfold clone_optprops. aw; try apply a_clone_props; auto. Qed.
Lemma a_clone_shape cm sh : alw (clone_shape rec cm sh).
Proof. unfold clone_shape. destruct sh; aw; auto using a_clone_opt, a_clone_optprops, a_clone_list. Qed.
End CloneP.

Lemma a_clone n : forall cm a, alw (clone n cm a).
Proof.
  induction n as [|n IH]; intros cm a; simpl; aw;
    auto using a_clone_props, a_clone_opt, a_clone_list, a_clone_shape.
Qed.
Lemma a_clone_detached n a : alw (clone_detached n a).
Proof. unfold clone_detached. aw; try apply a_clone; auto. Qed.
Lemma a_alias_to t s : t <> a0 -> alw (alias_to t s).
Proof.
  intros N s0 r s' H K0. unfold alias_to, bind, rd in H.
  destruct (get_base (heap s0) t) as [b|] eqn:G; [|injection H as _ <-; auto].
  destruct (get_base (heap s0) s) as [sb|] eqn:G'; [|injection H as _ <-; auto].
  destruct (b_shape b), (b_shape sb); try (injection H as _ <-; exact K0).
  destruct (alias_shape _ _); injection H as _ <-; auto. apply (put_base s0 t b); auto. contradiction.
Qed.

Lemma merge_has m sm : has m -> has (merge_facets m sm).
Proof.
  unfold merge_facets. revert m. induction sm as [|(k & v) sm IH]; intros m H; cbn [fold_left fst snd]; auto. apply IH.
  destruct (oget k m) eqn:G; auto. intros k' Hk. destruct (String.eqb_spec k' k) as [->|N].
  - rewrite Pipeline_proofs.oget_oset_same. discriminate.
  - rewrite Pipeline_proofs.oget_oset_other; auto.
Qed.

Section InheritP.
Variable n : nat.
Variable rec : addr -> addr -> M addr.
Hypothesis Hrec : forall a b, alw (rec a b).
Lemma a_upd_arr a f : alw (upd_arr a f).
Proof.
  intros s r s' H K0. unfold upd_arr, bind, rd in H. destruct (get_base (heap s) a) as [b|] eqn:G; [|injection H as _ <-; auto].
  destruct (b_shape b) as [[]|]; injection H as _ <-; auto. apply (put_base s a b); auto.
Qed.
Lemma a_upd_obj a f : alw (upd_obj a f).
Proof.
  intros s r s' H K0. unfold upd_obj, bind, rd in H. destruct (get_base (heap s) a) as [b|] eqn:G; [|injection H as _ <-; auto].
  destruct (b_shape b) as [[]|]; injection H as _ <-; auto. apply (put_base s a b); auto.
Qed.
Lemma a_cur_arr a f : alw (cur_arr a f).
Proof. unfold cur_arr. aw. Qed.
Lemma a_cur_obj a f : alw (cur_obj a f).
Proof. unfold cur_obj. aw. Qed.
Lemma a_inherit_array t src tf sf : alw (inherit_array rec t src tf sf).
Proof. unfold inherit_array. aw; auto using a_upd_arr, a_cur_arr. Qed.
Lemma a_inherit_map tm sm : alw (inherit_map n rec tm sm).
Proof. unfold inherit_map. apply a_loop_props. intros k p. aw; try apply a_props_set; auto. Qed.
Lemma a_inherit_object t src tf sf : alw (inherit_object n rec t src tf sf).
Proof.
  unfold inherit_object, inherit_props, inherit_pprops. aw; auto using a_upd_obj, a_cur_obj, a_inherit_map.
Qed.
Lemma a_union_inner sm ty l : alw (union_inner n rec sm ty l).
Proof. induction l as [|x l IH]; simpl; aw; auto using a_clone, a_clone_detached. Qed.
Lemma a_union_outer tsl l : alw (union_outer n rec tsl l).
Proof. induction l as [|x l IH]; simpl; aw; try apply a_union_inner; auto. Qed.
Lemma a_inherit_union t tsl e ssl : alw (inherit_union n rec t tsl e ssl).
Proof. unfold inherit_union. aw; try apply a_union_outer; auto. Qed.
Lemma a_inherit_shape t src x y : alw (inherit_shape n rec t src x y).
Proof. unfold inherit_shape. aw; auto using a_inherit_array, a_inherit_object, a_inherit_union. Qed.
Lemma a_union_source s l : alw (union_source n rec s l).
Proof. induction l as [|x l IH]; simpl; aw; auto using a_clone, a_clone_detached. Qed.
Lemma a_inherit_union_source s l : alw (inherit_union_source n rec s l).
Proof. unfold inherit_union_source. aw; auto using a_union_source. Qed.
Lemma a_union_target k s l : forall i g, alw (union_target rec k s l i g).
Proof. induction k as [|k IH]; intros i g; simpl; aw. Qed.
(** The custom facets of the target, which only get more. *)
Lemma a_merge {B} x y (f : M B) : alw f ->
  alw (bind (rd get_facets x) (fun tfm => bind (rd get_facets y) (fun sfm => bind (write x (CFacets (merge_facets tfm sfm))) (fun _ => f)))).
Proof.
  intros Hf s r s' H K0. unfold bind, rd in H. destruct (get_facets (heap s) x) as [t|] eqn:G; [|injection H as _ <-; auto].
  destruct (get_facets (heap s) y) as [u|]; [|injection H as _ <-; auto]. cbn in H.
  apply (Hf _ _ _ H). change (okheap (upd x (CFacets (merge_facets t u)) (heap s))). apply get_facets_nth in G. destruct (Nat.eq_dec x f0) as [->|N].
  - destruct K0 as [(b & B0 & R) I (m & F & S)]. rewrite F in G. injection G as ->. pose proof B0 as B1. apply get_base_nth in B1. split.
    + exists b. split; auto. apply get_base_nth. rewrite nth_error_upd_neq; auto. congruence.
    + rewrite nth_error_upd_neq; auto. congruence.
    + exists (merge_facets t u). split; [eapply nth_error_upd_eq; eauto|now apply merge_has].
  - apply (keep_upd s x (CFacets (merge_facets t u)) K0). destruct K0 as [(b & B0 & R) I (m & F & S)]. apply get_base_nth in B0. split; [congruence|split; [congruence|auto]].
Qed.
Lemma a_inherit_body s src : alw (inherit_body n rec s src).
Proof.
  unfold inherit_body. apply a_rdb. intros sb _. destruct (b_visited sb); [apply a_ret|]. apply a_bind; [aw|]. intros _. apply a_rdb. intros tb _.
  apply a_bind; [aw|]. intros _. apply a_merge. aw; auto using a_inherit_shape, a_inherit_union_source, a_union_target.
Qed.
End InheritP.

Lemma a_inherit n : forall a b, alw (inherit n a b).
Proof. induction n as [|n IH]; intros a b; simpl; [apply a_diverge|apply a_inherit_body; auto]. Qed.

Section UnwrapP.
Variable n : nat.
Variable rec : addr -> M addr.
Hypothesis Hrec : forall a, alw (rec a).
Lemma a_unwrap_map m : alw (unwrap_map n rec m).
Proof. unfold unwrap_map. apply a_loop_props. intros k p. aw; try apply a_props_set; auto. Qed.
Lemma a_unwrap_optmap m : alw (unwrap_optmap n rec m).
Proof. unfold unwrap_optmap. aw; try apply a_unwrap_map; auto. Qed.
Lemma a_unwrap_target a : alw (unwrap_target n rec a).
Proof.
  unfold unwrap_target. aw; auto using a_upd_arr, a_unwrap_optmap.
  apply a_loop_slice. intros k p. aw; try apply a_slice_set; auto.
Qed.
Lemma a_unwrap_more_parents k inh sl ss : (forall a b, alw (inh a b)) -> forall i, alw (unwrap_more_parents rec k inh sl ss i).
Proof. intros Hi. induction k as [|k IH]; intros i; simpl; aw; try apply a_slice_set; auto. Qed.
Lemma a_unwrap_parents inh a : (forall a b, alw (inh a b)) -> alw (unwrap_parents n rec inh a).
Proof. intros Hi. unfold unwrap_parents. aw; auto using a_slice_set, a_unwrap_more_parents. Qed.
Lemma a_unwrap_fdefs a : alw (unwrap_fdefs n rec a).
Proof. unfold unwrap_fdefs. aw. apply a_loop_props. intros k p. aw; try apply a_props_set; auto. Qed.
End UnwrapP.

Lemma a_unwrap n : forall a, alw (unwrap n a).
Proof.
  induction n as [|n IH]; intros a; simpl; [apply a_diverge|]. apply a_rdb. intros b U. destruct (b_shape b); [|apply a_fail].
  destruct (b_unwrapped b) eqn:Ub; [apply a_ret|].
  assert (Na : a <> a0) by (intros Q; specialize (U Q); congruence).
  aw; auto using a_alias_to, a_unwrap_parents, a_unwrap_target, a_unwrap_fdefs, a_inherit.
Qed.

Lemma a_make_recursive a : alw (make_recursive a).
Proof.
  intros s r s' H K0. unfold make_recursive in H. revert s r s' H K0. change (alw (make_recursive a)). unfold make_recursive, make_base.
  apply a_rdb. intros hb _. intros s r s' H K0. unfold bind, gen_id, alloc, put_shape, ret, rd in H. cbn in H.
  unfold upd_base, bind, rd in H. cbn in H.
  match type of H with context [get_base ?h ?x] => set (hh := h) in *; set (xx := x) in * end.
  assert (K1 : okheap hh) by (unfold hh; now repeat apply keep_app).
  assert (Nx : xx <> a0).
  { destruct (new_other s K0) as (N & _). destruct K0 as [(b & G & _) _ _]. apply get_base_nth in G.
    assert (a0 < List.length (heap s)) by (apply nth_error_Some; congruence). unfold xx. rewrite !app_length. cbn. lia. }
  destruct (get_base hh xx) as [b|] eqn:G; injection H as _ <-; [|exact K1].
  refine (put_base (St hh [] 0%Z) xx b _ K1 G _). contradiction.
Qed.

Section MarkP.
Variable n : nat.
Variable rec : addr -> M (option addr).
Hypothesis Hrec : forall a, alw (rec a).
Lemma a_mark_map m : alw (mark_map n rec m).
Proof. unfold mark_map. apply a_loop_props. intros k p. aw; try apply a_props_set; auto. Qed.
Lemma a_mark_optmap m : alw (mark_optmap n rec m).
Proof. unfold mark_optmap. aw; try apply a_mark_map; auto. Qed.
Lemma a_mark_shape a : alw (mark_shape n rec a).
Proof.
  unfold mark_shape. aw; auto using a_upd_arr, a_mark_optmap.
  apply a_loop_slice. intros k p. aw; try apply a_slice_set; auto.
Qed.
End MarkP.
Lemma a_mark n : forall a, alw (mark n a).
Proof. induction n as [|n IH]; intros a; simpl; aw; auto using a_make_recursive, a_mark_shape, a_mark_map. Qed.
End Root.

(** The unwrapped copy of a type that has no parents, is no alias and includes
    nothing has no parents either and has the custom facets of the type. *)
Lemma ext_cell s s' z c : extends s s' -> nth_error (heap s) z = Some c -> nth_error (heap s') z = Some c.
Proof. intros ((x & E) & _) N. rewrite E, nth_error_app1; auto. apply nth_error_Some. congruence. Qed.

Lemma clone_alone n cm a s c cm' s' b m : clone n cm a s = (Ok (c, cm'), s') -> get_base (heap s) a = Some b -> cm_get (b_id b) cm = None ->
  b_alias b = None -> b_link b = None -> get_slice (heap s) (b_inherits b) = Some [] -> get_facets (heap s) (b_facets b) = Some m ->
  exists c', get_base (heap s') c = Some c' /\ b_alias c' = None /\ b_link c' = None /\ b_unwrapped c' = b_unwrapped b
    /\ nth_error (heap s') (b_inherits c') = Some (CSlice []) /\ nth_error (heap s') (b_facets c') = Some (CFacets m).
Proof.
  intros H G Cm Al Li In Fa. destruct n as [|n]; [discriminate|]. cbn [clone] in H.
  apply bind_inv in H. destruct H as (b0 & s0 & H0 & H). apply rd_ok in H0. destruct H0 as [-> G0]. rewrite G in G0. injection G0 as <-. rewrite Cm in H.
  apply bind_inv in H. destruct H as (c0 & s1 & H1 & H). destruct (Clone_proofs.alloc_inv _ _ _ _ H1) as (Qc & X1 & N1 & L1).
  apply bind_inv in H. destruct H as (fm & s2 & H2 & H). apply rd_ok in H2. destruct H2 as [-> G2].
  assert (fm = m).
  { apply get_facets_nth in Fa. pose proof (ext_cell _ _ _ _ X1 Fa) as Fa1. apply get_facets_nth in Fa1. congruence. } subst fm.
  apply bind_inv in H. destruct H as (fd & s3 & H3 & H). apply rd_ok in H3. destruct H3 as [-> _].
  apply bind_inv in H. destruct H as (rd_ & s4 & H4 & H).
  pose proof (Clone_proofs.extends_after _ _ _ _ (clone_props_ext (clone n) (clone_ext n) fd _ s1) H4) as X4.
  apply bind_inv in H. destruct H as (ra & s5 & H5 & H). rewrite Al in H5. cbn [clone_opt] in H5. injection H5 as <- <-.
  apply bind_inv in H. destruct H as (inh & s6 & H6 & H). apply rd_ok in H6. destruct H6 as [-> G6].
  assert (inh = []).
  { apply get_slice_nth in In. pose proof (ext_cell _ _ _ _ X4 (ext_cell _ _ _ _ X1 In)) as I4. apply get_slice_nth in I4. congruence. } subst inh.
  apply bind_inv in H. destruct H as (ri & s7 & H7 & H). cbn [clone_list] in H7. injection H7 as <- <-.
  apply bind_inv in H. destruct H as (rl & s8 & H8 & H). rewrite Li in H8. injection H8 as <- <-.
  destruct (b_shape b) as [sh|] eqn:Sh; [|discriminate].
  apply bind_inv in H. destruct H as (rs & s9 & H9 & H).
  pose proof (Clone_proofs.extends_after _ _ _ _ (clone_shape_ext (clone n) (clone_ext n) _ sh s4) H9) as X9.
  apply bind_inv in H. destruct H as (fm' & s10 & H10 & H). destruct (Clone_proofs.alloc_inv _ _ _ _ H10) as (Q10 & X10 & N10 & L10).
  apply bind_inv in H. destruct H as (fd' & s11 & H11 & H). destruct (Clone_proofs.alloc_inv _ _ _ _ H11) as (Q11 & X11 & N11 & L11).
  apply bind_inv in H. destruct H as (inh' & s12 & H12 & H). destruct (Clone_proofs.alloc_inv _ _ _ _ H12) as (Q12 & X12 & N12 & L12).
  pose proof (ext_cell _ _ _ _ X12 (ext_cell _ _ _ _ X11 (ext_cell _ _ _ _ X10 (ext_cell _ _ _ _ X9 (ext_cell _ _ _ _ X4 N1))))) as Nc.
  pose proof (ext_cell _ _ _ _ X12 (ext_cell _ _ _ _ X11 N10)) as Nf.
  apply bind_inv in H. destruct H as (u & s13 & H13 & H). injection H as <- <- <-. unfold write in H13. injection H13 as _ <-.
  eexists. split; [apply get_base_nth; eapply nth_error_upd_eq; exact Nc|]. cbn [b_alias b_link b_unwrapped b_inherits b_facets fst snd].
  split; [reflexivity|]. split; [reflexivity|]. split; [reflexivity|]. split; cbn [heap].
  - rewrite nth_error_upd_neq; [exact N12|]. intros ->. congruence.
  - rewrite nth_error_upd_neq; [exact Nf|]. intros ->. congruence.
Qed.

Lemma alone_copy n a s us s' b m : unwrapped_copy n a s us s' -> get_base (heap s) a = Some b -> b_unwrapped b = false ->
  b_alias b = None -> b_link b = None -> get_slice (heap s) (b_inherits b) = Some [] -> get_facets (heap s) (b_facets b) = Some m ->
  exists b' m', get_base (heap s') us = Some b' /\ get_slice (heap s') (b_inherits b') = Some []
    /\ get_facets (heap s') (b_facets b') = Some m' /\ forall k, oget k m <> None -> oget k m' <> None.
Proof.
  intros (a1 & s1 & s2 & o & Hc & Hu & Hm) G Un Al Li In Fa. unfold clone_detached in Hc. apply bind_inv in Hc. destruct Hc as ([c cm'] & s1' & Hc & R).
  injection R as <- <-. cbn [fst] in *.
  destruct (clone_alone _ _ _ _ _ _ _ _ _ Hc G eq_refl Al Li In Fa) as (c' & Gc & Al' & Li' & Un' & Ni & Nf). rewrite Un in Un'.
  destruct n as [|n]; [discriminate|]. cbn [unwrap] in Hu. apply bind_inv in Hu. destruct Hu as (b0 & s0 & H0 & Hu). apply rd_ok in H0. destruct H0 as [-> G0].
  rewrite Gc in G0. injection G0 as <-. destruct (b_shape c') eqn:Sh; [|discriminate]. rewrite Un', Al' in Hu.
  apply bind_inv in Hu. destruct Hu as (u & t1 & H1 & Hu).
  set (K := fun k => oget k m <> None).
  assert (K1 : okh c (b_inherits c') (b_facets c') K t1).
  { unfold upd_base, bind, rd in H1. rewrite Gc in H1. injection H1 as _ <-. pose proof Gc as Gn. apply get_base_nth in Gn. split; cbn [heap].
    - exists (set_unwrapped true c'). split; [apply get_base_nth; eapply nth_error_upd_eq; exact Gn|]. auto.
    - rewrite nth_error_upd_neq; [exact Ni|]. congruence.
    - exists m. split; [rewrite nth_error_upd_neq; [exact Nf|]; congruence|]. intros k Hk. exact Hk. }
  apply bind_inv in Hu. destruct Hu as (src & t2 & H2 & Hu).
  assert (src = None /\ t2 = t1).
  { unfold unwrap_parents in H2. apply bind_inv in H2. destruct H2 as (b1 & t3 & H3 & H2). apply rd_ok in H3. destruct H3 as [-> G3].
    unfold upd_base, bind, rd in H1. rewrite Gc in H1. injection H1 as _ Q1. rewrite <- Q1 in G3. cbn [heap] in G3. pose proof Gc as Gn. apply get_base_nth in Gn, G3.
    rewrite (nth_error_upd_eq _ _ _ _ Gn) in G3. injection G3 as <-. cbn [set_unwrapped b_link b_inherits] in H2. rewrite Li' in H2.
    apply bind_inv in H2. destruct H2 as (l & t4 & H4 & H2). apply rd_ok in H4. destruct H4 as [-> G4].
    pose proof (ok_inh _ _ _ _ _ K1) as I1. apply get_slice_nth in G4. rewrite I1 in G4. injection G4 as <-. injection H2 as <- <-. auto. }
  destruct H as [-> ->].
  apply bind_inv in Hu. destruct Hu as (u1 & t3 & H3 & Hu). apply bind_inv in Hu. destruct Hu as (u2 & t4 & H4 & Hu).
  apply bind_inv in Hu. destruct Hu as (a' & t5 & H5 & Hu). injection H5 as <- <-.
  apply bind_inv in Hu. destruct Hu as (u3 & t6 & H6 & Hu). injection Hu as <- <-.
  pose proof (a_unwrap_target _ _ _ K n (unwrap n) (a_unwrap _ _ _ K n) c _ _ _ H3 K1) as K3.
  pose proof (a_unwrap_fdefs _ _ _ K n (unwrap n) (a_unwrap _ _ _ K n) c _ _ _ H4 K3) as K4.
  pose proof (a_put _ _ _ K c _ _ _ H6 K4) as K6.
  pose proof (a_mark _ _ _ K (S n) c _ _ _ Hm K6) as [(bz & Gz & Iz & Fz & _) Nz (mz & Mz & Hz)].
  exists bz, mz. split; auto. split; [rewrite Iz; now apply get_slice_nth|]. split; [rewrite Fz; now apply get_facets_nth|exact Hz].
Qed.
