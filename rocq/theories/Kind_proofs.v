(** Proofs about what a declaration becomes when it is resolved (C43, C45). *)
From Coq Require Import ZArith List String Bool Lia.
From Verif Require Import Base Scalars Heap Heap_lemmas Rdt Resolve Spec_Validate Spec_Resolve Resolve_proofs.
Import ListNotations.
Open Scope string_scope.
Open Scope list_scope.
Open Scope nat_scope.

Lemma empty_blank t s sh s' : empty_shape t s = (Ok sh, s') -> forall sh0, blank t = Some sh0 -> sh = sh0.
Proof.
  intros H sh0 B. unfold blank in B. unfold empty_shape in H.
  repeat match type of H with
         | context [String.eqb t ?c] =>
             destruct (String.eqb_spec t c) as [->|?];
             [try (cbn in B; injection B as <-; injection H as <- <-; reflexivity); try (cbn in B; discriminate B)|]
         end.
  cbn [find fst] in B.
  repeat match type of B with
         | context [String.eqb t ?c] => destruct (String.eqb_spec t c) as [->|?]; [contradiction|]
         end.
  cbn in B. discriminate B.
Qed.

Lemma blank_facets f t sh0 : blank t = Some sh0 -> unmarshal_facets (Some f) sh0 = f sh0.
Proof.
  intros B. unfold blank in B. cbn [find fst] in B.
  repeat match type of B with
         | context [String.eqb t ?c] => destruct (String.eqb t c); [cbn in B; injection B as <-; reflexivity|]
         end.
  cbn in B. discriminate B.
Qed.

Lemma make_concrete_made a t fs s s' b : get_base (heap s) a = Some b -> make_concrete a t fs s = (Ok tt, s') ->
  frame s s' a /\ exists sh, get_base (heap s') a = Some (set_shape (Some sh) (set_type t b)) /\ faceted fs t sh.
Proof.
  intros E H. unfold make_concrete in H. pose proof (get_base_lt _ _ _ E) as La.
  apply bind_inv in H. destruct H as ([] & s1 & H1 & H). destruct (upd_base_run _ _ _ _ _ _ E H1) as (_ & F1 & Le1 & E1).
  apply bind_inv in H. destruct H as (sh & s2 & H2 & H).
  destruct (empty_shape_run _ _ _ _ H2) as (sh' & Q & F2 & _). injection Q as <-.
  assert (E2 : get_base (heap s2) a = Some (set_type t b)).
  { assert (SM : same (heap s1) (heap s2) a) by (apply (F2 (S a)); lia). now rewrite (same_base _ _ _ SM). }
  apply bind_inv in H. destruct H as ([] & s3 & H3 & H). destruct (upd_base_run _ _ _ _ _ _ E2 H3) as (_ & F3 & Le3 & E3).
  apply bind_inv in H. destruct H as (sh' & s4 & H4 & H).
  assert (s4 = s3 /\ unmarshal_facets fs sh = Ok sh').
  { unfold lift in H4. destruct (unmarshal_facets fs sh); injection H4 as ? ?; subst; auto; discriminate. }
  destruct H0 as [-> U].
  destruct (upd_base_run _ _ _ _ _ _ E3 H) as (_ & F4 & Le4 & E4).
  split; [eapply frame_trans; [exact F1|]; eapply frame_trans; [apply F2|]; eapply frame_trans; eauto|].
  exists sh'. split; [exact E4|]. intros sh0 B. rewrite (empty_blank _ _ _ _ H2 _ B) in U.
  destruct fs as [f|]; [now rewrite (blank_facets _ _ _ B) in U|]. simpl in U. congruence.
Qed.

Lemma resolve_known n E r s x s' : known (heap s) r -> resolve n E r s = (Ok x, s') -> s' = s.
Proof. apply resolve_resolved. Qed.

Lemma resolve_each_known n E l : forall s x s', (forall p, In p l -> known (heap s) p) ->
  resolve_each (resolve n E) l s = (Ok x, s') -> s' = s.
Proof.
  induction l as [|p l IH]; intros s x s' K H; simpl in H; [now injection H|].
  apply bind_inv in H. destruct H as (y & s1 & H1 & H). apply resolve_known in H1; [subst s1|apply K; now left].
  eapply IH; [|exact H]. intros q I. apply K. now right.
Qed.

Lemma slice_frame s s' a b i l : frame s s' a -> get_base (heap s) a = Some b -> get_slice (heap s) i = Some l ->
  get_slice (heap s') i = Some l.
Proof.
  intros [_ F] E S. assert (i <> a).
  { intros ->. apply get_slice_nth in S. apply get_base_nth in E. congruence. }
  rewrite (same_slice (heap s)); auto. apply F; auto. apply get_slice_nth in S. eapply nth_error_lt; eauto.
Qed.

Lemma visit_ref_became n E nm a fs s s' b y : get_base (heap s) a = Some b -> rv_lookup E nm (b_loc b) = Some y ->
  known (heap s) y -> visit_ref E (resolve n E) nm a fs s = (Ok tt, s') -> became s s' a y FromName fs b.
Proof.
  intros G L K H. unfold visit_ref in H. rewrite (bind_ok _ _ _ _ _ (rd_some _ _ _ _ G)), L in H.
  apply bind_inv in H. destruct H as (ty & s1 & H1 & H). apply rd_ok in H1. destruct H1 as [-> Y].
  destruct (Z.eqb (b_id ty) (b_id b)); [discriminate|].
  apply bind_inv in H. destruct H as ([] & s1 & H1 & H). apply resolve_known in H1; auto. subst s1.
  rewrite (bind_ok _ _ _ _ _ (rd_some _ _ _ _ Y)) in H.
  apply bind_inv in H. destruct H as ([] & s1 & H1 & H).
  destruct (make_concrete_made _ _ _ _ _ _ G H1) as (F & sh & G1 & Fc).
  destruct fs as [f|].
  - apply bind_inv in H. destruct H as (b' & s2 & H2 & H). apply rd_ok in H2. destruct H2 as [-> H2].
    rewrite G1 in H2. injection H2 as <-. simpl in H.
    apply bind_inv in H. destruct H as (l & s2 & H2 & H). apply rd_ok in H2. destruct H2 as [-> H2].
    unfold write in H. injection H as <-. simpl.
    assert (N : b_inherits b <> a).
    { intros Q. rewrite Q in H2. apply get_slice_nth in H2. apply get_base_nth in G1. congruence. }
    exists (set_shape (Some sh) (set_type (b_type ty) b)), ty, sh. simpl.
    split; [apply get_base_nth; rewrite nth_error_upd_neq; auto; now apply get_base_nth|].
    repeat (split; [now auto|]). split; auto. intros l' S. pose proof (slice_frame _ _ _ _ _ _ F G S) as S1.
    rewrite H2 in S1. injection S1 as <-. apply get_slice_nth. apply get_slice_nth in H2. simpl.
    erewrite nth_error_upd_eq; eauto.
  - destruct (upd_base_run _ _ _ _ _ _ G1 H) as (_ & F2 & _ & G2).
    eexists. exists ty, sh. split; [exact G2|]. simpl. repeat (split; [now auto|]). split; auto.
    intros l S. eapply slice_frame; [exact F2|exact G1|]. eapply slice_frame; [exact F|exact G|exact S].
Qed.

(** Parentheses around a name do nothing. *)
Lemma visit_head n E e : forall nm a fs, head_ref e = Some nm -> visit_expr E (resolve n E) e a fs = visit_ref E (resolve n E) nm a fs.
Proof.
  refine (proj1 (trees_all (fun e => forall nm a fs, head_ref e = Some nm -> visit_expr E (resolve n E) e a fs = visit_ref E (resolve n E) nm a fs)
    (fun t => forall nm a fs, head_ref (EType t) = Some nm -> visit_typ E (resolve n E) t a fs = visit_ref E (resolve n E) nm a fs)
    (fun x => forall nm a fs, head_ref (EType (TAtom x)) = Some nm -> visit_atom E (resolve n E) x a fs = visit_ref E (resolve n E) nm a fs)
    _ _ _ _ _ _ _ _) e); clear.
  - intros t H. exact H.
  - discriminate.
  - intros x H. exact H.
  - discriminate.
  - discriminate.
  - discriminate.
  - intros e H. exact H.
  - intros s o nm a fs H. injection H as <-. reflexivity.
Qed.

Theorem resolve_became n E o a y s s' b : get_base (heap s) a = Some b ->
  kind_from (rv_lookup E) (heap s) o a y -> (forall z, needs (rv_lookup E) (heap s) a z -> known (heap s) z) ->
  resolve n E a s = (Ok tt, s') -> became s s' a y o (rv_facets E a) b.
Proof.
  intros G (b0 & G0 & U & K) N H. rewrite G in G0. injection G0 as <-.
  destruct n as [|n]; [discriminate|]. cbn [resolve] in H.
  rewrite (bind_ok _ _ _ _ _ (rd_some _ _ _ _ G)), U in H.
  assert (Done : forall z s1, known (heap s) z -> forall ty, get_base (heap s) z = Some ty ->
    make_concrete a (b_type ty) (rv_facets E a) s = (Ok tt, s1) -> o <> FromName -> became s s1 a z o (rv_facets E a) b).
  { intros z s1 _ ty Z M Q. destruct (make_concrete_made _ _ _ _ _ _ G M) as (F & sh & G1 & Fc).
    eexists. exists ty, sh. split; [exact G1|]. simpl. repeat (split; [now auto|]). split.
    - intros l S. rewrite (slice_frame _ _ _ _ _ _ F G S). destruct o; try reflexivity. contradiction.
    - destruct o; try reflexivity. contradiction. }
  destruct o.
  - destruct K as (l & L & D). rewrite L in H.
    assert (Ky : known (heap s) y). { apply N. exists b. rewrite L. auto. }
    rewrite (bind_ok _ _ _ _ _ (rd_some _ _ _ _ D)) in H.
    apply bind_inv in H. destruct H as ([] & s1 & H1 & H). apply resolve_known in H1; auto. subst s1.
    apply bind_inv in H. destruct H as (ty & s1 & H1 & H). apply rd_ok in H1. destruct H1 as [-> Y].
    eapply Done; eauto. discriminate.
  - destruct K as (L & T & ps & P). rewrite L, T in H. simpl in H.
    rewrite (bind_ok _ _ _ _ _ (rd_some _ _ _ _ P)) in H.
    assert (Ks : forall p, In p (y :: ps) -> known (heap s) p).
    { intros p I. apply N. exists b. rewrite L, T. simpl. eauto. }
    apply bind_inv in H. destruct H as ([] & s1 & H1 & H). apply resolve_each_known in H1; auto. subst s1.
    apply bind_inv in H. destruct H as (ty & s1 & H1 & H). apply rd_ok in H1. destruct H1 as [-> Y].
    eapply Done; eauto; [apply Ks; now left|discriminate].
  - destruct K as (L & T & e & nm & R & Hd & Lk). rewrite L in H.
    destruct (String.eqb_spec (b_type b) "composite"); [contradiction|]. rewrite R in H.
    rewrite (visit_head _ _ _ _ _ _ Hd) in H. eapply visit_ref_became; eauto.
    apply N. exists b. rewrite L. destruct (String.eqb_spec (b_type b) "composite"); [contradiction|].
    split; auto. split; auto. eauto.
Qed.

Lemma make_concrete_base a t fs s s' : make_concrete a t fs s = (Ok tt, s') -> exists b, get_base (heap s) a = Some b.
Proof.
  intros H. unfold make_concrete in H. apply bind_inv in H. destruct H as ([] & s1 & H1 & _).
  unfold upd_base in H1. apply bind_inv in H1. destruct H1 as (b & s2 & H2 & _). apply rd_ok in H2. destruct H2 as [_ H2]. eauto.
Qed.

(** In whatever order types are resolved, a declaration has the type name of the
    type its kind comes from. *)
Lemma concrete_same_type a y fs s s' yb : get_base (heap s) y = Some yb -> make_concrete a (b_type yb) fs s = (Ok tt, s') ->
  exists b' yb', get_base (heap s') a = Some b' /\ get_base (heap s') y = Some yb' /\ b_type b' = b_type yb'
    /\ (y <> a -> yb' = yb).
Proof.
  intros Y M. destruct (make_concrete_base _ _ _ _ _ M) as (b & G).
  destruct (make_concrete_made _ _ _ _ _ _ G M) as (F & sh & G1 & _).
  destruct (Nat.eq_dec y a) as [->|N].
  - exists (set_shape (Some sh) (set_type (b_type yb) b)), (set_shape (Some sh) (set_type (b_type yb) b)). tauto.
  - exists (set_shape (Some sh) (set_type (b_type yb) b)), yb. split; auto. split; [|auto].
    rewrite (same_base (heap s)); auto. apply F; auto. eapply get_base_lt; eauto.
Qed.

Theorem resolve_same_type n E o a y s s' : kind_from (rv_lookup E) (heap s) o a y ->
  resolve n E a s = (Ok tt, s') ->
  exists b' yb', get_base (heap s') a = Some b' /\ get_base (heap s') y = Some yb' /\ b_type b' = b_type yb'.
Proof.
  intros (b & G & U & K) H. destruct n as [|n]; [discriminate|]. cbn [resolve] in H.
  rewrite (bind_ok _ _ _ _ _ (rd_some _ _ _ _ G)), U in H.
  destruct o.
  - destruct K as (l & L & D). rewrite L in H.
    rewrite (bind_ok _ _ _ _ _ (rd_some _ _ _ _ D)) in H.
    apply bind_inv in H. destruct H as ([] & s1 & H1 & H).
    apply bind_inv in H. destruct H as (ty & s2 & H2 & H). apply rd_ok in H2. destruct H2 as [-> Y].
    destruct (concrete_same_type _ _ _ _ _ _ Y H) as (b' & yb' & ? & ? & ? & _). eauto.
  - destruct K as (L & T & ps & P). rewrite L, T in H. simpl in H.
    rewrite (bind_ok _ _ _ _ _ (rd_some _ _ _ _ P)) in H.
    apply bind_inv in H. destruct H as ([] & s1 & H1 & H).
    apply bind_inv in H. destruct H as (ty & s2 & H2 & H). apply rd_ok in H2. destruct H2 as [-> Y].
    destruct (concrete_same_type _ _ _ _ _ _ Y H) as (b' & yb' & ? & ? & ? & _). eauto.
  - destruct K as (L & T & e & nm & R & Hd & Lk). rewrite L in H.
    destruct (String.eqb_spec (b_type b) "composite"); [contradiction|]. rewrite R in H.
    rewrite (visit_head _ _ _ _ _ _ Hd) in H. unfold visit_ref in H.
    rewrite (bind_ok _ _ _ _ _ (rd_some _ _ _ _ G)), Lk in H.
    apply bind_inv in H. destruct H as (ty & s1 & H1 & H). apply rd_ok in H1. destruct H1 as [-> Y].
    destruct (Z.eqb_spec (b_id ty) (b_id b)); [discriminate|].
    assert (N : y <> a) by (intros ->; congruence).
    apply bind_inv in H. destruct H as ([] & s1 & H1 & H).
    apply bind_inv in H. destruct H as (ty' & s2 & H2 & H). apply rd_ok in H2. destruct H2 as [-> Y1].
    apply bind_inv in H. destruct H as ([] & s2 & H2 & H).
    destruct (concrete_same_type _ _ _ _ _ _ Y1 H2) as (b' & yb' & G' & Y' & Q & _).
    destruct (rv_facets E a) as [f|].
    + apply bind_inv in H. destruct H as (b2 & s3 & H3 & H). apply rd_ok in H3. destruct H3 as [-> H3].
      rewrite G' in H3. injection H3 as <-.
      apply bind_inv in H. destruct H as (l & s3 & H3 & H). apply rd_ok in H3. destruct H3 as [-> H3].
      unfold write in H. injection H as <-. simpl.
      assert (forall x xb, get_base (heap s2) x = Some xb -> b_inherits b' <> x).
      { intros x xb X W. rewrite W in H3. apply get_slice_nth in H3. apply get_base_nth in X. congruence. }
      exists b', yb'. split; [|split; auto]; apply get_base_nth; rewrite nth_error_upd_neq; eauto; now apply get_base_nth.
    + destruct (upd_base_run _ _ _ _ _ _ G' H) as (_ & F2 & _ & G2).
      eexists. exists yb'. split; [exact G2|]. split; [|exact Q].
      rewrite (same_base (heap s2)); auto. apply F2; auto. eapply get_base_lt; eauto.
Qed.

Theorem self_reference n E a y s b yb : get_base (heap s) a = Some b ->
  kind_from (rv_lookup E) (heap s) FromName a y -> get_base (heap s) y = Some yb -> b_id yb = b_id b ->
  resolve (S n) E a s = (Err, s).
Proof.
  intros G (b0 & G0 & U & K) Y I. rewrite G in G0. injection G0 as <-.
  destruct K as (L & T & e & nm & R & Hd & Lk). cbn [resolve].
  rewrite (bind_ok _ _ _ _ _ (rd_some _ _ _ _ G)), U, L.
  destruct (String.eqb_spec (b_type b) "composite"); [contradiction|]. rewrite R.
  rewrite (visit_head _ _ _ _ _ _ Hd). unfold visit_ref.
  rewrite (bind_ok _ _ _ _ _ (rd_some _ _ _ _ G)), Lk, (bind_ok _ _ _ _ _ (rd_some _ _ _ _ Y)), I, Z.eqb_refl. reflexivity.
Qed.

(** Items of an array expression. *)
Theorem array_facets n E a x s s' b :
  get_base (heap s) a = Some b -> b_shape b = Some SUnknown -> b_link b = None -> b_type b <> "composite" ->
  read_type (b_type b) = Some (EType (TArray x)) ->
  (forall nm z, In nm (refs_atom x) -> rv_lookup E nm (b_loc b) = Some z -> known (heap s) z) ->
  (forall f g, rv_facets E a = Some f -> f (SArray (ArrF None None None None)) = Ok g -> exists g', g = SArray g') ->
  resolve n E a s = (Ok tt, s') ->
  exists b' i ib g, get_base (heap s') a = Some b' /\ b_type b' = "array"
    /\ faceted (rv_facets E a) "array" (SArray g)
    /\ b_shape b' = Some (SArray (ArrF (Some i) (a_min g) (a_max g) (a_uniq g)))
    /\ b_alias b' = b_alias b /\ List.length (heap s) <= i /\ get_base (heap s') i = Some ib
    /\ match x with
       | APrim p => forall sh, blank (prim_text p) = Some sh -> b_shape ib = Some sh
       | ARef s1 o => exists z, rv_lookup E (ref_name s1 o) (b_loc b) = Some z /\ b_alias ib = Some z
                       /\ get_slice (heap s') (b_inherits ib) = Some []
       | AGroup _ => True
       end.
Proof.
  intros G U L T R K Fa H. destruct n as [|n]; [discriminate|]. cbn [resolve] in H.
  rewrite (bind_ok _ _ _ _ _ (rd_some _ _ _ _ G)), U, L in H.
  destruct (String.eqb_spec (b_type b) "composite"); [contradiction|]. rewrite R in H. cbn [visit_expr visit_typ] in H.
  apply bind_inv in H. destruct H as ([] & s1 & H1 & H).
  destruct (make_concrete_made _ _ _ _ _ _ G H1) as (F & sh & G1 & Fc).
  assert (exists g, sh = SArray g) as (g & ->).
  { pose proof (Fc _ eq_refl) as Q. destruct (rv_facets E a) as [f|] eqn:Ef in Q; [exact (Fa f _ Ef Q)|eauto]. }
  rewrite (bind_ok _ _ _ _ _ (rd_some _ _ _ _ G1)) in H. cbn [b_loc set_shape set_type] in H.
  apply bind_inv in H. destruct H as (i & s2 & H2 & H).
  destruct (make_new_run _ _ _ _ _ H2) as (i' & Q & Qi & Li & Le & F2 & ib & ish & Gi & Bi & Lo & _).
  injection Q as <-. specialize (Le ltac:(discriminate)).
  apply bind_inv in H. destruct H as ([] & s3 & H3 & H).
  pose proof (get_base_lt _ _ _ G) as La. pose proof (get_base_lt _ _ _ G1) as La1.
  assert (Lf : List.length (heap s) <= List.length (heap s1)) by apply F.
  assert (Ai : a <> i) by lia.
  assert (G2 : get_base (heap s2) a = Some (set_shape (Some (SArray g)) (set_type "array" b))).
  { rewrite (same_base (heap s1)); auto. apply (F2 i); auto. }
  assert (RO : refs_ok E (b_loc b) (heap s2) i (refs_atom x)).
  { intros nm z I Lk. pose proof (K nm z I Lk) as (zb & zs & Z1 & Z2 & Z3). pose proof (get_base_lt _ _ _ Z1) as Lz.
    assert (z <> a) by (intros ->; congruence).
    split; [lia|]. exists zb, zs. split; auto.
    rewrite (same_base (heap s1)); [|apply (F2 i); lia]. rewrite (same_base (heap s)); auto. apply F; auto. }
  destruct (proj2 (proj2 (visit_all E (resolve n E) (resolve_resolved n E) (b_loc b))) x i s2 s3 ib Gi Bi Lo RO H3)
    as (F3 & (ib' & Gi' & _) & T3).
  assert (G3 : get_base (heap s3) a = Some (set_shape (Some (SArray g)) (set_type "array" b))).
  { rewrite (same_base (heap s2)); auto. apply F3; auto. eapply get_base_lt; eauto. }
  unfold upd_arr in H. rewrite (bind_ok _ _ _ _ _ (rd_some _ _ _ _ G3)) in H. cbn [b_shape set_shape] in H.
  unfold write in H. injection H as <-.
  assert (Gi3 : get_base (upd a (CBase (set_shape (Some (SArray (set_items (Some i) g)))
      (set_shape (Some (SArray g)) (set_type "array" b)))) (heap s3)) i = Some ib').
  { apply get_base_nth. rewrite nth_error_upd_neq; auto. now apply get_base_nth. }
  eexists. exists i, ib', g. cbn [heap]. split.
  { apply get_base_nth. apply get_base_nth in G3. eapply nth_error_upd_eq; eauto. }
  simpl. split; auto. split; auto. split; auto. split; auto. split; [lia|]. split; [exact Gi3|].
  destruct x as [p|e|s1' o]; auto.
  - destruct T3 as (ish' & (bx & X1 & X2 & _) & P). replace bx with ib' in * by congruence. intros sh B. rewrite X2. f_equal.
    destruct p; simpl in P; cbn in B; try (injection B as <-; exact P). discriminate B.
  - destruct T3 as (bx & X1 & (z & zs & Y1 & Y2 & _) & X3). replace bx with ib' in * by congruence.
    exists z. split; auto. split; auto. destruct (X3 Logic.I) as [Sl _].
    apply get_slice_nth. rewrite nth_error_upd_neq; [now apply get_slice_nth|].
    intros ->. apply get_slice_nth in Sl. apply get_base_nth in G3. congruence.
Qed.
