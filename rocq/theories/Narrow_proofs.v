(** Proofs about structural inheritance. *)
From Coq Require Import ZArith List String Bool Lia.
From Verif Require Import Base Scalars Heap Heap_lemmas Spec_Validate Spec_Model Spec_Narrow Spec_Region.
Import ListNotations.
Open Scope string_scope.
Open Scope list_scope.
Open Scope nat_scope.

(** * Orders *)

Lemma kept_refl {A} (o : option A) : kept o o.
Proof. intros x E. exact E. Qed.
Lemma kept_trans {A} (o p q : option A) : kept o p -> kept p q -> kept o q.
Proof. intros H K x E. auto. Qed.
Lemma arr_kept_refl f : arr_kept f f.
Proof. repeat split; apply kept_refl. Qed.
Lemma arr_kept_trans f g h : arr_kept f g -> arr_kept g h -> arr_kept f h.
Proof. intros (A & B & C & D) (A' & B' & C' & D'). repeat split; eapply kept_trans; eauto. Qed.
Lemma obj_kept_refl f : obj_kept f f.
Proof. repeat split; apply kept_refl. Qed.
Lemma obj_kept_trans f g h : obj_kept f g -> obj_kept g h -> obj_kept f h.
Proof.
  intros (A & B & C & D & E & F & G) (A' & B' & C' & D' & E' & F' & G').
  repeat split; try (eapply kept_trans; eassumption). congruence.
Qed.
Lemma shape_kept_refl sh : shape_kept sh sh.
Proof. destruct sh; simpl; auto; [apply arr_kept_refl|apply obj_kept_refl]. Qed.

Lemma shape_kept_trans a b c : shape_kept a b -> shape_kept b c -> shape_kept a c.
Proof.
  destruct b; destruct a; simpl; try contradiction; destruct c; simpl; try contradiction; auto;
    [apply arr_kept_trans|apply obj_kept_trans|congruence].
Qed.

Lemma cell_kept_refl c : cell_kept c c.
Proof.
  destruct c; simpl; auto; try (exists []; now rewrite app_nil_r).
  repeat split; try apply kept_refl. destruct (b_shape b); auto. apply shape_kept_refl.
Qed.
Lemma cell_kept_trans c1 c2 c3 : cell_kept c1 c2 -> cell_kept c2 c3 -> cell_kept c1 c3.
Proof.
  intros H K. destruct c1 as [b1|l1|l1|l1|d1], c2 as [b2|l2|l2|l2|d2]; simpl in H; try contradiction;
    destruct c3 as [b3|l3|l3|l3|d3]; simpl in K; try contradiction.
  - destruct H as (A&B&C&D&E&F&G&I&J&L&M&N&O&P). destruct K as (A'&B'&C'&D'&E'&F'&G'&I'&J'&L'&M'&N'&O'&P').
    simpl. repeat split; try congruence; [eapply kept_trans; eauto|].
    destruct (b_shape b1), (b_shape b2), (b_shape b3); auto; try contradiction. eapply shape_kept_trans; eauto.
  - destruct H as (e & ->), K as (e' & ->). exists (e ++ e'). now rewrite app_assoc.
  - destruct H as (e & ->), K as (e' & ->). exists (e ++ e'). now rewrite app_assoc.
  - simpl. congruence.
  - simpl. congruence.
Qed.

Definition keeps (s s' : st) : Prop :=
  forall a c, nth_error (heap s) a = Some c -> exists c', nth_error (heap s') a = Some c' /\ cell_kept c c'.

Lemma keeps_refl s : keeps s s.
Proof. intros a c E. exists c. auto using cell_kept_refl. Qed.
Lemma keeps_trans s1 s2 s3 : keeps s1 s2 -> keeps s2 s3 -> keeps s1 s3.
Proof.
  intros H K a c E. destruct (H _ _ E) as (c' & E' & S'). destruct (K _ _ E') as (c2 & E2 & S2). eauto using cell_kept_trans.
Qed.
Lemma keeps_heap s s' : keeps s s' -> heap_kept (heap s) (heap s').
Proof. intros H. exact H. Qed.
Lemma extends_keeps s s' : extends s s' -> keeps s s'.
Proof. intros X a c E. exists c. split; [eapply extends_nth; eauto|apply cell_kept_refl]. Qed.

Lemma keeps_write s a c c' : nth_error (heap s) a = Some c -> cell_kept c c' -> pres_at keeps s (write a c').
Proof.
  intros E L x d Ex. unfold after, write; simpl. destruct (Nat.eq_dec a x) as [<-|N].
  - rewrite (nth_error_upd_eq _ _ _ _ E). replace d with c by congruence. eauto.
  - rewrite nth_error_upd_neq by auto. eauto using cell_kept_refl.
Qed.

Lemma keeps_same s s' : heap s' = heap s -> keeps s s'.
Proof. intros H a c E. exists c. rewrite H. auto using cell_kept_refl. Qed.
Lemma keeps_alloc c s : pres_at keeps s (alloc c).
Proof. apply extends_keeps, extends_alloc. Qed.
Lemma keeps_gen_id s : pres_at keeps s gen_id.
Proof. now apply keeps_same. Qed.
Lemma keeps_clone_detached n a s : pres_at keeps s (clone_detached n a).
Proof. apply extends_keeps, clone_detached_ext. Qed.

Ltac pk := repeat (pa keeps keeps_refl keeps_trans); auto using keeps_alloc, keeps_gen_id, keeps_clone_detached.

(** Writing a base without touching what is kept. *)
Lemma keeps_upd_base a f s :
  (forall b, get_base (heap s) a = Some b -> cell_kept (CBase b) (CBase (f b))) -> pres_at keeps s (upd_base a f).
Proof. intros H. unfold upd_base. pk. apply get_base_nth in E as E'. eapply keeps_write; eauto. Qed.

Lemma base_step b b' : b_name b' = b_name b -> b_loc b' = b_loc b -> b_inherits b' = b_inherits b ->
  b_alias b' = b_alias b -> b_link b' = b_link b -> b_facets b' = b_facets b -> b_fdefs b' = b_fdefs b ->
  b_default b' = b_default b -> b_required b' = b_required b -> b_example b' = b_example b -> b_examples b' = b_examples b ->
  b_unwrapped b' = b_unwrapped b -> kept (b_desc b) (b_desc b') ->
  match b_shape b, b_shape b' with Some sh, Some sh' => shape_kept sh sh' | None, _ => True | Some _, None => False end ->
  cell_kept (CBase b) (CBase b').
Proof. intros. simpl. repeat split; auto. Qed.

Lemma step_shape b sh sh' : b_shape b = Some sh -> shape_kept sh sh' -> cell_kept (CBase b) (CBase (set_shape (Some sh') b)).
Proof. intros E S. apply base_step; auto using kept_refl. simpl. rewrite E. auto. Qed.

Lemma keeps_visited a v s : pres_at keeps s (upd_base a (set_visited v)).
Proof.
  apply keeps_upd_base. intros b _. apply base_step; auto using kept_refl. simpl. destruct (b_shape b); auto using shape_kept_refl.
Qed.
Lemma keeps_id a v s : pres_at keeps s (upd_base a (set_id v)).
Proof.
  apply keeps_upd_base. intros b _. apply base_step; auto using kept_refl. simpl. destruct (b_shape b); auto using shape_kept_refl.
Qed.

Lemma keeps_upd_arr a f s : (forall x, arr_kept x (f x)) -> pres_at keeps s (upd_arr a f).
Proof.
  intros H. unfold upd_arr. pk. apply get_base_nth in E as E'. eapply keeps_write; eauto.
  eapply step_shape; [eassumption|]. apply H.
Qed.
Lemma keeps_upd_arr_at a f s x : (forall b, get_base (heap s) a = Some b -> forall y, b_shape b = Some (SArray y) -> y = x) ->
  arr_kept x (f x) -> pres_at keeps s (upd_arr a f).
Proof.
  intros U H. unfold upd_arr. pk. apply get_base_nth in E as E'. eapply keeps_write; eauto.
  assert (f0 = x) by (eapply U; eauto). subst f0.
  eapply step_shape; [eassumption|]. apply H.
Qed.
Lemma keeps_upd_obj_at a f s x : (forall b, get_base (heap s) a = Some b -> forall y, b_shape b = Some (SObject y) -> y = x) ->
  obj_kept x (f x) -> pres_at keeps s (upd_obj a f).
Proof.
  intros U H. unfold upd_obj. pk. apply get_base_nth in E as E'. eapply keeps_write; eauto.
  assert (f0 = x) by (eapply U; eauto). subst f0.
  eapply step_shape; [eassumption|]. apply H.
Qed.

Lemma oset_new {A} k (v : A) l : oget k l = None -> oset k v l = l ++ [(k, v)].
Proof.
  induction l as [|[k' v'] l IH]; simpl; auto. destruct (String.eqb k k'); [discriminate|]. intros H. now rewrite IH.
Qed.

Lemma keeps_props_set m k p s l : get_props (heap s) m = Some l -> oget k l = None -> pres_at keeps s (props_set m k p).
Proof.
  intros G N. unfold props_set. pk. assert (x = l) by congruence. subst x. apply get_props_nth in E. eapply keeps_write; eauto.
  rewrite oset_new by auto. simpl. eauto.
Qed.

(** * Inherit keeps *)

Lemma min_kept t s r : min_inherit Z.ltb t s = Ok r -> kept t r /\ not_below r s.
Proof.
  destruct t as [a|], s as [b|]; simpl; intros H; try (injection H as <-); try (split; [apply kept_refl|]).
  - destruct (Z.ltb_spec a b); [discriminate|]. injection H as <-. split; [apply kept_refl|].
    intros m M. injection M as <-. exists a. split; auto.
  - intros m M. discriminate M.
  - split; [intros x X; discriminate X|]. intros m M. injection M as <-. exists b. split; auto. lia.
  - intros m M. discriminate M.
Qed.
Lemma max_kept t s r : max_inherit Z.ltb t s = Ok r -> kept t r /\ not_above r s.
Proof.
  destruct t as [a|], s as [b|]; simpl; intros H; try (injection H as <-); try (split; [apply kept_refl|]).
  - destruct (Z.ltb_spec b a); [discriminate|]. injection H as <-. split; [apply kept_refl|].
    intros m M. injection M as <-. exists a. split; auto.
  - intros m M. discriminate M.
  - split; [intros x X; discriminate X|]. intros m M. injection M as <-. exists b. split; auto. lia.
  - intros m M. discriminate M.
Qed.
Lemma uniq_kept t s r : uniq_inherit t s = Ok r -> kept t r /\ (s = Some true -> r = Some true).
Proof.
  destruct t as [[]|], s as [[]|]; simpl; intros H; try discriminate H; injection H as <-;
    (split; [try apply kept_refl; intros x X; discriminate X|congruence]).
Qed.

Section InheritKeeps.
Variable n : nat.
Variable rec : addr -> addr -> M addr.
Hypothesis Hrec : forall a b s, pres_at keeps s (rec a b).

Definition has_shape (s : st) (a : addr) (sh : shape) : Prop :=
  exists b, get_base (heap s) a = Some b /\ b_shape b = Some sh.

Lemma inherit_map_keeps tm sm s : pres_at keeps s (inherit_map n rec tm sm).
Proof.
  unfold inherit_map. apply pres_loop_props; [apply keeps_refl|apply keeps_trans|].
  intros k p s'. pk. eapply keeps_props_set; eauto.
Qed.

Lemma cur_arr_run a old s x s' : cur_arr a old s = (Ok x, s') -> s' = s /\ exists b, get_base (heap s) a = Some b
  /\ ((exists y, b_shape b = Some (SArray y) /\ x = y) \/ (forall y, b_shape b <> Some (SArray y)) /\ x = old).
Proof.
  unfold cur_arr. intros H. apply bind_inv in H. destruct H as (b & s1 & H1 & H2). apply rd_ok in H1. destruct H1 as [-> G].
  injection H2 as <- <-. split; auto. exists b. split; auto.
  destruct (b_shape b) as [[]|]; try (right; split; [discriminate|reflexivity]). left; eauto.
Qed.
Lemma cur_obj_run a old s x s' : cur_obj a old s = (Ok x, s') -> s' = s /\ exists b, get_base (heap s) a = Some b
  /\ ((exists y, b_shape b = Some (SObject y) /\ x = y) \/ (forall y, b_shape b <> Some (SObject y)) /\ x = old).
Proof.
  unfold cur_obj. intros H. apply bind_inv in H. destruct H as (b & s1 & H1 & H2). apply rd_ok in H1. destruct H1 as [-> G].
  injection H2 as <- <-. split; auto. exists b. split; auto.
  destruct (b_shape b) as [[]|]; try (right; split; [discriminate|reflexivity]). left; eauto.
Qed.

Lemma lift_run {A} (r : res A) s x s' : lift r s = (Ok x, s') -> s' = s /\ r = Ok x.
Proof. intros H. injection H as -> ->. auto. Qed.

Lemma inherit_array_keeps t src tf sf s : has_shape s t (SArray tf) -> pres_at keeps s (inherit_array rec t src tf sf).
Proof.
  intros (b & G & Sh). unfold inherit_array. pk; try (unfold cur_arr; pk).
  - eapply keeps_upd_arr_at with (x := tf); [intros b' G' y Y; congruence|]. repeat split; simpl; try apply kept_refl.
    intros x X. congruence.
  - repeat match goal with
    | H : lift _ _ = _ |- _ => apply lift_run in H; destruct H as [-> ?]
    | H : cur_arr _ _ _ = _ |- _ => apply cur_arr_run in H; destruct H as [-> ?]
    end.
    match goal with H : exists b, get_base _ t = _ /\ _ |- _ => destruct H as (b1 & G1 & C1) end.
    apply keeps_upd_arr_at with (x := x0).
    + intros b2 G2 y Y. assert (b2 = b1) by congruence. subst b2. destruct C1 as [(y' & Y' & ->)|[C1 _]]; [congruence|].
      destruct (C1 y Y).
    + repeat split; simpl; [apply kept_refl|eapply min_kept; eauto|eapply max_kept; eauto|eapply uniq_kept; eauto].
Qed.

Lemma upd_obj_run t f s u s' y : has_shape s t (SObject y) -> upd_obj t f s = (Ok u, s') -> has_shape s' t (SObject (f y)).
Proof.
  intros (b & G & Sh) H. unfold upd_obj in H. rewrite (bind_ok _ _ _ _ _ (rd_some _ _ _ _ G)), Sh in H.
  injection H as <- <-. exists (set_shape (Some (SObject (f y))) b). split; auto. apply get_base_nth. simpl.
  apply get_base_nth in G. eapply nth_error_upd_eq; eauto.
Qed.

Lemma inherit_object_keeps t src tf sf s : has_shape s t (SObject tf) -> pres_at keeps s (inherit_object n rec t src tf sf).
Proof.
  intros Sh. unfold inherit_object. pk.
  - repeat match goal with H : lift _ _ = _ |- _ => apply lift_run in H; destruct H as [-> ?] end.
    destruct Sh as (b & G & Sh). apply keeps_upd_obj_at with (x := tf); [intros b' G' y Y; congruence|].
    repeat split; simpl; try apply kept_refl; try (eapply min_kept; eassumption); try (eapply max_kept; eassumption);
      intros z Z; rewrite Z; reflexivity.
  - repeat match goal with H : lift _ _ = _ |- _ => apply lift_run in H; destruct H as [-> ?] end.
    match goal with H : upd_obj _ _ _ = _ |- _ => apply (upd_obj_run _ _ _ _ _ _ Sh) in H; destruct H as (b & G & Sb) end.
    unfold inherit_props. destruct (o_props tf) as [tm|] eqn:Q.
    + destruct (o_props sf); [apply inherit_map_keeps|pk].
    + eapply keeps_upd_obj_at; [intros b' G' y Y; rewrite G in G'; injection G' as <-; rewrite Sb in Y; injection Y as <-; reflexivity|].
      repeat split; simpl; try apply kept_refl. intros z Z. congruence.
  - unfold cur_obj. pk.
  - unfold cur_obj. pk.
  - repeat match goal with H : cur_obj _ _ _ = _ |- _ => apply cur_obj_run in H; destruct H as [-> ?] end.
    match goal with H : exists b, get_base _ t = _ /\ _ |- _ => destruct H as (b1 & G1 & C1) end.
    unfold inherit_pprops. match goal with |- context [o_pprops ?x] => destruct (o_pprops x) as [tm|] eqn:Q end.
    + match goal with |- context [o_pprops ?x] => destruct (o_pprops x) end; [apply inherit_map_keeps|pk].
    + eapply keeps_upd_obj_at.
      * intros b2 G2 y Y. assert (b2 = b1) by congruence. subst b2. destruct C1 as [(y' & Y' & EQ)|[C1 _]]; [|destruct (C1 y Y)].
        rewrite Y in Y'. injection Y' as <-. symmetry. exact EQ.
      * repeat split; simpl; try apply kept_refl. intros z Z. congruence.
Qed.

Lemma union_inner_keeps sm ty tl : forall s, pres_at keeps s (union_inner n rec sm ty tl).
Proof. induction tl as [|tm tl IH]; intros s; simpl; pk; auto using keeps_id. Qed.
Lemma union_outer_keeps tsl sl : forall s, pres_at keeps s (union_outer n rec tsl sl).
Proof. induction sl as [|sm sl IH]; intros s; simpl; pk; auto using union_inner_keeps. Qed.

Lemma keeps_to_union t a e s : (forall b, get_base (heap s) t = Some b -> b_shape b <> None) ->
  pres_at keeps s (upd_base t (set_shape (Some (SUnion a e)))).
Proof.
  intros H. apply keeps_upd_base. intros b G. specialize (H b G). destruct (b_shape b) as [sh|] eqn:E; [|congruence].
  eapply step_shape; eauto. destruct sh; exact I.
Qed.

(** A base with a concrete shape keeps having one. *)
Lemma keeps_some s s' t sh b : keeps s s' -> has_shape s t sh -> get_base (heap s') t = Some b -> b_shape b <> None.
Proof.
  intros K (b0 & G & Sh) G'. apply get_base_nth in G. destruct (K _ _ G) as (c & E & S). apply get_base_nth in G'.
  rewrite G' in E. injection E as <-. simpl in S. rewrite Sh in S. destruct S as (_&_&_&_&_&_&_&_&_&_&_&_&_& S).
  destruct (b_shape b); [discriminate|contradiction].
Qed.

Lemma inherit_union_keeps t tsl e ssl s sh : has_shape s t sh -> pres_at keeps s (inherit_union n rec t tsl e ssl).
Proof.
  intros Sh. unfold inherit_union. apply pres_at_rd_bind; [apply keeps_refl|apply keeps_trans|]. intros tl E.
  destruct tl as [|t0 tl].
  - apply keeps_to_union. intros b G. eapply keeps_some; eauto. apply keeps_refl.
  - apply pres_at_rd_bind; [apply keeps_refl|apply keeps_trans|]. intros sl E1.
    apply pres_at_bind; [apply keeps_trans|apply union_outer_keeps|]. intros f s1 E2.
    apply pres_at_bind; [apply keeps_trans|apply keeps_alloc|]. intros a s2 E3.
    apply keeps_to_union. intros b G. eapply keeps_some; [|exact Sh|exact G].
    eapply keeps_trans.
    + pose proof (union_outer_keeps tsl sl s) as K. unfold pres_at, after in K. rewrite E2 in K. exact K.
    + pose proof (keeps_alloc (CSlice f) s1) as K. unfold pres_at, after in K. rewrite E3 in K. exact K.
Qed.

Lemma inherit_scalar_kind a b r sh : inherit_scalar a b = Some r -> r = Ok sh -> shape_kept a sh.
Proof.
  intros H ->. destruct a, b; simpl in H; try discriminate H;
    try (inversion H; subst; exact I);
    try (match type of H with context [rbind ?x _] => destruct x; simpl in H; inversion H; subst; exact I end).
  match type of H with Some (if ?x then _ else _) = _ => destruct x; inversion H; subst; exact I end.
Qed.

Lemma inherit_shape_keeps t src a b s : has_shape s t a -> pres_at keeps s (inherit_shape n rec t src a b).
Proof.
  intros Sh.
  assert (SC : pres_at keeps s (match inherit_scalar a b with
      | Some r => bind (lift r) (fun sh => upd_base t (set_shape (Some sh))) | None => fail end)).
  { destruct (inherit_scalar a b) as [r|] eqn:E; [|pk]. pk. apply lift_run in E0. destruct E0 as [-> ->].
    destruct Sh as (b0 & G & Sh). apply keeps_upd_base. intros b1 G1. assert (b1 = b0) by congruence. subst b1.
    eapply step_shape; [exact Sh|]. eapply inherit_scalar_kind; eauto. }
  unfold inherit_shape. destruct a; try exact SC; destruct b; try exact SC.
  - apply inherit_array_keeps; auto.
  - apply inherit_object_keeps; auto.
  - pk. apply inherit_object_keeps; auto.
  - eapply inherit_union_keeps; eauto.
Qed.

Lemma union_source_keeps s0 l : forall s, pres_at keeps s (union_source n rec s0 l).
Proof. induction l as [|m l IH]; intros s; simpl; pk; auto using keeps_id. Qed.

Lemma inherit_union_source_keeps s0 ssl s : pres_at keeps s (inherit_union_source n rec s0 ssl).
Proof.
  unfold inherit_union_source. apply pres_at_rd_bind; [apply keeps_refl|apply keeps_trans|]. intros ms E.
  apply pres_at_bind; [apply keeps_trans|apply union_source_keeps|]. intros r s1 E2.
  destruct r as [[|x [|y l]]|]; pk.
  apply keeps_upd_base. intros b G. apply base_step; auto using kept_refl. simpl. destruct (b_shape b) as [[]|]; exact I.
Qed.

Lemma union_target_keeps k s0 tsl : forall i g s, pres_at keeps s (union_target rec k s0 tsl i g).
Proof. induction k as [|k IH]; intros i g s; simpl; pk. Qed.

Lemma fold_keeps (l : omap gval) : forall t, exists e,
  fold_left (fun acc kv => match oget (fst kv) acc with Some _ => acc | None => oset (fst kv) (snd kv) acc end) l t = t ++ e.
Proof.
  induction l as [|[k v] l IH]; intros t; simpl; [exists []; now rewrite app_nil_r|].
  destruct (oget k t) eqn:E; [apply IH|]. rewrite oset_new by auto. destruct (IH (t ++ [(k, v)])) as (e & ->).
  exists ((k, v) :: e). now rewrite <- app_assoc.
Qed.

Lemma inherit_body_keeps s0 src s : pres_at keeps s (inherit_body n rec s0 src).
Proof.
  unfold inherit_body. apply pres_at_rd_bind; [apply keeps_refl|apply keeps_trans|]. intros sb Esb.
  destruct (b_visited sb); [pk|].
  apply pres_at_bind; [apply keeps_trans|apply keeps_visited|]. intros [] s1 E1.
  apply pres_at_rd_bind; [apply keeps_refl|apply keeps_trans|]. intros tb Etb.
  apply pres_at_bind; [apply keeps_trans| |].
  { destruct (b_desc tb) eqn:D; [pk|]. apply keeps_upd_base. intros b G. assert (b = tb) by congruence. subst b.
    apply base_step; auto using kept_refl; simpl; [intros x X; congruence|]. destruct (b_shape tb); auto using shape_kept_refl. }
  intros [] s2 E2.
  apply pres_at_rd_bind; [apply keeps_refl|apply keeps_trans|]. intros tfm Etf.
  apply pres_at_rd_bind; [apply keeps_refl|apply keeps_trans|]. intros sfm Esf.
  apply pres_at_bind; [apply keeps_trans| |].
  { apply get_facets_nth in Etf. eapply keeps_write; eauto. unfold merge_facets. destruct (fold_keeps sfm tfm) as (e & ->). simpl. eauto. }
  intros [] s3 E3.
  assert (HS : forall sh, b_shape tb = Some sh -> has_shape s3 s0 sh).
  { intros sh Q. assert (G2 : exists b2, get_base (heap s2) s0 = Some b2 /\ b_shape b2 = b_shape tb).
    { destruct (b_desc tb); [injection E2 as <-; eauto|].
      unfold upd_base in E2. rewrite (bind_ok _ _ _ _ _ (rd_some _ _ _ _ Etb)) in E2. injection E2 as <-.
      exists (set_desc (b_desc sb) tb). split; auto. apply get_base_nth. simpl. apply get_base_nth in Etb.
      eapply nth_error_upd_eq; eauto. }
    destruct G2 as (b2 & G2 & Q2). exists b2. split; [|congruence]. injection E3 as <-. apply get_base_nth. simpl.
    apply get_base_nth in G2. rewrite nth_error_upd_neq; auto. intros <-. apply get_facets_nth in Etf. congruence. }
  destruct (b_shape tb) as [tsh|] eqn:Qt.
  - specialize (HS tsh eq_refl).
    assert (GEN : forall ssh, pres_at keeps s3 (bind (inherit_shape n rec s0 src tsh ssh) (fun _ =>
        bind (upd_base src (set_visited false)) (fun _ => ret s0)))).
    { intros ssh. pk; [apply inherit_shape_keeps; auto|apply keeps_visited]. }
    assert (SRC : forall sa, pres_at keeps s3 (inherit_union_source n rec s0 sa)).
    { intros sa. apply inherit_union_source_keeps. }
    assert (TGT : forall ta, pres_at keeps s3 (bind (union_target rec n s0 ta 0 true) (fun good : bool => if good then ret s0 else fail))).
    { intros ta. pk. apply union_target_keeps. }
    destruct tsh; destruct (b_shape sb) as [[]|]; auto; try apply pres_at_panic; try (apply pres_at_ret); try apply keeps_refl;
      try apply GEN; try apply SRC; try apply TGT.
  - assert (SRC : forall sa, pres_at keeps s3 (inherit_union_source n rec s0 sa)).
    { intros sa. apply inherit_union_source_keeps. }
    destruct (b_shape sb) as [[]|]; auto; try (apply pres_at_panic; apply keeps_refl); apply pres_at_ret; apply keeps_refl.
Qed.
End InheritKeeps.

Lemma inherit_keeps n : forall t src s, pres_at keeps s (inherit n t src).
Proof.
  induction n as [|n IH]; intros t src s; simpl; [intros a c E; exists c; auto using cell_kept_refl|].
  now apply inherit_body_keeps.
Qed.

(** * Narrowing *)

Lemma oget_app {A} k (l e : omap A) v : oget k l = Some v -> oget k (l ++ e) = Some v.
Proof. induction l as [|[k' v'] l IH]; simpl; [discriminate|]. destruct (String.eqb k k'); auto. Qed.
Lemma oget_nth {A} k (l : omap A) v : oget k l = Some v -> exists j, nth_error l j = Some (k, v).
Proof.
  induction l as [|[k' v'] l IH]; simpl; [discriminate|]. destruct (String.eqb_spec k k') as [->|N].
  - intros H. injection H as ->. exists 0. reflexivity.
  - intros H. destruct (IH H) as (j & J). exists (S j). exact J.
Qed.
Lemma keeps_props s s' m l : keeps s s' -> get_props (heap s) m = Some l -> exists e, get_props (heap s') m = Some (l ++ e).
Proof.
  intros K G. apply get_props_nth in G. destruct (K _ _ G) as (c & E & S). destruct c; try contradiction. destruct S as (e & ->).
  exists e. now apply get_props_nth.
Qed.
Lemma keeps_arr s s' t f : keeps s s' -> has_shape s t (SArray f) ->
  exists sh, has_shape s' t sh /\ ((exists a e, sh = SUnion a e) \/ exists f', sh = SArray f' /\ arr_kept f f').
Proof.
  intros K (b & G & Sh). apply get_base_nth in G. destruct (K _ _ G) as (c & E & S). destruct c; try contradiction.
  simpl in S. rewrite Sh in S. destruct S as (_&_&_&_&_&_&_&_&_&_&_&_&_& S).
  destruct (b_shape _) as [sh|] eqn:Q in S; [|contradiction]. exists sh. split; [exists b0; split; auto; now apply get_base_nth|].
  destruct sh; try contradiction; eauto.
Qed.
Lemma keeps_obj s s' t f : keeps s s' -> has_shape s t (SObject f) ->
  exists sh, has_shape s' t sh /\ ((exists a e, sh = SUnion a e) \/ exists f', sh = SObject f' /\ obj_kept f f').
Proof.
  intros K (b & G & Sh). apply get_base_nth in G. destruct (K _ _ G) as (c & E & S). destruct c; try contradiction.
  simpl in S. rewrite Sh in S. destruct S as (_&_&_&_&_&_&_&_&_&_&_&_&_& S).
  destruct (b_shape _) as [sh|] eqn:Q in S; [|contradiction]. exists sh. split; [exists b0; split; auto; now apply get_base_nth|].
  destruct sh; try contradiction; eauto.
Qed.
Lemma keeps_union s s' t a e : keeps s s' -> has_shape s t (SUnion a e) -> exists a' e', has_shape s' t (SUnion a' e').
Proof.
  intros K (b & G & Sh). apply get_base_nth in G. destruct (K _ _ G) as (c & E & S). destruct c; try contradiction.
  simpl in S. rewrite Sh in S. destruct S as (_&_&_&_&_&_&_&_&_&_&_&_&_& S).
  destruct (b_shape b0) as [sh|] eqn:Q in S; [|contradiction]. destruct sh; try contradiction.
  do 2 eexists. exists b0. split; [|exact Q]. now apply get_base_nth.
Qed.
Lemma has_shape_eq s t x y : has_shape s t x -> has_shape s t y -> x = y.
Proof. intros (b & G & E) (b' & G' & E'). congruence. Qed.
Lemma run_keeps {A} (m : M A) s r s' : pres_at keeps s m -> m s = (r, s') -> keeps s s'.
Proof. intros P H. unfold pres_at, after in P. now rewrite H in P. Qed.

Lemma not_below_mono r s s' : kept s s' -> not_below r s' -> not_below r s.
Proof. intros K H m M. apply H. now apply K. Qed.
Lemma not_above_mono r s s' : kept s s' -> not_above r s' -> not_above r s.
Proof. intros K H m M. apply H. now apply K. Qed.
Lemma kept_not_below r r' s : kept r r' -> not_below r s -> not_below r' s.
Proof. intros K H m M. destruct (H m M) as (x & X & L). exists x. auto. Qed.
Lemma kept_not_above r r' s : kept r r' -> not_above r s -> not_above r' s.
Proof. intros K H m M. destruct (H m M) as (x & X & L). exists x. auto. Qed.

Section InheritNarrows.
Variable n : nat.
Variable rec : addr -> addr -> M addr.
Hypothesis Hrec : forall a b s, pres_at keeps s (rec a b).

Lemma upd_arr_run t f s u s' y : has_shape s t (SArray y) -> upd_arr t f s = (Ok u, s') -> has_shape s' t (SArray (f y)).
Proof.
  intros (b & G & Sh) H. unfold upd_arr in H. rewrite (bind_ok _ _ _ _ _ (rd_some _ _ _ _ G)), Sh in H.
  injection H as <- <-. exists (set_shape (Some (SArray (f y))) b). split; auto. apply get_base_nth. simpl.
  apply get_base_nth in G. eapply nth_error_upd_eq; eauto.
Qed.

(** What the target of an array inheritance is like afterwards. *)
Definition arr_result (s' : st) (t : addr) (tf sf : arr_facets) : Prop :=
  exists sh, has_shape s' t sh /\ ((exists a e, sh = SUnion a e)
    \/ exists f', sh = SArray f' /\ arr_kept tf f' /\ arr_narrow f' sf).

Lemma inherit_array_narrow t src tf sf s u s' : has_shape s t (SArray tf) -> has_shape s src (SArray sf) ->
  inherit_array rec t src tf sf s = (Ok u, s') -> arr_result s' t tf sf.
Proof.
  intros Ht Hs H. unfold inherit_array in H.
  apply bind_inv in H. destruct H as ([] & s1 & H1 & H).
  assert (A : keeps s s1 /\ exists sh, has_shape s1 t sh /\ ((exists a e, sh = SUnion a e)
    \/ exists f, sh = SArray f /\ arr_kept tf f /\ forall i, a_items sf = Some i -> exists j, a_items f = Some j)).
  { destruct (a_items tf) as [ti|] eqn:Qt; [destruct (a_items sf) as [si|] eqn:Qs|].
    - apply bind_inv in H1. destruct H1 as (r & s2 & H1 & H2). injection H2 as <-.
      pose proof (run_keeps _ _ _ _ (Hrec ti si s) H1) as K. split; auto.
      destruct (keeps_arr _ _ _ _ K Ht) as (sh & X & [U|(f & -> & F)]); exists sh || exists (SArray f); split; eauto.
      right. exists f. split; auto. split; auto. intros i _. destruct F as [I _]. exists ti. now apply I.
    - injection H1 as <-. split; [apply keeps_refl|]. exists (SArray tf). split; auto. right. exists tf.
      repeat split; try apply kept_refl. discriminate.
    - split.
      + eapply run_keeps; [|exact H1]. destruct Ht as (b & G & Sh).
        eapply keeps_upd_arr_at with (x := tf); [intros b' G' y Y; congruence|]. repeat split; simpl; try apply kept_refl.
        intros x X. congruence.
      + pose proof (upd_arr_run _ _ _ _ _ _ Ht H1) as X. eexists. split; [exact X|]. right. eexists. split; [reflexivity|].
        split; [|eauto]. repeat split; simpl; try apply kept_refl. intros x Y. congruence. }
  destruct A as (K1 & A).
  apply bind_inv in H. destruct H as (tf' & s2 & H2 & H). apply cur_arr_run in H2. destruct H2 as (-> & b1 & G1 & C1).
  apply bind_inv in H. destruct H as (sf' & s3 & H3 & H). apply cur_arr_run in H3. destruct H3 as (-> & b2 & G2 & C2).
  apply bind_inv in H. destruct H as (mn & s4 & H4 & H). apply lift_run in H4. destruct H4 as [-> Mn].
  apply bind_inv in H. destruct H as (mx & s5 & H5 & H). apply lift_run in H5. destruct H5 as [-> Mx].
  apply bind_inv in H. destruct H as (un & s6 & H6 & H). apply lift_run in H6. destruct H6 as [-> Un].
  assert (SK : arr_kept sf sf').
  { destruct C2 as [(y & Y & ->)|[_ ->]]; [|repeat split; apply kept_refl].
    destruct (keeps_arr _ _ _ _ K1 Hs) as (sh & X & D).
    assert (sh = SArray y) by (eapply has_shape_eq; [exact X|exists b2; auto]). subst sh.
    destruct D as [(a & e & D)|(f & D & F)]; [discriminate|]. injection D as <-. exact F. }
  destruct A as (sh & X & [(a & e & ->)|(f & -> & F & I)]).
  - exists (SUnion a e). split; [|left; eauto].
    destruct X as (b & G & Sh). unfold upd_arr in H. rewrite (bind_ok _ _ _ _ _ (rd_some _ _ _ _ G)), Sh in H.
    injection H as <- <-. exists b; auto.
  - assert (tf' = f).
    { destruct X as (b & G & Sh). assert (b = b1) by congruence. subst b1. destruct C1 as [(y & Y & ->)|[N _]]; [congruence|].
      destruct (N f Sh). }
    subst tf'. pose proof (upd_arr_run _ _ _ _ _ _ X H) as R. eexists. split; [exact R|]. right. eexists. split; [reflexivity|].
    apply min_kept in Mn. apply max_kept in Mx. apply uniq_kept in Un.
    destruct F as (F1 & F2 & F3 & F4), SK as (S1 & S2 & S3 & S4).
    split; [|repeat split; simpl].
    + repeat split; simpl; auto; intros x Y; [apply Mn|apply Mx|apply Un]; auto.
    + eapply not_below_mono; [exact S2|apply Mn].
    + eapply not_above_mono; [exact S3|apply Mx].
    + intros Y. apply Un. now apply S4.
    + exact I.
Qed.

Lemma inherit_map_all tm sm : forall k i s u s' ks,
  loop_props k sm i (fun k sp => bind (rd get_props tm) (fun tl =>
    match oget k tl with
    | Some tp => if p_req sp && negb (p_req tp) then fail else bind (rec (p_base tp) (p_base sp)) (fun _ => ret tt)
    | None => props_set tm k sp
    end)) s = (Ok u, s') ->
  get_props (heap s) sm = Some ks ->
  forall j nm sp, i <= j -> nth_error ks j = Some (nm, sp) ->
    exists l' tp, get_props (heap s') tm = Some l' /\ oget nm l' = Some tp /\ (p_req sp = true -> p_req tp = true).
Proof.
  induction k as [|k IH]; intros i s u s' ks H Gs; simpl in H; [discriminate|].
  rewrite (bind_ok _ _ _ _ _ (rd_some _ _ _ _ Gs)) in H. destruct (nth_error ks i) as [[nm sp]|] eqn:E.
  - apply bind_inv in H. destruct H as ([] & s1 & H1 & H).
    apply bind_inv in H1. destruct H1 as (l & s0 & Gt & H1). apply rd_ok in Gt. destruct Gt as [-> Gt].
    assert (A : keeps s s1 /\ exists l1, get_props (heap s1) tm = Some l1
      /\ exists tp, oget nm l1 = Some tp /\ (p_req sp = true -> p_req tp = true)).
    { destruct (oget nm l) as [tp|] eqn:O.
      - destruct (p_req sp && negb (p_req tp)) eqn:R; [discriminate|].
        apply bind_inv in H1. destruct H1 as (r & s2 & H1 & H2). injection H2 as <-.
        pose proof (run_keeps _ _ _ _ (Hrec _ _ s) H1) as K. split; auto.
        destruct (keeps_props _ _ _ _ K Gt) as (e & G'). exists (l ++ e). split; auto. exists tp. split; [now apply oget_app|].
        intros Q. rewrite Q in R. destruct (p_req tp); auto.
      - split; [eapply run_keeps; [|exact H1]; eapply keeps_props_set; eauto|].
        unfold props_set in H1. rewrite (bind_ok _ _ _ _ _ (rd_some _ _ _ _ Gt)) in H1. injection H1 as <-.
        exists (oset nm sp l). split.
        + apply get_props_nth. simpl. apply get_props_nth in Gt. eapply nth_error_upd_eq; eauto.
        + exists sp. split; auto. rewrite oset_new by auto. clear -O. induction l as [|[k' v'] l IH]; simpl in *.
          * now rewrite String.eqb_refl.
          * destruct (String.eqb nm k'); [discriminate|auto]. }
    destruct A as (K & l1 & G1 & tp & O & R). destruct (keeps_props _ _ _ _ K Gs) as (e & Gs1).
    pose proof (IH _ _ _ _ _ H Gs1) as Z.
    intros j nm' sp' L J. destruct (Nat.eq_dec i j) as [<-|Nj].
    + rewrite E in J. injection J as <- <-.
      assert (K2 : keeps s1 s').
      { eapply run_keeps; [|exact H]. apply pres_loop_props; [apply keeps_refl|apply keeps_trans|].
        intros k0 p s2. pk. eapply keeps_props_set; eauto. }
      destruct (keeps_props _ _ _ _ K2 G1) as (e2 & G2).
      exists (l1 ++ e2), tp. split; auto. split; auto. now apply oget_app.
    + apply (Z j nm' sp'); [lia|]. rewrite nth_error_app1; auto. apply nth_error_Some. congruence.
  - intros j nm sp L J. exfalso.
    apply nth_error_None in E. assert (nth_error ks j <> None) by congruence. apply nth_error_Some in H0. lia.
Qed.

Lemma inherit_map_narrow tm sm s u s' ks : inherit_map n rec tm sm s = (Ok u, s') ->
  get_props (heap s) sm = Some ks -> props_narrow (heap s') tm ks.
Proof.
  intros H Gs nm sp O. destruct (oget_nth _ _ _ O) as (j & J).
  eapply (inherit_map_all _ _ _ _ _ _ _ _ H Gs); [|exact J]. lia.
Qed.

Lemma props_narrow_app h m k e : props_narrow h m (k ++ e) -> props_narrow h m k.
Proof. intros H nm sp O. apply (H nm sp). now apply oget_app. Qed.
Lemma props_narrow_keeps s s' m k : keeps s s' -> props_narrow (heap s) m k -> props_narrow (heap s') m k.
Proof.
  intros K H nm sp O. destruct (H nm sp O) as (l & tp & G & T & R). destruct (keeps_props _ _ _ _ K G) as (e & G').
  exists (l ++ e), tp. split; auto. split; auto. now apply oget_app.
Qed.
Lemma props_narrow_self h m l k e : get_props h m = Some l -> l = k ++ e -> props_narrow h m k.
Proof. intros G -> nm sp O. exists (k ++ e), sp. split; auto. split; auto. now apply oget_app. Qed.

(** What the target of an object inheritance is like afterwards; [s] is the
    state before. *)
Definition obj_result (s s' : st) (t : addr) (tf sf : obj_facets) : Prop :=
  exists sh, has_shape s' t sh /\ ((exists a e, sh = SUnion a e)
    \/ exists f', sh = SObject f' /\ obj_kept tf f'
       /\ obj_narrow (heap s') f' sf (contents (heap s) (o_props sf)) (contents (heap s) (o_pprops sf))).

Lemma upd_obj_other t f s u s' : upd_obj t f s = (Ok u, s') -> (forall y, ~ has_shape s t (SObject y)) -> s' = s.
Proof.
  intros H N. unfold upd_obj in H. apply bind_inv in H. destruct H as (b & s0 & G & H). apply rd_ok in G. destruct G as [-> G].
  destruct (b_shape b) as [[]|] eqn:E; try (injection H as <- <-; reflexivity). destruct (N f0). exists b; auto.
Qed.

(** One of the two property maps; [get] reads it from the facets and [put]
    replaces it. *)
Lemma map_step (get : obj_facets -> option addr) (put : option addr -> obj_facets -> obj_facets)
    (GP : forall o f, get (put o f) = o) (KP : forall f g, obj_kept f g -> kept (get f) (get g))
    (PK : forall o f, get f = None -> obj_kept f (put o f)) t f so s u s' :
  has_shape s t (SObject f) ->
  (match get f, so with
   | None, _ => upd_obj t (put so)
   | Some _, None => ret tt
   | Some tm, Some sm => inherit_map n rec tm sm
   end) s = (Ok u, s') ->
  keeps s s' /\ exists sh, has_shape s' t sh /\ ((exists a e, sh = SUnion a e)
    \/ exists f', sh = SObject f' /\ obj_kept f f' /\ opt_narrow (heap s') (get f') (contents (heap s) so)).
Proof.
  intros Ht H. destruct (get f) as [tm|] eqn:Q; [destruct so as [sm|]|].
  - assert (K : keeps s s') by (eapply run_keeps; [apply inherit_map_keeps; auto|exact H]). split; auto.
    destruct (keeps_obj _ _ _ _ K Ht) as (sh & X & [U|(f' & -> & F)]); [exists sh; auto|]. exists (SObject f'). split; auto.
    right. exists f'. split; auto. split; auto. intros l L. simpl in L. exists tm. split; [now apply (KP _ _ F)|].
    eapply inherit_map_narrow; eauto.
  - injection H as <- <-. split; [apply keeps_refl|]. exists (SObject f). split; auto. right. exists f. split; auto. split.
    + repeat split; apply kept_refl.
    + intros l L. discriminate L.
  - assert (K : keeps s s').
    { eapply run_keeps; [|exact H]. destruct Ht as (b & G & Sh).
      apply keeps_upd_obj_at with (x := f); [intros b' G' y Y; congruence|auto]. }
    split; auto. pose proof (upd_obj_run _ _ _ _ _ _ Ht H) as R. eexists. split; [exact R|]. right. eexists. split; [reflexivity|].
    split; auto. intros l L. destruct so as [sm|]; [|discriminate L]. exists sm. split; [apply GP|]. simpl in L.
    destruct (keeps_props _ _ _ _ K L) as (e & G). eapply props_narrow_self; [exact G|reflexivity].
Qed.

Lemma opt_narrow_later s1 s2 o o' k : keeps s1 s2 -> kept o o' -> opt_narrow (heap s1) o k -> opt_narrow (heap s2) o' k.
Proof. intros K O H l L. destruct (H l L) as (m & M & N). exists m. split; auto. eapply props_narrow_keeps; eauto. Qed.
Lemma opt_narrow_earlier h s1 s2 o so so' : keeps s1 s2 -> kept so so' -> opt_narrow h o (contents (heap s2) so') ->
  opt_narrow h o (contents (heap s1) so).
Proof.
  intros K S H l L. destruct so as [m|]; [|discriminate L]. rewrite (S m eq_refl) in H. simpl in *.
  destruct (keeps_props _ _ _ _ K L) as (e & G). destruct (H _ G) as (m' & M & N). exists m'. split; auto.
  eapply props_narrow_app; eauto.
Qed.

Lemma inherit_object_narrow t src tf sf s u s' : has_shape s t (SObject tf) -> has_shape s src (SObject sf) ->
  inherit_object n rec t src tf sf s = (Ok u, s') -> obj_result s s' t tf sf.
Proof.
  intros Ht Hs H. unfold inherit_object in H.
  apply bind_inv in H. destruct H as (mn & s4 & H4 & H). apply lift_run in H4. destruct H4 as [-> Mn].
  apply bind_inv in H. destruct H as (mx & s5 & H5 & H). apply lift_run in H5. destruct H5 as [-> Mx].
  apply bind_inv in H. destruct H as ([] & s1 & H1 & H).
  apply min_kept in Mn. apply max_kept in Mx.
  set (f1 := ObjF (match o_disc tf with None => o_disc sf | d => d end) (o_discval tf)
    (match o_addl tf with None => o_addl sf | x => x end) (o_props tf) (o_pprops tf) mn mx).
  assert (F1 : obj_kept tf f1).
  { repeat split; simpl; try apply kept_refl; try apply Mn; try apply Mx; intros z Z; rewrite Z; reflexivity. }
  assert (N1 : not_below (o_min f1) (o_min sf) /\ not_above (o_max f1) (o_max sf)
    /\ (forall x, o_addl sf = Some x -> exists y, o_addl f1 = Some y)).
  { split; [apply Mn|]. split; [apply Mx|]. intros x X. simpl. destruct (o_addl tf); eauto. }
  assert (K1 : keeps s s1).
  { eapply run_keeps; [|exact H1]. destruct Ht as (b & G & Sh).
    apply keeps_upd_obj_at with (x := tf); [intros b' G' y Y; congruence|exact F1]. }
  assert (T1 : has_shape s1 t (SObject f1)) by exact (upd_obj_run _ _ _ _ _ _ Ht H1).
  apply bind_inv in H. destruct H as ([] & s2 & H2 & H).
  change (o_props tf) with (o_props f1) in H2. clearbody f1. clear Mn Mx.
  assert (PK1 : forall o f, o_props f = None -> obj_kept f (set_props o f)).
  { intros o f Q. repeat split; simpl; try apply kept_refl. intros x X. congruence. }
  assert (PK2 : forall o f, o_pprops f = None -> obj_kept f (set_pprops o f)).
  { intros o f Q. repeat split; simpl; try apply kept_refl. intros x X. congruence. }
  destruct (map_step o_props set_props (fun _ _ => eq_refl) (fun f g F => proj1 (proj2 (proj2 (proj2 F)))) PK1 _ _ _ _ _ _ T1 H2)
    as (K2 & sh2 & T2 & D2).
  apply bind_inv in H. destruct H as (tf' & s3 & H3 & H). apply cur_obj_run in H3. destruct H3 as (-> & b3 & G3 & C3).
  apply bind_inv in H. destruct H as (sf' & s6 & H6 & H). apply cur_obj_run in H6. destruct H6 as (-> & b6 & G6 & C6).
  assert (SK : obj_kept sf sf').
  { destruct C6 as [(y & Y & ->)|[_ ->]]; [|repeat split; apply kept_refl].
    destruct (keeps_obj _ _ _ _ (keeps_trans _ _ _ K1 K2) Hs) as (sh & X & D).
    assert (sh = SObject y) by (eapply has_shape_eq; [exact X|exists b6; auto]). subst sh.
    destruct D as [(a & e & D)|(f & D & F)]; [discriminate|]. injection D as <-. exact F. }
  destruct D2 as [(a & e & ->)|(f2 & -> & F2 & O2)].
  - (* the target has become a union *)
    assert (K3 : keeps s2 s').
    { eapply run_keeps; [|exact H]. unfold inherit_pprops.
      destruct (o_pprops tf'); [destruct (o_pprops sf'); [apply inherit_map_keeps; auto|apply pres_at_ret, keeps_refl]|].
      destruct T2 as (b & G & Sh). unfold upd_obj. pk. congruence. }
    destruct (keeps_union _ _ _ _ _ K3 T2) as (a' & e' & T3). exists (SUnion a' e'). split; auto. left; eauto.
  - assert (tf' = f2).
    { destruct T2 as (b & G & Sh). assert (b = b3) by congruence. subst b3. destruct C3 as [(y & Y & ->)|[N _]]; [congruence|].
      destruct (N f2 Sh). }
    subst tf'.
    destruct (map_step o_pprops set_pprops (fun _ _ => eq_refl) (fun f g F => proj1 (proj2 (proj2 (proj2 (proj2 F))))) PK2 _ _ _ _ _ _ T2 H)
      as (K3 & sh3 & T3 & D3).
    exists sh3. split; auto. destruct D3 as [D3|(f3 & -> & F3 & O3)]; [auto|]. right. exists f3. split; auto.
    split; [eauto using obj_kept_trans|].
    assert (F13 : obj_kept f1 f3) by eauto using obj_kept_trans.
    pose proof F13 as (A1&A2&A3&A4&A5&A6&A7). destruct N1 as (M1 & M2 & M3).
    repeat split; [eapply kept_not_below; eauto|eapply kept_not_above; eauto| | |].
    + intros x X. destruct (M3 x X) as (y & Y). exists y. auto.
    + eapply opt_narrow_later; [exact K3|apply F3|]. eapply opt_narrow_earlier; [exact K1|apply kept_refl|exact O2].
    + eapply opt_narrow_earlier; [exact (keeps_trans _ _ _ K1 K2)|apply SK|exact O3].
Qed.
End InheritNarrows.

(** Steps that leave the concrete shapes, the references and the property maps
    alone. *)
Definition shapes_same (s s' : st) : Prop :=
  keeps s s' /\ (forall a sh, has_shape s a sh -> has_shape s' a sh)
  /\ (forall m l, get_props (heap s) m = Some l -> get_props (heap s') m = Some l)
  /\ (forall R, closed R (heap s) -> closed R (heap s')) /\ List.length (heap s') = List.length (heap s).
Lemma shapes_same_trans a b c : shapes_same a b -> shapes_same b c -> shapes_same a c.
Proof.
  intros (K1 & A1 & B1 & C1 & D1) (K2 & A2 & B2 & C2 & D2). split; [eapply keeps_trans; eauto|].
  split; [auto|]. split; [auto|]. split; [auto|congruence].
Qed.
Lemma shapes_same_refl s : shapes_same s s.
Proof. split; [apply keeps_refl|auto]. Qed.
Lemma closed_write R s a c c' : closed R (heap s) -> nth_error (heap s) a = Some c -> (cell_in R c -> cell_in R c') ->
  closed R (upd a c' (heap s)).
Proof.
  intros C E F x d Rx G. destruct (Nat.eq_dec a x) as [<-|N].
  - rewrite (nth_error_upd_eq _ _ _ _ E) in G. injection G as <-. eauto.
  - rewrite nth_error_upd_neq in G by auto. eauto.
Qed.
Lemma shapes_same_upd a f s u s' : (forall b, b_shape (f b) = b_shape b) -> (forall R b, base_in R b -> base_in R (f b)) ->
  pres_at keeps s (upd_base a f) -> upd_base a f s = (Ok u, s') -> shapes_same s s'.
Proof.
  intros F FR P H. split; [eapply run_keeps; eauto|]. unfold upd_base in H.
  apply bind_inv in H. destruct H as (b0 & s0 & G0 & H). apply rd_ok in G0. destruct G0 as [-> G0]. injection H as <- <-.
  apply get_base_nth in G0. repeat split.
  - intros x sh (b & G & Sh). apply get_base_nth in G. destruct (Nat.eq_dec a x) as [<-|N].
    + exists (f b0). split; [|rewrite F; congruence]. apply get_base_nth. simpl. eapply nth_error_upd_eq; eauto.
    + exists b. split; auto. apply get_base_nth. simpl. rewrite nth_error_upd_neq by auto. auto.
  - intros m l G. apply get_props_nth. simpl. apply get_props_nth in G. rewrite nth_error_upd_neq; auto. congruence.
  - intros R C. simpl. eapply closed_write; eauto. simpl. auto.
  - simpl. apply upd_length.
Qed.
Lemma keeps_visited_run a v s u s' : upd_base a (set_visited v) s = (Ok u, s') -> shapes_same s s'.
Proof. apply shapes_same_upd; [reflexivity|auto|apply keeps_visited]. Qed.

(** The part of Inherit common to all kinds. *)
Lemma inherit_enter n t src s r s' tsh ssh : inherit n t src s = (Ok r, s') -> has_shape s t tsh -> has_shape s src ssh ->
  (forall b, get_base (heap s) src = Some b -> b_visited b = false) ->
  match tsh, ssh with SArray _, SArray _ | SObject _, SObject _ => True | _, _ => False end ->
  exists m s1 s2, n = S m /\ shapes_same s s1 /\ inherit_shape m (inherit m) t src tsh ssh s1 = (Ok tt, s2)
    /\ shapes_same s2 s' /\ r = t.
Proof.
  intros H Ht Hs V KK. destruct n as [|m]; [discriminate|]. simpl in H. unfold inherit_body in H.
  destruct Hs as (sb & Gs & Ss). rewrite (bind_ok _ _ _ _ _ (rd_some _ _ _ _ Gs)) in H. rewrite (V _ Gs) in H.
  apply bind_inv in H. destruct H as ([] & s1 & H1 & H). apply keeps_visited_run in H1 as S1.
  apply bind_inv in H. destruct H as (tb & s1' & H2 & H). apply rd_ok in H2. destruct H2 as [-> Gt].
  assert (St : b_shape tb = Some tsh).
  { destruct (proj1 (proj2 S1) _ _ Ht) as (b & G & Sh). congruence. }
  apply bind_inv in H. destruct H as ([] & s2 & H2 & H).
  assert (S2 : shapes_same s1 s2).
  { destruct (b_desc tb) eqn:D; [injection H2 as <-; apply shapes_same_refl|].
    eapply shapes_same_upd; [| | |exact H2]; [reflexivity|auto|]. apply keeps_upd_base. intros b G.
    assert (b = tb) by congruence. subst b.
    apply base_step; auto using kept_refl; simpl; [intros x X; congruence|]. destruct (b_shape tb); auto using shape_kept_refl. }
  apply bind_inv in H. destruct H as (tfm & s2' & H3 & H). apply rd_ok in H3. destruct H3 as [-> Gf].
  apply bind_inv in H. destruct H as (sfm & s2' & H3 & H). apply rd_ok in H3. destruct H3 as [-> Gf'].
  apply bind_inv in H. destruct H as ([] & s3 & H3 & H).
  assert (S3 : shapes_same s2 s3).
  { apply get_facets_nth in Gf. split; [|injection H3 as <-; repeat split].
    - eapply run_keeps; [|exact H3]. eapply keeps_write; eauto. unfold merge_facets. destruct (fold_keeps sfm tfm) as (e & ->). simpl. eauto.
    - intros x sh (b & G & Sh). exists b. split; auto. apply get_base_nth. simpl. apply get_base_nth in G.
      rewrite nth_error_upd_neq; auto. intros <-. congruence.
    - intros m' l G. apply get_props_nth. simpl. apply get_props_nth in G. rewrite nth_error_upd_neq; auto. congruence.
    - intros R C. simpl. eapply closed_write; eauto.
    - simpl. apply upd_length. }
  assert (S03 : shapes_same s s3) by eauto using shapes_same_trans.
  rewrite St, Ss in H.
  assert (E : exists s4, inherit_shape m (inherit m) t src tsh ssh s3 = (Ok tt, s4)
     /\ bind (upd_base src (set_visited false)) (fun _ => ret t) s4 = (Ok r, s')).
  { destruct tsh; try contradiction; destruct ssh; try contradiction;
      apply bind_inv in H; destruct H as ([] & s4 & H4 & H); eauto. }
  destruct E as (s4 & H4 & H5). apply bind_inv in H5. destruct H5 as ([] & s5 & H5 & H6). injection H6 as <- <-.
  exists m, s3, s4. apply keeps_visited_run in H5. auto.
Qed.

Lemma inherit_narrows_array n t src s r s' f g : inherit n t src s = (Ok r, s') ->
  has_shape s t (SArray f) -> has_shape s src (SArray g) ->
  (forall b, get_base (heap s) src = Some b -> b_visited b = false) -> r = t /\ arr_result s' t f g.
Proof.
  intros H Ht Hs V. destruct (inherit_enter _ _ _ _ _ _ _ _ H Ht Hs V I) as (m & s1 & s2 & -> & S1 & R & S2 & ->).
  split; auto. simpl in R.
  destruct (inherit_array_narrow (inherit m) (inherit_keeps m) _ _ _ _ _ _ _ (proj1 (proj2 S1) _ _ Ht) (proj1 (proj2 S1) _ _ Hs) R) as (sh & X & D).
  exists sh. split; auto. now apply S2.
Qed.

Lemma inherit_narrows_object n t src s r s' f g : inherit n t src s = (Ok r, s') ->
  has_shape s t (SObject f) -> has_shape s src (SObject g) ->
  (forall b, get_base (heap s) src = Some b -> b_visited b = false) -> r = t /\ obj_result s s' t f g.
Proof.
  intros H Ht Hs V. destruct (inherit_enter _ _ _ _ _ _ _ _ H Ht Hs V I) as (m & s1 & s2 & -> & S1 & R & S2 & ->).
  split; auto. simpl in R.
  destruct (inherit_object_narrow m (inherit m) (inherit_keeps m) _ _ _ _ _ _ _ (proj1 (proj2 S1) _ _ Ht) (proj1 (proj2 S1) _ _ Hs) R) as (sh & X & D).
  exists sh. split; [now apply S2|]. destruct D as [D|(f' & -> & F & A1 & A2 & A3 & A4 & A5)]; [auto|].
  right. exists f'. split; auto. split; auto. repeat split; auto.
  - eapply opt_narrow_later; [apply S2|apply kept_refl|]. eapply opt_narrow_earlier; [apply S1|apply kept_refl|exact A4].
  - eapply opt_narrow_later; [apply S2|apply kept_refl|]. eapply opt_narrow_earlier; [apply S1|apply kept_refl|exact A5].
Qed.
