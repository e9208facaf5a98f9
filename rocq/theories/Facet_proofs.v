(** Proofs about custom facets: derivation keeps the values given and adds those
    of the parent (C32). *)
From Coq Require Import ZArith List String Bool Lia.
From Verif Require Import Base Scalars Heap Heap_lemmas Clone_proofs.
Import ListNotations.
Open Scope string_scope.
Open Scope list_scope.
Open Scope nat_scope.

Definition given_same (c c' : cell) : Prop :=
  match c, c' with
  | CBase b, CBase b' => b_facets b' = b_facets b /\ b_fdefs b' = b_fdefs b
  | CFacets l, CFacets l' => exists x, l' = l ++ x
  | CFacets _, _ | _, CFacets _ | CBase _, _ | _, CBase _ => False
  | _, _ => True
  end.

(** Every base keeps its map of custom facets, which may only grow at the end,
    and its facet definitions. *)
Definition given (s s' : st) : Prop :=
  forall a c, nth_error (heap s) a = Some c -> exists c', nth_error (heap s') a = Some c' /\ given_same c c'.

Lemma given_same_refl c : given_same c c.
Proof. destruct c; simpl; auto. exists []. now rewrite app_nil_r. Qed.
Lemma given_same_trans c1 c2 c3 : given_same c1 c2 -> given_same c2 c3 -> given_same c1 c3.
Proof.
  destruct c1, c2, c3; simpl; try tauto.
  - intros (A & B) (C & D). split; congruence.
  - intros (x & ->) (y & ->). exists (x ++ y). now rewrite app_assoc.
Qed.
Lemma given_refl s : given s s.
Proof. intros a c H. eauto using given_same_refl. Qed.
Lemma given_trans s1 s2 s3 : given s1 s2 -> given s2 s3 -> given s1 s3.
Proof.
  intros H K a c E. destruct (H a c E) as (c' & E' & L). destruct (K a c' E') as (c'' & E'' & L').
  eauto using given_same_trans.
Qed.
Lemma extends_given s s' : extends s s' -> given s s'.
Proof. intros X a c E. exists c. split; [eapply extends_nth; eauto|apply given_same_refl]. Qed.
Lemma given_write s a c c' :
  nth_error (heap s) a = Some c -> given_same c c' -> pres_at given s (write a c').
Proof.
  intros E L x d Ex. unfold after, write; simpl. destruct (Nat.eq_dec a x) as [<-|N].
  - rewrite (nth_error_upd_eq _ _ _ _ E). replace d with c by congruence. eauto.
  - rewrite nth_error_upd_neq by auto. eauto using given_same_refl.
Qed.
Lemma given_heap s s' : heap s' = heap s -> given s s'.
Proof. intros H a c E. exists c. rewrite H. split; auto using given_same_refl. Qed.
Lemma given_alloc c s : pres_at given s (alloc c).
Proof. apply extends_given, extends_alloc. Qed.
Lemma given_gen_id s : pres_at given s gen_id.
Proof. now apply given_heap. Qed.
Lemma given_put_shape a s : pres_at given s (put_shape a).
Proof. now apply given_heap. Qed.
Lemma given_clone_detached n a s : pres_at given s (clone_detached n a).
Proof. apply extends_given, clone_detached_ext. Qed.

Ltac pg := repeat (pa given given_refl given_trans);
  auto using given_alloc, given_gen_id, given_put_shape, given_clone_detached.

Lemma given_upd_base a f s :
  (forall b, b_facets (f b) = b_facets b /\ b_fdefs (f b) = b_fdefs b) -> pres_at given s (upd_base a f).
Proof.
  intros H. unfold upd_base. pg. apply get_base_nth in E. eapply given_write; eauto. simpl. auto.
Qed.
Lemma given_visited a v s : pres_at given s (upd_base a (set_visited v)).
Proof. now apply given_upd_base. Qed.
Lemma given_shape a v s : pres_at given s (upd_base a (set_shape v)).
Proof. now apply given_upd_base. Qed.
Lemma given_set_id a v s : pres_at given s (upd_base a (set_id v)).
Proof. now apply given_upd_base. Qed.
Lemma given_props_set m k p s : pres_at given s (props_set m k p).
Proof. unfold props_set. pg. apply get_props_nth in E. eapply given_write; eauto. exact I. Qed.
Lemma given_slice_set m i x s : pres_at given s (slice_set m i x).
Proof. unfold slice_set. pg. apply get_slice_nth in E. eapply given_write; eauto. exact I. Qed.
Lemma given_upd_arr a f s : pres_at given s (upd_arr a f).
Proof. unfold upd_arr. pg. apply get_base_nth in E. eapply given_write; eauto. simpl. auto. Qed.
Lemma given_upd_obj a f s : pres_at given s (upd_obj a f).
Proof. unfold upd_obj. pg. apply get_base_nth in E. eapply given_write; eauto. simpl. auto. Qed.

Create HintDb giv.
#[global] Hint Resolve given_visited given_shape given_set_id given_props_set given_slice_set given_upd_arr given_upd_obj
  given_refl given_trans given_alloc given_gen_id given_put_shape given_clone_detached : giv.

Lemma given_clone_id {B} n a (k : addr -> M B) s : (forall x s', pres_at given s' (k x)) ->
  pres_at given s (bind (clone_detached n a) (fun c => bind gen_id (fun i => bind (upd_base c (set_id i)) (fun _ => k c)))).
Proof. intros K. pg; auto with giv. Qed.

Lemma oset_new {A} k (v : A) l : oget k l = None -> oset k v l = l ++ [(k, v)].
Proof.
  induction l as [|[k' x] l IH]; simpl; auto. destruct (String.eqb_spec k k') as [->|N]; [discriminate|].
  intros H. now rewrite IH.
Qed.
Lemma merge_grows s : forall t, exists x, merge_facets t s = t ++ x.
Proof.
  unfold merge_facets. induction s as [|[k v] s IH]; intros t; simpl; [exists []; now rewrite app_nil_r|].
  destruct (oget k t) eqn:E; [apply IH|]. rewrite (oset_new _ _ _ E). destruct (IH (t ++ [(k, v)])) as (x & ->).
  exists ((k, v) :: x). now rewrite <- app_assoc.
Qed.

Section InheritGiven.
Variable n : nat.
Variable rec : addr -> addr -> M addr.
Hypothesis Hrec : forall a b s, pres_at given s (rec a b).

Lemma inherit_map_giv tm sm s : pres_at given s (inherit_map n rec tm sm).
Proof.
  unfold inherit_map. apply pres_loop_props; auto using given_refl; [apply given_trans|].
  intros k p s'. pg. eauto with giv.
Qed.
Lemma inherit_array_giv t src tf sf s : pres_at given s (inherit_array rec t src tf sf).
Proof. unfold inherit_array, cur_arr. pg; eauto with giv. Qed.
Lemma inherit_object_giv t src tf sf s : pres_at given s (inherit_object n rec t src tf sf).
Proof.
  unfold inherit_object, cur_obj, inherit_props, inherit_pprops.
  pg; eauto using inherit_map_giv with giv.
Qed.
Lemma union_inner_giv sm ty tl : forall s, pres_at given s (union_inner n rec sm ty tl).
Proof.
  induction tl as [|tm tl IH]; intros s; simpl; [pg|].
  apply pres_at_rd_bind; [apply given_refl|apply given_trans|]. intros tb _.
  apply pres_at_bind; [apply given_trans| |].
  - destruct (String.eqb ty (b_type tb)); [|pg]. apply given_clone_id. intros. pg.
  - intros. pg; apply IH.
Qed.
Lemma union_outer_giv tsl sl : forall s, pres_at given s (union_outer n rec tsl sl).
Proof. induction sl as [|sm sl IH]; intros s; simpl; pg; eauto using union_inner_giv; try apply IH. Qed.
Lemma inherit_union_giv t tsl e ssl s : pres_at given s (inherit_union n rec t tsl e ssl).
Proof. unfold inherit_union. pg; eauto using union_outer_giv with giv. Qed.
Lemma inherit_shape_giv t src a b s : pres_at given s (inherit_shape n rec t src a b).
Proof.
  unfold inherit_shape.
  pg; auto using inherit_array_giv, inherit_object_giv, inherit_union_giv; eauto with giv.
Qed.
Lemma union_source_giv s0 l : forall s, pres_at given s (union_source n rec s0 l).
Proof.
  induction l as [|m l IH]; intros s; simpl; [pg|].
  apply pres_at_rd_bind; [apply given_refl|apply given_trans|]. intros mb _.
  assert (G : pres_at given s (bind (rd get_base s0) (fun sb =>
     bind (if String.eqb (b_type mb) (b_type sb) then
             bind (clone_detached n s0) (fun tc => bind gen_id (fun i => bind (upd_base tc (set_id i)) (fun _ => try (rec tc m))))
           else ret None) (fun r => bind (union_source n rec s0 l) (fun r' =>
       ret (match r, r' with Some x, Some l => Some (x :: l) | None, Some l => Some l | _, None => None end)))))).
  { apply pres_at_rd_bind; [apply given_refl|apply given_trans|]. intros sb _.
    apply pres_at_bind; [apply given_trans| |].
    - destruct (String.eqb (b_type mb) (b_type sb)); [|pg]. apply given_clone_id. intros. pg.
    - intros. apply pres_at_bind; [apply given_trans|apply IH|]. intros. apply pres_at_ret, given_refl. }
  destruct (b_shape mb) as [[]|]; try exact G. pg.
Qed.
Lemma inherit_union_source_giv s0 ssl s : pres_at given s (inherit_union_source n rec s0 ssl).
Proof.
  unfold inherit_union_source. pg; eauto using union_source_giv with giv. apply given_upd_base. intros; repeat split.
Qed.
Lemma union_target_giv k s0 tsl : forall i g s, pres_at given s (union_target rec k s0 tsl i g).
Proof. induction k as [|k IH]; intros i g s; simpl; pg. Qed.
Lemma inherit_body_giv s0 src s : pres_at given s (inherit_body n rec s0 src).
Proof.
  unfold inherit_body. apply pres_at_rd_bind; auto with giv; [apply given_trans|]. intros sb Esb.
  destruct (b_visited sb); [pg|].
  pg; auto using inherit_shape_giv, inherit_union_source_giv, union_target_giv; eauto with giv.
  all: try (match goal with
    | H : get_facets (heap ?s) ?a = Some _ |- pres_at given ?s (write ?a _) =>
        apply get_facets_nth in H; eapply given_write; [exact H|apply merge_grows]
    | |- pres_at given _ (upd_base _ _) => apply given_upd_base; intros; repeat split
    end).
Qed.
End InheritGiven.

Lemma inherit_giv n : forall a b s, pres_at given s (inherit n a b).
Proof. induction n; intros; simpl; [pg|apply inherit_body_giv; auto]. Qed.


Lemma oget_app {A} k (l x : omap A) : oget k (l ++ x) = match oget k l with Some v => Some v | None => oget k x end.
Proof. induction l as [|[k' v] l IH]; simpl; auto. now destruct (String.eqb k k'). Qed.

Lemma merge_missing k s : forall t, oget k t = None -> oget k (merge_facets t s) = oget k s.
Proof.
  unfold merge_facets. induction s as [|[k' v] s IH]; intros t H; simpl; auto.
  destruct (String.eqb_spec k k') as [->|N].
  - rewrite H, (oset_new _ _ _ H). destruct (merge_grows s (t ++ [(k', v)])) as (x & X). unfold merge_facets in X.
    rewrite X, !oget_app, H. simpl. now rewrite String.eqb_refl.
  - destruct (oget k' t) eqn:E; auto. apply IH. rewrite (oset_new _ _ _ E), oget_app, H. simpl.
    now destruct (String.eqb_spec k k').
Qed.

Lemma given_run {A} (m : M A) s r s' : pres_at given s m -> m s = (r, s') -> given s s'.
Proof. unfold pres_at, after. intros H E. now rewrite E in H. Qed.
Lemma given_facets s s' z l : given s s' -> get_facets (heap s) z = Some l -> exists x, get_facets (heap s') z = Some (l ++ x).
Proof.
  intros G H. apply get_facets_nth in H. destruct (G _ _ H) as (c & E & S). destruct c; simpl in S; try contradiction.
  destruct S as (x & ->). exists x. now apply get_facets_nth.
Qed.

Theorem inherit_facets n t src s r s' tb sb tl sl :
  inherit n t src s = (Ok r, s') ->
  get_base (heap s) t = Some tb -> get_base (heap s) src = Some sb -> b_visited sb = false ->
  get_facets (heap s) (b_facets tb) = Some tl -> get_facets (heap s) (b_facets sb) = Some sl ->
  exists tb' l, get_base (heap s') t = Some tb' /\ b_facets tb' = b_facets tb /\ b_fdefs tb' = b_fdefs tb
    /\ get_facets (heap s') (b_facets tb) = Some l
    /\ forall k, match oget k tl with
                 | Some v => oget k l = Some v
                 | None => forall v, oget k sl = Some v -> oget k l = Some v
                 end.
Proof.
  intros H T S V F1 F2. pose proof (given_run _ _ _ _ (inherit_giv n t src s) H) as G.
  destruct (G _ _ (proj1 (get_base_nth _ _ _) T)) as (c & E & Q). destruct c; simpl in Q; try contradiction.
  destruct Q as [Q1 Q2]. apply get_base_nth in E.
  destruct (given_facets _ _ _ _ G F1) as (x & Fx). exists b, (tl ++ x). repeat (split; [assumption|]).
  intros k. rewrite oget_app. destruct (oget k tl) as [v|] eqn:Ek; auto. intros v Es.
  (* the step that merges the maps *)
  destruct n as [|n]; [discriminate|]. cbn [inherit] in H. unfold inherit_body in H.
  rewrite (bind_ok _ _ _ _ _ (rd_some _ _ _ _ S)), V in H.
  apply bind_inv in H. destruct H as ([] & s1 & H1 & H).
  pose proof (given_run _ _ _ _ (given_visited src true s) H1) as G1.
  apply bind_inv in H. destruct H as (tb1 & s2 & H2 & H). apply rd_ok in H2. destruct H2 as [-> T1].
  assert (Qf : b_facets tb1 = b_facets tb).
  { destruct (G1 _ _ (proj1 (get_base_nth _ _ _) T)) as (c & E1 & Q). destruct c; simpl in Q; try contradiction.
    apply get_base_nth in E1. destruct Q as [Q _]. congruence. }
  apply bind_inv in H. destruct H as ([] & s2 & H2 & H).
  assert (G2 : given s1 s2).
  { destruct (b_desc tb1); [injection H2 as <-; apply given_refl|].
    eapply given_run; [|exact H2]. now apply given_upd_base. }
  apply bind_inv in H. destruct H as (tfm & s3 & H3 & H). apply rd_ok in H3. destruct H3 as [-> F3].
  apply bind_inv in H. destruct H as (sfm & s3 & H3 & H). apply rd_ok in H3. destruct H3 as [-> F4].
  assert (Same : forall z, get_facets (heap s2) z = get_facets (heap s) z).
  { assert (U : forall y f a b1 b2, upd_base y f a = (Ok b1, b2) -> forall z, get_facets (heap b2) z = get_facets (heap a) z).
    { intros y f a0 b1 b2 U z. unfold upd_base in U. apply bind_inv in U. destruct U as (yb & a1 & U1 & U).
      apply rd_ok in U1. destruct U1 as [-> U1]. unfold write in U. injection U as _ <-. simpl.
      unfold get_facets. destruct (Nat.eq_dec y z) as [->|N]; [|now rewrite nth_error_upd_neq by auto].
      apply get_base_nth in U1. rewrite (nth_error_upd_eq _ _ _ _ U1), U1. reflexivity. }
    intros z. rewrite <- (U _ _ _ _ _ H1 z). destruct (b_desc tb1); [injection H2 as <-; auto|]. eapply U; eauto. }
  rewrite Same, Qf, F1 in F3. injection F3 as <-. rewrite Same, F2 in F4. injection F4 as <-.
  apply bind_inv in H. destruct H as ([] & s3 & H3 & H). unfold write in H3. injection H3 as <-.
  set (s3 := St _ _ _) in *.
  assert (F5 : get_facets (heap s3) (b_facets tb) = Some (merge_facets tl sl)).
  { apply get_facets_nth. simpl. rewrite Qf. apply get_facets_nth in F1. 
    assert (N : nth_error (heap s2) (b_facets tb) = Some (CFacets tl)) by (apply get_facets_nth; rewrite Same; now apply get_facets_nth).
    eapply nth_error_upd_eq; eauto. }
  assert (G3 : given s3 s').
  { eapply given_run; [|exact H]. pg; auto using inherit_giv, inherit_shape_giv, inherit_union_source_giv, union_target_giv with giv. }
  destruct (given_facets _ _ _ _ G3 F5) as (y & Fy). rewrite Fy in Fx. injection Fx as Fx.
  pose proof (merge_missing k sl tl Ek) as M. rewrite Es in M.
  assert (M' : oget k (merge_facets tl sl ++ y) = Some v) by (rewrite oget_app, M; reflexivity).
  rewrite Fx, oget_app, Ek in M'. exact M'.
Qed.

(** AliasTo takes over the facets and the definitions. *)
Theorem alias_to_takes t x s r s' b sb : alias_to t x s = (Ok r, s') -> get_base (heap s) t = Some b -> get_base (heap s) x = Some sb ->
  exists b', get_base (heap s') t = Some b' /\ b_facets b' = b_facets sb /\ b_fdefs b' = b_fdefs sb
    /\ b_desc b' = b_desc sb /\ b_default b' = b_default sb /\ b_example b' = b_example sb /\ b_examples b' = b_examples sb
    /\ b_inherits b' = b_inherits sb /\ forall z, z <> t -> nth_error (heap s') z = nth_error (heap s) z.
Proof.
  intros H T X. unfold alias_to in H. rewrite (bind_ok _ _ _ _ _ (rd_some _ _ _ _ T)), (bind_ok _ _ _ _ _ (rd_some _ _ _ _ X)) in H.
  destruct (b_shape b) as [sh|]; [|discriminate]. destruct (b_shape sb) as [ssh|]; [|discriminate].
  destruct (alias_shape sh ssh) as [sh'| | |]; try discriminate. unfold bind, write, ret in H. injection H as _ <-.
  eexists. split; [apply get_base_nth; apply get_base_nth in T; simpl; eapply nth_error_upd_eq; eauto|].
  simpl. repeat (split; [reflexivity|]). intros z N. now rewrite nth_error_upd_neq by auto.
Qed.

Theorem alias_facets n a s r s' b al : unwrap n a s = (Ok r, s') -> get_base (heap s) a = Some b ->
  b_unwrapped b = false -> b_alias b = Some al -> exists us b' ub, r = a /\ get_base (heap s') a = Some b' /\ get_base (heap s') us = Some ub
    /\ (exists s1 s2, heap s1 = upd a (CBase (set_unwrapped true b)) (heap s) /\ unwrap (pred n) al s1 = (Ok us, s2))
    /\ (us <> a -> b_facets b' = b_facets ub /\ b_fdefs b' = b_fdefs ub /\ b_desc b' = b_desc ub /\ b_default b' = b_default ub).
Proof.
  intros H G U A. destruct n as [|n]; [discriminate|]. cbn [unwrap] in H.
  rewrite (bind_ok _ _ _ _ _ (rd_some _ _ _ _ G)) in H. destruct (b_shape b) as [sh|]; [|discriminate]. rewrite U in H.
  apply bind_inv in H. destruct H as ([] & s1 & H1 & H). rewrite A in H.
  apply bind_inv in H. destruct H as (us & s2 & H2 & H). apply bind_inv in H. destruct H as ([] & s3 & H3 & H).
  unfold put_shape in H3. injection H3 as <-. set (s3 := St _ _ _) in *.
  assert (R : r = a).
  { unfold alias_to in H. apply bind_inv in H. destruct H as (u1 & ? & _ & H). apply bind_inv in H. destruct H as (u2 & ? & _ & H).
    destruct (b_shape u1) as [u3|]; [|discriminate]. destruct (b_shape u2) as [u4|]; [|discriminate]. destruct (alias_shape u3 u4); try discriminate.
    unfold bind, write, ret in H. now injection H as <- _. }
  assert (B1 : exists b1 sb, get_base (heap s3) a = Some b1 /\ get_base (heap s3) us = Some sb).
  { unfold alias_to in H. apply bind_inv in H. destruct H as (b1 & ? & R1 & H). apply rd_ok in R1. destruct R1 as [-> R1].
    apply bind_inv in H. destruct H as (sb & ? & R2 & H). apply rd_ok in R2. destruct R2 as [-> R2]. eauto. }
  destruct B1 as (b1 & sb & B1 & B2).
  destruct (alias_to_takes _ _ _ _ _ _ _ H B1 B2) as (b' & G' & K1 & K2 & K3 & K4 & _ & _ & _ & K5).
  destruct (Nat.eq_dec us a) as [->|N].
  - exists a, b', b'. split; auto. split; auto. split; auto. split; [|congruence].
    exists s1, s2. split; auto. unfold upd_base in H1. rewrite (bind_ok _ _ _ _ _ (rd_some _ _ _ _ G)) in H1.
    unfold write in H1. now injection H1 as <-.
  - exists us, b', sb. split; auto. split; auto. split; [apply get_base_nth; rewrite K5 by auto; now apply get_base_nth|].
    split; [|auto]. exists s1, s2. split; auto. unfold upd_base in H1. rewrite (bind_ok _ _ _ _ _ (rd_some _ _ _ _ G)) in H1.
    unfold write in H1. now injection H1 as <-.
Qed.

(** Deriving from any. *)
Theorem inherit_any n t src s tb sb tl sl :
  t <> src -> get_base (heap s) t = Some tb -> get_base (heap s) src = Some sb -> b_visited sb = false -> b_shape sb = Some SAny ->
  get_facets (heap s) (b_facets tb) = Some tl -> get_facets (heap s) (b_facets sb) = Some sl ->
  exists s', inherit (S n) t src s = (Ok t, s')
    /\ exists tb', get_base (heap s') t = Some tb' /\ b_shape tb' = b_shape tb /\ b_type tb' = b_type tb.
Proof.
  intros N T S V A F1 F2. cbn [inherit]. unfold inherit_body.
  rewrite (bind_ok _ _ _ _ _ (rd_some _ _ _ _ S)), V.
  assert (U1 : exists s1, upd_base src (set_visited true) s = (Ok tt, s1) /\ heap s1 = upd src (CBase (set_visited true sb)) (heap s)).
  { unfold upd_base. rewrite (bind_ok _ _ _ _ _ (rd_some _ _ _ _ S)). eexists. split; reflexivity. }
  destruct U1 as (s1 & U1 & Q1). rewrite (bind_ok _ _ _ _ _ U1).
  apply get_base_nth in T, S. apply get_facets_nth in F1, F2.
  assert (T1 : nth_error (heap s1) t = Some (CBase tb)) by (rewrite Q1, nth_error_upd_neq by auto; auto).
  assert (Fc : forall z l, nth_error (heap s) z = Some (CFacets l) -> nth_error (heap s1) z = Some (CFacets l)).
  { intros z l E. rewrite Q1. rewrite nth_error_upd_neq; auto. intros ->. congruence. }
  rewrite (bind_ok _ _ _ _ _ (rd_some get_base t s1 tb (proj2 (get_base_nth _ _ _) T1))).
  set (d := match b_desc tb with None => upd_base t (set_desc (b_desc sb)) | Some _ => ret tt end).
  assert (D : exists s2 tb2, d s1 = (Ok tt, s2) /\ nth_error (heap s2) t = Some (CBase tb2) /\ b_shape tb2 = b_shape tb /\ b_type tb2 = b_type tb
    /\ b_facets tb2 = b_facets tb
    /\ forall z l, nth_error (heap s) z = Some (CFacets l) -> nth_error (heap s2) z = Some (CFacets l)).
  { unfold d. destruct (b_desc tb).
    - exists s1, tb. repeat (split; [auto; reflexivity|]). auto.
    - unfold upd_base. rewrite (bind_ok _ _ _ _ _ (rd_some get_base t s1 tb (proj2 (get_base_nth _ _ _) T1))).
      do 2 eexists. split; [reflexivity|]. simpl. split; [eapply nth_error_upd_eq; eauto|].
      repeat (split; [reflexivity|]). intros z l E. rewrite nth_error_upd_neq; auto. intros ->. congruence. }
  destruct D as (s2 & tb2 & D & T2 & Q2 & Q3 & Q4 & Fc2). rewrite (bind_ok _ _ _ _ _ D).
  rewrite (bind_ok _ _ _ _ _ (rd_some get_facets _ s2 tl (proj2 (get_facets_nth _ _ _) (Fc2 _ _ F1)))).
  rewrite (bind_ok _ _ _ _ _ (rd_some get_facets _ s2 sl (proj2 (get_facets_nth _ _ _) (Fc2 _ _ F2)))).
  unfold bind, write. rewrite A. eexists. split; [destruct (b_shape tb) as [[]|]; reflexivity|].
  exists tb2. split; auto. apply get_base_nth. simpl. rewrite nth_error_upd_neq; auto.
  intros E. rewrite E in F1. congruence.
Qed.
