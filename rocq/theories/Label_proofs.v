(** Proofs that unwrapping and recursion marking leave the ID, the name and the
    location of every existing base shape alone. *)
From Coq Require Import ZArith List String Bool Lia.
From Verif Require Import Base Scalars Heap Heap_lemmas Clone_proofs.
Import ListNotations.
Open Scope string_scope.
Open Scope list_scope.
Open Scope nat_scope.

Definition label_same (c c' : cell) : Prop :=
  match c, c' with
  | CBase b, CBase b' => b_id b' = b_id b /\ b_name b' = b_name b /\ b_loc b' = b_loc b
  | CBase _, _ => False
  | _, CBase _ => False
  | _, _ => True
  end.

Definition labels (s s' : st) : Prop :=
  forall a c, nth_error (heap s) a = Some c -> exists c', nth_error (heap s') a = Some c' /\ label_same c c'.

Lemma label_same_refl c : label_same c c.
Proof. destruct c; simpl; auto. Qed.
Lemma label_same_trans c1 c2 c3 : label_same c1 c2 -> label_same c2 c3 -> label_same c1 c3.
Proof. destruct c1, c2, c3; simpl; try tauto. intros (A & B & C) (D & E & F). repeat split; congruence. Qed.
Lemma labels_refl s : labels s s.
Proof. intros a c H. eauto using label_same_refl. Qed.
Lemma labels_trans s1 s2 s3 : labels s1 s2 -> labels s2 s3 -> labels s1 s3.
Proof.
  intros H K a c E. destruct (H a c E) as (c' & E' & L). destruct (K a c' E') as (c'' & E'' & L').
  eauto using label_same_trans.
Qed.
Lemma extends_labels s s' : extends s s' -> labels s s'.
Proof. intros X a c E. exists c. split; [eapply extends_nth; eauto|apply label_same_refl]. Qed.
Lemma labels_write s a c c' :
  nth_error (heap s) a = Some c -> label_same c c' -> pres_at labels s (write a c').
Proof.
  intros E L x d Ex. unfold after, write; simpl. destruct (Nat.eq_dec a x) as [<-|N].
  - rewrite (nth_error_upd_eq _ _ _ _ E). replace d with c by congruence. eauto.
  - rewrite nth_error_upd_neq by auto. eauto using label_same_refl.
Qed.
Lemma labels_heap s s' : heap s' = heap s -> labels s s'.
Proof. intros H a c E. exists c. rewrite H. split; auto using label_same_refl. Qed.
Lemma labels_alloc c s : pres_at labels s (alloc c).
Proof. apply extends_labels, extends_alloc. Qed.
Lemma labels_gen_id s : pres_at labels s gen_id.
Proof. now apply labels_heap. Qed.
Lemma labels_put_shape a s : pres_at labels s (put_shape a).
Proof. now apply labels_heap. Qed.
Lemma labels_clone_detached n a s : pres_at labels s (clone_detached n a).
Proof. apply extends_labels, clone_detached_ext. Qed.

Ltac pl := repeat (pa labels labels_refl labels_trans);
  auto using labels_alloc, labels_gen_id, labels_put_shape, labels_clone_detached.

Lemma labels_upd_base a f s :
  (forall b, b_id (f b) = b_id b /\ b_name (f b) = b_name b /\ b_loc (f b) = b_loc b) -> pres_at labels s (upd_base a f).
Proof.
  intros H. unfold upd_base. pl. apply get_base_nth in E. eapply labels_write; eauto. simpl. auto.
Qed.
Lemma labels_visited a v s : pres_at labels s (upd_base a (set_visited v)).
Proof. now apply labels_upd_base. Qed.
Lemma labels_shape a v s : pres_at labels s (upd_base a (set_shape v)).
Proof. now apply labels_upd_base. Qed.
Lemma labels_unwrapped a v s : pres_at labels s (upd_base a (set_unwrapped v)).
Proof. now apply labels_upd_base. Qed.
Lemma labels_props_set m k p s : pres_at labels s (props_set m k p).
Proof. unfold props_set. pl. apply get_props_nth in E. eapply labels_write; eauto. exact I. Qed.
Lemma labels_slice_set m i x s : pres_at labels s (slice_set m i x).
Proof. unfold slice_set. pl. apply get_slice_nth in E. eapply labels_write; eauto. exact I. Qed.
Lemma labels_upd_arr a f s : pres_at labels s (upd_arr a f).
Proof. unfold upd_arr. pl. apply get_base_nth in E. eapply labels_write; eauto. simpl. auto. Qed.
Lemma labels_upd_obj a f s : pres_at labels s (upd_obj a f).
Proof. unfold upd_obj. pl. apply get_base_nth in E. eapply labels_write; eauto. simpl. auto. Qed.

Create HintDb lab.
#[global] Hint Resolve labels_visited labels_shape labels_unwrapped labels_props_set labels_slice_set labels_upd_arr labels_upd_obj
  labels_refl labels_trans labels_alloc labels_gen_id labels_put_shape labels_clone_detached : lab.

Lemma labels_alias_to t s0 s : pres_at labels s (alias_to t s0).
Proof. unfold alias_to. pl. apply get_base_nth in E. eapply labels_write; eauto. simpl. auto. Qed.

(** The first clone of a run is the first new cell. *)
Lemma clone_detached_new n a s c s' : clone_detached n a s = (Ok c, s') -> c = List.length (heap s).
Proof.
  unfold clone_detached. intros H. apply bind_inv in H. destruct H as ([c' cm] & s1 & H & K). injection K as <- _.
  destruct n as [|n]; [discriminate|]. simpl in H.
  apply bind_inv in H. destruct H as (b & s2 & E & H). destruct (rd_ok _ _ _ _ _ E) as [-> _].
  simpl in H. apply bind_inv in H. destruct H as (c0 & s3 & E3 & H). unfold alloc in E3. injection E3 as <- <-.
  do 7 (apply bind_inv in H; destruct H as (? & ? & _ & H)).
  destruct (b_shape b); [|discriminate].
  do 5 (apply bind_inv in H; destruct H as (? & ? & _ & H)). now injection H as <- _ _.
Qed.

(** Giving a new clone a new ID concerns nothing old. *)
Lemma labels_clone_id {B} n a (k : addr -> M B) s : (forall x s', pres_at labels s' (k x)) ->
  pres_at labels s (bind (clone_detached n a) (fun c => bind gen_id (fun i => bind (upd_base c (set_id i)) (fun _ => k c)))).
Proof.
  intros K. unfold pres_at, after, bind at 1. destruct (clone_detached n a s) as [[c| | |] s1] eqn:E.
  2-4: pose proof (labels_clone_detached n a s) as Q; unfold pres_at, after in Q; rewrite E in Q; exact Q.
  assert (X : extends s s1) by (exact (extends_after _ _ _ _ (clone_detached_ext n a s) E)).
  pose proof (clone_detached_new _ _ _ _ _ E) as ->.
  unfold bind at 1. unfold gen_id. simpl. set (i := Z.add _ _).
  set (s2 := St (heap s1) (st_shapes s1) i).
  assert (Y : labels s s2) by (apply extends_labels in X; intros x d D; exact (X x d D)).
  unfold bind at 1. destruct (upd_base (List.length (heap s)) (set_id i) s2) as [[u| | |] s3] eqn:U.
  - eapply labels_trans; [|apply K].
    unfold upd_base in U. apply bind_inv in U. destruct U as (b & s4 & E4 & U). destruct (rd_ok _ _ _ _ _ E4) as [-> _].
    unfold write in U. injection U as _ <-. intros x d D. destruct (Y x d D) as (d' & D' & L). exists d'. split; auto. simpl.
    rewrite nth_error_upd_neq; auto. apply nth_error_lt in D. lia.
  - unfold upd_base, bind, rd in U. destruct (get_base (heap s2) (List.length (heap s))); [discriminate|]. discriminate.
  - unfold upd_base, bind, rd in U. destruct (get_base (heap s2) (List.length (heap s))); [discriminate|].
    injection U as <-. exact Y.
  - unfold upd_base, bind, rd in U. destruct (get_base (heap s2) (List.length (heap s))); discriminate.
Qed.

Section InheritLabels.
Variable n : nat.
Variable rec : addr -> addr -> M addr.
Hypothesis Hrec : forall a b s, pres_at labels s (rec a b).

Lemma inherit_map_lab tm sm s : pres_at labels s (inherit_map n rec tm sm).
Proof.
  unfold inherit_map. apply pres_loop_props; auto using labels_refl; [apply labels_trans|].
  intros k p s'. pl. eauto with lab.
Qed.
Lemma inherit_array_lab t src tf sf s : pres_at labels s (inherit_array rec t src tf sf).
Proof. unfold inherit_array, cur_arr. pl; eauto with lab. Qed.
Lemma inherit_object_lab t src tf sf s : pres_at labels s (inherit_object n rec t src tf sf).
Proof.
  unfold inherit_object, cur_obj, inherit_props, inherit_pprops.
  pl; eauto using inherit_map_lab with lab.
Qed.
Lemma union_inner_lab sm ty tl : forall s, pres_at labels s (union_inner n rec sm ty tl).
Proof.
  induction tl as [|tm tl IH]; intros s; simpl; [pl|].
  apply pres_at_rd_bind; [apply labels_refl|apply labels_trans|]. intros tb _.
  apply pres_at_bind; [apply labels_trans| |].
  - destruct (String.eqb ty (b_type tb)); [|pl]. apply labels_clone_id. intros. pl.
  - intros. pl; apply IH.
Qed.
Lemma union_outer_lab tsl sl : forall s, pres_at labels s (union_outer n rec tsl sl).
Proof. induction sl as [|sm sl IH]; intros s; simpl; pl; eauto using union_inner_lab; try apply IH. Qed.
Lemma inherit_union_lab t tsl e ssl s : pres_at labels s (inherit_union n rec t tsl e ssl).
Proof. unfold inherit_union. pl; eauto using union_outer_lab with lab. Qed.
Lemma inherit_shape_lab t src a b s : pres_at labels s (inherit_shape n rec t src a b).
Proof.
  unfold inherit_shape.
  pl; auto using inherit_array_lab, inherit_object_lab, inherit_union_lab; eauto with lab.
Qed.
Lemma union_source_lab s0 l : forall s, pres_at labels s (union_source n rec s0 l).
Proof.
  induction l as [|m l IH]; intros s; simpl; [pl|].
  apply pres_at_rd_bind; [apply labels_refl|apply labels_trans|]. intros mb _.
  assert (G : pres_at labels s (bind (rd get_base s0) (fun sb =>
     bind (if String.eqb (b_type mb) (b_type sb) then
             bind (clone_detached n s0) (fun tc => bind gen_id (fun i => bind (upd_base tc (set_id i)) (fun _ => try (rec tc m))))
           else ret None) (fun r => bind (union_source n rec s0 l) (fun r' =>
       ret (match r, r' with Some x, Some l => Some (x :: l) | None, Some l => Some l | _, None => None end)))))).
  { apply pres_at_rd_bind; [apply labels_refl|apply labels_trans|]. intros sb _.
    apply pres_at_bind; [apply labels_trans| |].
    - destruct (String.eqb (b_type mb) (b_type sb)); [|pl]. apply labels_clone_id. intros. pl.
    - intros. apply pres_at_bind; [apply labels_trans|apply IH|]. intros. apply pres_at_ret, labels_refl. }
  destruct (b_shape mb) as [[]|]; try exact G. pl.
Qed.
Lemma inherit_union_source_lab s0 ssl s : pres_at labels s (inherit_union_source n rec s0 ssl).
Proof.
  unfold inherit_union_source. pl; eauto using union_source_lab with lab. apply labels_upd_base. intros; repeat split.
Qed.
Lemma union_target_lab k s0 tsl : forall i g s, pres_at labels s (union_target rec k s0 tsl i g).
Proof. induction k as [|k IH]; intros i g s; simpl; pl. Qed.
Lemma inherit_body_lab s0 src s : pres_at labels s (inherit_body n rec s0 src).
Proof.
  unfold inherit_body. apply pres_at_rd_bind; auto with lab; [apply labels_trans|]. intros sb Esb.
  destruct (b_visited sb); [pl|].
  pl; auto using inherit_shape_lab, inherit_union_source_lab, union_target_lab; eauto with lab.
  all: try (match goal with
    | H : get_facets (heap ?s) ?a = Some _ |- pres_at labels ?s (write ?a _) =>
        apply get_facets_nth in H; eapply labels_write; [exact H|exact I]
    | |- pres_at labels _ (upd_base _ _) => apply labels_upd_base; intros; repeat split
    end).
Qed.
End InheritLabels.

Lemma inherit_lab n : forall a b s, pres_at labels s (inherit n a b).
Proof. induction n; intros; simpl; [pl|apply inherit_body_lab; auto]. Qed.

Section UnwrapLabels.
Variable n : nat.
Variable rec : addr -> M addr.
Hypothesis Hrec : forall a s, pres_at labels s (rec a).

Lemma unwrap_map_lab m s : pres_at labels s (unwrap_map n rec m).
Proof.
  unfold unwrap_map. apply pres_loop_props; auto using labels_refl; [apply labels_trans|].
  intros k p s'. pl. eauto with lab.
Qed.
Lemma unwrap_optmap_lab m s : pres_at labels s (unwrap_optmap n rec m).
Proof. destruct m; simpl; pl. apply unwrap_map_lab. Qed.
Lemma unwrap_target_lab a s : pres_at labels s (unwrap_target n rec a).
Proof.
  unfold unwrap_target. pl; eauto using unwrap_optmap_lab with lab.
  apply pres_loop_slice; auto using labels_refl; [apply labels_trans|].
  intros k p s'. pl. eauto with lab.
Qed.
Lemma unwrap_more_parents_lab k inh sl ss :
  (forall a b s, pres_at labels s (inh a b)) ->
  forall i s, pres_at labels s (unwrap_more_parents rec k inh sl ss i).
Proof. intros Hinh. induction k as [|k IH]; intros i s; simpl; pl; eauto with lab. Qed.
Lemma unwrap_parents_lab inh a s :
  (forall a b s, pres_at labels s (inh a b)) -> pres_at labels s (unwrap_parents n rec inh a).
Proof.
  intros Hinh. unfold unwrap_parents. pl; eauto using unwrap_more_parents_lab with lab.
  all: try (apply labels_upd_base; intros; repeat split).
Qed.
Lemma unwrap_fdefs_lab a s : pres_at labels s (unwrap_fdefs n rec a).
Proof.
  unfold unwrap_fdefs. pl. apply pres_loop_props; auto using labels_refl; [apply labels_trans|].
  intros k p s'. pl; eauto with lab.
  all: try (apply labels_upd_base; intros; repeat split).
Qed.
End UnwrapLabels.

Lemma unwrap_lab n : forall a s, pres_at labels s (unwrap n a).
Proof.
  induction n as [|n IH]; intros a s; simpl; [pl|].
  pl; eauto using labels_alias_to, unwrap_parents_lab, inherit_lab, unwrap_target_lab, unwrap_fdefs_lab with lab.
  all: try (apply labels_upd_base; intros; repeat split).
Qed.

(** The base shape made for a recursion is new. *)
Lemma make_recursive_lab a s : pres_at labels s (make_recursive a).
Proof.
  unfold make_recursive. apply pres_at_rd_bind; [apply labels_refl|apply labels_trans|]. intros hb E.
  unfold make_base, gen_id, alloc, put_shape, upd_base, write, rd, bind, ret, pres_at, after. simpl.
  match goal with |- context [get_base ?h ?x] => destruct (get_base h x) eqn:G end; simpl.
  - intros x c X. exists c. split; [|apply label_same_refl]. simpl. pose proof (nth_error_lt _ _ _ X).
    rewrite nth_error_upd_neq by (rewrite !app_length; simpl; lia).
    rewrite <- !app_assoc. rewrite nth_error_app1 by lia. exact X.
  - intros x c X. exists c. split; [|apply label_same_refl]. simpl. pose proof (nth_error_lt _ _ _ X).
    rewrite <- !app_assoc. rewrite nth_error_app1 by lia. exact X.
Qed.

Section MarkLabels.
Variable n : nat.
Variable rec : addr -> M (option addr).
Hypothesis Hrec : forall a s, pres_at labels s (rec a).
Lemma mark_map_lab m s : pres_at labels s (mark_map n rec m).
Proof.
  unfold mark_map. apply pres_loop_props; auto using labels_refl; [apply labels_trans|].
  intros k p s'. pl. eauto with lab.
Qed.
Lemma mark_optmap_lab m s : pres_at labels s (mark_optmap n rec m).
Proof. destruct m; simpl; pl. apply mark_map_lab. Qed.
Lemma mark_shape_lab a s : pres_at labels s (mark_shape n rec a).
Proof.
  unfold mark_shape. pl; eauto using mark_optmap_lab with lab.
  apply pres_loop_slice; auto using labels_refl; [apply labels_trans|].
  intros k p s'. pl. eauto with lab.
Qed.
End MarkLabels.

Lemma mark_lab n : forall a s, pres_at labels s (mark n a).
Proof.
  induction n as [|n IH]; intros a s; simpl; [pl|].
  pl; eauto using make_recursive_lab, mark_shape_lab, mark_map_lab with lab.
Qed.

Lemma labels_run {A} (m : M A) s r s' : pres_at labels s m -> m s = (r, s') -> labels s s'.
Proof. unfold pres_at, after. intros H E. now rewrite E in H. Qed.
Lemma labels_base s s' a b : labels s s' -> get_base (heap s) a = Some b ->
  exists b', get_base (heap s') a = Some b' /\ b_id b' = b_id b /\ b_name b' = b_name b /\ b_loc b' = b_loc b.
Proof.
  intros L E. apply get_base_nth in E. destruct (L _ _ E) as (c & E' & S). destruct c; simpl in S; try contradiction.
  exists b0. split; auto. now apply get_base_nth.
Qed.
