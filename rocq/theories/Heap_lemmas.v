(** Lemmas about the heap, its writes, and the way computations change it. *)
From Coq Require Import ZArith List String Bool Lia.
From Verif Require Import Base Scalars Heap.
Import ListNotations.
Open Scope list_scope.
Open Scope nat_scope.

(** * Lists *)

Lemma upd_length {A} n (x : A) l : List.length (upd n x l) = List.length l.
Proof. revert n; induction l as [|y l IH]; intros [|n]; simpl; auto. Qed.

Lemma nth_error_upd_eq {A} n (x y : A) l :
  nth_error l n = Some y -> nth_error (upd n x l) n = Some x.
Proof. revert n; induction l as [|z l IH]; intros [|n]; simpl; try discriminate; eauto. Qed.

Lemma nth_error_upd_lt {A} n (x : A) l : n < List.length l -> nth_error (upd n x l) n = Some x.
Proof.
  revert n; induction l as [|z l IH]; intros [|n]; simpl; intros; try lia; auto. apply IH. lia.
Qed.

Lemma nth_error_upd_neq {A} n m (x : A) l :
  n <> m -> nth_error (upd n x l) m = nth_error l m.
Proof.
  revert n m; induction l as [|z l IH]; intros [|n] [|m] N; simpl; auto; try congruence.
Qed.

Lemma upd_app_l {A} n (x : A) l k : n < List.length l -> upd n x (l ++ k) = upd n x l ++ k.
Proof.
  revert n; induction l as [|z l IH]; intros [|n] H; simpl in *; try lia; auto.
  rewrite IH; auto. lia.
Qed.

Lemma upd_app_r {A} n (x : A) l k :
  List.length l <= n -> upd n x (l ++ k) = l ++ upd (n - List.length l) x k.
Proof.
  revert n; induction l as [|z l IH]; intros n H; simpl in *.
  - now rewrite Nat.sub_0_r.
  - destruct n; [lia|]. simpl. rewrite IH; auto. lia.
Qed.

Lemma nth_error_snoc {A} (l : list A) x : nth_error (l ++ [x]) (List.length l) = Some x.
Proof. rewrite nth_error_app2, Nat.sub_diag; auto. Qed.

Lemma nth_error_snoc_old {A} (l : list A) x n :
  n <> List.length l -> nth_error (l ++ [x]) n = nth_error l n.
Proof.
  intros N. destruct (Nat.lt_ge_cases n (List.length l)).
  - now apply nth_error_app1.
  - rewrite nth_error_app2 by auto. rewrite (proj2 (nth_error_None l n)) by auto.
    apply nth_error_None. simpl. lia.
Qed.

Lemma nth_error_lt {A} (l : list A) n x : nth_error l n = Some x -> n < List.length l.
Proof. intros H. apply nth_error_Some. congruence. Qed.

(** * Typed reads *)

Lemma get_base_nth h a b : get_base h a = Some b <-> nth_error h a = Some (CBase b).
Proof.
  unfold get_base. destruct (nth_error h a) as [[]|]; split; intros E; try discriminate;
    injection E as ->; reflexivity.
Qed.
Lemma get_props_nth h a m : get_props h a = Some m <-> nth_error h a = Some (CProps m).
Proof.
  unfold get_props. destruct (nth_error h a) as [[]|]; split; intros E; try discriminate;
    injection E as ->; reflexivity.
Qed.
Lemma get_facets_nth h a m : get_facets h a = Some m <-> nth_error h a = Some (CFacets m).
Proof.
  unfold get_facets. destruct (nth_error h a) as [[]|]; split; intros E; try discriminate;
    injection E as ->; reflexivity.
Qed.
Lemma get_slice_nth h a m : get_slice h a = Some m <-> nth_error h a = Some (CSlice m).
Proof.
  unfold get_slice. destruct (nth_error h a) as [[]|]; split; intros E; try discriminate;
    injection E as ->; reflexivity.
Qed.
Lemma get_dt_nth h a m : get_dt h a = Some m <-> nth_error h a = Some (CDT m).
Proof.
  unfold get_dt. destruct (nth_error h a) as [[]|]; split; intros E; try discriminate;
    injection E as ->; reflexivity.
Qed.

(** * Computations *)

Lemma bind_ok {A B} (m : M A) (f : A -> M B) s a s' :
  m s = (Ok a, s') -> bind m f s = f a s'.
Proof. unfold bind. now intros ->. Qed.

Lemma bind_inv {A B} (m : M A) (f : A -> M B) s b s'' :
  bind m f s = (Ok b, s'') -> exists a s', m s = (Ok a, s') /\ f a s' = (Ok b, s'').
Proof.
  unfold bind. destruct (m s) as [[a| | |] s'] eqn:E; intros H; try discriminate. eauto.
Qed.

Lemma rd_ok {A} (get : list cell -> addr -> option A) a s x s' :
  rd get a s = (Ok x, s') -> s' = s /\ get (heap s) a = Some x.
Proof.
  unfold rd. destruct (get (heap s) a) eqn:E; intros H; inversion H; subst; auto.
Qed.

Lemma rd_some {A} (get : list cell -> addr -> option A) a s x :
  get (heap s) a = Some x -> rd get a s = (Ok x, s).
Proof. unfold rd. now intros ->. Qed.

(** The state after a computation. *)
Definition after {A} (m : M A) (s : st) : st := snd (m s).

Section Pres.
(** [R] relates the states before and after. *)
Variable R : st -> st -> Prop.
Hypothesis R_refl : forall s, R s s.
Hypothesis R_trans : forall s1 s2 s3, R s1 s2 -> R s2 s3 -> R s1 s3.

Definition pres_at {A} (s : st) (m : M A) : Prop := R s (after m s).
Definition pres {A} (m : M A) : Prop := forall s, pres_at s m.

Lemma pres_at_bind {A B} (m : M A) (f : A -> M B) s :
  pres_at s m -> (forall a s', m s = (Ok a, s') -> pres_at s' (f a)) -> pres_at s (bind m f).
Proof.
  unfold pres_at, after, bind. destruct (m s) as [[a| | |] s'] eqn:E; simpl; intros H K; auto.
  eapply R_trans; [exact H|]. apply K. reflexivity.
Qed.

Lemma pres_at_ret {A} (a : A) s : pres_at s (ret a).
Proof. apply R_refl. Qed.
Lemma pres_at_fail {A} s : pres_at s (@fail A).
Proof. apply R_refl. Qed.
Lemma pres_at_panic {A} s : pres_at s (@mpanic A).
Proof. apply R_refl. Qed.
Lemma pres_at_diverge {A} s : pres_at s (@diverge A).
Proof. apply R_refl. Qed.
Lemma pres_at_lift {A} (r : res A) s : pres_at s (lift r).
Proof. apply R_refl. Qed.
Lemma pres_at_rd {A} (get : list cell -> addr -> option A) a s : pres_at s (rd get a).
Proof. unfold pres_at, after, rd. destruct (get (heap s) a); apply R_refl. Qed.

Lemma pres_at_rd_bind {A B} (get : list cell -> addr -> option A) a (f : A -> M B) s :
  (forall x, get (heap s) a = Some x -> pres_at s (f x)) -> pres_at s (bind (rd get a) f).
Proof.
  intros H. apply pres_at_bind; [apply pres_at_rd|]. intros x s' E. apply rd_ok in E.
  destruct E as [-> E]. auto.
Qed.

Lemma pres_at_try {A} (m : M A) s : pres_at s m -> pres_at s (try m).
Proof.
  unfold pres_at, after, try. destruct (m s) as [[a| | |] s']; auto.
Qed.

Lemma pres_loop_props n m body :
  (forall k p, pres (body k p)) -> forall i, pres (loop_props n m i body).
Proof.
  intros B. induction n as [|n IH]; intros i s; simpl; [apply pres_at_diverge|].
  apply pres_at_rd_bind. intros l _. destruct (nth_error l i) as [[k p]|]; [|apply pres_at_ret].
  apply pres_at_bind; [apply B|]. intros. apply IH.
Qed.

Lemma pres_loop_slice n sl body :
  (forall k p, pres (body k p)) -> forall i, pres (loop_slice n sl i body).
Proof.
  intros B. induction n as [|n IH]; intros i s; simpl; [apply pres_at_diverge|].
  apply pres_at_rd_bind. intros l _. destruct (nth_error l i) as [a|]; [|apply pres_at_ret].
  apply pres_at_bind; [apply B|]. intros. apply IH.
Qed.
End Pres.

(** * Clone only extends the heap *)

Definition extends (s s' : st) : Prop :=
  (exists x, heap s' = heap s ++ x) /\ st_shapes s' = st_shapes s /\ st_nextid s' = st_nextid s.

Lemma extends_refl s : extends s s.
Proof. split; [exists []; now rewrite app_nil_r|auto]. Qed.
Lemma extends_trans s1 s2 s3 : extends s1 s2 -> extends s2 s3 -> extends s1 s3.
Proof.
  intros ((x & E) & A & B) ((y & F) & C & D). split; [|split; congruence].
  exists (x ++ y). rewrite F, E. now rewrite app_assoc.
Qed.

Lemma extends_nth s s' a c : extends s s' -> nth_error (heap s) a = Some c -> nth_error (heap s') a = Some c.
Proof.
  intros ((x & E) & _) H. rewrite E, nth_error_app1; auto. eapply nth_error_lt; eauto.
Qed.

Lemma extends_alloc c s : pres_at extends s (alloc c).
Proof. unfold pres_at, after, alloc, extends; simpl. eauto. Qed.

#[local] Hint Resolve extends_refl extends_trans extends_alloc : ext.

Ltac pa R refl trans :=
  lazymatch goal with
  | |- pres_at _ _ (bind (rd _ _) _) =>
      apply pres_at_rd_bind; [exact refl|exact trans|]; let x := fresh "x" in let E := fresh "E" in intros x E
  | |- pres_at _ _ (bind _ _) =>
      apply pres_at_bind; [exact trans| |let x := fresh "x" in let s' := fresh "s" in let E := fresh "E" in intros x s' E]
  | |- pres_at _ _ (ret _) => apply pres_at_ret; exact refl
  | |- pres_at _ _ fail => apply pres_at_fail; exact refl
  | |- pres_at _ _ mpanic => apply pres_at_panic; exact refl
  | |- pres_at _ _ diverge => apply pres_at_diverge; exact refl
  | |- pres_at _ _ (lift _) => apply pres_at_lift; exact refl
  | |- pres_at _ _ (rd _ _) => apply pres_at_rd; exact refl
  | |- pres_at _ _ (try _) => apply pres_at_try
  | |- pres_at _ _ (if ?b then _ else _) => destruct b eqn:?
  | |- pres_at _ _ (match ?x with _ => _ end) => destruct x eqn:?
  | |- pres_at _ _ (let x := _ in _) => cbv zeta
  end.

Ltac pe := repeat (pa extends extends_refl extends_trans); auto using extends_alloc.

Section CloneExt.
Variable rec : cmap -> addr -> M (addr * cmap).
Hypothesis Hrec : forall cm a s, pres_at extends s (rec cm a).

Lemma clone_list_ext l : forall cm s, pres_at extends s (clone_list rec cm l).
Proof. induction l as [|a l IH]; intros cm s; simpl; pe; apply IH. Qed.
Lemma clone_props_ext l : forall cm s, pres_at extends s (clone_props rec cm l).
Proof. induction l as [|[k p] l IH]; intros cm s; simpl; pe; apply IH. Qed.
Lemma clone_opt_ext cm o s : pres_at extends s (clone_opt rec cm o).
Proof. destruct o; simpl; pe. Qed.
Lemma clone_optprops_ext cm o s : pres_at extends s (clone_optprops rec cm o).
Proof. destruct o; simpl; pe. apply clone_props_ext. Qed.
Lemma clone_shape_ext cm sh s : pres_at extends s (clone_shape rec cm sh).
Proof.
  destruct sh; simpl; pe; auto using clone_opt_ext, clone_optprops_ext, clone_list_ext.
Qed.
End CloneExt.

(** A write at or beyond the end of the original heap keeps the extension. *)
Lemma extends_write s s' c x :
  extends s s' -> List.length (heap s) <= c -> extends s (after (write c x) s').
Proof.
  intros ((y & E) & A & B) L. unfold after, write; simpl. repeat split; simpl; auto.
  rewrite E, upd_app_r by auto. eauto.
Qed.

Lemma extends_split {A B} (m : M A) (f : A -> M B) s s0 :
  extends s0 s ->
  pres_at extends s m -> (forall a s', m s = (Ok a, s') -> extends s0 s' -> extends s0 (after (f a) s')) ->
  extends s0 (after (bind m f) s).
Proof.
  unfold pres_at, after, bind. intros H0 H K. assert (extends s0 (snd (m s))) by eauto with ext.
  destruct (m s) as [[a| | |] s'] eqn:E; simpl in *; auto.
Qed.

Lemma clone_ext n : forall cm a s, pres_at extends s (clone n cm a).
Proof.
  induction n as [|n IH]; intros cm a s; simpl; [pe|].
  apply pres_at_rd_bind; [exact extends_refl|exact extends_trans|]. intros b Eb.
  destruct (cm_get (b_id b) cm) as [a'|]; [pe|].
  red. apply extends_split; [apply extends_refl|apply extends_alloc|]. intros c s1 Ec X1.
  assert (Lc : List.length (heap s) <= c) by (unfold alloc in Ec; injection Ec as <- _; lia).
  cbv zeta.
  apply extends_split; [auto|pe|]. intros fm s2 _ X2.
  apply extends_split; [auto|pe|]. intros fd s3 _ X3.
  apply extends_split; [auto|apply clone_props_ext; auto|]. intros rd_ s4 _ X4.
  apply extends_split; [auto|apply clone_opt_ext; auto|]. intros ra s5 _ X5.
  apply extends_split; [auto|pe|]. intros inh s6 _ X6.
  apply extends_split; [auto|apply clone_list_ext; auto|]. intros ri s7 _ X7.
  apply extends_split; [auto| |].
  { destruct (b_link b); pe. }
  intros rl s8 _ X8. destruct (b_shape b) as [sh|]; [|exact X8].
  apply extends_split; [auto|apply clone_shape_ext; auto|]. intros rs s9 _ X9.
  apply extends_split; [auto|pe|]. intros fm' s10 _ X10.
  apply extends_split; [auto|pe|]. intros fd' s11 _ X11.
  apply extends_split; [auto|pe|]. intros inh' s12 _ X12.
  unfold after, bind; simpl. apply (extends_write s s12); auto.
Qed.

Lemma clone_detached_ext n a s : pres_at extends s (clone_detached n a).
Proof. unfold clone_detached. pe. apply clone_ext. Qed.

(** * Cells keep their sort; bases stay unwrapped *)

Definition cell_le (c c' : cell) : Prop :=
  match c, c' with
  | CBase b, CBase b' => b_unwrapped b = true -> b_unwrapped b' = true
  | CProps _, CProps _ | CFacets _, CFacets _ | CSlice _, CSlice _ => True
  | CDT d, CDT d' => d = d'
  | _, _ => False
  end.

Definition evolves (s s' : st) : Prop :=
  forall a c, nth_error (heap s) a = Some c -> exists c', nth_error (heap s') a = Some c' /\ cell_le c c'.

Lemma cell_le_refl c : cell_le c c.
Proof. destruct c; simpl; auto. Qed.
Lemma cell_le_trans c1 c2 c3 : cell_le c1 c2 -> cell_le c2 c3 -> cell_le c1 c3.
Proof. destruct c1, c2, c3; simpl; try tauto. congruence. Qed.
Lemma evolves_refl s : evolves s s.
Proof. intros a c H. eauto using cell_le_refl. Qed.
Lemma evolves_trans s1 s2 s3 : evolves s1 s2 -> evolves s2 s3 -> evolves s1 s3.
Proof.
  intros H K a c E. destruct (H a c E) as (c' & E' & L). destruct (K a c' E') as (c'' & E'' & L').
  eauto using cell_le_trans.
Qed.
Lemma extends_evolves s s' : extends s s' -> evolves s s'.
Proof. intros X a c E. exists c. split; [eapply extends_nth; eauto|apply cell_le_refl]. Qed.

Lemma evolves_write s a c c' :
  nth_error (heap s) a = Some c -> cell_le c c' -> pres_at evolves s (write a c').
Proof.
  intros E L x d Ex. unfold after, write; simpl. destruct (Nat.eq_dec a x) as [<-|N].
  - rewrite (nth_error_upd_eq _ _ _ _ E). replace d with c by congruence. eauto.
  - rewrite nth_error_upd_neq by auto. eauto using cell_le_refl.
Qed.

Lemma evolves_heap s s' : heap s' = heap s -> evolves s s'.
Proof. intros H a c E. exists c. rewrite H. split; auto using cell_le_refl. Qed.

Lemma evolves_alloc c s : pres_at evolves s (alloc c).
Proof. apply extends_evolves, extends_alloc. Qed.
Lemma evolves_gen_id s : pres_at evolves s gen_id.
Proof. now apply evolves_heap. Qed.
Lemma evolves_put_shape a s : pres_at evolves s (put_shape a).
Proof. now apply evolves_heap. Qed.
Lemma evolves_clone_detached n a s : pres_at evolves s (clone_detached n a).
Proof. apply extends_evolves, clone_detached_ext. Qed.

Ltac pv := repeat (pa evolves evolves_refl evolves_trans);
  auto using evolves_alloc, evolves_gen_id, evolves_put_shape, evolves_clone_detached.

Lemma evolves_upd_base a f s :
  (forall b, b_unwrapped b = true -> b_unwrapped (f b) = true) -> pres_at evolves s (upd_base a f).
Proof.
  intros H. unfold upd_base. pv. apply get_base_nth in E. eapply evolves_write; eauto. simpl. auto.
Qed.
Lemma evolves_props_set m k p s : pres_at evolves s (props_set m k p).
Proof. unfold props_set. pv. apply get_props_nth in E. eapply evolves_write; eauto. exact I. Qed.
Lemma evolves_slice_set m i x s : pres_at evolves s (slice_set m i x).
Proof. unfold slice_set. pv. apply get_slice_nth in E. eapply evolves_write; eauto. exact I. Qed.
Lemma evolves_upd_arr a f s : pres_at evolves s (upd_arr a f).
Proof. unfold upd_arr. pv. apply get_base_nth in E. eapply evolves_write; eauto. simpl. auto. Qed.
Lemma evolves_upd_obj a f s : pres_at evolves s (upd_obj a f).
Proof. unfold upd_obj. pv. apply get_base_nth in E. eapply evolves_write; eauto. simpl. auto. Qed.

#[global] Hint Resolve evolves_upd_base evolves_props_set evolves_slice_set evolves_upd_arr evolves_upd_obj
  evolves_refl evolves_trans evolves_alloc evolves_gen_id evolves_put_shape evolves_clone_detached : evo.

Lemma evolves_alias_to t s0 s : pres_at evolves s (alias_to t s0).
Proof. unfold alias_to. pv. apply get_base_nth in E. eapply evolves_write; eauto. simpl. auto. Qed.

Section InheritEvo.
Variable n : nat.
Variable rec : addr -> addr -> M addr.
Hypothesis Hrec : forall a b s, pres_at evolves s (rec a b).

Lemma inherit_map_evo tm sm s : pres_at evolves s (inherit_map n rec tm sm).
Proof.
  unfold inherit_map. apply pres_loop_props; auto using evolves_refl; [apply evolves_trans|].
  intros k p s'. pv. eauto with evo.
Qed.
Lemma inherit_array_evo t src tf sf s : pres_at evolves s (inherit_array rec t src tf sf).
Proof.
  unfold inherit_array, cur_arr. pv; eauto with evo.
Qed.
Lemma inherit_object_evo t src tf sf s : pres_at evolves s (inherit_object n rec t src tf sf).
Proof.
  unfold inherit_object, cur_obj, inherit_props, inherit_pprops.
  pv; eauto using inherit_map_evo with evo.
Qed.
Lemma union_inner_evo sm ty tl : forall s, pres_at evolves s (union_inner n rec sm ty tl).
Proof.
  induction tl as [|tm tl IH]; intros s; simpl; pv; eauto with evo; try apply IH.
Qed.
Lemma union_outer_evo tsl sl : forall s, pres_at evolves s (union_outer n rec tsl sl).
Proof.
  induction sl as [|sm sl IH]; intros s; simpl; pv; eauto using union_inner_evo; try apply IH.
Qed.
Lemma inherit_union_evo t tsl e ssl s : pres_at evolves s (inherit_union n rec t tsl e ssl).
Proof. unfold inherit_union. pv; eauto using union_outer_evo with evo. Qed.
Lemma inherit_shape_evo t src a b s : pres_at evolves s (inherit_shape n rec t src a b).
Proof.
  unfold inherit_shape.
  pv; auto using inherit_array_evo, inherit_object_evo, inherit_union_evo; eauto with evo.
Qed.
Lemma union_source_evo s0 l : forall s, pres_at evolves s (union_source n rec s0 l).
Proof.
  induction l as [|m l IH]; intros s; simpl; pv; eauto with evo; try apply IH.
Qed.
Lemma inherit_union_source_evo s0 ssl s : pres_at evolves s (inherit_union_source n rec s0 ssl).
Proof. unfold inherit_union_source. pv; eauto using union_source_evo with evo. Qed.
Lemma union_target_evo k s0 tsl : forall i g s, pres_at evolves s (union_target rec k s0 tsl i g).
Proof.
  induction k as [|k IH]; intros i g s; simpl; pv.
Qed.
Lemma inherit_body_evo s0 src s : pres_at evolves s (inherit_body n rec s0 src).
Proof.
  unfold inherit_body. apply pres_at_rd_bind; auto with evo; [apply evolves_trans|]. intros sb Esb.
  destruct (b_visited sb); [pv|].
  pv; auto using inherit_shape_evo, inherit_union_source_evo, union_target_evo; eauto with evo.
  all: try (match goal with
    | H : get_facets (heap ?s) ?a = Some _ |- pres_at evolves ?s (write ?a _) =>
        apply get_facets_nth in H; eapply evolves_write; [exact H|exact I]
    end).
Qed.
End InheritEvo.

Lemma inherit_evo n : forall a b s, pres_at evolves s (inherit n a b).
Proof. induction n; intros; simpl; [pv|apply inherit_body_evo; auto]. Qed.

Section UnwrapEvo.
Variable n : nat.
Variable rec : addr -> M addr.
Hypothesis Hrec : forall a s, pres_at evolves s (rec a).

Lemma unwrap_map_evo m s : pres_at evolves s (unwrap_map n rec m).
Proof.
  unfold unwrap_map. apply pres_loop_props; auto using evolves_refl; [apply evolves_trans|].
  intros k p s'. pv. eauto with evo.
Qed.
Lemma unwrap_optmap_evo m s : pres_at evolves s (unwrap_optmap n rec m).
Proof. destruct m; simpl; pv. apply unwrap_map_evo. Qed.
Lemma unwrap_target_evo a s : pres_at evolves s (unwrap_target n rec a).
Proof.
  unfold unwrap_target. pv; eauto using unwrap_optmap_evo with evo.
  apply pres_loop_slice; auto using evolves_refl; [apply evolves_trans|].
  intros k p s'. pv. eauto with evo.
Qed.
Lemma unwrap_more_parents_evo k inh sl ss :
  (forall a b s, pres_at evolves s (inh a b)) ->
  forall i s, pres_at evolves s (unwrap_more_parents rec k inh sl ss i).
Proof.
  intros Hinh. induction k as [|k IH]; intros i s; simpl; pv; eauto with evo.
Qed.
Lemma unwrap_parents_evo inh a s :
  (forall a b s, pres_at evolves s (inh a b)) -> pres_at evolves s (unwrap_parents n rec inh a).
Proof.
  intros Hinh. unfold unwrap_parents. pv; eauto using unwrap_more_parents_evo with evo.
Qed.
Lemma unwrap_fdefs_evo a s : pres_at evolves s (unwrap_fdefs n rec a).
Proof.
  unfold unwrap_fdefs. pv. apply pres_loop_props; auto using evolves_refl; [apply evolves_trans|].
  intros k p s'. pv; eauto with evo.
Qed.
End UnwrapEvo.

Lemma unwrap_evo n : forall a s, pres_at evolves s (unwrap n a).
Proof.
  induction n as [|n IH]; intros a s; simpl; [pv|].
  pv; eauto using evolves_alias_to, unwrap_parents_evo, inherit_evo, unwrap_target_evo, unwrap_fdefs_evo with evo.
Qed.

Lemma make_recursive_evo a s : pres_at evolves s (make_recursive a).
Proof. unfold make_recursive, make_base. pv. apply evolves_upd_base. reflexivity. Qed.

Section MarkEvo.
Variable n : nat.
Variable rec : addr -> M (option addr).
Hypothesis Hrec : forall a s, pres_at evolves s (rec a).
Lemma mark_map_evo m s : pres_at evolves s (mark_map n rec m).
Proof.
  unfold mark_map. apply pres_loop_props; auto using evolves_refl; [apply evolves_trans|].
  intros k p s'. pv. eauto with evo.
Qed.
Lemma mark_optmap_evo m s : pres_at evolves s (mark_optmap n rec m).
Proof. destruct m; simpl; pv. apply mark_map_evo. Qed.
Lemma mark_shape_evo a s : pres_at evolves s (mark_shape n rec a).
Proof.
  unfold mark_shape. pv; eauto using mark_optmap_evo with evo.
  apply pres_loop_slice; auto using evolves_refl; [apply evolves_trans|].
  intros k p s'. pv. eauto with evo.
Qed.
End MarkEvo.

Lemma mark_evo n : forall a s, pres_at evolves s (mark n a).
Proof.
  induction n as [|n IH]; intros a s; simpl; [pv|].
  pv; eauto using make_recursive_evo, mark_shape_evo, mark_map_evo with evo.
Qed.
