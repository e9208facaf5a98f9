(** Proofs about shape identifiers: every operation that creates shapes, except
    Clone, gives each of them an identifier of its own. *)
From Coq Require Import ZArith List String Bool Lia.
From Verif Require Import Base Scalars Heap Heap_lemmas Rdt Resolve Spec_Resolve Spec_Model Resolve_proofs Resolve_ends.
Import ListNotations.
Open Scope string_scope.
Open Scope list_scope.
Open Scope nat_scope.

Definition fresh_in (s s' : st) (x : addr) (b : base) : Prop :=
  get_base (heap s') x = Some b /\ get_base (heap s) x = None
  /\ (st_nextid s < b_id b)%Z /\ (b_id b <= st_nextid s')%Z.

Record numbers (s s' : st) : Prop := {
  n_next : (st_nextid s <= st_nextid s')%Z;
  n_keep : forall x b, get_base (heap s) x = Some b -> exists b', get_base (heap s') x = Some b' /\ b_id b' = b_id b;
  n_new : forall x b, get_base (heap s') x = Some b -> is_base (heap s) x \/ fresh_in s s' x b;
  n_diff : forall x y bx by_, fresh_in s s' x bx -> fresh_in s s' y by_ -> b_id bx = b_id by_ -> x = y;
  n_sort : forall x c, nth_error (heap s) x = Some c -> exists c', nth_error (heap s') x = Some c'
      /\ (get_base (heap s) x = None -> get_base (heap s') x = None)
}.

Lemma numbers_refl s : numbers s s.
Proof.
  constructor; eauto; try lia.
  - intros x b G. left. exists b. auto.
  - intros x y bx by_ (A & B & _). congruence.
Qed.

Lemma numbers_trans s1 s2 s3 : numbers s1 s2 -> numbers s2 s3 -> numbers s1 s3.
Proof.
  intros H K. pose proof (n_next _ _ H) as N1. pose proof (n_next _ _ K) as N2.
  assert (SPLIT : forall x b, fresh_in s1 s3 x b ->
     (exists b', fresh_in s1 s2 x b' /\ b_id b' = b_id b) \/ fresh_in s2 s3 x b).
  { intros x b (A & B & C & D). destruct (n_new _ _ K _ _ A) as [(b2 & G2)|F]; auto. left.
    destruct (n_keep _ _ K _ _ G2) as (b3 & G3 & I3). assert (b3 = b) by congruence. subst b3.
    destruct (n_new _ _ H _ _ G2) as [(b1 & G1)|F]; [congruence|]. exists b2. auto. }
  constructor.
  - lia.
  - intros x b G. destruct (n_keep _ _ H _ _ G) as (b' & G' & I'). destruct (n_keep _ _ K _ _ G') as (b2 & G2 & I2).
    exists b2. split; auto. congruence.
  - intros x b G. destruct (n_new _ _ K _ _ G) as [(b2 & G2)|(A & B & C & D)].
    + destruct (n_new _ _ H _ _ G2) as [L|(A & B & C & D)]; auto. right.
      destruct (n_keep _ _ K _ _ G2) as (b3 & G3 & I3). assert (b3 = b) by congruence. subst b3.
      split; auto. split; auto. rewrite I3. lia.
    + destruct (get_base (heap s1) x) as [b1|] eqn:G1; [left; exists b1; auto|].
      right. split; auto. split; auto. lia.
  - intros x y bx by_ Fx Fy Q. destruct (SPLIT _ _ Fx) as [(bx' & Fx' & Ix)|Fx']; destruct (SPLIT _ _ Fy) as [(by' & Fy' & Iy)|Fy'].
    + eapply (n_diff _ _ H); eauto. congruence.
    + exfalso. destruct Fx' as (_ & _ & _ & D). destruct Fy' as (_ & _ & C & _). lia.
    + exfalso. destruct Fy' as (_ & _ & _ & D). destruct Fx' as (_ & _ & C & _). lia.
    + eapply (n_diff _ _ K); eauto.
  - intros x c G. destruct (n_sort _ _ H _ _ G) as (c' & G' & S'). destruct (n_sort _ _ K _ _ G') as (c2 & G2 & S2).
    exists c2. auto.
Qed.

(** Steps that create no base. *)
Lemma numbers_same s s' : (st_nextid s <= st_nextid s')%Z -> List.length (heap s) <= List.length (heap s') ->
  (forall x, match get_base (heap s) x, get_base (heap s') x with
             | Some b, Some b' => b_id b' = b_id b | None, None => True | _, _ => False end) ->
  numbers s s'.
Proof.
  intros N L H. constructor; auto.
  - intros x b G. specialize (H x). rewrite G in H. destruct (get_base (heap s') x); [eauto|contradiction].
  - intros x b G. left. specialize (H x). rewrite G in H. unfold is_base. destruct (get_base (heap s) x); [eauto|contradiction].
  - intros x y bx by_ (A & B & _). specialize (H x). rewrite A, B in H. contradiction.
  - intros x c G. apply nth_error_lt in G. destruct (nth_error (heap s') x) as [c'|] eqn:E.
    + exists c'. split; auto. specialize (H x). intros Q. rewrite Q in H. destruct (get_base (heap s') x); [contradiction|auto].
    + apply nth_error_None in E. lia.
Qed.

Lemma numbers_only s s' a b b' : only s s' a -> (st_nextid s <= st_nextid s')%Z ->
  get_base (heap s) a = Some b -> get_base (heap s') a = Some b' -> b_id b' = b_id b -> numbers s s'.
Proof.
  intros [[L F] G] N E E' I. apply numbers_same; auto. intros x. destruct (Nat.eq_dec x a) as [->|D].
  - rewrite E, E'. auto.
  - rewrite G by auto. destruct (get_base (heap s) x); auto.
Qed.

Lemma numbers_write s a c c' : nth_error (heap s) a = Some c ->
  match c, c' with CBase b, CBase b' => b_id b' = b_id b | CBase _, _ | _, CBase _ => False | _, _ => True end ->
  pres_at numbers s (write a c').
Proof.
  intros E H. red. unfold after, write; simpl. apply numbers_same; simpl; [lia|rewrite upd_length; lia|].
  intros x. unfold get_base. destruct (Nat.eq_dec x a) as [->|N].
  - rewrite (nth_error_upd_eq _ _ _ _ E), E. destruct c, c'; auto; contradiction.
  - rewrite nth_error_upd_neq by auto. destruct (nth_error (heap s) x) as [[]|]; auto.
Qed.

Lemma numbers_alloc c s : (forall b, c <> CBase b) -> pres_at numbers s (alloc c).
Proof.
  intros H. red. unfold after, alloc; simpl. apply numbers_same; simpl; [lia|rewrite app_length; lia|].
  intros x. unfold get_base. destruct (Nat.lt_ge_cases x (List.length (heap s))) as [X|X].
  - rewrite nth_error_app1 by auto. destruct (nth_error (heap s) x) as [[]|]; auto.
  - rewrite nth_error_app2 by auto. destruct (nth_error_None (heap s) x) as [_ Q]. rewrite Q by auto.
    destruct (x - List.length (heap s)) as [|[|k]]; simpl; auto. destruct c; auto. exact (H _ eq_refl).
Qed.

Ltac pn := repeat (pa numbers numbers_refl numbers_trans).

Lemma numbers_upd_base a f s : (forall b, b_id (f b) = b_id b) -> pres_at numbers s (upd_base a f).
Proof. intros H. unfold upd_base. pn. apply get_base_nth in E. eapply numbers_write; eauto. simpl. auto. Qed.
Lemma numbers_upd_arr a f s : pres_at numbers s (upd_arr a f).
Proof. unfold upd_arr. pn. apply get_base_nth in E. eapply numbers_write; eauto. simpl. auto. Qed.
Lemma numbers_props_set m k p s : pres_at numbers s (props_set m k p).
Proof. unfold props_set. pn. apply get_props_nth in E. eapply numbers_write; eauto. exact I. Qed.
Lemma numbers_slice_set m i x s : pres_at numbers s (slice_set m i x).
Proof. unfold slice_set. pn. apply get_slice_nth in E. eapply numbers_write; eauto. exact I. Qed.

(** A new base takes the next identifier. *)
Lemma numbers_make_base nm loc s : pres_at numbers s (make_base nm loc).
Proof.
  red. destruct s as [h sh nx]. unfold after, make_base, bind, gen_id, alloc, put_shape, ret. simpl.
  rewrite <- !app_assoc. simpl. set (L := List.length h).
  match goal with |- numbers ?s (St ?H _ _) => set (h' := H) end.
  assert (Q : forall x, x < L -> nth_error h' x = nth_error h x).
  { intros x X. unfold h'. now rewrite nth_error_app1. }
  assert (BB : forall x, x <> 3 + L -> get_base h' x = get_base h x).
  { intros x N. unfold get_base. destruct (Nat.lt_ge_cases x L) as [X|X]; [now rewrite Q|].
    unfold h'. rewrite nth_error_app2 by auto. destruct (nth_error_None h x) as [_ R]. rewrite R by auto.
    fold L. destruct (x - L) as [|[|[|[|k]]]] eqn:K; simpl; auto; [lia|]. destruct k; reflexivity. }
  assert (BN : exists b, get_base h' (3 + L) = Some b /\ b_id b = (nx + 1)%Z).
  { eexists. split; [|]. 
    - unfold get_base, h'. rewrite nth_error_app2 by (unfold L; lia). fold L. replace (3 + L - L) with 3 by lia. reflexivity.
    - reflexivity. }
  destruct BN as (bn & GN & IN).
  constructor; simpl.
  - lia.
  - intros x b G. exists b. split; auto. rewrite BB; auto. apply get_base_lt in G. unfold L. lia.
  - intros x b G. destruct (Nat.eq_dec x (3 + L)) as [->|N].
    + right. split; auto. split; [apply get_base_ge; simpl; unfold L; lia|]. simpl. assert (b = bn) by congruence. subst b. lia.
    + left. rewrite BB in G by auto. exists b. auto.
  - intros x y bx by_ (A & B & _) (C & D & _) _. simpl in *.
    destruct (Nat.eq_dec x (3 + L)) as [->|N]; [|rewrite BB in A by auto; congruence].
    destruct (Nat.eq_dec y (3 + L)) as [->|N]; auto. rewrite BB in C by auto; congruence.
  - intros x c G. exists c. pose proof (nth_error_lt _ _ _ G) as X. rewrite Q by auto. split; auto.
    intros Y. rewrite BB; auto. unfold L. lia.
Qed.

(** * Marking *)

Section MarkIds.
Variable n : nat.
Variable rec : addr -> M (option addr).
Hypothesis Hrec : forall a s, pres_at numbers s (rec a).

Lemma mark_map_ids m s : pres_at numbers s (mark_map n rec m).
Proof.
  unfold mark_map. apply pres_loop_props; [apply numbers_refl|apply numbers_trans|].
  intros k p s'. pn; auto using numbers_props_set.
Qed.
Lemma mark_optmap_ids m s : pres_at numbers s (mark_optmap n rec m).
Proof. destruct m; simpl; pn. apply mark_map_ids. Qed.
Lemma mark_shape_ids a s : pres_at numbers s (mark_shape n rec a).
Proof.
  unfold mark_shape. pn; auto using numbers_upd_arr, mark_optmap_ids.
  apply pres_loop_slice; [apply numbers_refl|apply numbers_trans|].
  intros k p s'. pn; auto using numbers_slice_set.
Qed.
End MarkIds.

Lemma make_recursive_ids a s : pres_at numbers s (make_recursive a).
Proof. unfold make_recursive. pn; auto using numbers_make_base. apply numbers_upd_base. auto. Qed.

Lemma mark_ids n : forall a s, pres_at numbers s (mark n a).
Proof.
  induction n as [|n IH]; intros a s; simpl; pn; auto using make_recursive_ids, mark_shape_ids, mark_map_ids.
  all: apply numbers_upd_base; auto.
Qed.

Lemma mark_all_ids n l : forall s, pres_at numbers s (mark_all n l).
Proof. induction l as [|a l IH]; intros s; simpl; pn; auto using mark_ids. Qed.

(** * Resolution *)

Lemma empty_shape_ids t s : pres_at numbers s (empty_shape t).
Proof. unfold empty_shape. pn. apply numbers_alloc. discriminate. Qed.

Lemma make_concrete_ids a t fs s : pres_at numbers s (make_concrete a t fs).
Proof. unfold make_concrete. pn; auto using empty_shape_ids; apply numbers_upd_base; auto. Qed.

Lemma make_new_ids nm t loc s : pres_at numbers s (make_new nm t loc).
Proof. unfold make_new. pn; auto using numbers_make_base, make_concrete_ids. Qed.

Lemma set_members_ids a sl s : pres_at numbers s (set_members a sl).
Proof. apply numbers_upd_base. intros b. destruct (b_shape b) as [[]|]; auto. Qed.

Section VisitIds.
Variable E : renv.
Variable rec : addr -> M unit.
Hypothesis Hrec : forall a s, pres_at numbers s (rec a).

Lemma visit_ref_ids nm a fs s : pres_at numbers s (visit_ref E rec nm a fs).
Proof.
  unfold visit_ref. pn; auto using make_concrete_ids.
  - match goal with H : get_slice _ _ = Some _ |- _ => apply get_slice_nth in H; eapply numbers_write; eauto; exact I end.
  - apply numbers_upd_base. auto.
Qed.

Lemma visit_ids :
  (forall e a fs s, pres_at numbers s (visit_expr E rec e a fs))
  /\ (forall t a fs s, pres_at numbers s (visit_typ E rec t a fs))
  /\ (forall x a fs s, pres_at numbers s (visit_atom E rec x a fs)).
Proof.
  apply trees_all.
  - intros t V. exact V.
  - intros t1 t2 ts V1 V2 Vs a fs s. simpl.
    pn; auto using make_concrete_ids, make_new_ids, set_members_ids.
    2:{ apply numbers_alloc. discriminate. }
    match goal with |- pres_at numbers ?s1 _ => generalize s1 end. clear - Vs Hrec.
    induction Vs as [|t ts V Vs IH]; intros s; pn; auto using make_new_ids.
  - intros x V. exact V.
  - intros x V a fs s. simpl. pn; auto using make_concrete_ids, make_new_ids, numbers_upd_arr.
  - intros x V a fs s. simpl. pn; auto using make_concrete_ids, make_new_ids, set_members_ids.
    apply numbers_alloc. discriminate.
  - intros p a fs s. simpl. apply make_concrete_ids.
  - intros e V. exact V.
  - intros s0 o a fs s. apply visit_ref_ids.
Qed.

Lemma resolve_each_ids l : forall s, pres_at numbers s (resolve_each rec l).
Proof. induction l as [|a l IH]; intros s; simpl; pn; auto. Qed.
End VisitIds.

Lemma resolve_ids n E : forall a s, pres_at numbers s (resolve n E a).
Proof.
  induction n as [|n IH]; intros a s; simpl; pn; auto using make_concrete_ids, resolve_each_ids.
  apply visit_ids. auto.
Qed.

Lemma resolve_all_ids n E l : forall g s, pres_at numbers s (resolve_all n E l g).
Proof. induction l as [|a l IH]; intros g s; simpl; pn; auto using resolve_ids. Qed.

(** * The statement *)

Lemma numbers_numbered s s' : numbers s s' -> numbered s -> numbered s'.
Proof.
  intros H [U D]. pose proof (n_next _ _ H) as N. split.
  - intros x b G. destruct (n_new _ _ H _ _ G) as [(b1 & G1)|(_ & _ & _ & L)]; auto.
    destruct (n_keep _ _ H _ _ G1) as (b2 & G2 & I2). specialize (U _ _ G1). replace b with b2 by congruence. lia.
  - assert (OLD : forall x b, get_base (heap s') x = Some b -> is_base (heap s) x ->
       exists b1, get_base (heap s) x = Some b1 /\ b_id b1 = b_id b).
    { intros x b G (b1 & G1). destruct (n_keep _ _ H _ _ G1) as (b2 & G2 & I2). exists b1. split; auto. congruence. }
    intros x y bx by_ Gx Gy Q.
    destruct (n_new _ _ H _ _ Gx) as [Ox|Fx]; destruct (n_new _ _ H _ _ Gy) as [Oy|Fy].
    + destruct (OLD _ _ Gx Ox) as (b1 & G1 & I1). destruct (OLD _ _ Gy Oy) as (b2 & G2 & I2). eapply D; eauto. congruence.
    + exfalso. destruct (OLD _ _ Gx Ox) as (b1 & G1 & I1). destruct Fy as (_ & _ & L & _). specialize (U _ _ G1). lia.
    + exfalso. destruct (OLD _ _ Gy Oy) as (b1 & G1 & I1). destruct Fx as (_ & _ & L & _). specialize (U _ _ G1). lia.
    + eapply (n_diff _ _ H); eauto.
Qed.
