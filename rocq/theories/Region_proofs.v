(** Proofs that the operations on the type graph stay inside any region that is
    closed under references and contains their arguments and the new cells. *)
From Coq Require Import ZArith List String Bool Lia.
From Verif Require Import Base Scalars Heap Heap_lemmas Spec_Region.
Import ListNotations.
Open Scope string_scope.
Open Scope list_scope.
Open Scope nat_scope.

Section Region.
Variable R : addr -> Prop.
Variable n0 : nat.
Hypothesis New : forall a, n0 <= a -> R a.

Notation opt_in := (opt_in R).
Notation shape_in := (shape_in R).
Notation base_in := (base_in R).
Notation props_in := (props_in R).
Notation cell_in := (cell_in R).

Definition inv (s : st) : Prop := n0 <= List.length (heap s) /\ closed R (heap s).

Definition stays {A} (m : M A) (Q : A -> Prop) : Prop :=
  forall s, inv s -> inv (after m s) /\ untouched R (heap s) (heap (after m s)) /\ forall x s', m s = (Ok x, s') -> Q x.

Lemma stays_ret {A} (x : A) (Q : A -> Prop) : Q x -> stays (ret x) Q.
Proof. intros H s I. split; [exact I|]. split; [intros a _; reflexivity|]. intros y s' E. injection E as <- _. auto. Qed.
Lemma stays_bad {A} (r : res A) (Q : A -> Prop) : (forall x, r = Ok x -> Q x) -> stays (fun s => (r, s)) Q.
Proof. intros H s I. split; [exact I|]. split; [intros a _; reflexivity|]. intros y s' E. injection E as E _. auto. Qed.
Lemma stays_fail {A} (Q : A -> Prop) : stays fail Q.
Proof. apply stays_bad. discriminate. Qed.
Lemma stays_panic {A} (Q : A -> Prop) : stays mpanic Q.
Proof. apply stays_bad. discriminate. Qed.
Lemma stays_diverge {A} (Q : A -> Prop) : stays diverge Q.
Proof. apply stays_bad. discriminate. Qed.
Lemma stays_lift {A} (r : res A) : stays (lift r) (fun x => r = Ok x).
Proof. apply stays_bad. auto. Qed.

Lemma stays_bind {A B} (m : M A) (f : A -> M B) P Q : stays m P -> (forall x, P x -> stays (f x) Q) -> stays (bind m f) Q.
Proof.
  intros H K s I. destruct (H s I) as (I1 & U1 & Q1). unfold after, bind in *.
  destruct (m s) as [[x| | |] s1] eqn:E; simpl in *; try (split; [auto|split; [auto|discriminate]]).
  destruct (K x (Q1 x s1 eq_refl) s1 I1) as (I2 & U2 & Q2). split; auto. split; auto.
  intros a N. eapply eq_trans; [apply (U2 a N)|auto].
Qed.

Lemma stays_mono {A} (m : M A) (P Q : A -> Prop) : stays m P -> (forall x, P x -> Q x) -> stays m Q.
Proof. intros H K s I. destruct (H s I) as (A1 & A2 & A3). split; auto. split; auto. intros x s' E. eauto. Qed.

Lemma stays_try {A} (m : M A) P : stays m P -> stays (try m) (fun o => forall x, o = Some x -> P x).
Proof.
  intros H s I. destruct (H s I) as (A1 & A2 & A3). unfold after, try in *.
  destruct (m s) as [[x| | |] s1] eqn:E; simpl in *; split; auto; split; auto; intros y s' F; inversion F; subst; intros z Z;
    inversion Z; subst; eauto.
Qed.

Lemma stays_rd {A} (get : list cell -> addr -> option A) a (P : A -> Prop) :
  (forall s x, inv s -> get (heap s) a = Some x -> P x) -> stays (rd get a) P.
Proof.
  intros H s I. unfold after, rd. destruct (get (heap s) a) eqn:E; simpl; split; auto; split; try (intros x _; reflexivity);
    intros y s' F; inversion F; subst; eauto.
Qed.
Lemma stays_rd_base a : R a -> stays (rd get_base a) base_in.
Proof. intros Ra. apply stays_rd. intros s b [_ I] E. apply get_base_nth in E. exact (I _ _ Ra E). Qed.
Lemma stays_rd_props a : R a -> stays (rd get_props a) props_in.
Proof. intros Ra. apply stays_rd. intros s b [_ I] E. apply get_props_nth in E. exact (I _ _ Ra E). Qed.
Lemma stays_rd_slice a : R a -> stays (rd get_slice a) (Forall R).
Proof. intros Ra. apply stays_rd. intros s b [_ I] E. apply get_slice_nth in E. exact (I _ _ Ra E). Qed.
Lemma stays_rd_dt a : R a -> stays (rd get_dt a) opt_in.
Proof. intros Ra. apply stays_rd. intros s b [_ I] E. apply get_dt_nth in E. exact (I _ _ Ra E). Qed.
Lemma stays_rd_facets a : stays (rd get_facets a) (fun _ => True).
Proof. apply stays_rd. auto. Qed.

Lemma stays_write a c : R a -> cell_in c -> stays (write a c) (fun _ => True).
Proof.
  intros Ra C s [L I]. unfold after, write; simpl. split; [split|split; auto].
  - simpl. now rewrite upd_length.
  - intros x d Rx E. simpl in E. destruct (Nat.eq_dec a x) as [<-|N].
    + rewrite nth_error_upd_lt in E; [injection E as <-; auto|]. apply nth_error_lt in E. now rewrite upd_length in E.
    + rewrite nth_error_upd_neq in E by auto. eauto.
  - intros x N. simpl. apply nth_error_upd_neq. congruence.
Qed.

Lemma stays_alloc c : cell_in c -> stays (alloc c) R.
Proof.
  intros C s [L I]. unfold after, alloc; simpl. split; [split|split].
  - simpl. rewrite app_length. lia.
  - intros x d Rx E. simpl in E. destruct (Nat.eq_dec x (List.length (heap s))) as [->|N].
    + rewrite nth_error_snoc in E. injection E as <-. auto.
    + rewrite nth_error_snoc_old in E by auto. eauto.
  - intros x N. simpl. apply nth_error_app1. destruct (Nat.lt_ge_cases x (List.length (heap s))); auto. destruct N. apply New. lia.
  - intros x s' E. injection E as <- _. now apply New.
Qed.

Lemma stays_gen_id : stays gen_id (fun _ => True).
Proof. intros s I. split; [exact I|]. split; [intros a _; reflexivity|auto]. Qed.
Lemma stays_put_shape a : stays (put_shape a) (fun _ => True).
Proof. intros s I. split; [exact I|]. split; [intros x _; reflexivity|auto]. Qed.

Lemma stays_true {A} (m : M A) P : stays m P -> stays m (fun _ => True).
Proof. intros H. eapply stays_mono; eauto. Qed.

Lemma stays_loop_props n m (body : string -> prop -> M unit) : R m ->
  (forall k p, R (p_base p) -> stays (body k p) (fun _ => True)) -> forall i, stays (loop_props n m i body) (fun _ => True).
Proof.
  intros Rm B. induction n as [|n IH]; intros i; simpl; [apply stays_diverge|].
  eapply stays_bind; [apply stays_rd_props; auto|]. intros l Pl. destruct (nth_error l i) as [[k p]|] eqn:E; [|apply stays_ret; auto].
  eapply stays_bind; [apply B|auto]. red in Pl. rewrite Forall_forall in Pl. apply nth_error_In in E. exact (Pl _ E).
Qed.
Lemma stays_loop_slice n m (body : nat -> addr -> M unit) : R m ->
  (forall k a, R a -> stays (body k a) (fun _ => True)) -> forall i, stays (loop_slice n m i body) (fun _ => True).
Proof.
  intros Rm B. induction n as [|n IH]; intros i; simpl; [apply stays_diverge|].
  eapply stays_bind; [apply stays_rd_slice; auto|]. intros l Pl. destruct (nth_error l i) as [a|] eqn:E; [|apply stays_ret; auto].
  eapply stays_bind; [apply B|auto]. rewrite Forall_forall in Pl. apply nth_error_In in E. auto.
Qed.

Lemma oset_in k p l : props_in l -> R (p_base p) -> props_in (oset k p l).
Proof.
  unfold Spec_Region.props_in. induction l as [|[k' p'] l IH]; simpl; intros H Rp; [constructor; auto|].
  inversion H; subst. destruct (String.eqb k k'); constructor; auto.
Qed.
Lemma upd_in i x l : Forall R l -> R x -> Forall R (upd i x l).
Proof. revert i; induction l as [|y l IH]; intros [|i] H Rx; simpl; auto; inversion H; subst; constructor; auto. Qed.

Lemma stays_props_set m k p : R m -> R (p_base p) -> stays (props_set m k p) (fun _ => True).
Proof.
  intros Rm Rp. unfold props_set. eapply stays_bind; [apply stays_rd_props; auto|]. intros l Pl.
  apply stays_write; auto. now apply oset_in.
Qed.
Lemma stays_slice_set m i x : R m -> R x -> stays (slice_set m i x) (fun _ => True).
Proof.
  intros Rm Rx. unfold slice_set. eapply stays_bind; [apply stays_rd_slice; auto|]. intros l Pl.
  destruct (nth_error l i); [|apply stays_panic]. apply stays_write; auto. now apply upd_in.
Qed.
Lemma stays_upd_base a f : R a -> (forall b, base_in b -> base_in (f b)) -> stays (upd_base a f) (fun _ => True).
Proof.
  intros Ra F. unfold upd_base. eapply stays_bind; [apply stays_rd_base; auto|]. intros b B. apply stays_write; auto. exact (F b B).
Qed.
Lemma base_in_shape b sh : base_in b -> shape_in sh -> base_in (set_shape (Some sh) b).
Proof. intros (A & B & C & D & E & F) H. repeat split; auto. intros x X. injection X as <-. auto. Qed.
Lemma stays_upd_arr a f : R a -> (forall x, opt_in (a_items x) -> opt_in (a_items (f x))) -> stays (upd_arr a f) (fun _ => True).
Proof.
  intros Ra F. unfold upd_arr. eapply stays_bind; [apply stays_rd_base; auto|]. intros b B.
  destruct (b_shape b) as [[]|] eqn:E; try (apply stays_ret; exact I). apply stays_write; auto. apply base_in_shape; auto.
  apply F. destruct B as (_&_&_&_&_&B). exact (B _ E).
Qed.
Definition obj_in (f : obj_facets) : Prop := opt_in (o_props f) /\ opt_in (o_pprops f).
Lemma stays_upd_obj a f : R a -> (forall x, obj_in x -> obj_in (f x)) -> stays (upd_obj a f) (fun _ => True).
Proof.
  intros Ra F. unfold upd_obj. eapply stays_bind; [apply stays_rd_base; auto|]. intros b B.
  destruct (b_shape b) as [[]|] eqn:E; try (apply stays_ret; exact I). apply stays_write; auto. apply base_in_shape; auto.
  apply F. destruct B as (_&_&_&_&_&B). exact (B _ E).
Qed.
Lemma stays_cur_arr a o : R a -> opt_in (a_items o) -> stays (cur_arr a o) (fun x => opt_in (a_items x)).
Proof.
  intros Ra O. unfold cur_arr. eapply stays_bind; [apply stays_rd_base; auto|]. intros b (_&_&_&_&_&B). apply stays_ret.
  destruct (b_shape b) as [[]|]; auto. exact (B _ eq_refl).
Qed.
Lemma stays_cur_obj a o : R a -> obj_in o -> stays (cur_obj a o) obj_in.
Proof.
  intros Ra O. unfold cur_obj. eapply stays_bind; [apply stays_rd_base; auto|]. intros b (_&_&_&_&_&B). apply stays_ret.
  destruct (b_shape b) as [[]|]; auto. exact (B _ eq_refl).
Qed.

(** * Clone *)

Definition cm_in (cm : cmap) : Prop := Forall (fun ka => R (snd ka)) cm.
Lemma cm_get_in k cm a : cm_in cm -> cm_get k cm = Some a -> R a.
Proof.
  induction cm as [|[k' a'] cm IH]; simpl; [discriminate|]. intros H. inversion H; subst. destruct (Z.eqb k k'); auto.
  intros E. injection E as <-. auto.
Qed.

Section CloneStays.
Variable rec : cmap -> addr -> M (addr * cmap).
Hypothesis Hrec : forall cm a, cm_in cm -> R a -> stays (rec cm a) (fun r => R (fst r) /\ cm_in (snd r)).

Lemma stays_clone_list l : forall cm, cm_in cm -> Forall R l -> stays (clone_list rec cm l) (fun r => Forall R (fst r) /\ cm_in (snd r)).
Proof.
  induction l as [|a l IH]; intros cm C F; simpl; [apply stays_ret; auto|]. inversion F; subst.
  eapply stays_bind; [apply Hrec; auto|]. intros r [R1 R2]. eapply stays_bind; [apply IH; auto|]. intros r' [R3 R4].
  apply stays_ret. simpl. auto.
Qed.
Lemma stays_clone_props l : forall cm, cm_in cm -> props_in l -> stays (clone_props rec cm l) (fun r => props_in (fst r) /\ cm_in (snd r)).
Proof.
  induction l as [|[k p] l IH]; intros cm C F; simpl; [apply stays_ret; split; auto; constructor|]. inversion F; subst.
  eapply stays_bind; [apply Hrec; auto|]. intros r [R1 R2]. eapply stays_bind; [apply IH; auto|]. intros r' [R3 R4].
  apply stays_ret. simpl. split; auto. constructor; auto.
Qed.
Lemma stays_clone_opt cm o : cm_in cm -> opt_in o -> stays (clone_opt rec cm o) (fun r => opt_in (fst r) /\ cm_in (snd r)).
Proof.
  intros C O. destruct o as [a|]; simpl; [|apply stays_ret; split; auto].
  eapply stays_bind; [apply Hrec; auto; apply O; reflexivity|]. intros r [R1 R2]. apply stays_ret. split; auto.
  intros x X. injection X as <-. auto.
Qed.
Lemma stays_clone_optprops cm o : cm_in cm -> opt_in o -> stays (clone_optprops rec cm o) (fun r => opt_in (fst r) /\ cm_in (snd r)).
Proof.
  intros C O. destruct o as [a|]; simpl; [|apply stays_ret; split; auto].
  eapply stays_bind; [apply stays_rd_props, O; reflexivity|]. intros l Pl.
  eapply stays_bind; [apply stays_clone_props; auto|]. intros r [R1 R2].
  eapply stays_bind; [apply stays_alloc; exact R1|]. intros m Rm. apply stays_ret. split; auto.
  intros x X. injection X as <-. auto.
Qed.
Lemma stays_clone_shape cm sh : cm_in cm -> shape_in sh -> stays (clone_shape rec cm sh) (fun r => shape_in (fst r) /\ cm_in (snd r)).
Proof.
  intros C O. destruct sh; simpl in *; try (apply stays_ret; split; auto; exact I).
  - eapply stays_bind; [apply stays_clone_opt; auto|]. intros r [R1 R2]. apply stays_ret. split; auto.
  - destruct O as [O1 O2]. eapply stays_bind; [apply stays_clone_optprops; auto|]. intros r [R1 R2].
    eapply stays_bind; [apply stays_clone_optprops; auto|]. intros r' [R3 R4]. apply stays_ret. split; auto. split; auto.
  - eapply stays_bind; [apply stays_rd_slice; auto|]. intros l Pl. eapply stays_bind; [apply stays_clone_list; auto|].
    intros r [R1 R2]. eapply stays_bind; [apply stays_alloc; exact R1|]. intros m Rm. apply stays_ret. split; auto.
Qed.
End CloneStays.

Lemma stays_clone n : forall cm a, cm_in cm -> R a -> stays (clone n cm a) (fun r => R (fst r) /\ cm_in (snd r)).
Proof.
  induction n as [|n IH]; intros cm a C Ra; simpl; [apply stays_diverge|].
  eapply stays_bind; [apply stays_rd_base; auto|]. intros b B.
  destruct (cm_get (b_id b) cm) as [a'|] eqn:E; [apply stays_ret; split; auto; eapply cm_get_in; eauto|].
  eapply stays_bind; [apply stays_alloc; exact B|]. intros c Rc. cbv zeta.
  assert (C1 : cm_in ((b_id b, c) :: cm)) by (constructor; auto).
  destruct B as (B1 & B2 & B3 & B4 & B5 & B6).
  eapply stays_bind; [apply stays_rd_facets|]. intros fm _.
  eapply stays_bind; [apply stays_rd_props; auto|]. intros fd Pf.
  eapply stays_bind; [apply stays_clone_props; auto|]. intros rd_ [D1 D2].
  eapply stays_bind; [apply stays_clone_opt; auto|]. intros ra [A1 A2].
  eapply stays_bind; [apply stays_rd_slice; auto|]. intros inh Pi.
  eapply stays_bind; [apply stays_clone_list; auto|]. intros ri [I1 I2].
  eapply stays_bind with (P := fun r => opt_in (fst r) /\ cm_in (snd r)).
  { destruct (b_link b) as [l|]; [|apply stays_ret; split; auto; discriminate].
    eapply stays_bind; [apply stays_rd_dt, B5; reflexivity|]. intros d Pd. destruct d as [ds|]; [|apply stays_panic].
    eapply stays_bind; [apply IH; auto|]. intros r [R1 R2].
    eapply stays_bind; [apply stays_alloc; intros x X; injection X as <-; auto|]. intros l' Rl. apply stays_ret. split; auto.
    intros x X. injection X as <-. auto. }
  intros rl [L1 L2]. destruct (b_shape b) as [sh|] eqn:Q; [|apply stays_panic].
  eapply stays_bind; [apply stays_clone_shape; auto|]. intros rs [S1 S2].
  eapply stays_bind; [apply stays_alloc; exact I|]. intros fm' Rfm.
  eapply stays_bind; [apply stays_alloc; exact D1|]. intros fd' Rfd.
  eapply stays_bind; [apply stays_alloc; exact I1|]. intros inh' Rinh.
  eapply stays_bind; [apply stays_write; auto|].
  { repeat split; simpl; auto. intros x X. injection X as <-. auto. }
  intros _ _. apply stays_ret. simpl. auto.
Qed.

Lemma stays_clone_detached n a : R a -> stays (clone_detached n a) R.
Proof.
  intros Ra. unfold clone_detached. eapply stays_bind; [apply stays_clone; auto; constructor|]. intros r [R1 R2]. now apply stays_ret.
Qed.

(** * Alias *)

Lemma stays_alias_to t x : R t -> R x -> stays (alias_to t x) R.
Proof.
  intros Rt Rx. unfold alias_to. eapply stays_bind; [apply stays_rd_base; auto|]. intros b B.
  eapply stays_bind; [apply stays_rd_base; auto|]. intros sb SB.
  destruct (b_shape b) as [tsh|] eqn:E; [|apply stays_panic]. destruct (b_shape sb) as [ssh|] eqn:E'; [|apply stays_panic].
  destruct (alias_shape tsh ssh) as [sh| | |] eqn:A; try apply stays_fail.
  eapply stays_bind; [apply stays_write; auto|intros _ _; now apply stays_ret].
  destruct B as (B1 & B2 & B3 & B4 & B5 & B6), SB as (C1 & C2 & C3 & C4 & C5 & C6). repeat split; simpl; auto.
  intros y Y. injection Y as <-. specialize (C6 _ E'). destruct tsh, ssh; simpl in A; try discriminate A; injection A as <-; auto.
Qed.

(** * Inherit *)

Section InheritStays.
Variable n : nat.
Variable rec : addr -> addr -> M addr.
Hypothesis Hrec : forall a b, R a -> R b -> stays (rec a b) R.

Lemma stays_inherit_array t src tf sf : R t -> R src -> opt_in (a_items tf) -> opt_in (a_items sf) ->
  stays (inherit_array rec t src tf sf) (fun _ => True).
Proof.
  intros Rt Rs It Is. unfold inherit_array.
  eapply stays_bind with (P := fun _ => True).
  { destruct (a_items tf) as [ti|]; [destruct (a_items sf) as [si|]|].
    - eapply stays_bind; [apply Hrec; auto|]. intros _ _. now apply stays_ret.
    - now apply stays_ret.
    - apply stays_upd_arr; auto. }
  intros _ _. eapply stays_bind; [apply stays_cur_arr; auto|]. intros tf' _. eapply stays_bind; [apply stays_cur_arr; auto|]. intros sf' _.
  eapply stays_bind; [apply stays_lift|]. intros mn _. eapply stays_bind; [apply stays_lift|]. intros mx _.
  eapply stays_bind; [apply stays_lift|]. intros un _. apply stays_upd_arr; auto.
Qed.

Lemma stays_inherit_map tm sm : R tm -> R sm -> stays (inherit_map n rec tm sm) (fun _ => True).
Proof.
  intros Rt Rs. unfold inherit_map. apply stays_loop_props; auto. intros k p Rp.
  eapply stays_bind; [apply stays_rd_props; auto|]. intros tl Pl. destruct (oget k tl) as [tp|] eqn:O.
  - destruct (p_req p && negb (p_req tp)); [apply stays_fail|].
    eapply stays_bind; [apply Hrec; auto|intros _ _; now apply stays_ret].
    clear - Pl O. induction tl as [|[k' p'] tl IH]; simpl in O; [discriminate|]. inversion Pl; subst.
    destruct (String.eqb k k'); [injection O as <-; auto|auto].
  - apply stays_props_set; auto.
Qed.

Lemma stays_inherit_object t src tf sf : R t -> R src -> obj_in tf -> obj_in sf ->
  stays (inherit_object n rec t src tf sf) (fun _ => True).
Proof.
  intros Rt Rs It Is. unfold inherit_object.
  eapply stays_bind; [apply stays_lift|]. intros mn _. eapply stays_bind; [apply stays_lift|]. intros mx _.
  eapply stays_bind; [apply stays_upd_obj; auto|]. intros _ _.
  eapply stays_bind with (P := fun _ => True).
  { unfold inherit_props. destruct It as [It _], Is as [Is _]. destruct (o_props tf) as [tm|]; [destruct (o_props sf) as [sm|]|].
    - apply stays_inherit_map; auto.
    - now apply stays_ret.
    - apply stays_upd_obj; auto. intros x [X Y]. split; auto. }
  intros _ _. eapply stays_bind; [apply stays_cur_obj; auto|]. intros tf' [_ Jt].
  eapply stays_bind; [apply stays_cur_obj; auto|]. intros sf' [_ Js].
  unfold inherit_pprops. destruct (o_pprops tf') as [tm|]; [destruct (o_pprops sf') as [sm|]|].
  - apply stays_inherit_map; auto.
  - now apply stays_ret.
  - apply stays_upd_obj; auto. intros x [X Y]. split; auto.
Qed.

Lemma stays_union_inner sm ty tl : R sm -> Forall R tl -> stays (union_inner n rec sm ty tl) (Forall R).
Proof.
  intros Rs F. induction tl as [|tm tl IH]; simpl; [apply stays_ret; constructor|]. inversion F; subst.
  eapply stays_bind; [apply stays_rd_base; auto|]. intros tb _.
  eapply stays_bind with (P := fun o => forall x, o = Some x -> R x).
  { destruct (String.eqb ty (b_type tb)); [|apply stays_ret; discriminate].
    eapply stays_bind; [apply stays_clone_detached; auto|]. intros cs Rc.
    eapply stays_bind; [apply stays_gen_id|]. intros i _. eapply stays_bind; [apply stays_upd_base; auto|]. intros _ _.
    apply stays_try. auto. }
  intros r Rr. eapply stays_bind; [apply IH; auto|]. intros r' Rr'. apply stays_ret. destruct r; auto.
Qed.
Lemma stays_union_outer tsl sl : R tsl -> Forall R sl -> stays (union_outer n rec tsl sl) (Forall R).
Proof.
  intros Rt F. induction sl as [|sm sl IH]; simpl; [apply stays_ret; constructor|]. inversion F; subst.
  eapply stays_bind; [apply stays_rd_base; auto|]. intros sb _. eapply stays_bind; [apply stays_rd_slice; auto|]. intros tl Pl.
  eapply stays_bind; [apply stays_union_inner; auto|]. intros f Pf. destruct f as [|x f]; [apply stays_fail|].
  eapply stays_bind; [apply IH; auto|]. intros f' Pf'. apply stays_ret. apply Forall_app. auto.
Qed.
Lemma stays_inherit_union t tsl e ssl : R t -> R tsl -> R ssl -> stays (inherit_union n rec t tsl e ssl) (fun _ => True).
Proof.
  intros Rt R1 R2. unfold inherit_union. eapply stays_bind; [apply stays_rd_slice; auto|]. intros tl _. destruct tl.
  - apply stays_upd_base; auto. intros b B. now apply base_in_shape.
  - eapply stays_bind; [apply stays_rd_slice; auto|]. intros sl Ps. eapply stays_bind; [apply stays_union_outer; auto|].
    intros f Pf. eapply stays_bind; [apply stays_alloc; exact Pf|]. intros m Rm.
    apply stays_upd_base; auto. intros b B. now apply base_in_shape.
Qed.

Lemma inherit_scalar_in a b sh : inherit_scalar a b = Some (Ok sh) -> shape_in sh.
Proof.
  destruct a, b; simpl; intros H; try discriminate H; try (injection H as <-; exact I);
    try (match type of H with context [rbind ?x _] => destruct x; simpl in H; inversion H; subst; exact I end).
  match type of H with Some (if ?x then _ else _) = _ => destruct x; inversion H; subst; exact I end.
Qed.

Lemma stays_inherit_shape t src a b : R t -> R src -> shape_in a -> shape_in b ->
  stays (inherit_shape n rec t src a b) (fun _ => True).
Proof.
  intros Rt Rs A B.
  assert (SC : stays (match inherit_scalar a b with
      | Some r => bind (lift r) (fun sh => upd_base t (set_shape (Some sh))) | None => fail end) (fun _ => True)).
  { destruct (inherit_scalar a b) as [r|] eqn:E; [|apply stays_fail].
    eapply stays_bind; [apply stays_lift|]. intros sh ->. apply stays_upd_base; auto. intros x X. apply base_in_shape; auto.
    eapply inherit_scalar_in; eauto. }
  unfold inherit_shape. destruct a; try exact SC; destruct b; try exact SC.
  - apply stays_inherit_array; auto.
  - apply stays_inherit_object; auto.
  - eapply stays_bind; [apply stays_rd_base; auto|]. intros hb (_&_&_&_&_&HB).
    destruct (b_shape hb) as [[]|]; try apply stays_fail; try apply stays_panic.
    apply stays_inherit_object; auto. exact (HB _ eq_refl).
  - apply stays_inherit_union; auto.
Qed.

Lemma stays_union_source s0 l : R s0 -> Forall R l -> stays (union_source n rec s0 l) (fun o => forall x, o = Some x -> Forall R x).
Proof.
  intros R0 F. induction l as [|m l IH]; simpl; [apply stays_ret; intros x X; injection X as <-; auto|]. inversion F; subst.
  eapply stays_bind; [apply stays_rd_base; auto|]. intros mb _.
  assert (ST : stays (bind (rd get_base s0) (fun sb =>
     bind (if String.eqb (b_type mb) (b_type sb) then
             bind (clone_detached n s0) (fun tc => bind gen_id (fun i => bind (upd_base tc (set_id i)) (fun _ => try (rec tc m))))
           else ret None) (fun r => bind (union_source n rec s0 l) (fun r' =>
       ret (match r, r' with Some x, Some l => Some (x :: l) | None, Some l => Some l | _, None => None end)))))
     (fun o => forall x, o = Some x -> Forall R x)).
  { eapply stays_bind; [apply stays_rd_base; auto|]. intros sb _.
    eapply stays_bind with (P := fun o => forall x, o = Some x -> R x).
    { destruct (String.eqb (b_type mb) (b_type sb)); [|apply stays_ret; discriminate].
      eapply stays_bind; [apply stays_clone_detached; auto|]. intros cs Rc.
      eapply stays_bind; [apply stays_gen_id|]. intros i _. eapply stays_bind; [apply stays_upd_base; auto|]. intros _ _.
      apply stays_try. auto. }
    intros r Rr. eapply stays_bind; [apply IH; auto|]. intros r' Rr'. apply stays_ret.
    intros x X. destruct r as [y|], r' as [l'|]; try discriminate X; injection X as <-; auto. }
  destruct (b_shape mb) as [[]|]; try exact ST. apply stays_ret. discriminate.
Qed.
Lemma stays_inherit_union_source s0 ssl : R s0 -> R ssl -> stays (inherit_union_source n rec s0 ssl) R.
Proof.
  intros R0 Rs. unfold inherit_union_source. eapply stays_bind; [apply stays_rd_slice; auto|]. intros ms Pm.
  eapply stays_bind; [apply stays_union_source; auto|]. intros r Pr. destruct r as [[|x [|y l]]|]; try apply stays_fail; try (apply stays_ret; auto).
  - specialize (Pr _ eq_refl). now inversion Pr.
  - eapply stays_bind; [apply stays_alloc; exact (Pr _ eq_refl)|]. intros m Rm.
    eapply stays_bind; [apply stays_upd_base; auto|intros _ _; now apply stays_ret].
    intros b B. apply base_in_shape; auto.
Qed.
Lemma stays_union_target k s0 tsl : R s0 -> R tsl -> forall i g, stays (union_target rec k s0 tsl i g) (fun _ => True).
Proof.
  intros R0 Rt. induction k as [|k IH]; intros i g; simpl; [apply stays_diverge|].
  eapply stays_bind; [apply stays_rd_slice; auto|]. intros l Pl. destruct (nth_error l i) as [a|] eqn:E; [|now apply stays_ret].
  eapply stays_bind; [apply stays_try, Hrec; auto|intros r _; apply IH]. rewrite Forall_forall in Pl. apply nth_error_In in E. auto.
Qed.

Lemma stays_inherit_body s0 src : R s0 -> R src -> stays (inherit_body n rec s0 src) R.
Proof.
  intros R0 Rs. unfold inherit_body. eapply stays_bind; [apply stays_rd_base; auto|]. intros sb (S1&S2&S3&S4&S5&S6).
  destruct (b_visited sb); [now apply stays_ret|].
  eapply stays_bind; [apply stays_upd_base; auto|]. intros _ _.
  eapply stays_bind; [apply stays_rd_base; auto|]. intros tb (T1&T2&T3&T4&T5&T6).
  eapply stays_bind with (P := fun _ => True).
  { destruct (b_desc tb); [now apply stays_ret|]. apply stays_upd_base; auto. }
  intros _ _. eapply stays_bind; [apply stays_rd_facets|]. intros tfm _. eapply stays_bind; [apply stays_rd_facets|]. intros sfm _.
  eapply stays_bind; [apply stays_write; auto; exact I|]. intros _ _.
  assert (GEN : forall a b, shape_in a -> shape_in b -> stays (bind (inherit_shape n rec s0 src a b) (fun _ =>
        bind (upd_base src (set_visited false)) (fun _ => ret s0))) R).
  { intros a b A B. eapply stays_bind; [apply stays_inherit_shape; auto|]. intros _ _.
    eapply stays_bind; [apply stays_upd_base; auto|intros _ _; now apply stays_ret]. }
  assert (TGT : forall ta, R ta -> stays (bind (union_target rec n s0 ta 0 true) (fun good : bool => if good then ret s0 else fail)) R).
  { intros ta Rt. eapply stays_bind; [apply stays_union_target; auto|]. intros [] _; [now apply stays_ret|apply stays_fail]. }
  destruct (b_shape tb) as [tsh|] eqn:Qt; destruct (b_shape sb) as [ssh|] eqn:Qs.
  - specialize (T6 _ eq_refl). specialize (S6 _ eq_refl).
    destruct tsh; destruct ssh; try (apply stays_ret; assumption); try (apply GEN; assumption);
      try (apply stays_inherit_union_source; assumption); apply TGT; assumption.
  - destruct tsh; apply stays_panic.
  - specialize (S6 _ eq_refl). destruct ssh; try apply stays_panic; try (apply stays_ret; assumption).
    apply stays_inherit_union_source; assumption.
  - apply stays_panic.
Qed.
End InheritStays.

Lemma stays_inherit n : forall a b, R a -> R b -> stays (inherit n a b) R.
Proof. induction n as [|n IH]; intros a b Ra Rb; simpl; [apply stays_diverge|now apply stays_inherit_body]. Qed.

(** * Unwrap *)

Section UnwrapStays.
Variable n : nat.
Variable rec : addr -> M addr.
Hypothesis Hrec : forall a, R a -> stays (rec a) R.

Lemma stays_unwrap_map m : R m -> stays (unwrap_map n rec m) (fun _ => True).
Proof.
  intros Rm. unfold unwrap_map. apply stays_loop_props; auto. intros k p Rp. eapply stays_bind; [apply Hrec; auto|].
  intros us Ru. apply stays_props_set; auto.
Qed.
Lemma stays_unwrap_optmap o : opt_in o -> stays (unwrap_optmap n rec o) (fun _ => True).
Proof. intros O. destruct o; simpl; [apply stays_unwrap_map; auto|now apply stays_ret]. Qed.

Lemma stays_unwrap_target a : R a -> stays (unwrap_target n rec a) (fun _ => True).
Proof.
  intros Ra. unfold unwrap_target. eapply stays_bind; [apply stays_rd_base; auto|]. intros b (_&_&_&_&_&B).
  destruct (b_shape b) as [[]|]; try (now apply stays_ret); specialize (B _ eq_refl); simpl in B.
  - destruct (a_items f) as [i|]; [|now apply stays_ret]. eapply stays_bind; [apply Hrec; auto|]. intros us Ru.
    apply stays_upd_arr; auto. intros x _ y Y. injection Y as <-. auto.
  - destruct B as [B1 B2]. eapply stays_bind; [apply stays_unwrap_optmap; auto|]. intros _ _.
    eapply stays_bind; [apply stays_rd_base; auto|]. intros b' (_&_&_&_&_&B').
    destruct (b_shape b') as [[]|]; try (now apply stays_ret). apply stays_unwrap_optmap. exact (proj2 (B' _ eq_refl)).
  - apply stays_loop_slice; auto. intros i item Ri. eapply stays_bind; [apply Hrec; auto|]. intros us Ru.
    eapply stays_bind; [apply stays_rd_base; auto|]. intros b' (_&_&_&_&_&B').
    destruct (b_shape b') as [[]|]; try (now apply stays_ret). apply stays_slice_set; auto. exact (B' _ eq_refl).
Qed.

Variable inh : addr -> addr -> M addr.
Hypothesis Hinh : forall a b, R a -> R b -> stays (inh a b) R.

Lemma stays_more_parents k sl ss : R sl -> R ss -> forall i, stays (unwrap_more_parents rec k inh sl ss i) (fun _ => True).
Proof.
  intros Rsl Rss. induction k as [|k IH]; intros i; simpl; [apply stays_diverge|].
  eapply stays_bind; [apply stays_rd_slice; auto|]. intros l Pl. destruct (nth_error l i) as [p|] eqn:E; [|now apply stays_ret].
  rewrite Forall_forall in Pl. apply nth_error_In in E.
  eapply stays_bind; [apply Hrec; auto|]. intros us Ru. eapply stays_bind; [apply Hinh; auto|]. intros us' Ru'.
  eapply stays_bind; [apply stays_slice_set; auto|auto].
Qed.

Lemma stays_unwrap_parents a : R a -> stays (unwrap_parents n rec inh a) opt_in.
Proof.
  intros Ra. unfold unwrap_parents. eapply stays_bind; [apply stays_rd_base; auto|]. intros b (B1&_&_&_&B5&_).
  destruct (b_link b) as [l|].
  - eapply stays_bind; [apply stays_rd_dt, B5; reflexivity|]. intros d Pd. destruct d as [ds|]; [|apply stays_panic].
    eapply stays_bind; [apply Hrec; auto|]. intros us Ru.
    eapply stays_bind; [apply stays_upd_base; auto|].
    { intros x (X1&X2&X3&X4&X5&X6). repeat split; auto. discriminate. }
    intros _ _. apply stays_ret. intros x X. injection X as <-. auto.
  - eapply stays_bind; [apply stays_rd_slice; auto|]. intros inhs Pi. destruct inhs as [|p0 rest]; [apply stays_ret; discriminate|].
    inversion Pi; subst. eapply stays_bind; [apply Hrec; auto|]. intros ss Rss.
    eapply stays_bind; [apply stays_slice_set; auto|]. intros _ _.
    eapply stays_bind; [apply stays_more_parents; auto|]. intros _ _. apply stays_ret. intros x X. injection X as <-. auto.
Qed.

Lemma stays_unwrap_fdefs a : R a -> stays (unwrap_fdefs n rec a) (fun _ => True).
Proof.
  intros Ra. unfold unwrap_fdefs. eapply stays_bind; [apply stays_rd_base; auto|]. intros b (_&_&B3&_).
  apply stays_loop_props; auto. intros k p Rp. eapply stays_bind; [apply Hrec; auto|]. intros us Ru.
  eapply stays_bind; [apply stays_alloc; constructor|]. intros e Re.
  eapply stays_bind; [apply stays_upd_base; auto|].
  { intros x (X1&X2&X3&X4&X5&X6). repeat split; auto. }
  intros _ _. eapply stays_bind; [apply stays_rd_base; auto|]. intros b' (_&_&B3'&_). apply stays_props_set; auto.
Qed.
End UnwrapStays.

Lemma stays_unwrap n : forall a, R a -> stays (unwrap n a) R.
Proof.
  induction n as [|n IH]; intros a Ra; simpl; [apply stays_diverge|].
  eapply stays_bind; [apply stays_rd_base; auto|]. intros b (B1&B2&B3&B4&B5&B6).
  destruct (b_shape b); [|apply stays_fail]. destruct (b_unwrapped b); [now apply stays_ret|].
  eapply stays_bind; [apply stays_upd_base; auto|]. intros _ _. destruct (b_alias b) as [al|].
  - eapply stays_bind; [apply IH; auto|]. intros us Ru. eapply stays_bind; [apply stays_put_shape|]. intros _ _. apply stays_alias_to; auto.
  - eapply stays_bind; [apply stays_unwrap_parents; auto using stays_inherit|]. intros src Ps.
    eapply stays_bind; [apply stays_unwrap_target; auto|]. intros _ _.
    eapply stays_bind; [apply stays_unwrap_fdefs; auto|]. intros _ _.
    eapply stays_bind with (P := R).
    { destruct src as [s1|]; [apply stays_inherit; auto|now apply stays_ret]. }
    intros a' Ra'. eapply stays_bind; [apply stays_put_shape|]. intros _ _. now apply stays_ret.
Qed.

(** * Marking *)

Lemma stays_make_base nm loc : stays (make_base nm loc) R.
Proof.
  unfold make_base. eapply stays_bind; [apply stays_gen_id|]. intros i _.
  eapply stays_bind; [apply stays_alloc; exact I|]. intros fm Rfm.
  eapply stays_bind; [apply stays_alloc; constructor|]. intros fd Rfd.
  eapply stays_bind; [apply stays_alloc; constructor|]. intros ih Rih.
  eapply stays_bind; [apply stays_alloc|].
  { repeat split; simpl; auto; discriminate. }
  intros a Ra. eapply stays_bind; [apply stays_put_shape|]. intros _ _. now apply stays_ret.
Qed.

Lemma stays_make_recursive h : R h -> stays (make_recursive h) R.
Proof.
  intros Rh. unfold make_recursive. eapply stays_bind; [apply stays_rd_base; auto|]. intros hb (H1&H2&_).
  eapply stays_bind; [apply stays_make_base|]. intros a Ra. eapply stays_bind; [apply stays_upd_base; auto|intros _ _; now apply stays_ret].
  intros b (B1&B2&B3&B4&B5&B6). repeat split; simpl; auto. intros x X. injection X as <-. exact Rh.
Qed.

Section MarkStays.
Variable n : nat.
Variable rec : addr -> M (option addr).
Hypothesis Hrec : forall a, R a -> stays (rec a) opt_in.

Lemma stays_mark_map m : R m -> stays (mark_map n rec m) (fun _ => True).
Proof.
  intros Rm. unfold mark_map. apply stays_loop_props; auto. intros k p Rp. eapply stays_bind; [apply Hrec; auto|].
  intros r Pr. destruct r as [x|]; [apply stays_props_set; auto; apply Pr; reflexivity|now apply stays_ret].
Qed.
Lemma stays_mark_optmap o : opt_in o -> stays (mark_optmap n rec o) (fun _ => True).
Proof. intros O. destruct o; simpl; [apply stays_mark_map; auto|now apply stays_ret]. Qed.
Lemma stays_mark_shape a : R a -> stays (mark_shape n rec a) (fun _ => True).
Proof.
  intros Ra. unfold mark_shape. eapply stays_bind; [apply stays_rd_base; auto|]. intros b (_&_&_&_&_&B).
  destruct (b_shape b) as [[]|]; try (now apply stays_ret); specialize (B _ eq_refl); simpl in B.
  - destruct (a_items f) as [i|]; [|now apply stays_ret]. eapply stays_bind; [apply Hrec; auto|]. intros r Pr.
    destruct r as [x|]; [|now apply stays_ret]. apply stays_upd_arr; auto.
  - destruct B as [B1 B2]. eapply stays_bind; [apply stays_mark_optmap; auto|]. intros _ _. now apply stays_mark_optmap.
  - apply stays_loop_slice; auto. intros i item Ri. eapply stays_bind; [apply Hrec; auto|]. intros r Pr.
    destruct r as [x|]; [|now apply stays_ret]. apply stays_slice_set; auto.
Qed.
End MarkStays.

Lemma stays_mark n : forall a, R a -> stays (mark n a) opt_in.
Proof.
  induction n as [|n IH]; intros a Ra; simpl; [apply stays_diverge|].
  eapply stays_bind; [apply stays_rd_base; auto|]. intros b _. destruct (negb (b_unwrapped b)); [apply stays_fail|].
  destruct (b_visited b).
  - eapply stays_bind; [apply stays_make_recursive; auto|]. intros r Rr. apply stays_ret. intros x X. injection X as <-. auto.
  - eapply stays_bind; [apply stays_upd_base; auto|]. intros _ _. eapply stays_bind; [apply stays_mark_shape; auto|]. intros _ _.
    eapply stays_bind; [apply stays_upd_base; auto|]. intros _ _.
    eapply stays_bind; [apply stays_rd_base; auto|]. intros b' (_&_&B3&_).
    eapply stays_bind; [apply stays_mark_map; auto|]. intros _ _. apply stays_ret. discriminate.
Qed.
End Region.
