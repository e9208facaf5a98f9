(** Proofs about Shape_hooks.v. *)
From Coq Require Import List String Bool Arith Lia.
From Verif Require Import Base Hooks Spec_Hooks Hooks_proofs Shape_hooks Spec_Shape_hooks.
Import ListNotations.
Open Scope list_scope.
Open Scope nat_scope.

Lemma owner_eqb_eq x y : owner_eqb x y = true <-> x = y.
Proof. destruct x, y; cbn; rewrite ?Nat.eqb_eq; split; try discriminate; congruence. Qed.
Lemma owner_eqb_refl x : owner_eqb x x = true.
Proof. now apply owner_eqb_eq. Qed.

Lemma asked_snoc x l y o : asked_of x (l ++ [(y, o)]) = asked_of x l ++ (if owner_eqb x y then [o] else []).
Proof. unfold asked_of. rewrite filter_app, map_app. cbn. now destruct (owner_eqb x y). Qed.

Lemma nth_set_same {A} (l : list A) : forall i x y, nth_error l i = Some y -> nth_error (set_nth i x l) i = Some x.
Proof. induction l as [|z l IH]; intros [|i] x y H; cbn in *; try discriminate; eauto. Qed.
Lemma nth_set_other {A} (l : list A) : forall i j x, i <> j -> nth_error (set_nth i x l) j = nth_error l j.
Proof. induction l as [|z l IH]; intros [|i] [|j] x N; cbn; auto; congruence. Qed.
Lemma replace_set {A} (l : list A) : forall i x, replace i x l = set_nth i x l.
Proof. induction l as [|z l IH]; intros [|i] x; cbn; auto. Qed.
Lemma nth_snoc {A} (l : list A) x j y : nth_error (l ++ [x]) j = Some y -> nth_error l j = Some y \/ (j = List.length l /\ y = x).
Proof.
  intros H. destruct (Nat.lt_ge_cases j (List.length l)) as [L|L]; [rewrite nth_error_app1 in H; auto|].
  rewrite nth_error_app2 in H by lia. destruct (j - List.length l) as [|k] eqn:E; cbn in H; [|destruct k; discriminate].
  right. split; [lia|congruence].
Qed.
Lemma do_ops_snoc spare st l o : do_ops spare st (l ++ [o]) = do_op spare (do_ops spare st l) o.
Proof. unfold do_ops. now rewrite fold_left_app. Qed.

Section Run.
Variable spare : nat -> nat.
Variable objects : nat.

Definition live (v : view) (x : owner) : Prop :=
  match x with Given r => r < objects | Own i => nth_error (v_owners v) i = Some (Some (Own i)) end.

Record agree (st : tstore) (v : view) (g : owner -> nat) : Prop := {
  ag_given : forall r, g (Given r) = r;
  ag_ptrs : t_ptrs st = map (option_map g) (v_owners v);
  ag_live : forall i x, nth_error (v_owners v) i = Some (Some x) -> live v x;
  ag_inj : forall x y, live v x -> live v y -> g x = g y -> x = y;
  ag_at : forall x, live v x -> nth_error (t_ramls st) (g x) = Some (do_ops spare hooks_init (asked_of x (v_calls v)));
  ag_none : forall i, nth_error (v_owners v) i <> Some (Some (Own i)) -> asked_of (Own i) (v_calls v) = []
}.

Lemma sent st v g x o : agree st v g -> live v x ->
  agree (on_raml spare st (g x) o) (View (v_owners v) (v_calls v ++ [(x, o)])) g.
Proof.
  intros A L. unfold on_raml. rewrite (ag_at _ _ _ A x L). split; cbn [t_ptrs t_ramls v_owners v_calls].
  - exact (ag_given _ _ _ A).
  - exact (ag_ptrs _ _ _ A).
  - exact (ag_live _ _ _ A).
  - exact (ag_inj _ _ _ A).
  - intros y Ly. rewrite asked_snoc. destruct (owner_eqb y x) eqn:E.
    + apply owner_eqb_eq in E. subst y. rewrite do_ops_snoc. eapply nth_set_same. exact (ag_at _ _ _ A x L).
    + rewrite app_nil_r. rewrite nth_set_other; [exact (ag_at _ _ _ A y Ly)|]. intros Q.
      rewrite (ag_inj _ _ _ A x y L Ly Q) in E. rewrite owner_eqb_refl in E. discriminate.
  - intros i Ni. rewrite asked_snoc. destruct (owner_eqb (Own i) x) eqn:E.
    + apply owner_eqb_eq in E. subst x. contradiction.
    + rewrite app_nil_r. exact (ag_none _ _ _ A i Ni).
Qed.

Lemma made st v g i o : agree st v g -> nth_error (v_owners v) i = Some None ->
  exists g', agree (on_raml spare (snd (own_raml st i)) (fst (own_raml st i)) o)
    (View (replace i (Some (Own i)) (v_owners v)) (v_calls v ++ [(Own i, o)])) g'.
Proof.
  intros A N. unfold own_raml. cbn [fst snd].
  set (k := List.length (t_ramls st)). set (g' := fun x => if owner_eqb x (Own i) then k else g x).
  set (v1 := View (replace i (Some (Own i)) (v_owners v)) (v_calls v)).
  set (st1 := Ts (t_ramls st ++ [hooks_init]) (set_nth i (Some k) (t_ptrs st))).
  assert (Lv : forall x, live v1 x -> x <> Own i -> live v x).
  { intros [r|j] L Nj; cbn in *; auto. rewrite replace_set, nth_set_other in L by congruence. exact L. }
  assert (Lt : forall x, live v x -> g x < k).
  { intros x L. apply nth_error_Some. rewrite (ag_at _ _ _ A x L). discriminate. }
  assert (Ln : ~ live v (Own i)) by (cbn; congruence).
  assert (Li : live v1 (Own i)). { cbn. rewrite replace_set. eapply nth_set_same. exact N. }
  assert (A1 : agree st1 v1 g').
  { split.
    - intros r. unfold g'. cbn. exact (ag_given _ _ _ A r).
    - unfold st1, v1. cbn [t_ptrs v_owners]. rewrite (ag_ptrs _ _ _ A).
      assert (E : forall j q, nth_error (v_owners v) j = Some q -> option_map g' q = option_map g q).
      { intros j [x|] Nj; cbn; auto. unfold g'. destruct (owner_eqb x (Own i)) eqn:E; auto. apply owner_eqb_eq in E. subst x.
        exfalso. apply Ln. exact (ag_live _ _ _ A j _ Nj). }
      assert (Gi : g' (Own i) = k) by (unfold g'; now rewrite owner_eqb_refl).
      assert (X : forall (h : owner -> nat) z j (w : list (option owner)), nth_error w j = Some None ->
                (forall j' q, nth_error w j' = Some q -> option_map h q = option_map g q) ->
                set_nth j (Some (h z)) (map (option_map g) w) = map (option_map h) (replace j (Some z) w)).
      { intros h z j w. revert j. induction w as [|c w IH]; intros [|j] Nj E0; cbn in *; try discriminate.
        - f_equal. apply map_ext_in. intros q Iq. destruct (In_nth_error _ _ Iq) as (j' & Q). symmetry. exact (E0 (S j') q Q).
        - f_equal; [symmetry; exact (E0 0 c eq_refl)|]. apply IH; auto. intros j' q Q. exact (E0 (S j') q Q). }
      rewrite <- Gi. apply X; auto.
    - intros j x Nj. unfold v1 in Nj. cbn [v_owners] in Nj. rewrite replace_set in Nj. destruct (Nat.eq_dec i j) as [<-|D].
      + rewrite (nth_set_same _ _ _ _ N) in Nj. injection Nj as <-. exact Li.
      + rewrite nth_set_other in Nj by exact D. pose proof (ag_live _ _ _ A j x Nj) as L. destruct x as [r|m]; cbn in *; auto.
        rewrite replace_set. destruct (Nat.eq_dec i m) as [<-|D']; [congruence|]. now rewrite nth_set_other.
    - intros x y Lx Ly. unfold g'. destruct (owner_eqb x (Own i)) eqn:Ex, (owner_eqb y (Own i)) eqn:Ey.
      + apply owner_eqb_eq in Ex, Ey. congruence.
      + intros Q. exfalso. assert (live v y) by (apply Lv; auto; intros ->; rewrite owner_eqb_refl in Ey; discriminate).
        specialize (Lt y H). lia.
      + intros Q. exfalso. assert (live v x) by (apply Lv; auto; intros ->; rewrite owner_eqb_refl in Ex; discriminate).
        specialize (Lt x H). lia.
      + apply (ag_inj _ _ _ A); apply Lv; auto; intros ->; rewrite owner_eqb_refl in *; discriminate.
    - intros x Lx. unfold g', st1, v1. cbn [t_ramls v_calls]. destruct (owner_eqb x (Own i)) eqn:Ex.
      + apply owner_eqb_eq in Ex. subst x. rewrite (ag_none _ _ _ A i) by congruence.
        unfold k. rewrite nth_error_app2 by lia. now rewrite Nat.sub_diag.
      + assert (L : live v x) by (apply Lv; auto; intros ->; rewrite owner_eqb_refl in Ex; discriminate).
        rewrite nth_error_app1 by exact (Lt x L). exact (ag_at _ _ _ A x L).
    - intros j Nj. unfold v1 in *. cbn [v_owners v_calls] in *. apply (ag_none _ _ _ A). intros Q. apply Nj. rewrite replace_set.
      destruct (Nat.eq_dec i j) as [<-|D]; [congruence|]. now rewrite nth_set_other. }
  exists g'. pose proof (sent st1 v1 g' (Own i) o A1 Li) as S. replace (g' (Own i)) with k in S; [exact S|].
  unfold g'. now rewrite owner_eqb_refl.
Qed.

Lemma ptr_of st v g i : agree st v g -> nth_error (t_ptrs st) i = option_map (option_map g) (nth_error (v_owners v) i).
Proof. intros A. rewrite (ag_ptrs _ _ _ A). apply nth_error_map. Qed.

Lemma event_agree st v g e : agree st v g -> (forall r o, e = OnObject r o -> r < objects) ->
  exists g', agree (do_event spare st e) (view_step v e) g'.
Proof.
  intros A W. destruct e as [i o|r o|i]; cbn [do_event view_step].
  - pose proof (ptr_of st v g i A) as P.
    destruct (nth_error (v_owners v) i) as [[x|]|] eqn:N; cbn [option_map] in P.
    + exists g. replace (on_type spare st i o) with (on_raml spare st (g x) o).
      * apply sent; auto. exact (ag_live _ _ _ A i x N).
      * destruct o; cbn; unfold append_raml_hook, prepend_raml_hook, remove_raml_hook, clear_raml_hooks; rewrite P; reflexivity.
    + destruct (made st v g i o A N) as (g' & A').
      destruct o; cbn [adds on_type]; unfold append_raml_hook, prepend_raml_hook, remove_raml_hook, clear_raml_hooks; rewrite P; eauto.
    + exists g. destruct o; cbn [on_type]; unfold append_raml_hook, prepend_raml_hook, remove_raml_hook, clear_raml_hooks; rewrite P; auto.
  - exists g. pose proof (sent st v g (Given r) o A) as S. rewrite (ag_given _ _ _ A) in S. apply S. exact (W r o eq_refl).
  - exists g. rewrite (ptr_of st v g i A). destruct (nth_error (v_owners v) i) as [q|] eqn:N; cbn [option_map]; [|exact A].
    assert (Up : forall j y, nth_error (v_owners v) j = Some y -> nth_error (v_owners v ++ [q]) j = Some y).
    { intros j y Q. rewrite nth_error_app1; auto. apply nth_error_Some. congruence. }
    assert (Lq : forall x, q = Some x -> live v x) by (intros x ->; exact (ag_live _ _ _ A i x N)).
    assert (Dn : forall x, live (View (v_owners v ++ [q]) (v_calls v)) x -> live v x).
    { intros [r|j] L; cbn in *; auto. destruct (nth_snoc _ _ _ _ L) as [L'|[-> L']]; auto.
      symmetry in L'. specialize (Lq _ L'). exact Lq. }
    split; cbn [t_ptrs t_ramls v_owners v_calls].
    + exact (ag_given _ _ _ A).
    + rewrite map_app, (ag_ptrs _ _ _ A). reflexivity.
    + intros j x Nj. assert (L : live v x).
      { destruct (nth_snoc _ _ _ _ Nj) as [L'|[_ L']]; [exact (ag_live _ _ _ A j x L')|auto]. }
      destruct x; cbn in *; auto.
    + intros x y Lx Ly. apply (ag_inj _ _ _ A); auto.
    + intros x Lx. exact (ag_at _ _ _ A x (Dn x Lx)).
    + intros j Nj. apply (ag_none _ _ _ A). intros Q. apply Nj. auto.
Qed.

Lemma history_agree ptrs l : (forall i r, nth_error ptrs i = Some (Some r) -> r < objects) ->
  (forall r o, In (OnObject r o) l -> r < objects) ->
  exists g, agree (history_of spare objects ptrs l) (view_of ptrs l) g.
Proof.
  intros Hp. induction l as [|e l IH] using rev_ind; intros Hl.
  - exists (fun x => match x with Given r => r | Own _ => 0 end).
    assert (No : forall i x, nth_error (map (option_map Given) ptrs) i = Some (Some x) -> exists r, x = Given r /\ r < objects).
    { intros i x N. rewrite nth_error_map in N. destruct (nth_error ptrs i) as [[r|]|] eqn:E; cbn in N; try discriminate.
      injection N as <-. eauto. }
    split; cbn [history_of view_of fold_left t_ptrs t_ramls v_owners v_calls]; auto.
    + rewrite map_map. erewrite map_ext; [symmetry; apply map_id|]. intros [r|]; reflexivity.
    + intros i x N. destruct (No i x N) as (r & -> & L). exact L.
    + intros [r|i] [r'|i'] Lx Ly Q; cbn in *; try (destruct (No _ _ Lx) as (z & D & _); discriminate); try (destruct (No _ _ Ly) as (z & D & _); discriminate).
      congruence.
    + intros [r|i] Lx; cbn in *; [|destruct (No _ _ Lx) as (z & D & _); discriminate].
      now apply nth_error_repeat.
  - destruct IH as (g & A); [intros r o I; apply (Hl r o); apply in_or_app; now left|].
    unfold history_of, view_of. rewrite !fold_left_app. cbn [fold_left].
    apply (event_agree _ _ g); [exact A|]. intros r o ->. apply (Hl r o). apply in_or_app. right. now left.
Qed.

Theorem types_call B ptrs l i key t e : (forall i r, nth_error ptrs i = Some (Some r) -> r < objects) ->
  (forall r o, In (OnObject r o) l -> r < objects) -> never_removes B ->
  call_raml_hooks spare B (history_of spare objects ptrs l) i key = (t, e) ->
  exists hs, runs B (hooks_for key (view_of ptrs l) i) hs e /\ t = map (fun h => (h, i)) hs.
Proof.
  intros Hp Hl Nr H. destruct (history_agree ptrs l Hp Hl) as (g & A). unfold call_raml_hooks in H. unfold hooks_for.
  rewrite (ptr_of _ _ _ i A) in H. destruct (nth_error (v_owners (view_of ptrs l)) i) as [[x|]|] eqn:N; cbn [option_map] in H.
  - rewrite (ag_at _ _ _ A x (ag_live _ _ _ A i x N)) in H.
    destruct (call_hooks spare B (do_ops spare hooks_init (asked_of x (v_calls (view_of ptrs l)))) key) as [[hs e'] st'] eqn:C.
    injection H as <- <-. exists hs. split; auto. eapply call_runs; eauto.
  - injection H as <- <-. exists []. split; [constructor|reflexivity].
  - injection H as <- <-. exists []. split; [constructor|reflexivity].
Qed.
End Run.
