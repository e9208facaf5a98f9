(** The walk that marks recursion succeeds only if everything it comes to is
    unwrapped (C80). *)
From Coq Require Import ZArith List String Bool Lia.
From Verif Require Import Base Scalars Heap Spec_Validate Spec_Mark Spec_Schema Heap_lemmas Mark_proofs Mark_values Mark_heads.
Import ListNotations.
Open Scope string_scope.
Open Scope list_scope.
Open Scope nat_scope.

Lemma ends_occurs h a x : (forall y hd, shape_at h y (SRec hd) -> ends h hd) -> ends h a -> occurs h a x -> ends h x.
Proof.
  intros H E. induction 1 as [|x y _ IH V|x hd _ _ S]; [exact E| |exact (H _ _ S)].
  destruct IH as [x b m G F I1 _ I2 _]. destruct V as [x sh c (b' & G' & Sh) Nr Ch|x b' m' k p G' Nr F' J].
  - assert (b' = b) by congruence. subst b'. exact (I2 sh c Sh Nr Ch).
  - assert (b' = b) by congruence. subst b'. rewrite F in F'. injection F' as <-. exact (I1 k p J).
Qed.

Theorem marked_reached n l s s' a x : maps_keyed (heap s) -> (forall y, flag (heap s) y = false) -> (forall y hd, ~ shape_at (heap s) y (SRec hd)) ->
  mark_all n l s = (Ok tt, s') -> In a l -> occurs (heap s') a x -> exists b, get_base (heap s') x = Some b /\ b_unwrapped b = true.
Proof.
  intros K F N E J Oc. destruct (mark_all_good n l s (Ok tt) s' K E) as [(_ & k & R) Ea].
  pose proof (ends_occurs _ _ _ (heads_end n l s s' K F N E) (proj2 (Ea eq_refl F) a J) Oc) as Ex. clear Ea.
  destruct Ex as [x b m G _ _ _ _ U]. exists b. split; [exact G|].
  pose proof R as R'. apply redir_cells in R'. destruct R' as [Rc NL].
  destruct (nth_error (heap s) x) as [c|] eqn:Nx; [|apply get_base_nth in G; exact (proj2 (proj2 (NL _ _ Nx G)))].
  apply U. intros hd Sh. destruct (Rc _ _ Nx) as (c' & Nx' & Rel). apply get_base_nth in G. rewrite G in Nx'. injection Nx' as <-.
  destruct c as [b0| | | |]; try contradiction. destruct Rel as [_ [Rel|(f & i & i' & _ & _ & Rel & _)]]; [|congruence].
  apply (N x hd). exists b0. split; [now apply get_base_nth|congruence].
Qed.
