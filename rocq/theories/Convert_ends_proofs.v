(** Proofs that conversion ends. *)
From Coq Require Import ZArith List String Ascii Bool Lia.
From Verif Require Import Base Scalars Spec_Scalars Heap Heap_lemmas Spec_Validate Schema Convert Spec_Mark Spec_Schema
  Convert_proofs.
From Verif Require Validate_proofs.
Import ListNotations.
Open Scope string_scope.
Open Scope list_scope.
Open Scope nat_scope.

Section Ends.
Variable E : cenv.
Variable a0 : addr.
Let h := c_heap E.
Hypothesis enter : forall x, occurs h a0 x -> enterable (c_json E) h x.
Hypothesis desc : forall x, occurs h a0 x -> Acc (fun c y => visits h y c) x.

Definition names : list string := flat_map (fun c => match c with CBase b => [b_name b] | _ => [] end) h.
Lemma in_names x b : get_base h x = Some b -> In (b_name b) names.
Proof.
  intros G. apply get_base_nth in G. apply nth_error_In in G. apply in_flat_map. exists (CBase b). split; auto. now left.
Qed.

Definition missing (d : omap schema) (n : string) : bool := match oget n d with None => true | Some _ => false end.
Definition undef (d : omap schema) : nat := List.length (filter (missing d) names).
Definition more (d d' : omap schema) : Prop := forall n, oget n d <> None -> oget n d' <> None.

Lemma more_refl d : more d d. Proof. intros n N. exact N. Qed.
Lemma more_trans d1 d2 d3 : more d1 d2 -> more d2 d3 -> more d1 d3.
Proof. intros A B n N. auto. Qed.
Lemma more_set d n s : more d (oset n s d).
Proof. intros m N. rewrite oget_oset. destruct (String.eqb m n); [discriminate|auto]. Qed.

Lemma filter_le {A} (f g : A -> bool) l : (forall x, f x = true -> g x = true) -> List.length (filter f l) <= List.length (filter g l).
Proof.
  intros H. induction l as [|x l IH]; simpl; auto. destruct (f x) eqn:Fx.
  - rewrite (H x Fx). simpl. lia.
  - destruct (g x); simpl; lia.
Qed.
Lemma filter_lt {A} (f g : A -> bool) l y : (forall x, f x = true -> g x = true) -> In y l -> g y = true -> f y = false ->
  List.length (filter f l) < List.length (filter g l).
Proof.
  intros H. induction l as [|x l IH]; simpl; [tauto|]. intros [->|I] G Ff.
  - rewrite G, Ff. simpl. pose proof (filter_le f g l H). lia.
  - specialize (IH I G Ff). destruct (f x) eqn:Fx; [rewrite (H x Fx); simpl; lia|]. destruct (g x); simpl; lia.
Qed.
Lemma undef_more d d' : more d d' -> undef d' <= undef d.
Proof.
  intros M. apply filter_le. intros n. unfold missing. specialize (M n). destruct (oget n d'); [discriminate|].
  destruct (oget n d); auto. exfalso. apply M; [discriminate|auto].
Qed.
Lemma undef_set d n s : In n names -> oget n d = None -> undef (oset n s d) < undef d.
Proof.
  intros I N. apply (filter_lt _ _ _ n); auto.
  - intros m. unfold missing. rewrite oget_oset. destruct (String.eqb m n); [discriminate|auto].
  - unfold missing. now rewrite N.
  - unfold missing. now rewrite oget_oset, String.eqb_refl.
Qed.

(** A computation that no longer depends on the fuel from [N] on. *)
Definition settles {A} (N : nat) (c : nat -> C A) (k : nat) : Prop := forall d, undef d <= k ->
  exists y d', more d d' /\ forall m, N <= m -> c m d = Ok (y, d').

Lemma settles_ret {A} N (y : A) k : settles N (fun _ => cret y) k.
Proof. intros d _. exists y, d. split; [apply more_refl|auto]. Qed.
Lemma settles_bind {A B} N (c : nat -> C A) (f : nat -> A -> C B) k :
  settles N c k -> (forall y, settles N (fun m => f m y) k) -> settles N (fun m => cbind (c m) (f m)) k.
Proof.
  intros Hc Hf d U. destruct (Hc d U) as (y & d1 & M1 & R1). destruct (Hf y d1) as (z & d2 & M2 & R2).
  { pose proof (undef_more _ _ M1). lia. }
  exists z, d2. split; [eapply more_trans; eauto|]. intros m L. unfold cbind. rewrite (R1 m L). now apply R2.
Qed.
Lemma settles_read {A B} N (o : option A) x (f : nat -> A -> C B) k : o = Some x ->
  settles N (fun m => f m x) k -> settles N (fun m => cbind (cread o) (f m)) k.
Proof. intros -> H d U. destruct (H d U) as (y & d1 & M & R). exists y, d1. auto. Qed.
Lemma settles_le {A} N N' (c : nat -> C A) k : N <= N' -> settles N c k -> settles N' c k.
Proof. intros L H d U. destruct (H d U) as (y & d1 & M & R). exists y, d1. split; auto. intros m Lm. apply R. lia. Qed.

Lemma settles_cmap N l k : (forall q p, In (q, p) l -> settles N (fun m => visit m E (p_base p)) k) ->
  settles N (fun m => cmap (fun p => visit m E (p_base p)) l) k.
Proof.
  induction l as [|[q p] l IH]; intros H; [apply settles_ret|]. simpl.
  apply (settles_bind N (fun m => visit m E (p_base p))); [apply (H q); now left|]. intros y.
  apply (settles_bind N (fun m => cmap (fun p => visit m E (p_base p)) l)); [apply IH; intros; eapply H; right; eauto|].
  intros ys. apply settles_ret.
Qed.
Lemma settles_clist N l k : (forall p, In p l -> settles N (fun m => visit m E p) k) ->
  settles N (fun m => clist (visit m E) l) k.
Proof.
  induction l as [|p l IH]; intros H; [apply settles_ret|]. simpl.
  apply (settles_bind N (fun m => visit m E p)); [apply H; now left|]. intros y.
  apply (settles_bind N (fun m => clist (visit m E) l)); [apply IH; intros; eapply H; right; eauto|].
  intros ys. apply settles_ret.
Qed.
Lemma settles_patterns N l k : (forall q p, In (q, p) l -> settles N (fun m => visit m E (p_base p)) k) ->
  (forall q p, In (q, p) l -> 2 <= String.length q) ->
  forall acc, settles N (fun m => visit_patterns (visit m E) l acc) k.
Proof.
  induction l as [|[q p] l IH]; intros H L acc; [apply settles_ret|]. simpl.
  assert (U : unslash q = Some (substring 1 (String.length q - 2) q)).
  { unfold unslash, blen. assert (2 <= String.length q) by (eapply L; left; reflexivity).
    destruct (Z.ltb_spec (Z.of_nat (String.length q)) 2); [lia|reflexivity]. }
  eapply settles_read; [exact U|]. apply (settles_bind N (fun m => visit m E (p_base p))); [apply (H q); now left|].
  intros y. apply IH; intros; [eapply H; right; eauto|eapply L; right; eauto].
Qed.

Lemma common_fuel {A} (l : list A) (P : A -> nat -> Prop) : (forall x n m, n <= m -> P x n -> P x m) ->
  (forall x, In x l -> exists n, P x n) -> exists n, forall x, In x l -> P x n.
Proof.
  intros Mo H. induction l as [|x l IH]; [exists 0; intros x []|].
  destruct IH as (n & Hn); [intros; apply H; now right|]. destruct (H x (or_introl eq_refl)) as (m & Hm).
  exists (n + m). intros y [<-|I]; [eapply Mo; [|exact Hm]; lia|]. eapply Mo; [|exact (Hn y I)]. lia.
Qed.

Definition ends_at (k : nat) (x : addr) : Prop := exists N, settles N (fun m => visit m E x) k.

Lemma ends_props k (l : omap prop) : (forall q p, In (q, p) l -> ends_at k (p_base p)) ->
  exists N, forall q p, In (q, p) l -> settles N (fun m => visit m E (p_base p)) k.
Proof.
  intros H. destruct (common_fuel l (fun kp n => settles n (fun m => visit m E (p_base (snd kp))) k)) as (N & HN).
  - intros x n m L. now apply settles_le.
  - intros [q p] I. exact (H q p I).
  - exists N. intros q p I. exact (HN (q, p) I).
Qed.
Lemma ends_list k l : (forall p, In p l -> ends_at k p) -> exists N, forall p, In p l -> settles N (fun m => visit m E p) k.
Proof. intros H. apply (common_fuel l (fun p n => settles n (fun m => visit m E p) k)); auto. intros x n m L. now apply settles_le. Qed.

Lemma settles_step N x k : settles N (fun m => visit_body E (visit m E) x) k -> settles (S N) (fun m => visit m E x) k.
Proof.
  intros H d U. destruct (H d U) as (y & d' & M & R). exists y, d'. split; auto. intros [|m] L; [lia|]. apply (R m). lia.
Qed.

Lemma wrap_settles N b fd fv k : get_props h (b_fdefs b) = Some fd -> get_facets h (b_facets b) = Some fv ->
  (forall q p, In (q, p) fd -> settles N (fun m => visit m E (p_base p)) k) -> settles N (fun m => wrap_base E (visit m E) b) k.
Proof.
  intros Fd Fv H. unfold wrap_base. eapply settles_read; [exact Fd|].
  apply (settles_bind N (fun m => cmap (fun p => visit m E (p_base p)) fd)); [now apply settles_cmap|]. intros fs.
  eapply settles_read; [exact Fv|]. apply settles_ret.
Qed.

Lemma ends_all k : forall x, occurs h a0 x -> ends_at k x.
Proof.
  induction k as [k IHk] using lt_wf_ind. intros x Oc. pose proof (desc x Oc) as A. induction A as [x _ IH].
  destruct (enter x Oc) as (b & sh & fd & fv & G & Sh & Fd & Fv & Cl & Cv).
  assert (Sx : shape_at h x sh) by (exists b; auto).
  assert (IHv : forall y, visits h x y -> ends_at k y) by (intros y V; apply IH; [exact V|eapply oc_visit; eauto]).
  enough (X : exists N, settles N (fun m => visit_body E (visit m E) x) k) by (destruct X as (N & X); exists (S N); now apply settles_step).
  assert (Rd : forall N (f : nat -> base -> C schema), settles N (fun m => f m b) k -> settles N (fun m => cbind (cread (get_base (c_heap E) x)) (f m)) k).
  { intros N f H. eapply settles_read; [exact G|exact H]. }
  destruct sh as [| |f|f|f|f|e|f| | | |f|f|sl e|raw| |hd];
    try (assert (W : exists N, settles N (fun m => wrap_base E (visit m E) b) k) by
      (destruct (ends_props k fd) as (N & HN); [intros q p I; apply IHv; eapply vi_facet; eauto; rewrite Sh; discriminate|];
       exists N; eapply wrap_settles; eauto); destruct W as (N & W));
    try (exists N; unfold visit_body; apply Rd; rewrite Sh;
         apply (settles_bind N (fun m => wrap_base E (visit m E) b)); [exact W|intros w; apply settles_ret]).
  - (* file *)
    exists N. unfold visit_body. apply Rd. rewrite Sh. apply (settles_bind N (fun m => wrap_base E (visit m E) b)); [exact W|]. intros w.
    destruct Cv as [->|(m0 & l & ->)]; apply settles_ret.
  - (* array *)
    assert (It : exists N2, settles N2 (fun m => match a_items f with None => cret Null | Some i => visit m E i end) k).
    { destruct (a_items f) as [i|] eqn:Ia; [|exists 0; apply settles_ret]. apply IHv. eapply vi_child; [exact Sx|discriminate|now constructor]. }
    destruct It as (N2 & It). exists (N + N2). unfold visit_body. apply Rd. rewrite Sh.
    apply (settles_bind (N + N2) (fun m => wrap_base E (visit m E) b)); [eapply settles_le; [|exact W]; lia|]. intros w.
    apply (settles_bind (N + N2) (fun m => match a_items f with None => cret Null | Some i => visit m E i end)).
    + eapply settles_le; [|exact It]; lia.
    + intros i. apply settles_ret.
  - (* object *)
    destruct Cl as [Cc [(l & L) (pl & PL)]].
    destruct (ends_props k l) as (N1 & H1).
    { intros q p I. apply IHv. eapply vi_child; [exact Sx|discriminate|]. eapply ch_prop; eauto. }
    destruct (ends_props k pl) as (N2 & H2).
    { intros q p I. apply IHv. eapply vi_child; [exact Sx|discriminate|]. eapply ch_pprop; eauto. }
    set (M := N + N1 + N2).
    assert (W' : settles M (fun m => wrap_base E (visit m E) b) k) by (eapply settles_le; [|exact W]; unfold M; lia).
    assert (P1 : settles M (fun m => visit_map E (visit m E) (o_props f)) k).
    { unfold visit_map. destruct (o_props f) as [q|]; [|apply settles_ret]. destruct L as [[? _]|(q' & Eq & Gq)]; [discriminate|].
      injection Eq as <-. eapply settles_read; [exact Gq|]. apply (settles_bind M (fun m => cmap (fun p => visit m E (p_base p)) l)).
      - apply settles_cmap. intros q0 p I. eapply settles_le; [|exact (H1 q0 p I)]. unfold M. lia.
      - intros r. apply settles_ret. }
    assert (P2 : settles M (fun m => match o_props f with None => cret [] | Some m => cbind (cread (get_props (c_heap E) m)) (fun l => cret (required_names l)) end) k).
    { destruct (o_props f) as [q|]; [|apply settles_ret]. destruct L as [[? _]|(q' & Eq & Gq)]; [discriminate|].
      injection Eq as <-. eapply settles_read; [exact Gq|]. apply settles_ret. }
    assert (P3 : settles M (fun m => match o_pprops f with None => cret None | Some q => cbind (cread (get_props (c_heap E) q)) (fun l => cbind (visit_patterns (visit m E) l []) (fun r => cret (Some r))) end) k).
    { destruct (o_pprops f) as [q|] eqn:Op; [|apply settles_ret]. destruct PL as [[? _]|(q' & Eq & Gq)]; [discriminate|].
      injection Eq as <-. eapply settles_read; [exact Gq|]. apply (settles_bind M (fun m => visit_patterns (visit m E) pl [])).
      - apply settles_patterns.
        + intros q0 p I. eapply settles_le; [|exact (H2 q0 p I)]. unfold M. lia.
        + intros q0 p I. simpl in Cv. eapply Cv; [rewrite Op; right; eauto|exact I].
      - intros r. apply settles_ret. }
    exists M. unfold visit_body. apply Rd. rewrite Sh. unfold visit_object.
    apply (settles_bind M (fun m => wrap_base E (visit m E) b)); [exact W'|]. intros w.
    apply (settles_bind M (fun m => visit_map E (visit m E) (o_props f))); [exact P1|]. intros ps.
    apply (settles_bind M _ (fun m req => _) k P2). intros req.
    apply (settles_bind M _ (fun m pps => _) k P3). intros pps. apply settles_ret.
  - (* union *)
    destruct Cl as [Cc (l & L)]. destruct (ends_list k l) as (N1 & H1).
    { intros p I. apply IHv. eapply vi_child; [exact Sx|discriminate|]. eapply ch_member; eauto. }
    exists (N + N1). unfold visit_body. apply Rd. rewrite Sh. unfold visit_union.
    apply (settles_bind (N + N1) (fun m => wrap_base E (visit m E) b)); [eapply settles_le; [|exact W]; lia|]. intros w.
    eapply settles_read; [exact L|]. apply (settles_bind (N + N1) (fun m => clist (visit m E) l)).
    + apply settles_clist. intros p I. eapply settles_le; [|exact (H1 p I)]. lia.
    + intros ms. apply settles_ret.
  - (* json *)
    exists N. unfold visit_body. apply Rd. rewrite Sh. unfold visit_json.
    apply (settles_bind N (fun m => wrap_base E (visit m E) b)); [exact W|]. intros w. simpl in Cv.
    destruct (c_json E raw) as [|kk d1 d2 d3 d4 d5 d6 d7 d8 d9 d10 d11 d12 d13 d14 d15]; [congruence|]. simpl. apply settles_ret.
  - (* unknown *)
    exists 0. unfold visit_body. apply Rd. rewrite Sh. apply settles_ret.
  - (* recursive *)
    destruct (proj1 Cl hd) as (shh & hb & Gh & Shh); [constructor|].
    assert (Och : occurs h a0 hd) by (eapply oc_head; eauto).
    assert (IHh : exists N, forall k', k' < k -> settles N (fun m => visit m E hd) k').
    { destruct k as [|k']; [exists 0; intros; lia|]. destruct (IHk k' ltac:(lia) hd Och) as (N' & H').
      exists N'. intros k2 L d U. apply (H' d). lia. }
    destruct IHh as (N' & H'). exists N'. unfold visit_body. apply Rd. rewrite Sh. unfold visit_recursive.
    eapply settles_read; [exact Gh|]. eapply settles_read; [exact Shh|]. intros d U. unfold defined.
    destruct (oget (b_name hb) d) as [s|] eqn:Dn.
    + exists (leaf (with_ref (def_ref (b_name hb)) kw0)), d. split; [apply more_refl|]. intros m _. unfold cbind at 1. rewrite Dn. reflexivity.
    + pose proof (undef_set d (b_name hb) Null (in_names hd hb Gh) Dn) as Lt.
      destruct (H' (undef (oset (b_name hb) Null d)) ltac:(lia) (oset (b_name hb) Null d) (le_n _)) as (s & d' & M & R).
      exists (leaf (with_ref (def_ref (b_name hb)) kw0)), (oset (b_name hb) s d'). split.
      * eapply more_trans; [apply more_set|]. eapply more_trans; [exact M|apply more_set].
      * intros m L. unfold cbind at 1. rewrite Dn. unfold cbind, define. rewrite (R m L). reflexivity.
Qed.

Theorem convert_ends b : get_base h a0 = Some b -> b_unwrapped b = true -> exists n S0, forall m, n <= m -> convert m true E a0 = Ok S0.
Proof.
  intros G U. destruct (ends_all (List.length names) a0 (oc_refl _ _)) as (N & H).
  destruct (enter a0 (oc_refl _ _)) as (b' & sh & fd & fv & G' & Sh & _). assert (b' = b) by congruence. subst b'.
  destruct (H [(b_name b, Null)]) as (s & d & M & R).
  { unfold undef. generalize names. intros l. induction l as [|x l IHl]; simpl; [lia|]. destruct (missing _ x); simpl; lia. }
  exists N. eexists. intros m L. unfold convert. fold h. rewrite G, Sh, U. simpl negb. cbn iota.
  unfold cbind, define. simpl oset. rewrite (R m L). reflexivity.
Qed.
End Ends.

Theorem convert_ends_marked E a b :
  (forall x, occurs (c_heap E) a x -> enterable (c_json E) (c_heap E) x) ->
  (forall x, occurs (c_heap E) a x -> finite_descent (c_heap E) x) ->
  get_base (c_heap E) a = Some b -> b_unwrapped b = true -> exists n S0, forall m, n <= m -> convert m true E a = Ok S0.
Proof.
  intros En Fd. apply (convert_ends E a En). intros x Oc.
  specialize (Fd x Oc). unfold finite_descent in Fd. clear Oc. induction Fd as [x _ IH]. constructor. intros y V. apply IH.
  destruct V as [x sh c Sh N Ch|x b' m k p G _ Gm I]; [eapply ds_child; eauto|eapply ds_fdef; eauto].
Qed.

Theorem without_wrapper n E a S0 : convert n false E a <> Ok S0.
Proof.
  unfold convert. destruct (get_base (c_heap E) a) as [b|]; [|discriminate]. destruct (b_shape b); [|discriminate].
  destruct (b_unwrapped b); discriminate.
Qed.
